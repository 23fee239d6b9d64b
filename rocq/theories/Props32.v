(** * Props32: C98: the solver, and what the code does with its numbers *)
From Coq Require Import ZArith Floats.SpecFloat.
From mathcomp Require Import all_ssreflect all_algebra.
From Verif Require Import Np NpLemmas Kf Binary64 Exact Lu Param Zeros Ekf.

Set Implicit Arguments.
Unset Strict Implicit.
Unset Printing Implicit Defensive.
Import GRing.Theory Num.Theory Order.TTheory.
Local Open Scope ring_scope.

Section C98.
Variable F : realFieldType.
Variable n2i : Z.

(** The operations of F, with NaN. *)
Definition nan_ops : ops :=
  @Ops (option F) (Some 0) (olift2 (fun x y => x + y)) (olift2 (fun x y => x - y)) (olift2 (fun x y => x * y))
       (olift2 (fun x y => x / y)) (omap (fun x => `|x|))
       (fun x y => if x is Some x' then if y is Some y' then x' < y' else false else false)
       (fun x => x == Some 0).

(** The library as it runs in binary64 -- products summed left to right, equations
    solved by elimination with partial pivoting -- on these numbers. *)
Definition library : num :=
  @Num (option F) (fun z => Some (ofZ F z)) None (fun x => ~~ isSome x)
       (olift2 (fun x y => x + y)) (olift2 (fun x y => x - y)) (@g_mm nan_ops) (@g_solve nan_ops) n2i.

Notation ideal := (exact (@g_solve nan_ops) n2i).

Lemma fold_opt (t : nat -> option F) s x :
  foldl (fun acc l => olift2 (fun x y => x + y) acc (t l)) x s =
  if isSome x && all (fun l => isSome (t l)) s then Some (odflt 0 x + \sum_(l <- s) odflt 0 (t l)) else None.
Proof.
elim: s x => [|l s IH] x /=; first by case: x => [x|] //=; rewrite big_nil addr0.
rewrite IH big_cons; case: x => [x|] //=; case: (t l) => [y|] //=.
by case: ifP => // _; rewrite addrA.
Qed.

Lemma library_product kd m k n a b i j : size a = (m * k)%N -> size b = (k * n)%N -> (i < m)%N -> (j < n)%N ->
  g_mm (S := nan_ops) kd m k n a b i j = ex_mm kd m k n a b i j.
Proof.
move=> Ha Hb Hi Hj; rewrite /g_mm /ex_mm.
have Ea l : (l < k)%N -> nth (Some 0) a (i * k + l) = nth None a (i * k + l).
  move=> Hl; apply: set_nth_default; rewrite Ha (@leq_trans (i * k + k)) ?ltn_add2l //.
  by rewrite addnC -mulSn leq_mul2r Hi orbT.
have Eb l : (l < k)%N -> nth (Some 0) b (l * n + j) = nth None b (l * n + j).
  move=> Hl; apply: set_nth_default; rewrite Hb (@leq_trans (l * n + n)) ?ltn_add2l //.
  by rewrite addnC -mulSn leq_mul2r Hl orbT.
case: k Ha Hb Ea Eb => [|k] Ha Hb Ea Eb; first by rewrite /= big_ord0.
pose t l := olift2 (fun x y : F => x * y) (nth (Some 0) a (i * k.+1 + l)) (nth (Some 0) b (l * n + j)).
rewrite -[foldl _ _ _]/(foldl (fun acc l => olift2 (fun x y => x + y) acc (t l)) (t 0%N) (iota 1 k)) (fold_opt t).
have Et l : (l < k.+1)%N -> t l = olift2 (fun x y => x * y) (nth None a (i * k.+1 + l)) (nth None b (l * n + j)).
  by move=> Hl; rewrite /t Ea // Eb.
have Eb1 : isSome (t 0%N) && all (fun l => isSome (t l)) (iota 1 k) =
    all (fun l => isSome (nth None a (i * k.+1 + l)) && isSome (nth None b (l * n + j))) (iota 0 k.+1).
  rewrite -[LHS]/(all (fun l => isSome (t l)) (iota 0 k.+1)); apply: eq_in_all => l.
  by rewrite mem_iota add0n => /andP [_ Hl]; rewrite Et //; case: (nth None a _) => [x|]; case: (nth None b _).
rewrite Eb1; case: ifP => // /allP Hall; congr Some.
have -> : odflt 0 (t 0%N) + \sum_(l <- iota 1 k) odflt 0 (t l) = \sum_(l <- iota 0 k.+1) odflt 0 (t l).
  by rewrite big_cons.
rewrite -[iota 0 k.+1]/(index_iota 0 k.+1) big_mkord; apply: eq_bigr => l _.
have := Hall l; rewrite mem_iota Et //= => /(_ (ltn_ord l)).
by case: (nth None a _) => [x|]; case: (nth None b _).
Qed.

Lemma all_some (s : seq (option F)) : all isSome s -> s = map Some (map (odflt 0) s).
Proof. by elim: s => [|[x|] s IH] //= Hs; rewrite -IH. Qed.

Lemma library_solver n r a b : size a = (n * n)%N -> size b = (n * r)%N ->
  match g_solve (S := nan_ops) n r a b, ksolve (n := ideal) n r a b with
  | Some g, Some g' => forall i j, (i < n)%N -> (j < r)%N -> g i j = g' i j
  | None, None => True
  | _, _ => False end.
Proof.
move=> Ha Hb /=; rewrite /ex_solve; case: ifP => [/andP [/all_some Sa /all_some Sb]|_]; last by case: (g_solve _ _ _ _).
set a' := map (odflt 0) a; set b' := map (odflt 0) b.
have Ha' : size a' = (n * n)%N by rewrite size_map.
have Hb' : size b' = (n * r)%N by rewrite size_map.
have := @hom_solve (field_ops F) nan_ops Some erefl (fun _ _ => erefl) (fun _ _ => erefl)
  (fun _ _ => erefl) (fun _ => erefl) (fun _ _ => erefl) (fun _ => erefl) n r a' b'.
rewrite -Sa -Sb; have := lu_correct Ha' Hb'.
have EA : mA_ n a' = mx_of n n a.
  apply/matrixP => i j; rewrite !mxE /a' (nth_map None) //.
  rewrite Ha (@leq_trans (i * n + n)) ?ltn_add2l // addnC -mulSn leq_mul2r; apply/orP; right; exact: ltn_ord.
case: (g_solve (S := field_ops F) _ _ _ _) => [g|]; case: (g_solve (S := nan_ops) _ _ _ _) => [h|] //=.
  move=> [HA Hg] Hh; rewrite -EA HA => i j Hi Hj; rewrite Hh (Hg (Ordinal Hi) (Ordinal Hj)) mxE; congr Some.
  rewrite insubT; apply: eq_bigr => l _; rewrite !mxE /b' (nth_map None) //.
  rewrite Hb (@leq_trans (l * r + r)) ?ltn_add2l // addnC -mulSn leq_mul2r; apply/orP; right; exact: ltn_ord.
by move=> HA _; rewrite -EA (negbTE HA).
Qed.

Theorem library_agrees : agree (N1 := library) (N2 := ideal) eq.
Proof.
split=> //.
- by move=> x y ->.
- by move=> x y _ _ <- <-.
- by move=> x y _ _ <- <-.
- move=> kd m k n a b a' b' i j Ha Hb [Sa Ea] [Sb Eb] Hi Hj /=.
  have <- : a = a' by apply: (@eq_from_nth _ None).
  have <- : b = b' by apply: (@eq_from_nth _ None).
  exact: library_product.
- move=> n r a b a' b' Ha Hb [Sa Ea] [Sb Eb].
  have <- : a = a' by apply: (@eq_from_nth _ None).
  have <- : b = b' by apply: (@eq_from_nth _ None).
  exact: library_solver.
Qed.
End C98.

(** ** Solving the equations

    The elimination that solves A X = B: it gives the solution when there is exactly
    one, whatever A is, and refuses every other A. *)
Theorem C98_elimination (F : realFieldType) n r (A : 'M[F]_n) (B : 'M[F]_(n, r)) (a b : seq F) :
  size a = (n * n)%N -> size b = (n * r)%N ->
  (forall (i j : 'I_n), nth 0 a (i * n + j) = A i j) -> (forall (i : 'I_n) (j : 'I_r), nth 0 b (i * r + j) = B i j) ->
  match g_solve (S := field_ops F) n r a b with
  | Some g => [/\ A \in unitmx, A *m (\matrix_(i, j) g i j) = B & forall X, A *m X = B -> X = \matrix_(i, j) g i j]
  | None => A \notin unitmx
  end.
Proof.
move=> Ha Hb HA HB; have := lu_correct Ha Hb.
have -> : mA_ n a = A by apply/matrixP => i j; rewrite mxE HA.
have -> : mB_ n r b = B by apply/matrixP => i j; rewrite mxE HB.
case: (g_solve _ _ _ _) => [g|] // [HU Hg].
have Eg : \matrix_(i, j) g i j = invmx A *m B by apply/matrixP => i j; rewrite mxE Hg.
by rewrite Eg mulmxA mulmxV // mul1mx; split=> // X <-; rewrite mulmxA mulVmx // mul1mx.
Qed.

(** In binary64 the library runs this same program, on doubles. *)
Theorem C98_same_program : ksolve (n := binary64) = @g_solve double_ops /\ kmm (n := binary64) = @g_mm double_ops.
Proof. by []. Qed.

(** ** Exact numbers give the exact answers

    The same program on the elements of an ordered field: any object, any history of
    calls, answers as the textbook instance -- the one of the other theorems -- does. *)
Section Exactly.
Variables (F : realFieldType) (n2i : Z).
Notation lib := (library F n2i).
Notation ideal := (exact (@g_solve (nan_ops F)) n2i).
(** Same dtype, same shape, same elements. *)
Notation same := (rel_arr (N1 := lib) (N2 := ideal) (@eq (option F))).
Notation sames := (rel_seq same).
Notation same_pair := (fun p q => same p.1 q.1 /\ same p.2 q.2).

Theorem C98_exact_numbers A x B P H Q R sz cs A' x' B' P' H' Q' R' cs' :
  same A A' -> same x x' -> rel_opt same B B' -> same P P' -> same H H' -> same Q Q' -> same R R' ->
  rel_seq (rel_call (N1 := lib) (N2 := ideal) eq) cs cs' ->
  match kf_init A x B P H Q R sz, kf_init A' x' B' P' H' Q' R' sz with
  | Ok o, Ok o' =>
    rel_seq (rel_res same_pair) (kf_calls o cs).2 (kf_calls o' cs').2 /\
    sames (kf_gains (kf_calls o cs).1) (kf_gains (kf_calls o' cs').1)
  | Raise e, Raise e' => e = e'
  | _, _ => False
  end.
Proof.
move=> HA Hx HB HP HH HQ HR Hcs; have Ag := library_agrees F n2i.
have := rel_init Ag sz HA Hx HB HP HH HQ HR; case: (kf_init _ _ _ _ _ _ _ _) => [o|e]; case: (kf_init _ _ _ _ _ _ _ _) => [o'|e'] //=.
by move=> Ho; have [[_ _ _ _ Hg] Hr] := rel_kf_calls Ag Ho Hcs.
Qed.

(** The same for an extended filter, when its callables give the same arrays. *)
Theorem C98_exact_numbers_extended x P Q R f h jA jH cs x' P' Q' R' f' h' jA' jH' cs' :
  same x x' -> same P P' -> same Q Q' -> same R R' ->
  (forall y y' u u', same y y' -> rel_opt same u u' -> rel_res same (f y u) (f' y' u') /\ rel_res same (jA y u) (jA' y' u')) ->
  (forall y y', same y y' -> rel_res same (h y) (h' y') /\ rel_res same (jH y) (jH' y')) ->
  rel_seq (rel_ecall (N1 := lib) (N2 := ideal) eq) cs cs' ->
  match ekf_init x P Q R f h jA jH, ekf_init x' P' Q' R' f' h' jA' jH' with
  | Ok o, Ok o' =>
    rel_seq (rel_res same_pair) (e_calls o cs).2 (e_calls o' cs').2 /\
    sames (e_gains (e_calls o cs).1) (e_gains (e_calls o' cs').1)
  | Raise e, Raise e' => e = e'
  | _, _ => False
  end.
Proof.
move=> Hx HP HQ HR Hf Hh Hcs; have Ag := library_agrees F n2i.
have := @rel_einit lib ideal eq Ag _ _ _ _ f h jA jH _ _ _ _ f' h' jA' jH' Hx HP HQ HR
  (fun y u y' u' Hy Hu => proj1 (Hf y y' u u' Hy Hu)) (fun y y' Hy => proj1 (Hh y y' Hy))
  (fun y u y' u' Hy Hu => proj2 (Hf y y' u u' Hy Hu)) (fun y y' Hy => proj2 (Hh y y' Hy)).
case: (ekf_init _ _ _ _ _ _ _ _) => [o|e]; case: (ekf_init _ _ _ _ _ _ _ _) => [o'|e'] //=.
by move=> Ho; have [[_ _ _ _ Hg] Hr] := rel_e_calls Ag Ho Hcs.
Qed.
End Exactly.

(** ** The sign of a zero

    C99: in binary64, on any platform z, inputs that differ at most in the sign of
    zeros give the same exceptions and answers that differ at most in the sign of
    zeros: for any object and any history of calls. *)
Section C99.
Variable z : Z.
Notation N := (doubles z).
Notation alike := (rel_arr (N1 := N) (N2 := N) zsame).
Notation alike_pair := (fun p q => alike p.1 q.1 /\ alike p.2 q.2).

Theorem C99_zero_signs A x B P H Q R sz cs A' x' B' P' H' Q' R' cs' :
  alike A A' -> alike x x' -> rel_opt alike B B' -> alike P P' -> alike H H' -> alike Q Q' -> alike R R' ->
  rel_seq (rel_call (N1 := N) (N2 := N) zsame) cs cs' ->
  match kf_init A x B P H Q R sz, kf_init A' x' B' P' H' Q' R' sz with
  | Ok o, Ok o' =>
    rel_seq (rel_res alike_pair) (kf_calls o cs).2 (kf_calls o' cs').2 /\
    rel_seq alike (kf_gains (kf_calls o cs).1) (kf_gains (kf_calls o' cs').1)
  | Raise e, Raise e' => e = e'
  | _, _ => False
  end.
Proof.
move=> HA Hx HB HP HH HQ HR Hcs; have Ag := zeros_agree z.
have := rel_init Ag sz HA Hx HB HP HH HQ HR; case: (kf_init _ _ _ _ _ _ _ _) => [o|e]; case: (kf_init _ _ _ _ _ _ _ _) => [o'|e'] //=.
by move=> Ho; have [[_ _ _ _ Hg] Hr] := rel_kf_calls Ag Ho Hcs.
Qed.

Theorem C99_zero_signs_extended x P Q R f h jA jH cs x' P' Q' R' f' h' jA' jH' cs' :
  alike x x' -> alike P P' -> alike Q Q' -> alike R R' ->
  (forall y y' u u', alike y y' -> rel_opt alike u u' -> rel_res alike (f y u) (f' y' u') /\ rel_res alike (jA y u) (jA' y' u')) ->
  (forall y y', alike y y' -> rel_res alike (h y) (h' y') /\ rel_res alike (jH y) (jH' y')) ->
  rel_seq (rel_ecall (N1 := N) (N2 := N) zsame) cs cs' ->
  match ekf_init x P Q R f h jA jH, ekf_init x' P' Q' R' f' h' jA' jH' with
  | Ok o, Ok o' =>
    rel_seq (rel_res alike_pair) (e_calls o cs).2 (e_calls o' cs').2 /\
    rel_seq alike (e_gains (e_calls o cs).1) (e_gains (e_calls o' cs').1)
  | Raise e, Raise e' => e = e'
  | _, _ => False
  end.
Proof.
move=> Hx HP HQ HR Hf Hh Hcs; have Ag := zeros_agree z.
have := @rel_einit N N zsame Ag _ _ _ _ f h jA jH _ _ _ _ f' h' jA' jH' Hx HP HQ HR
  (fun y u y' u' Hy Hu => proj1 (Hf y y' u u' Hy Hu)) (fun y y' Hy => proj1 (Hh y y' Hy))
  (fun y u y' u' Hy Hu => proj2 (Hf y y' u u' Hy Hu)) (fun y y' Hy => proj2 (Hh y y' Hy)).
case: (ekf_init _ _ _ _ _ _ _ _) => [o|e]; case: (ekf_init _ _ _ _ _ _ _ _) => [o'|e'] //=.
by move=> Ho; have [[_ _ _ _ Hg] Hr] := rel_e_calls Ag Ho Hcs.
Qed.
End C99.

(** ** Cases *)

(** Elimination has to exchange rows here; and a singular system is refused. *)
Example C98_elimination_case :
  (if g_solve (S := field_ops rat_realFieldType) 2 1 [:: 0; 2%:R; 4%:R; 1] [:: 6%:R; 11%:R] is Some g
   then (g 0%N 0%N == 2%:R) && (g 1%N 0%N == 3%:R) else false) /\
  (if g_solve (S := field_ops rat_realFieldType) 2 1 [:: 1; 2%:R; 2%:R; 4%:R] [:: 6%:R; 11%:R] is Some _ then false else true).
Proof. by split; vm_compute. Qed.

(** Every array of the one instance is the same as one of the other. *)
Example C98_numbers_case (F : realFieldType) n2i (a : arr (library F n2i)) :
  exists a' : arr (exact (@g_solve (nan_ops F)) n2i), rel_arr (N1 := library F n2i) (N2 := exact (@g_solve (nan_ops F)) n2i) eq a a'.
Proof.
pose c (v : scal (library F n2i)) : scal (exact (@g_solve (nan_ops F)) n2i) :=
  match v with VI z => VI (N := exact (@g_solve (nan_ops F)) n2i) z | VF x => VF (N := exact (@g_solve (nan_ops F)) n2i) x end.
exists (@Arr (exact (@g_solve (nan_ops F)) n2i) (dt a) (shp a) (map c (dat a))).
split=> //=; first by rewrite size_map.
elim: (dat a) => [|v s IH] [|i] //=; first exact: RelI; first exact: RelI.
by case: v => [z|x]; [exact: RelI|exact: RelF].
Qed.

(** x = -0.0 instead of 0.0: the predicted state is -0.0 instead of 0.0. *)
Notation N0 := (doubles (Z.opp (Z.pow 2 63))).
Definition one_by_one (x : f64) : arr N0 := Arr DFloat [:: 1%N; 1%N] [:: VF (N := N0) x].
Definition of_one (x : f64) : arr N0 := Arr DFloat [:: 1%N] [:: VF (N := N0) x].
(** The signs of the zeros of an array; None for other elements. *)
Definition zero_signs (a : arr N0) : seq (option bool) :=
  [seq (fun v : scal N0 => if v is VF x then if (x : f64) is S754_zero s then Some s else None else None) v | v <- dat a].
Definition predicted (s : bool) : option (seq (option bool)) :=
  let one := one_by_one (fofZ 1) in
  if kf_init one (of_one (S754_zero s)) None one one one one None is Ok o then
    if (kf_call o (CPredict one (of_one (S754_zero s)) (Some one) (Some (of_one S754_nan)) one one)).2 is Ok xP then Some (zero_signs xP.1) else None
  else None.
Example C99_case :
  [/\ rel_arr (N1 := N0) (N2 := N0) zsame (of_one (S754_zero true)) (of_one (S754_zero false)),
      predicted true = Some [:: Some true] & predicted false = Some [:: Some false]].
Proof.
split; [by split=> //= -[|[|i]] /=; [apply: RelF; constructor|exact: RelI|exact: RelI]|vm_compute; exact: erefl|vm_compute; exact: erefl].
Qed.
