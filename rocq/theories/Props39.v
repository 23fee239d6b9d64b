(** * Props39: C108: if no exponent gets out of range, a power of two as unit
    changes exponents only *)
From Coq Require Import ZArith Reals Floats.SpecFloat Lia Lra.
From Flocq Require Import Core.Core.
From mathcomp Require Import ssreflect ssrfun ssrbool eqtype ssrnat seq.
From Verif Require Import Np NpLemmas Kf Ekf Binary64 Lu Param Zeros Graded GradedOps Ieee Round64 Wide WideThms.

Set Implicit Arguments.
Unset Strict Implicit.
Unset Printing Implicit Defensive.

Section C108.
Variable z : Z.
(** Numbers of 53 bits with exponents of any size, on any platform z. *)
Notation N := (wide z).
Notation arr := (arr N).

(** w is v times 2^g; NaN is NaN.  An integer can only be kept, or be zero. *)
Definition scaled_scal (g : Z) (v w : scal N) : Prop :=
  match v, w with
  | VI n, VI n' => n' = n /\ (g <> 0%Z -> n = 0%Z)
  | VF x, VF y =>
    match (x : option R), (y : option R) with
    | Some a, Some b => b = Rmult a (bpow radix2 g)
    | None, None => True
    | _, _ => False
    end
  | _, _ => False
  end.

(** An array with every number multiplied by 2^g. *)
Definition scaled (g : Z) (a a' : arr) : Prop :=
  [/\ dt a = dt a', shp a = shp a', size (dat a) = size (dat a') &
      forall i, scaled_scal g (nth (VI 0) (dat a) i) (nth (VI 0) (dat a') i)].
Definition scaled_opt (g : Z) (a a' : option arr) : Prop :=
  match a, a' with Some x, Some y => scaled g x y | None, None => True | _, _ => False end.
Definition scaled_seq (g : Z) (l l' : seq arr) : Prop :=
  size l = size l' /\ forall i, i < size l -> scaled g (nth (np_zeros N [::]) l i) (nth (np_zeros N [::]) l' i).

(** Same exception, or states and covariances in the new units. *)
Definition scaled_res (g : Z) (r r' : res (arr * arr)) : Prop :=
  match r, r' with
  | Ok p, Ok p' => scaled g p.1 p'.1 /\ scaled (g + g) p.2 p'.2
  | Raise e, Raise e' => e = e'
  | _, _ => False
  end.

(** The units: 2^a times the numbers for the states, 2^b times for the
    observations, 2^c times for the inputs.  Then covariances of the states are
    2^(2a) times theirs, those of the observations 2^(2b) times; H maps states to
    observations, B inputs to states, the gains observations to states. *)
Variables a b c : Z.

Inductive scaled_call : call N -> call N -> Prop :=
| TPredict A x B u P Q A' x' B' u' P' Q' : scaled 0 A A' -> scaled a x x' -> scaled_opt (a - c) B B' ->
    scaled_opt c u u' -> scaled (a + a) P P' -> scaled (a + a) Q Q' ->
    scaled_call (CPredict A x B u P Q) (CPredict A' x' B' u' P' Q')
| TUpdate H x P o R H' x' P' o' R' : scaled (b - a) H H' -> scaled a x x' -> scaled (a + a) P P' -> scaled b o o' ->
    scaled (b + b) R R' -> scaled_call (CUpdate H x P o R) (CUpdate H' x' P' o' R')
| TFilter Z U Z' U' : scaled b Z Z' -> scaled_opt c U U' -> (U = None -> dt Z = DFloat \/ c = 0%Z) ->
    scaled_call (CFilter Z U) (CFilter Z' U')
| TSmooth Z U Z' U' : scaled b Z Z' -> scaled_opt c U U' -> (U = None -> dt Z = DFloat \/ c = 0%Z) ->
    scaled_call (CSmooth Z U) (CSmooth Z' U').

Inductive scaled_ecall : ecall N -> ecall N -> Prop :=
| TEPredict x u P Q x' u' P' Q' : scaled a x x' -> scaled_opt c u u' -> scaled (a + a) P P' -> scaled (a + a) Q Q' ->
    scaled_ecall (EPredict x u P Q) (EPredict x' u' P' Q')
| TEUpdate x P o R x' P' o' R' : scaled a x x' -> scaled (a + a) P P' -> scaled b o o' -> scaled (b + b) R R' ->
    scaled_ecall (EUpdate x P o R) (EUpdate x' P' o' R')
| TEFilter Z U Z' U' : scaled b Z Z' -> scaled_opt c U U' -> (U = None -> dt Z = DFloat \/ c = 0%Z) ->
    scaled_ecall (EFilter Z U) (EFilter Z' U')
| TESmooth Z U Z' U' : scaled b Z Z' -> scaled_opt c U U' -> (U = None -> dt Z = DFloat \/ c = 0%Z) ->
    scaled_ecall (ESmooth Z U) (ESmooth Z' U').

(** ** In terms of Graded.v *)
Notation ga := (gr_arr (N1 := N) (N2 := N) times2 (Z.eqb 0)).

Lemma scaledE g x x' : scaled g x x' <-> ga g x x'.
Proof.
have E v w : scaled_scal g v w <-> gr_scal (N1 := N) (N2 := N) times2 (Z.eqb 0) g v w.
  split; last first.
    by case=> [n [/Z.eqb_eq He|->]|x0 y Hxy] //=; split=> // Hn; case: Hn.
  case: v w => [n|v] [n'|w] //=; last by move=> h; apply: GrF.
  move=> [-> Hn]; apply: GrI; case E : (0 =? g)%Z; [by left|right; apply: Hn => Eg].
  by move: E; rewrite Eg.
by split=> -[? ? ? h]; split=> // i; apply/E.
Qed.

Lemma scaled_optE g x x' : scaled_opt g x x' -> rel_opt (ga g) x x'.
Proof. by case: x x' => [x|] [x'|] //= /scaledE. Qed.

Lemma scaled_seqE g l l' : rel_seq (ga g) l l' -> scaled_seq g l l'.
Proof.
elim: l l' => [|x l IH] [|x' l'] //= [Hx /IH [Es Hl]]; split; first by rewrite /= Es.
by case=> [|i] Hi /=; [apply/scaledE|exact: Hl].
Qed.

Lemma nanE (d d' : Prop) g : (d' -> d \/ g = 0%Z) -> d' -> d \/ (0 =? g)%Z.
Proof. by move=> h /h [|->]; [left|right]. Qed.

Lemma scaled_resE r r' : rel_res (gr_pair (N1 := N) (N2 := N) times2 (Z.eqb 0) a (a + a)) r r' -> scaled_res a r r'.
Proof. by case: r => [p|e]; case: r' => [p'|e'] //= [/scaledE h1 /scaledE h2]. Qed.

(** ** C108 for KalmanFilter: every object, every history of calls *)
Theorem C108_units A x B P H Q R n cs A' x' B' P' H' Q' R' cs' :
  scaled 0 A A' -> scaled a x x' -> scaled_opt (a - c) B B' -> scaled (a + a) P P' ->
  scaled (b - a) H H' -> scaled (a + a) Q Q' -> scaled (b + b) R R' ->
  (B = None -> dt A = DFloat \/ a = c) ->
  size cs = size cs' -> (forall i d d', i < size cs -> scaled_call (nth d cs i) (nth d' cs' i)) ->
  match kf_init A x B P H Q R n, kf_init A' x' B' P' H' Q' R' n with
  | Ok o, Ok o' =>
    (forall i d, i < size cs -> scaled_res a (nth d (kf_calls o cs).2 i) (nth d (kf_calls o' cs').2 i)) /\
    scaled_seq (a - b) (kf_gains (kf_calls o cs).1) (kf_gains (kf_calls o' cs').1)
  | Raise e, Raise e' => e = e'
  | _, _ => False
  end.
Proof.
move=> /scaledE HA /scaledE Hx /scaled_optE HB /scaledE HP.
move=> /scaledE HH /scaledE HQ /scaledE HR Hd Es Hcs.
have Ag := times2_agree z.
have Hd' : B = None -> dt A = DFloat \/ (0 =? a - c)%Z.
  by move=> /Hd [|E]; [left|right; rewrite E Z.sub_diag].
have Hc : rel_seq (gr_call (N1 := N) (N2 := N) times2 (Z.eqb 0) a b c) cs cs'.
  elim: cs cs' Es Hcs => [|k cs IH] [|k' cs'] //= [Es] Hcs; split; last first.
    by apply: IH => // i d d' Hi; exact: (Hcs i.+1).
  have := Hcs 0%N k k' isT => /=; case.
  - move=> ? ? ? ? ? ? ? ? ? ? ? ? /scaledE h1 /scaledE h2 /scaled_optE h3 /scaled_optE h4 /scaledE h5 /scaledE h6.
    exact: GPredict.
  - move=> ? ? ? ? ? ? ? ? ? ? /scaledE h1 /scaledE h2 /scaledE h3 /scaledE h4 /scaledE h5.
    exact: GUpdate.
  - move=> ? ? ? ? /scaledE h1 /scaled_optE h2 h3; apply: GFilter => //; exact: nanE.
  - move=> ? ? ? ? /scaledE h1 /scaled_optE h2 h3; apply: GSmooth => //; exact: nanE.
have := gr_init Ag n HA Hx HB Hd' HP HH HQ HR.
case: (kf_init _ _ _ _ _ _ _ _) => [o|e]; case: (kf_init _ _ _ _ _ _ _ _) => [o'|e'] //= Ho.
have [[_ _ _ _ Hg] Hr] := gr_kf_calls Ag Ho Hc; split; last exact: scaled_seqE Hg.
have Er : size (kf_calls o cs).2 = size cs.
  by clear; elim: cs o => [|k cs IH] o //=; case: (kf_call o k) => o1 r; have := IH o1; case: (kf_calls o1 cs) => o2 rs /= ->.
move=> i d; rewrite -Er; move: (kf_calls o cs).2 (kf_calls o' cs').2 Hr i {Er}.
elim=> [|r l IH] [|r' l'] //= [Hr Hl] [|i] Hi /=; [exact: scaled_resE|exact: IH].
Qed.

(** ** C108 for ExtendedKalmanFilter, with functions that go with the units *)
Theorem C108_units_extended x P Q R f h jA jH cs x' P' Q' R' f' h' jA' jH' cs' :
  scaled a x x' -> scaled (a + a) P P' -> scaled (a + a) Q Q' -> scaled (b + b) R R' ->
  (forall y y' u u', scaled a y y' -> scaled_opt c u u' ->
     rel_res (scaled a) (f y u) (f' y' u') /\ rel_res (scaled 0) (jA y u) (jA' y' u')) ->
  (forall y y', scaled a y y' -> rel_res (scaled b) (h y) (h' y') /\ rel_res (scaled (b - a)) (jH y) (jH' y')) ->
  size cs = size cs' -> (forall i d d', i < size cs -> scaled_ecall (nth d cs i) (nth d' cs' i)) ->
  match ekf_init x P Q R f h jA jH, ekf_init x' P' Q' R' f' h' jA' jH' with
  | Ok o, Ok o' =>
    (forall i d, i < size cs -> scaled_res a (nth d (e_calls o cs).2 i) (nth d (e_calls o' cs').2 i)) /\
    scaled_seq (a - b) (e_gains (e_calls o cs).1) (e_gains (e_calls o' cs').1)
  | Raise e, Raise e' => e = e'
  | _, _ => False
  end.
Proof.
move=> /scaledE Hx /scaledE HP /scaledE HQ /scaledE HR Hf Hh Es Hcs.
have Ag := times2_agree z.
have W g r r' : rel_res (scaled g) r r' -> rel_res (ga g) r r'.
  by case: r => [?|?]; case: r' => [?|?] //= /scaledE.
have W2 u u' : rel_opt (ga c) u u' -> scaled_opt c u u'.
  by case: u u' => [u|] [u'|] //= /scaledE.
have Ff : gr_fun2 (N1 := N) (N2 := N) times2 (Z.eqb 0) a c a f f'.
  by move=> y u y' u' /scaledE Hy /W2 Hu; apply: W; case: (Hf _ _ _ _ Hy Hu).
have FA : gr_fun2 (N1 := N) (N2 := N) times2 (Z.eqb 0) a c 0 jA jA'.
  by move=> y u y' u' /scaledE Hy /W2 Hu; apply: W; case: (Hf _ _ _ _ Hy Hu).
have Fh : gr_fun1 (N1 := N) (N2 := N) times2 (Z.eqb 0) a b h h'.
  by move=> y y' /scaledE Hy; apply: W; case: (Hh _ _ Hy).
have FH : gr_fun1 (N1 := N) (N2 := N) times2 (Z.eqb 0) a (b - a) jH jH'.
  by move=> y y' /scaledE Hy; apply: W; case: (Hh _ _ Hy).
have Hc : rel_seq (gr_ecall (N1 := N) (N2 := N) times2 (Z.eqb 0) a b c) cs cs'.
  elim: cs cs' Es Hcs => [|k cs IH] [|k' cs'] //= [Es] Hcs; split; last first.
    by apply: IH => // i d d' Hi; exact: (Hcs i.+1).
  have := Hcs 0%N k k' isT => /=; case.
  - move=> ? ? ? ? ? ? ? ? /scaledE h2 /scaled_optE h4 /scaledE h5 /scaledE h6.
    exact: GEPredict.
  - move=> ? ? ? ? ? ? ? ? /scaledE h2 /scaledE h3 /scaledE h4 /scaledE h5.
    exact: GEUpdate.
  - move=> ? ? ? ? /scaledE h1 /scaled_optE h2 h3; apply: GEFilter => //; exact: nanE.
  - move=> ? ? ? ? /scaledE h1 /scaled_optE h2 h3; apply: GESmooth => //; exact: nanE.
have := gr_einit Ag Hx HP HQ HR Ff Fh FA FH.
case: (ekf_init _ _ _ _ _ _ _ _) => [o|e]; case: (ekf_init _ _ _ _ _ _ _ _) => [o'|e'] //= Ho.
have [[_ _ _ _ Hg] Hr] := gr_e_calls Ag Ho Hc; split; last exact: scaled_seqE Hg.
have Er : size (e_calls o cs).2 = size cs.
  by clear; elim: cs o => [|k cs IH] o //=; case: (e_call o k) => o1 r; have := IH o1; case: (e_calls o1 cs) => o2 rs /= ->.
move=> i d; rewrite -Er; move: (e_calls o cs).2 (e_calls o' cs').2 Hr i {Er}.
elim=> [|r l IH] [|r' l'] //= [Hr Hl] [|i] Hi /=; [exact: scaled_resE|exact: IH].
Qed.
End C108.


(** ** Within the range of doubles, it is the arithmetic of doubles: sums and
    differences that do not overflow, products and quotients that neither
    overflow nor fall below the smallest normal double *)
Section Range.
Local Open Scope R_scope.
Notation wnum := (wide 0).
Notation num_of x := (Some (real x) : K wnum).

Theorem C108_doubles x y : double x = true -> double y = true ->
  [/\ finite (fadd x y) = true -> kadd (num_of x) (num_of y) = num_of (fadd x y),
      finite (fsub x y) = true -> ksub (num_of x) (num_of y) = num_of (fsub x y),
      finite (fmul x y) = true -> (real x * real y = 0 \/ bpow radix2 (-1022) <= Rabs (real x * real y)) ->
        kmm MatMat 1 1 1 [:: num_of x] [:: num_of y] 0 0 = num_of (fmul x y) &
      finite (fdiv x y) = true -> finite y = true -> real y <> 0 ->
        (real x / real y = 0 \/ bpow radix2 (-1022) <= Rabs (real x / real y)) ->
        omap (fun f => f 0%N 0%N) (ksolve 1 1 [:: num_of y] [:: num_of x]) = Some (num_of (fdiv x y))].
Proof.
move=> Dx Dy; split.
- exact: wide_add.
- exact: wide_sub.
- exact: wide_mul.
- move=> F Fy Ny N; rewrite -(wide_div x y Dx Dy F Ny N Fy) /= /g_solve /=.
  have -> : (if Rlt_bool (Rabs (real y)) (Rabs (real y)) then 0%N else 0%N) = 0%N by case: Rlt_bool.
  have E0 := Req_bool_false _ _ Ny.
  by rewrite /= E0 /= E0.
Qed.
End Range.

(** ** A case: lengths in units of 1/1024, a filter that answers *)
Section Case.
Notation N0 := (wide 0).
Definition w11 (x : R) : Np.arr N0 := Arr DFloat [:: 1%N; 1%N] [:: VF (N := N0) (Some x)].
Definition w1 (x : R) : Np.arr N0 := Arr DFloat [:: 1%N] [:: VF (N := N0) (Some x)].
Definition w111 (x : R) : Np.arr N0 := Arr DFloat [:: 1%N; 1%N; 1%N] [:: VF (N := N0) (Some x)].
(** filter([o]) from x0, P0 = p, with A = H = 1, Q = q, R = r. *)
Definition wfiltered (x0 p q r o : R) : option (seq (scal N0)) :=
  if kf_init (w111 1) (w1 x0) None (w11 p) (w111 1) (w111 q) (w111 r) None is Ok k then
    if (kf_call k (CFilter (w11 o) None)).2 is Ok xP then Some (dat xP.1) else None
  else None.
Lemma wround_int n : (Z.abs n < 2 ^ 53)%Z -> wround (IZR n) = IZR n.
Proof.
move=> Hn; apply: round_generic; apply: generic_format_FLX; exists (Float radix2 n 0) => //.
by rewrite /F2R /= Rmult_1_r.
Qed.
Lemma wsolve1 (s x : R) : s <> 0%R -> @g_solve wide_ops 1 1 [:: Some s] [:: Some x] =
  Some (fun i j => nth (Some 0%R) (nth [::] [:: [:: Some (wround (x / s))]] j) i).
Proof.
move=> Ns; rewrite /g_solve /=.
have -> : (if Rlt_bool (Rabs s) (Rabs s) then 0%N else 0%N) = 0%N by case: Rlt_bool.
have E0 := Req_bool_false _ _ Ns.
by rewrite /= E0 /= E0.
Qed.
Definition o11 (v : option R) : Np.arr N0 := Arr DFloat [:: 1%N; 1%N] [:: VF (N := N0) v].
Definition o1 (v : option R) : Np.arr N0 := Arr DFloat [:: 1%N] [:: VF (N := N0) v].
Lemma step_case v : exists x P K, kf_step (o11 (Some 1%R))
    (SRow (o11 (Some 1%R)) (o11 (Some 1%R)) (o11 None) v (w1 5) (w11 1) (w11 1)) (w1 3, w11 1) [::] =
  ([:: o11 (Some K)], Ok (o1 (Some x), o11 (Some P))).
Proof.
have W n : (Z.abs n < 2 ^ 53)%Z -> wround (IZR n) = IZR n by exact: wround_int.
have M x y : (Z.abs (x * y) < 2 ^ 53)%Z -> wlift Rmult (Some (IZR x)) (Some (IZR y)) = Some (IZR (x * y)).
  by move=> h; rewrite /wlift -mult_IZR W.
have A x y : (Z.abs (x + y) < 2 ^ 53)%Z -> wlift Rplus (Some (IZR x)) (Some (IZR y)) = Some (IZR (x + y)).
  by move=> h; rewrite /wlift -plus_IZR W.
have Epr : kf_predict (o11 (Some 1%R)) (w1 3) (Some (o11 None)) (Some v) (w11 1) (w11 1) = Ok (w1 3, w11 2).
  transitivity (Ok (o1 (wlift Rmult (Some 1%R) (Some 3%R)),
    o11 (wlift Rplus (wlift Rmult (Some 1%R) (wlift Rmult (Some 1%R) (Some 1%R))) (Some 1%R)))); first exact: erefl.
  by rewrite !M // A.
have ES : innov_cov (o11 (Some 1%R)) (w11 2) (w11 1) = Ok (w11 3).
  transitivity (Ok (o11 (wlift Rplus (wlift Rmult (Some 1%R) (wlift Rmult (Some 2%R) (Some 1%R))) (Some 1%R)))); first exact: erefl.
  by rewrite !M // A.
have EG : gain (w11 3) (o11 (Some 1%R)) (w11 2) = Ok (w11 (wround (2 / 3))).
  rewrite /gain.
  have -> : np_matmul (o11 (Some 1%R)) (np_T (w11 2)) = Ok (w11 2).
    transitivity (Ok (o11 (wlift Rmult (Some 1%R) (Some 2%R)))); first exact: erefl.
    by rewrite M.
  transitivity (rbind (np_solve (w11 3) (w11 2)) (fun X => Ok (np_T X))); first exact: erefl.
  have Hs : ksolve 1 1 [:: Some 3%R : K N0] [:: Some 2%R : K N0] =
    Some (fun i j => nth (Some 0%R) (nth [::] [:: [:: Some (wround (2 / 3))]] j) i).
    by apply: wsolve1; apply: not_0_IZR.
  have -> : np_solve (w11 3) (w11 2) = Ok (w11 (wround (2 / 3))); last exact: erefl.
  have Hs' : @g_solve wide_ops 1 1 [:: Some 3%R] [:: Some 2%R] = _ := Hs.
  by rewrite /np_solve /= Hs' /mk /= Hs'.
rewrite /kf_step /mbind /mlift [rA _]/= [rB _]/= [rU _]/= [rQ _]/= [_.1]/= [_.2]/= Epr.
rewrite /kf_update /mbind /mlift [rH _]/= [rR _]/= [rZ _]/= [_.1]/= [_.2]/= ES EG.
pose K := wround (2 / 3).
pose D := wlift Rminus (Some 5%R) (wlift Rmult (Some 1%R) (Some 3%R)).
have -> : @np_matmul N0 (o11 (Some 1%R)) (w1 3) = Ok (o1 (wlift Rmult (Some 1%R) (Some 3%R))) by exact: erefl.
have -> : correct_state (w1 3) (w11 K) (w1 5) (o1 (wlift Rmult (Some 1%R) (Some 3%R))) =
  Ok (o1 (wlift Rplus (Some 3%R) (wlift Rmult (Some K) D))) by exact: erefl.
have -> : correct_cov (o11 (Some 1%R)) (w11 K) (o11 (Some 1%R)) (w11 2) =
  Ok (o11 (wlift Rmult (wlift Rminus (Some 1%R) (wlift Rmult (Some K) (Some 1%R))) (Some 2%R))) by exact: erefl.
by do 3! eexists; exact: erefl.
Qed.
Lemma filtered_case : exists x, wfiltered 3 1 1 1 5 = Some [:: VF (N := N0) (Some x)].
Proof.
pose nan1 : Np.arr N0 := o1 None.
pose k0 := Kf (w111 1) (w1 3) (Arr DFloat [:: 1%N; 1%N; 1%N] [:: VF (N := N0) None]) (w11 1) (w111 1) (w111 1) (w111 1)
  1 (o11 (Some (wround 1))) [::].
have [x [P [K E]]] := step_case nan1.
exists x; rewrite /wfiltered.
have -> : kf_init (w111 1) (w1 3) None (w11 1) (w111 1) (w111 1) (w111 1) None = Ok k0 by exact: erefl.
have -> : kf_call k0 (CFilter (w11 5) None) = let: (g, r) := kf_filter k0 (w11 5) None [::] in (with_gains k0 g, r) by exact: erefl.
have -> : kf_filter k0 (w11 5) None [::] = filter_loop (kf_step (o11 (Some (wround 1))))
  [:: SRow (o11 (Some 1%R)) (o11 (Some 1%R)) (o11 None) nan1 (w1 5) (w11 1) (w11 1)] 0 (w1 3, w11 1) (alloc N0 1 1) [::]
  by exact: erefl.
have W1 : wround 1 = 1%R by exact: wround_int.
rewrite W1 /filter_loop /mbind E.
exact: erefl.
Qed.
Example C108_case :
  [/\ scaled (z := 0) 10 (w1 3) (w1 3072), scaled (z := 0) 10 (w11 5) (w11 5120) &
      exists x, wfiltered 3 1 1 1 5 = Some [:: VF (N := N0) (Some x)]].
Proof.
split.
- split; [exact: erefl|exact: erefl|exact: erefl|]; case=> [|[|i]]; [|by split|by split].
  have e : (3072 = 3 * 1024)%R by lra.
  exact: e.
- split; [exact: erefl|exact: erefl|exact: erefl|]; case=> [|[|i]]; [|by split|by split].
  have e : (5120 = 5 * 1024)%R by lra.
  exact: e.
- exact: filtered_case.
Qed.
End Case.
