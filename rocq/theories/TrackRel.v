(** * TrackRel: a tracked run against the run in doubles and the exact run *)
From mathcomp Require Import all_ssreflect all_algebra.
From Coq Require Import ZArith Floats.SpecFloat Lia.
From Verif Require Import Np NpLemmas Binary64 Lu Exact IntExact Param Zeros LaxParam Track TrackThms.

Set Implicit Arguments.
Unset Strict Implicit.
Unset Printing Implicit Defensive.
Import GRing.Theory Num.Theory Order.Theory.
Delimit Scope Z_scope with Z.
Delimit Scope nat_scope with N.

(** ** Doubles *)
Section Doubles.
Variables k z : Z.
Notation N := (tracked k z).

(** A number with a bound is that double. *)
Definition to_dbl (x : tnum) (y : f64) : Prop := bounded x -> y = x.1.
Definition to_dbl_nan (x : tnum) (y : f64) : Prop := y = x.1.

Lemma bound2 x y v f : bounded (with_bound2 k x y v f) -> bounded x /\ bounded y.
Proof. by rewrite /bounded /with_bound2; case: x.2 => // n1; case: y.2. Qed.

Lemma dbl_list a a' : rel_list (N1 := N) (N2 := doubles z) to_dbl a a' -> all bounded a -> a' = map (fun x => x.1) a.
Proof.
move=> [Es h] Hb; apply: (@eq_from_nth _ S754_nan); first by rewrite size_map Es.
move=> i Hi; have Hi' : i < size a by rewrite Es.
rewrite (nth_map (S754_nan, None)) //; apply: h => //.
exact: (all_nthP (S754_nan, None) Hb).
Qed.

Lemma dbl_lagree : lagree (N1 := N) (N2 := doubles z) to_dbl to_dbl_nan.
Proof.
split=> //.
- by move=> x y Exy _.
- by move=> x y ->.
- by move=> x y x' y' h1 h2 /bound2 [/h1 -> /h2 ->].
- by move=> x y x' y' h1 h2 /bound2 [/h1 -> /h2 ->].
- move=> kd m l n a b a' b' i j _ _ /rel_list_seq Ha /rel_list_seq Hb _ _.
  apply: (@q_mm (track_ops k) double_ops to_dbl _ _ _ kd m l n a b a' b' i j Ha Hb) => //.
  + by move=> x y x' y' h1 h2 /bound2 [/h1 -> /h2 ->].
  + by move=> x y x' y' h1 h2 /bound2 [/h1 -> /h2 ->].
- move=> n r a b a' b' f Sa Sb Ha Hb.
  rewrite -[ksolve n r a b]/(track_solve k n r a b) /track_solve.
  case: ifP => // /and3P [Ba Bb _].
  rewrite (dbl_list Ha Ba) (dbl_list Hb Bb).
  have := @hom_solve (track_ops k) double_ops (fun x => x.1) erefl (fun _ _ => erefl) (fun _ _ => erefl)
    (fun _ _ => erefl) (fun _ => erefl) (fun _ _ => erefl) (fun _ => erefl) n r a b.
  rewrite -[ksolve n r _ _]/(@g_solve double_ops n r (map (fun x => x.1) a) (map (fun x => x.1) b)).
  case: (g_solve (S := track_ops k) n r a b) => [g|] //.
  case: (g_solve (S := double_ops) n r _ _) => [g'|] // h; case: ifP => // _ [<-].
  by exists g' => // i j; rewrite /to_dbl; case: ifP => // _ _; apply: h.
Qed.
End Doubles.

(** ** Exact arithmetic *)
Section Exact.
Variable F : realFieldType.
Variables (k z : Z) (oracle : oracle_type F).
Hypothesis k0 : (0 <= k)%Z.
Notation N := (tracked k z).
Notation E := (exact oracle z).
Local Open Scope ring_scope.

(** A number with a bound is at most that far from the exact one. *)
Definition to_ex (x : tnum) (y : option F) : Prop :=
  if x.2 is Some n then exists2 y', y = Some y' & near k x.1 n y' else True.
Definition to_ex_nan (x : tnum) (y : option F) : Prop :=
  to_ex x y /\ fisnan x.1 = ~~ isSome y.

Lemma ex_lift (f : F -> F -> F) v (g : tnum -> tnum -> tnum) x y x' y' :
  (forall a na x0 b nb y0, near k a na x0 -> near k b nb y0 ->
     forall n, (g (a, Some na) (b, Some nb)).2 = Some n -> near k (v a b) n (f x0 y0)) ->
  (forall x y, (g x y).1 = v x.1 y.1) ->
  (forall x y, bounded (g x y) -> bounded x /\ bounded y) ->
  to_ex x x' -> to_ex y y' -> to_ex (g x y) (olift2 f x' y').
Proof.
move=> Hg H1 H2; case: x y => [a ea] [b eb] Hx Hy; rewrite /to_ex.
case Eg : (g (a, ea) (b, eb)).2 => [n|] //.
have := H2 (a, ea) (b, eb); rewrite /bounded Eg => /(_ isT) [/=].
case: ea Hx Eg => // na [x0 -> Hx] Eg _; case: eb Hy Eg => // nb [y0 -> Hy] Eg _.
by exists (f x0 y0) => //; rewrite H1; exact: (Hg _ _ _ _ _ _ Hx Hy).
Qed.

Lemma ex_add x y x' y' : to_ex x x' -> to_ex y y' -> to_ex (tadd k x y) (olift2 +%R x' y').
Proof. by apply: (ex_lift (v := fadd)) => // [|u v]; [exact: near_add|exact: bound2]. Qed.
Lemma ex_sub x y x' y' : to_ex x x' -> to_ex y y' -> to_ex (tsub k x y) (olift2 (fun x y => x - y) x' y').
Proof. by apply: (ex_lift (v := fsub)) => // [|u v]; [exact: near_sub|exact: bound2]. Qed.
Lemma ex_mul x y x' y' : to_ex x x' -> to_ex y y' -> to_ex (tmul k x y) (olift2 *%R x' y').
Proof. by apply: (ex_lift (v := fmul)) => // [|u v]; [exact: near_mul|exact: bound2]. Qed.
Lemma ex_0 : to_ex (fzero, Some 0%Z) (Some 0).
Proof. by exists 0 => //; exists 0%Z => //; rewrite mul0r subrr normr0. Qed.

(** The product, term by term. *)
Definition opt_ops : ops :=
  @Ops (option F) (Some 0) (olift2 +%R) (olift2 (fun x y => x - y)) (olift2 *%R) (olift2 (fun x y => x / y))
    (omap (fun x => `|x|)) (fun _ _ => false) (fun _ => false).

Lemma opt_mm kd m l n a b i j : size a = (m * l)%N -> size b = (l * n)%N -> (i < m)%N -> (j < n)%N ->
  g_mm (S := opt_ops) kd m l n a b i j = ex_mm kd m l n a b i j.
Proof.
move=> Sa Sb Hi Hj.
have Na t : (t < l)%N -> nth (Some 0) a (i * l + t) = nth None a (i * l + t).
  move=> Ht; apply: set_nth_default; rewrite Sa; apply: (@leq_trans (i.+1 * l)%N); last by rewrite leq_mul2r Hi orbT.
  by rewrite mulSn addnC ltn_add2r.
have Nb t : (t < l)%N -> nth (Some 0) b (t * n + j) = nth None b (t * n + j).
  move=> Ht; apply: set_nth_default; rewrite Sb; apply: (@leq_trans (t.+1 * n)%N); last by rewrite leq_mul2r Ht orbT.
  by rewrite mulSn addnC ltn_add2r.
pose T t := olift2 *%R (nth (Some 0) a (i * l + t)) (nth (Some 0) b (t * n + j)).
have G s x : foldl (fun acc t => olift2 +%R acc (T t)) x s =
    (if isSome x && all (fun t => isSome (T t)) s then Some (odflt 0 x + \sum_(t <- s) odflt 0 (T t)) else None).
  elim: s x => [|t s IH] x /=; first by rewrite big_nil addr0; case: x.
  rewrite IH big_cons; case: x => [x|] //=; case: (T t) => [u|] //=.
  by rewrite addrA.
have Eg : g_mm (S := opt_ops) kd m l n a b i j =
    if all (fun t => isSome (T t)) (iota 0 l) then Some (\sum_(t <- iota 0 l) odflt 0 (T t)) else None.
  rewrite /g_mm; case: (l) @T G => [|l'] T G /=; first by rewrite big_nil.
  rewrite -[foldl _ _ _]/(foldl (fun acc t => olift2 +%R acc (T t)) (T 0%N) (iota 1 l')) G.
  by rewrite big_cons.
rewrite Eg /ex_mm.
have -> : all (fun t => isSome (T t)) (iota 0 l) =
    all (fun t => isSome (nth None a (i * l + t)) && isSome (nth None b (t * n + j))) (iota 0 l).
  apply: eq_in_all => t; rewrite mem_iota => /= Ht; rewrite /T Na // Nb //.
  by case: (nth None a _) => [?|]; case: (nth None b _).
case: ifP => // /allP Hall; congr Some; rewrite -[in LHS](subn0 l) -/(index_iota 0 l) big_mkord.
apply: eq_bigr => t _; rewrite /T Na // Nb //.
have := Hall t; rewrite mem_iota /= ltn_ord => /(_ isT).
by case: (nth None a _) => [?|] //; case: (nth None b _).
Qed.

(** ** The solver: the tracked elimination chooses the pivots, the exact one may
    follow *)
Notation ex_list := (rel_seq (fun (x : tnum) (y : F) => to_ex x (Some y))).

Definition sure (x : tnum) : bool :=
  if x.2 is Some n then if units k x.1 is Some i then (n <? Z.abs i)%Z else false else false.
Lemma sure_n0 x y : sure x -> to_ex x (Some y) -> y != 0.
Proof.
rewrite /sure /to_ex; case: x => [v [n|]] //=; case Ei : (units k v) => [i|] // Hs [y' [->] Hn].
exact: near_n0 Hn Ei Hs.
Qed.
Lemma div_sure x y : bounded (tdiv k x y) -> sure y.
Proof.
rewrite /bounded /tdiv /with_bound2 /sure /=; case: x.2 => // n1; case: y.2 => // n2.
by case: (units k x.1) => // i1; case: (units k y.1) => // i2; case: (units k _) => // i; case: ifP.
Qed.
Lemma ex_div x y x' y' : sure y -> to_ex x (Some x') -> to_ex y (Some y') -> to_ex (tdiv k x y) (Some (x' / y')).
Proof.
move=> _; case: x y => [a ea] [b eb] Hx Hy; rewrite /to_ex.
case Eg : (tdiv k (a, ea) (b, eb)).2 => [n|] //.
have := @bound2 k (a, ea) (b, eb) (fdiv a b) (fun i1 n1 i2 n2 i => if (n2 <? Z.abs i2)%Z
    then Some (up_div (Z.abs (i1 * one_k k - i * i2) + n1 * one_k k + Z.abs i * n2) (Z.abs i2 - n2)) else None).
rewrite /bounded -/(tdiv k (a, ea) (b, eb)) Eg => /(_ isT) [/=].
case: ea Hx Eg => // na [x0 [->] Hx] Eg _; case: eb Hy Eg => // nb [y0 [->] Hy] Eg _.
by exists (x0 / y0) => //; have [] := near_div k0 Hx Hy Eg.
Qed.
Lemma ex_div' x y x' y' : to_ex x (Some x') -> to_ex y (Some y') -> to_ex (tdiv k x y) (Some (x' / y')).
Proof.
case Eb : (bounded (tdiv k x y)); first by apply: ex_div; exact: div_sure Eb.
by move: Eb; rewrite /bounded /to_ex; case: (_.2).
Qed.

Lemma exl_nth s s' i : ex_list s s' -> to_ex (nth (fzero, Some 0%Z) s i) (Some (nth 0 s' i)).
Proof.
have e0 := ex_0; elim: s s' i => [|x s IH] [|x' s'] [|i] //= [Hx Hs]; first exact: Hx.
exact: IH.
Qed.

Lemma exl_upd l l' s s' t t' : to_ex l (Some l') -> ex_list s s' -> ex_list t t' ->
  ex_list [seq tsub k q.1 (tmul k l q.2) | q <- zip s t] [seq q.1 - l' * q.2 | q <- zip s' t'].
Proof.
move=> Hl; elim: s s' t t' => [|x s IH] [|x' s'] [|y t] [|y' t'] //= [Hx Hs] [Hy Ht]; split; last exact: IH.
exact: (ex_sub Hx (ex_mul Hl Hy)).
Qed.

Lemma exl_backsub d ps ps' : rel_seq (fun r r' => ex_list r r') ps ps' ->
  ex_list (g_backsub (S := track_ops k) d ps) (g_backsub (S := field_ops F) d ps').
Proof.
elim: ps ps' => [|r ps IH] [|r' ps'] //= [Hr /IH Hx]; split=> //.
have Es := q_size Hx; rewrite -Es; apply: ex_div'; last by rewrite -!nth0; exact: exl_nth.
have := exl_nth (1 + size (g_backsub (S := track_ops k) d ps) + d) Hr.
have := q_take (size (g_backsub (S := track_ops k) d ps)) (q_behead Hr).
move: (nth _ r _) (nth _ r' _) (take _ (behead r)) (take _ (behead r')).
move: (g_backsub (S := track_ops k) d ps) (g_backsub (S := field_ops F) d ps') Hx {Es IH Hr}; move=> x x' Hx u u' s s'; elim: s s' x x' u u' Hx => [|y s IH] [|y' s'] [|v x] [|v' x'] u u' //= [Hv Hx] [Hy Hs] Hu.
by apply: IH => //; exact: (ex_sub Hu (ex_mul Hy Hv)).
Qed.

(** Exact rows follow the tracked elimination; what is left has the same solutions. *)
Lemma rel_perm_nth (T T' : Type) (Q : T -> T' -> Prop) (d : T) (d' : T') s s' i : rel_seq Q s s' -> (i < size s)%N ->
  Q (nth d s i) (nth d' s' i).
Proof. by elim: s s' i => [|x s IH] [|x' s'] [|i] //= [Hx Hs] //; apply: IH. Qed.
Lemma rel_set (T T' : Type) (Q : T -> T' -> Prop) (d : T) (d' : T') s s' i v v' : rel_seq Q s s' -> (i < size s)%N -> Q v v' ->
  rel_seq Q (set_nth d s i v) (set_nth d' s' i v').
Proof. by elim: s s' i => [|x s IH] [|x' s'] [|i] //= [Hx Hs] Hi Hv; split=> //; apply: IH. Qed.

Notation ex_rows := (rel_seq (fun (r : seq tnum) (r' : seq F) => ex_list r r')).
Notation tn0 := (fzero, Some 0%Z).

Lemma rows_all n rows rows' : ex_rows rows rows' -> all (fun r : seq tnum => size r == n) rows ->
  all (fun r => size r == n) rows'.
Proof. by elim: rows rows' => [|r rows IH] [|r' rows'] //= [Hr Hs] /andP [/eqP Er Ha]; rewrite -(q_size Hr) Er eqxx; exact: IH Hs Ha. Qed.

Lemma amax_small n best (bv : tnum) i (rows : seq (seq tnum)) : (best < n)%N -> (i + size rows <= n)%N ->
  (g_amax (S := track_ops k) best bv i rows < n)%N.
Proof.
elim: rows best bv i => [|r rows IH] best bv i //= Hb Hs.
by case: ifP => _; apply: IH => //; rewrite ?addSn -?addnS //; apply: leq_trans Hs; rewrite addnS ltnS leq_addr.
Qed.

(** Exact rows follow the tracked elimination; what is left has the same solutions. *)
Lemma follow n w rows rows' ps : size rows = n -> all (fun r : seq tnum => size r == (n + w)%N) rows ->
  ex_rows rows rows' ->
  g_elim (S := track_ops k) n rows = Some ps -> all (fun r => sure (head tn0 r)) ps ->
  exists ps', ex_rows ps ps' /\
    size ps' = n /\ forall d x, size x = n -> all (holds n d x) rows' = (x == g_backsub (S := field_ops F) d ps').
Proof.
elim: n rows rows' ps => [|n IH] rows rows' ps Es Ha Hr.
  by move=> [<-] _; exists [::]; split=> //; split=> // d x /size0nil ->; rewrite (size0nil Es) in Hr; case: (rows') Hr.
rewrite [g_elim _ _]/=; set p := g_amax _ _ _ _.
have Hp : (p < size rows)%N by rewrite Es; apply: amax_small => //; rewrite Es.
set prow := nth _ rows p; pose rest : seq (seq tnum) := behead (set_nth [::] rows p (head [::] rows)).
case: ifP => // _.
pose up : seq (seq tnum) := [seq [seq tsub k q.1 (tmul k (tdiv k (head tn0 r) (head tn0 prow)) q.2) | q <- zip (behead r) (behead prow)] | r <- rest].
rewrite -[map _ _]/up.
case E : (g_elim (S := track_ops k) n up) => [qs|] // [<-] /= /andP [Sp Sq].
pose prow' := nth [::] rows' p; pose rest' := behead (set_nth [::] rows' p (head [::] rows')).
have Hprow : ex_list prow prow' by apply: (rel_perm_nth (Q := fun r r' => ex_list r r')).
have Hhead : ex_list (head [::] rows) (head [::] rows').
  by rewrite -!nth0; apply: (rel_perm_nth (Q := fun r r' => ex_list r r')) => //; rewrite Es.
have Hrest : ex_rows rest rest'.
  by apply: q_behead; apply: (rel_set (Q := fun r r' => ex_list r r')).
have Ha' := rows_all Hr Ha.
have Es' : size rows' = n.+1 by rewrite -(q_size Hr).
have HP : perm_eq rows' (prow' :: rest') by apply: swap_perm; rewrite -(q_size Hr).
have HPt : size rest' = n by have := perm_size HP; rewrite Es' /= => -[].
have := Ha'; rewrite (perm_all _ HP) /= => /andP [/eqP Zp Zr].
have Nz : head 0 prow' != 0.
  by apply: sure_n0 Sp _; rewrite -!nth0; exact: exl_nth.
pose up' := [seq [seq q.1 - head 0 r / head 0 prow' * q.2 | q <- zip (behead r) (behead prow')] | r <- rest'].
have Hup : ex_rows up up'.
  rewrite /up /up'; elim: (rest) (rest') Hrest => [|r s IHs] [|r' s'] //= [H1 /IHs H2]; split=> //.
  apply: exl_upd; [|exact: q_behead|exact: q_behead].
  by apply: ex_div'; rewrite -!nth0; exact: exl_nth.
have Zt : all (fun r : seq tnum => size r == (n + w)%N) up.
  have Zu := upd_sizes Zp Zr; apply/(all_nthP [::]) => i Hi.
  have := rel_perm_nth (Q := fun r r' => ex_list r r') [::] [::] Hup Hi => /q_size ->.
  by apply: (all_nthP [::] Zu); rewrite -(q_size Hup).
have Su : size up = n by rewrite (q_size Hup) size_map.
have [qs' [Hqs [Zqs Hsol]]] := IH _ _ _ Su Zt Hup E Sq.
exists (prow' :: qs'); split; first by split.
split; first by rewrite /= Zqs.
move=> d x Hx; rewrite (perm_all _ HP) /=.
case: x Hx => // y x /= [Hx].
have Hs2 : size (g_backsub (S := field_ops F) d qs') = n by rewrite backsub_size.
rewrite Hs2 foldl_dot // eqseq_cons.
apply/andP/andP => [[Hh Hall]|[/eqP Hy /eqP Hx2]].
  move: Hall; rewrite (all_holds_step Zp Zr) // -/up' (Hsol _ _ Hx) => Hx2.
  split=> //; rewrite -(eqP Hx2); move: Hh; rewrite /holds dotS /= => /eqP Hh.
  by rewrite add1n -Hh addrK mulrC mulKf.
have Hh : holds n.+1 d (y :: x) prow'.
  by rewrite /holds dotS /= Hy -Hx2 mulrC divfK // add1n subrK.
by rewrite Hh (all_holds_step Zp Zr) // -/up' (Hsol _ _ Hx) //= Hx2.
Qed.
Lemma sure_heads d ps : all bounded (g_backsub (S := track_ops k) d ps) -> all (fun r => sure (head tn0 r)) ps.
Proof. by elim: ps => //= r ps IH /andP [/div_sure -> /IH ->]. Qed.

Lemma l_chunk (T T' : Type) (P : T -> T' -> Prop) w n s s' : rel_seq P s s' -> rel_seq (rel_seq P) (chunk w n s) (chunk w n s').
Proof. by elim: n s s' => [|n IH] s s' Hs //=; split; [exact: q_take|apply: IH; exact: q_drop]. Qed.

(** The exact system is regular, with the solution where the bounds say. *)
Lemma track_solution n r a b a' b' ps : size a = (n * n)%N -> size b = (n * r)%N -> (0 < r)%N ->
  ex_list a a' -> ex_list b b' ->
  g_elim (S := track_ops k) n [seq p.1 ++ p.2 | p <- zip (chunk n n a) (chunk r n b)] = Some ps ->
  all bounded (g_backsub (S := track_ops k) 0 ps) ->
  mA_ n a' \in unitmx /\
  forall (i : 'I_n) (j : 'I_r), to_ex (nth tn0 (g_backsub (S := track_ops k) j ps) i) (Some ((invmx (mA_ n a') *m mB_ n r b') i j)).
Proof.
move=> Sa Sb Hr Ha Hb E /sure_heads Hs.
set rows := [seq _ | p <- _] in E.
have Sa' : size a' = (n * n)%N by rewrite -(q_size Ha).
have Sb' : size b' = (n * r)%N by rewrite -(q_size Hb).
have Hrows : ex_rows rows (lu_rows n r a' b').
  rewrite /rows /lu_rows; have := l_chunk r n Hb; have := l_chunk n n Ha.
  elim: (chunk n n a) (chunk n n a') (chunk r n b) (chunk r n b') => [|x s IH] [|x' s'] [|y t] [|y' t'] //= [Hx Hss] [Hy Ht].
  by split; [apply: q_cat|apply: IH].
have Zr := rows_sizes Sa' Sb'; have Sr := rows_size n r a' b'.
have Zt : all (fun r0 : seq tnum => size r0 == (n + r)%N) rows.
  apply/(all_nthP [::]) => i Hi.
  have := rel_perm_nth (Q := fun r r' => ex_list r r') [::] [::] Hrows Hi => /q_size ->.
  by apply: (all_nthP [::] Zr); rewrite -(q_size Hrows).
have [ps' [Hps [Zps Hsol]]] := follow (etrans (q_size Hrows) Sr) Zt Hrows E Hs.
pose A := mA_ n a'; pose B := mB_ n r b'.
have HA : A \in unitmx.
  rewrite -unitmx_tr -row_free_unit -kermx_eq0; apply: contraT => /rowV0Pn [v /sub_kermxP Hv /eqP []].
  have Hx : A *m v^T = 0 by rewrite -[A]trmxK -trmx_mul Hv trmx0.
  have H0 d x : A *m x = \col_i (if (d < r)%N then nth 0 b' (i * r + d) else 0) -> colseq x = g_backsub (S := field_ops F) d ps'.
    by move/eqP; rewrite -(holds_col Sa' Sb') (Hsol _ _ (colseq_size x)) => /eqP.
  have Z : (0 : 'cV[F]_n) = \col_i (if (r < r)%N then nth 0 b' (i * r + r) else 0).
    by apply/colP => i; rewrite !mxE ltnn.
  have E1 := H0 r v^T (etrans Hx Z); have E2 := H0 r 0 (etrans (mulmx0 _ _) Z).
  apply/rowP => i; have := congr1 (fun s => nth 0 s i) (etrans E1 (esym E2)).
  by rewrite !colseq_nth !mxE.
split=> // i j.
pose x := col j (invmx A *m B).
have : all (holds n j (colseq x)) (lu_rows n r a' b').
  rewrite (holds_col Sa' Sb') /x colE !mulmxA mulmxV // mul1mx -colE; apply/eqP/colP => l.
  by rewrite !mxE ltn_ord.
rewrite (Hsol _ _ (colseq_size x)) => /eqP Ex.
have -> : (invmx A *m B) i j = nth 0 (g_backsub (S := field_ops F) j ps') i by rewrite -Ex colseq_nth [RHS]mxE.
by apply: exl_nth; exact: exl_backsub.
Qed.

Lemma ex_some (a : seq tnum) (a' : seq (K E)) : rel_seq to_ex a a' -> all bounded a ->
  a' = map Some (map (odflt 0) a') /\ ex_list a (map (odflt 0) a').
Proof.
elim: a a' => [|x a IH] [|x' a'] //= [Hx Ha] /andP [Bx Ba].
have [E1 H1] := IH _ Ha Ba.
move: Hx Bx; rewrite /to_ex /bounded; case: x => v [m|] //= [y -> Hy] _.
by split; [rewrite /= -E1|split=> //; exists y].
Qed.

Lemma t_elim_size n rows (ps : seq (seq tnum)) : g_elim (S := track_ops k) n rows = Some ps -> size ps = n.
Proof.
elim: n rows ps => [|n IH] rows ps; first by move=> [<-].
rewrite [g_elim _ _]/=; case: ifP => // _.
by case E : (g_elim _ _) => [qs|] // [<-] /=; rewrite (IH _ _ E).
Qed.
Lemma t_backsub_size d (ps : seq (seq tnum)) : size (g_backsub (S := track_ops k) d ps) = size ps.
Proof. by elim: ps => //= r ps ->. Qed.

Lemma ex_lagree : lagree (N1 := N) (N2 := E) to_ex to_ex_nan.
Proof.
split=> //.
- by move=> x y [].
- by move=> x y [_ h]; exact: h.
- move=> m; rewrite /to_ex; case En : (kofZ N m : tnum).2 => [n|] //.
  by exists (ofZ F m) => //; exact: near_ofZ En.
- exact: ex_add.
- exact: ex_sub.
- move=> kd m l n a b a' b' i j Sa Sb Ha Hb Hi Hj.
  have Sa' : size a' = (m * l)%N by rewrite -(proj1 Ha).
  have Sb' : size b' = (l * n)%N by rewrite -(proj1 Hb).
  rewrite -[kmm kd m l n a' b' i j]/(ex_mm kd m l n a' b' i j) -(opt_mm kd Sa' Sb' Hi Hj).
  move: Ha Hb => /rel_list_seq Ha /rel_list_seq Hb.
  exact: (@q_mm (track_ops k) opt_ops to_ex ex_0 ex_add ex_mul kd m l n a b a' b' i j Ha Hb).
- move=> n r a b a' b' f Sa Sb /rel_list_seq Ha /rel_list_seq Hb.
  rewrite -[ksolve n r a b]/(track_solve k n r a b) /track_solve.
  case: ifP => // /and3P [Ba Bb Hr]; rewrite /g_solve.
  case El : (g_elim n _) => [ps|] //; case: ifP => // Hall [<-].
  have [Ea La] := ex_some Ha Ba; have [Eb Lb] := ex_some Hb Bb.
  have Cj (j : nat) : (j < r)%N -> nth [::] [seq g_backsub (S := track_ops k) c ps | c <- iota 0 r] j = g_backsub (S := track_ops k) j ps.
    by move=> Hj; rewrite (nth_map 0%N) ?size_iota // nth_iota.
  have Bs : all bounded (g_backsub (S := track_ops k) 0 ps).
    apply/(all_nthP tn0) => i; rewrite t_backsub_size (t_elim_size El) => Hi.
    have /allP/(_ i) := Hall; rewrite mem_iota => /(_ Hi) /allP/(_ 0%N); rewrite mem_iota Hr => /(_ isT).
    by rewrite Cj.
  have [HA Hsol] := track_solution Sa Sb Hr La Lb El Bs.
  rewrite -[ksolve n r a' b']/(ex_solve oracle n r a' b') /ex_solve.
  have -> : all isSome a' && all isSome b' by rewrite Ea Eb !all_map; apply/andP; split; apply/allP.
  have -> : mx_of n n a' = mA_ n (map (odflt 0) a').
    apply/matrixP => i j; rewrite !mxE (nth_map None) //.
    rewrite -(q_size Ha) Sa; apply: (@leq_trans (i.+1 * n)%N); last by rewrite leq_mul2r ltn_ord orbT.
    by rewrite mulSn addnC ltn_add2r.
  rewrite HA; eexists; first by [].
  move=> i j /=; case: ifP => // /andP [Hi Hj].
  rewrite Cj //; have := Hsol (Ordinal Hi) (Ordinal Hj); rewrite [nat_of_ord (Ordinal Hj)]/= [nat_of_ord (Ordinal Hi)]/=.
  suff -> : (invmx (mA_ n (map (odflt 0) a')) *m mB_ n r (map (odflt 0) b')) (Ordinal Hi) (Ordinal Hj) =
    \sum_(l < n) (if insub i is Some i' then invmx (mA_ n (map (odflt 0) a')) i' l else 0) * odflt 0 (nth None b' (l * r + j)) by [].
  rewrite mxE; apply: eq_bigr => l _; rewrite insubT; congr (_ * _).
  rewrite mxE /= (nth_map None) // -(q_size Hb) Sb; apply: (@leq_trans (l.+1 * r)%N); last by rewrite leq_mul2r ltn_ord orbT.
  by rewrite mulSn addnC ltn_add2r.
Qed.
End Exact.
