(** * Factor: random noises with any prescribed covariances exist

    Over any ordered field (no square roots): a positive semidefinite matrix is
    a sum of non-negative multiples of v v', and every linear model with positive
    semidefinite covariances has white noises on a finite probability space. *)
From mathcomp Require Import all_ssreflect all_algebra.
From Verif Require Import RingTac Loewner Textbook Prob BestLin.

Set Implicit Arguments.
Unset Strict Implicit.
Unset Printing Implicit Defensive.
Import GRing.Theory Num.Theory Order.Theory.
Local Open Scope ring_scope.

Section Factor.
Variable F : realFieldType.
Add Ring Fring : (mc_ring F).
Add Ring Fring1 : (mc_ring1 F).
Add Ring Fring2 : (mc_ring2 F).
Ltac mring := mc_norm F; mc_eq; ring.

(** Remove from M the part seen by one vector y. *)
Lemma psd_deflate n (M : 'M[F]_n) (y : 'cV[F]_n) : psd M ->
  let a := quad M y in let M' := M - a^-1 *: ((M *m y) *m (M *m y)^T) in
  [/\ psd M', M' *m y = 0 & forall z : 'cV[F]_n, M *m z = 0 -> M' *m z = 0].
Proof.
move=> hM a M'; have [sM pM] := hM; have a0 : 0 <= a := pM y.
have tz (z : 'cV[F]_n) : (M *m y)^T *m z = y^T *m M *m z by rewrite trmx_mul sM.
have E1 (z : 'cV[F]_n) : M' *m z = M *m z - (a^-1 * (y^T *m M *m z) 0 0) *: (M *m y).
  rewrite /M' mulmxBl; congr (_ - _); rewrite -scalemxAl -mulmxA tz -scalerA; congr (_ *: _).
  by rewrite [in LHS](mx11_scalar (y^T *m M *m z)) mul_mx_scalar.
have [Ea|Na] := eqVneq a 0.
  have My : M *m y = 0 by apply: psd_ker.
  have EM : M' = M by rewrite /M' My mul0mx scaler0 subr0.
  by rewrite EM; split.
have ap : 0 < a by rewrite lt0r Na.
split.
- split.
    by rewrite /M' trB trZ trmx_mul trmxK sM.
  move=> x; pose c := a^-1 * (y^T *m M *m x) 0 0.
  have -> : quad M' x = quad M (x - c *: y).
    have -> : quad M' x = quad M x - c * (x^T *m M *m y) 0 0.
      rewrite /quad -[x^T *m M' *m x]mulmxA E1 -/c mulmxBr -scalemxAr mulmxA (mulmxA x^T).
      by rewrite !mxE.
    have -> : quad M (x - c *: y) = quad M x + c * c * a - (c * (x^T *m M *m y) 0 0) *+ 2.
      rewrite quad_add // quadxN quadxZ -/a mulmxN -scalemxAr [X in X *+ 2]mxE [X in (- X) *+ 2]mxE.
      by rewrite mulNrn.
    rewrite (form_sym x y sM); have -> : (y^T *m M *m x) 0 0 = a * c by rewrite /c mulrA mulfV // mul1r.
    move: (quad M x) (a) (c) => u1 u2 u3; rewrite mulr2n; mring.
  exact: pM.
- by rewrite E1 -/(quad M y) -/a mulVf // scale1r subrr.
move=> z Hz; rewrite E1 Hz sub0r -mulmxA Hz mulmx0 mxE mulr0 scale0r oppr0 //.
Qed.

Lemma psd_factor n (M : 'M[F]_n) : psd M ->
  exists (d : 'I_n -> F) (v : 'I_n -> 'cV[F]_n),
    (forall i, 0 <= d i) /\ M = \sum_i d i *: (v i *m (v i)^T).
Proof.
move=> hM.
suff [d [v [M' [d0 pM' EM K]]]] : exists (d : 'I_n -> F) (v : 'I_n -> 'cV[F]_n) (M' : 'M[F]_n),
    [/\ forall i, 0 <= d i, psd M', M = M' + \sum_i d i *: (v i *m (v i)^T) &
        forall i, M' *m delta_mx i 0 = 0 :> 'cV_n].
  exists d, v; split=> //; rewrite {1}EM.
  have -> : M' = 0; last by rewrite add0r.
  by apply/matrixP => i j; have := K j; rewrite -colE => /colP /(_ i); rewrite !mxE.
suff H k : (k <= n)%N -> exists (d : 'I_n -> F) (v : 'I_n -> 'cV[F]_n) (M' : 'M[F]_n),
    [/\ forall i, 0 <= d i, psd M', M = M' + \sum_(i < n | (i < k)%N) d i *: (v i *m (v i)^T) &
        forall i : 'I_n, (i < k)%N -> M' *m delta_mx i 0 = 0 :> 'cV_n].
  have [d [v [M' [d0 pM' EM K]]]] := H n (leqnn n); exists d, v, M'; split=> //.
    by rewrite {1}EM; congr (_ + _); apply: eq_bigl => i; rewrite ltn_ord.
  by move=> i; exact: K.
elim: k => [|k IH] Hk.
  exists (fun _ => 0), (fun _ => 0), M; split=> //; by rewrite big_pred0 ?addr0.
have [d [v [M' [d0 pM' EM K]]]] := IH (ltnW Hk).
pose ik := Ordinal Hk; pose y : 'cV[F]_n := delta_mx ik 0.
have := psd_deflate y pM'; cbv zeta; set a := quad M' y; set M2 := M' - _ => -[p2 k2 z2].
exists (fun i => if i == ik then a^-1 else d i), (fun i => if i == ik then M' *m y else v i), M2; split=> //.
- by move=> i; case: ifP => // _; rewrite invr_ge0; exact: pM'.2.
- rewrite {1}EM [in RHS](bigD1 ik) /=; last exact: ltnSn.
  rewrite eqxx addrA /M2 subrK; congr (_ + _); apply: eq_big => [i|i Hi].
    by rewrite ltnS [RHS]andbC -(inj_eq val_inj) /= ltn_neqAle.
  have -> : (i == ik) = false by apply/negbTE; rewrite -(inj_eq val_inj) /= neq_ltn Hi.
  by [].
move=> i; rewrite ltnS leq_eqVlt => /orP [/eqP Ei|Hi]; last exact/z2/K.
by have -> : i = ik by exact: val_inj.
Qed.

(** ** Uncorrelated random numbers with any variances *)
Section Scalars.
Variables (I : finType) (var : I -> F).
Hypothesis var0 : forall i, 0 <= var i.
Let V := 1 + \sum_i var i.

Lemma V1 : 1 <= V. Proof. by rewrite /V ler_addl sumr_ge0. Qed.
Lemma V0 : 0 < V. Proof. exact: lt_le_trans ltr01 V1. Qed.
Let p i := var i / (V * V) / 2%:R.
Lemma p_ge0 i : 0 <= p i.
Proof. by do 2 (apply: divr_ge0; last by rewrite ?mulr_ge0 ?(ltW V0) ?ler0n). Qed.
Lemma p_sum : \sum_i (p i + p i) <= 1.
Proof.
have -> : \sum_i (p i + p i) = (\sum_i var i) / (V * V).
  rewrite mulr_suml; apply: eq_bigr => i _.
  by rewrite /p -mulrDl -mulr2n -mulr_natr -mulrA mulfV ?mulr1 // pnatr_eq0.
rewrite ler_pdivr_mulr ?mulr_gt0 ?V0 // mul1r.
apply: (@le_trans _ _ V); first by rewrite /V ler_addr ler01.
by rewrite ler_pmull ?V0 ?V1.
Qed.

Definition coin_weight (o : option (I * bool)) : F :=
  if o is Some q then p q.1 else 1 - \sum_i (p i + p i).
Lemma sum_coin (f : option (I * bool) -> F) : \sum_o f o = f None + \sum_i (f (Some (i, true)) + f (Some (i, false))).
Proof.
rewrite (bigD1 None) //=; congr (_ + _).
rewrite (reindex_omap (@Some (I * bool)) id) => [|[q|] //].
transitivity (\sum_(q : I * bool) f (Some (q.1, q.2))).
  by apply: eq_big => [q|[i b]] //; rewrite eqxx.
rewrite -(pair_bigA _ (fun i b => f (Some (i, b)))); apply: eq_bigr => i _.
by rewrite big_bool.
Qed.

Definition coins : prob F.
Proof.
apply: (@finite_prob F _ coin_weight).
- by case=> [q|] /=; [exact: p_ge0|rewrite subr_ge0 p_sum].
- by rewrite sum_coin /= subrK.
Defined.

Definition coin (i : I) : Om coins -> F :=
  fun o => if o is Some q then (if q.1 == i then (if q.2 then V else - V) else 0) else 0.

Lemma coin_L1 f : L1 (p := coins) f. Proof. by []. Qed.
Lemma coin_L2 f : L2 (p := coins) f. Proof. by []. Qed.
Lemma coin_Ex f : Ex (p := coins) f =
  coin_weight None * f None + \sum_i (p i * f (Some (i, true)) + p i * f (Some (i, false))).
Proof. exact: sum_coin. Qed.
Lemma coin_mean i : Ex (coin i) = 0.
Proof.
rewrite coin_Ex mulr0 add0r big1 // => j _ /=; case: (j == i); last by rewrite mulr0 addr0.
by rewrite mulrN subrr.
Qed.
Lemma coin_moment i j : Ex (fun o => coin i o * coin j o) = if i == j then var i else 0.
Proof.
rewrite coin_Ex mul0r mulr0 add0r (bigD1 i) //= big1 => [|l Hl]; last first.
  by rewrite (negbTE Hl) !mul0r !mulr0 addr0.
rewrite eqxx addr0; case: (i == j); last by rewrite !mulr0 addr0.
rewrite mulrNN; have -> : p i * (V * V) = var i / 2%:R.
  by rewrite /p mulrAC mulfVK // mulf_neq0 // gt_eqF // V0.
by rewrite -mulrDl -mulr2n -mulr_natr mulfK // pnatr_eq0.
Qed.

Lemma coin_moments a b (J L : finType) (f : J -> I) (h : L -> I) (x : J -> 'cV[F]_a) (y : L -> 'cV[F]_b)
    (X : rvec coins a) (Y : rvec coins b) :
  (forall o, X o = \sum_i coin (f i) o *: x i) -> (forall o, Y o = \sum_i coin (h i) o *: y i) ->
  moment X Y = \sum_i \sum_j (if f i == h j then var (f i) else 0) *: (x i *m (y j)^T).
Proof.
move=> EX EY; apply/matrixP => r c; rewrite mxE summxE.
transitivity (Ex (fun o : Om coins => \sum_i \sum_j (x i r 0 * y j c 0) * (coin (f i) o * coin (h j) o))).
  apply: Ex_ext => o; rewrite EX EY !summxE mulr_suml; apply: eq_bigr => i _.
  by rewrite mulr_sumr; apply: eq_bigr => j _; rewrite !mxE [RHS]mulrC mulrACA.
rewrite Ex_sum => [|i]; last exact: coin_L1.
apply: eq_bigr => i _; rewrite Ex_sum => [|j]; last exact: coin_L1.
rewrite summxE; apply: eq_bigr => j _; rewrite Ex_scale; last exact: coin_L1.
by rewrite coin_moment mxE [RHS]mulrC; congr (_ * _); rewrite mxE big_ord1 mxE.
Qed.

Lemma coin_mean0 a (J : finType) (f : J -> I) (x : J -> 'cV[F]_a) (X : rvec coins a) :
  (forall o, X o = \sum_i coin (f i) o *: x i) -> mean X = 0.
Proof.
move=> EX; apply/matrixP => r c; rewrite !mxE.
transitivity (Ex (fun o : Om coins => \sum_i x i r 0 * coin (f i) o)).
  by apply: Ex_ext => o; rewrite EX summxE; apply: eq_bigr => i _; rewrite mxE mulrC.
rewrite Ex_sum => [|i]; last exact: coin_L1.
by rewrite big1 // => i _; rewrite Ex_scale ?coin_mean ?mulr0 //; exact: coin_L1.
Qed.

End Scalars.

(** ** White noises *)
Theorem white_noises_exist n m (s : model F n m) (T : nat) : psd (mP0 s) ->
  (forall k, (k < T)%N -> psd (mQ s k) /\ psd (mR s k)) ->
  exists (W : prob F) (e : rvec W n) (w : nat -> rvec W n) (v : nat -> rvec W m),
    white_noises s T e w v.
Proof.
move=> h0 hk.
have [d0 [v0 [d0p E0]]] := psd_factor h0.
have /fin_all_exists [dq /fin_all_exists [vq Hq]] (k : 'I_T) : exists (d : 'I_n -> F) (v : 'I_n -> 'cV[F]_n),
    (forall i, 0 <= d i) /\ mQ s k = \sum_i d i *: (v i *m (v i)^T) by apply: psd_factor; have [] := hk k (ltn_ord k).
have /fin_all_exists [dr /fin_all_exists [vr Hr]] (k : 'I_T) : exists (d : 'I_m -> F) (v : 'I_m -> 'cV[F]_m),
    (forall i, 0 <= d i) /\ mR s k = \sum_i d i *: (v i *m (v i)^T) by apply: psd_factor; have [] := hk k (ltn_ord k).
pose I := [finType of 'I_n + 'I_T * 'I_n + 'I_T * 'I_m].
pose var (i : I) := match i with inl (inl a) => d0 a | inl (inr q) => dq q.1 q.2 | inr q => dr q.1 q.2 end.
have var0 i : 0 <= var i.
  by case: i => [[i|[k i]]|[k i]] /=; [exact: d0p|case: (Hq k)|case: (Hr k)].
pose W := coins var0; pose xi := @coin I var var0.
pose e : rvec W n := fun o => \sum_i xi (inl (inl i)) o *: v0 i.
pose w (k : nat) : rvec W n := fun o => if insub k is Some k' then \sum_i xi (inl (inr (k', i))) o *: vq k' i else 0.
pose v (k : nat) : rvec W m := fun o => if insub k is Some k' then \sum_i xi (inr (k', i)) o *: vr k' i else 0.
have Ee o : e o = \sum_i xi (inl (inl i)) o *: v0 i by [].
have Ew k (Hk : (k < T)%N) o : w k o = \sum_i xi (inl (inr (Ordinal Hk, i))) o *: vq (Ordinal Hk) i.
  by rewrite /w insubT.
have Ev k (Hk : (k < T)%N) o : v k o = \sum_i xi (inr (Ordinal Hk, i)) o *: vr (Ordinal Hk) i.
  by rewrite /v insubT.
have Z0 a b (J L : finType) (f : J -> I) (h : L -> I) (x : J -> 'cV[F]_a) (y : L -> 'cV[F]_b) :
    (forall i j, f i != h j) -> forall (X : rvec W a) (Y : rvec W b),
    (forall o, X o = \sum_i xi (f i) o *: x i) -> (forall o, Y o = \sum_i xi (h i) o *: y i) ->
    moment X Y = 0.
  move=> H X Y EX EY; rewrite (coin_moments EX EY).
  by rewrite big1 // => i _; rewrite big1 // => j _; rewrite (negbTE (H i j)) scale0r.
have Z1 a (J : finType) (f : J -> I) (x : J -> 'cV[F]_a) : injective f ->
    \sum_i \sum_j (if f i == f j then var (f i) else 0) *: (x i *m (x j)^T) =
    \sum_i var (f i) *: (x i *m (x i)^T).
  move=> H; apply: eq_bigr => i _; rewrite (bigD1 i) //= eqxx big1 ?addr0 // => j Hj.
  by rewrite (inj_eq H) eq_sym (negbTE Hj) scale0r.
exists W, e, w, v; split.
- by move=> i; exact: coin_L2.
- exact: coin_mean0 Ee.
- by rewrite (coin_moments Ee Ee) Z1 // => i j [].
- by move=> k Hk; split; [apply: (Z0 _ _ _ _ _ _ _ _ _ _ _ Ee (Ew k Hk))|apply: (Z0 _ _ _ _ _ _ _ _ _ _ _ Ee (Ev k Hk))].
move=> k Hk; split.
- by split=> i; exact: coin_L2.
- by split; [exact: coin_mean0 (Ew k Hk)|exact: coin_mean0 (Ev k Hk)].
- split.
    have [_ E1] := Hq (Ordinal Hk); rewrite (coin_moments (Ew k Hk) (Ew k Hk)).
    by rewrite (Z1 _ _ (fun i => inl (inr (Ordinal Hk, i)))) // => i j [].
  have [_ E1] := Hr (Ordinal Hk); rewrite (coin_moments (Ev k Hk) (Ev k Hk)).
  by rewrite (Z1 _ _ (fun i => inr (Ordinal Hk, i))) // => i j [].
- by move=> j Hj; apply: (Z0 _ _ _ _ _ _ _ _ _ _ _ (Ew k Hk) (Ev j Hj)).
move=> j Hj; have Hj' := ltn_trans Hj Hk.
have ne : Ordinal Hk != Ordinal Hj' by rewrite -(inj_eq val_inj) /= neq_ltn Hj orbT.
by split; [apply: (Z0 _ _ _ _ _ _ _ _ _ _ _ (Ew k Hk) (Ew j Hj'))|apply: (Z0 _ _ _ _ _ _ _ _ _ _ _ (Ev k Hk) (Ev j Hj'))] => i i'; apply: contra ne => /eqP [] E _; apply/eqP/val_inj.
Qed.
End Factor.
