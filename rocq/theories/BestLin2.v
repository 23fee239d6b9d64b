(** * BestLin2: innovations of the filter on random data *)
From mathcomp Require Import all_ssreflect all_algebra.
From Verif Require Import Loewner Textbook KalmanAlg TextbookThms Prob BestLin.

Set Implicit Arguments.
Unset Strict Implicit.
Unset Printing Implicit Defensive.
Import GRing.Theory Num.Theory Order.Theory.
Local Open Scope ring_scope.

Section Quad.
Variable F : realFieldType.
Variable W : prob F.

(** E[X' M X] = tr (M E[X X']). *)
Lemma Ex_quad n (M : 'M[F]_n) (X : rvec W n) : L2v X ->
  Ex (fun o => ((X o)^T *m M *m X o) 0 0) = \tr (M *m moment X X).
Proof.
move=> HX; have H1 i j : L1 (fun o => M i j * (X o j 0 * X o i 0)).
  by apply: L1_scale; apply: L2_mul; exact: HX.
have E o : ((X o)^T *m M *m X o) 0 0 = \sum_i \sum_j M i j * (X o j 0 * X o i 0).
  rewrite -mulmxA mxE; apply: eq_bigr => i _; rewrite !mxE big_distrr /=.
  by apply: eq_bigr => j _; rewrite mulrCA [X o i 0 * _]mulrC.
rewrite (Ex_ext E) Ex_sum => [|i]; last by apply: L1_sum => j; exact: H1.
rewrite /mxtrace; apply: eq_bigr => i _; rewrite Ex_sum // !mxE; apply: eq_bigr => j _.
rewrite Ex_scale; first by rewrite mxE.
by apply: L2_mul; exact: HX.
Qed.
End Quad.

Section Innov.
Variable F : realFieldType.
Variable W : prob F.
Variables (n m : nat) (s : model F n m) (T : nat).
Variables (e : rvec W n) (w : nat -> rvec W n) (v : nat -> rvec W m).
Hypothesis HW : white_noises s T e w v.
Notation X := (true_state s e w).
Notation z := (sensed s e w v).
Variable sw : Om W -> model F n m.
Hypothesis sw0 : forall o, mx0 (sw o) = mx0 s /\ mP0 (sw o) = mP0 s.
Hypothesis swk : forall o k, (k < T)%N ->
  [/\ mA (sw o) k = mA s k, mc (sw o) k = mc s k, mH (sw o) k = mH s k, mQ (sw o) k = mQ s k &
      mR (sw o) k = mR s k /\ mz (sw o) k = z k o].
Hypothesis inn : forall k, (k < T)%N -> innov s k \in unitmx.
Notation errp := (errp s e w sw).
Notation xp := (xp sw).

Definition nu k : rvec W m := fun o => z k o - mH s k *m xp k o.

Lemma nuE k o : nu k o = mH s k *m errp k o + v k o.
Proof. by rewrite /nu /BestLin.errp /sensed mulmxBr addrAC. Qed.

Lemma L2nu k : (k < T)%N -> L2v (nu k).
Proof.
move=> Hk; apply: L2v_sub; first exact: (L2z HW).
by apply: L2v_mul; apply: (L2aff HW (ltnW Hk)); exact: (xp_aff sw0 swk).
Qed.

Lemma m_nu k d (Y : rvec W d) : (k < T)%N -> L2v Y ->
  moment (nu k) Y = mH s k *m moment (errp k) Y + moment (v k) Y.
Proof.
move=> Hk HY; have Lp := L2errp HW sw0 swk Hk; have Lv := L2vv HW Hk.
rewrite (eq_moment (nuE k) (fun=> erefl : Y _ = Y _)) momentDl ?momentMl //.
exact: L2v_mul.
Qed.

Lemma nu_all k : (k < T)%N ->
  [/\ mean (nu k) = 0, moment (nu k) (nu k) = innov s k,
      forall j, (j < k)%N -> moment (nu k) (z j) = 0,
      forall j, (j < k)%N -> moment (nu k) (nu j) = 0 &
      moment (X k.+1) (nu k) = gain_at s k *m innov s k].
Proof.
move=> Hk; have Hk' := ltnW Hk; have Ek := est_all HW sw0 swk inn Hk'.
have [hm hc hz hw hv] := est_errp HW sw0 swk Hk Ek.
have Lp := L2errp HW sw0 swk Hk; have Lv := L2vv HW Hk; have Ln := L2nu Hk.
have pv : moment (errp k) (v k) = 0 by exact: hv.
have vp : moment (v k) (errp k) = 0 by rewrite -moment_tr pv trmx0.
have sP : (pred_P s k)^T = pred_P s k by rewrite -hc moment_tr.
have pn : moment (errp k) (nu k) = pred_P s k *m (mH s k)^T.
  by rewrite -moment_tr m_nu // hc vp addr0 trmx_mul sP.
have vn : moment (v k) (nu k) = mR s k.
  rewrite -moment_tr m_nu // pv mulmx0 add0r moment_tr.
  exact: (m_vv HW).
have nz j : (j < k)%N -> moment (nu k) (z j) = 0.
  move=> Hj; rewrite m_nu //; last exact: (L2z HW (ltn_trans Hj Hk)).
  by rewrite hz // (v_z HW) // mulmx0 addr0.
have nm : mean (nu k) = 0.
  rewrite meanE m_nu //; last exact: L2v_const.
  by rewrite -!meanE hm (mean_v HW) // mulmx0 addr0.
split=> //.
- by rewrite m_nu // pn vn innovE mulmxA.
- move=> j Hj; apply: (perp_aff HW Hk' Ln nm nz).
  have HjT := ltn_trans Hj Hk.
  apply: aff_sub; first exact: aff_z.
  by apply: aff_mul; apply: aff_le (xp_aff sw0 swk HjT); exact: ltnW.
have EX o : errp k o + xp k o = X k.+1 o by rewrite /BestLin.errp subrK.
have Lxp : L2v (xp k) by apply: (L2aff HW Hk'); exact: (xp_aff sw0 swk).
rewrite -(eq_moment EX (fun=> erefl : nu k _ = _)) momentDl // pn.
have -> : moment (xp k) (nu k) = 0.
  rewrite -moment_tr (perp_aff HW Hk' Ln nm nz) ?trmx0 //; exact: (xp_aff sw0 swk).
rewrite addr0 gainE innovE gain_cov //.
by have := inn Hk; rewrite innovE.
Qed.

Lemma pred_best k (Y : rvec W n) : (k < T)%N -> affine_in z k Y ->
  let D := (fun o => X k.+1 o - Y o) : rvec W n in
  let E := (fun o => xp k o - Y o) : rvec W n in
  moment D D = pred_P s k + moment E E.
Proof.
move=> Hk aY; have [hm hc hz _ _] := est_errp HW sw0 swk Hk (est_all HW sw0 swk inn (ltnW Hk)).
exact: (best_of HW (ltnW Hk) (L2X HW Hk) (xp_aff sw0 swk Hk)).
Qed.
End Innov.
