(** * Sums: estimating a constant (A = 1, Q = 0, no input): the estimate is a
    function of two sums over the readings *)
From mathcomp Require Import all_ssreflect all_algebra.
From Verif Require Import Textbook RingTac Loewner KalmanAlg TextbookThms.

Set Implicit Arguments.
Unset Strict Implicit.
Unset Printing Implicit Defensive.
Import GRing.Theory Num.Theory.
Local Open Scope ring_scope.

Section Sums.
Variable F : realFieldType.
Add Ring Fring : (mc_ring F).
Add Ring Fring1 : (mc_ring1 F).
Add Ring Fring2 : (mc_ring2 F).
Ltac mring := mc_norm F; mc_eq; ring.
Ltac mxadd := mx_atoms F; let i := fresh in let j := fresh in apply/matrixP => i j; rewrite !mxE; mring.
Variables n m : nat.
Variable s : model F n m.
Variable T : nat.
Hypothesis con : forall k, (k < T)%N -> [/\ mA s k = 1%:M, mc s k = 0 & mQ s k = 0].
Hypothesis rR : forall k, (k < T)%N -> mR s k \in unitmx.
Hypothesis u : forall k, (k < T)%N -> innov s k \in unitmx.

(** Weight and weighted readings of the first k steps. *)
Definition weight k : 'M[F]_n := \sum_(j < k) (mH s j)^T *m invmx (mR s j) *m mH s j.
Definition weighted k : 'cV[F]_n := \sum_(j < k) (mH s j)^T *m invmx (mR s j) *m mz s j.

Lemma con_pred k : (k < T)%N -> pred_x s k = post_x s k /\ pred_P s k = post_P s k.
Proof.
move=> Hk; have [a c q] := con Hk.
by rewrite /pred_x /pred_P /prior_x /prior_P a c q trmx1 !mul1mx mulmx1 !addr0.
Qed.

(** One correction: the new covariance times 1 + H' R^-1 H P is the old one. *)
Lemma one_step (P : 'M[F]_n) H (R : 'M[F]_m) : R \in unitmx -> ucov P H R \in unitmx ->
  let W := H^T *m invmx R *m H in
  upost P H R *m (1%:M + W *m P) = P /\ 1%:M + W *m P \in unitmx.
Proof.
move=> uR uS W; split.
  rewrite /W mulmxDr mulmx1 !mulmxA -gain_info // /upost mulmxBl mul1mx; mxadd.
have E : (1%:M - H^T *m invmx (ucov P H R) *m H *m P) *m (1%:M + W *m P) = 1%:M.
  have X : invmx (ucov P H R) *m (H *m P *m H^T) *m invmx R = invmx R - invmx (ucov P H R).
    have -> : H *m P *m H^T = ucov P H R - R by rewrite /ucov addrK.
    by rewrite mulmxBr mulmxBl mulVmx // mul1mx -(mulmxA _ R) mulmxV // mulmx1.
  rewrite mulmxDr mulmx1 mulmxBl mul1mx /W.
  have -> : H^T *m invmx (ucov P H R) *m H *m P *m (H^T *m invmx R *m H *m P) =
            H^T *m (invmx (ucov P H R) *m (H *m P *m H^T) *m invmx R) *m (H *m P) by rewrite !mulmxA.
  rewrite X mulmxBr mulmxBl !mulmxA; mxadd.
by have [] := mulmx1_unit E.
Qed.

Lemma weightS k : weight k.+1 = weight k + (mH s k)^T *m invmx (mR s k) *m mH s k.
Proof. by rewrite /weight big_ord_recr. Qed.
Lemma weightedS k : weighted k.+1 = weighted k + (mH s k)^T *m invmx (mR s k) *m mz s k.
Proof. by rewrite /weighted big_ord_recr. Qed.

Lemma post_step k : (k < T)%N ->
  [/\ ucov (post_P s k) (mH s k) (mR s k) \in unitmx,
      post_P s k.+1 = upost (post_P s k) (mH s k) (mR s k) &
      post_x s k.+1 = post_x s k + post_P s k.+1 *m ((mH s k)^T *m invmx (mR s k) *m mz s k - (mH s k)^T *m invmx (mR s k) *m mH s k *m post_x s k)].
Proof.
move=> Hk; have [ex eP] := con_pred Hk; have US := u Hk; rewrite /innov eP in US.
have EP : post_P s k.+1 = upost (post_P s k) (mH s k) (mR s k) by rewrite [LHS]/= -/(pred_P s k) eP.
split=> //; rewrite EP [post_x _ _]/= -/(pred_P s k) -/(pred_x s k) ex eP /corr_x.
rewrite (_ : kgain s k _ = ugain (post_P s k) (mH s k) (mR s k)) // gain_info ?rR //.
by rewrite !mulmxBr !mulmxA.
Qed.

Lemma sum_P k : (k <= T)%N ->
  post_P s k *m (1%:M + weight k *m mP0 s) = mP0 s /\ 1%:M + weight k *m mP0 s \in unitmx.
Proof.
elim: k => [_|k IH Hk]; first by rewrite /weight big_ord0 mul0mx addr0 mulmx1 unitmx1.
have [E U1] := IH (ltnW Hk); have [US EP _] := post_step Hk.
have [E1 U2] := one_step (rR Hk) US.
have Ef : 1%:M + weight k.+1 *m mP0 s =
   (1%:M + (mH s k)^T *m invmx (mR s k) *m mH s k *m post_P s k) *m (1%:M + weight k *m mP0 s).
  by rewrite (mulmxDl 1%:M) mul1mx -mulmxA E weightS mulmxDl addrA.
by rewrite Ef unitmx_mul U1 U2 mulmxA EP E1.
Qed.

Lemma sum_x k : (k <= T)%N ->
  post_x s k = mx0 s + post_P s k *m (weighted k - weight k *m mx0 s).
Proof.
elim: k => [_|k IH Hk]; first by rewrite /weight /weighted !big_ord0 mul0mx subr0 mulmx0 addr0.
have E := IH (ltnW Hk); have [US EP Ex] := post_step Hk; have [E1 _] := one_step (rR Hk) US.
move: E1; rewrite -EP mulmxDr mulmx1 => E1.
rewrite Ex E weightS weightedS; move: E1.
set W := _ *m invmx _ *m mH s k; set b := _ *m mz s k; set c := weighted k - _; set Pn := post_P s k.+1; set P := post_P s k => E1.
rewrite -{1}E1 (_ : weighted k + b - (weight k + W) *m mx0 s = c + (b - W *m mx0 s)); last by rewrite /c mulmxDl; mxadd.
move: (mx0 s) => x0; clearbody W b c Pn P; clear.
rewrite mulmxDl !mulmxDr !mulmxN !mulmxDr !mulmxA; mxadd.
Qed.
End Sums.

Section Two.
Variable F : realFieldType.
Variables n m m' : nat.
Variables (s : model F n m) (s' : model F n m') (T T' : nat).
Hypothesis con : forall k, (k < T)%N -> [/\ mA s k = 1%:M, mc s k = 0 & mQ s k = 0].
Hypothesis con' : forall k, (k < T')%N -> [/\ mA s' k = 1%:M, mc s' k = 0 & mQ s' k = 0].
Hypothesis rR : forall k, (k < T)%N -> mR s k \in unitmx.
Hypothesis rR' : forall k, (k < T')%N -> mR s' k \in unitmx.
Hypothesis u : forall k, (k < T)%N -> innov s k \in unitmx.
Hypothesis u' : forall k, (k < T')%N -> innov s' k \in unitmx.
Hypothesis e0 : mx0 s' = mx0 s /\ mP0 s' = mP0 s.

Lemma same_sums k k' : (k <= T)%N -> (k' <= T')%N ->
  weight s' k' = weight s k -> weighted s' k' = weighted s k ->
  post_x s' k' = post_x s k /\ post_P s' k' = post_P s k.
Proof.
move=> Hk Hk' E1 E2; have [ex eP] := e0.
have EP : post_P s' k' = post_P s k.
  have [A1 A2] := sum_P con rR u Hk; have [B1 _] := sum_P con' rR' u' Hk'.
  apply: (can_inj (mulmxK A2)); rewrite A1; move: B1.
  by rewrite E1 eP.
by split=> //; rewrite (sum_x con rR u Hk) (sum_x con' rR' u' Hk') EP E1 E2 ex.
Qed.
End Two.

Section Smooth.
Variable F : realFieldType.
Variables n m : nat.
Variable s : model F n m.
Variable L : nat.
Hypothesis con : forall k, (k <= L)%N -> [/\ mA s k = 1%:M, mc s k = 0 & mQ s k = 0].
Hypothesis up : forall k, (k < L)%N -> pred_P s k.+1 \in unitmx.

Lemma smooth_const k : (k <= L)%N -> smooth_x s L k = post_x s L.+1 /\ smooth_P s L k = post_P s L.+1.
Proof.
move=> Hk; rewrite /smooth_x /smooth_P.
have : (L - k <= L)%N by exact: leq_subr.
elim: (L - k)%N => [|i IH] Hi //=.
have [-> ->] := IH (ltnW Hi).
have Hj : (L - i.+1 < L)%N by rewrite ltn_subrL (leq_trans _ Hi).
set j := (L - i.+1)%N in Hj *; have Hj' : (j.+1 < L.+1)%N by rewrite ltnS.
have [ex eP] := con_pred (T := L.+1) (fun k Hk => con Hk) Hj'.
have [a _ _] := con Hj.
have uj := up Hj; rewrite eP in uj.
have -> : sgain s j = 1%:M by rewrite /sgain a trmx1 mulmx1 eP mulmxV.
by rewrite trmx1 !mul1mx mulmx1 ex eP; split; rewrite addrC subrK.
Qed.
End Smooth.
