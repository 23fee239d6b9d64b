(** * LeastSqG: the filter and the smoother as least squares over disturbances

    The process noise of step k enters through a matrix: X_{k+1} = A X_k + c +
    G_k u_k, the initial state is x0 + G0 a.  The covariances are Q_k =
    G_k D_k G_k^T and P0 = G0 D0 G0^T: every covariance, singular or not, is of
    this form.  Proved by adjoint equations; no predicted covariance need be
    invertible. *)
From mathcomp Require Import all_ssreflect all_algebra.
From Verif Require Import Exact Textbook RingTac Loewner KalmanAlg TextbookThms Factor.

Set Implicit Arguments.
Unset Strict Implicit.
Unset Printing Implicit Defensive.
Import GRing.Theory Num.Theory Order.Theory.
Local Open Scope ring_scope.

Section LeastSqG.
Variable F : realFieldType.
Add Ring Fring : (mc_ring F).
Add Ring Fring1 : (mc_ring1 F).
Add Ring Fring2 : (mc_ring2 F).
Ltac mring := mc_norm F; mc_eq; ring.
Ltac mxadd := mx_atoms F; let i := fresh in let j := fresh in apply/matrixP => i j; rewrite !mxE; mring.
Lemma fit_alg n m (P : 'M[F]_n) (H : 'M[F]_(m, n)) (S R : 'M[F]_m) (v : 'cV[F]_n) (x : 'cV[F]_m) :
  H *m P *m H^T = S - R ->
  H *m (P *m (v + H^T *m invmx S *m x)) = H *m P *m v + (S - R) *m (invmx S *m x).
Proof. by move=> <-; rewrite !mulmxDr !mulmxA. Qed.

Variables (n m q0 q : nat) (s : model F n m).
Variables (G0 : 'M[F]_(n, q0)) (D0 : 'M[F]_q0) (G : nat -> 'M[F]_(n, q)) (D : nat -> 'M[F]_q).

(** Specification: the trajectory of a start and disturbances, and what they
    cost together with the misfit of the observations 0 .. k-1. *)
Fixpoint path (a : 'cV[F]_q0) (u : nat -> 'cV[F]_q) (k : nat) : 'cV[F]_n :=
  if k is j.+1 then mA s j *m path a u j + mc s j + G j *m u j else mx0 s + G0 *m a.
Definition effort (k : nat) (a : 'cV[F]_q0) (u : nat -> 'cV[F]_q) : F :=
  quad (invmx D0) a +
  \sum_(j < k) (quad (invmx (D j)) (u j) + quad (invmx (mR s j)) (mz s j - mH s j *m path a u j.+1)).

Variable T : nat.
Hypothesis hP0 : mP0 s = G0 *m D0 *m G0^T.
Hypothesis hD0 : pd D0.
Hypothesis hQ : forall k, (k < T)%N -> mQ s k = G k *m D k *m (G k)^T.
Hypothesis hD : forall k, (k < T)%N -> pd (D k).
Hypothesis hR : forall k, (k < T)%N -> pd (mR s k).

Lemma Q_psd k : (k < T)%N -> psd (mQ s k).
Proof. by move=> Hk; rewrite hQ //; exact/psd_conj/pd_psd/hD. Qed.
Lemma P0_psd : psd (mP0 s).
Proof. by rewrite hP0; exact/psd_conj/pd_psd. Qed.
Lemma S_unit k : (k < T)%N -> innov s k \in unitmx.
Proof. exact: (innov_unit P0_psd Q_psd hR). Qed.
Lemma post_sym k : (k <= T)%N -> (post_P s k)^T = post_P s k.
Proof. by move=> Hk; case: (post_psd_pd P0_psd Q_psd hR Hk). Qed.
Lemma pred_sym k : (k < T)%N -> (pred_P s k)^T = pred_P s k.
Proof. by move=> Hk; case: (pd_pred_ppsd P0_psd Q_psd hR Hk). Qed.

(** ** The adjoint *)
Section Horizon.
Variable L : nat.
Hypothesis LT : (L <= T)%N.
Definition lam_of (k : nat) (v : 'cV[F]_n) : 'cV[F]_n :=
  (mH s k)^T *m invmx (innov s k) *m (mz s k - mH s k *m pred_x s k) + (1%:M - gain_at s k *m mH s k)^T *m v.
Fixpoint adj (i : nat) : 'cV[F]_n :=
  if i is j.+1 then let k := (L - i)%N in (mA s k)^T *m lam_of k (adj j) else 0.
Definition nu k := adj (L - k).
Definition lam k := lam_of k (nu k.+1).
Lemma nuL : nu L = 0. Proof. by rewrite /nu subnn. Qed.
Lemma nuS k : (k < L)%N -> nu k = (mA s k)^T *m lam k.
Proof.
move=> Hk; rewrite /lam /nu; have -> : (L - k = (L - k.+1).+1)%N by rewrite subnSK.
by rewrite /=; have -> : (L - (L - k.+1).+1 = k)%N by rewrite subnSK // subKn // ltnW.
Qed.

Definition xbest k := post_x s k + post_P s k *m nu k.
Definition ubest k := D k *m (G k)^T *m lam k.
Definition abest := D0 *m G0^T *m nu 0.

Lemma xbestL : xbest L = post_x s L. Proof. by rewrite /xbest nuL mulmx0 addr0. Qed.

Lemma pred_lam k : (k < L)%N -> pred_x s k + pred_P s k *m lam k = xbest k.+1.
Proof.
move=> Hk; have HkT := leq_trans Hk LT.
have EP : post_P s k.+1 = pred_P s k *m (1%:M - gain_at s k *m mH s k)^T.
  by rewrite -(post_sym HkT) post_PS /upost trmx_mul pred_sym.
rewrite /xbest EP post_xS /ucorr -gainE /lam /lam_of mulmxDr addrA -[in RHS]mulmxA; congr (_ + _ + _).
by rewrite gainE /ugain -innovE !mulmxA.
Qed.

Lemma path_best k : (k <= L)%N -> path abest ubest k = xbest k.
Proof.
elim: k => [|k IH] Hk; first by rewrite /= /xbest /abest !mulmxA -hP0.
rewrite -pred_lam // pred_xE pred_PE /ucov hQ ?(leq_trans Hk LT) //.
rewrite [LHS]/= IH ?(ltnW Hk) // {1}/xbest (nuS Hk) /ubest; move: (lam k) => l.
rewrite mulmxDl !mulmxDr !mulmxA -!addrA; congr (_ + _).
by rewrite addrCA.
Qed.

Lemma fit_best k : (k < L)%N ->
  (mH s k)^T *m invmx (mR s k) *m (mz s k - mH s k *m xbest k.+1) = lam k - nu k.+1.
Proof.
move=> Hk; have HkT := leq_trans Hk LT; have hu := S_unit HkT; have ru := pd_unit (hR HkT).
have sS : (innov s k)^T = innov s k by case: (pd_innov P0_psd Q_psd hR HkT).
rewrite -pred_lam //; set P := pred_P s k; set H := mH s k; set S := innov s k.
have [y Ey] : {y | y = mz s k - H *m pred_x s k} by exists (mz s k - H *m pred_x s k).
pose w := y - H *m P *m nu k.+1.
have El : lam k = nu k.+1 + H^T *m invmx S *m w.
  rewrite /lam /lam_of -/H -/S -Ey /w [(_ - _)^T]raddfB /= trmx1 mulmxBl mul1mx.
  rewrite trmx_mul gainE /ugain -innovE -/S trmx_mul trmx_inv sS trmx_mul trmxK pred_sym // -/P -/H.
  by rewrite mulmxBr !mulmxA addrCA.
rewrite [in RHS]El addrAC subrr add0r.
have ES : H *m P *m H^T = S - mR s k by rewrite /S innovE /ucov addrK.
have e (v : 'cV_n) (x : 'cV_m) := fit_alg v x ES.
have -> : mz s k - H *m (pred_x s k + P *m lam k) = mR s k *m (invmx S *m w).
  rewrite mulmxDr opprD addrA -Ey El e opprD addrA -/w; move: (w) => x.
  rewrite mulmxBl (mulmxA S) mulmxV // mul1mx opprB.
  by rewrite addrCA subrr addr0.
by rewrite !mulmxA mulmxKV.
Qed.

(** What another start and other disturbances cost more. *)
Section Other.
Variables (a : 'cV[F]_q0) (u : nat -> 'cV[F]_q).
Let da := a - abest.
Let du k := u k - ubest k.
Let d k := path a u k - path abest ubest k.
Definition excess (k : nat) : F :=
  quad (invmx D0) da + \sum_(j < k) (quad (invmx (D j)) (du j) + quad (invmx (mR s j)) (mH s j *m d j.+1)).

Let d0E : d 0 = G0 *m da.
Proof. by rewrite /d /= /da mulmxBr opprD addrACA subrr add0r. Qed.
Let dS k : d k.+1 = mA s k *m d k + G k *m du k.
Proof.
rewrite /d [path a u k.+1]/= [path abest ubest k.+1]/= !opprD addrACA (addrACA _ (mc s k)) subrr addr0.
by rewrite -!mulmxBr.
Qed.

Lemma effortS k b v : effort k.+1 b v =
  effort k b v + (quad (invmx (D k)) (v k) + quad (invmx (mR s k)) (mz s k - mH s k *m path b v k.+1)).
Proof. by rewrite /effort [in LHS]big_ord_recr [LHS]addrA. Qed.
Lemma excessS k : excess k.+1 =
  excess k + (quad (invmx (D k)) (du k) + quad (invmx (mR s k)) (mH s k *m d k.+1)).
Proof. by rewrite /excess [in LHS]big_ord_recr [LHS]addrA. Qed.

Lemma effortE k : (k <= L)%N ->
  effort k a u = effort k abest ubest + excess k + ((nu k)^T *m d k) 0 0 *+ 2.
Proof.
elim: k => [|k IH] Hk.
  rewrite /effort /excess !big_ord0 !addr0 d0E.
  have Ea : a = abest + da by rewrite /da addrC subrK.
  have s0 : (invmx D0)^T = invmx D0 by rewrite trmx_inv hD0.1.
  rewrite {1}Ea quad_add //; congr (_ + _ *+ 2).
  rewrite /abest !trmx_mul trmxK hD0.1 !mulmxA; congr ((_ *m _) 0 0).
  by rewrite -!mulmxA mulmxV ?mulmx1 //; exact: pd_unit.
have HkT := leq_trans Hk LT.
have [sD uD] : (D k)^T = D k /\ D k \in unitmx by split; [case: (hD HkT)|exact/pd_unit/hD].
have [sR uR] : (mR s k)^T = mR s k /\ mR s k \in unitmx by split; [case: (hR HkT)|exact/pd_unit/hR].
have siD : (invmx (D k))^T = invmx (D k) by rewrite trmx_inv sD.
have siR : (invmx (mR s k))^T = invmx (mR s k) by rewrite trmx_inv sR.
have E1 : quad (invmx (D k)) (u k) = quad (invmx (D k)) (ubest k) + quad (invmx (D k)) (du k) +
    ((lam k)^T *m (G k *m du k)) 0 0 *+ 2.
  have Eu : u k = ubest k + du k by rewrite /du addrC subrK.
  rewrite {1}Eu quad_add //; congr (_ + _ *+ 2); rewrite {1}/ubest !trmx_mul trmxK sD !mulmxA.
  by congr ((_ *m _) 0 0); rewrite -!mulmxA mulmxV ?mulmx1.
have E2 : quad (invmx (mR s k)) (mz s k - mH s k *m path a u k.+1) =
    quad (invmx (mR s k)) (mz s k - mH s k *m path abest ubest k.+1) + quad (invmx (mR s k)) (mH s k *m d k.+1) -
    ((lam k - nu k.+1)^T *m d k.+1) 0 0 *+ 2.
  have Ep : mz s k - mH s k *m path a u k.+1 = (mz s k - mH s k *m path abest ubest k.+1) + - (mH s k *m d k.+1).
    by rewrite /d mulmxBr opprB addrA subrK.
  rewrite Ep quad_add // quadxN mulmxN [X in X *+ 2]mxE mulNrn; congr (_ - _ *+ 2).
  rewrite -fit_best // path_best // !trmx_mul trmxK siR !mulmxA.
  by [].
have E3 : ((lam k)^T *m d k.+1) 0 0 = ((nu k)^T *m d k) 0 0 + ((lam k)^T *m (G k *m du k)) 0 0.
  by rewrite dS mulmxDr mxE nuS // trmx_mul trmxK mulmxA.
have E4 : ((lam k - nu k.+1)^T *m d k.+1) 0 0 = ((lam k)^T *m d k.+1) 0 0 - ((nu k.+1)^T *m d k.+1) 0 0.
  by rewrite [(_ - _)^T]raddfB mulmxBl !mxE.
rewrite !effortS excessS (IH (ltnW Hk)) E1 E2 E4 E3 !mulr2n.
move: (effort _ _ _) (excess _) (quad _ _) (quad _ _) (quad _ _) (quad _ _) => e1 e2 e3 e4 e5 e6.
move: (((nu k)^T *m d k) 0 0) (((lam k)^T *m _) 0 0) (((nu k.+1)^T *m _) 0 0) => v1 v2 v3.
mring.
Qed.

Lemma excess_ge0 k : (k <= T)%N -> 0 <= excess k.
Proof.
move=> Hk; rewrite addr_ge0 //; first by apply: (pd_psd _).2; exact: pd_inv.
apply: sumr_ge0 => -[j Hj] _; have HjT := leq_trans Hj Hk; rewrite addr_ge0 //.
  by apply: (pd_psd _).2; exact/pd_inv/hD.
by apply: (pd_psd _).2; exact/pd_inv/hR.
Qed.

Lemma excess_eq0 k : (k <= T)%N -> excess k = 0 -> a = abest /\ forall j, (j < k)%N -> u j = ubest j.
Proof.
have pos r (M : 'M[F]_r) : pd M -> forall x : 'cV[F]_r, 0 <= quad (invmx M) x.
  by move=> hM x; apply: (pd_psd _).2; exact: pd_inv.
have zero r (M : 'M[F]_r) : pd M -> forall x : 'cV[F]_r, quad (invmx M) x = 0 -> x = 0.
  move=> hM x Hq; apply/eqP/negPn/negP => hx; have [_ /(_ x hx)] := pd_inv hM.
  by rewrite Hq ltxx.
move=> Hk /eqP; rewrite /excess paddr_eq0; [|exact: pos|]; last first.
  apply: sumr_ge0 => -[j Hj] _; have HjT := leq_trans Hj Hk; apply: addr_ge0; apply: pos; [exact: hD|exact: hR].
case/andP=> /eqP /(zero _ _ hD0) /eqP; rewrite subr_eq0 => /eqP h1.
rewrite psumr_eq0 => [|[j Hj] _]; last first.
  have HjT := leq_trans Hj Hk; apply: addr_ge0; apply: pos; [exact: hD|exact: hR].
move=> /allP h; split=> // j Hj; have HjT := leq_trans Hj Hk.
have /eqP := h (Ordinal Hj) (mem_index_enum _); cbn [nat_of_ord] => /eqP.
rewrite paddr_eq0; [|exact/pos/hD|exact/pos/hR].
by case/andP=> /eqP /(zero _ _ (hD HjT)) /eqP; rewrite subr_eq0 => /eqP h2 _.
Qed.
End Other.

Lemma best_is_best a u : effort L abest ubest <= effort L a u.
Proof. by rewrite [X in _ <= X]effortE // nuL trmx0 mul0mx mxE mul0rn addr0 ler_addl; exact: excess_ge0. Qed.

Lemma best_only a u : effort L a u = effort L abest ubest -> a = abest /\ forall j, (j < L)%N -> u j = ubest j.
Proof.
rewrite [X in X = _ -> _]effortE // nuL trmx0 mul0mx mxE mul0rn addr0 -[X in _ = X -> _]addr0 => /addrI.
exact: excess_eq0.
Qed.
End Horizon.

(** The smoother's states are the best trajectory. *)
Lemma smooth_xbest L k : (L < T)%N -> (forall i, (i < L)%N -> pred_P s i.+1 \in unitmx) -> (k <= L)%N ->
  smooth_x s L k = xbest L.+1 k.+1.
Proof.
move=> HL Hu; suff H i : (i <= L)%N -> smooth_x s L (L - i) = xbest L.+1 (L - i).+1.
  by move=> Hk; rewrite -(subKn Hk); apply: H; exact: leq_subr.
elim: i => [|i IH] Hi; first by rewrite subn0 smooth_xT xbestL.
set j := (L - i.+1)%N; have Ej : (L - i = j.+1)%N by rewrite /j subnSK.
have Hj : (j < L)%N by rewrite -Ej leq_subr.
have := IH (ltnW Hi); rewrite Ej => E; rewrite smooth_xS // E /xbest -/(xbest _ _).
rewrite -(@pred_lam L.+1) // addrAC subrr add0r (@nuS L.+1) //.
by rewrite /sgain !mulmxA mulmxKV // Hu.
Qed.
End LeastSqG.
