(** * Robust: estimation errors as linear functions of the noises

    The errors of the textbook filter and smoother of a model s are linear
    functions of the noises in the data, whatever the noises are.  With white
    noises of the model's covariances their covariance is the computed one
    (BestLin.v; such noises always exist, Factor.v); with smaller covariances it
    is at most the computed one. *)
From mathcomp Require Import all_ssreflect all_algebra.
From Verif Require Import RingTac Loewner KalmanAlg Textbook TextbookThms Prob RobustSpec BestLin Factor.

Set Implicit Arguments.
Unset Strict Implicit.
Unset Printing Implicit Defensive.
Import GRing.Theory Num.Theory Order.Theory.
Local Open Scope ring_scope.

Section Forms.
Variable F : realFieldType.
Variables n m T : nat.

Record nform d := NForm { nf_e : 'M[F]_(d, n); nf_w : nat -> 'M[F]_(d, n); nf_v : nat -> 'M[F]_(d, m) }.

Definition evalf d (c : nform d) (e : 'cV[F]_n) (w : nat -> 'cV[F]_n) (v : nat -> 'cV[F]_m) : 'cV[F]_d :=
  nf_e c *m e + \sum_(j < T) nf_w c j *m w j + \sum_(j < T) nf_v c j *m v j.
Definition covf d (c : nform d) (P0 : 'M[F]_n) (Q : nat -> 'M[F]_n) (R : nat -> 'M[F]_m) : 'M[F]_d :=
  nf_e c *m P0 *m (nf_e c)^T + \sum_(j < T) nf_w c j *m Q j *m (nf_w c j)^T +
  \sum_(j < T) nf_v c j *m R j *m (nf_v c j)^T.

Definition form_add d (c c' : nform d) : nform d :=
  NForm (nf_e c + nf_e c') (fun j => nf_w c j + nf_w c' j) (fun j => nf_v c j + nf_v c' j).
Definition form_mul d d' (M : 'M[F]_(d', d)) (c : nform d) : nform d' :=
  NForm (M *m nf_e c) (fun j => M *m nf_w c j) (fun j => M *m nf_v c j).
Definition form_e : nform n := NForm 1%:M (fun _ => 0) (fun _ => 0).
Definition form_w k : nform n := NForm 0 (fun j => if j == k then 1%:M else 0) (fun _ => 0).
Definition form_v k : nform m := NForm 0 (fun _ => 0) (fun j => if j == k then 1%:M else 0).

Lemma eval_add d (c c' : nform d) e w v : evalf (form_add c c') e w v = evalf c e w v + evalf c' e w v.
Proof.
rewrite /evalf /= mulmxDl addrACA; congr (_ + _).
  by rewrite addrACA; congr (_ + _); rewrite -big_split; apply: eq_bigr => j _; rewrite mulmxDl.
by rewrite -big_split; apply: eq_bigr => j _; rewrite mulmxDl.
Qed.
Lemma eval_mul d d' (M : 'M[F]_(d', d)) (c : nform d) e w v : evalf (form_mul M c) e w v = M *m evalf c e w v.
Proof.
rewrite /evalf /= !mulmxDr mulmxA !mulmx_sumr.
by congr (_ + _ + _); apply: eq_bigr => j _; rewrite mulmxA.
Qed.
Lemma eval_e e w v : evalf form_e e w v = e.
Proof. by rewrite /evalf /= mul1mx !big1 ?addr0 // => j _; rewrite mul0mx. Qed.
Lemma eval_w k e w v : (k < T)%N -> evalf (form_w k) e w v = w k.
Proof.
move=> Hk; rewrite /evalf /= mul0mx add0r (bigD1 (Ordinal Hk)) //= eqxx mul1mx !big1 ?addr0 // => [j|j Hj].
  by rewrite mul0mx.
by rewrite -(inj_eq val_inj) /= in Hj; rewrite (negbTE Hj) mul0mx.
Qed.
Lemma eval_v k e w v : (k < T)%N -> evalf (form_v k) e w v = v k.
Proof.
move=> Hk; rewrite /evalf /= mul0mx add0r [X in X + _]big1 => [|j _]; last by rewrite mul0mx.
rewrite add0r (bigD1 (Ordinal Hk)) //= eqxx mul1mx big1 ?addr0 // => j Hj.
by rewrite -(inj_eq val_inj) /= in Hj; rewrite (negbTE Hj) mul0mx.
Qed.

Lemma covf_le d (c : nform d) P0 Q R P0' Q' R' : loewner P0 P0' ->
  (forall k, (k < T)%N -> loewner (Q k) (Q' k) /\ loewner (R k) (R' k)) ->
  loewner (covf c P0 Q R) (covf c P0' Q' R').
Proof.
move=> h0 h; have sum (A A' : 'I_T -> 'M[F]_d) : (forall j, loewner (A j) (A' j)) ->
    loewner (\sum_j A j) (\sum_j A' j).
  by move=> H; apply: (big_ind2 (@loewner F d)) => //; [exact: loewner_refl|exact: loewner_add].
apply: loewner_add; first apply: loewner_add; first exact: loewner_conj.
- by apply: sum => j; apply: loewner_conj; have [] := h j (ltn_ord j).
by apply: sum => j; apply: loewner_conj; have [] := h j (ltn_ord j).
Qed.

(** ** Moments *)
Section Moments.
Variable W : prob F.
Notation rvec := (rvec W).

Lemma L2v_sum d (N : nat) (X : nat -> rvec d) : (forall j, (j < N)%N -> L2v (X j)) ->
  L2v ((fun o => \sum_(j < N) X j o) : rvec d).
Proof.
elim: N => [|N IH] H.
  by apply: L2v_ext (L2v_const _ 0) => o; rewrite big_ord0.
apply: L2v_ext (L2v_add (IH (fun j Hj => H j (ltnW Hj))) (H N (ltnSn N))) => o.
by rewrite big_ord_recr.
Qed.

Lemma moment_suml d d' (N : nat) (X : nat -> rvec d) (Y : rvec d') : (forall j, (j < N)%N -> L2v (X j)) -> L2v Y ->
  moment ((fun o => \sum_(j < N) X j o) : rvec d) Y = \sum_(j < N) moment (X j) Y.
Proof.
move=> + HY; elim: N => [|N IH] H.
  rewrite big_ord0 -moment_tr (eq_moment (X' := Y) (Y' := (fun=> 0) : rvec d)) //; last by move=> o; rewrite big_ord0.
  by rewrite moment_cr // trmx0 mulmx0 trmx0.
have H' j : (j < N)%N -> L2v (X j) by move=> Hj; exact: (H j (ltnW Hj)).
rewrite big_ord_recr /= -IH // -momentDl //; [|exact: L2v_sum|exact: (H N (ltnSn N))].
by apply: eq_moment => // o; rewrite big_ord_recr.
Qed.

Variables (e : rvec n) (w : nat -> rvec n) (v : nat -> rvec m).

Definition rform d (c : nform d) : rvec d := fun o => evalf c (e o) (fun j => w j o) (fun j => v j o).

Notation centred_noises := (centred_noises T e w v).

Section Centred.
Hypothesis HC : centred_noises.
Let Le : L2v e. Proof. by case: HC. Qed.
Let Lw k : (k < T)%N -> L2v (w k). Proof. by case: HC => _ _ H /H []. Qed.
Let Lv k : (k < T)%N -> L2v (v k). Proof. by case: HC => _ _ H /H []. Qed.

Lemma L2form d (c : nform d) : L2v (rform c).
Proof.
apply: L2v_add; first apply: L2v_add.
- exact: L2v_mul Le.
- by apply: (@L2v_sum _ _ (fun j o => nf_w c j *m w j o)) => j Hj; exact: L2v_mul (Lw Hj).
by apply: (@L2v_sum _ _ (fun j o => nf_v c j *m v j o)) => j Hj; exact: L2v_mul (Lv Hj).
Qed.

Lemma m_form d d' (c : nform d) (Y : rvec d') : L2v Y ->
  moment (rform c) Y = nf_e c *m moment e Y + \sum_(j < T) nf_w c j *m moment (w j) Y +
    \sum_(j < T) nf_v c j *m moment (v j) Y.
Proof.
move=> HY; have L1 := Le.
have L2 j : (j < T)%N -> L2v ((fun o => nf_w c j *m w j o) : rvec d) by move=> Hj; exact: L2v_mul (Lw Hj).
have L3 j : (j < T)%N -> L2v ((fun o => nf_v c j *m v j o) : rvec d) by move=> Hj; exact: L2v_mul (Lv Hj).
rewrite [LHS]momentDl //; last 2 first.
- by apply: L2v_add; [exact: L2v_mul|exact: (L2v_sum (X := fun j o => nf_w c j *m w j o))].
- exact: (L2v_sum (X := fun j o => nf_v c j *m v j o)).
rewrite momentDl //; last 2 first.
- exact: L2v_mul.
- exact: (L2v_sum (X := fun j o => nf_w c j *m w j o)).
rewrite momentMl // (moment_suml (X := fun j o => nf_w c j *m w j o)) //.
rewrite (moment_suml (X := fun j o => nf_v c j *m v j o)) //.
congr (_ + _ + _); apply: eq_bigr => j _; rewrite momentMl //; [exact: (Lw (ltn_ord j))|exact: (Lv (ltn_ord j))].
Qed.

Lemma form_mean d (c : nform d) : mean (rform c) = 0.
Proof.
rewrite meanE m_form; last exact: L2v_const.
rewrite -meanE; case: HC => _ -> Hm; rewrite mulmx0 add0r !big1 ?addr0 // => j _; rewrite -meanE.
  by have [_ _ _ ->] := Hm j (ltn_ord j); rewrite mulmx0.
by have [_ _ -> _] := Hm j (ltn_ord j); rewrite mulmx0.
Qed.

End Centred.

Variable s : model F n m.
Hypothesis HW : white_noises s T e w v.
Lemma white_centred : centred_noises.
Proof.
split; [exact: (L2e HW)|by case: HW|move=> k Hk; split].
- exact: (L2w HW).
- exact: (L2vv HW).
- exact: (mean_w HW).
exact: (mean_v HW).
Qed.
Let HC := white_centred.

Lemma form_cov d (c : nform d) : moment (rform c) (rform c) = covf c (mP0 s) (mQ s) (mR s).
Proof.
have ww (i j : 'I_T) : i != j -> moment (w i) (w j) = 0.
  rewrite -(inj_eq val_inj) /= neq_ltn => /orP [] H; last exact: (m_wlt HW).
  by rewrite -moment_tr (m_wlt HW) ?trmx0.
have vv (i j : 'I_T) : i != j -> moment (v i) (v j) = 0.
  rewrite -(inj_eq val_inj) /= neq_ltn => /orP [] H; last exact: (m_vlt HW).
  by rewrite -moment_tr (m_vlt HW) ?trmx0.
have Le := L2e HW.
have me : moment (rform c) e = nf_e c *m mP0 s.
  rewrite (m_form HC) //; case: (HW) => _ _ -> _ _; rewrite !big1 ?addr0 // => j _.
    by rewrite (m_ve HW) ?mulmx0.
  by rewrite (m_we HW) ?mulmx0.
have mw (k : 'I_T) : moment (rform c) (w k) = nf_w c k *m mQ s k.
  have Hk := ltn_ord k; rewrite (m_form HC); last exact: (L2w HW Hk).
  rewrite -moment_tr (m_we HW) // trmx0 mulmx0 add0r [X in _ + X]big1 => [|j _]; last by rewrite (m_vw HW) ?mulmx0.
  rewrite addr0 (bigD1 k) //= (m_ww HW) // big1 ?addr0 // => j Hj; by rewrite ww ?mulmx0.
have mv (k : 'I_T) : moment (rform c) (v k) = nf_v c k *m mR s k.
  have Hk := ltn_ord k; rewrite (m_form HC); last exact: (L2vv HW Hk).
  rewrite -moment_tr (m_ve HW) // trmx0 mulmx0 add0r [X in X + _]big1 => [|j _]; last by rewrite (m_wv HW) ?mulmx0.
  rewrite add0r (bigD1 k) //= (m_vv HW) // big1 ?addr0 // => j Hj; by rewrite vv ?mulmx0.
rewrite (m_form HC); last exact: (L2form HC).
have tre : moment e (rform c) = mP0 s *m (nf_e c)^T.
  by rewrite -moment_tr me trmx_mul; case: (HW) => _ _ <- _ _; rewrite moment_tr.
rewrite tre mulmxA; congr (_ + _ + _); apply: eq_bigr => j _.
  by rewrite -moment_tr mw trmx_mul -(m_ww HW) // moment_tr mulmxA.
by rewrite -moment_tr mv trmx_mul -(m_vv HW) // moment_tr mulmxA.
Qed.
End Moments.
End Forms.

Section Errors.
Variable F : realFieldType.
Variables (n m : nat) (s : model F n m) (T : nat).
Add Ring Fring : (mc_ring F).
Add Ring Fring1 : (mc_ring1 F).
Add Ring Fring2 : (mc_ring2 F).
Ltac mring := mc_norm F; mc_eq; ring.
Ltac mxadd := mx_atoms F; let i := fresh in let j := fresh in apply/matrixP => i j; rewrite !mxE; mring.

(** The forms of the filtering, prediction and smoothing errors. *)
Fixpoint err_form (k : nat) : nform F n m n :=
  if k is j.+1 then
    form_add (form_mul (1%:M - gain_at s j *m mH s j)
                (form_add (form_mul (mA s j) (err_form j)) (form_w F n m j)))
             (form_mul (- gain_at s j) (form_v F n m j))
  else form_e F n m.
Definition errp_form k := form_add (form_mul (mA s k) (err_form k)) (form_w F n m k).
Fixpoint back_form (L i : nat) : nform F n m n :=
  if i is j.+1 then
    let k := (L - i)%N in
    form_add (form_add (err_form k.+1) (form_mul (- sgain s k) (errp_form k.+1)))
             (form_mul (sgain s k) (back_form L j))
  else err_form L.+1.
Definition errs_form L k := back_form L (L - k).

Section Data.
Variable W : prob F.
Variables (e : rvec W n) (w : nat -> rvec W n) (v : nat -> rvec W m).
Variable sw : Om W -> model F n m.
Hypothesis sw0 : forall o, mx0 (sw o) = mx0 s /\ mP0 (sw o) = mP0 s.
Hypothesis swk : forall o k, (k < T)%N ->
  [/\ mA (sw o) k = mA s k, mc (sw o) k = mc s k, mH (sw o) k = mH s k, mQ (sw o) k = mQ s k &
      mR (sw o) k = mR s k /\ mz (sw o) k = sensed s e w v k o].

Lemma err_eval k o : (k <= T)%N -> err s e w sw k o = rform T e w v (err_form k) o.
Proof.
elim: k => [|k IH] Hk.
  rewrite /rform /= eval_e /err /xh /=; have [-> _] := sw0 o; by rewrite addrC addKr.
rewrite (errS sw0 swk) // (errpE swk) // IH 1?ltnW // /rform /=.
by rewrite !(eval_add, eval_mul) eval_w // eval_v // mulNmx.
Qed.

Lemma errp_eval k o : (k < T)%N -> errp s e w sw k o = rform T e w v (errp_form k) o.
Proof.
move=> Hk; rewrite (errpE swk) // err_eval 1?ltnW // /rform /=.
by rewrite !(eval_add, eval_mul) eval_w.
Qed.

Lemma errs_eval L k o : (L < T)%N -> (k <= L)%N -> errs s e w sw L k o = rform T e w v (errs_form L k) o.
Proof.
move=> HL Hk; have [i Hi] : exists i, (k + i = L)%N by exists (L - k)%N; rewrite subnKC.
elim: i k Hi Hk => [|i IH] k Hi Hk.
  have -> : k = L by rewrite -Hi addn0.
  by rewrite /errs_form subnn -err_eval // /errs /err /xs smooth_xT.
have HkL : (k < L)%N by rewrite -Hi addnS ltnS leq_addr.
have HkT := leq_ltn_trans HkL HL.
rewrite (errsE sw0 swk) // /rest err_eval 1?ltnW // errp_eval // IH //; last by rewrite addSn -addnS.
rewrite /errs_form; have -> : (L - k)%N = (L - k.+1).+1 by rewrite subnS prednK // subn_gt0.
by rewrite /rform /= !(eval_add, eval_mul) mulNmx subnSK // subKn // ltnW.
Qed.
End Data.

(** ** The covariance of the forms is the computed covariance *)
Section Cov.
Hypothesis inn : forall k, (k < T)%N -> innov s k \in unitmx.
Hypothesis h0 : psd (mP0 s).
Hypothesis hk : forall k, (k < T)%N -> psd (mQ s k) /\ psd (mR s k).

Definition data_of (z : nat -> 'cV[F]_m) : model F n m :=
  Model (mA s) (mc s) (mH s) (mQ s) (mR s) z (mx0 s) (mP0 s).

Lemma err_covf k : (k <= T)%N -> covf T (err_form k) (mP0 s) (mQ s) (mR s) = post_P s k.
Proof.
move=> Hk; have [W [e [w [v HW]]]] := white_noises_exist h0 hk.
pose sw o := data_of (fun k => sensed s e w v k o).
have sw0 o : mx0 (sw o) = mx0 s /\ mP0 (sw o) = mP0 s by [].
have swk o j : (j < T)%N -> [/\ mA (sw o) j = mA s j, mc (sw o) j = mc s j, mH (sw o) j = mH s j,
    mQ (sw o) j = mQ s j & mR (sw o) j = mR s j /\ mz (sw o) j = sensed s e w v j o] by [].
have [_ <- _ _ _] := est_all HW sw0 swk inn Hk.
by rewrite -(form_cov HW); apply: eq_moment => o; rewrite (err_eval sw0 swk).
Qed.

Lemma errs_covf L k : (L < T)%N -> (forall j, (j < L)%N -> pred_P s j.+1 \in unitmx) -> (k <= L)%N ->
  covf T (errs_form L k) (mP0 s) (mQ s) (mR s) = smooth_P s L k.
Proof.
move=> HL upr Hk; have [W [e [w [v HW]]]] := white_noises_exist h0 hk.
pose sw o := data_of (fun k => sensed s e w v k o).
have sw0 o : mx0 (sw o) = mx0 s /\ mP0 (sw o) = mP0 s by [].
have swk o j : (j < T)%N -> [/\ mA (sw o) j = mA s j, mc (sw o) j = mc s j, mH (sw o) j = mH s j,
    mQ (sw o) j = mQ s j & mR (sw o) j = mR s j /\ mz (sw o) j = sensed s e w v j o] by [].
have [_ <- _] := ests_all HW sw0 swk inn HL upr Hk.
by rewrite -(form_cov HW); apply: eq_moment => o; rewrite (errs_eval sw0 swk).
Qed.
End Cov.
End Errors.
