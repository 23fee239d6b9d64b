(** * Robust2: wrong covariances, and poorer sensors *)
From mathcomp Require Import all_ssreflect all_algebra.
From Verif Require Import RingTac Loewner KalmanAlg Textbook TextbookThms Prob RobustSpec BestLin Factor Robust.

Set Implicit Arguments.
Unset Strict Implicit.
Unset Printing Implicit Defensive.
Import GRing.Theory Num.Theory Order.Theory.
Local Open Scope ring_scope.

Section Ext.
Variable F : realFieldType.
Variables (n m : nat) (s s' : model F n m) (T : nat).
Hypothesis h0 : mP0 s' = mP0 s.
Hypothesis h : forall k, (k < T)%N ->
  [/\ mA s' k = mA s k, mH s' k = mH s k, mQ s' k = mQ s k & mR s' k = mR s k].

(** Covariances depend on A, H, Q, R and P0 only. *)
Lemma ext_post k : (k <= T)%N -> post_P s' k = post_P s k.
Proof.
elim: k => [|k IH] Hk //; have [a b c d] := h Hk.
by rewrite !post_PS !pred_PE (IH (ltnW Hk)) a b c d.
Qed.
Lemma ext_pred k : (k < T)%N -> pred_P s' k = pred_P s k.
Proof. by move=> Hk; have [a b c d] := h Hk; rewrite !pred_PE (ext_post (ltnW Hk)) a c. Qed.
Lemma ext_innov k : (k < T)%N -> innov s' k = innov s k.
Proof. by move=> Hk; have [a b c d] := h Hk; rewrite !innovE (ext_pred Hk) b d. Qed.
Lemma ext_smooth L k : (L < T)%N -> (k <= L)%N -> smooth_P s' L k = smooth_P s L k.
Proof.
move=> HL Hk; have [i Hi] : exists i, (k + i = L)%N by exists (L - k)%N; rewrite subnKC.
elim: i k Hi Hk => [|i IH] k Hi Hk.
  have -> : k = L by rewrite -Hi addn0.
  by rewrite !smooth_PT ext_post.
have HkL : (k < L)%N by rewrite -Hi addnS ltnS leq_addr.
have HkT := leq_ltn_trans HkL HL.
have E : smooth_P s' L k.+1 = smooth_P s L k.+1 by apply: IH; rewrite ?addSn -?addnS.
rewrite (@smooth_PS _ _ _ s') // (@smooth_PS _ _ _ s) // E ext_pred // !sgainE ext_post 1?ltnW //.
by have [-> _ -> _] := h HkT.
Qed.
End Ext.

(** ** The filter tuned with covariances at least the true ones *)
Section Tuned.
Variable F : realFieldType.
Variables (n m : nat) (s : model F n m) (T : nat).
Variable W : prob F.
Variables (e : rvec W n) (w : nat -> rvec W n) (v : nat -> rvec W m).
Variable sw : Om W -> model F n m.
Hypothesis sw0 : forall o, mx0 (sw o) = mx0 s /\ mP0 (sw o) = mP0 s.
Hypothesis swk : forall o k, (k < T)%N ->
  [/\ mA (sw o) k = mA s k, mc (sw o) k = mc s k, mH (sw o) k = mH s k, mQ (sw o) k = mQ s k &
      mR (sw o) k = mR s k /\ mz (sw o) k = sensed s e w v k o].

Lemma tuned_mean k : centred_noises T e w v -> (k <= T)%N -> mean (err s e w sw k) = 0.
Proof.
move=> HC Hk; rewrite -(form_mean HC (err_form s k)) !meanE.
by apply: eq_moment => // o; rewrite (err_eval sw0 swk).
Qed.
Lemma tuned_mean_smooth L k : centred_noises T e w v -> (L < T)%N -> (k <= L)%N -> mean (errs s e w sw L k) = 0.
Proof.
move=> HC HL Hk; rewrite -(form_mean HC (errs_form s L k)) !meanE.
by apply: eq_moment => // o; rewrite (errs_eval sw0 swk).
Qed.

(** t holds the true covariances. *)
Variable t : model F n m.
Hypothesis HW : white_noises t T e w v.
Hypothesis le0 : loewner (mP0 t) (mP0 s).
Hypothesis le : forall k, (k < T)%N -> loewner (mQ t k) (mQ s k) /\ loewner (mR t k) (mR s k).
Hypothesis inn : forall k, (k < T)%N -> innov s k \in unitmx.

Lemma tuned_psd : psd (mP0 s) /\ forall k, (k < T)%N -> psd (mQ s k) /\ psd (mR s k).
Proof.
have [p0 pk] := covs HW; split; first exact: loewner_psd le0.
by move=> k Hk; have [l1 l2] := le Hk; have [p1 p2] := pk k Hk; split; [exact: loewner_psd l1|exact: loewner_psd l2].
Qed.

Lemma tuned_cov k : (k <= T)%N -> loewner (moment (err s e w sw k) (err s e w sw k)) (post_P s k).
Proof.
move=> Hk; have [p0 pk] := tuned_psd.
have -> : moment (err s e w sw k) (err s e w sw k) = covf T (err_form s k) (mP0 t) (mQ t) (mR t).
  by rewrite -(form_cov HW); apply: eq_moment => o; rewrite (err_eval sw0 swk).
by rewrite -(err_covf inn p0 pk Hk); exact: covf_le.
Qed.
Lemma tuned_cov_smooth L k : (L < T)%N -> (forall j, (j < L)%N -> pred_P s j.+1 \in unitmx) -> (k <= L)%N ->
  loewner (moment (errs s e w sw L k) (errs s e w sw L k)) (smooth_P s L k).
Proof.
move=> HL upr Hk; have [p0 pk] := tuned_psd.
have -> : moment (errs s e w sw L k) (errs s e w sw L k) = covf T (errs_form s L k) (mP0 t) (mQ t) (mR t).
  by rewrite -(form_cov HW); apply: eq_moment => o; rewrite (errs_eval sw0 swk).
by rewrite -(errs_covf inn p0 pk HL upr Hk); exact: covf_le.
Qed.
End Tuned.

(** ** Processed sensors: the second model sees M k times what the first sees,
    and its covariances are at least those that belong to it *)
Section Processed.
Variable F : realFieldType.
Variables (n m m' : nat) (s : model F n m) (s' : model F n m') (T : nat) (M : nat -> 'M[F]_(m', m)).
Hypothesis p0 : psd (mP0 s).
Hypothesis le0 : loewner (mP0 s) (mP0 s').
Hypothesis hk : forall k, (k < T)%N ->
  [/\ psd (mQ s k), psd (mR s k), mA s' k = mA s k, mH s' k = M k *m mH s k &
      loewner (mQ s k) (mQ s' k) /\ loewner (M k *m mR s k *m (M k)^T) (mR s' k)].
Hypothesis inn : forall k, (k < T)%N -> innov s k \in unitmx.
Hypothesis inn' : forall k, (k < T)%N -> innov s' k \in unitmx.

(** The second model, started and driven as the first. *)
Let s2 : model F n m' :=
  Model (mA s) (mc s) (fun k => M k *m mH s k) (mQ s') (mR s') (mz s') (mx0 s) (mP0 s').
Let t2 : model F n m' :=
  Model (mA s) (mc s) (fun k => M k *m mH s k) (mQ s) (fun k => M k *m mR s k *m (M k)^T) (mz s') (mx0 s) (mP0 s).
Let E2 k : (k < T)%N -> [/\ mA s2 k = mA s' k, mH s2 k = mH s' k, mQ s2 k = mQ s' k & mR s2 k = mR s' k].
Proof. by move=> Hk; have [_ _ -> -> _] := hk Hk. Qed.
Let inn2 k : (k < T)%N -> innov s2 k \in unitmx.
Proof. by move=> Hk; rewrite (@ext_innov _ _ _ s' s2 T _ E2) // inn'. Qed.
Let pk k : (k < T)%N -> psd (mQ s k) /\ psd (mR s k). Proof. by move=> Hk; have [] := hk Hk. Qed.

Section Noise.
Variable W : prob F.
Variables (e : rvec W n) (w : nat -> rvec W n) (v : nat -> rvec W m).
Hypothesis HW : white_noises s T e w v.
Let v2 k : rvec W m' := fun o => M k *m v k o.

Lemma white_processed : white_noises t2 T e w v2.
Proof.
have [e1 e2 e3 e4 e5] := HW; split=> //.
  move=> k Hk; have [f1 f2] := e4 k Hk; split=> //.
  by rewrite /v2 momentMr ?f2 ?mul0mx //; exact: (L2vv HW).
move=> k Hk; have [[f1 f2] [f3 f4] [f5 f6] f7 f8] := e5 k Hk; split.
- by split=> //; exact: L2v_mul.
- by split=> //; rewrite meanE /v2 momentMl //; [rewrite -meanE f4 mulmx0|exact: L2v_const].
- by split=> //; rewrite /v2 momentMl ?momentMr //; [rewrite f6 mulmxA|exact: L2v_mul].
- by move=> j Hj; rewrite /v2 momentMr //; [rewrite f7 // mul0mx|exact: (L2vv HW)].
move=> j Hj; have [g1 g2] := f8 j Hj; have Lj := L2vv HW (ltn_trans Hj Hk); split=> //.
by rewrite /v2 momentMl ?momentMr //; [rewrite g2 mul0mx mulmx0|exact: L2v_mul].
Qed.

Lemma X2 k o : true_state s2 e w k o = true_state s e w k o.
Proof. by elim: k => [|k IH] //=; rewrite IH. Qed.

Lemma processed_aff k (Y : rvec W n) : affine_in (sensed s2 e w v2) k Y -> affine_in (sensed s e w v) k Y.
Proof.
case=> a [L EY]; exists a, (fun j => L j *m M j) => o; rewrite EY; congr (_ + _); apply: eq_bigr => j _.
rewrite -[RHS]mulmxA; congr (_ *m _); rewrite /sensed /v2 [RHS]mulmxDr; congr (_ + _).
by rewrite [RHS]mulmxA X2.
Qed.
End Noise.

Lemma processed_post k : (k <= T)%N -> loewner (post_P s k) (post_P s' k).
Proof.
move=> Hk; have [W [e [w [v HW]]]] := white_noises_exist p0 pk.
have HW2 := white_processed HW; set v2 := (fun k => _) in HW2.
pose sw o := data_of s (fun k => sensed s e w v k o).
pose sw2 o := data_of s2 (fun k => sensed s2 e w v2 k o).
have A1 o : mx0 (sw o) = mx0 s /\ mP0 (sw o) = mP0 s by [].
have B1 o j : (j < T)%N -> [/\ mA (sw o) j = mA s j, mc (sw o) j = mc s j, mH (sw o) j = mH s j,
    mQ (sw o) j = mQ s j & mR (sw o) j = mR s j /\ mz (sw o) j = sensed s e w v j o] by [].
have A2 o : mx0 (sw2 o) = mx0 s2 /\ mP0 (sw2 o) = mP0 s2 by [].
have B2 o j : (j < T)%N -> [/\ mA (sw2 o) j = mA s2 j, mc (sw2 o) j = mc s2 j, mH (sw2 o) j = mH s2 j,
    mQ (sw2 o) j = mQ s2 j & mR (sw2 o) j = mR s2 j /\ mz (sw2 o) j = sensed s2 e w v2 j o] by [].
rewrite -(@ext_post _ _ _ s' s2 T _ E2) //.
apply: (@loewner_trans _ _ _ (moment (err s2 e w sw2 k) (err s2 e w sw2 k))); last first.
  apply: (tuned_cov A2 B2 HW2) => // j Hj.
  by have [_ _ _ _ []] := hk Hj.
have aff : affine_in (sensed s e w v) k (xh sw2 k).
  by apply: processed_aff; exact: (xh_aff A2 B2).
have := filter_best HW A1 B1 inn Hk aff; cbv zeta => Eb.
have -> : moment (err s2 e w sw2 k) (err s2 e w sw2 k) = post_P s k + moment ((fun o => xh sw k o - xh sw2 k o) : rvec W n)
   ((fun o => xh sw k o - xh sw2 k o) : rvec W n).
  by rewrite -Eb; apply: eq_moment => o; rewrite /err X2.
rewrite /loewner addrC addKr; apply: moment_psd; apply: L2v_sub.
  exact: (L2xh HW A1 B1).
exact: (L2aff HW Hk aff).
Qed.

Lemma processed_smooth L k : (L < T)%N -> (forall j, (j < L)%N -> pred_P s j.+1 \in unitmx) ->
  (forall j, (j < L)%N -> pred_P s' j.+1 \in unitmx) -> (k <= L)%N ->
  loewner (smooth_P s L k) (smooth_P s' L k).
Proof.
move=> HL u1 u2 Hk; have [W [e [w [v HW]]]] := white_noises_exist p0 pk.
have HW2 := white_processed HW; set v2 := (fun k => _) in HW2.
pose sw o := data_of s (fun k => sensed s e w v k o).
pose sw2 o := data_of s2 (fun k => sensed s2 e w v2 k o).
have A1 o : mx0 (sw o) = mx0 s /\ mP0 (sw o) = mP0 s by [].
have B1 o j : (j < T)%N -> [/\ mA (sw o) j = mA s j, mc (sw o) j = mc s j, mH (sw o) j = mH s j,
    mQ (sw o) j = mQ s j & mR (sw o) j = mR s j /\ mz (sw o) j = sensed s e w v j o] by [].
have A2 o : mx0 (sw2 o) = mx0 s2 /\ mP0 (sw2 o) = mP0 s2 by [].
have B2 o j : (j < T)%N -> [/\ mA (sw2 o) j = mA s2 j, mc (sw2 o) j = mc s2 j, mH (sw2 o) j = mH s2 j,
    mQ (sw2 o) j = mQ s2 j & mR (sw2 o) j = mR s2 j /\ mz (sw2 o) j = sensed s2 e w v2 j o] by [].
rewrite -(@ext_smooth _ _ _ s' s2 T _ E2) //.
have u3 j : (j < L)%N -> pred_P s2 j.+1 \in unitmx.
  by move=> Hj; rewrite (@ext_pred _ _ _ s' s2 T _ E2) ?u2 //; exact: leq_ltn_trans Hj HL.
apply: (@loewner_trans _ _ _ (moment (errs s2 e w sw2 L k) (errs s2 e w sw2 L k))); last first.
  apply: (tuned_cov_smooth A2 B2 HW2) => // j Hj.
  by have [_ _ _ _ []] := hk Hj.
have aff : affine_in (sensed s e w v) L.+1 (xs sw2 L k).
  by apply: processed_aff; exact: (xs_aff A2 B2).
have := smooth_best HW A1 B1 inn HL u1 Hk aff; cbv zeta => Eb.
have -> : moment (errs s2 e w sw2 L k) (errs s2 e w sw2 L k) = smooth_P s L k + moment ((fun o => xs sw L k o - xs sw2 L k o) : rvec W n)
   ((fun o => xs sw L k o - xs sw2 L k o) : rvec W n).
  by rewrite -Eb; apply: eq_moment => o; rewrite /errs X2.
rewrite /loewner addrC addKr; apply: moment_psd; apply: L2v_sub.
  exact: (L2aff HW HL (xs_aff A1 B1 HL Hk)).
exact: (L2aff HW HL aff).
Qed.
End Processed.
