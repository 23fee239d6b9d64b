(** * Props17: C74, C75: predictions and innovations on random data
    (vocabulary of Prob.v and Props8.v) *)
From Coq Require Import ZArith.
From mathcomp Require Import all_ssreflect all_algebra.
From Verif Require Import Np NpLemmas Kf ApiSpec Exact Repr Textbook RunSpec Refine Refine2 Build Outputs
  RingTac Loewner KalmanAlg TextbookThms ExCases Prob BestLin BestLin2 Props8.

Set Implicit Arguments.
Unset Strict Implicit.
Unset Printing Implicit Defensive.
Import GRing.Theory Num.Theory Order.Theory.
Local Open Scope ring_scope.

Section Props.
Variable F : realFieldType.
Variable oracle : oracle_type F.
Variable n2i : Z.
Notation N := (exact oracle n2i).
Notation arr := (arr N).

Section Run.
Variables (W : prob F) (n m p : nat) (s : model F n m) (T : nat).
Variables (e : rvec W n) (w : nat -> rvec W n) (v : nat -> rvec W m).
Variables (self : kf N) (Z : Om W -> arr) (U : option arr) (g : seq arr).
Hypothesis Hw : white_noises s T e w v.
Hypothesis Hd : random_data p s T e w v self Z U.
Variables (g' : Om W -> seq arr) (st er : Om W -> arr).
Hypothesis E : forall o, kf_filter self (Z o) U g = (g' o, Ok (st o, er o)).

(** What the filter predicts before it sees observation k, from the row of
    [states] before: A_k x + B_k u_k, with the covariance A_k P A_k' + Q_k. *)
Definition predicted (k : nat) : rvec W n := fun o => x_prior n m p self (Z o) U (st o) k.
Definition predicted_cov (k : nat) (o : Om W) : 'M[F]_n := P_prior n m p self (Z o) U (er o) k.

(** The innovation: observation k minus its prediction; and the covariance the
    filter attributes to it. *)
Definition innovation (k : nat) : rvec W m :=
  fun o => mx m 1 (row (Z o) k) - mH (model_of n m p self (Z o) U) k *m predicted k o.
Definition innovation_cov (k : nat) (o : Om W) : 'M[F]_m :=
  let s' := model_of n m p self (Z o) U in mH s' k *m predicted_cov k o *m (mH s' k)^T + mR s' k.

Let sw o := model_of n m p self (Z o) U.
Let sw0 o : mx0 (sw o) = mx0 s /\ mP0 (sw o) = mP0 s. Proof. by have [_ _ h1 h2 _] := Hd o. Qed.
Let swk o k : (k < T)%N ->
  [/\ mA (sw o) k = mA s k, mc (sw o) k = mc s k, mH (sw o) k = mH s k, mQ (sw o) k = mQ s k &
      mR (sw o) k = mR s k /\ mz (sw o) k = sensed s e w v k o].
Proof. by have [_ _ _ _ h] := Hd o; exact: h. Qed.
Let inn := rf_units Hd E.

Lemma predicted_x k o : (k < T)%N -> predicted k o = xp sw k o /\ predicted_cov k o = pred_P s k.
Proof.
move=> Hk; have [h ht _ _ _] := Hd o; have Hk1 := Hk; rewrite -ht in Hk1.
rewrite /predicted /predicted_cov; have [-> ->] := prior_out h (E o) Hk1; split=> //.
exact: (sw_pred (sw := sw) sw0 swk o Hk).
Qed.

Lemma innovation_nu k o : (k < T)%N ->
  innovation k o = nu s e w v sw k o /\ innovation_cov k o = innov s k.
Proof.
move=> Hk; have [Ep EP] := predicted_x o Hk; have [_ _ EH _ [ER Ez]] := swk o Hk.
by rewrite /innovation /innovation_cov -/(sw o) Ep EP EH ER innovE /nu -Ez.
Qed.

(** ** C74: the prediction is the best affine estimate of the state from the
    observations before *)
Theorem C74_prediction_best_linear k o : (k < T)%N ->
  best_linear (sensed s e w v) k (true_state s e w k.+1) (predicted k) (predicted_cov k o).
Proof.
move=> Hk; have [_ ->] := predicted_x o Hk.
have Ex o' : xp sw k o' = predicted k o' by have [-> _] := predicted_x o' Hk.
have [em ec _ _ _] := est_errp Hw sw0 swk Hk (est_all Hw sw0 swk inn (ltnW Hk)).
have Er o' : errp s e w sw k o' = rsub (true_state s e w k.+1) (predicted k) o'.
  by rewrite /errp /rsub Ex.
have aff := xp_aff sw0 swk Hk.
split.
- exact: aff_ext Ex aff.
- by rewrite meanE -(eq_moment Er (fun=> erefl)) -meanE.
- by rewrite -(eq_moment Er Er).
move=> Y aY; have := pred_best Hw sw0 swk inn Hk aY; cbv zeta => Eb.
have Ee o' : xp sw k o' - Y o' = rsub (predicted k) Y o' by rewrite /rsub -Ex.
rewrite (eq_moment Ee Ee) in Eb.
have LY := L2aff Hw (ltnW Hk) aY.
rewrite /rsub Eb; split; last by move/eqP; rewrite -subr_eq0 addrC addKr => /eqP.
rewrite /loewner addrC addKr; apply: moment_psd; apply: L2v_sub => //.
by apply: L2v_ext Ex _; exact: (L2aff Hw (ltnW Hk) aff).
Qed.

(** ** C75: innovations are white with the covariance the filter computes, and
    the gain is the regression of the state on the innovation *)
Theorem C75_innovations_white k o : (k < T)%N ->
  [/\ mean (innovation k) = 0, moment (innovation k) (innovation k) = innovation_cov k o,
      forall j, (j < k)%N -> moment (innovation k) (innovation j) = 0,
      forall j, (j < k)%N -> moment (innovation k) (sensed s e w v j) = 0 &
      moment (true_state s e w k.+1) (innovation k) = gain_of n m g (g' o) k *m innovation_cov k o].
Proof.
move=> Hk; have [_ ->] := innovation_nu o Hk.
have En j : (j < T)%N -> forall o', nu s e w v sw j o' = innovation j o'.
  by move=> Hj o'; have [-> _] := innovation_nu o' Hj.
have [h1 h2 h3 h4 h5] := nu_all Hw sw0 swk inn Hk.
have -> : gain_of n m g (g' o) k = gain_at s k.
  have [h ht _ _ _] := Hd o; have Hk1 := Hk; rewrite -ht in Hk1.
  have [_ _ _ -> _] := filter_out h (E o) Hk1.
  rewrite !gainE -/(sw o) (sw_pred (sw := sw) sw0 swk o Hk).
  by have [_ _ -> _ [-> _]] := swk o Hk.
split.
- by rewrite meanE -(eq_moment (En k Hk) (fun=> erefl)) -meanE.
- by rewrite -(eq_moment (En k Hk) (En k Hk)).
- by move=> j Hj; rewrite -(eq_moment (En k Hk) (En j (ltn_trans Hj Hk))) h4.
- by move=> j Hj; rewrite -(eq_moment (En k Hk) (fun=> erefl)) h3.
rewrite -h5; exact: (eq_moment (fun=> erefl) (fun o0 => esym (En k Hk o0))).
Qed.

(** The consistency tests: the normalised innovation squared has mean m, the
    normalised estimation error squared has mean n. *)
Theorem C75_normalised_innovation_squared k : (k < T)%N ->
  Ex (fun o => ((innovation k o)^T *m invmx (innovation_cov k o) *m innovation k o) 0 0) = m%:R.
Proof.
move=> Hk; have [_ h2 _ _ _] := nu_all Hw sw0 swk inn Hk.
have E1 o : ((innovation k o)^T *m invmx (innovation_cov k o) *m innovation k o) 0 0 =
   ((nu s e w v sw k o)^T *m invmx (innov s k) *m nu s e w v sw k o) 0 0.
  by have [-> ->] := innovation_nu o Hk.
rewrite (Ex_ext E1) Ex_quad; last exact: (L2nu Hw sw0 swk).
by rewrite h2 mulVmx ?mxtrace1 // inn.
Qed.

Theorem C75_normalised_error_squared k : (k < T)%N ->
  (forall o, mx n n (row (er o) k) \in unitmx) ->
  Ex (fun o => let d := true_state s e w k.+1 o - mx n 1 (row (st o) k) in
               (d^T *m invmx (mx n n (row (er o) k)) *m d) 0 0) = n%:R.
Proof.
move=> Hk Hu; have Hk' : (k.+1 <= T)%N by [].
have [_ ec _ _ _] := est_all Hw sw0 swk inn Hk'.
have u : post_P s k.+1 \in unitmx.
  by apply: (@some_outcome F W) => o; have [_ <-] := rf_out Hd E o Hk.
have E1 o : (let d := true_state s e w k.+1 o - mx n 1 (row (st o) k) in
               (d^T *m invmx (mx n n (row (er o) k)) *m d) 0 0) =
   ((err s e w sw k.+1 o)^T *m invmx (post_P s k.+1) *m err s e w sw k.+1 o) 0 0.
  by cbv zeta; have [-> ->] := rf_out Hd E o Hk.
rewrite (Ex_ext E1) Ex_quad; last exact: (L2err Hw sw0 swk).
by rewrite ec mulVmx ?mxtrace1.
Qed.
End Run.

(** The hypotheses are those of C29: see [C29_C46_case]; there the posterior
    covariances are invertible too. *)
Example C74_C75_case g :
  let self := demo_kf oracle n2i 11%:R^-1 in let U := demo_U oracle n2i 11%:R^-1 in
  let Zd := dice_Z oracle n2i in
  white_noises (dice_model F) 3 (@dice_e F) (@dice_w F) (@dice_v F) /\
  random_data 2 (dice_model F) 3 (@dice_e F) (@dice_w F) (@dice_v F) self Zd U /\
  exists g' st er, (forall o, kf_filter self (Zd o) U g = (g' o, Ok (st o, er o))) /\
    forall k, (k < 3)%N -> forall o, mx 2 2 (row (er o) k) \in unitmx.
Proof.
move=> self U Zd; have [h1 [h2 [_ [[g' [st [er E]]] _]]]] := C29_C46_case g.
split=> //; split=> //; exists g', st, er; split=> // k Hk o.
have [_ ->] := rf_out h2 E o Hk.
have c0 : 0 < 11%:R^-1 :> F by rewrite invr_gt0 ltr0n.
have pdc n : pd ((11%:R^-1)%:M : 'M[F]_n) by rewrite -scalemx1; apply: pd_scale => //; exact: pd_1.
apply: pd_unit; have [|j _|j _|_ h] := @post_pd_Q _ _ _ (dice_model F) 3 _ _ _ k Hk; last exact: h.
- apply: pd_psd; exact: pdc.
- exact: pdc.
exact: pdc.
Qed.
End Props.
