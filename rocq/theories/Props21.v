(** * Props21: C81 - C84: wrong covariances, poorer sensors, random experiments *)
From Coq Require Import ZArith.
From mathcomp Require Import all_ssreflect all_algebra.
From Verif Require Import Np NpLemmas Kf ApiSpec Loop FilterLemmas FilterThms UtilThms Exact Repr Textbook RunSpec Refine Refine2 Build
  Outputs EndToEnd RingTac Loewner KalmanAlg TextbookThms ExCases Prob RobustSpec BestLin Factor Robust Robust2 Props8 Props20.

Set Implicit Arguments.
Unset Strict Implicit.
Unset Printing Implicit Defensive.
Import GRing.Theory Num.Theory Order.Theory.
Local Open Scope ring_scope.

Section Props.
Variable F : realFieldType.
Variable oracle : oracle_type F.
Variable n2i : Z.
Notation N := (exact oracle n2i).
Notation arr := (arr N).

Section Random.
Variables (W : prob F) (n m p : nat) (s : model F n m) (T : nat).
Variables (e : rvec W n) (w : nat -> rvec W n) (v : nat -> rvec W m).
Variables (self : kf N) (Z : Om W -> arr) (U : option arr) (g : seq arr).
Hypothesis Hd : random_data p s T e w v self Z U.

Let sw o := model_of n m p self (Z o) U.
Let sw0 o : mx0 (sw o) = mx0 s /\ mP0 (sw o) = mP0 s. Proof. by have [_ _ h1 h2 _] := Hd o. Qed.
Let swk o k : (k < T)%N ->
  [/\ mA (sw o) k = mA s k, mc (sw o) k = mc s k, mH (sw o) k = mH s k, mQ (sw o) k = mQ s k &
      mR (sw o) k = mR s k /\ mz (sw o) k = sensed s e w v k o].
Proof. by have [_ _ _ _ h] := Hd o; exact: h. Qed.

Lemma rs_out L (g' : Om W -> seq arr) xs Ps : T = L.+1 -> (forall o, nrows (Z o) = L.+1) ->
  (forall o, kf_smooth self (Z o) U g = (g' o, Ok (xs o, Ps o))) ->
  [/\ forall j, (j < T)%N -> innov s j \in unitmx, forall j, (j < L)%N -> pred_P s j.+1 \in unitmx &
      forall k o, (k <= L)%N -> mx n 1 (row (xs o) k) = smooth_x (sw o) L k /\ mx n n (row (Ps o) k) = smooth_P s L k].
Proof.
move=> HT HZ E.
have Eo o' := let: And5 h ht _ _ _ := Hd o' in smooth_out h (etrans ht (etrans HT (esym (HZ o')))) (HZ o') (E o').
split.
- move=> j Hj; apply: (@some_outcome F W) => o'; rewrite -(sw_innov Hd o' Hj).
  by have [h _ _] := Eo o'; apply: h; rewrite -ltnS -HT.
- move=> j Hj; apply: (@some_outcome F W) => o'; rewrite -(sw_pred (sw := sw) sw0 swk o' (k := j.+1)) ?HT //.
  by have [_ h _] := Eo o'; exact: h.
move=> k o Hk; have [_ _ h] := Eo o; have [-> -> _ _] := h k Hk; split=> //.
apply: (@ext_smooth _ _ _ s (sw o) T) => //; last by rewrite HT.
  by have [] := sw0 o.
by move=> j Hj; have [? _ ? ? [? _]] := swk o Hj; split.
Qed.

Lemma err_rsub (g' : Om W -> seq arr) st er k : (forall o, kf_filter self (Z o) U g = (g' o, Ok (st o, er o))) -> (k < T)%N ->
  forall o, rsub (true_state s e w k.+1) (fun o => mx n 1 (row (st o) k)) o = err s e w sw k.+1 o.
Proof. by move=> E Hk o; rewrite /rsub /err /xh; have [-> _] := rf_out Hd E o Hk. Qed.
Lemma errs_rsub L (g' : Om W -> seq arr) xs Ps k : T = L.+1 -> (forall o, nrows (Z o) = L.+1) ->
  (forall o, kf_smooth self (Z o) U g = (g' o, Ok (xs o, Ps o))) -> (k <= L)%N ->
  forall o, rsub (true_state s e w k.+1) (fun o => mx n 1 (row (xs o) k)) o = errs s e w sw L k o.
Proof. by move=> HT HZ E Hk o; rewrite /rsub /errs /BestLin.xs; have [_ _ r] := rs_out HT HZ E; have [-> _] := r k o Hk. Qed.

(** ** C82: unbiased, whatever covariances the object was given *)
Theorem C82_filter_unbiased g' st er : centred_noises T e w v ->
  (forall o, kf_filter self (Z o) U g = (g' o, Ok (st o, er o))) ->
  forall k, (k < T)%N -> mean (rsub (true_state s e w k.+1) (fun o => mx n 1 (row (st o) k))) = 0.
Proof.
move=> HC E k Hk; rewrite meanE (eq_moment (err_rsub E Hk) (fun=> erefl)) -meanE.
exact: (tuned_mean sw0 swk).
Qed.

Theorem C82_smooth_unbiased L g' xs Ps : centred_noises T e w v -> T = L.+1 -> (forall o, nrows (Z o) = L.+1) ->
  (forall o, kf_smooth self (Z o) U g = (g' o, Ok (xs o, Ps o))) ->
  forall k, (k <= L)%N -> mean (rsub (true_state s e w k.+1) (fun o => mx n 1 (row (xs o) k))) = 0.
Proof.
move=> HC HT HZ E k Hk; rewrite meanE (eq_moment (errs_rsub HT HZ E Hk) (fun=> erefl)) -meanE.
by apply: (tuned_mean_smooth sw0 swk) => //; rewrite HT.
Qed.

(** ** C81: covariances at least as large as the true ones are safe *)
Section Conservative.
Variables (P0 : 'M[F]_n) (Q : nat -> 'M[F]_n) (R : nat -> 'M[F]_m).
Hypothesis Hw : white_noises (with_covs s P0 Q R) T e w v.
Hypothesis le0 : loewner P0 (mP0 s).
Hypothesis lek : forall k, (k < T)%N -> loewner (Q k) (mQ s k) /\ loewner (R k) (mR s k).

Theorem C81_filter_conservative g' st er : (forall o, kf_filter self (Z o) U g = (g' o, Ok (st o, er o))) ->
  forall k, (k < T)%N -> forall o,
  let D := rsub (true_state s e w k.+1) (fun o => mx n 1 (row (st o) k)) in
  [/\ mean D = 0, loewner (moment D D) (mx n n (row (er o) k)) &
      forall i, Ex (fun o' => D o' i 0 * D o' i 0) <= mx n n (row (er o) k) i i].
Proof.
move=> E k Hk o D; have [_ EP] := rf_out Hd E o Hk.
have lo : loewner (moment D D) (mx n n (row (er o) k)).
  rewrite EP (eq_moment (err_rsub E Hk) (err_rsub E Hk)).
  exact: (tuned_cov sw0 swk Hw le0 lek (rf_units Hd E)).
split=> //; first by apply: (C82_filter_unbiased _ E) => //; exact: white_centred Hw.
by move=> i; have := loewner_diag i lo; rewrite [X in X <= _]mxE.
Qed.

Theorem C81_smooth_conservative L g' xs Ps : T = L.+1 -> (forall o, nrows (Z o) = L.+1) ->
  (forall o, kf_smooth self (Z o) U g = (g' o, Ok (xs o, Ps o))) ->
  forall k, (k <= L)%N -> forall o,
  let D := rsub (true_state s e w k.+1) (fun o => mx n 1 (row (xs o) k)) in
  [/\ mean D = 0, loewner (moment D D) (mx n n (row (Ps o) k)) &
      forall i, Ex (fun o' => D o' i 0 * D o' i 0) <= mx n n (row (Ps o) k) i i].
Proof.
move=> HT HZ E k Hk o D; have [inn upr r] := rs_out HT HZ E; have [_ EP] := r k o Hk.
have HL : (L < T)%N by rewrite HT.
have lo : loewner (moment D D) (mx n n (row (Ps o) k)).
  rewrite EP (eq_moment (errs_rsub HT HZ E Hk) (errs_rsub HT HZ E Hk)).
  exact: (tuned_cov_smooth sw0 swk Hw le0 lek inn HL upr Hk).
split=> //; first by apply: (C82_smooth_unbiased _ HT HZ E) => //; exact: white_centred Hw.
by move=> i; have := loewner_diag i lo; rewrite [X in X <= _]mxE.
Qed.
End Conservative.
End Random.

(** ** C83: poorer sensors never help *)
Section Poorer.
Variables (n m m' p p' : nat).
Variables (self self' : kf N) (Z Z' : arr) (U U' : option arr) (g g' : seq arr).
Let s := model_of n m p self Z U.
Let s' := model_of n m' p' self' Z' U'.
Notation T := (steps self Z U).
Hypothesis H : exact_run n m p self Z U.
Hypothesis H' : exact_run n m' p' self' Z' U'.
Hypothesis HT : steps self' Z' U' = T.

(** The second object describes the same system seen through sensors that show
    M k times what those of the first show (some of them, sums of them, ...),
    with noises at least as large. *)
Definition poorer (M : nat -> 'M[F]_(m', m)) : Prop :=
  loewner (mP0 s) (mP0 s') /\
  forall k, (k < T)%N ->
    [/\ mA s' k = mA s k, mH s' k = M k *m mH s k, loewner (mQ s k) (mQ s' k) &
        loewner (M k *m mR s k *m (M k)^T) (mR s' k)].

Hypothesis h0 : psd (mP0 s).
Hypothesis hk : forall k, (k < T)%N -> psd (mQ s k) /\ psd (mR s k).

Let hpk M : poorer M -> forall k, (k < T)%N ->
  [/\ psd (mQ s k), psd (mR s k), mA s' k = mA s k, mH s' k = M k *m mH s k &
      loewner (mQ s k) (mQ s' k) /\ loewner (M k *m mR s k *m (M k)^T) (mR s' k)].
Proof. by move=> [_ hm] k Hk; have [a b c d] := hm k Hk; have [q r] := hk Hk; split. Qed.

Theorem C83_poorer_sensors_never_help M g1 st er g1' st' er' : poorer M ->
  kf_filter self Z U g = (g1, Ok (st, er)) -> kf_filter self' Z' U' g' = (g1', Ok (st', er')) ->
  forall k, (k < T)%N ->
  [/\ loewner (mx n n (row er k)) (mx n n (row er' k)),
      forall i, mx n n (row er k) i i <= mx n n (row er' k) i i &
      \tr (mx n n (row er k)) <= \tr (mx n n (row er' k))].
Proof.
move=> hm E E' k Hk; have Hk' := Hk; rewrite -HT in Hk'.
have [_ _ -> _ _] := filter_out H E Hk; have [_ _ -> _ _] := filter_out H' E' Hk'.
have lo : loewner (post_P s k.+1) (post_P s' k.+1).
  apply: (processed_post h0 (proj1 hm) (hpk hm)) => //; first exact: (filter_units H E).
  by move=> j Hj; apply: (filter_units H' E'); rewrite HT.
by split=> //; [move=> i; exact: loewner_diag|exact: loewner_trace].
Qed.

Theorem C83_poorer_sensors_never_help_smooth M L g1 xs Ps g1' xs' Ps' : poorer M ->
  T = nrows Z -> nrows Z = L.+1 -> nrows Z' = L.+1 ->
  kf_smooth self Z U g = (g1, Ok (xs, Ps)) -> kf_smooth self' Z' U' g' = (g1', Ok (xs', Ps')) ->
  forall k, (k <= L)%N ->
  [/\ loewner (mx n n (row Ps k)) (mx n n (row Ps' k)),
      forall i, mx n n (row Ps k) i i <= mx n n (row Ps' k) i i &
      \tr (mx n n (row Ps k)) <= \tr (mx n n (row Ps' k))].
Proof.
move=> hm t l l' E E' k Hk.
have t' : steps self' Z' U' = nrows Z' by rewrite HT t l l'.
have [u q r] := smooth_out H t l E; have [u' q' r'] := smooth_out H' t' l' E'.
have [_ -> _ _] := r k Hk; have [_ -> _ _] := r' k Hk.
have HTL : T = L.+1 by rewrite t.
have lo : loewner (smooth_P s L k) (smooth_P s' L k).
  by apply: (processed_smooth h0 (proj1 hm) (hpk hm)) => //; rewrite HTL.
by split=> //; [move=> i; exact: loewner_diag|exact: loewner_trace].
Qed.
End Poorer.

(** ** C84: every run with semidefinite covariances belongs to a random experiment *)
Section Experiment.
Variables (n m p : nat) (self : kf N) (Z : arr) (U : option arr) (g : seq arr).
Let s := model_of n m p self Z U.
Notation T := (steps self Z U).
Hypothesis H : exact_run n m p self Z U.
Hypothesis HU : U = None -> dt Z = DFloat.

Section Noise.
Variables (W : prob F) (e : rvec W n) (w : nat -> rvec W n) (v : nat -> rvec W m).
Definition noisy (o : Om W) : arr := other_data self Z U (fun k => sensed s e w v k o).

Lemma noise_data : random_data p s T e w v self noisy U /\ forall o, nrows (noisy o) = T.
Proof.
split=> [o|o]; have [h1 h2 h3 [h4 h5] h6] := other_run H (fun k => sensed s e w v k o) HU; last exact: h3.
by split.
Qed.

Let ret A (f : seq arr * res A) : (exists g' r, f = (g', Ok r)) -> {r | f = (f.1, Ok r)}.
Proof. by case: f => a [r|err] H'; [exists r|exfalso; case: H' => x [r]]. Qed.
Let same o := other_same H (fun k => sensed s e w v k o) HU (leqnn T).

Lemma noise_filter g' st er : kf_filter self Z U g = (g', Ok (st, er)) ->
  exists g1 st1 er1, forall o, kf_filter self (noisy o) U g = (g1 o, Ok (st1 o, er1 o)).
Proof.
move=> E; have u := filter_units H E.
have R o : {r | kf_filter self (noisy o) U g = ((kf_filter self (noisy o) U g).1, Ok r)}.
  apply: ret; have [h1 h2 _ _ _] := other_run H (fun k => sensed s e w v k o) HU.
  have [|g1 [st1 [er1 E1]]] := @filter_returns _ _ _ _ _ _ _ _ _ g h1; last by exists g1, (st1, er1).
  rewrite h2 => j Hj; have [_ _ -> _] := same_pred (same o) Hj.
  by rewrite innovE; move: (u j Hj); rewrite innovE !pred_PE Energy.data_post_P.
exists (fun o => (kf_filter self (noisy o) U g).1), (fun o => (sval (R o)).1), (fun o => (sval (R o)).2) => o.
by case: (R o) => -[a b] E1; exact: E1.
Qed.

Lemma noise_smooth L g' xs Ps : T = nrows Z -> nrows Z = L.+1 -> kf_smooth self Z U g = (g', Ok (xs, Ps)) ->
  exists g1 xs1 Ps1, forall o, kf_smooth self (noisy o) U g = (g1 o, Ok (xs1 o, Ps1 o)).
Proof.
move=> t l E; have [u q _] := smooth_out H t l E; have HT : T = L.+1 by rewrite t.
have R o : {r | kf_smooth self (noisy o) U g = ((kf_smooth self (noisy o) U g).1, Ok r)}.
  apply: ret; have [h1 h2 h3 _ _] := other_run H (fun k => sensed s e w v k o) HU.
  have [|||j Hj|g1 [xs1 [Ps1 E1]]] := @smooth_returns _ _ _ _ _ _ _ _ _ g h1 L; last by exists g1, (xs1, Ps1).
  - by rewrite h2.
  - by rewrite h3.
  - move=> j Hj; have Hj' : (j < T)%N by rewrite HT.
    have [_ _ -> _] := same_pred (same o) Hj'.
    by rewrite innovE; move: (u j Hj); rewrite innovE !pred_PE Energy.data_post_P.
  have Hj' : (j.+1 < T)%N by rewrite HT.
  by have [_ -> _ _] := same_pred (same o) Hj'; move: (q j Hj); rewrite !pred_PE Energy.data_post_P.
exists (fun o => (kf_smooth self (noisy o) U g).1), (fun o => (sval (R o)).1), (fun o => (sval (R o)).2) => o.
by case: (R o) => -[a b] E1; exact: E1.
Qed.
End Noise.

Hypothesis h0 : psd (mP0 s).
Hypothesis hk : forall k, (k < T)%N -> psd (mQ s k) /\ psd (mR s k).

(** There is random data of the object's own model on which [errors] is the
    covariance of the errors actually made. *)
Theorem C84_random_experiment g' st er : kf_filter self Z U g = (g', Ok (st, er)) ->
  exists (W : prob F) e w v (Z' : Om W -> arr) g1 st1 er1,
  [/\ white_noises s T e w v, random_data p s T e w v self Z' U,
      forall o, kf_filter self (Z' o) U g = (g1 o, Ok (st1 o, er1 o)) &
      forall k, (k < T)%N ->
      let D := rsub (true_state s e w k.+1) (fun o => mx n 1 (row (st1 o) k)) in
      [/\ forall o, mx n n (row (er1 o) k) = mx n n (row er k), mean D = 0 & moment D D = mx n n (row er k)]].
Proof.
move=> E; have [W [e [w [v HW]]]] := white_noises_exist h0 hk.
have [Hd _] := noise_data e w v; have [g1 [st1 [er1 E1]]] := noise_filter e w v E.
exists W, e, w, v, (noisy e w v), g1, st1, er1; split=> // k Hk D.
have [_ _ o3 _ _] := filter_out H E Hk.
have eo o : mx n n (row (er1 o) k) = mx n n (row er k) by have [_ ->] := rf_out Hd E1 o Hk; rewrite o3.
have um : mean D = 0 by apply: (C82_filter_unbiased Hd _ E1) => //; exact: white_centred HW.
split=> //; rewrite (eq_moment (err_rsub Hd E1 Hk) (err_rsub Hd E1 Hk)) o3.
by have [_ ->] := est_all HW (sw := fun o => model_of n m p self (noisy e w v o) U)
  (fun o => let: And5 _ _ h1 h2 _ := Hd o in conj h1 h2)
  (fun o => let: And5 _ _ _ _ h := Hd o in h) (rf_units Hd E1) (Hk : (k.+1 <= T)%N).
Qed.
End Experiment.

(** ** Cases *)
(** The object of ExCases.v with unit covariances, on data with noises of
    covariance 1/11. *)
Example C81_C82_case g :
  let self := demo_kf oracle n2i 1 in let U := demo_U oracle n2i 1 in let s := demo_s oracle n2i 1 in
  let Q d := (fun _ : nat => (11%:R^-1)%:M : 'M[F]_d) in
  exists Z : Om (dice F) -> arr,
  [/\ random_data 2 s 3 (@dice_e F) (@dice_w F) (@dice_v F) self Z U,
      white_noises (with_covs s (11%:R^-1)%:M (Q 2%N) (Q 1%N)) 3 (@dice_e F) (@dice_w F) (@dice_v F),
      loewner (11%:R^-1)%:M (mP0 s) /\ (forall k, (k < 3)%N -> loewner (Q 2%N k) (mQ s k) /\ loewner (Q 1%N k) (mR s k)),
      (forall o, nrows (Z o) = 3%N) /\ centred_noises 3 (@dice_e F) (@dice_w F) (@dice_v F) &
      (exists g' st er, forall o, kf_filter self (Z o) U g = (g' o, Ok (st o, er o))) /\
      (exists g' xs Ps, forall o, kf_smooth self (Z o) U g = (g' o, Ok (xs o, Ps o)))].
Proof.
move=> self U s Q; have c1 : (0 : F) < 1 by exact: ltr01.
have Hr := demo_run oracle n2i (1 : F); have HU : demo_U oracle n2i (1 : F) = None -> dt (demo_Z oracle n2i (1 : F)) = DFloat by [].
have [Hd Hn] := noise_data Hr HU (@dice_e F) (@dice_w F) (@dice_v F).
rewrite (demo_steps oracle n2i (1 : F)) in Hd Hn.
exists (noisy 2%N self (demo_Z oracle n2i 1) U (@dice_e F) (@dice_w F) (@dice_v F)).
have lo d : loewner ((11%:R^-1)%:M : 'M[F]_d) (1%:M).
  rewrite /loewner; have -> : 1%:M - (11%:R^-1)%:M = (1 - 11%:R^-1) *: 1%:M :> 'M[F]_d.
    by rewrite scalerBl scale1r scalemx1.
  apply: psd_scale; last exact/pd_psd/pd_1.
  by rewrite subr_ge0 invf_le1 ?ltr0n // ler1n.
split.
- exact: Hd.
- exact: (dice_white F).
- split; first by case: (demo_model0 oracle n2i (1 : F)) => _ ->; exact: lo.
  by move=> k Hk; have [_ _ _ -> [-> _]] := demo_model oracle n2i (1 : F) Hk; split; exact: lo.
- by split; [exact: Hn|exact: (white_centred (dice_white F))].
split.
  by have [g' [st [er E]]] := demo_ok g c1; exact: (noise_filter Hr HU _ _ _ E).
have [g' [xs [Ps E]]] := demo_smooth_ok g c1.
exact: (noise_smooth (L := 2) Hr HU _ _ _ (demo_steps oracle n2i (1 : F)) erefl E).
Qed.

(** Two sensors (position and velocity) against the position sensor alone. *)
Definition both_seen (c : F) : model F 2 2 :=
  let d := demo c in
  Model (mA d) (mc d) (fun _ => 1%:M) (mQ d) (fun _ => c%:M) (fun _ => 0) (mx0 d) (mP0 d).

Example C83_case (c : F) g : 0 < c ->
  let s := both_seen c in
  let self := build oracle n2i s 3 in let Z := build_Z oracle n2i s 3 in let U := build_U oracle n2i s 3 in
  let self' := demo_kf oracle n2i c in let Z' := demo_Z oracle n2i c in let U' := demo_U oracle n2i c in
  [/\ exact_run 2 2 2 self Z U, exact_run 2 1 2 self' Z' U', steps self' Z' U' = steps self Z U,
      poorer (m := 2) (m' := 1) 2 2 2 self self' Z Z' U U' (fun _ => demo_H F) &
  [/\ psd (mP0 (model_of 2 2 2 self Z U)) /\
       (forall k, (k < 3)%N -> psd (mQ (model_of 2 2 2 self Z U) k) /\ psd (mR (model_of 2 2 2 self Z U) k)),
      (exists g' st er, kf_filter self Z U g = (g', Ok (st, er))),
      (exists g' xs Ps, kf_smooth self Z U g = (g', Ok (xs, Ps))),
      (exists g' st er, kf_filter self' Z' U' g = (g', Ok (st, er))) &
      (exists g' xs Ps, kf_smooth self' Z' U' g = (g', Ok (xs, Ps)))]].
Proof.
move=> Hc s self Z U self' Z' U'.
have pdc d : pd (c%:M : 'M[F]_d) by rewrite -scalemx1; apply: pd_scale => //; exact: pd_1.
have E0 := build_model0 oracle n2i s 3; cbv zeta in E0.
have Ek k (Hk : (k < 3)%N) := build_model oracle n2i s Hk; cbv zeta in Ek.
have Hr := build_run oracle n2i s 3.
have p0 : pd (mP0 (model_of 2 2 2 self Z U)) by case: E0 => _ ->; exact: pdc.
have pk k : (k < 3)%N -> pd (mQ (model_of 2 2 2 self Z U) k) /\ pd (mR (model_of 2 2 2 self Z U) k).
  by move=> Hk; have [_ _ _ -> [-> _]] := Ek k Hk; split; exact: pdc.
have inn k : (k < 3)%N -> innov (model_of 2 2 2 self Z U) k \in unitmx.
  by apply: innov_unit; [exact: pd_psd|move=> i /pk [/pd_psd]|move=> i /pk []].
split; [exact: Hr|exact: demo_run|exact: etrans (demo_steps _ _ _) (esym (build_steps oracle n2i s 3))| |].
  split; first by case: (demo_model0 oracle n2i c) => _ ->; case: E0 => _ ->; exact: loewner_refl.
  move=> k; rewrite (build_steps oracle n2i s 3) => Hk.
  have [-> _ -> -> [-> _]] := Ek k Hk; have [-> _ -> -> [-> _]] := demo_model oracle n2i c Hk.
  split=> //; [by rewrite mulmx1|exact: loewner_refl|].
  rewrite mul_mx_scalar -scalemxAl.
  have -> : demo_H F *m (demo_H F)^T = 1%:M.
    by apply/matrixP => i j; rewrite !mxE !big_ord_recl big_ord0 !mxE !ord1 /= mulr1 mulr0 !addr0.
  rewrite scalemx1; exact: loewner_refl.
split.
- by split; [exact: pd_psd|move=> k /pk [/pd_psd h1 /pd_psd h2]].
- by apply: (filter_returns _ Hr); rewrite (build_steps oracle n2i s 3).
- apply: (smooth_returns (L := 2) _ Hr).
  + exact: (build_steps oracle n2i s 3).
  + by [].
  + exact: inn.
  move=> j Hj; apply: pd_unit.
  by have [] := post_pd_Q (pd_psd p0) (fun i Hi => (pk i Hi).1) (fun i Hi => (pk i Hi).2) (Hj : (j.+1 < 3)%N).
- exact: demo_ok.
exact: demo_smooth_ok.
Qed.

(** C84 holds of the objects of ExCases.v. *)
Example C84_case (c : F) g : 0 < c ->
  let self := demo_kf oracle n2i c in let Z := demo_Z oracle n2i c in let U := demo_U oracle n2i c in
  let s := model_of 2 1 2 self Z U in
  [/\ exact_run 2 1 2 self Z U, (U = None -> dt Z = DFloat), psd (mP0 s),
      (forall k, (k < steps self Z U)%N -> psd (mQ s k) /\ psd (mR s k)) &
      exists g' st er, kf_filter self Z U g = (g', Ok (st, er))].
Proof.
move=> Hc self Z U s; have [p0 pk] := demo_pd oracle n2i Hc.
split; [exact: demo_run|by []|exact: pd_psd| |exact: demo_ok].
by move=> k; rewrite (demo_steps oracle n2i c) => /pk [/pd_psd h1 /pd_psd h2].
Qed.
End Props.
