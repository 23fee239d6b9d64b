(** * Props5: C31 - C37: pairs of runs, noise-free data, smoothing, in exact
    arithmetic (vocabulary as in Props4.v) *)
From Coq Require Import ZArith.
From mathcomp Require Import all_ssreflect all_algebra.
From Verif Require Import Np NpLemmas Kf ApiSpec Exact Repr Textbook RunSpec Refine Refine2 Build Outputs
  Loewner KalmanAlg TextbookThms TextbookThms2 ExCases.

Set Implicit Arguments.
Unset Strict Implicit.
Unset Printing Implicit Defensive.
Import GRing.Theory Num.Theory Order.Theory.
Local Open Scope ring_scope.

Section Props.
Variable F : realFieldType.
Variable oracle : oracle_type F.
Variable n2i : Z.
Notation N := (exact oracle n2i).
Notation arr := (arr N).

Lemma pred_P_cong n m (s s' : model F n m) k : post_P s' k = post_P s k ->
  mA s' k = mA s k -> mQ s' k = mQ s k -> pred_P s' k = pred_P s k.
Proof. by move=> E1 E2 E3; rewrite !pred_PE E1 E2 E3. Qed.
Lemma innov_cong n m (s s' : model F n m) k : post_P s' k = post_P s k ->
  mA s' k = mA s k -> mQ s' k = mQ s k -> mH s' k = mH s k -> mR s' k = mR s k -> innov s' k = innov s k.
Proof. by move=> E1 E2 E3 E4 E5; rewrite !innovE (pred_P_cong E1 E2 E3) E4 E5. Qed.

(** Two systems with the same matrices (but possibly different initial means,
    controls and observations). *)
Definition same_matrices n m (s s' : model F n m) (T : nat) : Prop :=
  mP0 s' = mP0 s /\ forall k, (k < T)%N ->
    [/\ mA s' k = mA s k, mH s' k = mH s k, mQ s' k = mQ s k & mR s' k = mR s k].

Section TwoRuns.
Variables (n m p p1 p2 : nat).
Variables (self1 self2 self : kf N) (Z1 Z2 Z : arr) (U1 U2 U : option arr) (g1 g2 g : seq arr).
Let s1 := model_of n m p1 self1 Z1 U1.
Let s2 := model_of n m p2 self2 Z2 U2.
Let s := model_of n m p self Z U.
Notation T := (steps self Z U).

(** ** C31: superposition *)
Lemma same_innov (sa sb : model F n m) t : same_matrices sa sb t ->
  forall k, (k < t)%N -> innov sb k = innov sa k /\ pred_P sb k = pred_P sa k.
Proof.
move=> [E0 E]; have H : forall k, (k <= t)%N -> post_P sb k = post_P sa k.
  elim=> [|k IH] Hk //; have [A H Q R] := E k Hk.
  by rewrite !post_PS (pred_P_cong (IH (ltnW Hk)) A Q) H R.
move=> k Hk; have [A H' Q R] := E k Hk; split; last exact: pred_P_cong (H k (ltnW Hk)) _ _.
exact: innov_cong (H k (ltnW Hk)) _ _ _ _.
Qed.

Theorem C31_superposition (a b : F) g1' st1 er1 :
  exact_run n m p1 self1 Z1 U1 -> exact_run n m p2 self2 Z2 U2 -> exact_run n m p self Z U ->
  steps self1 Z1 U1 = T -> steps self2 Z2 U2 = T ->
  same_matrices s s1 T -> same_matrices s s2 T ->
  mx0 s = a *: mx0 s1 + b *: mx0 s2 ->
  (forall k, (k < T)%N -> mc s k = a *: mc s1 k + b *: mc s2 k /\
                          mz s k = a *: mz s1 k + b *: mz s2 k) ->
  kf_filter self1 Z1 U1 g1 = (g1', Ok (st1, er1)) ->
  exists g2' st2 er2 g' st er,
  [/\ kf_filter self2 Z2 U2 g2 = (g2', Ok (st2, er2)), kf_filter self Z U g = (g', Ok (st, er)) &
  forall k, (k < T)%N ->
    [/\ mx n 1 (row st k) = a *: mx n 1 (row st1 k) + b *: mx n 1 (row st2 k),
        mx n n (row er1 k) = mx n n (row er k) & mx n n (row er2 k) = mx n n (row er k)]].
Proof.
move=> H1 H2 H t1 t2 [m1 m1'] [m2 m2'] hx hcz E1.
have u1 : forall k, (k < T)%N -> innov s1 k \in unitmx by move=> k; rewrite -t1; exact: (filter_units H1 E1).
have i1 := same_innov (conj m1 m1'); have i2 := same_innov (conj m2 m2').
have us : forall k, (k < T)%N -> innov s k \in unitmx by move=> k Hk; have [<- _] := i1 k Hk; exact: u1.
have u2 : forall k, (k < T)%N -> innov s2 k \in unitmx by move=> k Hk; have [-> _] := i2 k Hk; exact: us.
have [g' [st [er E]]] := filter_returns g H us.
have [g2' [st2 [er2 E2]]] : exists g2' st2 er2, kf_filter self2 Z2 U2 g2 = (g2', Ok (st2, er2)).
  by apply: (filter_returns _ H2); rewrite t2.
exists g2', st2, er2, g', st, er; split=> // k Hk.
have [_ -> -> _ _] := filter_out H E Hk.
have Hk1 := Hk; rewrite -t1 in Hk1; have [_ -> -> _ _] := filter_out H1 E1 Hk1.
have Hk2 := Hk; rewrite -t2 in Hk2; have [_ -> -> _ _] := filter_out H2 E2 Hk2.
by have [e1 e2 e3] := (superpose m1 m2 hx m1' m2' hcz).1 k.+1 Hk; split.
Qed.

Theorem C31_superposition_smooth (a b : F) L g1' xs1 Ps1 :
  exact_run n m p1 self1 Z1 U1 -> exact_run n m p2 self2 Z2 U2 -> exact_run n m p self Z U ->
  steps self1 Z1 U1 = nrows Z1 -> steps self2 Z2 U2 = nrows Z2 -> T = nrows Z ->
  nrows Z1 = L.+1 -> nrows Z2 = L.+1 -> nrows Z = L.+1 ->
  same_matrices s s1 T -> same_matrices s s2 T ->
  mx0 s = a *: mx0 s1 + b *: mx0 s2 ->
  (forall k, (k < T)%N -> mc s k = a *: mc s1 k + b *: mc s2 k /\
                          mz s k = a *: mz s1 k + b *: mz s2 k) ->
  kf_smooth self1 Z1 U1 g1 = (g1', Ok (xs1, Ps1)) ->
  exists g2' xs2 Ps2 g' xs Ps,
  [/\ kf_smooth self2 Z2 U2 g2 = (g2', Ok (xs2, Ps2)), kf_smooth self Z U g = (g', Ok (xs, Ps)) &
  forall k, (k < T)%N ->
    [/\ mx n 1 (row xs k) = a *: mx n 1 (row xs1 k) + b *: mx n 1 (row xs2 k),
        mx n n (row Ps1 k) = mx n n (row Ps k) & mx n n (row Ps2 k) = mx n n (row Ps k)]].
Proof.
move=> H1 H2 H t1 t2 t l1 l2 l; rewrite t l => -[m1 m1'] [m2 m2'] hx hcz E1.
have i1 := same_innov (conj m1 m1'); have i2 := same_innov (conj m2 m2').
have [u1 q1 r1] := smooth_out H1 t1 l1 E1.
have us k : (k <= L)%N -> innov s k \in unitmx by move=> Hk; have [<- _] := i1 k Hk; exact: u1.
have u2 k : (k <= L)%N -> innov s2 k \in unitmx by move=> Hk; have [-> _] := i2 k Hk; exact: us.
have qs k : (k < L)%N -> pred_P s k.+1 \in unitmx by move=> Hk; have [_ <-] := i1 k.+1 Hk; exact: q1.
have q2 k : (k < L)%N -> pred_P s2 k.+1 \in unitmx by move=> Hk; have [_ ->] := i2 k.+1 Hk; exact: qs.
have [g' [xs [Ps E]]] := smooth_returns g H t l us qs.
have [g2' [xs2 [Ps2 E2]]] := smooth_returns g2 H2 t2 l2 u2 q2.
exists g2', xs2, Ps2, g', xs, Ps; split=> // k Hk.
have [_ _ r] := smooth_out H t l E; have [_ _ r2] := smooth_out H2 t2 l2 E2.
have [-> -> _ _] := r1 k Hk; have [-> -> _ _] := r2 k Hk; have [-> -> _ _] := r k Hk.
by have [e1 e2 e3] := (superpose m1 m2 hx m1' m2' hcz).2 L k (ltnSn L) Hk.
Qed.
End TwoRuns.

Section Transform.
Variables (n m p p' : nat).
Variables (self self' : kf N) (Z Z' : arr) (U U' : option arr) (g g' : seq arr).
Let s := model_of n m p self Z U.
Let s' := model_of n m p' self' Z' U'.
Notation T := (steps self Z U).
Hypothesis H : exact_run n m p self Z U.
Hypothesis H' : exact_run n m p' self' Z' U'.
Hypothesis HT : steps self' Z' U' = T.

(** What it takes to compare the outputs of both runs. *)
Lemma both_filters g1 st er (Rx : nat -> 'cV[F]_n -> 'cV[F]_n -> Prop)
    (RP : nat -> 'M[F]_n -> 'M[F]_n -> Prop) (RK : nat -> 'M[F]_(n, m) -> 'M[F]_(n, m) -> Prop) :
  kf_filter self Z U g = (g1, Ok (st, er)) ->
  ((forall k, (k < T)%N -> innov s k \in unitmx) -> forall k, (k < T)%N -> innov s' k \in unitmx) ->
  ((forall k, (k < T)%N -> innov s k \in unitmx) -> (forall k, (k < T)%N -> innov s' k \in unitmx) ->
   forall k, (k < T)%N -> [/\ Rx k (post_x s k.+1) (post_x s' k.+1), RP k (post_P s k.+1) (post_P s' k.+1) &
      RK k (gain_at s k) (gain_at s' k)]) ->
  exists g1' st' er', kf_filter self' Z' U' g' = (g1', Ok (st', er')) /\
  forall k, (k < T)%N ->
    [/\ Rx k (mx n 1 (row st k)) (mx n 1 (row st' k)), RP k (mx n n (row er k)) (mx n n (row er' k)) &
        RK k (gain_of n m g g1 k) (gain_of n m g' g1' k)].
Proof.
move=> E Hi HR; have u := filter_units H E; have u' := Hi u.
have [g1' [st' [er' E']]] : exists g1' st' er', kf_filter self' Z' U' g' = (g1', Ok (st', er')).
  by apply: (filter_returns _ H'); rewrite HT.
exists g1', st', er'; split=> // k Hk.
have [_ -> -> -> _] := filter_out H E Hk.
have Hk1 := Hk; rewrite -HT in Hk1; have [_ -> -> -> _] := filter_out H' E' Hk1.
exact: HR.
Qed.

Lemma both_smooths L g1 xs Ps (Rx : nat -> 'cV[F]_n -> 'cV[F]_n -> Prop)
    (RP : nat -> 'M[F]_n -> 'M[F]_n -> Prop) :
  T = nrows Z -> nrows Z = L.+1 -> nrows Z' = L.+1 ->
  kf_smooth self Z U g = (g1, Ok (xs, Ps)) ->
  ((forall k, (k <= L)%N -> innov s k \in unitmx) -> (forall k, (k < L)%N -> pred_P s k.+1 \in unitmx) ->
   (forall k, (k <= L)%N -> innov s' k \in unitmx) /\ (forall k, (k < L)%N -> pred_P s' k.+1 \in unitmx)) ->
  ((forall k, (k <= L)%N -> innov s k \in unitmx) -> (forall k, (k < L)%N -> pred_P s k.+1 \in unitmx) ->
   forall k, (k <= L)%N -> Rx k (smooth_x s L k) (smooth_x s' L k) /\ RP k (smooth_P s L k) (smooth_P s' L k)) ->
  exists g1' xs' Ps', kf_smooth self' Z' U' g' = (g1', Ok (xs', Ps')) /\
  forall k, (k < T)%N ->
    Rx k (mx n 1 (row xs k)) (mx n 1 (row xs' k)) /\ RP k (mx n n (row Ps k)) (mx n n (row Ps' k)).
Proof.
move=> t l l' E Hi HR; have [u q r] := smooth_out H t l E; have [u' q'] := Hi u q.
have t' : steps self' Z' U' = nrows Z' by rewrite HT t l.
have [g1' [xs' [Ps' E']]] := smooth_returns g' H' t' l' u' q'.
exists g1', xs', Ps'; split=> // k; rewrite t l ltnS => Hk.
have [_ _ r'] := smooth_out H' t' l' E'.
by have [-> -> _ _] := r k Hk; have [-> -> _ _] := r' k Hk; exact: HR.
Qed.

(** ** C32: change of state coordinates *)
Definition in_coordinates (W : 'M[F]_n) : Prop :=
  [/\ mx0 s' = W *m mx0 s, mP0 s' = W *m mP0 s *m W^T &
   forall k, (k < T)%N ->
    [/\ mA s' k = W *m mA s k *m invmx W, mc s' k = W *m mc s k, mH s' k = mH s k *m invmx W,
        mQ s' k = W *m mQ s k *m W^T & mR s' k = mR s k /\ mz s' k = mz s k]].

Theorem C32_change_of_coordinates (W : 'M[F]_n) g1 st er :
  W \in unitmx -> in_coordinates W -> kf_filter self Z U g = (g1, Ok (st, er)) ->
  exists g1' st' er', kf_filter self' Z' U' g' = (g1', Ok (st', er')) /\
  forall k, (k < T)%N ->
    [/\ mx n 1 (row st' k) = W *m mx n 1 (row st k),
        mx n n (row er' k) = W *m mx n n (row er k) *m W^T &
        gain_of n m g' g1' k = W *m gain_of n m g g1 k].
Proof.
move=> uW [h0 hP h] E; have [c1 [c2 _]] := coords uW h0 hP h.
apply: (both_filters (Rx := fun _ x x' => x' = W *m x) (RP := fun _ P P' => P' = W *m P *m W^T)
  (RK := fun _ k k' => k' = W *m k) E).
  by move=> u k Hk; have [-> _ _] := c1 k Hk; exact: u.
by move=> _ _ k Hk; have [_ _ e3] := c1 k Hk; have [e1 e2] := c2 k.+1 Hk; split.
Qed.

Theorem C32_change_of_coordinates_smooth (W : 'M[F]_n) L g1 xs Ps :
  W \in unitmx -> in_coordinates W -> T = nrows Z -> nrows Z = L.+1 -> nrows Z' = L.+1 ->
  kf_smooth self Z U g = (g1, Ok (xs, Ps)) ->
  exists g1' xs' Ps', kf_smooth self' Z' U' g' = (g1', Ok (xs', Ps')) /\
  forall k, (k < T)%N ->
    mx n 1 (row xs' k) = W *m mx n 1 (row xs k) /\ mx n n (row Ps' k) = W *m mx n n (row Ps k) *m W^T.
Proof.
move=> uW [h0 hP h] t l l' E; have [c1 [_ c3]] := coords uW h0 hP h.
have HLT : (L < T)%N by rewrite t l.
apply: (both_smooths (Rx := fun _ x x' => x' = W *m x) (RP := fun _ P P' => P' = W *m P *m W^T) t l l' E).
  move=> u q; split=> k Hk; first by have [-> _ _] := c1 k (leq_ltn_trans Hk HLT); exact: u.
  have [_ -> _] := c1 k.+1 (leq_ltn_trans Hk HLT).
  by rewrite !unitmx_mul uW unitmx_tr uW q.
by move=> u q k Hk; exact: c3.
Qed.

(** ** C33: change of sensor units *)
Definition in_units (M : nat -> 'M[F]_m) : Prop :=
  [/\ mx0 s' = mx0 s, mP0 s' = mP0 s &
   forall k, (k < T)%N ->
    [/\ mA s' k = mA s k, mc s' k = mc s k, mQ s' k = mQ s k &
    [/\ mH s' k = M k *m mH s k, mR s' k = M k *m mR s k *m (M k)^T & mz s' k = M k *m mz s k]]].

Theorem C33_change_of_sensor_units (M : nat -> 'M[F]_m) g1 st er :
  (forall k, (k < T)%N -> M k \in unitmx) -> in_units M -> kf_filter self Z U g = (g1, Ok (st, er)) ->
  exists g1' st' er', kf_filter self' Z' U' g' = (g1', Ok (st', er')) /\
  forall k, (k < T)%N ->
    [/\ mx n 1 (row st' k) = mx n 1 (row st k), mx n n (row er' k) = mx n n (row er k) &
        gain_of n m g' g1' k *m M k = gain_of n m g g1 k].
Proof.
move=> uM [h0 hP h] E; have C := units uM h0 hP h.
apply: (both_filters (Rx := fun _ x x' => x' = x) (RP := fun _ P P' => P' = P)
  (RK := fun k K0 K' => K' *m M k = K0) E).
  by move=> /C [].
move=> /C [_ c1 c2 _] _ k Hk; have [e1 e2] := c1 k.+1 Hk; have [_ e3] := c2 k Hk; split=> //.
by rewrite e3 -mulmxA mulVmx ?mulmx1 // uM.
Qed.

Theorem C33_change_of_sensor_units_smooth (M : nat -> 'M[F]_m) L g1 xs Ps :
  (forall k, (k < T)%N -> M k \in unitmx) -> in_units M ->
  T = nrows Z -> nrows Z = L.+1 -> nrows Z' = L.+1 ->
  kf_smooth self Z U g = (g1, Ok (xs, Ps)) ->
  exists g1' xs' Ps', kf_smooth self' Z' U' g' = (g1', Ok (xs', Ps')) /\
  forall k, (k < T)%N ->
    mx n 1 (row xs' k) = mx n 1 (row xs k) /\ mx n n (row Ps' k) = mx n n (row Ps k).
Proof.
move=> uM [h0 hP h] t l l' E; have C := units uM h0 hP h.
have LT k : (k <= L)%N = (k < T)%N by rewrite t l.
have HLT : (L < T)%N by rewrite -LT.
apply: (both_smooths (Rx := fun _ x x' => x' = x) (RP := fun _ P P' => P' = P) t l l' E).
  move=> u q; have [|i _ c2 _] := C; first by move=> k; rewrite -LT; exact: u.
  split=> k Hk; first by apply: i; rewrite -LT.
  by have [|-> _] := c2 k.+1; [rewrite -LT|exact: q].
move=> u q k Hk; have [|_ _ _ c] := C; first by move=> i; rewrite -LT; exact: u.
exact: c.
Qed.

(** ** C34: only noise ratios matter *)
Definition scaled_noise (c : F) : Prop :=
  [/\ mx0 s' = mx0 s, mP0 s' = c *: mP0 s &
   forall k, (k < T)%N ->
    [/\ mA s' k = mA s k, mc s' k = mc s k, mH s' k = mH s k &
    [/\ mQ s' k = c *: mQ s k, mR s' k = c *: mR s k & mz s' k = mz s k]]].

Theorem C34_only_noise_ratios_matter (c : F) g1 st er :
  c != 0 -> scaled_noise c -> kf_filter self Z U g = (g1, Ok (st, er)) ->
  exists g1' st' er', kf_filter self' Z' U' g' = (g1', Ok (st', er')) /\
  forall k, (k < T)%N ->
    [/\ mx n 1 (row st' k) = mx n 1 (row st k), mx n n (row er' k) = c *: mx n n (row er k) &
        gain_of n m g' g1' k = gain_of n m g g1 k].
Proof.
move=> uc [h0 hP h] E; have C := ratios uc h0 hP h.
apply: (both_filters (Rx := fun _ x x' => x' = x) (RP := fun _ P P' => P' = c *: P)
  (RK := fun k K0 K' => K' = K0) E).
  by move=> /C [].
by move=> /C [_ c1 c2 _] _ k Hk; have [e1 e2] := c1 k.+1 Hk; have [_ e3] := c2 k Hk; split.
Qed.

Theorem C34_only_noise_ratios_matter_smooth (c : F) L g1 xs Ps :
  c != 0 -> scaled_noise c -> T = nrows Z -> nrows Z = L.+1 -> nrows Z' = L.+1 ->
  kf_smooth self Z U g = (g1, Ok (xs, Ps)) ->
  exists g1' xs' Ps', kf_smooth self' Z' U' g' = (g1', Ok (xs', Ps')) /\
  forall k, (k < T)%N ->
    mx n 1 (row xs' k) = mx n 1 (row xs k) /\ mx n n (row Ps' k) = c *: mx n n (row Ps k).
Proof.
move=> uc [h0 hP h] t l l' E; have C := ratios uc h0 hP h.
have LT k : (k <= L)%N = (k < T)%N by rewrite t l.
have HLT : (L < T)%N by rewrite -LT.
apply: (both_smooths (Rx := fun _ x x' => x' = x) (RP := fun _ P P' => P' = c *: P) t l l' E).
  move=> u q; have [|i _ c2 _] := C; first by move=> k; rewrite -LT; exact: u.
  split=> k Hk; first by apply: i; rewrite -LT.
  have [|-> _] := c2 k.+1; first by rewrite -LT.
  by rewrite unitmxZ ?unitfE // q.
move=> u q k Hk; have [|_ _ _ c0] := C; first by move=> i; rewrite -LT; exact: u.
exact: c0.
Qed.

(** ** C37: better sensors and better priors give smaller covariances *)
Theorem C37_covariances_are_monotone g1 st er g1' st' er' :
  psd (mP0 s) -> loewner (mP0 s) (mP0 s') ->
  (forall k, (k < T)%N -> [/\ mA s' k = mA s k, mH s' k = mH s k, psd (mQ s k), psd (mR s k) &
     loewner (mQ s k) (mQ s' k) /\ loewner (mR s k) (mR s' k)]) ->
  kf_filter self Z U g = (g1, Ok (st, er)) -> kf_filter self' Z' U' g' = (g1', Ok (st', er')) ->
  forall k, (k < T)%N -> loewner (mx n n (row er k)) (mx n n (row er' k)).
Proof.
move=> h0 h0' h E E' k Hk.
have u := filter_units H E; have u' := filter_units H' E'; rewrite HT in u'.
have [_ _ -> _ _] := filter_out H E Hk.
have Hk1 := Hk; rewrite -HT in Hk1; have [_ _ -> _ _] := filter_out H' E' Hk1.
by apply: (monotone h0 h0' h) => // i Hi; rewrite u ?u'.
Qed.
End Transform.

Section OneRun.
Variables (n m p : nat) (self : kf N) (Z : arr) (U : option arr) (g g' : seq arr).
Let s := model_of n m p self Z U.
Notation T := (steps self Z U).

(** ** C35: a noise-free trajectory is tracked exactly *)
Definition noise_free (t : nat -> 'cV[F]_n) : Prop :=
  forall k, (k < T)%N ->
    t k = mA s k *m (if k is j.+1 then t j else mx0 s) + mc s k /\ mz s k = mH s k *m t k.

Theorem C35_noise_free_trajectory_is_tracked (t : nat -> 'cV[F]_n) st er :
  exact_run n m p self Z U -> noise_free t ->
  kf_filter self Z U g = (g', Ok (st, er)) ->
  forall k, (k < T)%N -> mx n 1 (row st k) = t k.
Proof.
move=> H h E k Hk; have [_ -> _ _ _] := filter_out H E Hk.
have [c _] := @exact_track F n m s T t (fun i Hi => proj1 (h i Hi)) (fun i Hi => proj2 (h i Hi)).
by case: (c k Hk).
Qed.

Theorem C35_noise_free_trajectory_is_tracked_smooth (t : nat -> 'cV[F]_n) xs Ps :
  exact_run n m p self Z U -> noise_free t -> T = nrows Z ->
  kf_smooth self Z U g = (g', Ok (xs, Ps)) ->
  forall k, (k < T)%N -> mx n 1 (row xs k) = t k.
Proof.
move=> H h HT E k Hk; case l : (nrows Z) => [|L]; first by move: Hk; rewrite HT l.
have [_ _ r] := smooth_out H HT l E.
have LT i : (i <= L)%N = (i < T)%N by rewrite HT l.
have [|-> _ _ _] := r k; first by rewrite LT.
have [_ c] := @exact_track F n m s T t (fun i Hi => proj1 (h i Hi)) (fun i Hi => proj2 (h i Hi)).
by apply: c; rewrite -?LT // LT.
Qed.

(** ** C36: smoothing never increases uncertainty *)
Theorem C36_smoothing_does_not_increase_uncertainty xs Ps :
  exact_run n m p self Z U -> T = nrows Z ->
  psd (mP0 s) -> (forall k, (k < T)%N -> psd (mQ s k) /\ psd (mR s k)) ->
  kf_smooth self Z U g = (g', Ok (xs, Ps)) ->
  exists st er, kf_filter self Z U g = (g', Ok (st, er)) /\
  forall k, (k < T)%N ->
    [/\ psd (mx n n (row Ps k)), loewner (mx n n (row Ps k)) (mx n n (row er k)),
        forall i, mx n n (row Ps k) i i <= mx n n (row er k) i i &
        \tr (mx n n (row Ps k)) <= \tr (mx n n (row er k))].
Proof.
move=> H HT h0 h E; have [st [er Ef]] := smooth_filter E.
exists st, er; split=> // k Hk; case l : (nrows Z) => [|L]; first by move: Hk; rewrite HT l.
have [u q r] := smooth_out H HT l E.
have LT i : (i <= L)%N = (i < T)%N by rewrite HT l.
have [|_ -> _ _] := r k; first by rewrite LT.
have [_ _ -> _ _] := filter_out H Ef Hk.
have [h1 h2] : psd (smooth_P s L k) /\ loewner (smooth_P s L k) (post_P s k.+1).
  have HLT : (L < T)%N by rewrite -LT.
  have HkL : (k <= L)%N by rewrite LT.
  have uT i : (i < T)%N -> innov s i \in unitmx by rewrite -LT; exact: u.
  exact: (@smooth_le _ _ _ s T h0 (fun i Hi => proj1 (h i Hi)) (fun i Hi => proj2 (h i Hi)) uT L k HLT HkL q).
by split=> //; [move=> i; exact: loewner_diag|exact: loewner_trace].
Qed.
End OneRun.

(** ** Cases: transformed copies of the two-state system of three steps *)
Notation runs s0 := (exact_run 2 1 2 (build oracle n2i s0 3) (build_Z oracle n2i s0 3) (build_U oracle n2i s0 3)).
Notation held s0 := (model_of 2 1 2 (build oracle n2i s0 3) (build_Z oracle n2i s0 3) (build_U oracle n2i s0 3)).

(** Superposition of two different runs. *)
Example C31_case (a b : F) :
  let s1 := demo 1 in
  let s2 := Model (mA s1) (fun _ => const_mx 2%:R) (mH s1) (mQ s1) (mR s1) (fun k => (k%:R)%:M) 0 (mP0 s1) in
  let s0 := Model (mA s1) (fun k => a *: mc s1 k + b *: mc s2 k) (mH s1) (mQ s1) (mR s1)
    (fun k => a *: mz s1 k + b *: mz s2 k) (a *: mx0 s1 + b *: mx0 s2) (mP0 s1) in
  [/\ runs s1, runs s2, runs s0, same_matrices (held s0) (held s1) 3 & same_matrices (held s0) (held s2) 3] /\
  [/\ mx0 (held s0) = a *: mx0 (held s1) + b *: mx0 (held s2) &
      forall k, (k < 3)%N -> mc (held s0) k = a *: mc (held s1) k + b *: mc (held s2) k /\
                             mz (held s0) k = a *: mz (held s1) k + b *: mz (held s2) k].
Proof.
move=> s1 s2 s0; split.
  split; try exact: build_run.
    split=> [|k Hk].
      by have [_ ->] := build_model0 oracle n2i s0 3; have [_ ->] := build_model0 oracle n2i s1 3.
    by have [-> _ -> -> [-> _]] := build_model oracle n2i s0 Hk; have [-> _ -> -> [-> _]] := build_model oracle n2i s1 Hk.
  split=> [|k Hk].
    by have [_ ->] := build_model0 oracle n2i s0 3; have [_ ->] := build_model0 oracle n2i s2 3.
  by have [-> _ -> -> [-> _]] := build_model oracle n2i s0 Hk; have [-> _ -> -> [-> _]] := build_model oracle n2i s2 Hk.
split.
  have [-> _] := build_model0 oracle n2i s0 3; have [-> _] := build_model0 oracle n2i s1 3.
  by have [-> _] := build_model0 oracle n2i s2 3.
move=> k Hk; have [_ -> _ _ [_ ->]] := build_model oracle n2i s0 Hk.
have [_ -> _ _ [_ ->]] := build_model oracle n2i s1 Hk; have [_ -> _ _ [_ ->]] := build_model oracle n2i s2 Hk.
by [].
Qed.

(** For every system and invertible W the transformed system exists; here for
    the two-state system.  The same construction serves C33 and C34. *)
Example C32_case (W : 'M[F]_2) (c : F) : W \in unitmx ->
  let s1 := demo c in
  let s0 := Model (fun k => W *m mA s1 k *m invmx W) (fun k => W *m mc s1 k) (fun k => mH s1 k *m invmx W)
    (fun k => W *m mQ s1 k *m W^T) (mR s1) (mz s1) (W *m mx0 s1) (W *m mP0 s1 *m W^T) in
  [/\ runs s1, runs s0 &
      @in_coordinates 2 1 2 2 (build oracle n2i s1 3) (build oracle n2i s0 3) (build_Z oracle n2i s1 3)
        (build_Z oracle n2i s0 3) (build_U oracle n2i s1 3) (build_U oracle n2i s0 3) W].
Proof.
move=> uW s1 s0; split; try exact: build_run.
have [a1 a2] := build_model0 oracle n2i s0 3; have [b1 b2] := build_model0 oracle n2i s1 3.
split; [by rewrite a1 b1|by rewrite a2 b2|].
rewrite build_steps => k Hk.
have [-> -> -> -> [-> ->]] := build_model oracle n2i s0 Hk.
by have [-> -> -> -> [-> ->]] := build_model oracle n2i s1 Hk.
Qed.

Example C33_case (c w : F) : w != 0 ->
  let s1 := demo c in
  let M (k : nat) := (w *+ k.+1)%:M : 'M[F]_1 in
  let s0 := Model (mA s1) (mc s1) (fun k => M k *m mH s1 k) (mQ s1) (fun k => M k *m mR s1 k *m (M k)^T)
    (fun k => M k *m mz s1 k) (mx0 s1) (mP0 s1) in
  [/\ runs s1, runs s0, forall k, M k \in unitmx &
      @in_units 2 1 2 2 (build oracle n2i s1 3) (build oracle n2i s0 3) (build_Z oracle n2i s1 3)
        (build_Z oracle n2i s0 3) (build_U oracle n2i s1 3) (build_U oracle n2i s0 3) M].
Proof.
move=> uw s1 M s0; split; try exact: build_run.
  by move=> k; rewrite /M unitmxE det_scalar1 unitfE mulrn_eq0 negb_or.
have [a1 a2] := build_model0 oracle n2i s0 3; have [b1 b2] := build_model0 oracle n2i s1 3.
split; [by rewrite a1 b1|by rewrite a2 b2|].
rewrite build_steps => k Hk.
have [-> -> -> -> [-> ->]] := build_model oracle n2i s0 Hk.
by have [-> -> -> -> [-> ->]] := build_model oracle n2i s1 Hk.
Qed.

Example C34_case (c d : F) :
  let s1 := demo d in
  let s0 := Model (mA s1) (mc s1) (mH s1) (fun k => c *: mQ s1 k) (fun k => c *: mR s1 k) (mz s1)
    (mx0 s1) (c *: mP0 s1) in
  [/\ runs s1, runs s0 &
      @scaled_noise 2 1 2 2 (build oracle n2i s1 3) (build oracle n2i s0 3) (build_Z oracle n2i s1 3)
        (build_Z oracle n2i s0 3) (build_U oracle n2i s1 3) (build_U oracle n2i s0 3) c].
Proof.
move=> s1 s0; split; try exact: build_run.
have [a1 a2] := build_model0 oracle n2i s0 3; have [b1 b2] := build_model0 oracle n2i s1 3.
split; [by rewrite a1 b1|by rewrite a2 b2|].
rewrite build_steps => k Hk.
have [-> -> -> -> [-> ->]] := build_model oracle n2i s0 Hk.
by have [-> -> -> -> [-> ->]] := build_model oracle n2i s1 Hk.
Qed.

(** A noise-free trajectory of the two-state system. *)
Fixpoint demo_path (k : nat) : 'cV[F]_2 :=
  demo_A F *m (if k is j.+1 then demo_path j else const_mx 1) + const_mx k%:R.
Example C35_case :
  let s0 := Model (mA (demo 1)) (mc (demo 1)) (mH (demo 1)) (mQ (demo 1)) (mR (demo 1))
    (fun k => mH (demo 1) k *m demo_path k) (mx0 (demo 1)) (mP0 (demo 1)) in
  [/\ runs s0, @noise_free 2 1 2 (build oracle n2i s0 3) (build_Z oracle n2i s0 3) (build_U oracle n2i s0 3) demo_path &
      demo_path 2 != demo_path 1].
Proof.
move=> s0; split; first exact: build_run.
  rewrite /noise_free build_steps => k Hk.
  have [-> -> -> _ [_ ->]] := build_model oracle n2i s0 Hk; have [-> _] := build_model0 oracle n2i s0 3.
  by case: k Hk.
apply/eqP => /matrixP /(_ (lift 0 0) 0); rewrite !mxE !big_ord_recl !big_ord0 !mxE /= !big_ord_recl !big_ord0 !mxE /=.
rewrite !mul0r !mul1r !addr0 !add0r !big_ord_recl !big_ord0 !mxE /= !mul0r !mul1r !addr0 !add0r.
by move/eqP; rewrite -subr_eq0 addrC addKr pnatr_eq0.
Qed.

(** Two ordered systems: noise c and noise c + d. *)
Example C37_case (c d : F) : 0 < c -> 0 <= d ->
  let self := demo_kf oracle n2i c in let self' := demo_kf oracle n2i (c + d) in
  let s := demo_s oracle n2i c in let s' := demo_s oracle n2i (c + d) in
  [/\ exact_run 2 1 2 self (demo_Z oracle n2i c) (demo_U oracle n2i c),
      exact_run 2 1 2 self' (demo_Z oracle n2i (c + d)) (demo_U oracle n2i (c + d)) &
  [/\ psd (mP0 s), loewner (mP0 s) (mP0 s') &
   forall k, (k < 3)%N -> [/\ mA s' k = mA s k, mH s' k = mH s k, psd (mQ s k), psd (mR s k) &
     loewner (mQ s k) (mQ s' k) /\ loewner (mR s k) (mR s' k)]]].
Proof.
move=> Hc Hd self self' s s'; split; try exact: demo_run.
have [p0 pk] := demo_pd oracle n2i Hc.
have ps k : psd (d%:M : 'M[F]_k) by rewrite -scalemx1; apply: psd_scale => //; apply: pd_psd; exact: pd_1.
have [_ e0] := demo_model0 oracle n2i c; have [_ e0'] := demo_model0 oracle n2i (c + d).
have lo k : loewner (c%:M : 'M[F]_k) (c + d)%:M by rewrite /loewner -raddfB /= addrC addKr.
split; [exact: pd_psd|by rewrite e0 e0'|].
move=> k Hk; have [q r] := pk k Hk; have [a _ b cc [e _]] := demo_model oracle n2i c Hk.
have [a' _ b' cc' [e' _]] := demo_model oracle n2i (c + d) Hk.
split; [by rewrite a a'|by rewrite b b'|exact: pd_psd|exact: pd_psd|by rewrite cc cc' e e'].
Qed.
End Props.
