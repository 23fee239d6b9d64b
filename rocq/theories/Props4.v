(** * Props4: C22 - C27, C30: one step in exact arithmetic

    [F] is any ordered field ([realFieldType]: rational, real algebraic or
    real numbers) and [exact] the arithmetic of Exact.v on it.  [model_of]
    reads the matrices off the object and the data, [x_before], [P_before],
    [x_prior], [P_prior] and [gain_of] off the arrays filter returned
    (RunSpec.v); [psd], [pd], [loewner] and [quad] are in Loewner.v. *)
From Coq Require Import ZArith.
From mathcomp Require Import all_ssreflect all_algebra.
From Verif Require Import Np NpLemmas Kf ApiSpec Exact Repr Textbook RunSpec Refine Refine2 Build Outputs
  Loewner KalmanAlg TextbookThms ExCases.

Set Implicit Arguments.
Unset Strict Implicit.
Unset Printing Implicit Defensive.
Import GRing.Theory Num.Theory Order.Theory.
Local Open Scope ring_scope.

Section Props.
Variable F : realFieldType.
Variable oracle : oracle_type F.
Variable n2i : Z.
Notation N := (exact oracle n2i).
Notation arr := (arr N).

Section OneRun.
Variables (n m p : nat) (self : kf N) (Z : arr) (U : option arr) (g g' : seq arr) (st er : arr).

(** ** C22: the code computes the textbook recursion *)
Theorem C22_filter_computes_the_textbook_step :
  exact_run n m p self Z U -> kf_filter self Z U g = (g', Ok (st, er)) ->
  size g' = (size g + steps self Z U)%N /\
  forall k, (k < steps self Z U)%N ->
  let s := model_of n m p self Z U in
  let x := x_before n m p self Z U st k in
  let P := P_before n m p self Z U er k in
  let xm := mA s k *m x + mc s k in
  let Pm := mA s k *m P *m (mA s k)^T + mQ s k in
  let S := mH s k *m Pm *m (mH s k)^T + mR s k in
  let K := Pm *m (mH s k)^T *m invmx S in
  [/\ S \in unitmx,
      mx n 1 (row st k) = xm + K *m (mz s k - mH s k *m xm),
      mx n n (row er k) = (1%:M - K *m mH s k) *m Pm,
      mx n m (nth (np_zeros N [::]) g' (size g + k)) = K &
      [/\ clean (row st k), clean (row er k), clean (nth (np_zeros N [::]) g' (size g + k)),
          shp (nth (np_zeros N [::]) g' (size g + k)) = [:: n; m] &
          dt (nth (np_zeros N [::]) g' (size g + k)) = DFloat]].
Proof.
move=> Hrun E; split.
  case: (filter_rp g Hrun) => [[g1 [st1 [er1 [E1 _ _ [<- _] _]]]]|[j [g1 [_ _ _ E1 _]]]]; rewrite E1 in E => //.
  by case: E => ->.
move=> k Hk s x P xm Pm S K.
have [Hu H1 H2 H3 [R1 R2 R3 _]] := filter_out Hrun E Hk.
have [E1 E2] := before_out Hrun E (ltnW Hk).
rewrite /K /S /Pm /xm /x /P E1 E2; split=> //.
by case: R1 => [[_ _ _ C1 _] _]; case: R2 => [[_ _ _ C2 _] _]; case: R3 => [[_ S3 _ C3 _] D3].
Qed.

(** The same for smooth: T observations, row T-1 is filter's, the rows before
    are obtained from the next ones by the Rauch-Tung-Striebel equations. *)
Theorem C22_smooth_computes_the_textbook_step L xs Ps :
  exact_run n m p self Z U -> steps self Z U = nrows Z -> nrows Z = L.+1 ->
  kf_smooth self Z U g = (g', Ok (xs, Ps)) ->
  exists st er, kf_filter self Z U g = (g', Ok (st, er)) /\
  [/\ mx n 1 (row xs L) = mx n 1 (row st L), mx n n (row Ps L) = mx n n (row er L) &
  forall k, (k < L)%N ->
  let s := model_of n m p self Z U in
  let x := mx n 1 (row st k) in
  let P := mx n n (row er k) in
  let A := mA s k.+1 in
  let xa := A *m x + mc s k.+1 in
  let Pa := A *m P *m A^T + mQ s k.+1 in
  let G := P *m A^T *m invmx Pa in
  [/\ Pa \in unitmx,
      mx n 1 (row xs k) = x + G *m (mx n 1 (row xs k.+1) - xa),
      mx n n (row Ps k) = P + G *m (mx n n (row Ps k.+1) - Pa) *m G^T,
      clean (row xs k) & clean (row Ps k)]].
Proof.
move=> Hrun HT HL E; have [st0 [er0 Ef]] := smooth_filter E.
exists st0, er0; split=> //; have [Hu Hp Hr] := smooth_out Hrun HT HL E.
have HLT : (L < steps self Z U)%N by rewrite HT HL.
have [e1 e2 _ _] := Hr L (leqnn L); have [_ f1 f2 _ _] := filter_out Hrun Ef HLT.
split; first by rewrite e1 f1 smooth_xT.
  by rewrite e2 f2 smooth_PT.
move=> k Hk s x P A xa Pa G.
have HkT : (k < steps self Z U)%N by rewrite HT HL ltnS ltnW.
have [a1 a2 C1 C2] := Hr k (ltnW Hk); have [b1 b2 _ _] := Hr k.+1 Hk.
have [_ c1 c2 _ _] := filter_out Hrun Ef HkT.
have Epa : Pa = pred_P s k.+1 by rewrite /Pa /P c2.
split; first by rewrite Epa; exact: Hp.
- by rewrite a1 b1 /G /xa /x /Pa /P c1 c2; exact: smooth_xS.
- by rewrite a2 b2 /G /Pa /P c2; exact: smooth_PS.
- by case: C1 => [[]].
by case: C2 => [[]].
Qed.

(** ** C23: filter fails exactly on a singular innovation covariance *)
Theorem C23_filter_fails_iff_singular : exact_run n m p self Z U ->
  (exists gf, kf_filter self Z U g = (gf, Raise LinAlgError)) <->
  exists2 k, (k < steps self Z U)%N & innov (model_of n m p self Z U) k \notin unitmx.
Proof.
move=> Hrun; split=> [[gf E]|[k Hk Hn]].
  case: (filter_rp g Hrun) => [[g1 [st1 [er1 [E1 _ _ _ _]]]]|[j [g1 [Hj Hn _ _ _]]]]; first by rewrite E1 in E.
  by exists j.
case: (filter_rp g Hrun) => [[g1 [st1 [er1 [E1 Hu _ _ _]]]]|[j [g1 [_ _ _ E1 _]]]]; last by exists g1.
by rewrite Hu in Hn.
Qed.

(** ... at the first singular one: the gains of the steps before are kept. *)
Theorem C23_filter_fails_at_the_first_singular_step gf e : exact_run n m p self Z U ->
  kf_filter self Z U g = (gf, Raise e) ->
  exists j, [/\ (j < steps self Z U)%N, innov (model_of n m p self Z U) j \notin unitmx,
    (forall i, (i < j)%N -> innov (model_of n m p self Z U) i \in unitmx), e = LinAlgError &
    size gf = (size g + j)%N].
Proof.
move=> Hrun E; case: (filter_rp g Hrun) => [[g1 [st1 [er1 [E1 _ _ _ _]]]]|[j [g1 [Hj Hn Hb E1 [Hs _]]]]];
  rewrite E1 in E => //.
by case: E => Eg Ee; subst g1 e; exists j.
Qed.

Theorem C23_no_failure_with_noisy_sensors : exact_run n m p self Z U ->
  let s := model_of n m p self Z U in
  psd (mP0 s) -> (forall k, (k < steps self Z U)%N -> psd (mQ s k) /\ pd (mR s k)) ->
  exists gf st er, kf_filter self Z U g = (gf, Ok (st, er)).
Proof.
move=> Hrun s h0 h; apply: (filter_returns _ Hrun) => k Hk.
by apply: (@innov_unit _ _ _ _ (steps self Z U)) => // i Hi; case: (h i Hi).
Qed.

(** smooth also needs invertible predicted covariances from the second step on. *)
Theorem C23_smooth_fails_iff_singular L : exact_run n m p self Z U ->
  steps self Z U = nrows Z -> nrows Z = L.+1 ->
  let s := model_of n m p self Z U in
  (exists gf, kf_smooth self Z U g = (gf, Raise LinAlgError)) <->
  (exists2 k, (k <= L)%N & innov s k \notin unitmx) \/ (exists2 k, (k < L)%N & pred_P s k.+1 \notin unitmx).
Proof.
move=> Hrun HT HL s; case: (smooth_rp g Hrun HT HL) => [[g1 [xs [Ps [E1 H1 H2 _]]]]|[g1 [E1 H]]]; last first.
  by split=> // _; exists g1.
split=> [[gf E]|]; first by rewrite E1 in E.
by case=> -[k Hk]; rewrite ?H1 ?H2.
Qed.

Theorem C23_no_smooth_failure L : exact_run n m p self Z U ->
  steps self Z U = nrows Z -> nrows Z = L.+1 ->
  let s := model_of n m p self Z U in
  psd (mP0 s) -> (forall k, (k <= L)%N -> psd (mQ s k) /\ pd (mR s k)) ->
  (forall k, (k <= L)%N -> pd (mQ s k)) \/ (pd (mP0 s) /\ forall k, (k <= L)%N -> mA s k \in unitmx) ->
  exists gf xs Ps, kf_smooth self Z U g = (gf, Ok (xs, Ps)).
Proof.
move=> Hrun HT HL s h0 h hc; apply: (smooth_returns _ Hrun HT HL) => k Hk.
  by apply: (@innov_unit _ _ _ _ L.+1) => // i; rewrite ltnS => Hi; case: (h i Hi).
apply: pd_unit; case: hc => [hQ|[h0' hA]].
  by have [] := @post_pd_Q _ _ _ s L.+1 h0 hQ (fun i Hi => proj2 (h i Hi)) k.+1 Hk.
have [_] := @post_pd_A _ _ _ s L.+1 h0' (fun i Hi => proj1 (h i Hi)) (fun i Hi => proj2 (h i Hi)) hA k.+1 (ltnW Hk).
by apply.
Qed.

(** ** C24: covariances stay symmetric positive semidefinite *)
Section Ran.
Hypothesis Hrun : exact_run n m p self Z U.
Hypothesis E : kf_filter self Z U g = (g', Ok (st, er)).
Let s := model_of n m p self Z U.
Let T := steps self Z U.

Lemma rows_psd : psd (mP0 s) -> (forall k, (k < T)%N -> psd (mQ s k) /\ psd (mR s k)) ->
  (forall k, (k <= T)%N -> psd (post_P s k)) /\ (forall k, (k < T)%N -> psd (pred_P s k)).
Proof.
move=> h0 h; split=> k Hk; [apply: (@post_psd _ _ _ s T)|apply: (@pred_psd _ _ _ s T)] => // i Hi;
  by [case: (h i Hi)|apply: (filter_units Hrun E)].
Qed.
End Ran.

Theorem C24_covariances_are_psd :
  exact_run n m p self Z U -> kf_filter self Z U g = (g', Ok (st, er)) ->
  let s := model_of n m p self Z U in
  psd (mP0 s) -> (forall k, (k < steps self Z U)%N -> psd (mQ s k) /\ psd (mR s k)) ->
  forall k, (k < steps self Z U)%N -> psd (mx n n (row er k)).
Proof.
move=> Hrun E s h0 h k Hk; have [_ _ -> _ _] := filter_out Hrun E Hk.
by apply: (rows_psd Hrun E h0 h).1.
Qed.

Theorem C24_covariances_are_pd :
  exact_run n m p self Z U -> kf_filter self Z U g = (g', Ok (st, er)) ->
  let s := model_of n m p self Z U in
  psd (mP0 s) -> (forall k, (k < steps self Z U)%N -> psd (mQ s k) /\ pd (mR s k)) ->
  (pd (mP0 s) /\ forall k, (k < steps self Z U)%N -> mA s k \in unitmx) \/
  (forall k, (k < steps self Z U)%N -> pd (mQ s k)) ->
  forall k, (k < steps self Z U)%N -> pd (mx n n (row er k)).
Proof.
move=> Hrun E s h0 h hc k Hk; have [_ _ -> _ _] := filter_out Hrun E Hk.
case: hc => [[h0' hA]|hQ].
  by have [] := @post_pd_A _ _ _ s _ h0' (fun i Hi => proj1 (h i Hi)) (fun i Hi => proj2 (h i Hi)) hA k.+1 Hk.
by have [] := @post_pd_Q _ _ _ s _ h0 hQ (fun i Hi => proj2 (h i Hi)) k Hk.
Qed.

(** ** C25: an update never increases uncertainty *)
Theorem C25_filter_update_does_not_increase_uncertainty :
  exact_run n m p self Z U -> kf_filter self Z U g = (g', Ok (st, er)) ->
  let s := model_of n m p self Z U in
  psd (mP0 s) -> (forall k, (k < steps self Z U)%N -> psd (mQ s k) /\ psd (mR s k)) ->
  forall k, (k < steps self Z U)%N ->
  let prior := P_prior n m p self Z U er k in
  let posterior := mx n n (row er k) in
  [/\ loewner posterior prior, forall i, posterior i i <= prior i i & \tr posterior <= \tr prior].
Proof.
move=> Hrun E s h0 h k Hk; have [_ _ E1 _ _] := filter_out Hrun E Hk.
have [_ E2] := prior_out Hrun E Hk.
cbv zeta; rewrite E1 E2.
have Hl : loewner (post_P s k.+1) (pred_P s k).
  by apply: (@post_le_pred _ _ _ s (steps self Z U)) => // i Hi;
     [case: (h i Hi)|case: (h i Hi)|apply: (filter_units Hrun E)].
by split; [|move=> i; exact: loewner_diag|exact: loewner_trace].
Qed.

(** ** C26: the gain is optimal *)
Theorem C26_gain_is_optimal :
  exact_run n m p self Z U -> kf_filter self Z U g = (g', Ok (st, er)) ->
  let s := model_of n m p self Z U in
  psd (mP0 s) -> (forall k, (k < steps self Z U)%N -> psd (mQ s k) /\ psd (mR s k)) ->
  forall k, (k < steps self Z U)%N ->
  let P := P_prior n m p self Z U er k in
  let H := mH s k in
  let err (L : 'M[F]_(n, m)) := (1%:M - L *m H) *m P *m (1%:M - L *m H)^T + L *m mR s k *m L^T in
  [/\ mx n n (row er k) = err (gain_of n m g g' k),
      forall L, loewner (mx n n (row er k)) (err L) &
      forall L, err L = mx n n (row er k) -> L = gain_of n m g g' k].
Proof.
move=> Hrun E s h0 h k Hk; have [Hu _ E1 E3 _] := filter_out Hrun E Hk.
have [_ E2] := prior_out Hrun E Hk.
cbv zeta; rewrite E1 E2 E3.
have hP : psd (pred_P s k) by apply: (rows_psd Hrun E h0 h).2.
have [_ hR] := h k Hk.
have [sP _] := hP; have [sR _] := hR.
split; first exact: upost_joseph.
  by move=> L; apply: ugain_best.
by move=> L; apply: ugain_unique.
Qed.

(** ** C27: the update is the least-squares estimate *)
Theorem C27_update_is_the_least_squares_estimate :
  exact_run n m p self Z U -> kf_filter self Z U g = (g', Ok (st, er)) ->
  let s := model_of n m p self Z U in
  forall k, (k < steps self Z U)%N ->
  let P := P_prior n m p self Z U er k in
  pd P -> pd (mR s k) ->
  let cost (y : 'cV[F]_n) := quad (invmx P) (y - x_prior n m p self Z U st k) +
                             quad (invmx (mR s k)) (mz s k - mH s k *m y) in
  forall y, y != mx n 1 (row st k) -> cost (mx n 1 (row st k)) < cost y.
Proof.
move=> Hrun E s k Hk; have [Hu E0 E1 E3 _] := filter_out Hrun E Hk.
have [-> ->] := prior_out Hrun E Hk; rewrite E0; cbv zeta; rewrite -/s => hP hR y Hy.
exact: ucorr_min.
Qed.

(** ** C30: information form *)
Theorem C30_information_form :
  exact_run n m p self Z U -> kf_filter self Z U g = (g', Ok (st, er)) ->
  let s := model_of n m p self Z U in
  forall k, (k < steps self Z U)%N ->
  let P := P_prior n m p self Z U er k in
  P \in unitmx -> mR s k \in unitmx ->
  [/\ mx n n (row er k) \in unitmx,
      invmx (mx n n (row er k)) = invmx P + (mH s k)^T *m invmx (mR s k) *m mH s k,
      invmx (mx n n (row er k)) *m mx n 1 (row st k) =
        invmx P *m x_prior n m p self Z U st k + (mH s k)^T *m invmx (mR s k) *m mz s k &
      gain_of n m g g' k = mx n n (row er k) *m (mH s k)^T *m invmx (mR s k)].
Proof.
move=> Hrun E s k Hk; have [Hu E0 E1 E3 _] := filter_out Hrun E Hk.
have [-> ->] := prior_out Hrun E Hk; rewrite E0 E1 E3 -/s; cbv zeta => hP hR.
have [h1 h2] := upost_inv hP hR Hu.
split=> //; [exact: uinfo_x|exact: gain_info].
Qed.
End OneRun.

(** The hypotheses of this file are met by a two-state system of three steps
    (and, by [build_run], by every linear model). *)
Example C22_C30_case c : 0 < c ->
  let self := demo_kf oracle n2i c in let Z := demo_Z oracle n2i c in let U := demo_U oracle n2i c in
  let s := model_of 2 1 2 self Z U in
  [/\ exact_run 2 1 2 self Z U, steps self Z U = 3%N /\ nrows Z = 3%N,
      (exists g' st er, kf_filter self Z U [::] = (g', Ok (st, er))) /\
      (exists g' xs Ps, kf_smooth self Z U [::] = (g', Ok (xs, Ps))) &
      [/\ pd (mP0 s), forall k, (k < 3)%N -> pd (mQ s k) /\ pd (mR s k),
          forall k, (k < 3)%N -> mA s k \in unitmx &
          forall g' st er, kf_filter self Z U [::] = (g', Ok (st, er)) -> forall k, (k < 3)%N ->
            pd (P_prior 2 1 2 self Z U er k)]].
Proof.
move=> Hc self Z U s; split.
- exact: demo_run.
- by rewrite demo_steps.
- by split; [exact: demo_ok|exact: demo_smooth_ok].
split; first by case: (demo_pd oracle n2i Hc).
- by case: (demo_pd oracle n2i Hc).
- by move=> k Hk; have [-> _ _ _ _] := demo_model oracle n2i c Hk; exact: demo_AV.
move=> g' st er E k Hk; have HkT : (k < steps self Z U)%N by rewrite demo_steps.
by have [_ ->] := prior_out (demo_run oracle n2i c) E HkT; exact: demo_pred.
Qed.

(** A singular innovation covariance: no noise at all. *)
Example C23_case : let s := demo 0 : model F 2 1 in
  exists gf, kf_filter (demo_kf oracle n2i 0) (demo_Z oracle n2i 0) (demo_U oracle n2i 0) [::] = (gf, Raise LinAlgError).
Proof.
move=> s; apply/(C23_filter_fails_iff_singular _ (demo_run oracle n2i 0)).
exists 0%N; first by rewrite demo_steps.
rewrite /innov /innovation /pred_P /prior_P.
have [_ E0] := demo_model0 oracle n2i 0; have [_ _ _ EQ [ER _]] := demo_model oracle n2i 0 (isT : (0 < 3)%N).
cbv zeta in EQ, ER; rewrite /demo_s in EQ ER E0; cbn [post_P]; rewrite EQ ER E0.
have z0 k : 0%:M = 0 :> 'M[F]_k by apply/matrixP => i j; rewrite !mxE mul0rn.
by rewrite !z0 mulmx0 mul0mx !addr0 mulmx0 mul0mx unitmxE det0 unitr0.
Qed.

End Props.
