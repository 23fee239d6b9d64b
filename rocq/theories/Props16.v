(** * Props16: C70 - C73: more data, blind sensors, independent systems,
    constant models, in exact arithmetic (vocabulary as in Props4.v) *)
From Coq Require Import ZArith.
From mathcomp Require Import all_ssreflect all_algebra.
From Verif Require Import Np NpLemmas Kf ApiSpec Loop FilterLemmas FilterThms SliceThms Exact Repr Textbook RunSpec Refine Refine2 Build
  Outputs Loewner KalmanAlg TextbookThms TextbookThms2 TextbookThms3 ExCases Props5.

Set Implicit Arguments.
Unset Strict Implicit.
Unset Printing Implicit Defensive.
Import GRing.Theory Num.Theory Order.Theory.
Local Open Scope ring_scope.

Section Props.
Variable F : realFieldType.
Variable oracle : oracle_type F.
Variable n2i : Z.
Notation N := (exact oracle n2i).
Notation arr := (arr N).

(** ** Part of a run is a run *)
Lemma run_upto n m p (self : kf N) (Z : arr) U k : exact_run n m p self Z U ->
  exact_run n m p self (upto_row k Z) (omap (upto_row k) U).
Proof.
move=> [hc [hit hn hx hP hl] cx cP [hr hu hA hB]].
have lt j : (j < minn k (steps self Z U))%N -> (j < steps self Z U)%N /\ (j < k)%N.
  by rewrite leq_min => /andP [].
have ltZ j : (j < steps self Z U)%N -> (j < nrows Z)%N.
  by move=> Hj; have [[h _ _ _] _] := steps_le self Z U; exact: leq_trans Hj h.
split=> //.
  split=> //; first exact: iterable_upto.
  move=> j; rewrite steps_upto => /lt [Hj Hjk].
  by rewrite row_upto // control_upto ?ltZ //; exact: hl.
split=> //.
- by move=> j; rewrite steps_upto => /lt [Hj Hjk]; rewrite row_upto //; exact: hr.
- by move=> j; rewrite steps_upto => /lt [Hj Hjk]; rewrite control_upto ?ltZ //; exact: hu.
by case: hB => hB; [left|right]; case: U {hit hl hr hu lt ltZ} hB.
Qed.

Section Run.
Variables (n m p : nat) (self : kf N) (Z : arr) (U : option arr) (g : seq arr).
Let s := model_of n m p self Z U.
Notation T := (steps self Z U).
Hypothesis H : exact_run n m p self Z U.

(** ** C70: more data never hurts the smoother: smoothing the first k rows
    gives, for each of them, a covariance at least as large *)
Theorem C70_more_data_never_hurts g' xs Ps k : T = nrows Z ->
  psd (mP0 s) -> (forall j, (j < T)%N -> psd (mQ s j) /\ psd (mR s j)) ->
  kf_smooth self Z U g = (g', Ok (xs, Ps)) -> (0 < k)%N -> (k <= nrows Z)%N ->
  exists g1 xs1 Ps1, kf_smooth self (upto_row k Z) (omap (upto_row k) U) g = (g1, Ok (xs1, Ps1)) /\
  forall j, (j < k)%N ->
    [/\ loewner (mx n n (row Ps j)) (mx n n (row Ps1 j)),
        forall i, mx n n (row Ps j) i i <= mx n n (row Ps1 j) i i &
        \tr (mx n n (row Ps j)) <= \tr (mx n n (row Ps1 j))].
Proof.
move=> HT h0 h E; case: k => [|L1] // _ Hk.
case l : (nrows Z) Hk => [|L] // Hk.
have [u q r] := smooth_out H HT l E.
have H1 := run_upto L1.+1 H.
have l1 : nrows (upto_row L1.+1 Z) = L1.+1 by rewrite nrows_upto l; apply/minn_idPl.
have t1 : steps self (upto_row L1.+1 Z) (omap (upto_row L1.+1) U) = nrows (upto_row L1.+1 Z).
  by rewrite steps_upto nrows_upto HT.
have HL : (L1 <= L)%N by [].
pose s1 := model_of n m p self (upto_row L1.+1 Z) (omap (upto_row L1.+1) U).
have EP j : post_P s1 j = post_P s j by elim: j => [|j IH] //=; rewrite IH.
have Ep j : pred_P s1 j = pred_P s j by rewrite /pred_P EP.
have Ei j : innov s1 j = innov s j by rewrite /innov Ep.
have Es t j : smooth_P s1 t j = smooth_P s t j.
  have Eg i : sgain s1 i = sgain s i by rewrite /sgain EP Ep.
  rewrite /smooth_P; elim: (t - j)%N => [|i IH]; first exact: EP.
  by cbn [back_P]; rewrite IH Eg EP Ep.
have [g1 [xs1 [Ps1 E1]]] : exists g1 xs1 Ps1, kf_smooth self (upto_row L1.+1 Z) (omap (upto_row L1.+1) U) g = (g1, Ok (xs1, Ps1)).
  apply: (smooth_returns g H1 t1 l1) => j Hj.
    by rewrite -/s1 Ei; apply: u; exact: leq_trans Hj HL.
  by rewrite -/s1 Ep; apply: q; exact: leq_trans Hj HL.
exists g1, xs1, Ps1; split=> // j Hj.
have [_ _ r1] := smooth_out H1 t1 l1 E1.
have [_ -> _ _] := r1 j Hj; rewrite -/s1 Es.
have [_ -> _ _] := r j (leq_trans (Hj : (j <= L1)%N) HL).
have lo : loewner (smooth_P s L j) (smooth_P s L1 j).
  have LT i : (i < L.+1)%N = (i < T)%N by rewrite HT l.
  apply: (@smooth_more _ _ _ s L.+1) => //.
  - by move=> i; rewrite LT => /h [].
  - by move=> i; rewrite LT => /h [].
by split=> //; [move=> i; exact: loewner_diag|exact: loewner_trace].
Qed.

(** ** C71: with a zero observation matrix the reading is ignored *)
Theorem C71_blind_step g' st er k : kf_filter self Z U g = (g', Ok (st, er)) -> (k < T)%N -> mH s k = 0 ->
  [/\ mx n 1 (row st k) = x_prior n m p self Z U st k, mx n n (row er k) = P_prior n m p self Z U er k,
      gain_of n m g g' k = 0 & mR s k \in unitmx].
Proof.
move=> E Hk H0; have [u -> -> -> _] := filter_out H E Hk; have [-> ->] := prior_out H E Hk.
by have [e1 e2 e3 e4] := blind_step H0; split=> //; rewrite -e1.
Qed.

(** ** C73: constant models *)
Definition constant_model (A : 'M[F]_n) (C : 'M[F]_(m, n)) (Q : 'M[F]_n) (R : 'M[F]_m) : Prop :=
  forall k, (k < T)%N -> [/\ mA s k = A, mH s k = C, mQ s k = Q & mR s k = R].

Section Constant.
Variables (A : 'M[F]_n) (C : 'M[F]_(m, n)) (Q : 'M[F]_n) (R : 'M[F]_m).
Variables (g' : seq arr) (st er : arr).
Hypothesis hc : constant_model A C Q R.
Hypothesis hQ : psd Q.
Hypothesis hR : psd R.
Hypothesis h0 : psd (mP0 s).
Hypothesis E : kf_filter self Z U g = (g', Ok (st, er)).

(** If the first step reduces the uncertainty so does every step, and if it
    increases it so does every step. *)
Theorem C73_uncertainty_goes_one_way : (0 < T)%N ->
  (loewner (mx n n (row er 0)) (mP0 s) ->
     forall k, (k.+1 < T)%N -> loewner (mx n n (row er k.+1)) (mx n n (row er k))) /\
  (loewner (mP0 s) (mx n n (row er 0)) ->
     forall k, (k.+1 < T)%N -> loewner (mx n n (row er k)) (mx n n (row er k.+1))).
Proof.
move=> T0; have u := filter_units H E; have [_ _ e0 _ _] := filter_out H E T0; rewrite e0.
split=> h1 k Hk; have [_ _ -> _ _] := filter_out H E Hk; have [_ _ -> _ _] := filter_out H E (ltnW Hk).
  exact: (riccati_down hc hQ hR u h0 h1 Hk).
exact: (riccati_up hc hQ hR u h0 h1 Hk).
Qed.

(** A steady state: if the first step gives the initial covariance back, every
    step does, and the gain is constant. *)
Theorem C73_steady_state_stays : (0 < T)%N -> mx n n (row er 0) = mP0 s ->
  forall k, (k < T)%N -> mx n n (row er k) = mP0 s /\ gain_of n m g g' k = gain_of n m g g' 0.
Proof.
move=> T0; have [_ _ -> -> _] := filter_out H E T0 => h1 k Hk.
have [_ _ -> -> _] := filter_out H E Hk; exact: (riccati_fix hc h1 Hk).
Qed.

(** W is a steady state: one prediction and one correction give it back.  Runs
    that start below it stay below, runs that start above it stay above. *)
Theorem C73_steady_state_bounds (W : 'M[F]_n) :
  let Pm := A *m W *m A^T + Q in let S := C *m Pm *m C^T + R in
  S \in unitmx -> (1%:M - Pm *m C^T *m invmx S *m C) *m Pm = W -> psd W ->
  (loewner (mP0 s) W -> forall k, (k < T)%N -> loewner (mx n n (row er k)) W) /\
  (loewner W (mP0 s) -> forall k, (k < T)%N -> loewner W (mx n n (row er k))).
Proof.
move=> Pm S uS fW hW; have u := filter_units H E.
split=> hl k Hk; have [_ _ -> _ _] := filter_out H E Hk.
  exact: (@riccati_below _ _ _ s _ A C Q R hc hQ hR u W h0 hl uS fW).
exact: (@riccati_above _ _ _ s _ A C Q R hc hQ hR u W hW hl uS fW).
Qed.
End Constant.
End Run.

(** ** C71: results do not depend on the readings of blind steps *)
Section Readings.
Variables (n m p p' : nat).
Variables (self self' : kf N) (Z Z' : arr) (U U' : option arr) (g g' : seq arr).
Let s := model_of n m p self Z U.
Let s' := model_of n m p' self' Z' U'.
Notation T := (steps self Z U).
Hypothesis H : exact_run n m p self Z U.
Hypothesis H' : exact_run n m p' self' Z' U'.
Hypothesis HT : steps self' Z' U' = T.

(** The same system; the observations may differ where nothing is observed. *)
Definition same_but_blind : Prop :=
  [/\ mx0 s' = mx0 s, mP0 s' = mP0 s &
   forall k, (k < T)%N -> [/\ mA s' k = mA s k, mc s' k = mc s k, mH s' k = mH s k, mQ s' k = mQ s k &
     mR s' k = mR s k /\ (mH s k != 0 -> mz s' k = mz s k)]].

Theorem C71_blind_readings_do_not_matter g1 st er : same_but_blind ->
  kf_filter self Z U g = (g1, Ok (st, er)) ->
  exists g1' st' er', kf_filter self' Z' U' g' = (g1', Ok (st', er')) /\
  forall k, (k < T)%N ->
    [/\ mx n 1 (row st' k) = mx n 1 (row st k), mx n n (row er' k) = mx n n (row er k) &
        gain_of n m g' g1' k = gain_of n m g g1 k].
Proof.
move=> [h0 hP h] E; have [c1 c2 _] := blind_data h0 hP h.
apply: (both_filters g' H H' HT (Rx := fun _ x x' => x' = x) (RP := fun _ P P' => P' = P)
  (RK := fun k K0 K' => K' = K0) E).
  by move=> u k Hk; have [-> _ _] := c1 k Hk; exact: u.
by move=> _ _ k Hk; have [_ _ e3] := c1 k Hk; have [e1 e2] := c2 k.+1 Hk; split.
Qed.

Theorem C71_blind_readings_do_not_matter_smooth L g1 xs Ps : same_but_blind ->
  T = nrows Z -> nrows Z = L.+1 -> nrows Z' = L.+1 ->
  kf_smooth self Z U g = (g1, Ok (xs, Ps)) ->
  exists g1' xs' Ps', kf_smooth self' Z' U' g' = (g1', Ok (xs', Ps')) /\
  forall k, (k < T)%N ->
    mx n 1 (row xs' k) = mx n 1 (row xs k) /\ mx n n (row Ps' k) = mx n n (row Ps k).
Proof.
move=> [h0 hP h] t l l' E; have [c1 c2 c3] := blind_data h0 hP h.
have HLT : (L < T)%N by rewrite t l.
apply: (both_smooths g' H H' HT (Rx := fun _ x x' => x' = x) (RP := fun _ P P' => P' = P) t l l' E).
  move=> u q; split=> k Hk; first by have [-> _ _] := c1 k (leq_ltn_trans Hk HLT); exact: u.
  by have [_ -> _] := c1 k.+1 (leq_ltn_trans Hk HLT); exact: q.
by move=> _ _ k Hk; exact: c3.
Qed.
End Readings.

(** ** C72: independent systems may be filtered together or separately *)
Section SideBySide.
Variables (n1 n2 m1 m2 p1 p2 p : nat).
Variables (self1 self2 self : kf N) (Z1 Z2 Z : arr) (U1 U2 U : option arr) (g1 g2 g : seq arr).
Let s1 := model_of n1 m1 p1 self1 Z1 U1.
Let s2 := model_of n2 m2 p2 self2 Z2 U2.
Let s := model_of (n1 + n2) (m1 + m2) p self Z U.
Notation T := (steps self Z U).
Hypothesis H1 : exact_run n1 m1 p1 self1 Z1 U1.
Hypothesis H2 : exact_run n2 m2 p2 self2 Z2 U2.
Hypothesis H : exact_run (n1 + n2) (m1 + m2) p self Z U.
Hypothesis HT1 : steps self1 Z1 U1 = T.
Hypothesis HT2 : steps self2 Z2 U2 = T.

(** [self] and its data hold the two systems side by side. *)
Definition side_by_side : Prop :=
  let diag a1 a2 b1 b2 (M1 : 'M[F]_(a1, b1)) (M2 : 'M[F]_(a2, b2)) := block_mx M1 0 0 M2 in
  [/\ mx0 s = col_mx (mx0 s1) (mx0 s2), mP0 s = diag _ _ _ _ (mP0 s1) (mP0 s2) &
   forall k, (k < T)%N ->
     [/\ mA s k = diag _ _ _ _ (mA s1 k) (mA s2 k), mc s k = col_mx (mc s1 k) (mc s2 k),
         mH s k = diag _ _ _ _ (mH s1 k) (mH s2 k), mQ s k = diag _ _ _ _ (mQ s1 k) (mQ s2 k) &
         mR s k = diag _ _ _ _ (mR s1 k) (mR s2 k) /\ mz s k = col_mx (mz s1 k) (mz s2 k)]].

Theorem C72_together_runs_iff_both_run : side_by_side ->
  (exists g' st er, kf_filter self Z U g = (g', Ok (st, er))) <->
  (exists g1' st1 er1, kf_filter self1 Z1 U1 g1 = (g1', Ok (st1, er1))) /\
  (exists g2' st2 er2, kf_filter self2 Z2 U2 g2 = (g2', Ok (st2, er2))).
Proof.
move=> [h0 hP h]; have B := blocks_units h0 hP h (leqnn T).
split=> [[g' [st [er E]]]|[[g1' [st1 [er1 E1]]] [g2' [st2 [er2 E2]]]]].
  have u := B.1 (filter_units H E).
  by split; [apply: (filter_returns _ H1) => k; rewrite HT1 => /u []
            |apply: (filter_returns _ H2) => k; rewrite HT2 => /u []].
apply: (filter_returns _ H) => k Hk; apply: B.2 Hk => j Hj.
by split; [apply: (filter_units H1 E1); rewrite HT1|apply: (filter_units H2 E2); rewrite HT2].
Qed.

Theorem C72_together_or_separately g' st er g1' st1 er1 g2' st2 er2 : side_by_side ->
  kf_filter self1 Z1 U1 g1 = (g1', Ok (st1, er1)) -> kf_filter self2 Z2 U2 g2 = (g2', Ok (st2, er2)) ->
  kf_filter self Z U g = (g', Ok (st, er)) ->
  forall k, (k < T)%N ->
  [/\ mx (n1 + n2) 1 (row st k) = col_mx (mx n1 1 (row st1 k)) (mx n2 1 (row st2 k)),
      mx (n1 + n2) (n1 + n2) (row er k) = block_mx (mx n1 n1 (row er1 k)) 0 0 (mx n2 n2 (row er2 k)) &
      gain_of (n1 + n2) (m1 + m2) g g' k = block_mx (gain_of n1 m1 g1 g1' k) 0 0 (gain_of n2 m2 g2 g2' k)].
Proof.
move=> [h0 hP h] E1 E2 E k Hk; have [_ -> -> -> _] := filter_out H E Hk.
have Hk1 := Hk; rewrite -HT1 in Hk1; have Hk2 := Hk; rewrite -HT2 in Hk2.
have [_ -> -> -> _] := filter_out H1 E1 Hk1; have [_ -> -> -> _] := filter_out H2 E2 Hk2.
have u j : (j < T)%N -> innov s1 j \in unitmx /\ innov s2 j \in unitmx.
  by move=> Hj; split; [apply: (filter_units H1 E1); rewrite HT1|apply: (filter_units H2 E2); rewrite HT2].
have [|e1 e2] := blocks_post h0 hP h Hk; first by move=> j Hj; apply: u; exact: leq_trans Hj Hk.
by split=> //; apply: (blocks_gain h0 hP h Hk) => j Hj; apply: u; exact: leq_ltn_trans Hj Hk.
Qed.

Theorem C72_together_or_separately_smooth L g' xs Ps : side_by_side ->
  T = nrows Z -> nrows Z = L.+1 -> nrows Z1 = L.+1 -> nrows Z2 = L.+1 ->
  kf_smooth self Z U g = (g', Ok (xs, Ps)) ->
  exists g1' xs1 Ps1 g2' xs2 Ps2,
  [/\ kf_smooth self1 Z1 U1 g1 = (g1', Ok (xs1, Ps1)), kf_smooth self2 Z2 U2 g2 = (g2', Ok (xs2, Ps2)) &
  forall k, (k <= L)%N ->
   mx (n1 + n2) 1 (row xs k) = col_mx (mx n1 1 (row xs1 k)) (mx n2 1 (row xs2 k)) /\
   mx (n1 + n2) (n1 + n2) (row Ps k) = block_mx (mx n1 n1 (row Ps1 k)) 0 0 (mx n2 n2 (row Ps2 k))].
Proof.
move=> [h0 hP h] t l l1 l2 E; have [u q r] := smooth_out H t l E.
have HLT : (L < T)%N by rewrite t l.
have [B _] := blocks_units h0 hP h HLT.
have u12 j : (j <= L)%N -> innov s1 j \in unitmx /\ innov s2 j \in unitmx by apply: B.
have [Q _] := blocks_pred_units h0 hP h HLT u12; have q12 := Q q.
have [g1' [xs1 [Ps1 E1]]] : exists g1' xs1 Ps1, kf_smooth self1 Z1 U1 g1 = (g1', Ok (xs1, Ps1)).
  by apply: (smooth_returns g1 H1 _ l1); [rewrite HT1 t l l1|move=> k /u12 []|move=> k /q12 []].
have [g2' [xs2 [Ps2 E2]]] : exists g2' xs2 Ps2, kf_smooth self2 Z2 U2 g2 = (g2', Ok (xs2, Ps2)).
  by apply: (smooth_returns g2 H2 _ l2); [rewrite HT2 t l l2|move=> k /u12 []|move=> k /q12 []].
exists g1', xs1, Ps1, g2', xs2, Ps2; split=> // k Hk.
have t1 : steps self1 Z1 U1 = nrows Z1 by rewrite HT1 t l l1.
have t2 : steps self2 Z2 U2 = nrows Z2 by rewrite HT2 t l l2.
have [_ _ r1] := smooth_out H1 t1 l1 E1; have [_ _ r2] := smooth_out H2 t2 l2 E2.
have [-> -> _ _] := r k Hk; have [-> -> _ _] := r1 k Hk; have [-> -> _ _] := r2 k Hk.
exact: (blocks_smooth h0 hP h HLT Hk u12 q12).
Qed.
End SideBySide.

(** ** Cases *)
Notation runs n m s := (exact_run n m n (build oracle n2i s 3) (build_Z oracle n2i s 3) (build_U oracle n2i s 3)).

Example C70_case (c : F) (g : seq arr) : 0 < c ->
  let s := demo_s oracle n2i c in
  [/\ exact_run 2 1 2 (demo_kf oracle n2i c) (demo_Z oracle n2i c) (demo_U oracle n2i c),
      psd (mP0 s), forall j, (j < 3)%N -> psd (mQ s j) /\ psd (mR s j) &
      exists g' xs Ps, kf_smooth (demo_kf oracle n2i c) (demo_Z oracle n2i c) (demo_U oracle n2i c) g = (g', Ok (xs, Ps))].
Proof.
move=> Hc s; have [p0 pk] := demo_pd oracle n2i Hc; split; [exact: demo_run|exact: pd_psd| |exact: demo_smooth_ok].
by move=> j /pk [/pd_psd h1 /pd_psd h2].
Qed.

(** The sensor of the demo system is switched off in its second step. *)
Definition gap (z : F) : model F 2 1 :=
  let d := demo 1 in
  Model (mA d) (mc d) (fun k => if k == 1%N then 0 else mH d k) (mQ d) (mR d)
        (fun k => if k == 1%N then z%:M else mz d k) (mx0 d) (mP0 d).
Example C71_case (z z' : F) : z != z' ->
  [/\ runs 2 1 (gap z), runs 2 1 (gap z'),
      @same_but_blind 2 1 2 2 (build oracle n2i (gap z) 3) (build oracle n2i (gap z') 3)
        (build_Z oracle n2i (gap z) 3) (build_Z oracle n2i (gap z') 3)
        (build_U oracle n2i (gap z) 3) (build_U oracle n2i (gap z') 3) &
      exists g' st er, kf_filter (build oracle n2i (gap z) 3) (build_Z oracle n2i (gap z) 3) (build_U oracle n2i (gap z) 3) [::] = (g', Ok (st, er))].
Proof.
move=> Hz; split; try exact: build_run.
  have [a1 a2] := build_model0 oracle n2i (gap z) 3; have [b1 b2] := build_model0 oracle n2i (gap z') 3.
  split; [by rewrite a1 b1|by rewrite a2 b2|].
  rewrite build_steps => k Hk.
  have [-> -> -> -> [-> ->]] := build_model oracle n2i (gap z) Hk.
  have [-> -> -> -> [-> ->]] := build_model oracle n2i (gap z') Hk; split=> //; split=> //=.
  by case: ifP => // _; rewrite eqxx.
apply: (filter_returns _ (build_run oracle n2i (gap z) 3)); rewrite build_steps.
have [_ a2] := build_model0 oracle n2i (gap z) 3.
have B := build_model oracle n2i (gap z) (T := 3).
have pd1 i : pd (1%:M : 'M[F]_i) by exact: pd_1.
move=> k; apply: innov_unit; first by rewrite a2; apply: pd_psd; exact: pd1.
  by move=> j /B [_ _ _ -> _]; apply: pd_psd; exact: pd1.
by move=> j /B [_ _ _ _ [-> _]]; exact: pd1.
Qed.

(** Two copies of the demo system with different noises. *)
Definition pair_model (c d : F) : model F (2 + 2) (1 + 1) :=
  let a := demo c in let b := demo d in
  Model (fun k => block_mx (mA a k) 0 0 (mA b k)) (fun k => col_mx (mc a k) (mc b k))
    (fun k => block_mx (mH a k) 0 0 (mH b k)) (fun k => block_mx (mQ a k) 0 0 (mQ b k))
    (fun k => block_mx (mR a k) 0 0 (mR b k)) (fun k => col_mx (mz a k) (mz b k))
    (col_mx (mx0 a) (mx0 b)) (block_mx (mP0 a) 0 0 (mP0 b)).
Example C72_case (c d : F) : 0 < c -> 0 < d ->
  [/\ runs 2 1 (demo c), runs 2 1 (demo d), runs (2 + 2) (1 + 1) (pair_model c d),
      @side_by_side 2 2 1 1 2 2 4 (build oracle n2i (demo c) 3) (build oracle n2i (demo d) 3) (build oracle n2i (pair_model c d) 3)
        (build_Z oracle n2i (demo c) 3) (build_Z oracle n2i (demo d) 3) (build_Z oracle n2i (pair_model c d) 3)
        (build_U oracle n2i (demo c) 3) (build_U oracle n2i (demo d) 3) (build_U oracle n2i (pair_model c d) 3) &
      (exists g' st er, kf_filter (build oracle n2i (demo c) 3) (build_Z oracle n2i (demo c) 3) (build_U oracle n2i (demo c) 3) [::] = (g', Ok (st, er))) /\
      (exists g' st er, kf_filter (build oracle n2i (demo d) 3) (build_Z oracle n2i (demo d) 3) (build_U oracle n2i (demo d) 3) [::] = (g', Ok (st, er)))].
Proof.
move=> Hc Hd; split; try exact: build_run.
  have [a1 a2] := build_model0 oracle n2i (demo c) 3; have [b1 b2] := build_model0 oracle n2i (demo d) 3.
  have [e1 e2] := build_model0 oracle n2i (pair_model c d) 3.
  split; [by rewrite a1 b1 e1|by rewrite a2 b2 e2|].
  rewrite build_steps => k Hk.
  have [-> -> -> -> [-> ->]] := build_model oracle n2i (pair_model c d) Hk.
  have [-> -> -> -> [-> ->]] := build_model oracle n2i (demo c) Hk.
  by have [-> -> -> -> [-> ->]] := build_model oracle n2i (demo d) Hk.
split; [apply: (@demo_ok _ oracle n2i _ [::] Hc)|apply: (@demo_ok _ oracle n2i _ [::] Hd)].
Qed.

(** A random walk with step variance w, observed with variance 2 w: w is the
    steady state. *)
Definition walk (w c : F) : model F 1 1 :=
  Model (fun _ => 1%:M) (fun _ => 0) (fun _ => 1%:M) (fun _ => w%:M) (fun _ => (2%:R * w)%:M)
        (fun k => (k%:R)%:M) 0 c%:M.
Example C73_case (w c : F) : 0 < w -> 0 <= c ->
  let s := model_of 1 1 1 (build oracle n2i (walk w c) 3) (build_Z oracle n2i (walk w c) 3) (build_U oracle n2i (walk w c) 3) in
  let Q : 'M[F]_1 := w%:M in let R : 'M[F]_1 := (2%:R * w)%:M in
  let Pm := 1%:M *m w%:M *m (1%:M)^T + Q in let S := 1%:M *m Pm *m (1%:M)^T + R in
  [/\ runs 1 1 (walk w c), psd (mP0 s),
      @constant_model 1 1 1 (build oracle n2i (walk w c) 3) (build_Z oracle n2i (walk w c) 3) (build_U oracle n2i (walk w c) 3)
         1%:M 1%:M Q R,
      psd Q /\ psd R &
  [/\ S \in unitmx, (1%:M - Pm *m (1%:M)^T *m invmx S *m 1%:M) *m Pm = w%:M &
      exists g' st er, kf_filter (build oracle n2i (walk w c) 3) (build_Z oracle n2i (walk w c) 3) (build_U oracle n2i (walk w c) 3) [::] = (g', Ok (st, er))]].
Proof.
move=> Hw Hc s Q R Pm S.
have psdc (a : F) : 0 <= a -> psd (a%:M : 'M[F]_1) by move=> Ha; apply/psd_scalar; rewrite mxE eqxx mulr1n.
have pdc (a : F) : 0 < a -> pd (a%:M : 'M[F]_1) by move=> Ha; apply/pd_scalar; rewrite mxE eqxx mulr1n.
have w2 : 0 < 2%:R * w by rewrite mulr_gt0 // ltr0n.
have EPm : Pm = (2%:R * w)%:M.
  by rewrite /Pm /Q trmx1 mulmx1 mul1mx -raddfD /= mulr_natl mulr2n.
have ES : S = (4%:R * w)%:M.
  by rewrite /S /R EPm trmx1 mulmx1 mul1mx -raddfD /= -mulrDl -natrD.
have w4 : 4%:R * w != 0 by rewrite gt_eqF // mulr_gt0 // ltr0n.
have [a1 a2] := build_model0 oracle n2i (walk w c) 3.
have B := build_model oracle n2i (walk w c) (T := 3).
split; [exact: build_run|by rewrite /s a2; exact: psdc| | |].
- rewrite /constant_model build_steps => k Hk.
  by have [-> _ -> -> [-> _]] := B k Hk.
- by split; apply: psdc; exact: ltW.
split.
- by rewrite ES unitmxE det_scalar1 unitfE.
- rewrite ES EPm invmx_scalar trmx1 !mulmx1 -scalar_mxM -raddfB /= -scalar_mxM; congr (_%:M).
  have w0 : w != 0 by rewrite gt_eqF.
  have n2 : 2%:R != 0 :> F by rewrite pnatr_eq0.
  have e4 : 4%:R * w = 2%:R * w * 2%:R by rewrite mulrAC -natrM.
  have e2 : 2%:R * w / (4%:R * w) = 2%:R^-1 by rewrite e4 invfM mulrA mulfV ?mulf_neq0 // mul1r.
  rewrite e2 mulrBl mul1r mulKf // mulr_natl mulr2n.
  by rewrite addrK.
apply: (filter_returns _ (build_run oracle n2i (walk w c) 3)); rewrite build_steps.
move=> k; apply: innov_unit; first by rewrite a2; exact: psdc.
  by move=> j /B [_ _ _ -> _]; apply: psdc; exact: ltW.
by move=> j /B [_ _ _ _ [-> _]]; exact: pdc.
Qed.
End Props.
