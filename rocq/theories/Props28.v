(** * Props28: C95: the initial covariance is forgotten *)
From Coq Require Import ZArith.
From mathcomp Require Import all_ssreflect all_algebra.
From Verif Require Import Np NpLemmas Kf ApiSpec Loop FilterLemmas FilterThms UtilThms Exact Repr Textbook RunSpec Refine Refine2 Build
  Outputs RingTac Loewner KalmanAlg TextbookThms TextbookThms2 TextbookThms3 ExCases Prob RobustSpec BestLin Factor Robust Robust2 Energy Sensit Forget Forget2
  Props16 Props20 Props22 Props24.

Set Implicit Arguments.
Unset Strict Implicit.
Unset Printing Implicit Defensive.
Import GRing.Theory Num.Theory Order.Theory.
Local Open Scope ring_scope.

Section Props.
Variable F : realFieldType.
Variable oracle : oracle_type F.
Variable n2i : Z.
Notation N := (exact oracle n2i).
Notation arr := (arr N).

Section Two.
Variables (n m p p' : nat).
Variables (self self' : kf N) (Z Z' : arr) (U U' : option arr) (g g' : seq arr).
Let s := model_of n m p self Z U.
Let s' := model_of n m p' self' Z' U'.
Notation T := (steps self Z U).
Hypothesis H : exact_run n m p self Z U.
Hypothesis H' : exact_run n m p' self' Z' U'.
Hypothesis HT : steps self' Z' U' = T.

(** The same A, H, Q and R; the initial covariances, states, inputs and readings
    may differ. *)
Definition same_dynamics : Prop :=
  forall k, (k < T)%N -> [/\ mA s' k = mA s k, mH s' k = mH s k, mQ s' k = mQ s k & mR s' k = mR s k].

Hypothesis Hm : same_dynamics.
Hypothesis h0 : psd (mP0 s).
Hypothesis h0' : psd (mP0 s').
Hypothesis hk : forall k, (k < T)%N -> psd (mQ s k) /\ psd (mR s k).

Variables (g1 g1' : seq arr) (st er st' er' : arr).
Hypothesis E : kf_filter self Z U g = (g1, Ok (st, er)).
Hypothesis E' : kf_filter self' Z' U' g' = (g1', Ok (st', er')).

Let u' k : (k < T)%N -> innov s' k \in unitmx.
Proof. by rewrite -HT => Hk; exact: (filter_units H' E'). Qed.

Lemma rows2 k : (k < T)%N -> mx n n (row er k) = post_P s k.+1 /\ mx n n (row er' k) = post_P s' k.+1.
Proof.
move=> Hk; have Hk' := Hk; rewrite -HT in Hk'.
by have [_ _ -> _ _] := filter_out H E Hk; have [_ _ -> _ _] := filter_out H' E' Hk'.
Qed.

(** The second initial covariance exceeds the first by the factor 1 + v at most:
    then row k of its errors exceeds by 1 + v r_0 r_1 ... r_k at most, where r_i is
    the share of the old uncertainty in the prediction of step i of the first run
    ([share], Props24). *)
Theorem C95_initial_covariance_fades k v (r : nat -> F) : (k < T)%N -> 0 <= v ->
  (forall i, (i <= k)%N -> share n m p self Z U er r i) ->
  loewner (mP0 s') ((1 + v) *: mP0 s) ->
  loewner (mx n n (row er' k)) ((1 + v * \prod_(i < k.+1) r i) *: mx n n (row er k)).
Proof.
move=> kT v0 D L; have [-> ->] := rows2 kT; rewrite -(big_mkord xpredT).
apply: (@shrink _ _ _ s s' T Hm h0 h0' hk (filter_units H E) u' 0%N k.+1 v r) => //.
move=> i /andP [_ ik]; exact: (shareE H E (leq_trans ik kT) (D i ik)).
Qed.

(** The same from row j on. *)
Theorem C95_differences_fade j k v (r : nat -> F) : (j <= k < T)%N -> 0 <= v ->
  (forall i, (j < i <= k)%N -> share n m p self Z U er r i) ->
  loewner (mx n n (row er' j)) ((1 + v) *: mx n n (row er j)) ->
  loewner (mx n n (row er' k)) ((1 + v * \prod_(j.+1 <= i < k.+1) r i) *: mx n n (row er k)).
Proof.
move=> /andP [jk kT] v0 D; have [-> ->] := rows2 kT; have [-> ->] := rows2 (leq_ltn_trans jk kT) => L.
apply: (@shrink _ _ _ s s' T Hm h0 h0' hk (filter_units H E) u' j.+1 k.+1 v r) => //.
  by rewrite ltnS jk.
move=> i /andP [ji ik]; exact: (shareE H E (leq_trans ik kT) (D i (introT andP (conj ji (ik : (i <= k)%N))))).
Qed.

(** With P <= pp, A A' <= a and Q >= q > 0 the excess of every variance is at
    most pp v rate^(k+1). *)
Theorem C95_initial_covariance_is_forgotten (pp a q v : F) k : 0 < q -> 0 <= pp -> 0 <= a -> 0 <= v -> (k < T)%N ->
  loewner (mP0 s') ((1 + v) *: mP0 s) ->
  (forall i, (i <= k)%N -> [/\ loewner (P_before n m p self Z U er i) pp%:M,
     loewner (mA s i *m (mA s i)^T) a%:M & loewner q%:M (mQ s i)]) ->
  loewner (mx n n (row er k)) pp%:M ->
  let rate := pp * a / (pp * a + q) in
  [/\ 0 <= rate, rate < 1 &
   forall i, mx n n (row er' k) i i - mx n n (row er k) i i <= pp * v * rate ^+ k.+1].
Proof.
move=> q0 p0 a0 v0 kT L D LP rate.
have d0 : 0 < pp * a + q by apply: ltr_spaddr => //; exact: mulr_ge0.
have r0 : 0 <= rate by apply: divr_ge0; [exact: mulr_ge0|exact: ltW].
split=> //; first by rewrite ltr_pdivr_mulr // mul1r ltr_addl.
move=> i.
have Di j : (j <= k)%N -> share n m p self Z U er (fun _ => rate) j.
  by move=> Hj; have [d2 d3 d4] := D j Hj; apply: share_geometric => //; exact: leq_ltn_trans Hj kT.
have := C95_initial_covariance_fades kT v0 Di L; rewrite prodr_const card_ord => /(loewner_diag i).
rewrite [X in _ <= X]mxE mulrDl mul1r -ler_subl_addl => /le_trans; apply.
rewrite mulrC mulrA; apply: ler_wpmul2r; first exact: exprn_ge0.
apply: ler_wpmul2r => //.
by have := loewner_diag i LP; rewrite [X in _ <= X -> _]mxE eqxx mulr1n.
Qed.
End Two.

(** ** Constant models: the covariances approach the steady state *)
Section Steady.
Variables (n m p : nat) (self : kf N) (Z : arr) (U : option arr) (g g' : seq arr) (st er : arr).
Let s := model_of n m p self Z U.
Notation T := (steps self Z U).
Hypothesis H : exact_run n m p self Z U.
Variables (A : 'M[F]_n) (C : 'M[F]_(m, n)) (Q : 'M[F]_n) (R : 'M[F]_m).
Hypothesis hc : constant_model p self Z U A C Q R.
Hypothesis hQ : psd Q.
Hypothesis hR : psd R.
Hypothesis h0 : psd (mP0 s).
Hypothesis E : kf_filter self Z U g = (g', Ok (st, er)).

(** W is a steady state (one prediction and one correction give it back) in which
    the share of the old uncertainty in the prediction is at most r < 1; P0 is
    between W/(1+w) and (1+v) W.  Then row k of errors is at most
    (1 + v r^(k+1)) W and at least W / (1 + w q^(k+1)) with
    q = (1+v) r / (1 + v r) < 1. *)
Theorem C95_steady_state_is_approached (W : 'M[F]_n) (r v w : F) :
  let Pm := A *m W *m A^T + Q in let S := C *m Pm *m C^T + R in
  psd W -> S \in unitmx -> (1%:M - Pm *m C^T *m invmx S *m C) *m Pm = W ->
  0 <= r < 1 -> loewner (A *m W *m A^T) (r *: Pm) ->
  0 <= v -> 0 <= w -> loewner (mP0 s) ((1 + v) *: W) -> loewner W ((1 + w) *: mP0 s) ->
  let q := (1 + v) * r / (1 + v * r) in
  0 <= q < 1 /\
  forall k, (k < T)%N ->
    loewner (mx n n (row er k)) ((1 + v * r ^+ k.+1) *: W) /\
    loewner W ((1 + w * q ^+ k.+1) *: mx n n (row er k)).
Proof.
move=> Pm S hW uS fW /andP [r0 r1] Lr v0 w0 L L' q.
have d0 : 0 < 1 + v * r by exact: (ltr_spaddl ltr01 (mulr_ge0 v0 r0)).
split.
  apply/andP; split; first by apply: divr_ge0; [rewrite mulr_ge0 // addr_ge0 // ler01|exact: ltW].
  by rewrite ltr_pdivr_mulr // mul1r mulrDl mul1r ltr_add2r.
have u := filter_units H E.
move=> k Hk; have [_ _ -> _ _] := filter_out H E Hk; split.
  exact: (@steady_above _ _ _ s T A C Q R hc hQ hR h0 u W r hW uS fW r0 Lr v v0 L k.+1 Hk).
exact: (@steady_below _ _ _ s T A C Q R hc hQ hR h0 u W r hW uS fW r0 Lr v w v0 w0 r1 L L' k.+1 Hk).
Qed.
End Steady.

(** ** Cases *)

(** A random walk started with two different variances. *)
Definition walk2 (c x : F) : model F 1 1 :=
  Model (fun _ => 1%:M) (fun _ => 0) (fun _ => 1%:M) (fun _ => c%:M) (fun _ => c%:M) (fun k => (k%:R)%:M) x%:M (2%:R * c)%:M.

Example C95_case (c x y : F) : 0 < c ->
  let self := build oracle n2i (Props24.walk c x) 3 in let Z := build_Z oracle n2i (Props24.walk c x) 3 in
  let U := build_U oracle n2i (Props24.walk c x) 3 in
  let self' := build oracle n2i (walk2 c y) 3 in let Z' := build_Z oracle n2i (walk2 c y) 3 in
  let U' := build_U oracle n2i (walk2 c y) 3 in
  let s := model_of 1 1 1 self Z U in let s' := model_of 1 1 1 self' Z' U' in
  exists g st er g' st' er' pp,
  [/\ [/\ exact_run 1 1 1 self Z U, exact_run 1 1 1 self' Z' U', steps self Z U = 3%N & steps self' Z' U' = 3%N],
      same_dynamics 1 1 1 1 self self' Z Z' U U',
      psd (mP0 s) /\ psd (mP0 s') /\ (forall k, (k < steps self Z U)%N -> psd (mQ s k) /\ psd (mR s k)),
      kf_filter self Z U [::] = (g, Ok (st, er)) /\ kf_filter self' Z' U' [::] = (g', Ok (st', er')) &
  [/\ 0 <= pp, loewner (mP0 s') ((1 + 1) *: mP0 s), mP0 s' != mP0 s &
      forall k, (k < 3)%N ->
      [/\ loewner (P_before 1 1 1 self Z U er k) pp%:M,
          loewner (mA s k *m (mA s k)^T) 1%:M, loewner c%:M (mQ s k) & loewner (mx 1 1 (row er k)) pp%:M]]].
Proof.
move=> c0; have c1 : c != 0 by exact: lt0r_neq0.
have c2 : 0 < 2%:R * c by rewrite mulr_gt0 // ltr0n.
have l2 : (2%:R * c)%:M = (1 + 1) *: c%:M :> 'M[F]_1 by rewrite -scale_scalar_mx.
have n2 : (2%:R * c)%:M != c%:M :> 'M[F]_1.
  apply/eqP => /matrixP /(_ 0 0); rewrite !mxE !mulr1n => /eqP.
  by rewrite mulr_natl mulr2n -subr_eq0 addrK (negbTE c1).
move=> self Z U self' Z' U' s s'.
have [g [st [er [g2 [st2 [er2 [pp [l [[R _ S _] _ [P0 PP] [E _] [p0 _ _ D]]]]]]]]]] := @C89_case F oracle n2i c x x c0.
have B := build_model oracle n2i (Props24.walk c x); have B' := build_model oracle n2i (walk2 c y).
have [b1 b2] := build_model0 oracle n2i (Props24.walk c x) 3; have [b1' b2'] := build_model0 oracle n2i (walk2 c y) 3.
have R' : exact_run 1 1 1 self' Z' U' by exact: build_run.
have S' : steps self' Z' U' = 3%N by exact: build_steps.
have pc (a : F) : 0 < a -> pd (a%:M : 'M[F]_1) by move=> Ha; apply/pd_scalar; rewrite mxE eqxx mulr1n.
have P0' : psd (mP0 s') by rewrite b2'; exact/pd_psd/pc.
have U1 k : (k < steps self' Z' U')%N -> innov s' k \in unitmx.
  rewrite S'; apply: (innov_unit P0') => j Hj; have [_ _ _ e1 [e2 _]] := B' _ _ Hj.
    by rewrite e1; exact/pd_psd/pc.
  by rewrite e2; exact: pc.
have [g' [st' [er' E']]] := filter_returns [::] R' U1.
exists g, st, er, g', st', er', pp.
split; [split; [exact: R|exact: R'|exact: S|exact: S']| | |split; [exact: E|exact: E']|].
- move=> k; have -> : steps self Z U = 3%N := S; move=> Hk.
  have [a1 _ a2 a3 [a4 _]] := B _ _ Hk; have [d1 _ d2 d3 [d4 _]] := B' _ _ Hk.
  by split; [exact: etrans d1 (esym a1)|exact: etrans d2 (esym a2)|exact: etrans d3 (esym a3)|exact: etrans d4 (esym a4)].
- by split; [exact: P0|split; [exact: P0'|exact: PP]].
have e0 : mP0 s = c%:M := b2; have e1 : mP0 s' = (2%:R * c)%:M := b2'.
split; [exact: p0|by rewrite e0 e1 l2; exact: loewner_refl|by rewrite e0 e1|].
by move=> k Hk; have [_ d1 d2 d3 d4] := D k Hk; split; [exact: d1|exact: d2|exact: d3|exact: d4].
Qed.

(** A random walk with Q = w and R = 2 w has the steady state w; started at 2 w
    (v = 1, w = 0) with r = 1/2. *)
Example C95_steady_case (w : F) : 0 < w ->
  let self := build oracle n2i (Props16.walk w (2%:R * w)) 3 in let Z := build_Z oracle n2i (Props16.walk w (2%:R * w)) 3 in
  let U := build_U oracle n2i (Props16.walk w (2%:R * w)) 3 in
  let s := model_of 1 1 1 self Z U in
  let Q : 'M[F]_1 := w%:M in let R : 'M[F]_1 := (2%:R * w)%:M in let W : 'M[F]_1 := w%:M in
  let Pm := 1%:M *m W *m (1%:M)^T + Q in let S := 1%:M *m Pm *m (1%:M)^T + R in
  [/\ exact_run 1 1 1 self Z U, @constant_model F oracle n2i 1 1 1 self Z U 1%:M 1%:M Q R, psd Q /\ psd R, psd (mP0 s) &
  [/\ S \in unitmx, (1%:M - Pm *m (1%:M)^T *m invmx S *m 1%:M) *m Pm = W, psd W,
      loewner (1%:M *m W *m (1%:M)^T) (2%:R^-1 *: Pm) &
   [/\ loewner (mP0 s) ((1 + 1) *: W), loewner W ((1 + 0) *: mP0 s) &
      exists g' st er, kf_filter self Z U [::] = (g', Ok (st, er))]]].
Proof.
move=> w0; have w2 : 0 < 2%:R * w by rewrite mulr_gt0 // ltr0n.
have psdc (a : F) : 0 <= a -> psd (a%:M : 'M[F]_1) by move=> Ha; apply/psd_scalar; rewrite mxE eqxx mulr1n.
have l1 : (2%:R * w)%:M = (1 + 1) *: w%:M :> 'M[F]_1 by rewrite -scale_scalar_mx.
have l2 : loewner (w%:M : 'M[F]_1) (2%:R * w)%:M.
  by rewrite /loewner -raddfB /= mulr_natl mulr2n addrK; exact/psdc/ltW.
have l3 : 2%:R^-1 *: (w%:M + w%:M) = w%:M :> 'M[F]_1.
  by rewrite -mulr2n -scaler_nat scalerA mulVf ?scale1r ?pnatr_eq0.
move=> self Z U s Q R W Pm S.
have [r1 r2 r3 r4 [r5 r6 r7]] := @C73_case F oracle n2i w (2%:R * w) w0 (ltW w2).
have [_ b2] := build_model0 oracle n2i (Props16.walk w (2%:R * w)) 3.
have e0 : mP0 s = (2%:R * w)%:M := b2.
split; [exact: build_run|exact: r3|exact: r4|exact: r2|].
split; [exact: r5|exact: r6|exact/psdc/ltW| |].
  by rewrite /Pm /W /Q trmx1 mulmx1 mul1mx l3; exact: loewner_refl.
split; [by rewrite e0 l1; exact: loewner_refl|by rewrite e0 addr0 scale1r|exact: r7].
Qed.
End Props.
