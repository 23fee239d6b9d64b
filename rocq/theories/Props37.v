(** * Props37: C106: estimating a constant (A = 1, Q = 0, no input), in exact
    arithmetic (vocabulary as in Props4.v) *)
From Coq Require Import ZArith.
From mathcomp Require Import all_ssreflect all_fingroup all_algebra.
From Verif Require Import Np NpLemmas Kf ApiSpec Loop FilterLemmas FilterThms Exact Repr Textbook RunSpec Refine Refine2 Build
  Outputs Loewner KalmanAlg TextbookThms ExCases Props4 Sums.

Set Implicit Arguments.
Unset Strict Implicit.
Unset Printing Implicit Defensive.
Import GRing.Theory Num.Theory Order.Theory.
Local Open Scope ring_scope.

Section Props.
Variable F : realFieldType.
Variable oracle : oracle_type F.
Variable n2i : Z.
Notation N := (exact oracle n2i).
Notation arr := (arr N).

(** The model of a run says that the state does not change and that every sensor
    has some noise. *)
Definition constant_state n m p (self : kf N) (Z : arr) (U : option arr) : Prop :=
  let s := model_of n m p self Z U in
  forall k, (k < steps self Z U)%N -> [/\ mA s k = 1%:M, mc s k = 0, mQ s k = 0 & pd (mR s k)].

Section Two.
Variables (n m m' p p' : nat).
Variables (self self' : kf N) (Z Z' : arr) (U U' : option arr) (g g' : seq arr).
Let s := model_of n m p self Z U.
Let s' := model_of n m' p' self' Z' U'.
Notation T := (steps self Z U).
Notation T' := (steps self' Z' U').
Hypothesis H : exact_run n m p self Z U.
Hypothesis H' : exact_run n m' p' self' Z' U'.
Hypothesis C : constant_state n m p self Z U.
Hypothesis C' : constant_state n m' p' self' Z' U'.
Hypothesis e0 : mx0 s' = mx0 s /\ mP0 s' = mP0 s.
Hypothesis h0 : psd (mP0 s).

Let units k : (k < T)%N -> innov s k \in unitmx.
Proof. by apply: (innov_unit h0) => j Hj; have [_ _ q r] := C Hj; [rewrite q; exact: psd0|]. Qed.
Let units' k : (k < T')%N -> innov s' k \in unitmx.
Proof.
have h0' : psd (mP0 s') by rewrite e0.2.
by apply: (innov_unit h0') => j Hj; have [_ _ q r] := C' Hj; [rewrite q; exact: psd0|].
Qed.

(** Both calls return, and row k of the one is row k' of the other if the sums of
    H' R^-1 H and of H' R^-1 z over the steps so far are the same.  (The number of
    steps and the number of sensors may differ.) *)
Theorem C106_only_two_sums_matter k k' : (k < T)%N -> (k' < T')%N ->
  \sum_(j < k'.+1) (mH s' j)^T *m invmx (mR s' j) *m mH s' j = \sum_(j < k.+1) (mH s j)^T *m invmx (mR s j) *m mH s j ->
  \sum_(j < k'.+1) (mH s' j)^T *m invmx (mR s' j) *m mz s' j = \sum_(j < k.+1) (mH s j)^T *m invmx (mR s j) *m mz s j ->
  exists g1 st er g1' st' er',
  [/\ kf_filter self Z U g = (g1, Ok (st, er)), kf_filter self' Z' U' g' = (g1', Ok (st', er')),
      mx n 1 (row st' k') = mx n 1 (row st k) & mx n n (row er' k') = mx n n (row er k)].
Proof.
move=> Hk Hk' E1 E2.
have [g1 [st [er E]]] := filter_returns g H units.
have [g1' [st' [er' E']]] := filter_returns g' H' units'.
have [_ X1 X2 _ _] := filter_out H E Hk; have [_ Y1 Y2 _ _] := filter_out H' E' Hk'.
have c3 j : (j < T)%N -> [/\ mA s j = 1%:M, mc s j = 0 & mQ s j = 0] by case/C.
have c3' j : (j < T')%N -> [/\ mA s' j = 1%:M, mc s' j = 0 & mQ s' j = 0] by case/C'.
have r j : (j < T)%N -> mR s j \in unitmx by case/C => _ _ _; exact: pd_unit.
have r' j : (j < T')%N -> mR s' j \in unitmx by case/C' => _ _ _; exact: pd_unit.
have [Z1 Z2] := same_sums c3 c3' r r' units units' e0 Hk Hk' E1 E2.
exists g1, st, er, g1', st', er'; split=> //; first by rewrite X1 Y1.
by rewrite X2 Y2.
Qed.
End Two.

Section Same.
Variables (n m p p' : nat).
Variables (self self' : kf N) (Z Z' : arr) (U U' : option arr) (g g' : seq arr).
Let s := model_of n m p self Z U.
Let s' := model_of n m p' self' Z' U'.
Notation T := (steps self Z U).
Notation T' := (steps self' Z' U').
Hypothesis H : exact_run n m p self Z U.
Hypothesis H' : exact_run n m p' self' Z' U'.
Hypothesis C : constant_state n m p self Z U.
Hypothesis C' : constant_state n m p' self' Z' U'.
Hypothesis e0 : mx0 s' = mx0 s /\ mP0 s' = mP0 s.
Hypothesis h0 : psd (mP0 s).

(** The same readings (each with its H and R) in another order: the last rows are
    the same. *)
Theorem C106_order_of_readings L (o : {perm 'I_L.+1}) : T = L.+1 -> T' = L.+1 ->
  (forall k : 'I_L.+1, [/\ mH s' k = mH s (o k), mR s' k = mR s (o k) & mz s' k = mz s (o k)]) ->
  exists g1 st er g1' st' er',
  [/\ kf_filter self Z U g = (g1, Ok (st, er)), kf_filter self' Z' U' g' = (g1', Ok (st', er')),
      mx n 1 (row st' L) = mx n 1 (row st L) & mx n n (row er' L) = mx n n (row er L)].
Proof.
move=> t t' Ho; apply: (C106_only_two_sums_matter g g' H H' C C' e0 h0); rewrite ?t ?t' //.
  rewrite [RHS](reindex_inj (@perm_inj _ o)); apply: eq_bigr => k _.
  by rewrite -/s -/s'; have [-> -> _] := Ho k.
rewrite [RHS](reindex_inj (@perm_inj _ o)); apply: eq_bigr => k _.
by rewrite -/s -/s'; have [-> -> ->] := Ho k.
Qed.

(** Readings of the same kind (the same H and R) may be replaced by one: their
    mean, with R divided by their number. *)
Theorem C106_averaging L : T = L.+1 -> (0 < T')%N ->
  (forall k, (k < L.+1)%N -> mH s k = mH s 0 /\ mR s k = mR s 0) ->
  mH s' 0 = mH s 0 -> mR s' 0 = L.+1%:R^-1 *: mR s 0 -> mz s' 0 = L.+1%:R^-1 *: (\sum_(k < L.+1) mz s k) ->
  exists g1 st er g1' st' er',
  [/\ kf_filter self Z U g = (g1, Ok (st, er)), kf_filter self' Z' U' g' = (g1', Ok (st', er')),
      mx n 1 (row st' 0) = mx n 1 (row st L) & mx n n (row er' 0) = mx n n (row er L)].
Proof.
move=> t T0 Hc eH eR ez; have LT : (L < T)%N by rewrite t.
have nz : L.+1%:R != 0 :> F by rewrite pnatr_eq0.
have uR : mR s 0 \in unitmx by have [_ _ _ r] := C (leq_ltn_trans (leq0n L) LT); exact: pd_unit.
have iR : invmx (mR s' 0) = L.+1%:R *: invmx (mR s 0).
  by rewrite eR invmxZ ?invrK // unitmxZ ?unitfE ?invr_eq0.
apply: (C106_only_two_sums_matter g g' H H' C C' e0 h0 LT T0); rewrite -/s -/s' big_ord_recl big_ord0 addr0 -[nat_of_ord ord0]/0%N.
  rewrite (eq_bigr (fun _ => (mH s 0)^T *m invmx (mR s 0) *m mH s 0)); last by move=> k _; have [-> ->] := Hc k (ltn_ord k).
  by rewrite sumr_const card_ord eH iR -scalemxAr -scalemxAl scaler_nat.
rewrite (eq_bigr (fun k : 'I_L.+1 => (mH s 0)^T *m invmx (mR s 0) *m mz s k)); last by move=> k _; have [-> ->] := Hc k (ltn_ord k).
rewrite -mulmx_sumr eH iR ez; rewrite -(scalemxAr L.+1%:R) -(scalemxAl L.+1%:R) scalemxAr scalerA.
by rewrite divff // scale1r.
Qed.
End Same.

(** Smoothing: every row is the last filtered row. *)
Theorem C106_smoothed_rows_are_the_last n m p self Z U g L g1 st er g2 xs Ps :
  let T := steps self Z U in
  exact_run n m p self Z U -> constant_state n m p self Z U -> T = nrows Z -> nrows Z = L.+1 ->
  kf_filter self Z U g = (g1, Ok (st, er)) -> kf_smooth self Z U g = (g2, Ok (xs, Ps)) ->
  forall k, (k <= L)%N -> mx n 1 (row xs k) = mx n 1 (row st L) /\ mx n n (row Ps k) = mx n n (row er L).
Proof.
move=> T H C t l E ES k Hk.
have LT : (L < T)%N by rewrite t l.
have [_ -> -> _ _] := filter_out H E LT.
have [u q r] := smooth_out H t l ES; have [-> -> _ _] := r k Hk.
apply: smooth_const => // j Hj; have Hj' : (j < T)%N by exact: leq_ltn_trans LT.
by have [a b c _] := C j Hj'.
Qed.

(** The hypotheses are met: every list of readings of a constant, with its H and R
    in any order, as an object and a call; smooth returns too. *)
Definition readings n m (H : nat -> 'M[F]_(m, n)) (R : nat -> 'M[F]_m) (z : nat -> 'cV[F]_m) x0 P0 : model F n m :=
  Model (fun _ => 1%:M) (fun _ => 0) H (fun _ => 0) R z x0 P0.

Example C106_case n m L H R z x0 P0 (o : {perm 'I_L.+1}) :
  pd P0 -> (forall k, pd (R k)) ->
  let w := @readings n m H R z x0 P0 in
  let w' := @readings n m (fun k => H (o (inord k))) (fun k => R (o (inord k))) (fun k => z (o (inord k))) x0 P0 in
  let self := build oracle n2i w L.+1 in let Z := build_Z oracle n2i w L.+1 in let U := build_U oracle n2i w L.+1 in
  let self' := build oracle n2i w' L.+1 in let Z' := build_Z oracle n2i w' L.+1 in let U' := build_U oracle n2i w' L.+1 in
  let s := model_of n m n self Z U in let s' := model_of n m n self' Z' U' in
  [/\ [/\ exact_run n m n self Z U, exact_run n m n self' Z' U', steps self Z U = L.+1 & steps self' Z' U' = L.+1],
      constant_state n m n self Z U /\ constant_state n m n self' Z' U',
      psd (mP0 s) /\ (mx0 s' = mx0 s /\ mP0 s' = mP0 s),
      (forall k : 'I_L.+1, [/\ mH s' k = mH s (o k), mR s' k = mR s (o k) & mz s' k = mz s (o k)]) &
      exists g1 xs Ps, kf_smooth self Z U [::] = (g1, Ok (xs, Ps))].
Proof.
move=> p0 pR w w' self Z U self' Z' U' s s'.
have B := build_model oracle n2i w; have B' := build_model oracle n2i w'.
have [b1 b2] := build_model0 oracle n2i w L.+1; have [b1' b2'] := build_model0 oracle n2i w' L.+1.
have R1 : exact_run n m n self Z U by exact: build_run.
have R1' : exact_run n m n self' Z' U' by exact: build_run.
have S : steps self Z U = L.+1 by exact: build_steps.
have S' : steps self' Z' U' = L.+1 by exact: build_steps.
have PP0 : pd (mP0 s) by rewrite b2.
have C : constant_state n m n self Z U.
  rewrite /constant_state S; cbv zeta => k Hk; have [a1 a2 _ a4 [a5 _]] := B _ _ Hk.
  by split; [exact: a1|exact: a2|exact: a4|rewrite a5; exact: pR].
have C' : constant_state n m n self' Z' U'.
  rewrite /constant_state S'; cbv zeta => k Hk; have [a1 a2 _ a4 [a5 _]] := B' _ _ Hk.
  by split; [exact: a1|exact: a2|exact: a4|rewrite a5; exact: pR].
split.
- by [].
- by [].
- split; first exact: pd_psd.
  by split; [exact: etrans b1' (esym b1)|exact: etrans b2' (esym b2)].
- move=> k; have [_ _ a3 _ [a5 a6]] := B _ _ (ltn_ord (o k)); have [_ _ d3 _ [d5 d6]] := B' _ _ (ltn_ord k).
  split; [apply: etrans d3 (etrans _ (esym a3))|apply: etrans d5 (etrans _ (esym a5))|apply: etrans d6 (etrans _ (esym a6))]; cbn [mH mR mz w w' readings]; rewrite inord_val //.
apply: (@C23_no_smooth_failure _ _ _ n m n self Z U [::] L R1 S erefl (pd_psd PP0)).
  by move=> k Hk; have [|_ _ q r] := C k; [rewrite S|rewrite q; split; [exact: psd0|]].
by right; split=> // k Hk; have [|a _ _ _] := C k; [rewrite S|rewrite a unitmx1].
Qed.
End Props.
