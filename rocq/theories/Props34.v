(** * Props34: C102: one state and one sensor: estimates go up with the
    readings and stay within their range, in exact arithmetic (vocabulary as
    in Props4.v; same_matrices: Props22.v) *)
From Coq Require Import ZArith.
From mathcomp Require Import all_ssreflect all_algebra.
From Verif Require Import Np NpLemmas Kf ApiSpec Loop FilterLemmas FilterThms Exact Repr Textbook RunSpec Refine Refine2 Build
  Outputs Loewner KalmanAlg TextbookThms ExCases Props5 Props22 Scalar.

Set Implicit Arguments.
Unset Strict Implicit.
Unset Printing Implicit Defensive.
Import GRing.Theory Num.Theory Order.Theory.
Local Open Scope ring_scope.

Section Props.
Variable F : realFieldType.
Variable oracle : oracle_type F.
Variable n2i : Z.
Notation N := (exact oracle n2i).
Notation arr := (arr N).

(** The number in row k of a result with one number per row. *)
Definition estimate (a : arr) (k : nat) : F := mx 1 1 (row a k) 0 0.

Section Two.
Variables (p p' : nat).
Variables (self self' : kf N) (Z Z' : arr) (U U' : option arr) (g g' : seq arr).
Let s := model_of 1 1 p self Z U.
Let s' := model_of 1 1 p' self' Z' U'.
Notation T := (steps self Z U).
Hypothesis H : exact_run 1 1 p self Z U.
Hypothesis H' : exact_run 1 1 p' self' Z' U'.
Hypothesis HT : steps self' Z' U' = T.
Hypothesis Hm : same_matrices 1 1 p p' self self' Z Z' U U'.
Hypothesis h0 : psd (mP0 s).
Hypothesis hk : forall k, (k < T)%N -> psd (mQ s k) /\ psd (mR s k).
(** No factor of the model is negative. *)
Hypothesis hp : forall k, (k < T)%N -> 0 <= mA s k 0 0 /\ 0 <= mH s k 0 0.

Theorem C102_higher_readings_higher_estimates g1 st er :
  mx0 s 0 0 <= mx0 s' 0 0 ->
  (forall k, (k < T)%N -> mz s k 0 0 <= mz s' k 0 0 /\ mc s k 0 0 <= mc s' k 0 0) ->
  kf_filter self Z U g = (g1, Ok (st, er)) ->
  exists g1' st' er', kf_filter self' Z' U' g' = (g1', Ok (st', er')) /\
  forall k, (k < T)%N -> estimate st k <= estimate st' k.
Proof.
move=> hx hz E; have [e0 e1] := Hm.
have [g1' [st' [er' [E' R]]]] := @both_filters _ _ _ 1 1 p p' self self' Z Z' U U' g g' H H' HT g1 st er
  (fun _ x x' => x 0 0 <= x' 0 0) (fun _ _ _ => True) (fun _ _ _ => True) E
  (fun u k Hk => eq_ind_r (fun M => M \in unitmx) (u k Hk) (same_gain e0 e1 Hk).1)
  (fun u u' k Hk => And3 (filter_mono h0 (fun j Hj => (hk Hj).1) (fun j Hj => (hk Hj).2) u
     (fun j Hj => (hp Hj).1) (fun j Hj => (hp Hj).2) e0 e1 hx (fun j Hj => (hz j Hj).1) (fun j Hj => (hz j Hj).2) Hk) I I).
by exists g1', st', er'; split=> // k Hk; case: (R k Hk).
Qed.

(** Smoothing: with the same inputs. *)
Theorem C102_higher_readings_higher_smoothed L g1 xs Ps :
  T = nrows Z -> nrows Z = L.+1 -> nrows Z' = L.+1 ->
  mx0 s 0 0 <= mx0 s' 0 0 ->
  (forall k, (k < T)%N -> mz s k 0 0 <= mz s' k 0 0 /\ mc s' k 0 0 = mc s k 0 0) ->
  kf_smooth self Z U g = (g1, Ok (xs, Ps)) ->
  exists g1' xs' Ps', kf_smooth self' Z' U' g' = (g1', Ok (xs', Ps')) /\
  forall k, (k < T)%N -> estimate xs k <= estimate xs' k.
Proof.
move=> t l l' hx hz E; have [e0 e1] := Hm.
have LT k : (k <= L)%N = (k < T)%N by rewrite t l.
have HLT : (L < T)%N by rewrite -LT.
have hc k : (k < T)%N -> mc s k 0 0 <= mc s' k 0 0 by move=> Hk; rewrite (hz k Hk).2.
have [||g1' [xs' [Ps' [E' R]]]] := @both_smooths _ _ _ 1 1 p p' self self' Z Z' U U' g g' H H' HT L g1 xs Ps
  (fun _ x x' => x 0 0 <= x' 0 0) (fun _ _ _ => True) t l l' E.
- move=> u q; split=> k Hk; first by rewrite (same_gain e0 e1 _).1 ?u // -LT.
  by rewrite (same_pred e0 e1) ?q // -LT.
- move=> u q k Hk; split=> //.
  have u' j : (j < T)%N -> innov s j \in unitmx by rewrite -LT; exact: u.
  exact: (smooth_mono h0 (fun j Hj => (hk Hj).1) (fun j Hj => (hk Hj).2) u' (fun j Hj => (hp Hj).1)
    (fun j Hj => (hp Hj).2) e0 e1 hx (fun j Hj => (hz j Hj).1) hc (fun j Hj => (hz j Hj).2) HLT Hk q).
by exists g1', xs', Ps'; split=> // k Hk; case: (R k Hk).
Qed.
(** A level observed directly: changing the initial guess and the readings by
    something between lo and hi changes every estimate by something between lo
    and hi. *)
Section Level2.
Variables (lo hi : F).
Hypothesis hL : forall k, (k < T)%N -> [/\ mA s k = 1%:M, mH s k = 1%:M & mc s' k = mc s k].
Hypothesis hx : lo <= mx0 s' 0 0 - mx0 s 0 0 <= hi.
Hypothesis hz : forall k, (k < T)%N -> lo <= mz s' k 0 0 - mz s k 0 0 <= hi.

Theorem C102_changes_stay_in_range g1 st er : kf_filter self Z U g = (g1, Ok (st, er)) ->
  exists g1' st' er', kf_filter self' Z' U' g' = (g1', Ok (st', er')) /\
  forall k, (k < T)%N -> lo <= estimate st' k - estimate st k <= hi.
Proof.
move=> E; have [e0 e1] := Hm.
have [g1' [st' [er' [E' R]]]] := @both_filters _ _ _ 1 1 p p' self self' Z Z' U U' g g' H H' HT g1 st er
  (fun _ x x' => lo <= x' 0 0 - x 0 0 <= hi) (fun _ _ _ => True) (fun _ _ _ => True) E
  (fun u k Hk => eq_ind_r (fun M => M \in unitmx) (u k Hk) (same_gain e0 e1 Hk).1)
  (fun u u' k Hk => And3 (filter_differ h0 (fun j Hj => (hk Hj).1) (fun j Hj => (hk Hj).2) u
     e0 e1 hL hx hz Hk) I I).
by exists g1', st', er'; split=> // k Hk; case: (R k Hk).
Qed.

Theorem C102_smoothed_changes_stay_in_range L g1 xs Ps :
  T = nrows Z -> nrows Z = L.+1 -> nrows Z' = L.+1 -> kf_smooth self Z U g = (g1, Ok (xs, Ps)) ->
  exists g1' xs' Ps', kf_smooth self' Z' U' g' = (g1', Ok (xs', Ps')) /\
  forall k, (k < T)%N -> lo <= estimate xs' k - estimate xs k <= hi.
Proof.
move=> t l l' E; have [e0 e1] := Hm.
have LT k : (k <= L)%N = (k < T)%N by rewrite t l.
have HLT : (L < T)%N by rewrite -LT.
have [||g1' [xs' [Ps' [E' R]]]] := @both_smooths _ _ _ 1 1 p p' self self' Z Z' U U' g g' H H' HT L g1 xs Ps
  (fun _ x x' => lo <= x' 0 0 - x 0 0 <= hi) (fun _ _ _ => True) t l l' E.
- move=> u q; split=> k Hk; first by rewrite (same_gain e0 e1 _).1 ?u // -LT.
  by rewrite (same_pred e0 e1) ?q // -LT.
- move=> u q k Hk; split=> //.
  have u' j : (j < T)%N -> innov s j \in unitmx by rewrite -LT; exact: u.
  exact: (smooth_differ h0 (fun j Hj => (hk Hj).1) (fun j Hj => (hk Hj).2) u' e0 e1 hL hx hz HLT Hk q).
by exists g1', xs', Ps'; split=> // k Hk; case: (R k Hk).
Qed.
End Level2.
End Two.

(** A level that is observed directly: estimates stay within the range of the
    initial guess and the readings. *)
Section Level.
Variables (p : nat) (self : kf N) (Z : arr) (U : option arr) (g : seq arr) (lo hi : F).
Let s := model_of 1 1 p self Z U.
Notation T := (steps self Z U).
Hypothesis H : exact_run 1 1 p self Z U.
Hypothesis h0 : psd (mP0 s).
Hypothesis hk : forall k, (k < T)%N -> psd (mQ s k) /\ psd (mR s k).
Hypothesis hL : forall k, (k < T)%N -> [/\ mA s k = 1%:M, mH s k = 1%:M & mc s k = 0].
Hypothesis hx : lo <= mx0 s 0 0 <= hi.
Hypothesis hz : forall k, (k < T)%N -> lo <= mz s k 0 0 <= hi.

Theorem C102_estimates_stay_in_range g1 st er : kf_filter self Z U g = (g1, Ok (st, er)) ->
  forall k, (k < T)%N -> lo <= estimate st k <= hi.
Proof.
move=> E k Hk; rewrite /estimate; have [_ -> _ _ _] := filter_out H E Hk.
exact: (filter_between h0 (fun j Hj => (hk Hj).1) (fun j Hj => (hk Hj).2) (filter_units H E) hL hx hz Hk).
Qed.

Theorem C102_smoothed_stay_in_range L g1 xs Ps : T = nrows Z -> nrows Z = L.+1 ->
  kf_smooth self Z U g = (g1, Ok (xs, Ps)) -> forall k, (k < T)%N -> lo <= estimate xs k <= hi.
Proof.
move=> t l E k Hk; have LT j : (j <= L)%N = (j < T)%N by rewrite t l.
have [u q r] := smooth_out H t l E; rewrite /estimate.
have Hk' : (k <= L)%N by rewrite LT.
have [-> _ _ _] := r k Hk'.
have HLT : (L < T)%N by rewrite -LT.
have u' j : (j < T)%N -> innov s j \in unitmx by rewrite -LT; exact: u.
exact: (smooth_between h0 (fun j Hj => (hk Hj).1) (fun j Hj => (hk Hj).2) u' hL hx hz HLT Hk' q).
Qed.
End Level.

(** A concrete case: three steps of a random walk, other readings and another
    initial guess; both calls of each kind return. *)
Definition walk3 (c x : F) (z : nat -> F) : model F 1 1 :=
  Model (fun _ => 1%:M) (fun _ => 0) (fun _ => 1%:M) (fun _ => c%:M) (fun _ => c%:M) (fun k => (z k)%:M) x%:M c%:M.

Lemma scal00 (c : F) : (c%:M : 'M[F]_1) 0 0 = c. Proof. by rewrite mxE eqxx mulr1n. Qed.

Example C102_case (c x y : F) (z z' : nat -> F) : 0 < c -> x <= y -> (forall k, z k <= z' k) ->
  let w := walk3 c x z in let w' := walk3 c y z' in
  let self := build oracle n2i w 3 in let Z := build_Z oracle n2i w 3 in let U := build_U oracle n2i w 3 in
  let self' := build oracle n2i w' 3 in let Z' := build_Z oracle n2i w' 3 in let U' := build_U oracle n2i w' 3 in
  let s := model_of 1 1 1 self Z U in let s' := model_of 1 1 1 self' Z' U' in
  [/\ [/\ exact_run 1 1 1 self Z U, exact_run 1 1 1 self' Z' U', steps self Z U = 3%N & steps self' Z' U' = 3%N],
      [/\ same_matrices 1 1 1 1 self self' Z Z' U U', nrows Z = 3%N & nrows Z' = 3%N],
      psd (mP0 s) /\ (forall k, (k < 3)%N -> [/\ psd (mQ s k), psd (mR s k), 0 <= mA s k 0 0 & 0 <= mH s k 0 0]),
      [/\ mx0 s 0 0 = x, mx0 s' 0 0 = y &
          forall k, (k < 3)%N -> [/\ mz s k 0 0 = z k, mz s' k 0 0 = z' k, mc s' k = mc s k & [/\ mA s k = 1%:M, mH s k = 1%:M & mc s k = 0]]] &
      exists g1 st er g2 xs Ps, kf_filter self Z U [::] = (g1, Ok (st, er)) /\ kf_smooth self Z U [::] = (g2, Ok (xs, Ps))].
Proof.
move=> c0 xy zz w w' self Z U self' Z' U' s s'.
have B := build_model oracle n2i w; have B' := build_model oracle n2i w'.
have [b1 b2] := build_model0 oracle n2i w 3; have [b1' b2'] := build_model0 oracle n2i w' 3.
have R : exact_run 1 1 1 self Z U by exact: build_run.
have R' : exact_run 1 1 1 self' Z' U' by exact: build_run.
have S : steps self Z U = 3%N by exact: build_steps.
have S' : steps self' Z' U' = 3%N by exact: build_steps.
have pc : pd (c%:M : 'M[F]_1) by apply/pd_scalar; rewrite scal00.
have P0 : psd (mP0 s) by rewrite b2; exact: pd_psd.
have PP k : (k < 3)%N -> pd (mQ s k) /\ pd (mR s k).
  by move=> Hk; have [_ _ _ e1 [e2 _]] := B _ _ Hk; rewrite e1 e2; split; exact: pc.
have U1 k : (k < 3)%N -> innov s k \in unitmx.
  by apply: (innov_unit P0) => j Hj; have [/pd_psd] := PP j Hj; have [] := PP j Hj.
have M0 : mP0 s' = mP0 s by exact: etrans b2' (esym b2).
split.
- split; [exact: R|exact: R'|exact: S|exact: S'].
- split; [split; [exact: M0|]|exact: erefl|exact: erefl].
  rewrite S => k Hk; have [a1 _ a2 a3 [a4 _]] := B _ _ Hk; have [d1 _ d2 d3 [d4 _]] := B' _ _ Hk.
  by split; [exact: etrans d1 (esym a1)|exact: etrans d2 (esym a2)|exact: etrans d3 (esym a3)|exact: etrans d4 (esym a4)].
- split; first exact: P0.
  move=> k Hk; have [q1 q2] := PP k Hk; have [a1 _ a2 _ _] := B _ _ Hk.
  split; [exact: pd_psd|exact: pd_psd| |].
    by have -> : mA s k = 1%:M := a1; rewrite one11 ler01.
  by have -> : mH s k = 1%:M := a2; rewrite one11 ler01.
- split.
  + by have -> : mx0 s = x%:M := b1; exact: scal00.
  + by have -> : mx0 s' = y%:M := b1'; exact: scal00.
  move=> k Hk; have [a1 a2 a3 _ [_ a6]] := B _ _ Hk; have [_ d2 _ _ [_ d6]] := B' _ _ Hk; split.
  + by have -> : mz s k = (z k)%:M := a6; exact: scal00.
  + by have -> : mz s' k = (z' k)%:M := d6; exact: scal00.
  + exact: etrans d2 (esym a2).
  by split; [exact: a1|exact: a3|exact: a2].
have [|g1 [st [er E]]] := filter_returns [::] R; first by rewrite S.
have PD k : (k < 3)%N -> pd (pred_P s k).
  by move=> Hk; have [] := @post_pd_Q _ _ _ s 3 P0 (fun i Hi => proj1 (PP i Hi)) (fun i Hi => proj2 (PP i Hi)) k Hk.
have [g2 [xs [Ps E2]]] : exists g2 xs Ps, kf_smooth self Z U [::] = (g2, Ok (xs, Ps)).
  apply: (@smooth_returns _ _ _ _ _ _ _ _ _ [::] R 2).
  - exact: S.
  - by [].
  - by move=> k Hk; exact: U1.
  by move=> k Hk; apply: pd_unit; apply: PD.
exists g1, st, er, g2, xs, Ps; split; [exact: E|exact: E2].
Qed.
End Props.
