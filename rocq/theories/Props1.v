(** * Props1: the structural properties (C01-C21, C45), for every arithmetic

    Every theorem here quantifies over [N : num], that is over every float
    arithmetic (in particular IEEE-754 doubles with any BLAS and LAPACK), unless
    it says otherwise.  [kf_filter self Z U g] is the call [self.filter(Z, U)]
    made when [self.kalman_gains] is [g]; its value is the list after the call
    and the outcome.  Each [_case] example shows a concrete, non-trivial object
    (Cases.v) that meets the hypotheses of the theorem above it. *)
From Coq Require Import ZArith Lia.
From mathcomp Require Import ssreflect ssrfun ssrbool eqtype ssrnat seq.
From Verif Require Import Np NpLemmas Kf Ekf ApiSpec Loop Frame FilterLemmas FilterThms SliceThms
  DataIndep DataIndep2 SmoothLemmas NoIndex NpShapes WellShaped Shapes2 WellShaped2 UtilThms EkfThms
  NanThms Binary64 Binary64Nan Cases.

Set Implicit Arguments.
Unset Strict Implicit.
Unset Printing Implicit Defensive.
Arguments Z.of_nat : simpl never.

(** ** C01 filter returns one row per observation *)
Theorem C01_shapes (N : num) (self : kf N) Z U g g' a b :
  kf_filter self Z U g = (g', Ok (a, b)) \/ kf_smooth self Z U g = (g', Ok (a, b)) ->
  float_shaped [:: nrows Z; kf_size self] a /\
  float_shaped [:: nrows Z; kf_size self; kf_size self] b.
Proof. by case=> E; [exact: (filter_shapes E)|exact: (smooth_shapes E)]. Qed.

Theorem C01_shapes_extended (N : num) (self : ekf N) Z U g g' a b :
  ekf_filter self Z U g = (g', Ok (a, b)) \/ ekf_smooth self Z U g = (g', Ok (a, b)) ->
  float_shaped [:: nrows Z; e_size self] a /\
  float_shaped [:: nrows Z; e_size self; e_size self] b.
Proof. by case=> E; [exact: (e_filter_shapes E)|exact: (e_smooth_shapes E)]. Qed.

Example C01_case : (exists g st er, kf_filter cart cart_Z (Some cart_U) [::] = (g, Ok (st, er))) /\
  (exists g st er, kf_smooth cart cart_Z (Some cart_U) [::] = (g, Ok (st, er))) /\
  (exists g st er, ekf_filter osc cart_Z None [::] = (g, Ok (st, er))) /\
  (exists g st er, ekf_smooth osc cart_Z None [::] = (g, Ok (st, er))).
Proof. by split; [exact: cart_returns|split; [exact: cart_smooths|split; [exact: osc_returns|exact: osc_smooths]]]. Qed.

(** ** C02 filter is predict and update, step by step

    [by_hand self Z U k g] (ApiSpec) calls predict and update k times.  [fit n x]
    is what assigning x to a float64 slot of shape n leaves there. *)
Theorem C02_filter_is_by_hand (N : num) (self : kf N) Z U g g' st er :
  constructed self ->
  kf_filter self Z U g = (g', Ok (st, er)) ->
  size g' = size g + steps self Z U /\
  forall j, j < steps self Z U -> exists x P,
    [/\ by_hand self Z (control Z U) j.+1 g = (take (size g + j.+1) g', Ok (x, P)),
        row st j = fit [:: kf_size self] x /\ row er j = fit [:: kf_size self; kf_size self] P,
        shp x = [:: kf_size self] -> row st j = x &
        shp P = [:: kf_size self; kf_size self] -> row er j = P].
Proof.
move=> Hc E; have [_ Hg Hr _] := filter_ok E; split=> // j Hj.
have [x [P [Hb _ Hx HP]]] := Hr j Hj; exists x, P.
have [Fx FP] := by_hand_float Hc Hb.
by split=> // Hs; [rewrite Hx|rewrite HP]; exact: (stored_is _ Hs).
Qed.

(** and filter fails exactly when running by hand does, with the same exception
    and the same gains (or when the result has a shape that cannot be stored). *)
Theorem C02_filter_raises_as_by_hand (N : num) (self : kf N) Z U g g' e :
  iterable self Z U ->
  kf_filter self Z U g = (g', Raise e) <->
  exists j, [/\ j < steps self Z U,
    (forall i, i < j -> exists gi xP,
       by_hand self Z (control Z U) i.+1 g = (gi, Ok xP) /\ storable (kf_size self) xP) &
    by_hand self Z (control Z U) j.+1 g = (g', Raise e) \/
    (e = ValueError /\ exists xP,
       by_hand self Z (control Z U) j.+1 g = (g', Ok xP) /\ ~~ storable (kf_size self) xP)].
Proof.
move=> Hit; split; first exact: filter_raises.
case=> j [Hj Hpre Hend]; case E: (kf_filter self Z U g) => [g1 [[st er]|e1]].
  have [_ _ Hr _] := filter_ok E; have [x [P [Hb Hs _ _]]] := Hr j Hj.
  by case: Hend => [|[_ [xP []]]]; rewrite Hb // => -[_ <-]; rewrite Hs.
have [j1 [Hj1 Hpre1 Hend1]] := filter_raises Hit E.
have Ej : j = j1.
  apply/eqP; rewrite eqn_leq; apply/andP; split; rewrite leqNgt; apply/negP => Hlt.
    have [gi [xP [Hb Hs]]] := Hpre _ Hlt.
    by case: Hend1 => [|[_ [yP [Hb' Hs']]]]; [rewrite Hb|move: Hb' Hs'; rewrite Hb => -[_ <-]; rewrite Hs].
  have [gi [xP [Hb Hs]]] := Hpre1 _ Hlt.
  by case: Hend => [|[_ [yP [Hb' Hs']]]]; [rewrite Hb|move: Hb' Hs'; rewrite Hb => -[_ <-]; rewrite Hs].
rewrite -Ej in Hend1.
case: Hend => [Hb|[-> [xP [Hb Hs]]]]; case: Hend1 => [Hb1|[-> [yP [Hb1 Hs1]]]]; move: Hb1; rewrite Hb //.
by case=> -> _.
Qed.

Theorem C02_extended_filter_is_by_hand (N : num) (self : ekf N) Z U g g' st er :
  e_constructed self ->
  ekf_filter self Z U g = (g', Ok (st, er)) ->
  size g' = size g + e_steps self Z U /\
  forall j, j < e_steps self Z U -> exists x P,
    [/\ e_by_hand self Z (control Z U) j.+1 g = (take (size g + j.+1) g', Ok (x, P)),
        row st j = fit [:: e_size self] x /\ row er j = fit [:: e_size self; e_size self] P,
        shp x = [:: e_size self] -> row st j = x &
        shp P = [:: e_size self; e_size self] -> row er j = P].
Proof.
move=> Hc E; have [_ Hg Hr _] := e_filter_ok E; split=> // j Hj.
have [x [P [Hb _ Hx HP]]] := Hr j Hj; exists x, P.
have [Fx FP] := e_by_hand_float Hc Hb.
by split=> // Hs; [rewrite Hx|rewrite HP]; exact: (stored_is _ Hs).
Qed.

Example C02_case : constructed cart /\ e_constructed osc /\
  steps cart cart_Z (Some cart_U) = 3 /\ e_steps osc cart_Z None = 3 /\
  (exists x P g, by_hand cart cart_Z (control cart_Z (Some cart_U)) 3 [::] = (g, Ok (x, P)) /\
     shp x = [:: 2] /\ shp P = [:: 2; 2]).
Proof.
split; first exact: cart_constructed.
split; first exact: osc_constructed.
split; first by vm_compute.
split; first by vm_compute.
by apply: shapesP; vm_compute.
Qed.

(** ** C03 causality *)
Theorem C03_causality (N : num) (self : kf N) Z U Z' U' k g g1 g2 st1 er1 st2 er2 :
  agree k Z Z' -> agree k (control Z U) (control Z' U') ->
  kf_filter self Z U g = (g1, Ok (st1, er1)) ->
  kf_filter self Z' U' g = (g2, Ok (st2, er2)) ->
  [/\ agree k st1 st2, agree k er1 er2 & take (size g + k) g1 = take (size g + k) g2].
Proof. exact: filter_causal. Qed.

Theorem C03_causality_extended (N : num) (self : ekf N) Z U Z' U' k g g1 g2 st1 er1 st2 er2 :
  agree k Z Z' -> agree k (control Z U) (control Z' U') ->
  ekf_filter self Z U g = (g1, Ok (st1, er1)) ->
  ekf_filter self Z' U' g = (g2, Ok (st2, er2)) ->
  [/\ agree k st1 st2, agree k er1 er2 & take (size g + k) g1 = take (size g + k) g2].
Proof. exact: e_filter_causal. Qed.

(** A prefix of the data gives the prefix of the results. *)
Theorem C03_prefix (N : num) (self : kf N) Z U k g g' st er :
  kf_filter self Z U g = (g', Ok (st, er)) ->
  kf_filter self (upto_row k Z) (omap (upto_row k) U) g =
  (take (size g + minn k (steps self Z U)) g', Ok (upto_row k st, upto_row k er)).
Proof. exact: filter_upto. Qed.

Theorem C03_prefix_extended (N : num) (self : ekf N) Z U k g g' st er :
  ekf_filter self Z U g = (g', Ok (st, er)) ->
  ekf_filter self (upto_row k Z) (omap (upto_row k) U) g =
  (take (size g + minn k (e_steps self Z U)) g', Ok (upto_row k st, upto_row k er)).
Proof. exact: e_filter_upto. Qed.

Example C03_case : agree 2 cart_Z cart_Z' /\ cart_Z <> cart_Z' /\
  agree 2 (control cart_Z (Some cart_U)) (control cart_Z' (Some cart_U)) /\
  isok (kf_filter cart cart_Z' (Some cart_U) [::]).2.
Proof.
split; first by split; [by []|by []|case=> [|[|i]] // _; by vm_compute].
split; first by move/(f_equal (fun a => tofl (get a [:: 2; 0]))); vm_compute.
split; first by split.
by vm_compute.
Qed.

(** ** C04 a run can be split and resumed *)
Theorem C04_split_anywhere (N : num) (self : kf N) Z U k g g1 st1 er1 x P :
  iterable self Z U -> k <= steps self Z U ->
  kf_filter self (upto_row k Z) (omap (upto_row k) U) g = (g1, Ok (st1, er1)) ->
  (by_hand self Z (control Z U) k g).2 = Ok (x, P) ->
  kf_filter self Z U g =
  (let: (g2, r) := kf_filter (resumed self k x P) (from_row k Z) (omap (from_row k) U) g1 in
   (g2, match r with Ok (st2, er2) => Ok (vstack st1 st2, vstack er1 er2) | Raise e => Raise e end)).
Proof. exact: filter_resume. Qed.

(** With documented shapes, the second filter starts from the last row of what
    the first returned. *)
Theorem C04_split_at_last_row (N : num) n m p (self : kf N) Z U k g g1 st1 er1 :
  constructed self -> well_shaped n m p self Z U -> shp (kf_xk self) = [:: n] ->
  (forall j, j < steps self Z U -> shp (row Z j) <> [:: 1; 1]) ->
  0 < k -> k <= steps self Z U ->
  kf_filter self (upto_row k Z) (omap (upto_row k) U) g = (g1, Ok (st1, er1)) ->
  kf_filter self Z U g =
  (let: (g2, r) := kf_filter (resumed self k (row st1 k.-1) (row er1 k.-1))
                     (from_row k Z) (omap (from_row k) U) g1 in
   (g2, match r with Ok (st2, er2) => Ok (vstack st1 st2, vstack er1 er2) | Raise e => Raise e end)).
Proof. exact: filter_split. Qed.

Theorem C04_split_anywhere_extended (N : num) (self : ekf N) Z U k g g1 st1 er1 x P :
  e_iterable self Z U -> k <= e_steps self Z U ->
  ekf_filter self (upto_row k Z) (omap (upto_row k) U) g = (g1, Ok (st1, er1)) ->
  (e_by_hand self Z (control Z U) k g).2 = Ok (x, P) ->
  ekf_filter self Z U g =
  (let: (g2, r) := ekf_filter (e_resumed self k x P) (from_row k Z) (omap (from_row k) U) g1 in
   (g2, match r with Ok (st2, er2) => Ok (vstack st1 st2, vstack er1 er2) | Raise e => Raise e end)).
Proof. exact: e_filter_resume. Qed.

Example C04_case : constructed cart /\ well_shaped 2 1 1 cart cart_Z (Some cart_U) /\
  shp (kf_xk cart) = [:: 2] /\
  (forall j, j < steps cart cart_Z (Some cart_U) -> shp (row cart_Z j) <> [:: 1; 1]) /\
  isok (kf_filter cart (upto_row 2 cart_Z) (omap (@upto_row binary64 2) (Some cart_U)) [::]).2.
Proof.
split; first exact: cart_constructed.
split; first exact: cart_well_shaped.
split; first by vm_compute.
split; first by move=> j _; rewrite shp_row.
by vm_compute.
Qed.

(** ** C05 parameters shorter than Z leave zero rows

    [steps] (ApiSpec) is the minimum of the seven lengths. *)
Theorem C05_zero_rows (N : num) (self : kf N) Z U g g' st er :
  kf_filter self Z U g = (g', Ok (st, er)) ->
  (exists xP, by_hand self Z (control Z U) (steps self Z U) g = (g', Ok xP)) /\
  forall j, steps self Z U <= j < nrows Z ->
    row st j = np_zeros N [:: kf_size self] /\ row er j = np_zeros N [:: kf_size self; kf_size self].
Proof.
move=> E; have [_ Hg _ Hz] := filter_ok E; split=> //.
have [xP] := filter_gains_at E (leqnn _); rewrite -Hg take_size => Hb.
by exists xP.
Qed.

Theorem C05_zero_rows_extended (N : num) (self : ekf N) Z U g g' st er :
  ekf_filter self Z U g = (g', Ok (st, er)) ->
  (exists xP, e_by_hand self Z (control Z U) (e_steps self Z U) g = (g', Ok xP)) /\
  forall j, e_steps self Z U <= j < nrows Z ->
    row st j = np_zeros N [:: e_size self] /\ row er j = np_zeros N [:: e_size self; e_size self].
Proof.
move=> E; have [_ Hg _ Hz] := e_filter_ok E; split=> //.
have [xP] := e_filter_gains_at E (leqnn _); rewrite -Hg take_size => Hb.
by exists xP.
Qed.

(** Rows of parameters and controls beyond the last processed step are not
    looked at. *)
Theorem C05_surplus_ignored (N : num) (self : kf N) Z U k g :
  iterable self Z U -> steps self Z U <= k ->
  kf_filter (truncated self k) Z (omap (upto_row k) U) g = kf_filter self Z U g.
Proof. exact: filter_truncated. Qed.

Theorem C05_surplus_ignored_extended (N : num) (self : ekf N) Z U k g :
  e_iterable self Z U -> e_steps self Z U <= k ->
  ekf_filter (e_truncated self k) Z (omap (upto_row k) U) g = ekf_filter self Z U g.
Proof. exact: e_filter_truncated. Qed.

(** A run of two steps on five observations. *)
Definition cart_short := Kf cart_A cart_x cart_B cart_P cart_H cart_Q (upto_row 2 cart_R) 2
  (np_identity binary64 2) [::].
Definition cart_Z5 := farr [:: 5; 1] (map (fun x => dec x 2) [:: 12; 31; 44; 50; 61]%Z).
Definition cart_U9 := farr [:: 9; 1] (map (fun x => dec x 2) [:: 100; -50; 25; 1; 2; 3; 4; 5; 6]%Z).
Example C05_case : isok (kf_filter cart_short cart_Z5 (Some cart_U9) [::]).2 /\
  steps cart_short cart_Z5 (Some cart_U9) = 2 /\ nrows cart_Z5 = 5 /\
  iterable cart_short cart_Z5 (Some cart_U9).
Proof. by split; [|split; [|split]]; vm_compute. Qed.

(** ** C06 kalman_gains is an append-only log *)
Theorem C06_append_only (N : num) (self : kf N) (cs : seq (call N)) :
  exists log : call N -> seq (arr N),
    kf_gains (kf_calls self cs).1 = kf_gains self ++ flatten (map log cs) /\
    forall c, match c with
      | CPredict _ _ _ _ _ _ => log c = [::]
      | CUpdate Hk xk Pk zk Rk => size (log c) <= 1 /\
          (forall r, (kf_call self c).2 = Ok r -> size (log c) = 1)
      | CFilter Z U => size (log c) <= steps self Z U /\
          (forall r, (kf_call self c).2 = Ok r -> size (log c) = steps self Z U)
      | CSmooth Z U => log c = log (CFilter Z U)
      end.
Proof.
exists (fun c => (run_meth c self [::]).1); split; first by rewrite kf_callsE.
case=> [A x B u P Q|H x P z R|Z U|Z U] //=.
- rewrite kf_callE /=; move: (logs1_update (kf_I self) H x P z R); rewrite /logs1.
  by case: (kf_update _ _ _ _ _ _ _) => [g [r|e]] /=; rewrite ?cat0s => Hg; split=> //; rewrite ?Hg //.
- have Hle : size (kf_filter self Z U [::]).1 <= steps self Z U.
    case Hit: (iterable self Z U); last by rewrite kf_filter_unsized ?Hit.
    case E: (kf_filter self Z U [::]) => [g' [[st er]|e]].
      by have [_ Hg _ _] := filter_ok E; rewrite /= Hg.
    have [j [Hj _ Hend]] := filter_raises Hit E.
    have Hb : (by_hand self Z (control Z U) j.+1 [::]).1 = g'.
      by case: Hend => [->|[_ [xP [-> _]]]].
    rewrite -Hb by_hand_rows //; apply: (leq_trans _ Hj).
    have := @iter_rows_size N _ (kf_step (kf_I self)) (take j.+1 (rows_of self Z U)) (kf_xk self, kf_Pk self) [::]
      (fun s x => @framed_step N _ s x) (fun s x => @logs1_step N _ s x).
    rewrite size_takel; last by rewrite size_rows_of.
    by case: (iter_rows _ _ _ _) => [g1 [r|e1]]; rewrite add0n => H; cbn [fst]; rewrite ?H.
  split=> // -[st er]; rewrite kf_callE /=.
  by case E: (kf_filter self Z U [::]) => [g' [r|e]] //= [Er]; rewrite Er in E; have [_ ->] := filter_ok E.
- by rewrite smooth_gains.
Qed.

Theorem C06_append_only_extended (N : num) (self : ekf N) (cs : seq (ecall N)) :
  exists log : ecall N -> seq (arr N),
    e_gains (e_calls self cs).1 = e_gains self ++ flatten (map log cs) /\
    forall c, match c with
      | EPredict _ _ _ _ => log c = [::]
      | EUpdate xk Pk zk Rk => size (log c) <= 1 /\
          (forall r, (e_call self c).2 = Ok r -> size (log c) = 1)
      | EFilter Z U => size (log c) <= e_steps self Z U /\
          (forall r, (e_call self c).2 = Ok r -> size (log c) = e_steps self Z U)
      | ESmooth Z U => log c = log (EFilter Z U)
      end.
Proof.
exists (fun c => (e_run c self [::]).1); split; first by rewrite e_callsE.
case=> [x u P Q|x P z R|Z U|Z U] //=.
- rewrite e_callE /=; move: (logs1_eupdate self x P z R); rewrite /logs1.
  by case: (ekf_update _ _ _ _ _ _) => [g [r|e]] /=; rewrite ?cat0s => Hg; split=> //; rewrite ?Hg //.
- have Hle : size (ekf_filter self Z U [::]).1 <= e_steps self Z U.
    case Hit: (e_iterable self Z U); last by rewrite ekf_filter_unsized ?Hit.
    case E: (ekf_filter self Z U [::]) => [g' [[st er]|e]].
      by have [_ Hg _ _] := e_filter_ok E; rewrite /= Hg.
    have [j [Hj _ Hend]] := e_filter_raises Hit E.
    have Hb : (e_by_hand self Z (control Z U) j.+1 [::]).1 = g'.
      by case: Hend => [->|[_ [xP [-> _]]]].
    rewrite -Hb e_by_hand_rows //; apply: (leq_trans _ Hj).
    have := @iter_rows_size N _ (ekf_step self) (take j.+1 (e_rows_of self Z U)) (e_xk self, e_Pk self) [::]
      (fun s x => @framed_estep N _ s x) (fun s x => @logs1_estep N _ s x).
    rewrite size_takel; last by rewrite size_e_rows_of.
    by case: (iter_rows _ _ _ _) => [g1 [r|e1]]; rewrite add0n => H; cbn [fst]; rewrite ?H.
  split=> // -[st er]; rewrite e_callE /=.
  by case E: (ekf_filter self Z U [::]) => [g' [r|e]] //= [Er]; rewrite Er in E; have [_ ->] := e_filter_ok E.
- by rewrite e_smooth_gains.
Qed.

(** A history in which a call fails after some steps: H and R are fine for two
    steps, the third innovation covariance is exactly zero. *)
Definition bad_H := farr [:: 3; 1; 2] (map (fun x => dec x 2) [:: 100; 0;  100; 0;  0; 0]%Z).
Definition bad_R := farr [:: 3; 1; 1] (map (fun x => dec x 2) [:: 10; 20; 0]%Z).
Definition bad := built (kf_init cart_A cart_x (Some cart_B) cart_P bad_H cart_Q bad_R None).
Example C06_case :
  let cs := [:: CFilter cart_Z (Some cart_U); CUpdate (row cart_H 0) cart_x cart_P (row cart_Z 0) (row cart_R 0);
                CFilter (upto_row 2 cart_Z) (Some cart_U)] in
  [seq isok r | r <- (kf_calls bad cs).2] = [:: false; true; true] /\
  size (kf_gains (kf_calls bad cs).1) = 5.
Proof. by split; vm_compute. Qed.
