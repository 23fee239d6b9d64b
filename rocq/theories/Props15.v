(** * Props15: C69: smoothing the end of a record

    [resumed self k x P] (ApiSpec) is the object that takes over after k steps:
    started from (x, P), with the parameters of the remaining steps. *)
From Coq Require Import ZArith.
From mathcomp Require Import ssreflect ssrfun ssrbool eqtype ssrnat seq.
From Verif Require Import Np NpLemmas Kf Ekf ApiSpec Loop Frame FilterLemmas FilterThms SliceThms SmoothLemmas SmoothSuffix SmoothSuffix2 Binary64 Cases Props3.

Set Implicit Arguments.
Unset Strict Implicit.
Unset Printing Implicit Defensive.

(** ** C69: the smoothed estimates of the rows from k on need only the posterior
    of step k-1 and the data from k on *)
Theorem C69_smooth_suffix (N : num) (self : kf N) Z U k g g1 st1 er1 x P :
  iterable self Z U -> k <= steps self Z U -> k < nrows Z ->
  kf_filter self (upto_row k Z) (omap (upto_row k) U) g = (g1, Ok (st1, er1)) ->
  (by_hand self Z (control Z U) k g).2 = Ok (x, P) ->
  let whole := kf_smooth self Z U g in
  let rest := kf_smooth (resumed self k x P) (from_row k Z) (omap (from_row k) U) g1 in
  [/\ rest.1 = whole.1,
      (forall xs Ps, whole.2 = Ok (xs, Ps) -> rest.2 = Ok (from_row k xs, from_row k Ps)) &
      (forall e, rest.2 = Raise e -> whole.2 = Raise e)].
Proof. exact: smooth_suffix. Qed.

Theorem C69_smooth_suffix_extended (N : num) (self : ekf N) Z U k g g1 st1 er1 x P :
  e_iterable self Z U -> k <= e_steps self Z U -> k < nrows Z ->
  ekf_filter self (upto_row k Z) (omap (upto_row k) U) g = (g1, Ok (st1, er1)) ->
  (e_by_hand self Z (control Z U) k g).2 = Ok (x, P) ->
  let whole := ekf_smooth self Z U g in
  let rest := ekf_smooth (e_resumed self k x P) (from_row k Z) (omap (from_row k) U) g1 in
  [/\ rest.1 = whole.1,
      (forall xs Ps, whole.2 = Ok (xs, Ps) -> rest.2 = Ok (from_row k xs, from_row k Ps)) &
      (forall e, rest.2 = Raise e -> whole.2 = Raise e)].
Proof. exact: e_smooth_suffix. Qed.

(** With documented shapes: keep the last row of what filter returned on the
    first k observations and throw the rest away. *)
Theorem C69_checkpoint (N : num) n m p (self : kf N) Z U k g g1 st1 er1 :
  constructed self -> well_shaped n m p self Z U -> shp (kf_xk self) = [:: n] ->
  (forall j, j < steps self Z U -> shp (row Z j) <> [:: 1; 1]) ->
  0 < k -> k <= steps self Z U -> k < nrows Z ->
  kf_filter self (upto_row k Z) (omap (upto_row k) U) g = (g1, Ok (st1, er1)) ->
  let whole := kf_smooth self Z U g in
  let rest := kf_smooth (resumed self k (row st1 k.-1) (row er1 k.-1))
                        (from_row k Z) (omap (from_row k) U) g1 in
  [/\ rest.1 = whole.1,
      (forall xs Ps, whole.2 = Ok (xs, Ps) -> rest.2 = Ok (from_row k xs, from_row k Ps)) &
      (forall e, rest.2 = Raise e -> whole.2 = Raise e)].
Proof.
move=> Hc Hw Hx Hz Hk0 Hk HkZ Hf; have [Hit _ _ _ _] := Hw.
exact: (smooth_suffix Hit Hk HkZ Hf (split_by_hand Hc Hw Hx Hz Hk0 Hk Hf)).
Qed.

Theorem C69_checkpoint_extended (N : num) n m (self : ekf N) Z U k g g1 st1 er1 :
  e_constructed self -> e_well_shaped n m self Z U ->
  0 < k -> k <= e_steps self Z U -> k < nrows Z ->
  ekf_filter self (upto_row k Z) (omap (upto_row k) U) g = (g1, Ok (st1, er1)) ->
  let whole := ekf_smooth self Z U g in
  let rest := ekf_smooth (e_resumed self k (row st1 k.-1) (row er1 k.-1))
                         (from_row k Z) (omap (from_row k) U) g1 in
  [/\ rest.1 = whole.1,
      (forall xs Ps, whole.2 = Ok (xs, Ps) -> rest.2 = Ok (from_row k xs, from_row k Ps)) &
      (forall e, rest.2 = Raise e -> whole.2 = Raise e)].
Proof.
move=> Hc Hw Hk0 Hk HkZ Hf; have [Hit _ _ _ _] := Hw.
exact: (e_smooth_suffix Hit Hk HkZ Hf (e_split_by_hand Hc Hw Hk0 Hk Hf)).
Qed.

(** ** C04 for the extended filter, at the last row returned *)
Theorem C04_split_at_last_row_extended (N : num) n m (self : ekf N) Z U k g g1 st1 er1 :
  e_constructed self -> e_well_shaped n m self Z U -> 0 < k -> k <= e_steps self Z U ->
  ekf_filter self (upto_row k Z) (omap (upto_row k) U) g = (g1, Ok (st1, er1)) ->
  ekf_filter self Z U g =
  (let: (g2, r) := ekf_filter (e_resumed self k (row st1 k.-1) (row er1 k.-1))
                     (from_row k Z) (omap (from_row k) U) g1 in
   (g2, match r with Ok (st2, er2) => Ok (vstack st1 st2, vstack er1 er2) | Raise e => Raise e end)).
Proof.
move=> Hc Hw Hk0 Hk Hf; have [Hit _ _ _ _] := Hw.
exact: (e_filter_resume Hit Hk Hf (e_split_by_hand Hc Hw Hk0 Hk Hf)).
Qed.

Example C69_case : constructed cart /\ well_shaped 2 1 1 cart cart_Z (Some cart_U) /\
  shp (kf_xk cart) = [:: 2] /\ 1 < nrows cart_Z /\
  isok (kf_filter cart (upto_row 1 cart_Z) (omap (@upto_row binary64 1) (Some cart_U)) [::]).2 /\
  isok (kf_smooth cart cart_Z (Some cart_U) [::]).2 /\
  e_constructed sq /\ e_well_shaped 2 1 sq cart_Z None /\ isok (ekf_smooth sq cart_Z None [::]).2.
Proof.
split; first exact: cart_constructed.
split; first exact: cart_well_shaped.
split; first by vm_compute.
split; first by vm_compute.
split; first by vm_compute.
split; first by vm_compute.
by split; [exact: sq_constructed|split; [exact: sq_well_shaped|vm_compute]].
Qed.
