(** * SmoothSuffix2: with documented shapes, what filter returned is what the
      rest of the run starts from *)
From Coq Require Import ZArith Lia.
From mathcomp Require Import ssreflect ssrfun ssrbool eqtype ssrnat seq.
From Verif Require Import Np NpLemmas Kf Ekf ApiSpec Loop Frame FilterLemmas FilterThms SliceThms SmoothLemmas NpShapes WellShaped Shapes2 WellShaped2.

Set Implicit Arguments.
Unset Strict Implicit.
Unset Printing Implicit Defensive.
Arguments Z.of_nat : simpl never.

Section Split.
Variable N : num.
Notation arr := (arr N).

Lemma split_by_hand n m p (self : kf N) Z U k g g1 st1 er1 : constructed self ->
  well_shaped n m p self Z U -> shp (kf_xk self) = [:: n] ->
  (forall j, j < steps self Z U -> shp (row Z j) <> [:: 1; 1]) ->
  0 < k -> k <= steps self Z U ->
  kf_filter self (upto_row k Z) (omap (upto_row k) U) g = (g1, Ok (st1, er1)) ->
  (by_hand self Z (control Z U) k g).2 = Ok (row st1 k.-1, row er1 k.-1).
Proof.
move=> Hc Hw Hxs Hz Hk0 Hk Hf; have [Hit Hn Hx HP _] := Hw.
have [Ho _ Hrow _] := filter_ok Hf.
have Est : steps self (upto_row k Z) (omap (upto_row k) U) = k.
  by rewrite steps_upto; apply/minn_idPl.
have Hlt : k.-1 < steps self (upto_row k Z) (omap (upto_row k) U) by rewrite Est prednK.
have [x [P [Ebh Hst Ex EP]]] := Hrow _ Hlt; rewrite prednK // in Ebh.
have Ebh' : by_hand self Z (control Z U) k g = (take (size g + k) g1, Ok (x, P)).
  rewrite -Ebh by_hand_rows // by_hand_rows ?Est //; last exact: iterable_upto.
  by rewrite rows_upto take_take.
have [Hx' HP'] := flat_by_hand Hc Hw Hxs Hz Hk Ebh'.
have [Fx FP] : isfloat x /\ isfloat P.
  by apply: (@by_hand_float _ self Z (control Z U) k.-1 g _ x P Hc); rewrite prednK //; exact: Ebh'.
have -> : row st1 k.-1 = x.
  by rewrite Ex Hn; case/hasP: Hx' => _ Sx; apply: (stored_is Fx Sx).
have -> : row er1 k.-1 = P.
  by rewrite EP Hn; case/hasP: HP' => _ SP; apply: (stored_is FP SP).
by rewrite Ebh'.
Qed.

Lemma e_split_by_hand n m (self : ekf N) Z U k g g1 st1 er1 : e_constructed self ->
  e_well_shaped n m self Z U -> 0 < k -> k <= e_steps self Z U ->
  ekf_filter self (upto_row k Z) (omap (upto_row k) U) g = (g1, Ok (st1, er1)) ->
  (e_by_hand self Z (control Z U) k g).2 = Ok (row st1 k.-1, row er1 k.-1).
Proof.
move=> Hc Hw Hk0 Hk Hf; have [Hit Hn Hx HP _] := Hw.
have [Ho _ Hrow _] := e_filter_ok Hf.
have Est : e_steps self (upto_row k Z) (omap (upto_row k) U) = k.
  by rewrite e_steps_upto; apply/minn_idPl.
have Hlt : k.-1 < e_steps self (upto_row k Z) (omap (upto_row k) U) by rewrite Est prednK.
have [x [P [Ebh Hst Ex EP]]] := Hrow _ Hlt; rewrite prednK // in Ebh.
have Ebh' : e_by_hand self Z (control Z U) k g = (take (size g + k) g1, Ok (x, P)).
  rewrite -Ebh e_by_hand_rows // e_by_hand_rows ?Est //; last exact: e_iterable_upto.
  by rewrite e_rows_upto take_take.
have HI : e_I self = np_identity N n by rewrite (e_constructed_I Hc) Hn.
have [Sx HP'] : shp x = [:: n] /\ has [:: n; n] P.
  have Ebh2 := Ebh'; rewrite e_by_hand_rows // in Ebh2.
  case: (@e_iter_shape _ n m self Z U k g HI Hw Hk); rewrite Ebh2; last by case.
  by case=> g' [y [C [[_ <- <-] _ ? ?]]].
have [Fx FP] : isfloat x /\ isfloat P.
  by apply: (@e_by_hand_float _ self Z (control Z U) k.-1 g _ x P Hc); rewrite prednK //; exact: Ebh'.
have -> : row st1 k.-1 = x by rewrite Ex Hn; apply: (stored_is Fx Sx).
have -> : row er1 k.-1 = P.
  by rewrite EP Hn; case/hasP: HP' => _ SP; apply: (stored_is FP SP).
by rewrite Ebh'.
Qed.

End Split.
