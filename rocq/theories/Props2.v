(** * Props2: the structural properties C07-C14, for every arithmetic *)
From Coq Require Import ZArith Lia.
From mathcomp Require Import ssreflect ssrfun ssrbool eqtype ssrnat seq.
From Verif Require Import Np NpLemmas Kf Ekf ApiSpec Loop Frame FilterLemmas FilterThms SliceThms
  DataIndep DataIndep2 SmoothLemmas UtilThms EkfThms Binary64 Cases.

Set Implicit Arguments.
Unset Strict Implicit.
Unset Printing Implicit Defensive.
Arguments Z.of_nat : simpl never.

(** ** C07 calls do not interfere

    [kf_calls self cs] makes the calls [cs] one after the other on the object
    [self]; its first component is the object afterwards. *)
Theorem C07_no_interference (N : num) (self : kf N) (cs : seq (call N)) (c : call N) :
  let after := (kf_calls self cs).1 in
  (kf_call after c).2 = (kf_call self c).2 /\
  [/\ kf_A after = kf_A self, kf_xk after = kf_xk self, kf_B after = kf_B self,
      kf_Pk after = kf_Pk self & kf_H after = kf_H self] /\
  [/\ kf_Q after = kf_Q self, kf_R after = kf_R self & kf_size after = kf_size self].
Proof.
rewrite /= kf_callsE; split; last by split.
by rewrite !kf_callE run_with_gains.
Qed.

Theorem C07_no_interference_extended (N : num) (self : ekf N) (cs : seq (ecall N)) (c : ecall N) :
  let after := (e_calls self cs).1 in
  (e_call after c).2 = (e_call self c).2 /\
  [/\ e_f after = e_f self, e_h after = e_h self, e_jA after = e_jA self & e_jH after = e_jH self] /\
  [/\ e_xk after = e_xk self, e_Pk after = e_Pk self, e_Q after = e_Q self,
      e_R after = e_R self & e_size after = e_size self].
Proof.
rewrite /= e_callsE; split; last by split.
by rewrite !e_callE e_run_with_gains.
Qed.

(** The outcomes of a whole history are those of each call on the object as
    built, in whatever order and however often. *)
Theorem C07_history (N : num) (self : kf N) (cs : seq (call N)) :
  (kf_calls self cs).2 = [seq (kf_call self c).2 | c <- cs].
Proof. by rewrite kf_callsE; apply: eq_map => c; rewrite kf_callE. Qed.

Theorem C07_history_extended (N : num) (self : ekf N) (cs : seq (ecall N)) :
  (e_calls self cs).2 = [seq (e_call self c).2 | c <- cs].
Proof. by rewrite e_callsE; apply: eq_map => c; rewrite e_callE. Qed.

Example C07_case :
  let cs := [:: CFilter cart_Z (Some cart_U); CSmooth cart_Z' None;
                CUpdate (row cart_H 0) cart_x cart_P (row cart_Z 0) (row cart_R 0);
                CFilter cart_Z (Some cart_U)] in
  [seq isok r | r <- (kf_calls cart cs).2] = [:: true; true; true; true].
Proof. by vm_compute. Qed.

(** ** C08 covariances and gains do not depend on the data *)
Theorem C08_filter (N : num) (self : kf N) Z U Z' U' g g1 g2 st1 er1 st2 er2 :
  nrows Z = nrows Z' -> nrows (control Z U) = nrows (control Z' U') ->
  kf_filter self Z U g = (g1, Ok (st1, er1)) ->
  kf_filter self Z' U' g = (g2, Ok (st2, er2)) -> er1 = er2 /\ g1 = g2.
Proof. exact: filter_cov. Qed.

Theorem C08_smooth (N : num) (self : kf N) Z U Z' U' g g1 g2 st1 er1 st2 er2 :
  nrows Z = nrows Z' -> nrows (control Z U) = nrows (control Z' U') ->
  kf_smooth self Z U g = (g1, Ok (st1, er1)) ->
  kf_smooth self Z' U' g = (g2, Ok (st2, er2)) -> er1 = er2 /\ g1 = g2.
Proof. exact: smooth_cov_indep. Qed.

(** Different observations and controls, different states. *)
Example C08_case :
  isok (kf_smooth cart cart_Z (Some cart_U) [::]).2 /\ isok (kf_smooth cart cart_Z' None [::]).2 /\
  nrows cart_Z = nrows cart_Z' /\
  nrows (control cart_Z (Some cart_U)) = nrows (control cart_Z' None).
Proof. by split; [|split; [|split]]; vm_compute. Qed.

(** ** C09 an all-NaN control row means no control *)
Theorem C09_predict (N : num) (Ak xk Bk uk Pk Qk : arr N) : wf Bk -> wf uk ->
  (every_nan Bk \/ every_nan uk ->
     kf_predict Ak xk (Some Bk) (Some uk) Pk Qk = plain_predict Ak xk Pk Qk) /\
  (~ every_nan Bk -> ~ every_nan uk ->
     kf_predict Ak xk (Some Bk) (Some uk) Pk Qk = control_predict Ak xk Bk uk Pk Qk).
Proof.
move=> /wf_wfs WB /wf_wfs Wu; split.
  move=> H; apply: predict_plain; apply/orP.
  by case: H => /isnan_allP H; [left|right]; apply: H.
move=> HB Hu; apply: predict_control; apply/negP; first by move/(isnan_allP WB).
by move/(isnan_allP Wu).
Qed.

Lemma isnan_row (N : num) (V : arr N) j : np_isnan_all V -> np_isnan_all (row V j).
Proof.
rewrite /np_isnan_all /row /= => H.
move: H; rewrite -{1}(cat_take_drop (j * nelem (behead (shp V))) (dat V)) all_cat => /andP [_].
by rewrite -{1}(cat_take_drop (nelem (behead (shp V))) (drop _ _)) all_cat => /andP [].
Qed.

(** U=None with a float Z is any all-NaN control of the same length. *)
Theorem C09_none_is_nan_control (N : num) (self : kf N) Z V g :
  kisnan (knan N) -> dt Z = DFloat -> sized Z ->
  wf V -> sized V -> nrows V = nrows Z -> every_nan V ->
  kf_filter self Z None g = kf_filter self Z (Some V) g.
Proof.
move=> Hk HZ SZ /wf_wfs WV SV HV NV.
have Hit : iterable self Z None = iterable self Z (Some V).
  by rewrite /iterable /= SZ SV /sized /= -/(sized Z) SZ.
have Hst : steps self Z None = steps self Z (Some V) by rewrite /steps /= HV.
case Hi: (iterable self Z None); last by rewrite !kf_filter_unsized // -?Hit ?Hi.
rewrite !kf_filterE -?Hit // /rows_of Hst.
apply: filter_loop_eq => j; rewrite mem_iota => /andP [_ Hj] xP g0.
have Hjz : j < nrows Z by move: Hj; rewrite add0n steps_gt => /and5P [_ _ _ _ /and3P [_ _ ->]].
rewrite /kf_step; cbn [rA rB rU rQ rH rZ rR srow_at].
rewrite !predict_plain //; first by apply/orP; right; apply/isnan_row/isnan_allP.
by apply/orP; right; apply: control_none_nan.
Qed.

(** B=None with a float A is any all-NaN control matrix of the same length. *)
Theorem C09_none_is_nan_matrix (N : num) (self self' : kf N) A xk Bn Pk H Q R ss Z U g :
  kisnan (knan N) -> dt A = DFloat -> sized A ->
  wf Bn -> sized Bn -> nrows Bn = nrows A -> every_nan Bn ->
  kf_init A xk None Pk H Q R ss = Ok self -> kf_init A xk (Some Bn) Pk H Q R ss = Ok self' ->
  kf_filter self Z U g = kf_filter self' Z U g.
Proof.
move=> Hk HA SA /wf_wfs WV SV HV NV.
rewrite /kf_init; case E: (match ss with Some z => _ | None => _ end) => [n|//]; cbn [rbind].
case=> <- -[<-]; set s1 := Kf _ _ _ _ _ _ _ _ _ _; set s2 := Kf _ _ _ _ _ _ _ _ _ _.
have Hit : iterable s1 Z U = iterable s2 Z U.
  by rewrite /iterable /= SA SV /sized /= -/(sized A) SA.
have Hst : steps s1 Z U = steps s2 Z U by rewrite /steps /= HV.
case Hi: (iterable s1 Z U); last by rewrite !kf_filter_unsized // -?Hit ?Hi.
rewrite !kf_filterE -?Hit // /rows_of Hst.
apply: filter_loop_eq => j; rewrite mem_iota => /andP [_ Hj] xP g0.
have Hjz : j < nrows A by move: Hj; rewrite add0n steps_gt => /andP [].
rewrite /kf_step; cbn [rA rB rU rQ rH rZ rR srow_at].
rewrite !predict_plain //; first by apply/orP; left; apply/isnan_row/isnan_allP.
by apply/orP; left; apply/isnan_row/isnan_full_like.
Qed.

(** One run in which the second control is missing, and one predict of each
    kind. *)
Definition cart_Unan := farr [:: 3; 1] [:: dec 100 2; knan binary64; dec 25 2].
Definition nan_col := farr [:: 2; 1] [:: knan binary64; knan binary64].
Example C09_case :
  np_isnan_all (row cart_Unan 1) /\ ~~ np_isnan_all (row cart_Unan 0) /\ np_isnan_all nan_col /\
  isok (kf_filter cart cart_Z (Some cart_Unan) [::]).2 /\
  isok (kf_filter cart cart_Z None [::]).2.
Proof. by split; [|split; [|split; [|split]]]; vm_compute. Qed.

(** ** C10 omitting B or U disables control, except for integer arrays

    [by_hand_plain] (ApiSpec) runs the model without a control term. *)
Theorem C10_U_none (N : num) (self : kf N) Z g :
  kisnan (knan N) -> dt Z = DFloat -> iterable self Z None -> forall j, j <= steps self Z None ->
  by_hand self Z (control Z None) j g = by_hand_plain self Z j g.
Proof. by move=> *; apply: filter_U_none. Qed.

Theorem C10_B_none (N : num) (self : kf N) A xk Pk H Q R ss Z U g :
  kisnan (knan N) -> dt A = DFloat -> kf_init A xk None Pk H Q R ss = Ok self ->
  iterable self Z U -> forall j, j <= steps self Z U ->
  by_hand self Z (control Z U) j g = by_hand_plain self Z j g.
Proof. by move=> Hk HA Hi Hit j Hj; apply: (filter_B_none g Hk HA Hi Hit Hj). Qed.

(** hence the rows of what filter returns. *)
Theorem C10_U_none_filter (N : num) (self : kf N) Z g g' st er :
  kisnan (knan N) -> dt Z = DFloat -> kf_filter self Z None g = (g', Ok (st, er)) ->
  forall j, j < steps self Z None -> exists x P,
    (by_hand_plain self Z j.+1 g).2 = Ok (x, P) /\
    row st j = fit [:: kf_size self] x /\ row er j = fit [:: kf_size self; kf_size self] P.
Proof.
move=> Hk HZ E j Hj; have [_ _ Hr _] := filter_ok E.
have [x [P [Hb _ Hx HP]]] := Hr j Hj; exists x, P; split=> //.
by rewrite -(filter_U_none g Hk HZ (filter_iterable E) Hj) Hb.
Qed.

(** With an integer Z, U=None is not "no control": at every step whose control
    matrix is not all NaN the product of that matrix with the integer that NaN
    becomes is added to the state. *)
Theorem C10_integer_Z (N : num) (Z : arr N) j : wf Z -> dt Z = DInt -> j < nrows Z ->
  0 < nelem (behead (shp Z)) ->
  (forall ix, valid (shp (row (control Z None) j)) ix ->
     get (row (control Z None) j) ix = VI (knan2int N)) /\
  forall Ak xk Bk Pk Qk, wf Bk -> ~ every_nan Bk ->
    kf_predict Ak xk (Some Bk) (Some (row (control Z None) j)) Pk Qk =
    control_predict Ak xk Bk (row (control Z None) j) Pk Qk.
Proof.
move=> WZ HZ Hj He; split.
  move=> ix; case E: (shp Z) Hj => [|d sh]; first by rewrite /nrows E.
  rewrite /nrows E /= => Hj Hix.
  have Hv : valid sh ix by move: Hix; rewrite /row /= E.
  have Es : shp (control Z None) = d :: sh by [].
  rewrite (get_row j Es) //.
  by rewrite get_full_like ?HZ // E /= Hj.
move=> Ak xk Bk Pk Qk /wf_wfs WB HB; apply: predict_control.
  by apply/negP => /(isnan_allP WB).
by rewrite int_placeholder.
Qed.

(** The same numbers, as int64 and as float64: two states, the observation is
    a row of one integer, U=None and a control matrix.  The first state is off
    by more than 10^15. *)
Definition int_Z := iarr [:: 3; 1] [:: 1; 2; 3]%Z.
Definition flt_Z := farr [:: 3; 1] (map fofZ [:: 1; 2; 3]%Z).
Definition first_state (m : seq (arr binary64) * res (arr binary64 * arr binary64)) : f64 :=
  if m.2 is Ok (st, _) then @tofl binary64 (get st [:: 0; 0]) else knan binary64.
Theorem C10_integer_Z_refuted :
  isok (kf_filter cart int_Z None [::]).2 /\ isok (kf_filter cart flt_Z None [::]).2 /\
  fltb (fabs (first_state (kf_filter cart flt_Z None [::]))) (fofZ 2) /\
  fltb (fofZ (10 ^ 15)) (fabs (first_state (kf_filter cart int_Z None [::]))).
Proof. by split; [|split; [|split]]; vm_compute. Qed.

(** The same with B=None and an integer A. *)
Definition int_A := iarr [:: 3; 2; 2] [:: 1; 1; 0; 1;  1; 1; 0; 1;  1; 1; 0; 1]%Z.
Definition flt_A := farr [:: 3; 2; 2] (map fofZ [:: 1; 1; 0; 1;  1; 1; 0; 1;  1; 1; 0; 1]%Z).
Definition two_U := farr [:: 3; 2] (map fofZ [:: 1; 1; 1; 1; 1; 1]%Z).
Definition with_A (A : arr binary64) :=
  built (kf_init A cart_x None cart_P cart_H cart_Q cart_R None).
Theorem C10_integer_A_refuted :
  let wrong := kf_filter (with_A int_A) cart_Z (Some two_U) [::] in
  let right := kf_filter (with_A flt_A) cart_Z (Some two_U) [::] in
  isok wrong.2 /\ isok right.2 /\
  fltb (fabs (first_state right)) (fofZ 2) /\
  fltb (fofZ (10 ^ 15)) (fabs (first_state wrong)).
Proof. by split; [|split; [|split]]; vm_compute. Qed.

Example C10_case : dt cart_Z = DFloat /\ iterable cart cart_Z None /\ steps cart cart_Z None = 3 /\
  kisnan (knan binary64) /\ wf int_Z /\ dt int_Z = DInt /\ 0 < nelem (behead (shp int_Z)).
Proof. by do 6!(split; first by vm_compute); vm_compute. Qed.

(** ** C11 predict with None, as documented, raises *)
Theorem C11_Bk_none_raises (N : num) (Ak xk Pk Qk : arr N) (uk : option (arr N)) :
  kf_predict Ak xk None uk Pk Qk = Raise TypeError.
Proof. exact: predict_Bnone. Qed.

Theorem C11_uk_none (N : num) (Ak xk Bk Pk Qk : arr N) : wf Bk ->
  (~ every_nan Bk -> kf_predict Ak xk (Some Bk) None Pk Qk = Raise TypeError) /\
  (every_nan Bk -> kf_predict Ak xk (Some Bk) None Pk Qk = plain_predict Ak xk Pk Qk).
Proof.
move=> /wf_wfs WB; split=> HB.
  by apply: predict_unone; apply/negP => /(isnan_allP WB).
by apply: predict_unone_nan; apply/isnan_allP.
Qed.

Example C11_case : wf (row cart_B 0) /\ ~~ np_isnan_all (row cart_B 0) /\
  wf nan_col /\ np_isnan_all nan_col /\
  isok (kf_predict (row cart_A 0) cart_x (Some nan_col) None cart_P (row cart_Q 0)).
Proof. by do 4!(split; first by vm_compute); vm_compute. Qed.

(** ** C12 a float R raises *)
Theorem C12_float_R (N : num) (self : kf N) Z U g : shp (kf_R self) = [::] ->
  kf_filter self Z U g = (g, Raise TypeError) /\ kf_smooth self Z U g = (g, Raise TypeError).
Proof.
move=> HR; have Hi : ~~ iterable self Z U.
  by rewrite /iterable /= {7}/sized HR eqxx /= !andbF.
by split; [exact: kf_filter_unsized|exact: smooth_unsized].
Qed.

Theorem C12_float_R_extended (N : num) (self : ekf N) Z U g : shp (e_R self) = [::] ->
  ekf_filter self Z U g = (g, Raise TypeError) /\ ekf_smooth self Z U g = (g, Raise TypeError).
Proof.
move=> HR; have Hi : ~~ e_iterable self Z U.
  by rewrite /e_iterable /= {4}/sized HR eqxx /= !andbF.
by split; [exact: ekf_filter_unsized|exact: e_smooth_unsized].
Qed.

(** The constructor accepts a float R. *)
Example C12_case : exists self, kf_init cart_A cart_x (Some cart_B) cart_P cart_H cart_Q
    (farr [::] [:: dec 1 1]) None = Ok self /\ shp (kf_R self) = [::] /\
  exists eself, ekf_init osc_x cart_P cart_Q (farr [::] [:: dec 1 1]) osc_f osc_h osc_jA osc_jH = Ok eself /\
  shp (e_R eself) = [::].
Proof. by eexists; split; [reflexivity|split; [reflexivity|eexists; split; reflexivity]]. Qed.

(** ** C13 is_nan_all *)
Theorem C13_is_nan_all (N : num) (a : arr N) : wf a ->
  exists b, is_nan_all (Some a) = Ok b /\ (b <-> every_nan a).
Proof. by move=> /wf_wfs W; exists (np_isnan_all a); split=> //; apply: isnan_allP. Qed.

Theorem C13_integer (N : num) (a : arr N) : wf a -> dt a = DInt -> 0 < nelem (shp a) ->
  is_nan_all (Some a) = Ok false.
Proof. by move=> W D H; rewrite /is_nan_all isnan_all_int. Qed.

Theorem C13_empty (N : num) (a : arr N) : wf a -> nelem (shp a) = 0 -> is_nan_all (Some a) = Ok true.
Proof. by move=> /wf_wfs W H; rewrite /is_nan_all isnan_all_empty. Qed.

Theorem C13_none (N : num) : @is_nan_all N None = Raise TypeError.
Proof. by []. Qed.

Example C13_case : wf cart_Unan /\ wf int_Z /\ dt int_Z = DInt /\ 0 < nelem (shp int_Z) /\
  wf (farr [:: 3; 0; 2] [::]) /\ nelem (shp (farr [:: 3; 0; 2] [::])) = 0.
Proof. by do 5!(split; first by vm_compute); vm_compute. Qed.

(** ** C14 check_none_and_broadcast *)
Theorem C14_given (N : num) (a b : arr N) : check_none_and_broadcast (Some a) b = a.
Proof. by []. Qed.

Theorem C14_none (N : num) (b : arr N) :
  let r := check_none_and_broadcast None b in
  [/\ shp r = shp b, wf r,
      dt b = DFloat -> kisnan (knan N) -> every_nan r &
      dt b = DInt -> no_nan r /\ forall ix, valid (shp b) ix -> get r ix = VI (knan2int N)].
Proof.
rewrite /=; split=> //; first exact: wf_full_like.
  by move=> D Hk ix Hix; rewrite get_full_like // D.
by move=> D; split=> ix Hix; rewrite get_full_like // D.
Qed.

Example C14_case : wf int_Z /\ wf cart_Z /\ kisnan (knan binary64) /\
  (nelem (shp int_Z), nelem (shp cart_Z)) = (3, 3).
Proof. by do 3!(split; first by vm_compute); vm_compute. Qed.
