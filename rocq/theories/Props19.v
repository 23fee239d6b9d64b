(** * Props19: C78, C79: predict, and forecasts made by calling it repeatedly

    Exact arithmetic; [forecast] is in Forecast.v. *)
From Coq Require Import ZArith.
From mathcomp Require Import all_ssreflect all_algebra.
From Verif Require Import Np NpLemmas Kf Ekf ApiSpec Loop FilterLemmas FilterThms SliceThms Exact Repr Textbook RunSpec Refine Refine2 Build
  Outputs Loewner KalmanAlg TextbookThms ExCases Prob BestLin BestLin2 EkfRun EndSpec EndToEnd EkfEnd Props8 Props16 Forecast.

Set Implicit Arguments.
Unset Strict Implicit.
Unset Printing Implicit Defensive.
Import GRing.Theory Num.Theory Order.Theory.
Local Open Scope ring_scope.

Section Props.
Variable F : realFieldType.
Variable oracle : oracle_type F.
Variable n2i : Z.
Notation N := (exact oracle n2i).
Notation arr := (arr N).

(** ** C78: one call of predict *)
Theorem C78_predict_computes_the_textbook_prediction n p (A x b u P Q : arr) :
  mat_layout n n A && clean A -> vec_layout n 1 x && clean x -> mat_layout n n P && clean P ->
  cov_layout n Q && clean Q ->
  ctl_layout n p b u -> [|| np_isnan_all b, np_isnan_all u | clean b && clean u] ->
  dt A = DFloat \/ (dt x = DFloat /\ dt P = DFloat) -> dt b = DFloat \/ dt u = DFloat ->
  let Bu := if np_isnan_all b || np_isnan_all u then 0 else mx n p b *m mx p 1 u in
  exists y C, [/\ kf_predict A x (Some b) (Some u) P Q = Ok (y, C),
    mx n 1 y = mx n n A *m mx n 1 x + Bu,
    mx n n C = mx n n A *m mx n n P *m (mx n n A)^T + cov n Q & clean y && clean C].
Proof.
move=> /andP [LA CA] /andP [Lx Cx] /andP [LP CP] /andP [LQ CQ] Lb Cb Hd Hb Bu.
have [y [C [E Ry RC]]] := predict_rp (rp_mat LA CA) (vrp_vec Lx Cx) (rp_mat LP CP) Hd Lb Cb Hb LQ CQ.
exists y, C; split=> //.
- by case: Ry => sh _ /rpf_mx.
- exact: rpf_mx RC.
by case: Ry => sh _ [[_ _ _ -> _] _]; case: RC => [[_ _ _ -> _] _].
Qed.

(** The extended filter: the mean is the array f returns, untouched. *)
Theorem C78_predict_computes_the_textbook_prediction_extended n (self : ekf N) (x u P Q A y : arr) :
  e_f self x (Some u) = Ok y -> e_jA self x (Some u) = Ok A -> good_mat n n A -> good_mat n n P ->
  cov_layout n Q && clean Q -> dt P = DFloat \/ dt A = DFloat ->
  exists C, [/\ ekf_predict self x (Some u) P Q = Ok (y, C),
    mx n n C = mx n n A *m mx n n P *m (mx n n A)^T + cov n Q & clean C].
Proof.
move=> Ef EA GA /andP [LP CP] /andP [LQ CQ] Hd.
have Hp : promote (dt P) (dt A) = DFloat by case: Hd => -> //; case: (dt P).
have [C E RC] := e_predict_rp EA GA Ef (rp_mat LP CP) Hp LQ CQ.
by exists C; split=> //; [exact: rpf_mx RC|case: RC => [[]]].
Qed.

(** All matrices and vectors, written as float64 arrays, with or without a control. *)
Example C78_case n p (A P Q : 'M[F]_n) (x : 'cV[F]_n) (B : 'M[F]_(n, p)) (u : 'cV[F]_p) :
  let mat r c (M : 'M[F]_(r, c)) := mx_arr oracle n2i M in let vec r (y : 'cV[F]_r) := vec_arr oracle n2i y in
  [/\ mat_layout n n (mat _ _ A) && clean (mat _ _ A), vec_layout n 1 (vec _ x) && clean (vec _ x),
      cov_layout n (mat _ _ Q) && clean (mat _ _ Q), ctl_layout n p (mat _ _ B) (vec _ u) &
      clean (mat _ _ B) && clean (vec _ u) /\ dt (mat _ _ A) = DFloat /\ dt (mat _ _ B) = DFloat].
Proof.
move=> mat vec; split.
- by rewrite /mat_layout clean_mkF wf_mkF /= eqxx.
- by rewrite /vec_layout clean_mkF wf_mkF /= eqxx.
- by rewrite /cov_layout clean_mkF wf_mkF /= eqxx.
- by rewrite /ctl_layout /mat_layout !wf_mkF /= !eqxx !orbT.
by rewrite !clean_mkF.
Qed.

(** ** C79: filter k observations, then predict h more steps *)
Section Run.
Variables (n m p : nat) (self : kf N) (Z : arr) (U : option arr) (g : seq arr).
Notation T := (steps self Z U).
Hypothesis H : exact_run n m p self Z U.
Variables (k h : nat) (g' : seq arr) (st er : arr).
Hypothesis k0 : (0 < k)%N.
Hypothesis Hk : (k + h <= T)%N.
Hypothesis E : kf_filter self (upto_row k Z) (omap (upto_row k) U) g = (g', Ok (st, er)).
Let s := model_of n m p self Z U.

Lemma upto_same : same_model (model_of n m p self (upto_row k Z) (omap (upto_row k) U)) s k.
Proof.
have ltZ j : (j < T)%N -> (j < nrows Z)%N.
  by move=> Hj; have [[h1 _ _ _] _] := steps_le self Z U; exact: leq_trans Hj h1.
split=> // j Hj; have HjT : (j < T)%N by apply: leq_trans Hj (leq_trans (leq_addr h k) Hk).
by rewrite /s /model_of; cbn [mA mc mH mQ mR mz]; rewrite row_upto // control_upto ?ltZ.
Qed.

Lemma start_rp : rpf [:: n] (row st k.-1) (post_x s k) /\ rpf [:: n; n] (row er k.-1) (post_P s k).
Proof.
have HT : steps self (upto_row k Z) (omap (upto_row k) U) = k.
  by rewrite steps_upto; apply/minn_idPl; apply: leq_trans (leq_addr h k) Hk.
have Hk1 : (k.-1 < steps self (upto_row k Z) (omap (upto_row k) U))%N by rewrite HT prednK.
have [_ _ _ _ [r1 r2 _ _]] := filter_out (run_upto k H) E Hk1.
have [e1 e2] := same_post upto_same (leqnn k).
by rewrite prednK // in r1 r2; rewrite -e1 -e2.
Qed.

Lemma forecast_ok : exists y C,
  [/\ forecast self (control Z U) k h (row st k.-1) (row er k.-1) = Ok (y, C),
      mx n 1 y = fore_x s k h (post_x s k), mx n n C = fore_P s k h (post_P s k) & clean y && clean C].
Proof.
have [[r1 d1] [r2 d2]] := start_rp.
have vr : vrp m (row st k.-1) (post_x s k) by exists [:: n] => //; left.
have [|y [C [Ef [sh _ Ry] RC _]]] := forecast_rp H Hk vr r2; first by right.
exists y, C; split=> //; first by case: Ry.
- by case: RC.
by case: Ry => _ _ _ -> _; case: RC => _ _ _ -> _.
Qed.

Theorem C79_forecast_iterates_the_model : exists y C,
  [/\ forecast self (control Z U) k h (row st k.-1) (row er k.-1) = Ok (y, C),
      mx n 1 y = fore_x s k h (mx n 1 (row st k.-1)),
      mx n n C = fore_P s k h (mx n n (row er k.-1)) & clean y && clean C].
Proof.
have [y [C [e1 e2 e3 e4]]] := forecast_ok; have [r1 r2] := start_rp.
by exists y, C; rewrite (rpf_mx r1) (rpf_mx r2).
Qed.
End Run.

(** On random data the forecast is the best affine estimate of the state h
    steps ahead from the k observations made, and C is the covariance of its
    error. *)
Theorem C79_forecast_best_linear (W : prob F) (n m p : nat) (s : model F n m) (T : nat)
    (e : rvec W n) (w : nat -> rvec W n) (v : nat -> rvec W m)
    (self : kf N) (Z : Om W -> arr) (U : option arr) (g : seq arr)
    (g' : Om W -> seq arr) (st er y C : Om W -> arr) (k h : nat) :
  white_noises s T e w v -> random_data p s T e w v self Z U -> (0 < k)%N -> (k + h <= T)%N ->
  (forall o, kf_filter self (upto_row k (Z o)) (omap (upto_row k) U) g = (g' o, Ok (st o, er o))) ->
  (forall o, forecast self (control (Z o) U) k h (row (st o) k.-1) (row (er o) k.-1) = Ok (y o, C o)) ->
  forall o, best_linear (sensed s e w v) k (true_state s e w (k + h))
              (fun o => mx n 1 (y o)) (mx n n (C o)).
Proof.
move=> Hw Hd k0 Hk E Ef o; have Hk' : (k <= T)%N := leq_trans (leq_addr h k) Hk.
pose sw o := model_of n m p self (Z o) U.
have sw0 o' : mx0 (sw o') = mx0 s /\ mP0 (sw o') = mP0 s by have [_ _ h1 h2 _] := Hd o'.
have swk o' j : (j < T)%N ->
  [/\ mA (sw o') j = mA s j, mc (sw o') j = mc s j, mH (sw o') j = mH s j, mQ (sw o') j = mQ s j &
      mR (sw o') j = mR s j /\ mz (sw o') j = sensed s e w v j o'].
  by have [_ _ _ _ hh] := Hd o'; exact: hh.
have swk' o' j : (j < k)%N -> _ := fun Hj => swk o' j (leq_trans Hj Hk').
have HT o' : (k + h <= steps self (Z o') U)%N by have [_ -> _ _ _] := Hd o'.
have inn j : (j < k)%N -> innov s j \in unitmx.
  move=> Hj; apply: (@some_outcome F W) => o'.
  have [Hr ht _ _ _] := Hd o'.
  have HT' : steps self (upto_row k (Z o')) (omap (upto_row k) U) = k.
    by rewrite steps_upto; apply/minn_idPl; rewrite ht.
  have Hj' : (j < steps self (upto_row k (Z o')) (omap (upto_row k) U))%N by rewrite HT'.
  have := filter_units (run_upto k Hr) (E o') Hj'.
  have [_ _ -> _] := same_pred (upto_same n m p (HT o')) Hj.
  by rewrite -/(sw o') !innovE (sw_pred (sw := sw) sw0 swk' o' Hj); have [_ _ -> _ [-> _]] := swk' o' j Hj.
have EP o' : mx n n (C o') = fore_P s k h (post_P s k).
  have [Hr _ _ _ _] := Hd o'.
  have [y1 [C1 [e1 _ e3 _]]] := forecast_ok Hr k0 (HT o') (E o').
  have -> : C o' = C1 by move: e1; rewrite Ef => -[].
  rewrite e3.
  rewrite -/(sw o') (sw_P (sw := sw) sw0 swk' o' (leqnn k)).
  elim: h Hk {HT Ef e1 e3} => [|i IH] Hi //; rewrite addnS in Hi.
  by cbn [fore_P]; rewrite IH ?(ltnW Hi) //; have [-> _ _ -> _] := swk o' _ Hi.
have Ex o' : fx sw k h o' = mx n 1 (y o').
  have [Hr _ _ _ _] := Hd o'.
  have [y1 [C1 [e1 e2 _ _]]] := forecast_ok Hr k0 (HT o') (E o').
  by have -> : y o' = y1 by move: e1; rewrite Ef => -[].
rewrite EP; have [em ec _ _] := fe_all Hw sw0 Hk' swk inn Hk.
have Er o' : fe s e w sw k h o' = rsub (true_state s e w (k + h)) (fun o => mx n 1 (y o)) o'.
  by rewrite /fe /rsub Ex.
have aff := fx_aff sw0 Hk' swk Hk.
split.
- exact: aff_ext Ex aff.
- by rewrite meanE -(eq_moment Er (fun=> erefl)) -meanE.
- by rewrite -(eq_moment Er Er).
move=> Y aY; have := fore_best Hw sw0 Hk' swk inn Hk aY; cbv zeta => Eb.
have Ee o' : fx sw k h o' - Y o' = rsub (fun o => mx n 1 (y o)) Y o' by rewrite /rsub -Ex.
rewrite (eq_moment Ee Ee) in Eb.
have LY := L2aff Hw Hk' aY.
rewrite /rsub Eb; split; last by move/eqP; rewrite -subr_eq0 addrC addKr => /eqP.
rewrite /loewner addrC addKr; apply: moment_psd; apply: L2v_sub => //.
by apply: L2v_ext Ex _; exact: (L2aff Hw Hk' aff).
Qed.

(** The hypotheses are met: on the data of [C29_C46_case], filter two
    observations and predict one step. *)
Example C79_case g :
  let self := demo_kf oracle n2i 11%:R^-1 in let U := demo_U oracle n2i 11%:R^-1 in
  let Zd := dice_Z oracle n2i in
  [/\ white_noises (dice_model F) 3 (@dice_e F) (@dice_w F) (@dice_v F),
      random_data 2 (dice_model F) 3 (@dice_e F) (@dice_w F) (@dice_v F) self Zd U &
  exists g' st er y C,
    (forall o, kf_filter self (upto_row 2 (Zd o)) (omap (upto_row 2) U) g = (g' o, Ok (st o, er o))) /\
    (forall o, forecast self (control (Zd o) U) 2 1 (row (st o) 1) (row (er o) 1) = Ok (y o, C o))].
Proof.
move=> self U Zd; have [h1 [h2 [_ [[g0 [st0 [er0 E0]]] _]]]] := C29_C46_case g; split=> //.
have ret (A : Type) (f : seq arr * res A) : (exists g' r, f = (g', Ok r)) -> {r | f = (f.1, Ok r)}.
  by case: f => a [r|err] H; [exists r|exfalso; case: H => x [r]].
have ret2 (A : Type) (f : res A) : (exists r, f = Ok r) -> {r | f = Ok r}.
  by case: f => [r|err] H; [exists r|exfalso; case: H => x].
have R o : {r | kf_filter self (upto_row 2 (Zd o)) (omap (upto_row 2) U) g =
    ((kf_filter self (upto_row 2 (Zd o)) (omap (upto_row 2) U) g).1, Ok r)}.
  apply: ret; have [Hr ht _ _ _] := h2 o.
  have HT : (2 + 1 <= steps self (Zd o) U)%N by rewrite ht.
  have [|g' [st [er ->]]] := filter_returns g (run_upto 2 Hr); last by exists g', (st, er).
  rewrite steps_upto ht => j Hj.
  have [_ _ -> _] := same_pred (upto_same 2 1 2 HT) Hj.
  by apply: (filter_units Hr (E0 o)); rewrite ht; exact: leq_trans Hj _.
pose st o := (sval (R o)).1; pose er o := (sval (R o)).2.
pose g' o := (kf_filter self (upto_row 2 (Zd o)) (omap (upto_row 2) U) g).1.
have E o : kf_filter self (upto_row 2 (Zd o)) (omap (upto_row 2) U) g = (g' o, Ok (st o, er o)).
  by rewrite /st /er /g'; case: (R o) => -[s1 e1] E; exact: E.
have R2 o : {r | forecast self (control (Zd o) U) 2 1 (row (st o) 1) (row (er o) 1) = Ok r}.
  apply: ret2; have [Hr ht _ _ _] := h2 o.
  have HT : (2 + 1 <= steps self (Zd o) U)%N by rewrite ht.
  by have [y [C [-> _ _ _]]] := forecast_ok Hr (isT : (0 < 2)%N) HT (E o); exists (y, C).
exists g', st, er, (fun o => (sval (R2 o)).1), (fun o => (sval (R2 o)).2); split=> // o.
by case: (R2 o) => -[y C].
Qed.
End Props.
