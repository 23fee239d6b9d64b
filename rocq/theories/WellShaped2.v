(** * WellShaped2: the smoother and the extended filter on documented shapes *)
From Coq Require Import ZArith Lia.
From mathcomp Require Import ssreflect ssrfun ssrbool eqtype ssrnat seq.
From Verif Require Import Np NpLemmas Kf Ekf ApiSpec Loop Frame FilterLemmas FilterThms NpShapes
  SmoothLemmas WellShaped Shapes2.

Set Implicit Arguments.
Unset Strict Implicit.
Unset Printing Implicit Defensive.
Arguments Z.of_nat : simpl never.

Section W2.
Variable N : num.
Notation arr := (arr N).

Lemma sub_has sh (a b : arr) : has sh a -> has sh b -> exists2 c, np_sub a b = Ok c & has sh c.
Proof. by move=> /hasP [_ Ea] /hasP [_ Eb]; apply: bin_has; rewrite Ea Eb bshape_same. Qed.

Lemma add_has sh (a b : arr) : has sh a -> has sh b -> exists2 c, np_add a b = Ok c & has sh c.
Proof. by move=> /hasP [_ Ea] /hasP [_ Eb]; apply: bin_has; rewrite Ea Eb bshape_same. Qed.

Lemma fits_has sh (a : arr) : has sh a -> fits sh a.
Proof. by move=> /hasP [_ <-]; exact: fits_id. Qed.

Lemma smooth_body_shape T n (est sm ahead : arr * arr) k (A : arr) :
  outshape T n est -> outshape T n sm -> k.+1 < T -> has [:: n; n] A ->
  has [:: n] ahead.1 -> has [:: n; n] ahead.2 ->
  (exists2 r, smooth_body est sm k ahead A = Ok r & outshape T n r) \/
  smooth_body est sm k ahead A = Raise LinAlgError.
Proof.
move=> He Hs Hk HA Ha1 Ha2; have Hk0 : k < T by exact: ltnW.
have [[_ _ Es1] [_ _ Es2]] := He; have [[_ _ Ss1] [_ _ Ss2]] := Hs.
have [[W1 _ S1] [W2 _ S2]] := row_float He Hk0.
have [[V1 _ R1] [V2 _ R2]] := row_float Hs Hk.
have Hx : has [:: n] (row est.1 k) by apply/hasP; split; first exact: wf_wfs.
have HP : has [:: n; n] (row est.2 k) by apply/hasP; split; first exact: wf_wfs.
have Hx1 : has [:: n] (row sm.1 k.+1) by apply/hasP; split; first exact: wf_wfs.
have HP1 : has [:: n; n] (row sm.2 k.+1) by apply/hasP; split; first exact: wf_wfs.
rewrite /smooth_body (getitem_row Es2 Hk0) (getitem_row Es1 Hk0).
rewrite (getitem_row Ss1 Hk) (getitem_row Ss2 Hk); cbn [rbind]; rewrite /smooth_gain.
have [PA -> HPA] := mm_has HP (has_T HA); cbn [rbind].
have /hasP [W3 S3] := has_T HPA; have /hasP [W4 S4] := has_T Ha2.
rewrite (solve_mm W4 W3 S4 S3); case: (ksolve _ _ _ _) => [g|]; cbn [rbind]; last by right.
set G := np_T _; have HG : has [:: n; n] G by exact/has_T/has_mk.
rewrite /smooth_state; have [d -> Hd] := sub_has Hx1 Ha1; cbn [rbind].
have [Gd -> HGd] := mv_has HG Hd; cbn [rbind].
have [x -> Hxs] := add_has Hx HGd; cbn [rbind].
rewrite (setitem_nat _ Ss1 Hk0) (fits_has Hxs); cbn [rbind].
rewrite /smooth_cov; have [D -> HD] := sub_has HP1 Ha2; cbn [rbind].
have [DG -> HDG] := mm_has HD (has_T HG); cbn [rbind].
have [GDG -> HGDG] := mm_has HG HDG; cbn [rbind].
have [P -> HPs] := add_has HP HGDG; cbn [rbind].
rewrite (setitem_nat _ Ss2 Hk0) (fits_has HPs); cbn [rbind].
left; eexists; first by [].
exact: (setrow_outshape (x, P) Hs Hk0).
Qed.

Lemma smooth_loop_shape (step : nat -> arr * arr -> res (arr * arr)) T n j sm :
  (forall k sm, outshape T n sm -> k.+1 < T ->
    (exists2 r, step k sm = Ok r & outshape T n r) \/ step k sm = Raise LinAlgError) ->
  outshape T n sm -> j < T ->
  (exists r, smooth_loop step j sm = Ok r) \/ smooth_loop step j sm = Raise LinAlgError.
Proof.
move=> H; elim: j sm => [|j IH] sm Hs Hj /=; first by left; exists sm.
case: (H j sm Hs Hj) => [[r -> Hr]|->]; last by right.
by apply: IH => //; exact: ltnW.
Qed.

Lemma well_shaped_smooth n m p (self : kf N) Z U g : constructed self ->
  well_shaped n m p self Z U -> 0 < nrows Z -> steps self Z U = nrows Z ->
  (exists g' xs Ps, kf_smooth self Z U g = (g', Ok (xs, Ps))) \/
  exists g', kf_smooth self Z U g = (g', Raise LinAlgError).
Proof.
move=> Hc Hw HT HsT; have [Hit Hn _ _ Hl] := Hw.
rewrite /kf_smooth /mbind /mlift.
case: (well_shaped_raises g Hc Hw) => [[g' [st [er E]]]|[g' E]]; last first.
  by right; exists g'; rewrite E.
rewrite E.
have [Ho _ _ _] := filter_ok E.
have HZ : sized Z by case/andP: (filter_iterable E).
rewrite (len_sized HZ).
case ET: (nrows Z) HT Ho => [|T] // _ Ho; rewrite Hn in Ho *.
have [sm -> [Hs _]] := smooth_init_ok Ho; rewrite subn1 [_.-1]/=.
suff : (exists r, smooth_loop (kf_smooth_step self (check_none_and_broadcast U Z) (st, er)) T sm = Ok r) \/
    smooth_loop (kf_smooth_step self (check_none_and_broadcast U Z) (st, er)) T sm = Raise LinAlgError.
  by case=> [[[xs Ps] ->]|->]; [left; exists g', xs, Ps|right; exists g'].
apply: (smooth_loop_shape (T := T.+1) (n := n)) => // k sm' Hsm Hk.
rewrite /kf_smooth_step -/(control Z U) !getitem_cases.
have [[LZ LA LH LB] [LU LQ LR]] := steps_le self Z U; rewrite HsT ET in LZ LA LH LB LU LQ LR.
rewrite !(leq_trans Hk) //; cbn [rbind].
have [[_ _ Es1] [_ _ Es2]] := Ho.
have -> : k < nrows er by rewrite /nrows Es2 /= ltnW.
have -> : k < nrows st by rewrite /nrows Es1 /= ltnW.
cbn [rbind fst snd].
have Hks : k.+1 < steps self Z U by rewrite HsT ET.
have [/has_mat HA _ Hcl [_ HQ _]] := Hl _ Hks.
have [[W1 _ S1] [W2 _ S2]] := row_float Ho (ltnW Hk).
have Hx : has [:: n] (row st k) by apply/hasP; split; first exact: wf_wfs.
have HP : has [:: n; n] (row er k) by apply/hasP; split; first exact: wf_wfs.
have [y [C [-> Hy HC]]] := flat_predict HA Hx Hcl HP HQ; cbn [rbind].
exact: (smooth_body_shape Ho Hsm Hk HA).
Qed.

(** ** The extended filter *)
Lemma e_update_shape n m (self : ekf N) (x P z R : arr) g Hk zh : e_I self = np_identity N n ->
  e_jH self x = Ok Hk -> has [:: m; n] Hk -> e_h self x = Ok zh -> flat_sh m zh ->
  has [:: n] x -> has [:: n; n] P -> flat_obs m z -> cov_layout m R ->
  (exists Kk y C, [/\ ekf_update self x P z R g = (rcons g Kk, Ok (y, C)),
      has [:: n; m] Kk, has [:: n] y & has [:: n; n] C]) \/
  ekf_update self x P z R g = (g, Raise LinAlgError).
Proof.
move=> HI EH HH Eh Hzh Hx HP Hz HR; rewrite /ekf_update /mbind /mlift EH HI.
have [S -> HS] := innov_cov_ok HH HP HR.
case: (gain_ok HS HH HP) => [[Kk -> HK]|->]; last by right.
left; rewrite /append_gain Eh.
have [y -> Hy] := flat_correct_state Hx HK (proj2 (andP Hz)) Hzh.
have [C -> HC] := correct_cov_ok HK HH HP.
by exists Kk, y, C.
Qed.

Lemma e_step_shape n m (self : ekf N) Z U k xP g : e_I self = np_identity N n ->
  e_well_shaped n m self Z U -> k < e_steps self Z U ->
  wf xP.1 -> shp xP.1 = [:: n] -> has [:: n; n] xP.2 ->
  (exists Kk y C, [/\ ekf_step self (erow_at self Z (control Z U) k) xP g = (rcons g Kk, Ok (y, C)),
      has [:: n; m] Kk, has [:: n] y & has [:: n; n] C]) \/
  ekf_step self (erow_at self Z (control Z U) k) xP g = (g, Raise LinAlgError).
Proof.
move=> HI [_ _ _ _ Hl] Hk Wx Sx HP; have [HQ HR Hz Hcb] := Hl _ Hk.
have [y [Ak [_ [_ [[Ef /andP [Wy /eqP Sy]] [EA HA] _ _]]]]] := Hcb _ Wx Sx.
have [_ [_ [zh [Hk' [_ _ [Eh /andP [_ Hzh]] [EH HH]]]]]] := Hcb _ Wy Sy.
have [C EC HC] := project_cov_ok (has_mat HA) HP HQ.
have Ep : ekf_predict self xP.1 (Some (row (control Z U) k)) xP.2 (row (e_Q self) k) = Ok (y, C).
  by rewrite /ekf_predict EA; cbn [rbind]; rewrite Ef; cbn [rbind]; rewrite EC.
have -> : ekf_step self (erow_at self Z (control Z U) k) xP g =
          ekf_update self y C (row Z k) (row (e_R self) k) g.
  by rewrite /ekf_step {1}/mbind /mlift /erow_at; cbn [eU eQ eZ eR]; rewrite Ep.
apply: (e_update_shape _ HI EH (has_mat HH) Eh) => //; apply/hasP; split=> //; exact: wf_wfs.
Qed.

Lemma ekf_step_wf (self : ekf N) s xP g g' y C : isfloat (e_I self) ->
  ekf_step self s xP g = (g', Ok (y, C)) -> wf y.
Proof.
move=> HI; rewrite /ekf_step {1}/mbind /mlift; case: (ekf_predict _ _ _ _ _) => // pr E.
by have [/andP [? _] _] := ekf_update_float HI E.
Qed.

Lemma e_iter_shape n m (self : ekf N) Z U k g : e_I self = np_identity N n ->
  e_well_shaped n m self Z U -> k <= e_steps self Z U ->
  (exists g' y C, [/\ iter_rows (ekf_step self) (take k (e_rows_of self Z U)) (e_xk self, e_Pk self) g = (g', Ok (y, C)),
     wf y, shp y = [:: n] & has [:: n; n] C]) \/
  exists g', iter_rows (ekf_step self) (take k (e_rows_of self Z U)) (e_xk self, e_Pk self) g = (g', Raise LinAlgError).
Proof.
move=> HI Hw; elim: k => [|k IH] Hk.
  have [_ _ /andP [Wx /eqP Sx] HP _] := Hw.
  by left; exists g, (e_xk self), (e_Pk self); rewrite take0; split=> //; exact: has_mat.
rewrite (take_nth (erow_at self Z (control Z U) 0)) ?size_e_rows_of // iter_rows_rcons.
rewrite (nth_map 0) ?size_iota // nth_iota // add0n /mbind.
case: (IH (ltnW Hk)) => [[g1 [y [C [-> Wy Sy HC]]]]|[g1 ->]]; last by right; exists g1.
case: (@e_step_shape n m self Z U k (y, C) g1 HI Hw Hk Wy Sy HC) => [[Kk [y' [C' [E HK Hy' HC']]]]|->].
  left; exists (rcons g1 Kk), y', C'; split=> //.
    by apply: (ekf_step_wf _ E); rewrite HI; exact: isfloat_identity.
  by case/hasP: Hy'.
by right; exists g1.
Qed.

Lemma e_well_shaped_raises n m (self : ekf N) Z U g : e_constructed self ->
  e_well_shaped n m self Z U ->
  (exists g' st er, ekf_filter self Z U g = (g', Ok (st, er))) \/
  exists g', ekf_filter self Z U g = (g', Raise LinAlgError).
Proof.
move=> Hc Hw; have [Hit Hn Hx HP _] := Hw.
have HI : e_I self = np_identity N n by rewrite (e_constructed_I Hc) Hn.
case E: (ekf_filter self Z U g) => [g' [[st er]|e]]; first by left; exists g', st, er.
right; exists g'; congr (_, Raise _).
have [j [Hj Hpre Hend]] := e_filter_raises Hit E.
move: Hend; rewrite e_by_hand_rows // Hn.
case: (@e_iter_shape n m self Z U j.+1 g HI Hw Hj) => [[g1 [y [C [-> Wy Sy HC]]]]|[g1 ->]].
  case=> [[]|[_ [xP [[_ <-]]]]] //.
  by rewrite (storable_ok (m := m)) //; apply: has_vecs; apply/hasP; split=> //; exact: wf_wfs.
by case=> [[]|[_ [xP []]]].
Qed.

Lemma e_well_shaped_smooth n m (self : ekf N) Z U g : e_constructed self ->
  e_well_shaped n m self Z U -> 0 < nrows Z -> e_steps self Z U = nrows Z ->
  (exists g' xs Ps, ekf_smooth self Z U g = (g', Ok (xs, Ps))) \/
  exists g', ekf_smooth self Z U g = (g', Raise LinAlgError).
Proof.
move=> Hc Hw HT HsT; have [Hit Hn _ _ Hl] := Hw.
rewrite /ekf_smooth /mbind /mlift.
case: (e_well_shaped_raises g Hc Hw) => [[g' [st [er E]]]|[g' E]]; last first.
  by right; exists g'; rewrite E.
rewrite E.
have [Ho _ _ _] := e_filter_ok E.
have HZ : sized Z by case/andP: (e_filter_iterable E).
rewrite (len_sized HZ).
case ET: (nrows Z) HT Ho => [|T] // _ Ho; rewrite Hn in Ho *.
have [sm -> [Hs _]] := smooth_init_ok Ho; rewrite subn1 [_.-1]/=.
suff : (exists r, smooth_loop (ekf_smooth_step self (check_none_and_broadcast U Z) (st, er)) T sm = Ok r) \/
    smooth_loop (ekf_smooth_step self (check_none_and_broadcast U Z) (st, er)) T sm = Raise LinAlgError.
  by case=> [[[xs Ps] ->]|->]; [left; exists g', xs, Ps|right; exists g'].
apply: (smooth_loop_shape (T := T.+1) (n := n)) => // k sm' Hsm Hk.
rewrite /ekf_smooth_step -/(control Z U) !getitem_cases.
have [LZ LU LQ LR] := e_steps_le self Z U; rewrite HsT ET in LZ LU LQ LR.
rewrite !(leq_trans Hk) //; cbn [rbind].
have [[_ _ Es1] [_ _ Es2]] := Ho.
have -> : k < nrows er by rewrite /nrows Es2 /= ltnW.
have -> : k < nrows st by rewrite /nrows Es1 /= ltnW.
cbn [rbind fst snd].
have Hks : k.+1 < e_steps self Z U by rewrite HsT ET.
have [HQ _ _ Hcb] := Hl _ Hks.
have [[W1 _ S1] [W2 _ S2]] := row_float Ho (ltnW Hk).
have [y [Ak [_ [_ [[Ef /andP [Wy /eqP Sy]] [EA HA] _ _]]]]] := Hcb _ W1 S1.
have HP : has [:: n; n] (row er k) by apply/hasP; split; first exact: wf_wfs.
have [C EC HC] := project_cov_ok (has_mat HA) HP HQ.
have -> : ekf_predict self (row st k) (Some (row (control Z U) k.+1)) (row er k) (row (e_Q self) k.+1) = Ok (y, C).
  by rewrite /ekf_predict EA; cbn [rbind]; rewrite Ef; cbn [rbind]; rewrite EC.
cbn [rbind]; rewrite EA; cbn [rbind].
apply: (smooth_body_shape Ho Hsm Hk (has_mat HA)) => //.
by apply/hasP; split=> //; exact: wf_wfs.
Qed.

End W2.
