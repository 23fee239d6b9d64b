(** * NanThms: a NaN in an observation spoils every later state (C20) *)
From Coq Require Import ZArith Lia.
From mathcomp Require Import ssreflect ssrfun ssrbool eqtype ssrnat seq.
From Verif Require Import Np NpLemmas Kf Ekf ApiSpec Loop Frame FilterLemmas FilterThms NpShapes
  SmoothLemmas WellShaped Shapes2 WellShaped2.

Set Implicit Arguments.
Unset Strict Implicit.
Unset Printing Implicit Defensive.
Arguments Z.of_nat : simpl never.

Section Nan.
Variable N : num.
Notation arr := (arr N).
Hypothesis NP : nan_propagates N.

Lemma snan_tofl (v : scal N) : snan v -> kisnan (tofl v).
Proof. by case: v. Qed.

Lemma some_float (a : arr) : wf a -> some_nan a -> isfloat a.
Proof.
move=> Hw [ix Hv Hn]; rewrite /isfloat Hw; move: (wf_get Hw Hv).
by case: (dt a); case: (get a ix) Hn.
Qed.

(** Sums and differences. *)
Lemma bin_nan_l fz fk (a b c : arr) :
  (forall x y : K N, kisnan x || kisnan y -> kisnan (fk x y)) ->
  np_bin fz fk a b = Ok c -> every_nan a -> every_nan c.
Proof.
move=> Hfk; rewrite /np_bin; case E: (bshape _ _) => [sh|] // [<-] Ha ix Hv.
rewrite get_mk //; have := Ha _ (valid_bidx_l E Hv).
case: (get a _) => // x /= Hx; case: (get b _) => [z|y] /=; apply: Hfk; by rewrite Hx.
Qed.

Lemma bin_nan_r fz fk (a b c : arr) :
  (forall x y : K N, kisnan x || kisnan y -> kisnan (fk x y)) ->
  np_bin fz fk a b = Ok c -> every_nan b -> every_nan c.
Proof.
move=> Hfk; rewrite /np_bin; case E: (bshape _ _) => [sh|] // [<-] Hb ix Hv.
rewrite get_mk //; have := Hb _ (valid_bidx_r E Hv).
case: (get b _) => // x /= Hx; case: (get a _) => [z|y] /=; apply: Hfk; by rewrite Hx orbT.
Qed.

Lemma add_nan_l (a b c : arr) : np_add a b = Ok c -> every_nan a -> every_nan c.
Proof. by have [H _ _] := NP; exact: bin_nan_l. Qed.
Lemma add_nan_r (a b c : arr) : np_add a b = Ok c -> every_nan b -> every_nan c.
Proof. by have [H _ _] := NP; exact: bin_nan_r. Qed.
Lemma sub_nan_l (a b c : arr) : np_sub a b = Ok c -> every_nan a -> every_nan c.
Proof. by have [_ H _] := NP; exact: bin_nan_l. Qed.

Lemma sub_some (a b c : arr) sh : shp a = sh -> shp b = sh -> np_sub a b = Ok c ->
  some_nan a -> some_nan c.
Proof.
move=> Ea Eb; rewrite /np_sub (bin_same _ _ Ea Eb) => -[<-] [ix Hv Hn].
exists ix; first by rewrite /= -Ea.
rewrite get_mk -?Ea //; have [_ H _] := NP.
by case: (get a ix) Hn => // x /= Hx; case: (get b ix) => [z|y] /=; apply: H; rewrite Hx.
Qed.

(** Products. *)
Lemma nth_dat2 (b : arr) k n l j : shp b = [:: k; n] ->
  nth (VI 0) (dat b) (l * n + j) = get b [:: l; j].
Proof. by move=> E; rewrite /get E /= muln1 muln1 addn0. Qed.

Lemma mv_some (a b c : arr) m k : has [:: m; k] a -> wf b -> shp b = [:: k] -> some_nan b ->
  np_matmul a b = Ok c -> every_nan c.
Proof.
move=> /hasP [Wa Ea] Wb Eb Hs; rewrite (matmul_mv Wa (wf_wfs Wb) Ea Eb) => -[<-] ix Hv.
rewrite get_mk //; have [i Hi ->] := valid1 Hv; cbn [nth].
have /isfloatP [_ ->] := some_float Wb Hs; rewrite promoteF /=.
case: Hs => jx; rewrite Eb => /valid1 [l Hl ->] Hn.
have [_ _ H] := NP; move/eqP: Wa => Sa; move/eqP: (wf_wfs Wb) => Sb.
rewrite Ea /= muln1 in Sa; rewrite Eb /= muln1 in Sb.
apply: (H _ m k 1 _ _ i 0 l (tofl (VI 0 : scal N))) => //; rewrite ?size_map ?Sa ?Sb ?muln1 //.
apply/orP; right; rewrite addn0 (nth_map (VI 0)) ?Sb //; apply: snan_tofl.
by move: Hn; rewrite /get Eb /= muln1 addn0.
Qed.

Lemma mm_all (a b c : arr) m k n : has [:: m; k] a -> wf b -> shp b = [:: k; n] -> 0 < k ->
  every_nan b -> np_matmul a b = Ok c -> every_nan c.
Proof.
move=> /hasP [Wa Ea] Wb Eb Hk Hs; rewrite (matmul_mm Wa (wf_wfs Wb) Ea Eb) => -[<-] ix Hv.
rewrite get_mk //; have [i [j [Hi Hj ->]]] := valid2 Hv; cbn [nth].
have Hv0 : valid (shp b) [:: 0; j] by rewrite Eb /valid /= Hk Hj.
have Hn := Hs _ Hv0.
have /isfloatP [_ ->] : isfloat b by apply: some_float => //; exists [:: 0; j].
rewrite promoteF /=.
have [_ _ H] := NP; move/eqP: Wa => Sa; move/eqP: (wf_wfs Wb) => Sb.
rewrite Ea /= muln1 in Sa; rewrite Eb /= muln1 in Sb.
apply: (H _ m k n _ _ i j 0 (tofl (VI 0 : scal N))) => //; rewrite ?size_map ?Sa ?Sb //.
apply/orP; right; rewrite mul0n add0n (nth_map (VI 0)); last first.
  by rewrite Sb (leq_trans Hj) // leq_pmull.
by apply: snan_tofl; move: Hn; rewrite /get Eb /= mul0n add0n muln1 addn0.
Qed.

Lemma every_some (a : arr) n : shp a = [:: n] -> 0 < n -> every_nan a -> some_nan a.
Proof. by move=> E Hn H; exists [:: 0]; [rewrite E /valid /= Hn|apply: H; rewrite E /valid /= Hn]. Qed.

Lemma every0 (a : arr) sh : shp a = 0 :: sh -> every_nan a.
Proof. by move=> E [|i ix]; rewrite E /valid. Qed.

(** A matrix times a vector of the documented layouts. *)
Lemma mulvec_nan k n m (a x c : arr) : has [:: k; n] a -> vecs n m x -> wf x -> 0 < n ->
  every_nan x -> np_matmul a x = Ok c -> every_nan c.
Proof.
move=> Ha Hx Wx Hn Hnan; case: (vecsP Hx) => [/hasP [_ Sx]|[En Em /hasP [_ Sx]]].
  by apply: (mv_some Ha Wx Sx); exact: (every_some Sx).
by rewrite En in Ha; apply: (mm_all Ha Wx Sx).
Qed.

(** ** One step *)
Lemma predict_nan n m (A x b u P Q y C : arr) : has [:: n; n] A -> vecs n m x -> wf x ->
  every_nan x -> 0 < n ->
  kf_predict A x (Some b) (Some u) P Q = Ok (y, C) -> every_nan y.
Proof.
move=> HA Hx Wx Hnan Hn; rewrite /kf_predict.
case Ep: (project_state _ _ _ _) => [y'|] //; cbn [rbind].
case: (project_cov _ _ _) => // C'; cbn [rbind] => -[<- _]; move: Ep.
rewrite /project_state; cbn [is_nan_all rbind].
case: (if np_isnan_all b then _ else _) => [[]|] //; cbn [rbind].
  exact: (mulvec_nan HA Hx Wx Hn Hnan).
case E: (np_matmul A x) => [Ax|] //; cbn [rbind]; case: (np_matmul b u) => // Bu; cbn [rbind] => E2.
by apply: (add_nan_l E2); exact: (mulvec_nan HA Hx Wx Hn Hnan E).
Qed.

Lemma update_nan_x I (H x P z R : arr) g g' y C : every_nan x ->
  kf_update I H x P z R g = (g', Ok (y, C)) -> every_nan y.
Proof.
move=> Hx; rewrite /kf_update /mbind /mlift.
case: (innov_cov _ _ _) => // S; case: (gain _ _ _) => // Kk; rewrite /append_gain.
case: (np_matmul H x) => // zh; rewrite /correct_state.
case: (np_sub z zh) => //= w; case: (np_matmul Kk _) => //= v.
case E: (np_add x v) => [y'|] //; case: (correct_cov _ _ _ _) => // C' [_ <- _].
exact: (add_nan_l E).
Qed.

Lemma update_nan_z n m (H x P z R : arr) g g' y C : has [:: m; n] H -> vecs n m x -> has [:: n; n] P ->
  obs_layout n m z -> cov_layout m R -> some_nan z ->
  kf_update (np_identity N n) H x P z R g = (g', Ok (y, C)) -> every_nan y.
Proof.
move=> HH Hx HP /andP [Wz Hz] HR Hs; rewrite /kf_update /mbind /mlift.
have [S -> HS] := innov_cov_ok HH HP HR.
case: (gain_ok HS HH HP) => [[Kk -> HK]|->] //.
rewrite /append_gain; have [zh -> Hzh] := mulvec HH Hx.
rewrite /correct_state.
case Ew: (np_sub z zh) => [w|] //; cbn [rbind].
case Ev: (np_matmul Kk _) => [v|] //; cbn [rbind].
case E: (np_add x v) => [y'|] //; case: (correct_cov _ _ _ _) => // C' [_ <- _].
apply: (add_nan_r E).
have /isfloatP [Ww _] := np_sub_floatl Ew (some_float Wz Hs).
have Ez1 (d : nat) : (shp z = [::] \/ shp z = [:: 1] \/ shp z = [:: 1; 1]) -> every_nan z.
  case: Hs => ix Hv Hn [Es|[Es|Es]]; rewrite Es in Hv => jx; rewrite Es => Hj.
  - by rewrite (valid0 Hj) -(valid0 Hv).
  - have [[|?] // _ Ej] := valid1 Hj; have [[|?] // _ Ei] := valid1 Hv.
    by rewrite Ej -Ei.
  - have [[|?] [[|?] [// _ _ Ej]]] := valid2 Hj; have [[|?] [[|?] [// _ _ Ei]]] := valid2 Hv.
    by rewrite Ej -Ei.
have Hone : m = 1 -> every_nan z.
  move=> Em; apply: (Ez1 0); case/or3P: Hz => [/eqP ->|/andP [_ /eqP ->]|/and3P [_ _ /eqP ->]].
  - by right; left; rewrite Em.
  - by left.
  - by right; right.
(* the innovation *)
case: Hzh => [[/hasP [_ Sh] Hxn]|[En Em Hx1 /hasP [_ Sh]]].
- case/or3P: Hz => [/eqP Sz|/andP [/eqP Em /eqP Sz]|/and3P [/eqP En /eqP Em /eqP Sz]].
  + have Hws := sub_some Sz Sh Ew Hs.
    have Sw : shp w = [:: m] by move: Ew; rewrite /np_sub (bin_same _ _ Sz Sh) => -[<-].
    apply: (mv_some HK _ _ Hws); first exact: Ww.
      by [].
    by rewrite -Ev /np_atleast_1d Sw.
  + have Sw : shp w = [:: m].
      by move: Ew; rewrite /np_sub /np_bin Sz Sh bshape_nil_l => -[<-].
    have Hws : some_nan w.
      apply: (every_some Sw); first by rewrite Em.
      by apply: (sub_nan_l Ew); exact: Hone.
    apply: (mv_some HK _ _ Hws); first exact: Ww.
      by [].
    by rewrite -Ev /np_atleast_1d Sw.
  + have Sw : shp w = [:: 1; 1].
      by move: Ew; rewrite /np_sub /np_bin Sz Sh Em => -[<-].
    rewrite Em in HK.
    apply: (mm_all HK Ww Sw) => //; first by apply: (sub_nan_l Ew); exact: Hone.
    by rewrite -Ev /np_atleast_1d Sw.
- have Sw : shp w = [:: 1; 1].
    move: Ew; rewrite /np_sub /np_bin Sh Em.
    case/or3P: Hz => [/eqP ->|/andP [_ /eqP ->]|/and3P [_ _ /eqP ->]]; rewrite ?Em => -[<-] //.
  rewrite Em in HK.
  apply: (mm_all HK Ww Sw) => //; first by apply: (sub_nan_l Ew); exact: Hone.
  by rewrite -Ev /np_atleast_1d Sw.
Qed.

Lemma step_split I s xP g r : kf_step I s xP g = r ->
  (exists e, r = (g, Raise e)) \/ exists y C,
   kf_predict (rA s) xP.1 (Some (rB s)) (Some (rU s)) xP.2 (rQ s) = Ok (y, C) /\
   @kf_update N I (rH s) y C (rZ s) (rR s) g = r.
Proof.
move=> <-; rewrite /kf_step /mbind /mlift.
by case: (kf_predict _ _ _ _ _ _) => [[y C]|e]; [right; exists y, C|left; exists e].
Qed.

Lemma step_nan n m p s (x P : arr) g g' y C : row_layout n m p s -> vecs n m x -> has [:: n; n] P ->
  some_nan (rZ s) \/ (isfloat x /\ every_nan x) ->
  kf_step (np_identity N n) s (x, P) g = (g', Ok (y, C)) -> every_nan y.
Proof.
move=> Hl Hx HP Hn E.
case: (step_split E) => [[e]|[y1 [C1 [Ep Eu]]]] //.
move: Hl => [/has_mat HA /has_mat HH Hc [Hz HQ HR]].
have [y2 [C2 [Ep' Hy2 HC2]]] := predict_shape HA Hx Hc HP HQ.
move: Ep; rewrite Ep' => -[Ey EC]; rewrite -Ey -EC in Eu.
case: Hn => [Hz1|[/isfloatP [Wx _] Hnan]].
  exact: (update_nan_z HH Hy2 HC2 Hz HR Hz1 Eu).
apply: (update_nan_x _ Eu).
case: n HA Hx {HH Hc Hz HQ HR HP Eu} Hy2 HC2 Ep' {E} => [|n] HA Hx Hy2 HC2 Ep'.
  by case: (vecsP Hy2) => [/hasP [_ S0]|[]] //; exact: (every0 S0).
exact: (predict_nan HA Hx Wx Hnan _ Ep').
Qed.

(** ** Runs *)
Lemma by_hand_nan n m p (self : kf N) Z U g j i g' x P : constructed self ->
  well_shaped n m p self Z U -> j <= i -> i < steps self Z U -> some_nan (row Z j) ->
  by_hand self Z (control Z U) i.+1 g = (g', Ok (x, P)) -> every_nan x /\ vecs n m x.
Proof.
move=> Hc Hw Hji His Hn; have HI := constructed_I Hc; have [Hit Hsz Hx HP Hl] := Hw.
rewrite Hsz in HI.
have Hshape k g1 y C : k <= steps self Z U -> by_hand self Z (control Z U) k g = (g1, Ok (y, C)) ->
    vecs n m y /\ has [:: n; n] C.
  move=> Hk; rewrite by_hand_rows // HI.
  have Hrows : forall i s0, i < size (take k (rows_of self Z U)) ->
      row_layout n m p (nth s0 (take k (rows_of self Z U)) i).
    move=> l s0; rewrite size_takel ?size_rows_of // => Hi; rewrite nth_take //.
    by apply: (well_shaped_rows Hw); rewrite size_rows_of (leq_trans Hi).
  case: (iter_shape (xP := (kf_xk self, kf_Pk self)) g Hrows (vec_vecs Hx) (has_mat HP)) => [[g2 [y2 [C2 [-> Hy HC]]]]|[g2 ->]] //.
  by case=> _ <- <-.
have Hstep k g1 y C : k < steps self Z U -> by_hand self Z (control Z U) k.+1 g = (g1, Ok (y, C)) ->
    exists g0 y0 C0, by_hand self Z (control Z U) k g = (g0, Ok (y0, C0)) /\
      kf_step (np_identity N n) (srow_at self Z (control Z U) k) (y0, C0) g0 = (g1, Ok (y, C)).
  move=> Hk; rewrite !by_hand_rows // ?(ltnW Hk) //.
  rewrite (take_nth (srow_at self Z (control Z U) 0)) ?size_rows_of // iter_rows_rcons.
  rewrite (nth_map 0) ?size_iota // nth_iota // add0n /mbind HI.
  by case: (iter_rows _ _ _ _) => [g0 [[y0 C0]|e]] // Es; exists g0, y0, C0.
have Hrow k : k < steps self Z U -> row_layout n m p (srow_at self Z (control Z U) k) by exact: Hl.
move=> E; split; last by have [] := Hshape _ _ _ _ His E.
elim: i Hji His g' x P E => [|i IH] Hji His g' x P E.
  move: Hji Hn; rewrite leqn0 => /eqP -> Hn.
  have [g0 [y0 [C0 [E0 Es]]]] := Hstep _ _ _ _ His E.
  have [Hy0 HC0] := Hshape _ _ _ _ (ltnW His) E0.
  by apply: (step_nan (Hrow _ His) Hy0 HC0 _ Es); left.
have [g0 [y0 [C0 [E0 Es]]]] := Hstep _ _ _ _ His E.
have [Hy0 HC0] := Hshape _ _ _ _ (ltnW His) E0.
apply: (step_nan (Hrow _ His) Hy0 HC0 _ Es).
move: Hji; rewrite leq_eqVlt => /orP [/eqP Ej|Hji]; first by left; rewrite -Ej.
right; split; first by have [] := by_hand_float Hc E0.
exact: (IH Hji (ltnW His) _ _ _ E0).
Qed.

Lemma fit_nan n m (x : arr) : vecs n m x -> every_nan x -> isfloat x -> every_nan (fit [:: n] x).
Proof.
move=> Hx Hn /isfloatP [Wx Dx]; case: (vecsP Hx) => [/hasP [_ Sx]|[-> _ /hasP [_ Sx]]].
  by rewrite -{1}Sx fit_id.
move=> ix Hv; rewrite /fit get_mk //; have [[|?] // _ ->] := valid1 Hv.
rewrite Sx /=; have := Hn [:: 0; 0]; rewrite Sx => /(_ isT).
by rewrite /get Sx /=; exact: snan_tofl.
Qed.

Lemma filter_nan n m p (self : kf N) Z U g g' st er j i : constructed self ->
  well_shaped n m p self Z U -> kf_filter self Z U g = (g', Ok (st, er)) ->
  j <= i -> i < steps self Z U -> some_nan (row Z j) -> every_nan (row st i).
Proof.
move=> Hc Hw E Hji Hi Hn; have [_ Hsz _ _ _] := Hw.
have [_ _ Hrow _] := filter_ok E; have [x [P [Ebh _ -> _]]] := Hrow i Hi.
have [H1 H2] := by_hand_nan Hc Hw Hji Hi Hn Ebh.
by rewrite Hsz; apply: (fit_nan H2 H1); have [] := by_hand_float Hc Ebh.
Qed.

Lemma smooth_nan n m p (self : kf N) Z U g g' xs Ps j k : constructed self ->
  well_shaped n m p self Z U -> steps self Z U = nrows Z ->
  kf_smooth self Z U g = (g', Ok (xs, Ps)) ->
  j < nrows Z -> some_nan (row Z j) -> k < nrows Z -> every_nan (row xs k).
Proof.
move=> Hc Hw HsT E Hj Hn Hk; have [_ Hsz _ _ Hl] := Hw.
have [st [er [T [Ef ET Ho Elast Hrts]]]] := smooth_ok E.
have [Hof _ _ _] := filter_ok Ef.
rewrite Hsz in Ho Hrts Hof; rewrite ET in Hof.
suff : forall d, d <= T -> every_nan (row xs (T - d)).
  move=> H; have -> : k = T - (T - k) by rewrite subKn // -ltnS -ET.
  by apply: H; rewrite leq_subr.
elim=> [|d IH] Hd.
  rewrite subn0; have [-> _] := pairrow_eq Elast.
  by apply: (filter_nan Hc Hw Ef _ _ Hn); [rewrite -ltnS -ET|rewrite HsT ET].
have Hk1 : (T - d.+1).+1 = T - d by rewrite subnSK.
have HkT : T - d.+1 < T by rewrite -{2}(subnK Hd) addnS ltnS leq_addr.
have := IH (ltnW Hd); rewrite -Hk1 => {IH} IHn.
have [x [P [Er _ Ep]]] := Hrts _ HkT.
have -> : row xs (T - d.+1) = fit [:: n] x by have := f_equal fst Ep.
set k0 := T - d.+1 in Er IHn HkT *.
have Hk0 : k0 < T.+1 by exact: ltnW.
have [[W1 D1 S1] [W2 D2 S2]] := row_float Hof Hk0.
have [[V1 F1 R1] [V2 F2 R2]] := row_float Ho (HkT : k0.+1 < T.+1).
have Hst : k0.+1 < steps self Z U by rewrite HsT ET ltnS.
have [/has_mat HA _ Hcl [_ HQ _]] := Hl _ Hst.
have Hx : has [:: n] (row st k0) by apply/hasP; split; first exact: wf_wfs.
have HP : has [:: n; n] (row er k0) by apply/hasP; split; first exact: wf_wfs.
have Hx1 : has [:: n] (row xs k0.+1) by apply/hasP; split; first exact: wf_wfs.
have [ya [Ca [Epr Hya HCa]]] := flat_predict HA Hx Hcl HP HQ.
move: Er; rewrite /rts_by_hand /kf_ahead /pairrow; cbn [fst snd]; rewrite Epr; cbn [rbind fst snd].
have [PA -> HPA] := mm_has HP (has_T HA); cbn [rbind].
have /hasP [W3 S3] := has_T HPA; have /hasP [W4 S4] := has_T HCa.
rewrite (solve_mm W4 W3 S4 S3); case: (ksolve _ _ _ _) => [gg|] //; cbn [rbind].
set G := np_T _; have HG : has [:: n; n] G by exact/has_T/has_mk.
have [dx Edx Hdx] := sub_has Hx1 Hya; rewrite Edx; cbn [rbind].
have [Gd EGd HGd] := mv_has HG Hdx; rewrite EGd; cbn [rbind].
have [x' Ex' Hx'] := add_has Hx HGd; rewrite Ex'; cbn [rbind].
case: (np_sub _ _) => // D; cbn [rbind]; case: (np_matmul D _) => // DG; cbn [rbind].
case: (np_matmul G DG) => // GDG; cbn [rbind]; case: (np_add _ GDG) => // P'; cbn [rbind] => -[Ex _].
rewrite -Ex.
have Hxn : every_nan x'.
  case: (posnP n) => [En|Hpos].
    by case/hasP: Hx' => _; rewrite En => S0; exact: (every0 S0).
  apply: (add_nan_r Ex').
  have Fdx : isfloat dx by apply: (np_sub_floatl Edx); apply/isfloatP.
  case/isfloatP: Fdx => Wdx _; case/hasP: Hdx => _ Sdx.
  apply: (mv_some HG Wdx Sdx _ EGd); apply: (every_some Sdx Hpos).
  exact: (sub_nan_l Edx IHn).
apply: (fit_nan (m := m) (has_vecs m Hx') Hxn).
apply: (np_bin_floatl Ex'); first by apply/isfloatP.
by move=> ix sh; exact: valid_bidx_l.
Qed.

End Nan.
