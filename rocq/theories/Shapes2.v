(** * Shapes2: plain vectors stay plain vectors; wrong shapes are refused; the
    smoother and the extended filter on documented shapes *)
From Coq Require Import ZArith Lia.
From mathcomp Require Import ssreflect ssrfun ssrbool eqtype ssrnat seq.
From Verif Require Import Np NpLemmas Kf Ekf ApiSpec Loop Frame FilterLemmas FilterThms NpShapes
  SmoothLemmas SliceThms WellShaped.

Set Implicit Arguments.
Unset Strict Implicit.
Unset Printing Implicit Defensive.
Arguments Z.of_nat : simpl never.

Section S2.
Variable N : num.
Notation arr := (arr N).

Lemma has_inj sh sh' (a : arr) : has sh a -> has sh' a -> sh = sh'.
Proof. by case/hasP=> _ <- /hasP [_ <-]. Qed.

(** An observation that is not (1,1). *)
Definition flat_obs (m : nat) (z : arr) : bool :=
  wf z && ((shp z == [:: m]) || ((m == 1) && (shp z == [::]))).

Definition flat_sh (m : nat) (z : arr) : bool := (shp z == [:: m]) || ((m == 1) && (shp z == [::])).

Lemma has_flat_sh m (z : arr) : has [:: m] z -> flat_sh m z.
Proof. by case/hasP=> _ E; rewrite /flat_sh E eqxx. Qed.

Lemma flat_sub m (z zh : arr) : flat_sh m z -> flat_sh m zh ->
  exists2 y, np_sub z zh = Ok y & has [:: m] (np_atleast_1d y).
Proof.
have ok s : bshape (shp z) (shp zh) = Some s -> s = [:: m] \/ (m = 1 /\ s = [::]) ->
    exists2 y, np_sub z zh = Ok y & has [:: m] (np_atleast_1d y).
  move=> Es Hs; have [y Ey /hasP [Wy Sy]] := bin_has Z.sub (@ksub N) Es; exists y; first exact: Ey.
  rewrite /np_atleast_1d Sy; case: Hs => [E|[-> E]].
    by rewrite E; apply/hasP; split; rewrite // Sy.
  by rewrite E; apply/hasP; split=> //; move: Wy; rewrite /wfs Sy E.
case/orP=> [/eqP Sz|/andP [/eqP Em /eqP Sz]] /orP [/eqP Sh|/andP [/eqP Eh /eqP Sh]]; rewrite Sz Sh in ok.
- by apply: (ok [:: m]); [exact: bshape_same|left].
- by apply: (ok [:: m]); [exact: bshape_nil_r|left].
- by apply: (ok [:: m]); [exact: bshape_nil_l|left].
by apply: (ok [::]); [exact: erefl|right].
Qed.

Lemma flat_correct_state n m (x Kk z zh : arr) : has [:: n] x -> has [:: n; m] Kk ->
  flat_sh m z -> flat_sh m zh ->
  exists2 y, correct_state x Kk z zh = Ok y & has [:: n] y.
Proof.
move=> Hx HK Hz Hzh; rewrite /correct_state.
have [y -> Hy] := flat_sub Hz Hzh.
rewrite /=; have [w -> Hw] := mv_has HK Hy; rewrite /=.
by apply: bin_has; case/hasP: Hx => _ ->; case/hasP: Hw => _ ->; rewrite bshape_same.
Qed.

Lemma flat_project_state n p (A x b u : arr) : has [:: n; n] A -> has [:: n] x ->
  ctl_layout n p b u ->
  exists2 y, project_state A x (Some b) (Some u) = Ok y & has [:: n] y.
Proof.
move=> HA Hx Hc; rewrite /project_state /=.
have HAx := mv_has HA Hx.
case Eb: (np_isnan_all b) => //=; case Eu: (np_isnan_all u) => //=.
move: Hc; rewrite /ctl_layout Eb Eu /= => /andP [Hb /andP [/wf_wfs Hu /eqP Su]].
have [y -> Hy] := HAx; rewrite /=.
have [w -> /hasP [Hw Sw]] : exists2 c, np_matmul b u = Ok c & has [:: n] c.
  by apply: (@mv_has _ n p); [exact: has_mat|apply/hasP].
by rewrite /=; apply: bin_has; case/hasP: Hy => _ ->; rewrite Sw bshape_same.
Qed.

Lemma flat_predict n p (A x b u P Q : arr) : has [:: n; n] A -> has [:: n] x ->
  ctl_layout n p b u -> has [:: n; n] P -> cov_layout n Q ->
  exists y C, [/\ kf_predict A x (Some b) (Some u) P Q = Ok (y, C), has [:: n] y & has [:: n; n] C].
Proof.
move=> HA Hx Hc HP HQ; rewrite /kf_predict.
have [y -> Hy] := flat_project_state HA Hx Hc; rewrite /=.
by have [C -> HC] := project_cov_ok HA HP HQ; exists y, C.
Qed.

Lemma flat_update n m (H x P z R : arr) g : has [:: m; n] H -> has [:: n] x -> has [:: n; n] P ->
  flat_obs m z -> cov_layout m R ->
  (exists Kk y C, [/\ kf_update (np_identity N n) H x P z R g = (rcons g Kk, Ok (y, C)),
      has [:: n; m] Kk, has [:: n] y & has [:: n; n] C]) \/
  kf_update (np_identity N n) H x P z R g = (g, Raise LinAlgError).
Proof.
move=> HH Hx HP Hz HR; rewrite /kf_update /mbind /mlift.
have [S -> HS] := innov_cov_ok HH HP HR.
case: (gain_ok HS HH HP) => [[Kk -> HK]|->]; last by right.
left; rewrite /append_gain.
have [zh -> Hzh] := mv_has HH Hx.
have [y -> Hy] := flat_correct_state Hx HK (proj2 (andP Hz)) (has_flat_sh Hzh).
have [C -> HC] := correct_cov_ok HK HH HP.
by exists Kk, y, C.
Qed.

Lemma flat_step n m p s xP g : row_layout n m p s -> flat_obs m (rZ s) ->
  has [:: n] xP.1 -> has [:: n; n] xP.2 ->
  (exists Kk y C, [/\ kf_step (np_identity N n) s xP g = (rcons g Kk, Ok (y, C)),
      has [:: n; m] Kk, has [:: n] y & has [:: n; n] C]) \/
  kf_step (np_identity N n) s xP g = (g, Raise LinAlgError).
Proof.
move=> [/has_mat HA /has_mat HH Hc [_ HQ HR]] Hz Hx HP.
have [y [C [E Hy HC]]] := flat_predict HA Hx Hc HP HQ.
have -> : kf_step (np_identity N n) s xP g =
          kf_update (np_identity N n) (rH s) y C (rZ s) (rR s) g.
  by rewrite /kf_step {1}/mbind /mlift E.
exact: flat_update.
Qed.

Lemma flat_iter n m p rows xP g :
  (forall i s0, i < size rows -> row_layout n m p (nth s0 rows i) /\ flat_obs m (rZ (nth s0 rows i))) ->
  has [:: n] xP.1 -> has [:: n; n] xP.2 ->
  (exists g' y C, [/\ iter_rows (kf_step (np_identity N n)) rows xP g = (g', Ok (y, C)),
     has [:: n] y & has [:: n; n] C]) \/
  exists g', iter_rows (kf_step (np_identity N n)) rows xP g = (g', Raise LinAlgError).
Proof.
elim: rows xP g => [|s rows IH] xP g Hr Hx HP /=.
  by left; exists g, xP.1, xP.2; split=> //; rewrite /mret -surjective_pairing.
rewrite /mbind; have [Hl Hf] := Hr 0 s isT.
case: (flat_step g Hl Hf Hx HP) => [[Kk [y [C [-> HK Hy HC]]]]|->]; last by right; exists g.
by apply: IH => // i s0 Hi; exact: (Hr i.+1).
Qed.

(** The posterior by hand is a vector of shape (n,) and a matrix (n,n). *)
Lemma flat_by_hand n m p (self : kf N) Z U k g g' x P : constructed self ->
  well_shaped n m p self Z U -> shp (kf_xk self) = [:: n] ->
  (forall j, j < steps self Z U -> shp (row Z j) <> [:: 1; 1]) ->
  k <= steps self Z U ->
  by_hand self Z (control Z U) k g = (g', Ok (x, P)) ->
  has [:: n] x /\ has [:: n; n] P.
Proof.
move=> Hc Hw Hxs Hz Hk; have HI := constructed_I Hc; have [Hit Hn Hx HP Hl] := Hw.
rewrite by_hand_rows // HI Hn.
have Hrows : forall i s0, i < size (take k (rows_of self Z U)) ->
    row_layout n m p (nth s0 (take k (rows_of self Z U)) i) /\
    flat_obs m (rZ (nth s0 (take k (rows_of self Z U)) i)).
  move=> i s0; rewrite size_takel ?size_rows_of // => Hi; rewrite nth_take //.
  have His : i < steps self Z U by exact: leq_trans Hk.
  split; first by apply: (well_shaped_rows Hw); rewrite size_rows_of.
  rewrite /rows_of (nth_map 0) ?size_iota // nth_iota // add0n.
  have [_ _ _ [/andP [Hwz Ho] _ _]] := Hl _ His; cbn [rZ srow_at].
  rewrite /flat_obs Hwz; case/or3P: Ho => [->|->|/and3P [_ _ /eqP E]] //; first by rewrite orbT.
  by case: (Hz _ His).
have Hx0 : has [:: n] (kf_xk self) by apply/hasP; split=> //; case/andP: Hx => /wf_wfs.
case: (flat_iter (xP := (kf_xk self, kf_Pk self)) g Hrows Hx0 (has_mat HP)) => [[g1 [y [C [-> Hy HC]]]]|[g1 ->]] //.
by case=> _ <- <-.
Qed.

(** ** C04, documented shapes: the split is made at what filter returned *)
Lemma filter_split n m p (self : kf N) Z U k g g1 st1 er1 : constructed self ->
  well_shaped n m p self Z U -> shp (kf_xk self) = [:: n] ->
  (forall j, j < steps self Z U -> shp (row Z j) <> [:: 1; 1]) ->
  0 < k -> k <= steps self Z U ->
  kf_filter self (upto_row k Z) (omap (upto_row k) U) g = (g1, Ok (st1, er1)) ->
  kf_filter self Z U g =
  (let: (g2, r) := kf_filter (resumed self k (row st1 k.-1) (row er1 k.-1))
                     (from_row k Z) (omap (from_row k) U) g1 in
   (g2, match r with Ok (st2, er2) => Ok (vstack st1 st2, vstack er1 er2) | Raise e => Raise e end)).
Proof.
move=> Hc Hw Hxs Hz Hk0 Hk Hf; have [Hit Hn Hx HP _] := Hw.
have [Ho _ Hrow _] := filter_ok Hf.
have Est : steps self (upto_row k Z) (omap (upto_row k) U) = k.
  by rewrite steps_upto; apply/minn_idPl.
have Hlt : k.-1 < steps self (upto_row k Z) (omap (upto_row k) U) by rewrite Est prednK.
have [x [P [Ebh Hst Ex EP]]] := Hrow _ Hlt; rewrite prednK // in Ebh.
have Ebh' : by_hand self Z (control Z U) k g = (take (size g + k) g1, Ok (x, P)).
  rewrite -Ebh by_hand_rows // by_hand_rows ?Est //; last exact: iterable_upto.
  by rewrite rows_upto take_take.
have [Hx' HP'] := flat_by_hand Hc Hw Hxs Hz Hk Ebh'.
have [Fx FP] : isfloat x /\ isfloat P.
  by apply: (@by_hand_float _ self Z (control Z U) k.-1 g _ x P Hc); rewrite prednK //; exact: Ebh'.
have -> : row st1 k.-1 = x.
  by rewrite Ex Hn; case/hasP: Hx' => _ Sx; apply: (stored_is Fx Sx).
have -> : row er1 k.-1 = P.
  by rewrite EP Hn; case/hasP: HP' => _ SP; apply: (stored_is FP SP).
by apply: filter_resume => //; rewrite Ebh'.
Qed.

(** ** C18: states with two or more rows and columns *)
Definition pen (s : shape) : nat := nth 0 (rev s) 1.

Lemma pen_bshape s t u : 1 < pen s -> bshape s t = Some u -> pen u = pen s.
Proof.
rewrite /pen /bshape; case E: (bshape_rev (rev s) (rev t)) => [v|] //=; move: E.
case: (rev s) => [|c [|d s']] //=; case: (rev t) => [|c' [|d' t']] //=.
- by case=> <- _ [<-]; rewrite revK.
- by case: (bdim c c') => // x [<-] _ [<-]; rewrite revK.
- case: (bdim c c') => // x; case Ed: (bdim d d') => [y|] //.
  case: (bshape_rev s' t') => // w [<-] Hd [<-]; rewrite revK /=.
  move: Ed; rewrite /bdim; case: eqP => [_ [] //|_]; case: eqP => [E|_]; first by rewrite E in Hd.
  by case: eqP => // _ [].
Qed.

Lemma pen_strip k s : 1 < pen s -> 1 < size (strip_ones k s).
Proof.
have Hs (t : shape) : 1 < pen t -> 1 < size t.
  by rewrite /pen -(size_rev t); case: (rev t) => [|? []].
elim: k s => [|k IH] s Hp; first by rewrite strip_ones0; exact: Hs.
case: s Hp => [|[|[|d]] s] Hp //=; try exact: (Hs _ Hp).
apply: IH; move: Hp; rewrite /pen rev_cons nth_rcons.
by case: (ltnP 1 (size (rev s))) => // _; case: (1 == _).
Qed.

Lemma pen_unstorable n (x P : arr) : 1 < pen (shp x) -> ~~ storable n (x, P).
Proof.
move=> Hp; rewrite storableE /fits /= /assign_ok /=.
by have := pen_strip (size (shp x) - 1) Hp; case: (strip_ones _ _) => [|? []].
Qed.

Lemma matmul2_pen (A x y : arr) r n c : shp A = [:: r; n] -> shp x = [:: n; c] ->
  np_matmul A x = Ok y -> pen (shp y) = r.
Proof.
move=> EA Ex; rewrite /np_matmul EA Ex /= eqxx /bshape /=.
by case=> <-.
Qed.

Lemma add_pen (x y z : arr) : 1 < pen (shp x) -> np_add x y = Ok z -> pen (shp z) = pen (shp x).
Proof.
rewrite /np_add /np_bin => Hp; case E: (bshape _ _) => [sh|] // [<-] /=; exact: (pen_bshape Hp E).
Qed.

Lemma predict_pen (A x B u P Q : arr) r n c y C : shp A = [:: r; n] -> shp x = [:: n; c] -> 1 < r ->
  kf_predict A x (Some B) (Some u) P Q = Ok (y, C) -> pen (shp y) = r.
Proof.
move=> EA Ex Hr; rewrite /kf_predict.
case Ep: (project_state A x (Some B) (Some u)) => [y0|] //.
cbn [rbind]; case: (project_cov A P Q) => // C'; cbn [rbind] => -[<- _].
move: Ep; rewrite /project_state; cbn [is_nan_all rbind].
have Hm : forall y', np_matmul A x = Ok y' -> pen (shp y') = r by move=> y'; exact: (matmul2_pen EA Ex).
case: (if np_isnan_all B then _ else _) => [[]|] //; cbn [rbind]; first by apply: Hm.
case E: (np_matmul A x) => [y'|] //; cbn [rbind].
case: (np_matmul B u) => [w|] //; cbn [rbind] => E2.
by rewrite (add_pen _ E2) (Hm _ E).
Qed.

Lemma update_pen (I H x P z R : arr) g g' y C : 1 < pen (shp x) ->
  kf_update I H x P z R g = (g', Ok (y, C)) -> pen (shp y) = pen (shp x).
Proof.
move=> Hp; rewrite /kf_update /mbind /mlift.
case: (innov_cov _ _ _) => // S; case: (gain _ _ _) => // Kk /=.
case: (np_matmul H x) => // zh; rewrite /correct_state.
case: (np_sub z zh) => //= w; case: (np_matmul Kk _) => //= v.
case E: (np_add x v) => [y'|] //; case: (correct_cov _ _ _ _) => // C' [_ <- _].
exact: (add_pen Hp E).
Qed.

Lemma column_state (self : kf N) Z U g r n c : 0 < steps self Z U ->
  shp (row (kf_A self) 0) = [:: r; n] -> shp (kf_xk self) = [:: n; c] -> 1 < r ->
  exists g' e, kf_filter self Z U g = (g', Raise e).
Proof.
move=> Hs EA Ex Hr; case E: (kf_filter self Z U g) => [g' [[st er]|e]]; last by exists g', e.
have Hit := filter_iterable E.
have [_ _ Hrow _] := filter_ok E.
have [x [P [Ebh Hst _ _]]] := Hrow 0 Hs.
move: Ebh; rewrite by_hand_rows //.
rewrite (take_nth (srow_at self Z (control Z U) 0)) ?size_rows_of // take0 /=.
rewrite (nth_map 0) ?size_iota // nth_iota // add0n /mbind /kf_step /mlift.
cbn [rA rB rU rQ rH rZ rR srow_at fst snd]; rewrite {1}/mbind.
case Ep: (kf_predict _ _ _ _ _ _) => [[y C]|] //; cbn [fst snd].
case Eu: (kf_update _ _ _ _ _ _ _) => [g1 [[y' C']|]] //; rewrite /mret => -[_ Ey EC].
have Hy := predict_pen EA Ex Hr Ep.
have Hy' : pen (shp y') = r by rewrite (update_pen _ Eu) Hy.
rewrite Ey in Hy'; move: (@pen_unstorable (kf_size self) x P); rewrite Hy' Hst.
by move/(_ Hr).
Qed.

(** ** C21: a state_size that is not the dimension of the state *)
Lemma ccov_size n m s (Kk H P C : arr) : has [:: n; m] Kk -> has [:: m; n] H -> has [:: n; n] P ->
  s != n -> correct_cov (np_identity N s) Kk H P = Ok C -> s = 1 /\ 1 != n.
Proof.
move=> HK HH HP Hne; rewrite /correct_cov.
have [c1 -> /hasP [W1 S1]] := mm_has HK HH; rewrite /=.
rewrite /np_sub /np_bin S1 /bshape /= /bdim (negbTE Hne).
case: (eqVneq s 1) => [Es|Hs1]; first by move: Hne; rewrite Es.
case: (eqVneq n 1) => [En|Hn1] //=; rewrite /np_matmul /=.
by case/hasP: HP => _ ->; rewrite /= Hne.
Qed.

Lemma state_size_raises n m p s (self : kf N) Z U g : constructed self ->
  [/\ iterable self Z U, kf_size self = s, vec_layout n m (kf_xk self) & mat_layout n n (kf_Pk self)] ->
  0 < steps self Z U -> s != n ->
  row_layout n m p (srow_at self Z (control Z U) 0) ->
  exists g' e, kf_filter self Z U g = (g', Raise e).
Proof.
move=> Hc [Hit Hsz Hx HP] Hs Hne Hl; have HI := constructed_I Hc.
case E: (kf_filter self Z U g) => [g' [[st er]|e]]; last by exists g', e.
have [_ _ Hrow _] := filter_ok E.
have [x [P [Ebh Hst _ _]]] := Hrow 0 Hs.
move: Ebh; rewrite by_hand_rows //.
rewrite (take_nth (srow_at self Z (control Z U) 0)) ?size_rows_of // take0 /=.
rewrite (nth_map 0) ?size_iota // nth_iota // add0n /mbind HI Hsz /kf_step.
move: Hl => [/has_mat HA /has_mat HH Hcl [Hz HQ HR]].
have [y [C [Ep Hy HC]]] := predict_shape HA (vec_vecs Hx) Hcl (has_mat HP) HQ.
rewrite {1}/mbind {1}/mlift Ep; cbn [fst snd].
rewrite /kf_update /mbind /mlift.
have [S -> HS] := innov_cov_ok HH HC HR.
case: (gain_ok HS HH HC) => [[Kk -> HK]|->] //.
rewrite /append_gain.
have [zh -> Hzh] := mulvec HH Hy.
have Hzh' : (has [:: m] zh /\ has [:: n] y) \/ [/\ n = 1, m = 1, has [:: 1; 1] y & has [:: 1; 1] zh].
  by case: Hzh => [|[En Em H1 H2]]; [left|right; rewrite Em in H2].
have [y' -> Hy'] := correct_state_ok Hy HK Hz Hzh'.
case Ec: (correct_cov _ _ _ _) => [C'|] //; rewrite /mret => -[_ Ex _].
have [Es1 Hn1] := ccov_size HK HH HC Hne Ec.
move: Hst; rewrite Hsz storableE -Ex Es1 /=.
case: (vecsP Hy') => [/hasP [_ Sy]|[En]]; last by rewrite En in Hn1.
by rewrite /fits Sy /= /assign_ok /= eq_sym (negbTE Hn1).
Qed.

End S2.
