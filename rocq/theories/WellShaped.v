(** * WellShaped: documented shapes never fail except in the solver, any
    arithmetic *)
From Coq Require Import ZArith Lia.
From mathcomp Require Import ssreflect ssrfun ssrbool eqtype ssrnat seq.
From Verif Require Import Np NpLemmas Kf Ekf ApiSpec Loop Frame FilterLemmas FilterThms NpShapes
  SmoothLemmas.

Set Implicit Arguments.
Unset Strict Implicit.
Unset Printing Implicit Defensive.
Arguments Z.of_nat : simpl never.

Section WS.
Variable N : num.
Notation arr := (arr N).

(** The size fits the shape, and the shape is [sh]. *)
Definition has (sh : shape) (a : arr) : bool := wfs a && (shp a == sh).

Lemma hasP sh (a : arr) : reflect (wfs a /\ shp a = sh) (has sh a).
Proof. by apply: (iffP andP) => -[H /eqP]. Qed.

Lemma has_mk d sh f : has sh (@mk N d sh f).
Proof. by rewrite /has wfs_mk eqxx. Qed.

Lemma has_T m n (a : arr) : has [:: m; n] a -> has [:: n; m] (np_T a).
Proof. by case/hasP=> _ E; rewrite (T2 E) has_mk. Qed.

Lemma has_mat r c (a : arr) : mat_layout r c a -> has [:: r; c] a.
Proof. by case/andP=> /wf_wfs Hw Hs; apply/andP. Qed.

Lemma mm_has m k n (a b : arr) : has [:: m; k] a -> has [:: k; n] b ->
  exists2 c, np_matmul a b = Ok c & has [:: m; n] c.
Proof.
move=> /hasP [Ha Ea] /hasP [Hb Eb]; rewrite (matmul_mm Ha Hb Ea Eb).
eexists; first by []. exact: has_mk.
Qed.

Lemma mv_has m k (a b : arr) : has [:: m; k] a -> has [:: k] b ->
  exists2 c, np_matmul a b = Ok c & has [:: m] c.
Proof.
move=> /hasP [Ha Ea] /hasP [Hb Eb]; rewrite (matmul_mv Ha Hb Ea Eb).
eexists; first by []. exact: has_mk.
Qed.

Lemma bin_has fz fk (a b : arr) sh : bshape (shp a) (shp b) = Some sh ->
  exists2 c, np_bin fz fk a b = Ok c & has sh c.
Proof. by move=> E; rewrite (bin_ok _ _ E); eexists; first by []; exact: has_mk. Qed.

Lemma cov_has n (q : arr) : cov_layout n q -> bshape [:: n; n] (shp q) = Some [:: n; n].
Proof.
case/andP=> _ /or4P [] /eqP ->;
  [exact: bshape_same|exact: bshape_nil_r|exact: bshape_1|exact: bshape_11].
Qed.

Lemma addcov_has n (a q : arr) : has [:: n; n] a -> cov_layout n q ->
  exists2 c, np_add a q = Ok c & has [:: n; n] c.
Proof. by move=> /hasP [_ Ea] Hq; apply: bin_has; rewrite Ea; exact: cov_has. Qed.

(** Vectors: shape (n,), or (1,1) when n = m = 1. *)
Definition vecs (n m : nat) (x : arr) : bool :=
  wfs x && ((shp x == [:: n]) || [&& n == 1, m == 1 & shp x == [:: 1; 1]]).

Lemma vec_vecs n m (x : arr) : vec_layout n m x -> vecs n m x.
Proof. by rewrite /vec_layout /vecs => /andP [/wf_wfs -> ->]. Qed.

Lemma vecsP n m (x : arr) : vecs n m x ->
  has [:: n] x \/ [/\ n = 1, m = 1 & has [:: 1; 1] x].
Proof.
case/andP=> Hw /orP [Hs|/and3P [/eqP -> /eqP -> Hs]]; first by left; rewrite /has Hw.
by right; rewrite /has Hw.
Qed.

Lemma has_vecs n m (x : arr) : has [:: n] x -> vecs n m x.
Proof. by rewrite /vecs => /andP [-> ->]. Qed.

Lemma has_vecs11 (x : arr) : has [:: 1; 1] x -> vecs 1 1 x.
Proof. by rewrite /vecs => /andP [-> ->]; rewrite !eqxx /= orbT. Qed.

Lemma mulvec k n m (a x : arr) : has [:: k; n] a -> vecs n m x ->
  exists2 c, np_matmul a x = Ok c & (has [:: k] c /\ has [:: n] x) \/
    [/\ n = 1, m = 1, has [:: 1; 1] x & has [:: k; 1] c].
Proof.
move=> Ha /vecsP [Hx|[En Em Hx]].
  by have [c -> Hc] := mv_has Ha Hx; exists c; [|left].
by rewrite En in Ha; have [c -> Hc] := mm_has Ha Hx; exists c; [|right].
Qed.

Lemma project_state_ok n m p (A x b u : arr) : has [:: n; n] A -> vecs n m x ->
  ctl_layout n p b u ->
  exists2 y, project_state A x (Some b) (Some u) = Ok y & vecs n m y.
Proof.
move=> HA Hx Hc; rewrite /project_state /=.
have HAx : exists2 y, np_matmul A x = Ok y & vecs n m y.
  have [y -> [[Hy _]|[En Em _ Hy]]] := mulvec HA Hx; exists y => //; first exact: has_vecs.
  by rewrite En in Hy *; rewrite Em; exact: has_vecs11.
case Eb: (np_isnan_all b) => //=; case Eu: (np_isnan_all u) => //=.
move: Hc; rewrite /ctl_layout Eb Eu /= => /andP [Hb /andP [/wf_wfs Hu /eqP Su]].
have [y -> Hy] := HAx; rewrite /=.
have [w -> /hasP [Hw Sw]] : exists2 c, np_matmul b u = Ok c & has [:: n] c.
  by apply: (@mv_has n p); [exact: has_mat|apply/hasP].
rewrite /=.
case: (vecsP Hy) => [/hasP [_ Sy]|[En Em /hasP [_ Sy]]].
  have [c -> Hc] : exists2 c, np_add y w = Ok c & has [:: n] c.
    by apply: bin_has; rewrite Sy Sw bshape_same.
  by exists c => //; exact: has_vecs.
rewrite En in Sw *; rewrite Em.
have [c -> Hc] : exists2 c, np_add y w = Ok c & has [:: 1; 1] c.
  by apply: bin_has; rewrite Sy Sw.
by exists c => //; exact: has_vecs11.
Qed.

Lemma project_cov_ok n (A P Q : arr) : has [:: n; n] A -> has [:: n; n] P -> cov_layout n Q ->
  exists2 C, project_cov A P Q = Ok C & has [:: n; n] C.
Proof.
move=> HA HP HQ; rewrite /project_cov.
have [c1 -> H1] := mm_has HP (has_T HA); rewrite /=.
have [c2 -> H2] := mm_has HA H1; rewrite /=.
exact: addcov_has.
Qed.

Lemma innov_cov_ok n m (H P R : arr) : has [:: m; n] H -> has [:: n; n] P -> cov_layout m R ->
  exists2 S, innov_cov H P R = Ok S & has [:: m; m] S.
Proof.
move=> HH HP HR; rewrite /innov_cov.
have [c1 -> H1] := mm_has HP (has_T HH); rewrite /=.
have [c2 -> H2] := mm_has HH H1; rewrite /=.
exact: addcov_has.
Qed.

Lemma gain_ok n m (S H P : arr) : has [:: m; m] S -> has [:: m; n] H -> has [:: n; n] P ->
  (exists2 Kk, gain S H P = Ok Kk & has [:: n; m] Kk) \/ gain S H P = Raise LinAlgError.
Proof.
move=> HS HH HP; rewrite /gain.
have [c1 -> /hasP [W1 S1]] := mm_has HH (has_T HP); rewrite /=.
have /hasP [W2 S2] := has_T HS.
rewrite (solve_mm W2 W1 S2 S1); case: (ksolve _ _ _ _) => [g|] /=; last by right.
left; eexists; first by []. exact/has_T/has_mk.
Qed.

Lemma correct_state_ok n m (x Kk z zh : arr) : vecs n m x -> has [:: n; m] Kk ->
  obs_layout n m z -> (has [:: m] zh /\ has [:: n] x) \/ [/\ n = 1, m = 1, has [:: 1; 1] x & has [:: 1; 1] zh] ->
  exists2 y, correct_state x Kk z zh = Ok y & vecs n m y.
Proof.
move=> Hx HK /andP [_ Hz]; rewrite /correct_state => -[[Hzh Hxn]|[En Em Hx1 Hzh]].
- case/or3P: Hz => [/eqP Sz|/andP [/eqP Em /eqP Sz]|/and3P [/eqP En /eqP Em /eqP Sz]].
  + have [y -> Hy] : exists2 y, np_sub z zh = Ok y & has [:: m] y.
      by apply: bin_has; case/hasP: Hzh => _ ->; rewrite Sz bshape_same.
    have Hy1 : np_atleast_1d y = y by rewrite /np_atleast_1d; case/hasP: Hy => _ ->.
    rewrite /= Hy1; have [w -> Hw] := mv_has HK Hy; rewrite /=.
    have [c -> Hc] : exists2 c, np_add x w = Ok c & has [:: n] c.
      by apply: bin_has; case/hasP: Hxn => _ ->; case/hasP: Hw => _ ->; rewrite bshape_same.
    by exists c => //; exact: has_vecs.
  + have [y -> Hy] : exists2 y, np_sub z zh = Ok y & has [:: m] y.
      by apply: bin_has; case/hasP: Hzh => _ ->; rewrite Sz bshape_nil_l.
    have Hy1 : np_atleast_1d y = y by rewrite /np_atleast_1d; case/hasP: Hy => _ ->.
    rewrite /= Hy1; have [w -> Hw] := mv_has HK Hy; rewrite /=.
    have [c -> Hc] : exists2 c, np_add x w = Ok c & has [:: n] c.
      by apply: bin_has; case/hasP: Hxn => _ ->; case/hasP: Hw => _ ->; rewrite bshape_same.
    by exists c => //; exact: has_vecs.
  + rewrite En Em in HK Hzh Hxn *.
    have [y -> Hy] : exists2 y, np_sub z zh = Ok y & has [:: 1; 1] y.
      by apply: bin_has; case/hasP: Hzh => _ ->; rewrite Sz.
    have Hy1 : np_atleast_1d y = y by rewrite /np_atleast_1d; case/hasP: Hy => _ ->.
    rewrite /= Hy1; have [w -> Hw] := mm_has HK Hy; rewrite /=.
    have [c -> Hc] : exists2 c, np_add x w = Ok c & has [:: 1; 1] c.
      by apply: bin_has; case/hasP: Hxn => _ ->; case/hasP: Hw => _ ->.
    by exists c => //; exact: has_vecs11.
- rewrite En Em in HK Hx Hz *.
  have [y -> Hy] : exists2 y, np_sub z zh = Ok y & has [:: 1; 1] y.
    apply: bin_has; case/hasP: Hzh => _ ->.
    by case/or3P: Hz => [/eqP ->|/andP [_ /eqP ->]|/and3P [_ _ /eqP ->]].
  have Hy1 : np_atleast_1d y = y by rewrite /np_atleast_1d; case/hasP: Hy => _ ->.
  rewrite /= Hy1; have [w -> Hw] := mm_has HK Hy; rewrite /=.
  have [c -> Hc] : exists2 c, np_add x w = Ok c & has [:: 1; 1] c.
    by apply: bin_has; case/hasP: Hx1 => _ ->; case/hasP: Hw => _ ->.
  by exists c => //; exact: has_vecs11.
Qed.

Lemma correct_cov_ok n m (Kk H P : arr) : has [:: n; m] Kk -> has [:: m; n] H -> has [:: n; n] P ->
  exists2 C, correct_cov (np_identity N n) Kk H P = Ok C & has [:: n; n] C.
Proof.
move=> HK HH HP; rewrite /correct_cov.
have [c1 -> /hasP [W1 S1]] := mm_has HK HH; rewrite /=.
have [c2 -> H2] : exists2 c, np_sub (np_identity N n) c1 = Ok c & has [:: n; n] c.
  by apply: bin_has; rewrite S1 bshape_same.
exact: (mm_has H2 HP).
Qed.

Lemma predict_shape n m p (A x b u P Q : arr) : has [:: n; n] A -> vecs n m x ->
  ctl_layout n p b u -> has [:: n; n] P -> cov_layout n Q ->
  exists y C, [/\ kf_predict A x (Some b) (Some u) P Q = Ok (y, C), vecs n m y & has [:: n; n] C].
Proof.
move=> HA Hx Hc HP HQ; rewrite /kf_predict.
have [y -> Hy] := project_state_ok HA Hx Hc; rewrite /=.
by have [C -> HC] := project_cov_ok HA HP HQ; exists y, C.
Qed.

Lemma update_shape n m (H x P z R : arr) g : has [:: m; n] H -> vecs n m x -> has [:: n; n] P ->
  obs_layout n m z -> cov_layout m R ->
  (exists Kk y C, [/\ kf_update (np_identity N n) H x P z R g = (rcons g Kk, Ok (y, C)),
      has [:: n; m] Kk, vecs n m y & has [:: n; n] C]) \/
  kf_update (np_identity N n) H x P z R g = (g, Raise LinAlgError).
Proof.
move=> HH Hx HP Hz HR; rewrite /kf_update /mbind /mlift.
have [S -> HS] := innov_cov_ok HH HP HR.
case: (gain_ok HS HH HP) => [[Kk -> HK]|->]; last by right.
left; rewrite /append_gain.
have [zh -> Hzh] := mulvec HH Hx.
have Hzh' : (has [:: m] zh /\ has [:: n] x) \/ [/\ n = 1, m = 1, has [:: 1; 1] x & has [:: 1; 1] zh].
  by case: Hzh => [|[En Em H1 H2]]; [left|right; rewrite Em in H2].
have [y -> Hy] := correct_state_ok Hx HK Hz Hzh'.
have [C -> HC] := correct_cov_ok HK HH HP.
by exists Kk, y, C.
Qed.

Definition row_layout n m p (s : srow N) : Prop :=
  [/\ mat_layout n n (rA s), mat_layout m n (rH s), ctl_layout n p (rB s) (rU s) &
   [/\ obs_layout n m (rZ s), cov_layout n (rQ s) & cov_layout m (rR s)]].

Lemma step_shape n m p s xP g : row_layout n m p s -> vecs n m xP.1 -> has [:: n; n] xP.2 ->
  (exists Kk y C, [/\ kf_step (np_identity N n) s xP g = (rcons g Kk, Ok (y, C)),
      has [:: n; m] Kk, vecs n m y & has [:: n; n] C]) \/
  kf_step (np_identity N n) s xP g = (g, Raise LinAlgError).
Proof.
move=> [/has_mat HA /has_mat HH Hc [Hz HQ HR]] Hx HP.
have [y [C [E Hy HC]]] := predict_shape HA Hx Hc HP HQ.
have -> : kf_step (np_identity N n) s xP g =
          kf_update (np_identity N n) (rH s) y C (rZ s) (rR s) g.
  by rewrite /kf_step {1}/mbind /mlift E.
exact: update_shape.
Qed.

(** Vectors and matrices of these shapes can be stored. *)
Lemma storable_ok n m (y C : arr) : vecs n m y -> has [:: n; n] C -> storable n (y, C).
Proof.
move=> Hy /hasP [_ SC]; rewrite storableE /= -{1}SC fits_id andbT.
case: (vecsP Hy) => [/hasP [_ Sy]|[-> _ /hasP [_ Sy]]]; first by rewrite -Sy fits_id.
by rewrite /fits Sy.
Qed.

Lemma iter_shape n m p rows xP g : (forall i s0, i < size rows -> row_layout n m p (nth s0 rows i)) ->
  vecs n m xP.1 -> has [:: n; n] xP.2 ->
  (exists g' y C, [/\ iter_rows (kf_step (np_identity N n)) rows xP g = (g', Ok (y, C)),
     vecs n m y & has [:: n; n] C]) \/
  exists g', iter_rows (kf_step (np_identity N n)) rows xP g = (g', Raise LinAlgError).
Proof.
elim: rows xP g => [|s rows IH] xP g Hr Hx HP /=.
  by left; exists g, xP.1, xP.2; split=> //; rewrite /mret -surjective_pairing.
rewrite /mbind.
case: (step_shape g (Hr 0 s isT) Hx HP) => [[Kk [y [C [-> HK Hy HC]]]]|->]; last by right; exists g.
by apply: IH => // i s0 Hi; exact: (Hr i.+1).
Qed.

Lemma well_shaped_rows n m p self Z U : @well_shaped N n m p self Z U ->
  forall i s0, i < size (rows_of self Z U) -> row_layout n m p (nth s0 (rows_of self Z U) i).
Proof.
move=> [_ _ _ _ H] i s0; rewrite size_rows_of => Hi.
by rewrite /rows_of (nth_map 0) ?size_iota // nth_iota //; exact: H.
Qed.

Lemma well_shaped_raises n m p (self : kf N) Z U g : constructed self ->
  well_shaped n m p self Z U ->
  (exists g' st er, kf_filter self Z U g = (g', Ok (st, er))) \/
  exists g', kf_filter self Z U g = (g', Raise LinAlgError).
Proof.
move=> Hc Hw; have HI := constructed_I Hc; have [Hit Hn Hx HP _] := Hw.
case E: (kf_filter self Z U g) => [g' [[st er]|e]]; first by left; exists g', st, er.
right; exists g'; congr (_, Raise _).
have [j [Hj Hpre Hend]] := filter_raises Hit E.
move: Hend; rewrite by_hand_rows // HI Hn.
have Hrows : forall i s0, i < size (take j.+1 (rows_of self Z U)) ->
    row_layout n m p (nth s0 (take j.+1 (rows_of self Z U)) i).
  move=> i s0; rewrite size_takel ?size_rows_of // => Hi; rewrite nth_take //.
  by apply: (well_shaped_rows Hw); rewrite size_rows_of (leq_trans Hi).
case: (iter_shape (xP := (kf_xk self, kf_Pk self)) g Hrows (vec_vecs Hx) (has_mat HP)) => [[g1 [y [C [-> Hy HC]]]]|[g1 ->]].
  by case=> [[]|[_ [xP [[_ <-]]]]] //; rewrite (storable_ok Hy HC).
by case=> [[]|[_ [xP []]]].
Qed.

End WS.
