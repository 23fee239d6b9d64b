(** * Refine: the code on exact runs computes the textbook recursion *)
From Coq Require Import ZArith.
From mathcomp Require Import all_ssreflect all_algebra.
From Verif Require Import Np NpLemmas Kf ApiSpec Loop Frame FilterLemmas FilterThms NpShapes WellShaped
  Exact Repr Textbook RunSpec.

Set Implicit Arguments.
Unset Strict Implicit.
Unset Printing Implicit Defensive.
Import GRing.Theory Num.Theory.
Local Open Scope ring_scope.

Section Refine.
Variable F : realFieldType.
Variable oracle : oracle_type F.
Variable n2i : Z.
Notation N := (exact oracle n2i).
Notation arr := (arr N).

Lemma np_addE (a b : arr) : np_add a b = @np_bin N Z.add (olift2 +%R) a b. Proof. by []. Qed.
Lemma np_subE (a b : arr) : np_sub a b = @np_bin N Z.sub (olift2 (fun x y => x - y)) a b. Proof. by []. Qed.

(** ** Vectors of shape (n,), or (1,1) *)
Definition vsh (n m : nat) (sh : shape) : Prop := sh = [:: n] \/ [/\ n = 1%N, m = 1%N & sh = [:: 1%N; 1%N]].
Definition vrp n m (x : arr) (X : 'cV[F]_n) : Prop := exists2 sh, vsh n m sh & rp sh x X.
Definition vrpf n m (x : arr) (X : 'cV[F]_n) : Prop := exists2 sh, vsh n m sh & rpf sh x X.

Lemma vrpfW n m x (X : 'cV[F]_n) : vrpf m x X -> vrp m x X /\ dt x = DFloat.
Proof. by case=> sh H [R D]; split=> //; exists sh. Qed.

Lemma vrp_vecs n m x (X : 'cV[F]_n) : vrp m x X -> vecs n m x.
Proof.
case=> sh [Es|[En Em Es]] /rp_has /hasP [W E]; subst.
  by rewrite /vecs W E eqxx.
by rewrite /vecs W E.
Qed.

(** Single-element operands. *)
Lemma bidx_single (sh : shape) ix (a : arr) : nelem sh = 1%N -> shp a = sh -> wfs a ->
  valid sh ix -> get a ix = nth (VI 0) (dat a) 0.
Proof.
move=> E1 Ea /eqP W Hv; rewrite /get Ea; have := offset_lt Hv; rewrite E1.
by case: (offset _ _).
Qed.

Lemma rp_bin_single fz (op : F -> F -> F) (a b : arr) m n (A B : 'M[F]_(m, n)) sa sb sh : (m * n = 1)%N ->
  rp sa a A -> rp sb b B -> promote (dt a) (dt b) = DFloat ->
  bshape sa sb = Some sh -> nelem sh = 1%N ->
  exists2 c, @np_bin N fz (olift2 op) a b = Ok c & rpf sh c (mx_op op A B).
Proof.
move=> Hmn [] Wa Ea Na Ca <- [] Wb Eb Nb Cb <- Hd Hs Hn.
have Hs' : bshape (shp a) (shp b) = Some sh by rewrite Ea Eb.
rewrite (bin_float fz op Wa Wb Ca Cb Hd Hs').
eexists; first by reflexivity.
split=> //; split=> //; [exact: wf_mkF|by rewrite Hn|exact: clean_mk|].
apply/matrixP => i j; rewrite [LHS]mxE [RHS]mxE !mxE.
have [i0 j0] : (i = 0%N :> nat) /\ (j = 0%N :> nat).
  move/eqP: Hmn; rewrite muln_eq1 => /andP [/eqP Em /eqP En]; subst m n.
  by rewrite !ord1.
rewrite i0 j0 mul0n add0n.
have [ix Hv] : exists ix, valid sh ix.
  have : (0 < size (indices sh))%N by rewrite size_indices Hn.
  by case E: (indices sh) => [|ix s] // _; exists ix; rewrite -mem_indices E mem_head.
rewrite -(@bidx_single sh ix _ Hn _ _ Hv) ?wfs_mk // get_mk // fvalS.
have Hva := valid_bidx_l Hs' Hv; have Hvb := valid_bidx_r Hs' Hv.
by rewrite (bidx_single _ Ea (wf_wfs Wa)) ?(bidx_single _ Eb (wf_wfs Wb)) -?Ea -?Eb // ?Ea ?Eb ?Na ?Nb.
Qed.

Lemma nelem11 : nelem [:: 1%N; 1%N] = 1%N. Proof. by []. Qed.

Lemma vrp_bin n m fz (op : F -> F -> F) (x y : arr) (X Y : 'cV[F]_n) : vrp m x X -> vrp m y Y ->
  promote (dt x) (dt y) = DFloat ->
  exists2 c, @np_bin N fz (olift2 op) x y = Ok c & vrpf m c (mx_op op X Y).
Proof.
case=> sa Ha Ra [sb Hb Rb] Hd; case: Ha Ra => [Ea|[En Em Ea]] Ra; case: Hb Rb => [Eb|[En' Em' Eb]] Rb; subst.
- by have [c E Rc] := rp_bin1 fz op Ra Rb Hd; exists c => //; exists [:: n] => //; left.
- have [c E Rc] := rp_bin_single fz op (muln1 1%N) Ra Rb Hd (erefl _) nelem11.
  by exists c => //; exists [:: 1%N; 1%N] => //; right.
- have [c E Rc] := rp_bin_single fz op (muln1 1%N) Ra Rb Hd (erefl _) nelem11.
  by exists c => //; exists [:: 1%N; 1%N] => //; right.
have [c E Rc] := rp_bin_single fz op (muln1 1%N) Ra Rb Hd (erefl _) nelem11.
by exists c => //; exists [:: 1%N; 1%N] => //; right.
Qed.

Lemma vrp_add n m (x y : arr) (X Y : 'cV[F]_n) : vrp m x X -> vrp m y Y ->
  promote (dt x) (dt y) = DFloat ->
  exists2 c, np_add x y = Ok c & vrpf m c (X + Y).
Proof. by move=> *; rewrite -mx_op_add; apply: vrp_bin. Qed.

(** Matrix times vector. *)
Lemma vrp_mul k n m (a x : arr) (A : 'M_(k, n)) (X : 'cV[F]_n) :
  rp [:: k; n] a A -> vrp m x X -> promote (dt a) (dt x) = DFloat ->
  exists2 c, np_matmul a x = Ok c &
    rpf [:: k] c (A *m X) \/ [/\ n = 1%N, m = 1%N & rpf [:: k; 1%N] c (A *m X)].
Proof.
move=> Ra [sh [E|[En Em E]] Rx] Hd; subst.
  by have [c E Rc] := rp_mv Ra Rx Hd; exists c => //; left.
by have [c E Rc] := rp_mm Ra Rx Hd; exists c => //; right.
Qed.

Lemma vrp_mulsq n m (a x : arr) (A : 'M_n) (X : 'cV[F]_n) :
  rp [:: n; n] a A -> vrp m x X -> promote (dt a) (dt x) = DFloat ->
  exists2 c, np_matmul a x = Ok c & vrpf m c (A *m X).
Proof.
move=> Ra Rx Hd; have [c E Rc] := vrp_mul Ra Rx Hd; exists c => //.
case: Rc => [R|[En Em R]]; first by exists [:: n] => //; left.
by exists [:: n; 1%N] => //; right; rewrite En.
Qed.

(** ** Matrix layouts of the arguments *)
Lemma rp_mat r c (a : arr) : mat_layout r c a -> clean a -> rp [:: r; c] a (mx r c a).
Proof. by case/andP=> W /eqP E C; split=> //; rewrite /= muln1. Qed.

Lemma vrp_vec n m (x : arr) : vec_layout n m x -> clean x -> vrp m x (mx n 1 x).
Proof.
case/andP=> W /orP [/eqP E|/and3P [/eqP En /eqP Em /eqP E]] C.
  by exists [:: n]; [left|split=> //; rewrite /= !muln1].
by subst; exists [:: 1%N; 1%N]; [right|split].
Qed.

(** The control term. *)
Definition ctl n p (b u : arr) : 'cV[F]_n :=
  if np_isnan_all b || np_isnan_all u then 0 else mx n p b *m mx p 1 u.

Lemma project_state_rp n m p (A x b u : arr) (MA : 'M_n) (X : 'cV[F]_n) :
  rp [:: n; n] A MA -> vrp m x X -> promote (dt A) (dt x) = DFloat ->
  ctl_layout n p b u -> [|| np_isnan_all b, np_isnan_all u | clean b && clean u] ->
  dt b = DFloat \/ dt u = DFloat ->
  exists2 y, project_state A x (Some b) (Some u) = Ok y & vrpf m y (MA *m X + ctl n p b u).
Proof.
move=> RA Rx Hd Hl Hc Hbu; have [c Ec Rc] := vrp_mulsq RA Rx Hd.
rewrite /project_state /is_nan_all; cbn [rbind].
case Hb: (np_isnan_all b); first by exists c => //; rewrite /ctl Hb addr0.
case Hu: (np_isnan_all u); first by exists c => //; rewrite /ctl Hu orbT addr0.
cbn [rbind]; rewrite Ec; cbn [rbind].
move: Hl Hc; rewrite /ctl_layout Hb Hu /= => /andP [Lb /andP [Wu /eqP Eu]] /andP [Cb Cu].
have Ru : rp [:: p] u (mx p 1 u) by split=> //; rewrite /= !muln1.
have Hp : promote (dt b) (dt u) = DFloat by case: Hbu => -> //; case: (dt b).
have [w Ew [Rw Dw]] := rp_mv (rp_mat Lb Cb) Ru Hp; rewrite Ew; cbn [rbind].
have [Rc' Dc] := vrpfW Rc.
have Rw' : vrp m w (mx n p b *m mx p 1 u) by exists [:: n] => //; left.
have Hp' : promote (dt c) (dt w) = DFloat by rewrite Dc.
have [y Ey Ry] := vrp_add Rc' Rw' Hp'.
by exists y => //; rewrite /ctl Hb Hu.
Qed.

Lemma project_cov_rp n (A P Q : arr) (MA MP : 'M[F]_n) :
  rp [:: n; n] A MA -> rp [:: n; n] P MP -> promote (dt P) (dt A) = DFloat ->
  cov_layout n Q -> clean Q ->
  exists2 C, project_cov A P Q = Ok C & rpf [:: n; n] C (MA *m MP *m MA^T + cov n Q).
Proof.
move=> RA RP Hd HQ CQ; rewrite /project_cov.
have [c -> [Rc Dc]] := rp_mm RP (rp_T RA) Hd; cbn [rbind].
have [e -> [Re De]] : exists2 e, np_matmul A c = Ok e & rpf [:: n; n] e (MA *m (MP *m MA^T)).
  by apply: rp_mm => //; rewrite Dc; case: (dt A).
cbn [rbind]; rewrite np_addE; have [C -> RC] := rp_bincov Z.add +%R Re HQ CQ De.
by exists C => //; rewrite -mulmxA -mx_op_add.
Qed.

Lemma innov_cov_rp n m (H P R : arr) (MH : 'M[F]_(m, n)) (MP : 'M[F]_n) :
  rp [:: m; n] H MH -> rpf [:: n; n] P MP -> cov_layout m R -> clean R ->
  exists2 S, innov_cov H P R = Ok S & rpf [:: m; m] S (MH *m MP *m MH^T + cov m R).
Proof.
move=> RH [RP DP] HR CR; rewrite /innov_cov.
have [c -> [Rc Dc]] : exists2 c, np_matmul P (np_T H) = Ok c & rpf [:: n; m] c (MP *m MH^T).
  by apply: rp_mm => //; [exact: rp_T|rewrite DP].
cbn [rbind]; have [e -> [Re De]] : exists2 e, np_matmul H c = Ok e & rpf [:: m; m] e (MH *m (MP *m MH^T)).
  by apply: rp_mm => //; rewrite Dc; case: (dt H).
cbn [rbind]; rewrite np_addE; have [C -> RC] := rp_bincov Z.add +%R Re HR CR De.
by exists C => //; rewrite -mulmxA -mx_op_add.
Qed.

Lemma gain_rp n m (S H P : arr) (MS : 'M[F]_m) (MH : 'M[F]_(m, n)) (MP : 'M[F]_n) :
  rpf [:: m; m] S MS -> rp [:: m; n] H MH -> rpf [:: n; n] P MP ->
  if MS \in unitmx then exists2 Kk, gain S H P = Ok Kk & rpf [:: n; m] Kk (MP *m MH^T *m invmx MS)
  else gain S H P = Raise LinAlgError.
Proof.
move=> [RS DS] RH [RP DP]; rewrite /gain.
have [c -> [Rc Dc]] : exists2 c, np_matmul H (np_T P) = Ok c & rpf [:: m; n] c (MH *m MP^T).
  by apply: rp_mm => //; [exact: rp_T|rewrite dt_T DP; case: (dt H)].
cbn [rbind]; have := rp_solve (rp_T RS) Rc; rewrite unitmx_tr; case: ifP => _; last by move=> ->.
case=> X -> [RX DX]; cbn [rbind]; exists (np_T X) => //.
split; last by rewrite dt_T.
have -> : MP *m MH^T *m invmx MS = (invmx MS^T *m (MH *m MP^T))^T.
  by rewrite !trmx_mul trmxK trmx_inv trmxK.
exact: rp_T.
Qed.

(** z - zhat, made at least one-dimensional. *)
Lemma residual_rp n m (z zh : arr) (ZH : 'cV[F]_m) : obs_layout n m z -> clean z ->
  rpf [:: m] zh ZH \/ [/\ n = 1%N, m = 1%N & rpf [:: m; 1%N] zh ZH] ->
  exists2 y, np_sub z zh = Ok y &
    rpf [:: m] (np_atleast_1d y) (mx m 1 z - ZH) \/
    [/\ n = 1%N, m = 1%N & rpf [:: 1%N; 1%N] (np_atleast_1d y) (mx m 1 z - ZH)].
Proof.
case/andP=> Wz Hz Cz Hzh; rewrite np_subE -mx_op_sub.
case/or3P: Hz => [/eqP Ez|/andP [/eqP Em /eqP Ez]|/and3P [/eqP En /eqP Em /eqP Ez]].
- have Rz : rp [:: m] z (mx m 1 z) by split=> //; rewrite /= !muln1.
  case: Hzh => [[R D]|[En Em [R D]]].
    have Hp : promote (dt z) (dt zh) = DFloat by rewrite D; case: (dt z).
    have [y -> [[Wy Ey Ny Cy My] Dy]] := rp_bin1 Z.sub (fun a b => a - b) Rz R Hp.
    by exists y => //; left; rewrite /np_atleast_1d Ey.
  have Hp : promote (dt z) (dt zh) = DFloat by rewrite D; case: (dt z).
  subst; have [y -> [[Wy Ey Ny Cy My] Dy]] := rp_bin_single Z.sub (fun a b => a - b) (muln1 1%N) Rz R Hp (erefl _) nelem11.
  by exists y => //; right; split=> //; rewrite /np_atleast_1d Ey.
- subst; have Rz : rp [::] z (mx 1 1 z) by split.
  case: Hzh => [[R D]|[En _ [R D]]].
    have Hp : promote (dt z) (dt zh) = DFloat by rewrite D; case: (dt z).
    have [y -> [[Wy Ey Ny Cy My] Dy]] := rp_bin_single Z.sub (fun a b => a - b) (muln1 1%N) Rz R Hp (erefl _) (muln1 1%N).
    by exists y => //; left; rewrite /np_atleast_1d Ey.
  have Hp : promote (dt z) (dt zh) = DFloat by rewrite D; case: (dt z).
  subst; have [y -> [[Wy Ey Ny Cy My] Dy]] := rp_bin_single Z.sub (fun a b => a - b) (muln1 1%N) Rz R Hp (erefl _) nelem11.
  by exists y => //; right; split=> //; rewrite /np_atleast_1d Ey.
subst; have Rz : rp [:: 1%N; 1%N] z (mx 1 1 z) by split.
case: Hzh => [[R D]|[_ _ [R D]]].
  have Hp : promote (dt z) (dt zh) = DFloat by rewrite D; case: (dt z).
  have [y -> [[Wy Ey Ny Cy My] Dy]] := rp_bin_single Z.sub (fun a b => a - b) (muln1 1%N) Rz R Hp (erefl _) nelem11.
  by exists y => //; right; split=> //; rewrite /np_atleast_1d Ey.
have Hp : promote (dt z) (dt zh) = DFloat by rewrite D; case: (dt z).
have [y -> [[Wy Ey Ny Cy My] Dy]] := rp_bin_single Z.sub (fun a b => a - b) (muln1 1%N) Rz R Hp (erefl _) nelem11.
by exists y => //; right; split=> //; rewrite /np_atleast_1d Ey.
Qed.

Lemma correct_state_rp n m (x Kk z zh : arr) (X : 'cV[F]_n) (MK : 'M[F]_(n, m)) (ZH : 'cV[F]_m) :
  vrp m x X -> rpf [:: n; m] Kk MK -> obs_layout n m z -> clean z ->
  rpf [:: m] zh ZH \/ [/\ n = 1%N, m = 1%N & rpf [:: m; 1%N] zh ZH] ->
  exists2 y, correct_state x Kk z zh = Ok y & vrpf m y (X + MK *m (mx m 1 z - ZH)).
Proof.
move=> Rx [RK DK] Hz Cz Hzh; rewrite /correct_state.
have [y -> Ry] := residual_rp Hz Cz Hzh; cbn [rbind].
have [w -> [Rw Dw]] : exists2 w, np_matmul Kk (np_atleast_1d y) = Ok w &
    vrp m w (MK *m (mx m 1 z - ZH)) /\ dt w = DFloat.
  case: Ry => [[R D]|[En Em [R D]]].
    have Hp : promote (dt Kk) (dt (np_atleast_1d y)) = DFloat by rewrite DK.
    by have [w E [Rw Dw]] := rp_mv RK R Hp; exists w => //; split=> //; exists [:: n] => //; left.
  have Hp : promote (dt Kk) (dt (np_atleast_1d y)) = DFloat by rewrite DK.
  subst; have [w E [Rw Dw]] := rp_mm RK R Hp; exists w => //; split=> //.
  by exists [:: 1%N; 1%N] => //; right.
cbn [rbind]; apply: vrp_add => //.
by rewrite Dw; case: (dt x).
Qed.

Lemma correct_cov_rp n m (Kk H P : arr) (MK : 'M[F]_(n, m)) (MH : 'M[F]_(m, n)) (MP : 'M[F]_n) :
  rpf [:: n; m] Kk MK -> rp [:: m; n] H MH -> rpf [:: n; n] P MP ->
  exists2 C, correct_cov (np_identity N n) Kk H P = Ok C &
    rpf [:: n; n] C ((1%:M - MK *m MH) *m MP).
Proof.
move=> [RK DK] RH [RP DP]; rewrite /correct_cov.
have [c -> [Rc Dc]] : exists2 c, np_matmul Kk H = Ok c & rpf [:: n; n] c (MK *m MH).
  by apply: rp_mm => //; rewrite DK.
cbn [rbind]; have [RI DI] := rp_identity oracle n2i n.
rewrite np_subE; have [d -> [Rd Dd]] := rp_bin2 Z.sub (fun a b => a - b) RI Rc (erefl DFloat).
cbn [rbind]; rewrite -mx_op_sub; apply: rp_mm => //.
by rewrite Dd.
Qed.

(** ** predict and update *)
Lemma predict_rp n m p (A x b u P Q : arr) (MA MP : 'M[F]_n) (X : 'cV[F]_n) :
  rp [:: n; n] A MA -> vrp m x X -> rp [:: n; n] P MP ->
  dt A = DFloat \/ (dt x = DFloat /\ dt P = DFloat) ->
  ctl_layout n p b u -> [|| np_isnan_all b, np_isnan_all u | clean b && clean u] ->
  dt b = DFloat \/ dt u = DFloat -> cov_layout n Q -> clean Q ->
  exists y C, [/\ kf_predict A x (Some b) (Some u) P Q = Ok (y, C),
    vrpf m y (MA *m X + ctl n p b u) & rpf [:: n; n] C (MA *m MP *m MA^T + cov n Q)].
Proof.
move=> RA Rx RP Hd Hl Hc Hbu HQ CQ; rewrite /kf_predict.
have H1 : promote (dt A) (dt x) = DFloat by case: Hd => [->|[-> _]] //; case: (dt A).
have H2 : promote (dt P) (dt A) = DFloat by case: Hd => [->|[_ ->]] //; case: (dt P).
have [y -> Ry] := project_state_rp RA Rx H1 Hl Hc Hbu; cbn [rbind].
have [C -> RC] := project_cov_rp RA RP H2 HQ CQ; cbn [rbind].
by exists y, C.
Qed.

Lemma update_rp n m (H x P z R : arr) (MH : 'M[F]_(m, n)) (MP : 'M[F]_n) (X : 'cV[F]_n) g :
  rp [:: m; n] H MH -> vrpf m x X -> rpf [:: n; n] P MP ->
  obs_layout n m z -> clean z -> cov_layout m R -> clean R ->
  let S := MH *m MP *m MH^T + cov m R in
  let K := MP *m MH^T *m invmx S in
  if S \in unitmx then
    exists Kk y C, [/\ kf_update (np_identity N n) H x P z R g = (rcons g Kk, Ok (y, C)),
      rpf [:: n; m] Kk K, vrpf m y (X + K *m (mx m 1 z - MH *m X)) &
      rpf [:: n; n] C ((1%:M - K *m MH) *m MP)]
  else kf_update (np_identity N n) H x P z R g = (g, Raise LinAlgError).
Proof.
move=> RH /vrpfW [Rx Dx] RP Hz Cz HR CR S K.
rewrite /kf_update /mbind /mlift.
have [S' -> RS] := innov_cov_rp RH RP HR CR.
have := gain_rp RS RH RP; rewrite -/S; case: ifP => _; last by move=> ->.
case=> Kk -> RK; rewrite /append_gain.
have Hp : promote (dt H) (dt x) = DFloat by rewrite Dx; case: (dt H).
have [zh -> Rzh] := vrp_mul RH Rx Hp.
have [y -> Ry] := correct_state_rp Rx RK Hz Cz Rzh.
have [C -> RC] := correct_cov_rp RK RH RP.
by exists Kk, y, C.
Qed.

(** ** Exact runs *)
Section Run.
Variables (n m p : nat) (self : kf N) (Z : arr) (U : option arr) (g : seq arr).
Hypothesis Hrun : exact_run n m p self Z U.
Let s := model_of n m p self Z U.
Notation T := (steps self Z U).

(** After k steps. *)
Lemma iter_rp k : (k <= T)%N ->
  (exists g' x P,
     [/\ by_hand self Z (control Z U) k g = (g', Ok (x, P)),
         [/\ vrp m x (post_x s k), rp [:: n; n] P (post_P s k) &
             (0 < k)%N -> dt x = DFloat /\ dt P = DFloat],
         (forall j, (j < k)%N -> innov s j \in unitmx),
         size g' = (size g + k)%N /\ take (size g) g' = g &
         forall j, (j < k)%N -> rpf [:: n; m] (nth (np_zeros N [::]) g' (size g + j)) (gain_at s j)]) \/
  (exists j g', [/\ (j < k)%N, innov s j \notin unitmx,
     (forall i, (i < j)%N -> innov s i \in unitmx),
     by_hand self Z (control Z U) k g = (g', Raise LinAlgError) &
     size g' = (size g + j)%N /\ take (size g) g' = g /\
     forall i, (i < j)%N -> rpf [:: n; m] (nth (np_zeros N [::]) g' (size g + i)) (gain_at s i)]).
Proof.
have [Hc Hw Cx CP [Hcl Hct Hd Hbu]] := Hrun; have [Hit Hn Hx HP Hl] := Hw.
elim: k => [|k IH] Hk.
  left; exists g, (kf_xk self), (kf_Pk self); split=> //.
    by split=> //; [exact: vrp_vec|exact: rp_mat].
  by rewrite addn0 take_size.
rewrite by_hand_rows // (take_nth (srow_at self Z (control Z U) 0)) ?size_rows_of // iter_rows_rcons.
rewrite (nth_map 0%N) ?size_iota // nth_iota // add0n /mbind -by_hand_rows ?(ltnW Hk) //.
case: (IH (ltnW Hk)) => [[g1 [x [P [E [Rx RP Df] Hu [Hg Hg'] Hgn]]]]|[j [g1 [Hj Hnu Hpre E Hg]]]]; rewrite E; last first.
  by right; exists j, g1; split=> //; exact: ltnW.
have [LA LH LB [LZ LQ LR]] := Hl _ Hk; have [CA CH CQ CR CZ] := Hcl _ Hk.
have Hd' : dt (row (kf_A self) k) = DFloat \/ (dt x = DFloat /\ dt P = DFloat).
  case: k {IH Hk Rx RP Hu Hg Hgn LA LH LB LZ LQ LR CA CH CQ CR CZ} Df E => [_ [_ <- <-]|k Df E].
    by rewrite dt_row.
  by right; apply: Df.
have Hb' : dt (row (kf_B self) k) = DFloat \/ dt (row (control Z U) k) = DFloat by rewrite !dt_row.
have [y [C [Ep Ry RC]]] := predict_rp (rp_mat LA CA) Rx RP Hd' LB (Hct _ Hk) Hb' LQ CQ.
rewrite /kf_step /mbind /mlift; cbn [rA rB rU rQ rH rZ rR srow_at fst snd]; rewrite Ep.
have := update_rp g1 (rp_mat LH CH) Ry RC LZ CZ LR CR.
rewrite (constructed_I Hc) Hn; cbv zeta.
rewrite [_ + cov m (row (kf_R self) k)](_ : _ = innov s k) //; case: ifP => HS; last first.
  move=> ->; right; exists k, g1; split=> //; first by rewrite HS.
case=> Kk [y' [C' [-> RK Ry' RC']]].
left; exists (rcons g1 Kk), y', C'; split=> //.
- case/vrpfW: Ry' => Ry' Dy'; case: RC' => RC' DC'.
  by split.
- move=> j; rewrite ltnS leq_eqVlt => /orP [/eqP ->|Hj] //; exact: Hu.
- rewrite size_rcons Hg addnS; split=> //.
  by rewrite -cats1 takel_cat // Hg leq_addr.
move=> j; rewrite ltnS leq_eqVlt => /orP [/eqP ->|Hj].
  by rewrite -Hg nth_rcons ltnn eqxx.
by rewrite nth_rcons Hg ltn_add2l Hj; exact: Hgn.
Qed.

End Run.
End Refine.
