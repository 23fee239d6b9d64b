(** * Props31: C97: two useful subclasses, in exact arithmetic *)
From Coq Require Import ZArith.
From mathcomp Require Import all_ssreflect all_algebra.
From Verif Require Import Np NpLemmas Kf ApiSpec Loop Frame FilterLemmas FilterThms SmoothLemmas NpShapes WellShaped
  Exact Repr Textbook RunSpec Refine Refine2 Build EndSpec EndToEnd Loewner KalmanAlg TextbookThms ExCases Sub SubExact.

Set Implicit Arguments.
Unset Strict Implicit.
Unset Printing Implicit Defensive.
Import GRing.Theory Num.Theory.
Local Open Scope ring_scope.

Lemma joseph_any (F : realFieldType) n m (P : 'M[F]_n) (H : 'M[F]_(m, n)) R : ucov P H R \in unitmx ->
  let K := ugain P H R in
  (1%:M - K *m H) *m P *m (1%:M - K *m H)^T + K *m R *m K^T = upost P H R.
Proof.
move=> hS K; have KS : K *m ucov P H R = P *m H^T by rewrite /K /ugain mulmxKV.
have E : (1%:M - K *m H) *m P *m H^T = K *m R.
  by rewrite mulmxBl mul1mx mulmxBl -KS /ucov mulmxDr !mulmxA addrC addKr.
rewrite linearB /= trmx1 trmx_mul mulmxBr mulmx1 mulmxA E /upost -/K.
by rewrite subrK.
Qed.

Section C97.
Variable F : realFieldType.
Variable oracle : oracle_type F.
Variable n2i : Z.
Notation N := (exact oracle n2i).
Notation arr := (arr N).
Notation mat := (mx_arr oracle n2i).

(** ** Missing observations

      def update(self, Hk, xk, Pk, zk, Rk):
          if np.isnan(zk).all():
              return xk, Pk
          return super().update(Hk, xk, Pk, zk, Rk) *)
Definition skips_missing : cls N (kf N) := Cls
  (fun Ak xk Bk uk Pk Qk o => kf_call o (CPredict Ak xk Bk uk Pk Qk))
  (fun Hk xk Pk zk Rk o => if np_isnan_all zk then (o, Ok (xk, Pk)) else kf_call o (CUpdate Hk xk Pk zk Rk)).

Definition missing (Z : arr) (k : nat) : bool := np_isnan_all (row Z k).

(** [o'] is a KalmanFilter with the same attributes as [o], except that its sensors
    are blind where the observation in Z is missing; Z' has any numbers there. *)
Definition blind_where_missing n m (o o' : kf N) (Z Z' : arr) (U U' : option arr) : Prop :=
  [/\ [/\ kf_A o = kf_A o', kf_B o = kf_B o', kf_Q o = kf_Q o', kf_xk o = kf_xk o' & kf_Pk o = kf_Pk o'],
      kf_size o = n /\ kf_I o = np_identity N n,
      control Z U = control Z' U',
      [/\ nrows Z = nrows Z', nrows (kf_H o) = nrows (kf_H o'), nrows (kf_R o) = nrows (kf_R o') &
          [/\ sized Z, sized (kf_H o) & sized (kf_R o)]] &
      forall k, (k < steps o' Z' U')%N ->
        if missing Z k then mx m n (row (kf_H o') k) = 0 /\ cov m (row (kf_R o') k) \in unitmx
        else [/\ row (kf_H o) k = row (kf_H o') k, row (kf_R o) k = row (kf_R o') k & row Z k = row Z' k]].

Lemma inherits_kf_call (c : cls N (kf N)) :
  c_predict c = (fun Ak xk Bk uk Pk Qk o => kf_call o (CPredict Ak xk Bk uk Pk Qk)) -> inherits_predict c.
Proof. by move=> E Ak xk Bk uk Pk Qk o; rewrite E /kf_call /= /mlift; congr pair; case: o. Qed.

(** The steps of a KalmanFilter call, each with its gain. *)
Definition gain_logged (o : kf N) (Z : arr) (U : option arr) (k : nat) : arr :=
  nth (np_zeros N [::]) (kf_gains (kf_call o (CFilter Z U)).1) (size (kf_gains o) + k).

Lemma gain_loggedE n m p (o : kf N) Z U k : exact_run n m p o Z U ->
  (k < until_singular (innov (model_of n m p o Z U)) (steps o Z U))%N ->
  gain_logged o Z U k = mat (gain_at (model_of n m p o Z U) k).
Proof.
move=> H Hk; rewrite /gain_logged /kf_call.
have -> : run_meth (CFilter Z U) o = kf_filter o Z U by [].
rewrite (run_filter_answer _ H) /kalman_filter_answer /filter_answer; cbn [fst kf_gains with_gains].
by rewrite nth_cat ltnNge leq_addr /= addKn (nth_map 0%N) ?size_iota // nth_iota // add0n.
Qed.

Lemma outcome_gains n m p (o : kf N) Z U g g' : exact_run n m p o Z U ->
  (kf_filter o Z U g).2 = (kf_filter o Z U g').2.
Proof. by move=> H; rewrite !(run_filter_answer _ H). Qed.

Lemma smooth_outcome_gains n m p (o : kf N) Z U g g' : exact_run n m p o Z U ->
  (kf_smooth o Z U g).2 = (kf_smooth o Z U g').2.
Proof.
move=> H; have := outcome_gains g g' H; rewrite /kf_smooth /mbind.
case: (kf_filter o Z U g) => g1 [r|e]; case: (kf_filter o Z U g') => g1' [r'|e'] //=.
by move=> [->]; rewrite /mlift; case: (np_len Z) => // T; case: (smooth_init _ _ _).
Qed.

Theorem C97_missing_observations n m p o o' Z Z' U U' : exact_run n m p o' Z' U' ->
  blind_where_missing n m o o' Z Z' U U' ->
  let sub := sub_filter id skips_missing Z U o in
  [/\ sub.2 = (kf_call o' (CFilter Z' U')).2,
      (sub_smooth id skips_missing (sub_filter id skips_missing) Z U o).2 = (kf_call o' (CSmooth Z' U')).2 &
      forall st er, sub.2 = Ok (st, er) ->
        kf_gains sub.1 = kf_gains o ++ [seq gain_logged o' Z' U' k | k <- iota 0 (steps o' Z' U') & ~~ missing Z k]].
Proof.
move=> H [HA [Hn HI] HU [rZ rH rR [sZ sH sR]] Hk] sub.
have Hp : inherits_predict skips_missing by apply: inherits_kf_call.
have [Hc Hw _ _ [Hcl _ _ _]] := H; have [Hit' Hn' _ _ Hl] := Hw.
have [eA eB eQ ex eP] := HA.
have HT : steps o Z U = steps o' Z' U' by rewrite /steps /= eA eB eQ HU rZ rH rR.
have Hit : iterable o Z U.
  move: Hit'; rewrite /iterable /= eA eB eQ HU sZ sH sR.
  by case/and5P => _ -> _ -> /and4P [-> -> _ _].
set s := model_of n m p o' Z' U'.
have Hupd k x P g : (k < steps o' Z' U')%N -> vrpf m x (pred_x s k) -> rpf [:: n; n] P (pred_P s k) ->
  if innov s k \in unitmx then
    exists y C, [/\ c_update skips_missing (row (kf_H o) k) x P (row Z k) (row (kf_R o) k) (with_gains o g) =
        (with_gains o (if ~~ missing Z k then rcons g (mat (gain_at s k)) else g), Ok (y, C)),
      vrpf m y (post_x s k.+1) & rpf [:: n; n] C (post_P s k.+1)]
  else c_update skips_missing (row (kf_H o) k) x P (row Z k) (row (kf_R o) k) (with_gains o g) =
    (with_gains o g, Raise LinAlgError).
  move=> HkT Rx RP; cbn [c_update skips_missing]; rewrite -/(missing Z k).
  have := Hk k HkT; case: ifP => Hm.
    case=> H0 HR.
    have h0 : mH s k = 0 by exact: H0.
    have e1 : innov s k = cov m (row (kf_R o') k) by rewrite innovE /ucov h0 mul0mx mul0mx add0r.
    rewrite e1 HR; exists x, P; split=> //.
      by rewrite post_xS /ucorr /ugain h0 trmx0 mulmx0 !mul0mx addr0.
    by rewrite post_PS /upost /ugain h0 mulmx0 subr0 mul1mx.
  case=> eH eR eZ.
  have [LA LH LB [LZ LQ LR]] := Hl _ HkT; have [CA CH CQ CR CZ] := Hcl _ HkT.
  have := update_rp g (rp_mat LH CH) Rx RP LZ CZ LR CR; cbv zeta.
  rewrite [_ + cov m (row (kf_R o') k)](_ : _ = innov s k) //.
  rewrite /kf_call; cbn [run_meth kf_gains with_gains kf_I]; rewrite HI eH eR eZ.
  case: ifP => HS; last by move=> ->.
  case=> Kk [y [C [-> RK Ry RC]]]; exists y, C; split=> //.
  by rewrite -(rpf_is_mat RK).
have A := sub_filter_answer Hp H HA Hn HU Hit HT rZ Hupd.
split.
- rewrite /sub A; cbn [snd]; rewrite /kf_call; cbn [run_meth].
  rewrite (outcome_gains [::] (kf_gains o') H).
  by case: (kf_filter o' Z' U' (kf_gains o')).
- rewrite (sub_smooth_answer Hp H HA Hn HU Hit HT rZ Hupd) /kf_call; cbn [run_meth].
  rewrite (smooth_outcome_gains [::] (kf_gains o') H).
  by case: (kf_smooth o' Z' U' (kf_gains o')).
move=> st er; rewrite /sub A; cbn [snd fst kf_gains with_gains] => E.
rewrite /kept -/s; congr (_ ++ _).
have Ej : until_singular (innov s) (steps o' Z' U') = steps o' Z' U'.
  move: E; rewrite (run_filter_answer [::] H) /kalman_filter_answer /filter_answer -/s; cbn [snd].
  case: ltnP => // h _; apply/eqP; rewrite eqn_leq h andbT; exact: until_le.
rewrite Ej; apply/eq_in_map => k; rewrite mem_filter mem_iota add0n => /andP [_ /andP [_ Hlt]].
by rewrite (gain_loggedE H) ?Ej.
Qed.

(** ** Joseph's formula

      def update(self, Hk, xk, Pk, zk, Rk):
          x, _ = super().update(Hk, xk, Pk, zk, Rk)
          K = self.kalman_gains[-1]
          J = np.identity(self.state_size) - K @ Hk
          return x, J @ Pk @ J.T + K @ Rk @ K.T *)
Definition joseph_cov (n : nat) (K H P R : arr) : res arr :=
  do KH <- np_matmul K H;
  do J <- np_sub (np_identity N n) KH;
  do JP <- np_matmul J P;
  do JPJ <- np_matmul JP (np_T J);
  do KR <- np_matmul K R;
  do KRK <- np_matmul KR (np_T K);
  np_add JPJ KRK.

Definition joseph : cls N (kf N) := Cls
  (fun Ak xk Bk uk Pk Qk o => kf_call o (CPredict Ak xk Bk uk Pk Qk))
  (fun Hk xk Pk zk Rk o =>
     match kf_call o (CUpdate Hk xk Pk zk Rk) with
     | (o1, Ok (x, _)) =>
       (o1, do P <- joseph_cov (kf_size o1) (last (np_zeros N [::]) (kf_gains o1)) Hk Pk Rk; Ok (x, P))
     | (o1, Raise e) => (o1, Raise e)
     end).

Lemma cov_square m (R : arr) : mat_layout m m R -> cov m R = mx m m R.
Proof.
case/andP => /wf_wfs /eqP S /eqP E; rewrite /cov; case: ifP => // /eqP H1.
have Em : m = 1%N by move/eqP: H1; rewrite S E /= muln1 muln_eq1 andbb => /eqP.
by apply/matrixP => i j; rewrite !mxE; congr (fval (nth _ _ _)); clear S E H1; subst m; rewrite !ord1.
Qed.

Lemma joseph_rp n m (K H P R : arr) (MK : 'M[F]_(n, m)) (MH : 'M[F]_(m, n)) (MP : 'M[F]_n) (MR : 'M[F]_m) :
  rpf [:: n; m] K MK -> rp [:: m; n] H MH -> rpf [:: n; n] P MP -> rp [:: m; m] R MR ->
  exists2 C, joseph_cov n K H P R = Ok C &
    rpf [:: n; n] C ((1%:M - MK *m MH) *m MP *m (1%:M - MK *m MH)^T + MK *m MR *m MK^T).
Proof.
move=> [RK DK] RH [RP DP] RR; rewrite /joseph_cov.
have [a -> [Ra Da]] : exists2 c, np_matmul K H = Ok c & rpf [:: n; n] c (MK *m MH).
  by apply: rp_mm => //; rewrite DK.
cbn [rbind]; have [RI DI] := rp_identity oracle n2i n.
rewrite np_subE; have [d -> [Rd Dd]] := rp_bin2 Z.sub (fun a b => a - b) RI Ra (erefl DFloat).
rewrite mx_op_sub in Rd; cbn [rbind].
have [b -> [Rb Db]] : exists2 c, np_matmul d P = Ok c & rpf [:: n; n] c ((1%:M - MK *m MH) *m MP).
  by apply: rp_mm => //; rewrite Dd.
cbn [rbind].
have [e -> [Re De]] : exists2 c, np_matmul b (np_T d) = Ok c & rpf [:: n; n] c ((1%:M - MK *m MH) *m MP *m (1%:M - MK *m MH)^T).
  by apply: rp_mm => //; [exact: rp_T|rewrite Db].
cbn [rbind].
have [f -> [Rf Df]] : exists2 c, np_matmul K R = Ok c & rpf [:: n; m] c (MK *m MR).
  by apply: rp_mm => //; rewrite DK.
cbn [rbind].
have [h -> [Rh Dh]] : exists2 c, np_matmul f (np_T K) = Ok c & rpf [:: n; n] c (MK *m MR *m MK^T).
  by apply: rp_mm => //; [exact: rp_T|rewrite Df].
cbn [rbind]; rewrite np_addE -mx_op_add; apply: rp_bin2 => //.
by rewrite De.
Qed.

(** The answers are those of KalmanFilter, in exact arithmetic, whatever P0, Q, R. *)
Theorem C97_joseph_form n m p o Z U : exact_run n m p o Z U ->
  (forall k, (k < steps o Z U)%N -> mat_layout m m (row (kf_R o) k)) ->
  sub_filter id joseph Z U o = kf_call o (CFilter Z U) /\
  (sub_smooth id joseph (sub_filter id joseph) Z U o).2 = (kf_call o (CSmooth Z U)).2.
Proof.
move=> H HR.
have Hp : inherits_predict joseph by apply: inherits_kf_call.
have [Hc Hw _ _ [Hcl _ _ _]] := H; have [Hit Hn _ _ Hl] := Hw.
set s := model_of n m p o Z U.
have Hupd k x P g : (k < steps o Z U)%N -> vrpf m x (pred_x s k) -> rpf [:: n; n] P (pred_P s k) ->
  if innov s k \in unitmx then
    exists y C, [/\ c_update joseph (row (kf_H o) k) x P (row Z k) (row (kf_R o) k) (with_gains o g) =
        (with_gains o (if predT k then rcons g (mat (gain_at s k)) else g), Ok (y, C)),
      vrpf m y (post_x s k.+1) & rpf [:: n; n] C (post_P s k.+1)]
  else c_update joseph (row (kf_H o) k) x P (row Z k) (row (kf_R o) k) (with_gains o g) =
    (with_gains o g, Raise LinAlgError).
  move=> HkT Rx RP; cbn [c_update joseph].
  have [LA LH LB [LZ LQ LR]] := Hl _ HkT; have [CA CH CQ CR CZ] := Hcl _ HkT.
  have := update_rp g (rp_mat LH CH) Rx RP LZ CZ LR CR; cbv zeta.
  rewrite [_ + cov m (row (kf_R o) k)](_ : _ = innov s k) //.
  rewrite /kf_call; cbn [run_meth kf_gains with_gains kf_I]; rewrite (constructed_I Hc) Hn.
  case: ifP => HS; last by move=> ->.
  case=> Kk [y [C [-> RK Ry RC]]]; cbn [kf_gains with_gains kf_size]; rewrite last_rcons Hn.
  have RR : rp [:: m; m] (row (kf_R o) k) (mR s k).
    rewrite [mR s k](_ : _ = mx m m (row (kf_R o) k)); first exact: (rp_mat (HR k HkT) CR).
    exact: (cov_square (HR k HkT)).
  have [D -> RD] := joseph_rp RK (rp_mat LH CH) RP RR; cbn [rbind].
  exists y, D; split=> //; first by rewrite -(rpf_is_mat RK).
  suff <- : (1%:M - gain_at s k *m mH s k) *m pred_P s k *m (1%:M - gain_at s k *m mH s k)^T
      + gain_at s k *m mR s k *m (gain_at s k)^T = post_P s k.+1 by exact: RD.
  rewrite post_PS gainE; apply: joseph_any; rewrite -innovE; exact: HS.
have A := sub_filter_answer Hp H (And5 erefl erefl erefl erefl erefl) Hn erefl Hit erefl erefl (keep := predT) Hupd.
have B := sub_smooth_answer Hp H (And5 erefl erefl erefl erefl erefl) Hn erefl Hit erefl erefl (keep := predT) Hupd.
split.
  rewrite A /kf_call; have -> : run_meth (CFilter Z U) o = kf_filter o Z U by [].
  rewrite !(run_filter_answer _ H) /kalman_filter_answer /filter_answer; cbn [snd].
  by rewrite /kept filter_predT.
rewrite B /kf_call; cbn [run_meth].
rewrite (smooth_outcome_gains [::] (kf_gains o) H).
by case: (kf_smooth o Z U (kf_gains o)).
Qed.
End C97.

(** ** A case: two states, three steps, the second observation missing *)
Section Case.
Variable F : realFieldType.
Variable oracle : oracle_type F.
Variable n2i : Z.
Notation N := (exact oracle n2i).
Notation arr := (arr N).

Definition gap_Z (c : F) : arr :=
  mk DFloat [:: 3; 1]%N (fun ix => if nth 0%N ix 0 == 1%N then @VF N None
    else @VF N (Some (entry (mz (demo c) (nth 0%N ix 0)) (nth 0%N ix 1) 0))).
Definition gap (c : F) : model F 2 1 :=
  Model (mA (demo c)) (mc (demo c)) (fun k => if k == 1%N then 0 else mH (demo c) k) (mQ (demo c)) (mR (demo c))
        (mz (demo c)) (mx0 (demo c)) (mP0 (demo c)).

Lemma gap_case (c : F) : 0 < c ->
  [/\ exact_run 2 1 2 (build oracle n2i (gap c) 3) (build_Z oracle n2i (gap c) 3) (build_U oracle n2i (gap c) 3),
      blind_where_missing 2 1 (demo_kf oracle n2i c) (build oracle n2i (gap c) 3) (gap_Z c)
        (build_Z oracle n2i (gap c) 3) (demo_U oracle n2i c) (build_U oracle n2i (gap c) 3) &
      [seq missing (gap_Z c) k | k <- iota 0 3] = [:: false; true; false]].
Proof.
move=> Hc; split; [exact: build_run| |].
  split; [by split|by []|by []|by split|].
  move=> k; rewrite build_steps; case: k => [|[|[|//]]] _.
  - have -> : missing (gap_Z c) 0 = false by [].
    split; [by []|by []|].
    rewrite /build_Z vecs_row // /gap_Z row_mk //.
  - have -> : missing (gap_Z c) 1 = true by [].
    have -> : row (kf_H (build oracle n2i (gap c) 3)) 1 = mx_arr oracle n2i (0 : 'M[F]_(1, 2)) by [].
    have -> : row (kf_R (build oracle n2i (gap c) 3)) 1 = mx_arr oracle n2i (c%:M : 'M[F]_1) by [].
    by rewrite mx_arr_mx cov_arr; split=> //; rewrite unitmxE det_scalar1 unitfE lt0r_neq0.
  have -> : missing (gap_Z c) 2 = false by [].
  split; [by []|by []|].
  rewrite /build_Z vecs_row // /gap_Z row_mk //.
by [].
Qed.

Lemma joseph_case (c : F) :
  exact_run 2 1 2 (demo_kf oracle n2i c) (demo_Z oracle n2i c) (demo_U oracle n2i c) /\
  forall k, (k < steps (demo_kf oracle n2i c) (demo_Z oracle n2i c) (demo_U oracle n2i c))%N ->
    mat_layout 1 1 (row (kf_R (demo_kf oracle n2i c)) k).
Proof.
split; [exact: demo_run|move=> k; rewrite demo_steps => Hk].
rewrite [row _ k](_ : _ = mx_arr oracle n2i (c%:M : 'M[F]_1)); first exact: mat_layout_arr.
exact: mxs_row.
Qed.
End Case.
