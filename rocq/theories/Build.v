(** * Build: every linear model and data as an object and a call

    Used to show that the hypotheses of the exact-arithmetic theorems are met:
    for every model and every length there is a constructed object and a call
    that hold exactly these matrices. *)
From Coq Require Import ZArith.
From mathcomp Require Import all_ssreflect all_algebra.
From Verif Require Import Np NpLemmas Kf ApiSpec FilterLemmas NpShapes WellShaped Exact Repr Textbook RunSpec.

Set Implicit Arguments.
Unset Strict Implicit.
Unset Printing Implicit Defensive.
Import GRing.Theory Num.Theory.
Local Open Scope ring_scope.

Section Build.
Variable F : realFieldType.
Variable oracle : oracle_type F.
Variable n2i : Z.
Notation N := (exact oracle n2i).
Notation arr := (arr N).

(** Entry (i,j) of a matrix, 0 outside. *)
Definition entry m n (M : 'M[F]_(m, n)) (i j : nat) : F :=
  if insub i is Some i' then if insub j is Some j' then M i' j' else 0 else 0.

Lemma entryE m n (M : 'M[F]_(m, n)) (i : 'I_m) (j : 'I_n) : entry M i j = M i j.
Proof. by rewrite /entry !valK. Qed.

(** The float64 arrays that hold a matrix, a vector, a sequence of T of them. *)
Definition mx_arr m n (M : 'M[F]_(m, n)) : arr :=
  mk DFloat [:: m; n] (fun ix => @VF N (Some (entry M (nth 0%N ix 0) (nth 0%N ix 1)))).
Definition vec_arr m (v : 'cV[F]_m) : arr :=
  mk DFloat [:: m] (fun ix => @VF N (Some (entry v (nth 0%N ix 0) 0))).
Definition mxs_arr T m n (M : nat -> 'M[F]_(m, n)) : arr :=
  mk DFloat [:: T; m; n] (fun ix => @VF N (Some (entry (M (nth 0%N ix 0)) (nth 0%N ix 1) (nth 0%N ix 2)))).
Definition vecs_arr T m (v : nat -> 'cV[F]_m) : arr :=
  mk DFloat [:: T; m] (fun ix => @VF N (Some (entry (v (nth 0%N ix 0)) (nth 0%N ix 1) 0))).

Lemma mxs_row T m n (M : nat -> 'M[F]_(m, n)) k : (k < T)%N -> row (mxs_arr T M) k = mx_arr (M k).
Proof. by move=> Hk; rewrite /mxs_arr row_mk. Qed.
Lemma vecs_row T m (v : nat -> 'cV[F]_m) k : (k < T)%N -> row (vecs_arr T v) k = vec_arr (v k).
Proof. by move=> Hk; rewrite /vecs_arr row_mk. Qed.

Lemma clean_mkF sh (f : seq nat -> F) : clean (mk DFloat sh (fun ix => @VF N (Some (f ix)))).
Proof. by apply: clean_mk. Qed.

Lemma mx_arr_mx m n (M : 'M[F]_(m, n)) : mx m n (mx_arr M) = M.
Proof. by rewrite /mx_arr mx_mk2; apply/matrixP => i j; rewrite mxE fvalS entryE. Qed.
Lemma vec_arr_mx m (v : 'cV[F]_m) : mx m 1 (vec_arr v) = v.
Proof. by rewrite /vec_arr mx_mk1; apply/matrixP => i j; rewrite mxE fvalS ord1 -(entryE v i 0). Qed.

Lemma mx_arr_size m n (M : 'M[F]_(m, n)) : size (dat (mx_arr M)) = (m * n)%N.
Proof. by have /andP [/eqP -> _] : wf (mx_arr M) by [exact: wf_mkF]; rewrite /= muln1. Qed.
Lemma vec_arr_size m (v : 'cV[F]_m) : size (dat (vec_arr v)) = m.
Proof. by have /andP [/eqP -> _] : wf (vec_arr v) by [exact: wf_mkF]; rewrite /= muln1. Qed.

Lemma cov_arr n (Q : 'M[F]_n) : cov n (mx_arr Q) = Q.
Proof.
rewrite /cov mx_arr_size; case: ifP => [/eqP E|_]; last exact: mx_arr_mx.
have En : n = 1%N by apply/eqP; move/eqP: E; rewrite muln_eq1 andbb.
move: (congr1 (fun M : 'M[F]_n => M) (mx_arr_mx Q)) => /= E1; rewrite -[RHS]E1.
by apply/matrixP => i j; rewrite !mxE; congr (fval (nth _ _ _)); clear E1 E; subst n; rewrite !ord1.
Qed.

Lemma mat_layout_arr m n (M : 'M[F]_(m, n)) : mat_layout m n (mx_arr M).
Proof. by rewrite /mat_layout eqxx andbT; exact: wf_mkF. Qed.

Lemma nan_arr_nil (a : arr) : clean a -> np_isnan_all a -> size (dat a) = 0%N.
Proof.
rewrite /clean /np_isnan_all; case: (dat a) => //= v l /andP [H _] /andP [H' _].
by rewrite H' in H.
Qed.

(** The constructor call and the data. *)
Variables (n m : nat) (s : model F n m) (T : nat).
Definition build_init : res (kf N) :=
  kf_init (mxs_arr T (mA s)) (vec_arr (mx0 s)) (Some (mxs_arr T (fun _ => 1%:M : 'M[F]_n)))
    (mx_arr (mP0 s)) (mxs_arr T (mH s)) (mxs_arr T (mQ s)) (mxs_arr T (mR s)) None.
Definition build : kf N :=
  Kf (mxs_arr T (mA s)) (vec_arr (mx0 s)) (mxs_arr T (fun _ => 1%:M : 'M[F]_n))
    (mx_arr (mP0 s)) (mxs_arr T (mH s)) (mxs_arr T (mQ s)) (mxs_arr T (mR s)) n (np_identity N n) [::].
Definition build_Z : arr := vecs_arr T (mz s).
Definition build_U : option arr := Some (vecs_arr T (mc s)).

Lemma build_ok : build_init = Ok build. Proof. by []. Qed.

Lemma build_constructed : constructed build.
Proof.
exists (mxs_arr T (mA s)), (vec_arr (mx0 s)), (Some (mxs_arr T (fun _ => 1%:M : 'M[F]_n))),
  (mx_arr (mP0 s)), (mxs_arr T (mH s)), (mxs_arr T (mQ s)), (mxs_arr T (mR s)), None, build, [::].
by split.
Qed.

Lemma build_steps : steps build build_Z build_U = T.
Proof. by rewrite /steps /= /nrows /= !minnn. Qed.

Lemma build_run : exact_run n m n build build_Z build_U.
Proof.
have E k : (k < T)%N -> [/\ row (kf_A build) k = mx_arr (mA s k), row (kf_H build) k = mx_arr (mH s k),
    row (kf_Q build) k = mx_arr (mQ s k), row (kf_R build) k = mx_arr (mR s k) &
    [/\ row (kf_B build) k = mx_arr (1%:M : 'M[F]_n), row build_Z k = vec_arr (mz s k) &
        row (control build_Z build_U) k = vec_arr (mc s k)]].
  move=> Hk; rewrite /build /build_Z /build_U /control /check_none_and_broadcast.
  cbn [kf_A kf_H kf_Q kf_R kf_B].
  by rewrite !mxs_row // !vecs_row.
split; [exact: build_constructed| |exact: clean_mkF|exact: clean_mkF|].
  split=> //.
  - by rewrite /vec_layout eqxx /= andbT; exact: wf_mkF.
  - exact: mat_layout_arr.
  move=> k; rewrite build_steps => /E [-> -> -> -> [-> -> ->]]; split; [exact: mat_layout_arr|exact: mat_layout_arr| |].
    by rewrite /ctl_layout mat_layout_arr eqxx andbT /= !orbA; apply/orP; right; exact: wf_mkF.
  by split; rewrite ?/obs_layout ?/cov_layout eqxx /= andbT; exact: wf_mkF.
split; try by left.
  by move=> k; rewrite build_steps => /E [-> -> -> -> [_ -> _]]; split; exact: clean_mkF.
move=> k; rewrite build_steps => /E [_ _ _ _ [-> _ ->]].
by rewrite !clean_mkF !orbT.
Qed.

(** ... and it holds the model. *)
Lemma build_model k : (k < T)%N -> let s' := model_of n m n build build_Z build_U in
  [/\ mA s' k = mA s k, mc s' k = mc s k, mH s' k = mH s k, mQ s' k = mQ s k &
      mR s' k = mR s k /\ mz s' k = mz s k].
Proof.
move=> Hk; rewrite /model_of /= !mxs_row // !vecs_row // !mx_arr_mx !cov_arr !vec_arr_mx; split=> //.
case: ifP => H; last by rewrite mul1mx.
have : n = 0%N.
  case/orP: H => /nan_arr_nil; rewrite ?mx_arr_size ?vec_arr_size ?clean_mkF => /(_ isT) //.
  by move/eqP; rewrite muln_eq0 orbb => /eqP.
move=> n0; apply/matrixP => i j; have := ltn_ord i; by rewrite {2}n0.
Qed.

Lemma build_model0 : let s' := model_of n m n build build_Z build_U in
  mx0 s' = mx0 s /\ mP0 s' = mP0 s.
Proof. by rewrite /model_of /= vec_arr_mx mx_arr_mx. Qed.

(** The same object with R given as a sequence of numbers, one per step. *)
Definition nums_arr (r : nat -> F) : arr := mk DFloat [:: T] (fun ix => @VF N (Some (r (nth 0%N ix 0)))).
Definition num_arr (r : F) : arr := mk DFloat [::] (fun ix => @VF N (Some r)).
Lemma nums_row r k : (k < T)%N -> row (nums_arr r) k = num_arr (r k).
Proof. by move=> Hk; rewrite /nums_arr row_mk. Qed.
Lemma cov_num d (r : F) : cov d (num_arr r) = const_mx r. Proof. by []. Qed.

Definition build_num (r : nat -> F) : kf N :=
  Kf (mxs_arr T (mA s)) (vec_arr (mx0 s)) (mxs_arr T (fun _ => 1%:M : 'M[F]_n))
    (mx_arr (mP0 s)) (mxs_arr T (mH s)) (mxs_arr T (mQ s)) (nums_arr r) n (np_identity N n) [::].

Lemma build_num_constructed r : constructed (build_num r).
Proof.
exists (mxs_arr T (mA s)), (vec_arr (mx0 s)), (Some (mxs_arr T (fun _ => 1%:M : 'M[F]_n))),
  (mx_arr (mP0 s)), (mxs_arr T (mH s)), (mxs_arr T (mQ s)), (nums_arr r), None, (build_num r), [::].
by split.
Qed.

Lemma build_num_steps r : steps (build_num r) build_Z build_U = T.
Proof. by rewrite /steps /= /nrows /= !minnn. Qed.

Lemma build_num_run r : exact_run n m n (build_num r) build_Z build_U.
Proof.
have [_ [_ _ hx hP hl] cx cP [hc hct hd hb]] := build_run; rewrite build_steps in hl hc hct.
split; [exact: build_num_constructed| |by []|by []|].
  split=> // k; rewrite build_num_steps => Hk; have [l1 l2 l3 [l4 l5 _]] := hl k Hk; split=> //; split=> //.
  by cbn [kf_R build_num]; rewrite nums_row.
split=> // k; rewrite build_num_steps => Hk; last exact: hct.
by have [c1 c2 c3 _ c5] := hc k Hk; split=> //; rewrite [kf_R _]/= nums_row.
Qed.

Lemma build_num_model r k : (k < T)%N -> let s' := model_of n m n (build_num r) build_Z build_U in
  [/\ mA s' k = mA s k, mc s' k = mc s k, mH s' k = mH s k, mQ s' k = mQ s k &
      mR s' k = const_mx (r k) /\ mz s' k = mz s k].
Proof.
move=> Hk; have [e1 e2 e3 e4 [_ e6]] := build_model Hk; split=> //; split=> //.
rewrite -(cov_num m (r k)); congr (cov _ _).
exact: nums_row.
Qed.

End Build.
