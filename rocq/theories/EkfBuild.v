(** * EkfBuild: the extended filter of any smooth or non-smooth system given by
    functions on vectors meets the hypotheses of Props10 *)
From Coq Require Import ZArith.
From mathcomp Require Import all_ssreflect all_algebra.
From Verif Require Import Np NpLemmas Kf Ekf ApiSpec Loop Frame FilterLemmas FilterThms SmoothLemmas
  Exact Repr Textbook RunSpec Refine Refine2 Build Outputs
  Loewner KalmanAlg TextbookThms EkfRun EkfRun2.

Set Implicit Arguments.
Unset Strict Implicit.
Unset Printing Implicit Defensive.
Import GRing.Theory Num.Theory Order.Theory.
Local Open Scope ring_scope.

Section Build.
Variable F : realFieldType.
Variable oracle : oracle_type F.
Variable n2i : Z.
Notation N := (exact oracle n2i).
Notation arr := (arr N).
Notation vec := (vec_arr oracle n2i).
Notation mat := (mx_arr oracle n2i).
Notation vecs := (vecs_arr oracle n2i).
Notation mats := (mxs_arr oracle n2i).

Variables (n m T : nat).
(** Dynamics with a control vector of size n, observation, their Jacobians. *)
Variables (f : 'cV[F]_n -> 'cV[F]_n -> 'cV[F]_n) (h : 'cV[F]_n -> 'cV[F]_m).
Variables (jf : 'cV[F]_n -> 'cV[F]_n -> 'M[F]_n) (jh : 'cV[F]_n -> 'M[F]_(m, n)).
Variables (Q : nat -> 'M[F]_n) (R : nat -> 'M[F]_m) (x0 : 'cV[F]_n) (P0 : 'M[F]_n).
Variables (z : nat -> 'cV[F]_m) (c : nat -> 'cV[F]_n).

(** The callables a user would write; without control the input is 0. *)
Definition uval (u : option arr) : 'cV[F]_n := if u is Some a then mx n 1 a else 0.
Definition call_f (x : arr) (u : option arr) : res arr := Ok (vec (f (mx n 1 x) (uval u))).
Definition call_h (x : arr) : res arr := Ok (vec (h (mx n 1 x))).
Definition call_jA (x : arr) (u : option arr) : res arr := Ok (mat (jf (mx n 1 x) (uval u))).
Definition call_jH (x : arr) : res arr := Ok (mat (jh (mx n 1 x))).

Definition e_build_init : res (ekf N) :=
  ekf_init (vec x0) (mat P0) (mats T Q) (mats T R) call_f call_h call_jA call_jH.
Definition e_build : ekf N :=
  Ekf call_f call_h call_jA call_jH (vec x0) (mat P0) (mats T Q) (mats T R) n (np_identity N n) [::].
Definition e_build_Z : arr := vecs T z.
Definition e_build_U : option arr := Some (vecs T c).

Lemma e_build_constructed : e_constructed e_build.
Proof.
exists (vec x0), (mat P0), (mats T Q), (mats T R), call_f, call_h, call_jA, call_jH, e_build, [::].
by split.
Qed.

Lemma e_build_steps : e_steps e_build e_build_Z e_build_U = T.
Proof. by rewrite /e_steps /= /nrows /= !minnn. Qed.

Lemma e_build_rows k : (k < T)%N ->
  [/\ row (e_Q e_build) k = mat (Q k), row (e_R e_build) k = mat (R k), row e_build_Z k = vec (z k) &
      row (control e_build_Z e_build_U) k = vec (c k)].
Proof.
move=> Hk; rewrite /e_build /e_build_Z /e_build_U /control /check_none_and_broadcast; cbn [e_Q e_R].
by rewrite !mxs_row // !vecs_row.
Qed.

Lemma good_vec_arr k (v : 'cV[F]_k) : good_vec k (vec v).
Proof. by apply/and3P; split; [exact: wf_mkF|exact: eqxx|exact: clean_mkF]. Qed.
Lemma good_vec_obs k (a : arr) : good_vec k a -> good_obs k a.
Proof. by case/and3P=> W E C; apply/and3P; split=> //; rewrite E. Qed.
Lemma good_mat_arr a b (M : 'M[F]_(a, b)) : good_mat a b (mat M).
Proof. by rewrite /good_mat mat_layout_arr clean_mkF. Qed.

Lemma e_build_run : e_exact_run n m e_build e_build_Z e_build_U.
Proof.
split; [exact: e_build_constructed|by []|by []|exact: good_vec_arr|].
split; [exact: good_mat_arr| | |by left|by left].
  move=> k; rewrite e_build_steps => /e_build_rows [-> -> -> _].
  split; [apply/andP; split; [|exact: clean_mkF]..|exact: good_vec_obs (good_vec_arr _)].
    by apply/andP; split; [exact: wf_mkF|rewrite eqxx].
  by apply/andP; split; [exact: wf_mkF|rewrite eqxx].
move=> k x Hk Hx; do 4 eexists.
by split; split; try reflexivity; [exact: good_vec_arr|exact: good_mat_arr|exact: good_vec_obs (good_vec_arr _)|exact: good_mat_arr].
Qed.

(** The trajectory of the noise-free system. *)
Fixpoint orbit (k : nat) : 'cV[F]_n := if k is j.+1 then f (orbit j) (c j) else x0.

End Build.
