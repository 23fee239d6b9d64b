(** * Textbook: the Kalman filter and the Rauch-Tung-Striebel smoother on
    matrices, as found in textbooks (no arrays, no code) *)
From mathcomp Require Import all_ssreflect all_algebra.

Set Implicit Arguments.
Unset Strict Implicit.
Unset Printing Implicit Defensive.
Import GRing.Theory Num.Theory.
Local Open Scope ring_scope.

Section Textbook.
Variable F : realFieldType.
Variables n m : nat.

(** A time-varying linear model and its data: step k (from 0) has transition
    A, known input c (that is B u), observation matrix H, noise covariances Q
    and R, observation z; the state before step 0 has mean x0 and covariance
    P0. *)
Record model := Model {
  mA : nat -> 'M[F]_n; mc : nat -> 'cV[F]_n; mH : nat -> 'M[F]_(m, n);
  mQ : nat -> 'M[F]_n; mR : nat -> 'M[F]_m; mz : nat -> 'cV[F]_m;
  mx0 : 'cV[F]_n; mP0 : 'M[F]_n
}.

Variable s : model.

(** Prediction of step k from a mean x and a covariance P. *)
Definition prior_x k (x : 'cV[F]_n) : 'cV[F]_n := mA s k *m x + mc s k.
Definition prior_P k (P : 'M[F]_n) : 'M[F]_n := mA s k *m P *m (mA s k)^T + mQ s k.

(** Innovation covariance, gain and correction of step k from a prior (x, P). *)
Definition innovation k (P : 'M[F]_n) : 'M[F]_m := mH s k *m P *m (mH s k)^T + mR s k.
Definition kgain k (P : 'M[F]_n) : 'M[F]_(n, m) := P *m (mH s k)^T *m invmx (innovation k P).
Definition corr_x k (x : 'cV[F]_n) (P : 'M[F]_n) : 'cV[F]_n :=
  x + kgain k P *m (mz s k - mH s k *m x).
Definition corr_P k (P : 'M[F]_n) : 'M[F]_n := (1%:M - kgain k P *m mH s k) *m P.

(** Mean and covariance after the first k observations. *)
Fixpoint post_P (k : nat) : 'M[F]_n :=
  if k is j.+1 then corr_P j (prior_P j (post_P j)) else mP0 s.
Fixpoint post_x (k : nat) : 'cV[F]_n :=
  if k is j.+1 then corr_x j (prior_x j (post_x j)) (prior_P j (post_P j)) else mx0 s.

(** What is predicted for step k, its innovation covariance and its gain. *)
Definition pred_x k := prior_x k (post_x k).
Definition pred_P k := prior_P k (post_P k).
Definition innov k := innovation k (pred_P k).
Definition gain_at k := kgain k (pred_P k).

(** Smoothing of T+1 observations: mean and covariance of the state of step
    T-i given all of them, i steps back from the end. *)
Definition sgain k := post_P k.+1 *m (mA s k.+1)^T *m invmx (pred_P k.+1).
Fixpoint back_P (T i : nat) : 'M[F]_n :=
  if i is j.+1 then
    let k := (T - i)%N in
    post_P k.+1 + sgain k *m (back_P T j - pred_P k.+1) *m (sgain k)^T
  else post_P T.+1.
Fixpoint back_x (T i : nat) : 'cV[F]_n :=
  if i is j.+1 then
    let k := (T - i)%N in
    post_x k.+1 + sgain k *m (back_x T j - pred_x k.+1)
  else post_x T.+1.
Definition smooth_P T k := back_P T (T - k).
Definition smooth_x T k := back_x T (T - k).

End Textbook.
