(** * EndSpec: whole answers of filter and smooth, as arrays

    What a call is to return, with no reference to the code: the arrays that
    hold the textbook means, covariances and gains. *)
From Coq Require Import ZArith.
From mathcomp Require Import all_ssreflect all_algebra.
From Verif Require Import Np Kf Exact Repr Textbook Build.

Set Implicit Arguments.
Unset Strict Implicit.
Unset Printing Implicit Defensive.
Import GRing.Theory Num.Theory.
Local Open Scope ring_scope.

Section EndSpec.
Variable F : realFieldType.
Variable oracle : oracle_type F.
Variable n2i : Z.
Notation N := (exact oracle n2i).
Notation arr := (arr N).
Notation vecs := (vecs_arr oracle n2i).
Notation mats := (mxs_arr oracle n2i).
Notation mat := (mx_arr oracle n2i).

(** The number of steps before the first one (among T) whose matrix [S] has no
    inverse; T when all have one. *)
Definition until_singular (m : nat) (S : nat -> 'M[F]_m) (T : nat) : nat :=
  find (fun k => S k \notin unitmx) (iota 0 T).

Section Answer.
Variables (n m : nat).
(** Means, covariances, gains and innovation covariances, step by step. *)
Variables (x : nat -> 'cV[F]_n) (P : nat -> 'M[F]_n) (K : nat -> 'M[F]_(n, m)) (S : nat -> 'M[F]_m).

(** filter on [len] observations, of which T are processed, with [g] in
    kalman_gains before the call: what kalman_gains holds after the call, and
    what the call returns. *)
Definition filter_answer (T len : nat) (g : seq arr) : seq arr * res (arr * arr) :=
  let j := until_singular S T in
  (g ++ [seq mat (K k) | k <- iota 0 j],
   if (j < T)%N then Raise LinAlgError
   else Ok (vecs len (fun k => if (k < T)%N then x k else 0),
            mats len (fun k => if (k < T)%N then P k else 0))).

(** smooth on L+1 observations: [xs], [Ps] are the smoothed means and
    covariances, [Pa k] the covariance predicted for step k. *)
Variables (xs : nat -> 'cV[F]_n) (Ps : nat -> 'M[F]_n) (Pa : nat -> 'M[F]_n).
Definition smooth_answer (L : nat) (g : seq arr) : seq arr * res (arr * arr) :=
  let j := until_singular S L.+1 in
  (g ++ [seq mat (K k) | k <- iota 0 j],
   if (j < L.+1)%N || has (fun k => Pa k \notin unitmx) (iota 1 L) then Raise LinAlgError
   else Ok (vecs L.+1 xs, mats L.+1 Ps)).
End Answer.

(** ** The linear model *)
Definition kalman_filter_answer n m (s : model F n m) :=
  filter_answer (fun k => post_x s k.+1) (fun k => post_P s k.+1) (gain_at s) (innov s).
Definition kalman_smooth_answer n m (s : model F n m) (L : nat) :=
  smooth_answer (gain_at s) (innov s) (smooth_x s L) (smooth_P s L) (pred_P s) L.

(** ** The non-linear model: dynamics f with a control vector, observation h,
    their Jacobians *)
Record nl_model (n m q : nat) := NlModel {
  nf : 'cV[F]_n -> 'cV[F]_q -> 'cV[F]_n; nh : 'cV[F]_n -> 'cV[F]_m;
  njf : 'cV[F]_n -> 'cV[F]_q -> 'M[F]_n; njh : 'cV[F]_n -> 'M[F]_(m, n);
  nQ : nat -> 'M[F]_n; nR : nat -> 'M[F]_m; nz : nat -> 'cV[F]_m; nu : nat -> 'cV[F]_q;
  nx0 : 'cV[F]_n; nP0 : 'M[F]_n
}.

Section NonLinear.
Variables (n m q : nat) (s : nl_model n m q).

(** Step k of the extended Kalman filter from a mean x and a covariance P. *)
Definition nl_prior_x k (x : 'cV[F]_n) := nf s x (nu s k).
Definition nl_prior_P k (x : 'cV[F]_n) (P : 'M[F]_n) :=
  let A := njf s x (nu s k) in A *m P *m A^T + nQ s k.
Definition nl_innovation k (y : 'cV[F]_n) (P : 'M[F]_n) :=
  let H := njh s y in H *m P *m H^T + nR s k.
Definition nl_kgain k (y : 'cV[F]_n) (P : 'M[F]_n) :=
  P *m (njh s y)^T *m invmx (nl_innovation k y P).
Definition nl_corr_x k (y : 'cV[F]_n) (P : 'M[F]_n) := y + nl_kgain k y P *m (nz s k - nh s y).
Definition nl_corr_P k (y : 'cV[F]_n) (P : 'M[F]_n) := (1%:M - nl_kgain k y P *m njh s y) *m P.

(** Mean and covariance after k observations. *)
Fixpoint nl_post (k : nat) : 'cV[F]_n * 'M[F]_n :=
  if k is j.+1 then
    let: (x, P) := nl_post j in
    let y := nl_prior_x j x in let Pm := nl_prior_P j x P in (nl_corr_x j y Pm, nl_corr_P j y Pm)
  else (nx0 s, nP0 s).
Definition nl_x k := (nl_post k).1.
Definition nl_P k := (nl_post k).2.

(** What is predicted for step k, its innovation covariance and gain. *)
Definition nl_xa k := nl_prior_x k (nl_x k).
Definition nl_Pa k := nl_prior_P k (nl_x k) (nl_P k).
Definition nl_S k := nl_innovation k (nl_xa k) (nl_Pa k).
Definition nl_K k := nl_kgain k (nl_xa k) (nl_Pa k).

(** The extended smoother on L+1 observations, i steps back from the end. *)
Definition nl_G k := nl_P k.+1 *m (njf s (nl_x k.+1) (nu s k.+1))^T *m invmx (nl_Pa k.+1).
Fixpoint nl_back_x (L i : nat) : 'cV[F]_n :=
  if i is j.+1 then let k := (L - i)%N in
    nl_x k.+1 + nl_G k *m (nl_back_x L j - nl_xa k.+1)
  else nl_x L.+1.
Fixpoint nl_back_P (L i : nat) : 'M[F]_n :=
  if i is j.+1 then let k := (L - i)%N in
    nl_P k.+1 + nl_G k *m (nl_back_P L j - nl_Pa k.+1) *m (nl_G k)^T
  else nl_P L.+1.

Definition nl_filter_answer :=
  filter_answer (fun k => nl_x k.+1) (fun k => nl_P k.+1) nl_K nl_S.
Definition nl_smooth_answer (L : nat) :=
  smooth_answer nl_K nl_S (fun k => nl_back_x L (L - k)) (fun k => nl_back_P L (L - k)) nl_Pa L.
End NonLinear.
End EndSpec.
