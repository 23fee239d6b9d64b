(** * RobustSpec: disturbances (vocabulary of C80 - C84)

    Pure specification: nothing here depends on the model of the code. *)
From mathcomp Require Import all_ssreflect all_algebra.
From Verif Require Import Loewner Textbook Prob.

Set Implicit Arguments.
Unset Strict Implicit.
Unset Printing Implicit Defensive.
Import GRing.Theory Num.Theory.
Local Open Scope ring_scope.

Section Spec.
Variable F : realFieldType.

(** Noises over T steps of mean zero, with any second moments and any
    correlations. *)
Definition centred_noises (W : prob F) n m (T : nat) (e : rvec W n) (w : nat -> rvec W n) (v : nat -> rvec W m) : Prop :=
  [/\ L2v e, mean e = 0 & forall k, (k < T)%N -> [/\ L2v (w k), L2v (v k), mean (w k) = 0 & mean (v k) = 0]].

Section Traj.
Variables (n m : nat) (s : model F n m).

(** X is a trajectory (X 0 before the first step, X k.+1 at step k) that departs
    from the model s by P0 l at the start and by Q_k a_k in step k; the reading z_k
    departs by R_k b_k from what X should show.  (If P0, Q_k and R_k are
    invertible every trajectory is of this form.) *)
Definition departs (T : nat) (X : nat -> 'cV[F]_n) (l : 'cV[F]_n) (a : nat -> 'cV[F]_n) (b : nat -> 'cV[F]_m) : Prop :=
  X 0%N = mx0 s + mP0 s *m l /\
  forall k, (k < T)%N -> X k.+1 = mA s k *m X k + mc s k + mQ s k *m a k /\ mz s k = mH s k *m X k.+1 + mR s k *m b k.

(** The departures, squared and measured by the covariances: l' P0 l + ... *)
Definition energy (T : nat) (l : 'cV[F]_n) (a : nat -> 'cV[F]_n) (b : nat -> 'cV[F]_m) : F :=
  quad (mP0 s) l + \sum_(j < T) (quad (mQ s j) (a j) + quad (mR s j) (b j)).

(** The same, of any trajectory, with the inverses of the covariances. *)
Definition length2 d (M : 'M[F]_d) (x : 'cV[F]_d) : F := (x^T *m invmx M *m x) 0 0.
Definition departure (T : nat) (X : nat -> 'cV[F]_n) : F :=
  length2 (mP0 s) (X 0%N - mx0 s) +
  \sum_(j < T) (length2 (mQ s j) (X j.+1 - (mA s j *m X j + mc s j)) +
                length2 (mR s j) (mz s j - mH s j *m X j.+1)).

(** The same system with other covariances. *)
Definition with_covs (P0 : 'M[F]_n) (Q : nat -> 'M[F]_n) (R : nat -> 'M[F]_m) : model F n m :=
  Model (mA s) (mc s) (mH s) Q R (mz s) (mx0 s) P0.
End Traj.
End Spec.
