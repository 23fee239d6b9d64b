(** * RunSpec: exact runs, and the matrices an object and its data hold *)
From Coq Require Import ZArith.
From mathcomp Require Import all_ssreflect all_algebra.
From Verif Require Import Np NpLemmas Kf ApiSpec Exact Repr Textbook.

Set Implicit Arguments.
Unset Strict Implicit.
Unset Printing Implicit Defensive.
Import GRing.Theory Num.Theory.
Local Open Scope ring_scope.

Section RunSpec.
Variable F : realFieldType.
Variable oracle : oracle_type F.
Variable n2i : Z.
Notation N := (exact oracle n2i).

(** The linear model held by an object together with the data of a call.  A
    control row of which the matrix or the vector is entirely NaN counts as no
    control. *)
Definition model_of (n m p : nat) (self : kf N) (Z : arr N) (U : option (arr N)) : model F n m :=
  let u k := row (control Z U) k in
  let b k := row (kf_B self) k in
  Model (fun k => mx n n (row (kf_A self) k))
        (fun k => if np_isnan_all (b k) || np_isnan_all (u k) then 0
                  else mx n p (b k) *m mx p 1 (u k))
        (fun k => mx m n (row (kf_H self) k))
        (fun k => cov n (row (kf_Q self) k))
        (fun k => cov m (row (kf_R self) k))
        (fun k => mx m 1 (row Z k))
        (mx n 1 (kf_xk self)) (mx n n (kf_Pk self)).

(** A call as documented, on arrays without NaN other than missing controls.
    The last two conditions exclude int64 products, which wrap around: every
    product has a float64 operand as soon as A is float64, or xk and Pk are, and
    likewise one of B and U. *)
Definition exact_run (n m p : nat) (self : kf N) (Z : arr N) (U : option (arr N)) : Prop :=
  [/\ constructed self, well_shaped n m p self Z U, clean (kf_xk self), clean (kf_Pk self) &
  [/\ (forall k, (k < steps self Z U)%N ->
        [/\ clean (row (kf_A self) k), clean (row (kf_H self) k), clean (row (kf_Q self) k),
            clean (row (kf_R self) k) & clean (row Z k)]),
      (forall k, (k < steps self Z U)%N ->
        [|| np_isnan_all (row (kf_B self) k), np_isnan_all (row (control Z U) k)
          | clean (row (kf_B self) k) && clean (row (control Z U) k)]),
      dt (kf_A self) = DFloat \/ (dt (kf_xk self) = DFloat /\ dt (kf_Pk self) = DFloat) &
      dt (kf_B self) = DFloat \/ dt (control Z U) = DFloat]].

(** ** What a run returned

    [st] and [er] are the arrays filter returned.  Mean and covariance of the
    state before step k: the initial ones, or row k-1 of the output; then what
    the model predicts from them for step k. *)
Definition x_before (n m p : nat) self Z U (st : arr N) (k : nat) : 'cV[F]_n :=
  if k is j.+1 then mx n 1 (row st j) else mx0 (model_of n m p self Z U).
Definition P_before (n m p : nat) self Z U (er : arr N) (k : nat) : 'M[F]_n :=
  if k is j.+1 then mx n n (row er j) else mP0 (model_of n m p self Z U).
Definition x_prior (n m p : nat) self Z U (st : arr N) (k : nat) : 'cV[F]_n :=
  let s := model_of n m p self Z U in mA s k *m x_before n m p self Z U st k + mc s k.
Definition P_prior (n m p : nat) self Z U (er : arr N) (k : nat) : 'M[F]_n :=
  let s := model_of n m p self Z U in
  mA s k *m P_before n m p self Z U er k *m (mA s k)^T + mQ s k.

(** The gain of step k of a call that found [g] in kalman_gains and left [g']. *)
Definition gain_of (n m : nat) (g g' : seq (arr N)) (k : nat) : 'M[F]_(n, m) :=
  mx n m (nth (np_zeros N [::]) g' (size g + k)).

(** An update call as documented, on arrays without NaN; the state and the
    covariance are float64 (what predict returns). *)
Definition exact_update (n m : nat) (H x P z R : arr N) : Prop :=
  [/\ mat_layout m n H && clean H, vec_layout n m x && clean x, mat_layout n n P && clean P,
      obs_layout n m z && clean z & [/\ cov_layout m R && clean R, dt x = DFloat & dt P = DFloat]].

End RunSpec.
