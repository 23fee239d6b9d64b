(** * ModelTests: the repository's own unit tests, run on the model

    These are tests of the fidelity of the model (on binary64), not proofs of
    properties: each replays a test of /repo/tests with the same data and
    tolerance. *)
From Coq Require Import ZArith Floats.SpecFloat.
From mathcomp Require Import ssreflect ssrfun ssrbool eqtype ssrnat seq.
From Verif Require Import Np Kf Ekf Binary64.

Set Implicit Arguments.
Unset Strict Implicit.
Unset Printing Implicit Defensive.

Local Notation B := binary64.

Definition d2 (xs : seq Z) : seq f64 := map (fun x => dec x 2) xs.
Definition d8 (xs : seq Z) : seq f64 := map (fun x => dec x 8) xs.

(** tests/test_standard.py:5 *)
Definition data := d2 [:: 39; 50; 48; 29; 25; 32; 34; 48; 41; 45]%Z.
Definition exp_states := d8 [:: 35454545; 42380952; 44193548; 40487805; 37450980;
  36557377; 36197183; 37654321; 38021978; 38712871]%Z.
Definition exp_cov := d8 [:: 9090909; 4761905; 3225806; 2439024; 1960784; 1639344;
  1408451; 1234568; 1098901; 990099]%Z.
Definition one := fofZ 1.

Definition with_kf (T : Type) (r : res (kf B)) (f : kf B -> T) (d : T) : T :=
  if r is Ok k then f k else d.

(** tests/test_standard.py:37-89 test_filter: int64 [[0]] and [[1]] for xk and Pk. *)
Example test_filter :
  with_kf (kf_init (fconst [:: 10; 1; 1] one) (iarr [:: 1; 1] [:: 0%Z])
                   (Some (fconst [:: 10; 1; 1] fzero)) (iarr [:: 1; 1] [:: 1%Z])
                   (fconst [:: 10; 1; 1] one) (fconst [:: 10] fzero)
                   (fconst [:: 10] (dec 1 1)) None)
    (fun k => match kf_filter k (farr [:: 10] data) (Some (fconst [:: 10; 1] fzero)) [::] with
      | (g, Ok (st, er)) => (size g == 10) && aclose (dec 1 6) st exp_states
                            && aclose (dec 1 6) er exp_cov
      | _ => false end) false.
Proof. by vm_compute. Qed.

(** tests/test_standard.py:92-142 test_smooth (5 decimals). *)
Definition exp_sm := map (fun x => dec x 5)
  [:: 42001; 43213; 41032; 35367; 32886; 34347; 36981; 41107; 41786; 42857]%Z.
Definition exp_smcov := map (fun x => dec x 5)
  [:: 498; 374; 344; 336; 334; 334; 336; 344; 375; 500]%Z.
Definition aclose_abs (tol : f64) (a : arr B) (b : seq f64) : bool :=
  (size (dat a) == size b) &&
  all (fun p => fleb (fabs (fsub (@tofl B p.1) p.2)) tol) (zip (dat a) b).

Example test_smooth :
  with_kf (kf_init (fconst [:: 10; 1; 1] one) (iarr [:: 1; 1] [:: 1%Z])
                   None (iarr [:: 1; 1] [:: 1%Z])
                   (fconst [:: 10; 1; 1] one) (fconst [:: 10] (dec 5 3))
                   (fconst [:: 10] (dec 1 2)) None)
    (fun k => match kf_smooth k (farr [:: 10] data) None [::] with
      | (g, Ok (st, er)) => (size g == 10) && aclose_abs (dec 15 6) st exp_sm
                            && aclose_abs (dec 15 6) er exp_smcov
      | _ => false end) false.
Proof. by vm_compute. Qed.

(** tests/test_extended.py:44-116 test_extended_equal_to_standard *)
Example test_extended_equal_to_standard :
  match ekf_init (iarr [:: 1; 1] [:: 0%Z]) (iarr [:: 1; 1] [:: 1%Z])
                 (fconst [:: 10] fzero) (fconst [:: 10] (dec 1 1))
                 (fun x u => if u is Some v then np_add x v else Raise TypeError)
                 (fun x => Ok x)
                 (fun _ _ => Ok (iarr [:: 1; 1] [:: 1%Z]))
                 (fun _ => Ok (iarr [:: 1; 1] [:: 1%Z])) with
  | Ok e => match ekf_filter e (farr [:: 10] data) (Some (fconst [:: 10; 1] fzero)) [::] with
      | (g, Ok (st, er)) => (size g == 10) && aclose (dec 1 6) st exp_states
                            && aclose (dec 1 6) er exp_cov
      | _ => false end
  | _ => false end.
Proof. by vm_compute. Qed.

(** tests/test_standard.py:8-34 test_predict_covariance_matches_formula, and
    the 2-d data of :187-270 run through filter and smooth (the expected values
    there come from pykalman, which is not available: only the shapes and the
    success of the run are checked here). *)
Definition d1 (xs : seq Z) := map (fun x => dec x 1) xs.
Example test_multidimensional_runs :
  with_kf (kf_init (farr [:: 3; 2; 2] (d2 [:: 100; 0; 0; 100;  100; 20; 0; 90;  80; -10; 10; 110]%Z))
                   (farr [:: 2] (d1 [:: 4; -2]%Z))
                   (Some (farr [:: 3; 2; 2] (d1 [:: 10; 0; 0; 10;  10; 0; 0; 10;  10; 0; 0; 10]%Z)))
                   (farr [:: 2; 2] (d1 [:: 7; 1; 1; 5]%Z))
                   (farr [:: 3; 2; 2] (d1 [:: 10; 0; 0; 10;  10; 1; 2; 9;  9; -2; 1; 10]%Z))
                   (farr [:: 3; 2; 2] (d2 [:: 0; 0; 0; 0;  3; 1; 1; 4;  3; 1; 1; 4]%Z))
                   (farr [:: 3; 2; 2] (d2 [:: 20; 0; 0; 15;  20; 0; 0; 15;  20; 0; 0; 15]%Z)) None)
    (fun k => match kf_smooth k (farr [:: 3; 2] (d1 [:: 12; -3; 7; 1; 11; 2]%Z))
                              (Some (farr [:: 3; 2] (d2 [:: 0; 0; 10; -5; 0; 2]%Z))) [::] with
      | (g, Ok (st, er)) => (size g == 3) && (shp st == [:: 3; 2]) && (shp er == [:: 3; 2; 2])
                            && ~~ has (@snan B) (dat st) && ~~ has (@snan B) (dat er)
      | _ => false end) false.
Proof. by vm_compute. Qed.
