(** * Track: doubles that carry a bound on their error

    The arithmetic of doubles, where every number comes with a bound on its
    distance from what exact arithmetic would have given, or with none.  Bounds
    are integers, in units of 2^-k; k is a parameter (with k = 1074 every finite
    double is a whole number of units). *)
From Coq Require Import ZArith Floats.SpecFloat Lia.
From mathcomp Require Import ssreflect ssrfun ssrbool eqtype ssrnat seq.
From Verif Require Import Np NpLemmas Binary64 Lu.

Set Implicit Arguments.
Unset Strict Implicit.
Unset Printing Implicit Defensive.

Section Ops.
Variable k : Z.

(** One, in units. *)
Definition one_k : Z := Z.pow 2 k.

(** The double v in units of 2^-k, if it is a whole number of them. *)
Definition units (v : f64) : option Z :=
  match v with
  | S754_zero _ => Some 0%Z
  | S754_finite s m e => if (0 <=? e + k)%Z then Some (Z.mul (if s then Zneg m else Zpos m) (Z.pow 2 (e + k))) else None
  | _ => None
  end.

(** A double and perhaps a bound. *)
Definition tnum : Type := (f64 * option Z)%type.

(** a / b, rounded up. *)
Definition up_div (a b : Z) : Z := Z.opp (Z.div (Z.opp a) b).

(** The result v with the bound f gives from the operands' and the result's units. *)
Definition with_bound2 (x y : tnum) (v : f64) (f : Z -> Z -> Z -> Z -> Z -> option Z) : tnum :=
  (v, match x.2, y.2, units x.1, units y.1, units v with
      | Some n1, Some n2, Some i1, Some i2, Some i => f i1 n1 i2 n2 i
      | _, _, _, _, _ => None
      end).

Definition tadd (x y : tnum) : tnum :=
  with_bound2 x y (fadd x.1 y.1) (fun i1 n1 i2 n2 i => Some (n1 + n2 + Z.abs (i1 + i2 - i))%Z).
Definition tsub (x y : tnum) : tnum :=
  with_bound2 x y (fsub x.1 y.1) (fun i1 n1 i2 n2 i => Some (n1 + n2 + Z.abs (i1 - i2 - i))%Z).
Definition tmul (x y : tnum) : tnum :=
  with_bound2 x y (fmul x.1 y.1) (fun i1 n1 i2 n2 i =>
    Some (up_div (Z.abs i1 * n2 + Z.abs i2 * n1 + n1 * n2 + Z.abs (i1 * i2 - i * one_k)) one_k)).
(** No bound if the divisor may be zero. *)
Definition tdiv (x y : tnum) : tnum :=
  with_bound2 x y (fdiv x.1 y.1) (fun i1 n1 i2 n2 i =>
    if (n2 <? Z.abs i2)%Z
    then Some (up_div (Z.abs (i1 * one_k - i * i2) + n1 * one_k + Z.abs i * n2) (Z.abs i2 - n2)) else None).

Definition track_ops : ops :=
  @Ops tnum (fzero, Some 0%Z) tadd tsub tmul tdiv (fun x => (fabs x.1, x.2)) (fun x y => fltb x.1 y.1)
    (fun x => if x.1 is S754_zero _ then true else false).

Definition bounded (x : tnum) : bool := isSome x.2.

(** A system is solved only if every coefficient and every entry of the solution
    has a bound. *)
Definition track_solve (n r : nat) (a b : seq tnum) : option (nat -> nat -> tnum) :=
  if [&& all bounded a, all bounded b & 0 < r] then
    if @g_solve track_ops n r a b is Some f then
      if all (fun i => all (fun j => bounded (f i j)) (iota 0 r)) (iota 0 n)
      then Some (fun i j => if (i < n) && (j < r) then f i j else (S754_nan, None)) else None
    else None
  else None.

(** The arithmetic for the model of the library. *)
Definition tracked (z : Z) : num :=
  @Num tnum (fun m => let v := fofZ m in (v, omap (fun i => Z.abs (m * one_k - i)) (units v))) (S754_nan, None)
    (fun x => fisnan x.1) tadd tsub (@g_mm track_ops) track_solve z.
End Ops.
