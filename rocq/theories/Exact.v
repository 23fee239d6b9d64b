(** * Exact: exact arithmetic as an instance of [num]

    Real numbers are the elements of any [realFieldType] F (rational, real
    algebraic or classical real numbers), NaN is [None].  The product is the exact sum of products; the solver
    succeeds exactly on invertible matrices, with the exact solution.  What
    LAPACK does when an operand contains NaN is left open ([oracle]), and so is
    the integer that NaN is cast to ([n2i]): the theorems hold for every choice. *)
From Coq Require Import ZArith.
From mathcomp Require Import all_ssreflect all_algebra.
From Verif Require Import Np NpLemmas FilterLemmas NpShapes.

Set Implicit Arguments.
Unset Strict Implicit.
Unset Printing Implicit Defensive.
Import GRing.Theory Num.Theory.
Local Open Scope ring_scope.

Definition oracle_type (F : Type) :=
  nat -> nat -> seq (option F) -> seq (option F) -> option (nat -> nat -> option F).

Section Exact.
Variable F : realFieldType.
Variable oracle : oracle_type F.
Variable n2i : Z.

(** The integer z as an element of F. *)
Definition ofZ (z : Z) : F :=
  match z with
  | Z0 => 0
  | Zpos p => (Pos.to_nat p)%:R
  | Zneg p => - (Pos.to_nat p)%:R
  end.

Definition olift2 (f : F -> F -> F) (x y : option F) : option F :=
  match x, y with Some a, Some b => Some (f a b) | _, _ => None end.

(** Entry (i,j) of a row-major array of n columns; NaN counts as 0. *)
Definition mx_of (m n : nat) (s : seq (option F)) : 'M[F]_(m, n) :=
  \matrix_(i, j) odflt 0 (nth None s (i * n + j)).

Definition ex_mm (kd : mmkind) (m k n : nat) (a b : seq (option F)) (i j : nat) : option F :=
  if all (fun l => isSome (nth None a (i * k + l)) && isSome (nth None b (l * n + j))) (iota 0 k)
  then Some (\sum_(l < k) odflt 0 (nth None a (i * k + l)) * odflt 0 (nth None b (l * n + j)))
  else None.

Definition ex_solve (n r : nat) (a b : seq (option F)) : option (nat -> nat -> option F) :=
  if all isSome a && all isSome b then
    if mx_of n n a \in unitmx then
      Some (fun i j => Some (\sum_(l < n) (if insub i is Some i' then invmx (mx_of n n a) i' l else 0)
                                          * odflt 0 (nth None b (l * r + j))))
    else None
  else oracle n r a b.

Definition exact : num :=
  @Num (option F) (fun z => Some (ofZ z)) None (fun x => ~~ isSome x)
       (olift2 +%R) (olift2 (fun x y => x - y)) ex_mm ex_solve n2i.

End Exact.
