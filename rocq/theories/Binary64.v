(** * Binary64: IEEE-754 doubles as an instance of [num], executable

    The scalar operations are those of Coq.Floats.SpecFloat (round to nearest
    even, 53 bits, emax 1024): no axiom, no primitive float.  The matrix
    product adds the products from left to right; the solver is LU with partial
    pivoting (LAPACK dgesv, unblocked).  The order of the additions and the
    exact operations of a real BLAS/LAPACK vary, so this is one admissible
    implementation: it is used for witnesses and for running the model, and
    nothing proved "for every num" depends on it. *)
From Coq Require Import ZArith Floats.SpecFloat.
From mathcomp Require Import ssreflect ssrfun ssrbool eqtype ssrnat seq.
From Verif Require Import Np.

Set Implicit Arguments.
Unset Strict Implicit.
Unset Printing Implicit Defensive.

Definition f64 := spec_float.
Definition fadd : f64 -> f64 -> f64 := SFadd 53 1024.
Definition fsub : f64 -> f64 -> f64 := SFsub 53 1024.
Definition fmul : f64 -> f64 -> f64 := SFmul 53 1024.
Definition fdiv : f64 -> f64 -> f64 := SFdiv 53 1024.
Definition fofZ (z : Z) : f64 := binary_normalize 53 1024 z 0 false.
Definition fisnan (x : f64) : bool := if x is S754_nan then true else false.
Definition fabs (x : f64) : f64 := SFabs x.
Definition fltb (x y : f64) : bool := SFltb x y.
Definition fleb (x y : f64) : bool := SFleb x y.
Definition fzero : f64 := S754_zero false.

(** Row-major dot products, left to right. *)
Definition f_mm (kd : mmkind) (m k n : nat) (a b : seq f64) (i j : nat) : f64 :=
  let term l := fmul (nth fzero a (i * k + l)) (nth fzero b (l * n + j)) in
  if k is k'.+1 then foldl (fun acc l => fadd acc (term l)) (term 0) (iota 1 k')
  else fzero.

(** Augmented rows: coefficients followed by right-hand sides. *)
Fixpoint chunk (T : Type) (w : nat) (fuel : nat) (s : seq T) : seq (seq T) :=
  if fuel is f.+1 then take w s :: chunk w f (drop w s) else [::].

(** Position of the row with the largest leading magnitude (idamax: the first
    of the largest). *)
Fixpoint amax (best : nat) (bv : f64) (k : nat) (rows : seq (seq f64)) : nat :=
  if rows is r :: rows' then
    let v := fabs (head fzero r) in
    if fltb bv v then amax k v k.+1 rows' else amax best bv k.+1 rows'
  else best.

(** Forward elimination on rows whose first remaining column is the pivot
    column; returns the pivot rows, first column first. *)
Fixpoint elim (n : nat) (rows : seq (seq f64)) : option (seq (seq f64)) :=
  if n is n'.+1 then
    let p := amax 0 (fabs (head fzero (head [::] rows))) 0 rows in
    let prow := nth [::] rows p in
    (* dlaswp: the pivot row and the first row are exchanged *)
    let rest := behead (set_nth [::] rows p (head [::] rows)) in
    let piv := head fzero prow in
    if (if piv is S754_zero _ then true else false) then None else
    let upd r :=
      let l := fdiv (head fzero r) piv in
      [seq fsub q.1 (fmul l q.2) | q <- zip (behead r) (behead prow)] in
    omap (cons prow) (elim n' (map upd rest))
  else Some [::].

(** Back substitution for right-hand side column [c]: pivot rows from the
    last, [xs] the unknowns already found, first one first. *)
Fixpoint backsub (c : nat) (prows : seq (seq f64)) : seq f64 :=
  if prows is r :: prows' then
    let xs := backsub c prows' in
    let n := size xs in
    let rhs := nth fzero r (1 + n + c) in
    let s := foldl (fun acc q => fsub acc (fmul q.1 q.2)) rhs
                   (zip (take n (behead r)) xs) in
    fdiv s (head fzero r) :: xs
  else [::].

Definition f_solve (n r : nat) (a b : seq f64) : option (nat -> nat -> f64) :=
  let rows := [seq p.1 ++ p.2 | p <- zip (chunk n n a) (chunk r n b)] in
  if elim n rows is Some prows then
    let cols := [seq backsub c prows | c <- iota 0 r] in
    Some (fun i j => nth fzero (nth [::] cols j) i)
  else None.

(** x86-64: cvttsd2si of NaN is the "integer indefinite" value -2^63. *)
Definition binary64 : num :=
  @Num f64 fofZ S754_nan fisnan fadd fsub f_mm f_solve (- 2 ^ 63)%Z.

(** Same, on a platform where the cast of NaN to int64 is 0 (AArch64). *)
Definition binary64_arm : num :=
  @Num f64 fofZ S754_nan fisnan fadd fsub f_mm f_solve 0%Z.

(** Literals: [dec m e] is the double nearest to m / 10^e (m and 10^e exact). *)
Definition dec (m : Z) (e : Z) : f64 := fdiv (fofZ m) (fofZ (10 ^ e)).

(** Arrays of doubles and of integers. *)
Definition farr (sh : shape) (xs : seq f64) : arr binary64 :=
  Arr DFloat sh (map (@VF binary64) xs).
Definition iarr (sh : shape) (xs : seq Z) : arr binary64 :=
  Arr DInt sh (map (@VI binary64) xs).
Definition fconst (sh : shape) (x : f64) : arr binary64 := farr sh (nseq (nelem sh) x).

(** |a - b| <= tol * |b|, elementwise (numpy.testing.assert_allclose). *)
Definition fclose (tol : f64) (a b : f64) : bool :=
  fleb (fabs (fsub a b)) (fmul tol (fabs b)).
Definition aclose (tol : f64) (a : arr binary64) (b : seq f64) : bool :=
  (size (dat a) == size b) && all (fun p => fclose tol (@tofl binary64 p.1) p.2) (zip (dat a) b).
