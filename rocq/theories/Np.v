(** * Np: the fragment of numpy that kalmankit calls

    /repo/src/kalmankit/{utils,standard,extended}.py contain no arithmetic of
    their own: every number is produced by numpy.  This file models the numpy
    calls that occur there ([np.zeros], [np.identity], [np.full_like],
    [np.isnan(.).all()], [@], [+], [-], [.T], [np.linalg.solve],
    [np.atleast_1d], indexing, item assignment, iteration, [len]) on arrays of
    any number of dimensions, with numpy's shape checks, broadcasting, dtype
    promotion and exceptions.

    The float64 arithmetic itself is a parameter (record [num]): the theorems
    that quantify over every [num] hold for IEEE-754 doubles, whatever BLAS and
    LAPACK do, as well as for exact arithmetic.

    Not modelled: dtypes other than int64 and float64, memory layout, views and
    aliasing (no modelled operation mutates an array it did not allocate). *)
From Coq Require Import ZArith.
From mathcomp Require Import ssreflect ssrfun ssrbool eqtype ssrnat seq.

Set Implicit Arguments.
Unset Strict Implicit.
Unset Printing Implicit Defensive.

(** Python exceptions, as values. [UserExn] is an exception raised by a
    user-supplied callable (extended filter). *)
Inductive exn :=
  ValueError | TypeError | IndexError | LinAlgError | UserExn (tag : nat).

Inductive res (T : Type) := Ok (x : T) | Raise (e : exn).
Arguments Ok {T} x.
Arguments Raise {T} e.

Definition rbind S T (m : res S) (f : S -> res T) : res T :=
  match m with Ok x => f x | Raise e => Raise e end.

Notation "'do' x <- m ; f" := (rbind m (fun x => f))
  (at level 200, x name, m at level 100, f at level 200).

(** numpy dtypes that are modelled. *)
Inductive dtype := DInt | DFloat.

Definition promote (d e : dtype) : dtype :=
  match d, e with DInt, DInt => DInt | _, _ => DFloat end.

(** int64 arithmetic wraps around. *)
Definition wrap64 (z : Z) : Z :=
  ((z + 2 ^ 63) mod 2 ^ 64 - 2 ^ 63)%Z.

(** Which of the two operands of [@] is one-dimensional: numpy calls a
    different BLAS routine in each case, so the result may differ in bits. *)
Inductive mmkind := MatMat | MatVec | VecMat | VecVec.

(** Float64 arithmetic.  [kmm kd m k n a b i j] is entry (i,j) of the product
    of the row-major m*k matrix [a] and the k*n matrix [b]; [ksolve n r a b] is
    the solution of the n*n system [a] for the n*r right-hand side [b], [None]
    when LAPACK reports an exactly singular factor (numpy: LinAlgError).
    [knan2int] is what the C cast of NaN to int64 yields (platform dependent:
    -2^63 on x86-64, 0 on AArch64). *)
Record num := Num {
  K : Type;
  kofZ : Z -> K;
  knan : K;
  kisnan : K -> bool;
  kadd : K -> K -> K;
  ksub : K -> K -> K;
  kmm : mmkind -> nat -> nat -> nat -> seq K -> seq K -> nat -> nat -> K;
  ksolve : nat -> nat -> seq K -> seq K -> option (nat -> nat -> K);
  knan2int : Z
}.

Definition shape := seq nat.

(** Number of elements of a shape. *)
Fixpoint nelem (sh : shape) : nat :=
  if sh is d :: sh' then d * nelem sh' else 1.

(** Every multi-index of a shape, in C (row-major) order. *)
Fixpoint indices (sh : shape) : seq (seq nat) :=
  if sh is d :: sh' then
    flatten [seq [seq i :: ix | ix <- indices sh'] | i <- iota 0 d]
  else [:: [::]].

(** Row-major position of a multi-index. *)
Fixpoint offset (sh : shape) (ix : seq nat) : nat :=
  match sh, ix with
  | _ :: sh', i :: ix' => i * nelem sh' + offset sh' ix'
  | _, _ => 0
  end.

Section Arrays.
Variable N : num.

Inductive scal := VI (z : Z) | VF (k : K N).

(** An ndarray: dtype, shape and elements in C order. 0-d arrays and numpy or
    Python scalars are arrays of shape [::]. *)
Record arr := Arr { dt : dtype; shp : shape; dat : seq scal }.

Definition scal_dtype (v : scal) : dtype := if v is VI _ then DInt else DFloat.

(** What it is to be a numpy array: the size fits the shape and the elements
    have the dtype of the array. *)
Definition wf (a : arr) : bool :=
  (size (dat a) == nelem (shp a)) &&
  all (fun v => match dt a, v with
                | DInt, VI _ | DFloat, VF _ => true | _, _ => false end) (dat a).

Definition tofl (v : scal) : K N := match v with VI z => kofZ N z | VF k => k end.
Definition snan (v : scal) : bool := match v with VI _ => false | VF k => kisnan k end.

Definition ndim (a : arr) : nat := size (shp a).

Definition get (a : arr) (ix : seq nat) : scal :=
  nth (VI 0) (dat a) (offset (shp a) ix).

(** The array of shape [sh] with element [f ix] at index [ix]. *)
Definition mk (d : dtype) (sh : shape) (f : seq nat -> scal) : arr :=
  Arr d sh [seq f ix | ix <- indices sh].

(** np.zeros(sh) *)
Definition np_zeros (sh : shape) : arr := mk DFloat sh (fun _ => VF (kofZ N 0)).

(** np.identity(n) *)
Definition np_identity (n : nat) : arr :=
  mk DFloat [:: n; n]
     (fun ix => VF (if nth 0 ix 0 == nth 0 ix 1 then kofZ N 1 else kofZ N 0)).

(** np.full_like(a, np.nan): keeps the dtype, so an integer array is filled
    with the C cast of NaN. *)
Definition np_full_like_nan (a : arr) : arr :=
  Arr (dt a) (shp a)
      (nseq (nelem (shp a))
            (match dt a with DInt => VI (knan2int N) | DFloat => VF (knan N) end)).

(** np.isnan(a).all() *)
Definition np_isnan_all (a : arr) : bool := all snan (dat a).

(** a.T: all axes reversed. *)
Definition np_T (a : arr) : arr :=
  mk (dt a) (rev (shp a)) (fun ix => get a (rev ix)).

(** np.atleast_1d(a) *)
Definition np_atleast_1d (a : arr) : arr :=
  if shp a is [::] then Arr (dt a) [:: 1] (dat a) else a.

(** Broadcasting of two dimensions, of two shapes (aligned on the right), and
    the index of an operand for an index of the result. *)
Definition bdim (d e : nat) : option nat :=
  if d == e then Some d else if d == 1 then Some e
  else if e == 1 then Some d else None.

Fixpoint bshape_rev (s t : shape) : option shape :=
  match s, t with
  | [::], u | u, [::] => Some u
  | d :: s', e :: t' =>
    match bdim d e, bshape_rev s' t' with
    | Some x, Some u => Some (x :: u)
    | _, _ => None
    end
  end.

Definition bshape (s t : shape) : option shape :=
  omap rev (bshape_rev (rev s) (rev t)).

Definition bidx (s : shape) (ix : seq nat) : seq nat :=
  [seq (if p.1 == 1 then 0 else p.2) | p <- zip s (drop (size ix - size s) ix)].

(** Elementwise binary operation. *)
Definition sbin (fz : Z -> Z -> Z) (fk : K N -> K N -> K N) (v w : scal) : scal :=
  match v, w with
  | VI a, VI b => VI (wrap64 (fz a b))
  | _, _ => VF (fk (tofl v) (tofl w))
  end.

Definition np_bin fz fk (a b : arr) : res arr :=
  match bshape (shp a) (shp b) with
  | None => Raise ValueError
  | Some sh =>
    Ok (mk (promote (dt a) (dt b)) sh
           (fun ix => sbin fz fk (get a (bidx (shp a) ix)) (get b (bidx (shp b) ix))))
  end.

(** a + b and a - b *)
Definition np_add := np_bin Z.add (@kadd N).
Definition np_sub := np_bin Z.sub (@ksub N).

(** The r*c matrix of a stack found at batch index [bix], row-major. *)
Definition mat_at (a : arr) (bix : seq nat) (r c : nat) : seq scal :=
  [seq get a (bix ++ [:: i; j]) | i <- iota 0 r, j <- iota 0 c].

(** Exact sum of products, used for the int64 product (wrap-around is a ring
    morphism, so wrapping once at the end is the same as at every step). *)
Definition zdot (k n : nat) (a b : seq Z) (i j : nat) : Z :=
  foldr (fun l acc => (nth 0%Z a (i * k + l)%N * nth 0%Z b (l * n + j)%N + acc)%Z)
        0%Z (iota 0 k).

Definition toZ (v : scal) : Z := if v is VI z then z else 0%Z.

(** Entry (i,j) of the product of two matrices given row-major. *)
Definition mm_entry (d : dtype) kd m k n (a b : seq scal) (i j : nat) : scal :=
  match d with
  | DInt => VI (wrap64 (zdot k n (map toZ a) (map toZ b) i j))
  | DFloat => VF (kmm kd m k n (map tofl a) (map tofl b) i j)
  end.

Definition reshape (a : arr) (sh : shape) : arr := Arr (dt a) sh (dat a).

(** a @ b : 0-d operands are refused, a 1-d operand is extended by a dimension
    of length 1 that is removed from the result, leading dimensions are
    broadcast. *)
Definition np_matmul (a b : arr) : res arr :=
  match shp a, shp b with
  | [::], _ | _, [::] => Raise ValueError
  | sa, sb =>
    let a1 := size sa == 1 in
    let b1 := size sb == 1 in
    let sa' := if a1 then 1 :: sa else sa in
    let sb' := if b1 then rcons sb 1 else sb in
    let a' := reshape a sa' in
    let b' := reshape b sb' in
    let ba := take (size sa' - 2) sa' in
    let bb := take (size sb' - 2) sb' in
    let m := nth 0 sa' (size sa' - 2) in
    let k := nth 0 sa' (size sa' - 1) in
    let k' := nth 0 sb' (size sb' - 2) in
    let n := nth 0 sb' (size sb' - 1) in
    if k != k' then Raise ValueError else
    match bshape ba bb with
    | None => Raise ValueError
    | Some bs =>
      let d := promote (dt a) (dt b) in
      let kd := if a1 then (if b1 then VecVec else VecMat)
                else (if b1 then MatVec else MatMat) in
      let full :=
        mk d (bs ++ [:: m; n]) (fun ix =>
          let bix := take (size bs) ix in
          mm_entry d kd m k n (mat_at a' (bidx ba bix) m k)
                   (mat_at b' (bidx bb bix) k n)
                   (nth 0 ix (size bs)) (nth 0 ix (size bs).+1)) in
      Ok (reshape full (bs ++ (if a1 then [::] else [:: m]) ++
                              (if b1 then [::] else [:: n])))
    end
  end.

(** np.linalg.solve(a, b), numpy >= 2.0: [b] is a vector when it is 1-d, a
    stack of matrices otherwise; int64 operands are converted to float64. *)
Definition np_solve (a b : arr) : res arr :=
  let sa := shp a in
  let sb := shp b in
  if size sa < 2 then Raise LinAlgError else
  let n := nth 0 sa (size sa - 1) in
  if nth 0 sa (size sa - 2) != n then Raise LinAlgError else
  let b1 := size sb == 1 in
  let sb' := if b1 then rcons sb 1 else sb in
  if size sb' < 2 then Raise ValueError else
  if nth 0 sb' (size sb' - 2) != n then Raise ValueError else
  let r := nth 0 sb' (size sb' - 1) in
  let b' := reshape b sb' in
  let ba := take (size sa - 2) sa in
  let bb := take (size sb' - 2) sb' in
  match bshape ba bb with
  | None => Raise ValueError
  | Some bs =>
    let sol bix := ksolve n r (map tofl (mat_at a (bidx ba bix) n n))
                              (map tofl (mat_at b' (bidx bb bix) n r)) in
    if all (fun bix => isSome (sol bix)) (indices bs) then
      let full :=
        mk DFloat (bs ++ [:: n; r]) (fun ix =>
          let x := sol (take (size bs) ix) in
          VF (if x is Some g then g (nth 0 ix (size bs)) (nth 0 ix (size bs).+1)
              else knan N)) in
      Ok (reshape full (bs ++ n :: (if b1 then [::] else [:: r])))
    else Raise LinAlgError
  end.

(** len(a) *)
Definition np_len (a : arr) : res nat :=
  if shp a is d :: _ then Ok d else Raise TypeError.

(** a[k] for 0 <= k < len(a) *)
Definition row (a : arr) (k : nat) : arr :=
  let sh := behead (shp a) in
  Arr (dt a) sh (take (nelem sh) (drop (k * nelem sh) (dat a))).

(** iter(a): the rows of [a], in order. *)
Definition np_iter (a : arr) : res (seq arr) :=
  if shp a is d :: _ then Ok [seq row a k | k <- iota 0 d] else Raise TypeError.

(** a[k] for a Python integer k: negative indices count from the end. *)
Definition np_pos (a : arr) (k : Z) : res nat :=
  if shp a is d :: _ then
    let d' := Z.of_nat d in
    let k' := if (k <? 0)%Z then (k + d')%Z else k in
    if ((0 <=? k') && (k' <? d'))%Z then Ok (Z.to_nat k') else Raise IndexError
  else Raise IndexError.

Definition np_getitem (a : arr) (k : Z) : res arr :=
  do i <- np_pos a k; Ok (row a i).

(** Assignment to a float64 array: the source loses its leading dimensions of
    length 1 beyond the destination's, then must broadcast to it. *)
Fixpoint strip_ones (n : nat) (s : shape) : shape :=
  if n is n'.+1 then if s is 1 :: s' then strip_ones n' s' else s else s.

Definition assign_ok (src dst : shape) : bool :=
  (size src <= size dst) &&
  all (fun p => (p.1 == 1) || (p.1 == p.2))
      (zip src (drop (size dst - size src) dst)).

Definition np_setitem (a : arr) (k : Z) (v : arr) : res arr :=
  do i <- np_pos a k;
  let dst := behead (shp a) in
  let src := strip_ones (size (shp v) - size dst) (shp v) in
  if assign_ok src dst then
    let v' := reshape v src in
    let new := [seq VF (tofl (get v' (bidx src ix))) | ix <- indices dst] in
    Ok (Arr (dt a) (shp a)
            (take (i * nelem dst) (dat a) ++ new ++ drop (i.+1 * nelem dst) (dat a)))
  else Raise ValueError.

End Arrays.

Arguments VI {N} z.
Arguments VF {N} k.
