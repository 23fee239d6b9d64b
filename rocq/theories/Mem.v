(** * Mem: numpy arrays as objects in memory

    [Np] treats an array as a value.  Here an array is a reference: a buffer,
    and for every element (in C order) its position in the buffer.  Indexing,
    iteration, [.T] and [np.atleast_1d] give views that share the buffer;
    [np.zeros], [np.identity], [np.full_like], [@], [+], [-] and
    [np.linalg.solve] allocate a new buffer; item assignment writes in place.
    The values are those of [Np].

    Simplified: an element of a 1-d array (numpy scalar) is a copy in a new
    buffer; buffers are never freed; every array is writeable. *)
From Coq Require Import ZArith.
From mathcomp Require Import ssreflect ssrfun ssrbool eqtype ssrnat seq.
From Verif Require Import Np.

Set Implicit Arguments.
Unset Strict Implicit.
Unset Printing Implicit Defensive.

Record ref := Ref { rloc : nat; rdt : dtype; rshp : shape; rpos : seq nat }.

Section Mem.
Variable N : num.
Notation arr := (arr N).
Notation scal := (scal N).

(** The memory: buffer number [l] is [nth [::] h l]; allocation appends. *)
Definition heap := seq (seq scal).

(** The value an array reference has in memory [h]. *)
Definition val (h : heap) (r : ref) : arr :=
  Arr (rdt r) (rshp r) [seq nth (VI 0) (nth [::] h (rloc r)) p | p <- rpos r].

(** A computation that can allocate, write and raise. *)
Definition hres (T : Type) := heap -> heap * res T.
Definition hret T (x : T) : hres T := fun h => (h, Ok x).
Definition hraise T (e : exn) : hres T := fun h => (h, Raise e).
Definition hbind S T (m : hres S) (f : S -> hres T) : hres T := fun h =>
  match m h with (h', Ok x) => f x h' | (h', Raise e) => (h', Raise e) end.

(** A newly allocated C-contiguous array with value [a]. *)
Definition h_new (a : arr) : hres ref := fun h =>
  (rcons h (dat a), Ok (Ref (size h) (dt a) (shp a) (iota 0 (size (dat a))))).

Definition h_op2 (op : arr -> arr -> res arr) (a b : ref) : hres ref := fun h =>
  match op (val h a) (val h b) with Ok c => h_new c h | Raise e => (h, Raise e) end.

(** a @ b, a + b, a - b, np.linalg.solve(a, b) *)
Definition h_matmul := h_op2 (@np_matmul N).
Definition h_add := h_op2 (@np_add N).
Definition h_sub := h_op2 (@np_sub N).
Definition h_solve := h_op2 (@np_solve N).

(** np.full_like(a, np.nan) *)
Definition h_full_like_nan (a : ref) : hres ref := fun h => h_new (np_full_like_nan (val h a)) h.
(** np.isnan(a).all() *)
Definition h_isnan_all (a : ref) : hres bool := fun h => (h, Ok (np_isnan_all (val h a))).

(** a.T, a view *)
Definition h_T (a : ref) : ref :=
  Ref (rloc a) (rdt a) (rev (rshp a))
      [seq nth 0 (rpos a) (offset (rshp a) (rev ix)) | ix <- indices (rev (rshp a))].

(** np.atleast_1d(a), a view or [a] itself *)
Definition h_atleast_1d (a : ref) : ref :=
  if rshp a is [::] then Ref (rloc a) (rdt a) [:: 1] (rpos a) else a.

(** a[k] for 0 <= k < len(a): a view when [a] has two dimensions or more, a
    scalar (a copy) when it has one. *)
Definition view_row (a : ref) (k : nat) : ref :=
  let sh := behead (rshp a) in
  Ref (rloc a) (rdt a) sh (take (nelem sh) (drop (k * nelem sh) (rpos a))).
Definition h_row (a : ref) (k : nat) : hres ref := fun h =>
  if size (rshp a) == 1 then h_new (row (val h a) k) h else (h, Ok (view_row a k)).

(** a[k] for a Python integer k *)
Definition h_getitem (a : ref) (k : Z) : hres ref := fun h =>
  match np_pos (val h a) k with Ok i => h_row a i h | Raise e => (h, Raise e) end.

(** len(a) and the length check made by iter(a) *)
Definition h_len (a : ref) : hres nat := fun h => (h, np_len (val h a)).

(** Writing the values [vs] at the positions [ps] of a buffer. *)
Definition write (b : seq scal) (ps : seq nat) (vs : seq scal) : seq scal :=
  foldl (fun b pv => set_nth (VI 0) b pv.1 pv.2) b (zip ps vs).

(** a[k] = v for a float64 array [a]; the source is read before the write
    (numpy copies it when it overlaps the destination). *)
Definition h_setitem (a : ref) (k : Z) (v : ref) : hres unit := fun h =>
  match np_pos (val h a) k with
  | Raise e => (h, Raise e)
  | Ok i =>
    let dst := behead (rshp a) in
    let src := strip_ones (size (rshp v) - size dst) (rshp v) in
    if assign_ok src dst then
      let v' := reshape (val h v) src in
      let new := [seq VF (tofl (get v' (bidx src ix))) | ix <- indices dst] in
      let ps := take (nelem dst) (drop (i * nelem dst) (rpos a)) in
      (set_nth [::] h (rloc a) (write (nth [::] h (rloc a)) ps new), Ok tt)
    else (h, Raise ValueError)
  end.

(** Methods also append references to the object's list kalman_gains. *)
Definition hmeth (T : Type) := seq ref -> heap -> seq ref * (heap * res T).
Definition hmret T (x : T) : hmeth T := fun g h => (g, (h, Ok x)).
Definition hmlift T (m : hres T) : hmeth T := fun g h => (g, m h).
Definition hmbind S T (m : hmeth S) (f : S -> hmeth T) : hmeth T := fun g h =>
  match m g h with
  | (g', (h', Ok x)) => f x g' h'
  | (g', (h', Raise e)) => (g', (h', Raise e))
  end.
Definition h_append_gain (Kk : ref) : hmeth unit := fun g h => (rcons g Kk, (h, Ok tt)).

End Mem.

Notation "'hdo' x <- m ; f" := (hbind m (fun x => f))
  (at level 200, x name, m at level 100, f at level 200).
Notation "'hmdo' x <- m ; f" := (hmbind m (fun x => f))
  (at level 200, x name, m at level 100, f at level 200).
