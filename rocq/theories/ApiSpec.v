(** * ApiSpec: vocabulary for stating the structural properties

    What a user can do and see, without the library's loops: running predict
    and update by hand, the number of steps, slices of arrays. *)
From Coq Require Import ZArith.
From mathcomp Require Import ssreflect ssrfun ssrbool eqtype ssrnat seq.
From Verif Require Import Np NpLemmas Kf Ekf.

Set Implicit Arguments.
Unset Strict Implicit.
Unset Printing Implicit Defensive.

Section Spec.
Variable N : num.
Notation arr := (arr N).

(** len(a), 0 for a scalar. *)
Definition nrows (a : arr) : nat := head 0 (shp a).

(** a has a length (is not a scalar). *)
Definition sized (a : arr) : bool := shp a != [::].

(** a[k:] and a[:k] *)
Definition from_row (k : nat) (a : arr) : arr :=
  Arr (dt a) ((nrows a - k) :: behead (shp a)) (drop (k * nelem (behead (shp a))) (dat a)).
Definition upto_row (k : nat) (a : arr) : arr :=
  Arr (dt a) (minn k (nrows a) :: behead (shp a)) (take (k * nelem (behead (shp a))) (dat a)).

(** a is a float64 array of shape [sh]. *)
Definition float_shaped (sh : shape) (a : arr) : bool :=
  [&& wf a, (if dt a is DFloat then true else false) & shp a == sh].

(** An object as a user can have it: built by the constructor, then used in
    any history of calls. *)
Definition constructed (self : kf N) : Prop :=
  exists A xk B Pk H Q R ss self0 cs,
    kf_init A xk B Pk H Q R ss = Ok self0 /\ self = (kf_calls self0 cs).1.
Definition e_constructed (self : ekf N) : Prop :=
  exists xk Pk Q R f h jA jH self0 cs,
    ekf_init xk Pk Q R f h jA jH = Ok self0 /\ self = (e_calls self0 cs).1.

(** a[:k] and b[:k] are the same. *)
Definition agree (k : nat) (a b : arr) : Prop :=
  [/\ k <= nrows a, k <= nrows b & forall i, i < k -> row a i = row b i].

(** Running [k] steps by hand: parameters are looked up by index, predict and
    update are called alternately. *)
Fixpoint by_hand (self : kf N) (Z U : arr) (k : nat) : meth N (arr * arr) :=
  match k with
  | 0 => mret (kf_xk self, kf_Pk self)
  | j.+1 =>
    mdo xP <- by_hand self Z U j;
    mdo Ak <- mlift (np_getitem (kf_A self) (Z.of_nat j));
    mdo Hk <- mlift (np_getitem (kf_H self) (Z.of_nat j));
    mdo Bk <- mlift (np_getitem (kf_B self) (Z.of_nat j));
    mdo uk <- mlift (np_getitem U (Z.of_nat j));
    mdo zk <- mlift (np_getitem Z (Z.of_nat j));
    mdo Qk <- mlift (np_getitem (kf_Q self) (Z.of_nat j));
    mdo Rk <- mlift (np_getitem (kf_R self) (Z.of_nat j));
    mdo pr <- mlift (kf_predict Ak xP.1 (Some Bk) (Some uk) xP.2 Qk);
    kf_update (kf_I self) Hk pr.1 pr.2 zk Rk
  end.

Fixpoint e_by_hand (self : ekf N) (Z U : arr) (k : nat) : meth N (arr * arr) :=
  match k with
  | 0 => mret (e_xk self, e_Pk self)
  | j.+1 =>
    mdo xP <- e_by_hand self Z U j;
    mdo uk <- mlift (np_getitem U (Z.of_nat j));
    mdo zk <- mlift (np_getitem Z (Z.of_nat j));
    mdo Qk <- mlift (np_getitem (e_Q self) (Z.of_nat j));
    mdo Rk <- mlift (np_getitem (e_R self) (Z.of_nat j));
    mdo pr <- mlift (ekf_predict self xP.1 (Some uk) xP.2 Qk);
    ekf_update self pr.1 pr.2 zk Rk
  end.

(** One backward (Rauch-Tung-Striebel) step by hand: from the filtered pair of
    step k and the smoothed pair of step k+1 to the smoothed pair of step k,
    with the prediction of step k+1 recomputed by [pred] and its transition
    matrix [A]. *)
Definition rts_by_hand (pred : arr * arr -> res (arr * arr)) (A : arr)
    (filtered next : arr * arr) : res (arr * arr) :=
  do ahead <- pred filtered;
  do PA <- np_matmul filtered.2 (np_T A);
  do X <- np_solve (np_T ahead.2) (np_T PA);
  let G := np_T X in
  do dx <- np_sub next.1 ahead.1;
  do Gdx <- np_matmul G dx;
  do x <- np_add filtered.1 Gdx;
  do dP <- np_sub next.2 ahead.2;
  do dPG <- np_matmul dP (np_T G);
  do GdPG <- np_matmul G dPG;
  do P <- np_add filtered.2 GdPG;
  Ok (x, P).

(** Every element of [a] is NaN; no element is. *)
Definition every_nan (a : arr) : Prop := forall ix, valid (shp a) ix -> snan (get a ix).
Definition no_nan (a : arr) : Prop := forall ix, valid (shp a) ix -> ~~ snan (get a ix).

(** predict without a control term. *)
Definition plain_predict (Ak xk Pk Qk : arr) : res (arr * arr) :=
  do x <- np_matmul Ak xk;
  do PA <- np_matmul Pk (np_T Ak);
  do APA <- np_matmul Ak PA;
  do P <- np_add APA Qk;
  Ok (x, P).

(** predict with a control term. *)
Definition control_predict (Ak xk Bk uk Pk Qk : arr) : res (arr * arr) :=
  do Ax <- np_matmul Ak xk;
  do Bu <- np_matmul Bk uk;
  do x <- np_add Ax Bu;
  do PA <- np_matmul Pk (np_T Ak);
  do APA <- np_matmul Ak PA;
  do P <- np_add APA Qk;
  Ok (x, P).

(** [k] steps by hand of the model without control. *)
Fixpoint by_hand_plain (self : kf N) (Z : arr) (k : nat) : meth N (arr * arr) :=
  match k with
  | 0 => mret (kf_xk self, kf_Pk self)
  | j.+1 =>
    mdo xP <- by_hand_plain self Z j;
    mdo pr <- mlift (plain_predict (row (kf_A self) j) xP.1 xP.2 (row (kf_Q self) j));
    kf_update (kf_I self) (row (kf_H self) j) pr.1 pr.2 (row Z j) (row (kf_R self) j)
  end.

(** The filter that takes over after [k] steps with posterior (x, P): same
    sizes, the parameters of the remaining steps. *)
Definition resumed (self : kf N) (k : nat) (x P : arr) : kf N :=
  Kf (from_row k (kf_A self)) x (from_row k (kf_B self)) P (from_row k (kf_H self))
     (from_row k (kf_Q self)) (from_row k (kf_R self)) (kf_size self) (kf_I self)
     (kf_gains self).

Definition e_resumed (self : ekf N) (k : nat) (x P : arr) : ekf N :=
  Ekf (e_f self) (e_h self) (e_jA self) (e_jH self) x P (from_row k (e_Q self))
      (from_row k (e_R self)) (e_size self) (e_I self) (e_gains self).

(** The same object with its parameter sequences cut after [k] rows. *)
Definition truncated (self : kf N) (k : nat) : kf N :=
  Kf (upto_row k (kf_A self)) (kf_xk self) (upto_row k (kf_B self)) (kf_Pk self)
     (upto_row k (kf_H self)) (upto_row k (kf_Q self)) (upto_row k (kf_R self))
     (kf_size self) (kf_I self) (kf_gains self).

Definition e_truncated (self : ekf N) (k : nat) : ekf N :=
  Ekf (e_f self) (e_h self) (e_jA self) (e_jH self) (e_xk self) (e_Pk self)
      (upto_row k (e_Q self)) (upto_row k (e_R self)) (e_size self) (e_I self) (e_gains self).

(** np.concatenate([a, b]) *)
Definition vstack (a b : arr) : arr :=
  Arr (dt a) ((nrows a + nrows b) :: behead (shp a)) (dat a ++ dat b).

(** The control array in use: the one passed, or the placeholder for None. *)
Definition control (Z : arr) (U : option arr) : arr := check_none_and_broadcast U Z.

(** Number of steps filter makes. *)
Definition steps (self : kf N) (Z : arr) (U : option arr) : nat :=
  foldr minn (nrows Z) [:: nrows (kf_A self); nrows (kf_H self); nrows (kf_B self);
                           nrows (control Z U); nrows (kf_Q self); nrows (kf_R self)].

Definition e_steps (self : ekf N) (Z : arr) (U : option arr) : nat :=
  foldr minn (nrows Z) [:: nrows (control Z U); nrows (e_Q self); nrows (e_R self)].

(** Every sequence filter iterates over has a length. *)
Definition iterable (self : kf N) (Z : arr) (U : option arr) : bool :=
  all sized [:: Z; kf_A self; kf_H self; kf_B self; control Z U; kf_Q self; kf_R self].

Definition e_iterable (self : ekf N) (Z : arr) (U : option arr) : bool :=
  all sized [:: Z; control Z U; e_Q self; e_R self].

(** ** Documented layouts, for n states, m sensors and p controls *)

(** An (r,c) matrix. *)
Definition mat_layout (r c : nat) (a : arr) : bool := wf a && (shp a == [:: r; c]).

(** A state vector: shape (n,), or (1,1) in dimension one with one sensor. *)
Definition vec_layout (n m : nat) (x : arr) : bool :=
  wf x && ((shp x == [:: n]) || [&& n == 1, m == 1 & shp x == [:: 1; 1]]).

(** An observation: shape (m,), a scalar when m = 1, (1,1) when n = m = 1. *)
Definition obs_layout (n m : nat) (z : arr) : bool :=
  wf z && [|| shp z == [:: m], (m == 1) && (shp z == [::])
            | [&& n == 1, m == 1 & shp z == [:: 1; 1]]].

(** A noise covariance: an (n,n) matrix, or something numpy broadcasts to one
    by repeating a single number. *)
Definition cov_layout (n : nat) (q : arr) : bool :=
  wf q && [|| shp q == [:: n; n], shp q == [::], shp q == [:: 1] | shp q == [:: 1; 1]].

(** Control: either the matrix or the vector is all NaN, or they are (n,p) and
    (p,). *)
Definition ctl_layout (n p : nat) (b u : arr) : bool :=
  [|| np_isnan_all b, np_isnan_all u | mat_layout n p b && (wf u && (shp u == [:: p]))].

(** A filter call as documented. *)
Definition well_shaped (n m p : nat) (self : kf N) (Z : arr) (U : option arr) : Prop :=
  [/\ iterable self Z U, kf_size self = n, vec_layout n m (kf_xk self), mat_layout n n (kf_Pk self) &
   forall k, k < steps self Z U ->
     [/\ mat_layout n n (row (kf_A self) k), mat_layout m n (row (kf_H self) k),
         ctl_layout n p (row (kf_B self) k) (row (control Z U) k) &
      [/\ obs_layout n m (row Z k), cov_layout n (row (kf_Q self) k) &
          cov_layout m (row (kf_R self) k)]]].

(** An extended filter whose callables return documented shapes: whatever the
    state of shape (n,) and whichever the control row.  With one sensor, h (like
    the rows of Z) can return a bare number, of shape (). *)
Definition e_well_shaped (n m : nat) (self : ekf N) (Z : arr) (U : option arr) : Prop :=
  let vec k (a : arr) := wf a && (shp a == [:: k]) in
  let obs (a : arr) := wf a && ((shp a == [:: m]) || ((m == 1) && (shp a == [::]))) in
  [/\ e_iterable self Z U, e_size self = n, vec n (e_xk self), mat_layout n n (e_Pk self) &
   forall k, k < e_steps self Z U ->
     [/\ cov_layout n (row (e_Q self) k), cov_layout m (row (e_R self) k),
         obs (row Z k) &
      forall x, wf x -> shp x = [:: n] -> exists y Ak zh Hk,
      [/\ e_f self x (Some (row (control Z U) k)) = Ok y /\ vec n y,
          e_jA self x (Some (row (control Z U) k)) = Ok Ak /\ mat_layout n n Ak,
          e_h self x = Ok zh /\ obs zh & e_jH self x = Ok Hk /\ mat_layout m n Hk]]].

(** np.full((n, n), q) for an array [q] of one number, [q] itself otherwise. *)
Definition spread (n : nat) (q : arr) : arr :=
  if size (dat q) == 1 then mk (dt q) [:: n; n] (fun _ => nth (VI 0) (dat q) 0) else q.

(** The same object with other noise covariances. *)
Definition with_noise (self : kf N) (Q R : arr) : kf N :=
  Kf (kf_A self) (kf_xk self) (kf_B self) (kf_Pk self) (kf_H self) Q R (kf_size self)
     (kf_I self) (kf_gains self).

(** ** NaN *)

(** Some element of [a] is NaN. *)
Definition some_nan (a : arr) : Prop := exists2 ix, valid (shp a) ix & snan (get a ix).

(** The posterior (x, P) can be written in row k of (states, errors), and what
    the row then holds; for a float64 x of shape (n,) and P of shape (n,n)
    these are x and P themselves (NpLemmas.fit_id, fits_id). *)
Definition storable (n : nat) (xP : arr * arr) : bool :=
  let ok dst v := assign_ok (strip_ones (size (shp v) - size dst) (shp v)) dst in
  ok [:: n] xP.1 && ok [:: n; n] xP.2.

End Spec.

(** NaN propagates through the arithmetic: sums, differences, and products of
    an m*k matrix whose row i or a k*n matrix whose column j contains a NaN. *)
Definition nan_propagates (N : num) : Prop :=
  [/\ (forall a b : K N, kisnan a || kisnan b -> kisnan (kadd a b)),
      (forall a b : K N, kisnan a || kisnan b -> kisnan (ksub a b)) &
      (forall kd m k n (a b : seq (K N)) i j l x0, i < m -> j < n -> l < k ->
         size a = m * k -> size b = k * n ->
         kisnan (nth x0 a (i * k + l)) || kisnan (nth x0 b (l * n + j)) ->
         kisnan (kmm kd m k n a b i j))].
