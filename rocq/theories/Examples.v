(** * Examples: the five example programs of README.md (section Usage)

    What each main() of /repo/examples computes with the library, for a data
    series of any length and any content and any values of the constants: the
    arrays it builds, the constructor call, the filter and smooth calls, and
    what it reads off the results.  Not modelled: drawing the random data (the
    theorems range over all data) and plotting.  Arithmetic is exact (an ordered
    field), sine and cosine are two arbitrary functions; Props42 also takes the
    real numbers with the real sine and cosine. *)
From Coq Require Import ZArith.
From mathcomp Require Import all_ssreflect all_algebra.
From Verif Require Import Np NpLemmas Kf Ekf Exact Repr Build.

Set Implicit Arguments.
Unset Strict Implicit.
Unset Printing Implicit Defensive.
Import GRing.Theory Num.Theory.
Local Open Scope ring_scope.
Delimit Scope Z_scope with Z. Delimit Scope nat_scope with N.

Section Examples.
Variable F : realFieldType.
Variable oracle : oracle_type F.
Variable n2i : Z.
Notation N := (exact oracle n2i).
Notation arr := (arr N).
Notation vec := (vec_arr oracle n2i).
Notation mat := (mx_arr oracle n2i).
Notation mats := (mxs_arr oracle n2i).
Notation nums := (nums_arr oracle n2i).

(** np.array of the integers [l], of shape [sh]. *)
Definition ints (sh : shape) (l : seq Z) : arr := Arr DInt sh [seq VI z | z <- l].
(** [[a, b]], [a, b] as a column, [[a, b], [c, d]]. *)
Definition row2 (a b : F) : 'M[F]_(1, 2) := \row_j (if j == 0 then a else b).
Definition col2 (a b : F) : 'cV[F]_2 := \col_i (if i == 0 then a else b).
Definition mat2 (a b c d : F) : 'M[F]_2 :=
  \matrix_(i, j) (if i == 0 then (if j == 0 then a else b) else (if j == 0 then c else d)).

(** ndarray.item(): the number an array of one number holds, as an array of
    shape (). *)
Definition np_item (a : arr) : res (scal N) :=
  if dat a is [:: v] then Ok v else Raise ValueError.

(** [f(x) for x in l], stopping at the first that raises. *)
Fixpoint comprehension (A B : Type) (f : A -> res B) (l : seq A) : res (seq B) :=
  if l is x :: l' then do y <- f x; do ys <- comprehension f l'; Ok (y :: ys) else Ok [::].

(** ** examples/market_beta.py:22-46, main
    [x], [y] are the two series stock_x and stock_y (lines 25-26), [q] and [r]
    the two noise variances, both 0.01 in the code (lines 37-38). *)
Definition market_beta (T : nat) (x y : nat -> F) (q r : F) : res (arr * arr) :=
  do kf <- kf_init
    (mats T (fun _ => 1%:M : 'M_2))              (* :31 A = np.array([np.eye(2)] * len(Z)) *)
    (ints [:: 2%N] [:: 0; 0]%Z)                  (* :34 xk = np.array([0, 0]) *)
    None                                         (* :45 B=None *)
    (mat (1%:M : 'M_2))                          (* :35 Pk = np.eye(2) *)
    (mats T (fun k => row2 (x k) 1))             (* :32 H = expand_dims(vstack(x, ones).T, axis=1) *)
    (mats T (fun _ => q%:M : 'M_2))              (* :37 Q = np.array([0.01 * np.eye(2)] * len(Z)) *)
    (nums T (fun _ => r))                        (* :38 R = np.ones((len(Z))) * 0.01 *)
    None;
  (kf_filter kf (nums T y) None (kf_gains kf)).2. (* :46 kf.filter(Z=Z, U=None) *)

(** ** examples/moving_average.py:50-72, main
    [z] are the observations (line 53), [q] and [r] the noise variances 0.005
    and 0.01 (lines 60, 63).  Returns states, errors and the list of gains. *)
Definition moving_average (T : nat) (z : nat -> F) (q r : F) : res (arr * arr * seq (scal N)) :=
  do kf <- kf_init
    (mats T (fun _ => 1%:M : 'M_1))              (* :56 A = expand_dims(ones((len(Z), 1)), axis=1) *)
    (ints [:: 1%N; 1%N] [:: 1]%Z)                (* :57 xk = np.array([[1]]) *)
    None
    (ints [:: 1%N; 1%N] [:: 1]%Z)                (* :59 Pk = np.array([[1]]) *)
    (mats T (fun _ => 1%:M : 'M_1))              (* :62 H = A.copy() *)
    (nums T (fun _ => q))                        (* :60 Q = np.ones(len(Z)) * 0.005 *)
    (nums T (fun _ => r))                        (* :63 R = np.ones((len(Z))) * 0.01 *)
    None;
  let call := kf_filter kf (nums T z) None (kf_gains kf) in   (* :71 *)
  do se <- call.2;
  do gains <- comprehension np_item call.1;      (* :72 [val.item() for val in kf.kalman_gains] *)
  Ok (se, gains).

(** ** examples/constant_velocity_smoothing.py:15-87
    [z] are the observations, [dt] is DT, [v] the variance of the acceleration
    (PROCESS_ACCELERATION_STD**2), [r] that of an observation
    (OBSERVATION_STD**2), [p] the initial variance 10.  Lines 20-28: *)
Definition transition_covariance (dt v : F) : 'M[F]_2 :=
  v *: mat2 (dt ^+ 4 / 4%:R) (dt ^+ 3 / 2%:R) (dt ^+ 3 / 2%:R) (dt ^+ 2).

(** main (lines 54-87): what filter and smooth return. *)
Definition constant_velocity (T : nat) (z : nat -> F) (dt v r p : F) : res ((arr * arr) * (arr * arr)) :=
  do kf <- kf_init
    (mats T (fun k => if k is 0 then 1%:M else mat2 1 dt 0 1))   (* :61-66 A: identity, then the matrix *)
    (vec (0 : 'cV_2))                                            (* :78 xk = np.array([0.0, 0.0]) *)
    None
    (mat (p%:M : 'M_2))                                          (* :80 Pk = np.eye(2) * 10.0 *)
    (mats T (fun _ => row2 1 0))                                 (* :67 H = np.tile([[1.0, 0.0]], (len(Z), 1, 1)) *)
    (mats T (fun k => if k is 0 then 0 else transition_covariance dt v))   (* :68-73 Q: zeros, then the covariance *)
    (nums T (fun _ => r))                                        (* :74 R = np.ones(len(Z)) * OBSERVATION_STD**2 *)
    None;
  let filtered := kf_filter kf (nums T z) None (kf_gains kf) in  (* :86 kf.filter(Z=Z) *)
  do f <- filtered.2;
  do s <- (kf_smooth kf (nums T z) None filtered.1).2;           (* :87 kf.smooth(Z=Z), on the same object *)
  Ok (f, s).

(** ** examples/pendulum.py and examples/pendulum_smoothing.py
    [sn], [cs] are np.sin and np.cos, [dt] is DT, [G] is G. *)
Section Pendulum.
Variables (sn cs : F -> F) (dt G : F).

(** pendulum.py:28-50, pendulum_smoothing.py:19-42: f, jacobian_A, h,
    jacobian_H as functions of the two numbers xk[0], xk[1] ... *)
Definition swing (x : 'cV[F]_2) : 'cV[F]_2 :=
  col2 (x 0 0 + dt * x 1 0) (x 1 0 - G * dt * sn (x 0 0)).
Definition swing_jac (x : 'cV[F]_2) : 'M[F]_2 := mat2 1 dt (- G * dt * cs (x 0 0)) 1.
Definition seen (x : 'cV[F]_2) : F := sn (x 0 0).
Definition seen_jac (x : 'cV[F]_2) : 'M[F]_(1, 2) := row2 (cs (x 0 0)) 0.

(** ... and as callables on arrays: f and the Jacobians return new arrays, h a
    bare number (shape ()); uk is not used.  Simplified: on an array that is not
    a vector of at least two numbers Python raises or returns something else;
    filter and smooth only pass vectors of two numbers. *)
Definition py_swing (x : arr) (u : option arr) : res arr := Ok (vec (swing (mx 2 1 x))).
Definition py_swing_jac (x : arr) (u : option arr) : res arr := Ok (mat (swing_jac (mx 2 1 x))).
Definition py_seen (x : arr) : res arr := Ok (num_arr oracle n2i (seen (mx 2 1 x))).
Definition py_seen_jac (x : arr) : res arr := Ok (mat (seen_jac (mx 2 1 x))).

(** pendulum.py:80, pendulum_smoothing.py:65-70 qk: c * [[DT**3/3, DT**2/2], [DT**2/2, DT]], c = 0.01. *)
Definition swing_cov (c : F) : 'M[F]_2 := c *: mat2 (dt ^+ 3 / 3%:R) (dt ^+ 2 / 2%:R) (dt ^+ 2 / 2%:R) dt.

(** The filter both programs build: [x0] is the initial angle (1.5, 1.2; the
    angular velocity is 0), [p] the initial variance (0.1, 0.2), [r] is rk. *)
Definition pendulum_filter (T : nat) (x0 p c r : F) : res (ekf N) :=
  ekf_init (vec (col2 x0 0)) (mat (p%:M : 'M_2)) (mats T (fun _ => swing_cov c)) (nums T (fun _ => r))
    py_swing py_seen py_swing_jac py_seen_jac.

(** pendulum.py:75-100, main. *)
Definition pendulum (T : nat) (z : nat -> F) (x0 p c r : F) : res (arr * arr) :=
  do ekf <- pendulum_filter T x0 p c r;
  (ekf_filter ekf (nums T z) None (e_gains ekf)).2.

(** pendulum_smoothing.py:64-87, main. *)
Definition pendulum_smoothing (T : nat) (z : nat -> F) (x0 p c r : F) : res ((arr * arr) * (arr * arr)) :=
  do ekf <- pendulum_filter T x0 p c r;
  let filtered := ekf_filter ekf (nums T z) None (e_gains ekf) in
  do f <- filtered.2;
  do s <- (ekf_smooth ekf (nums T z) None filtered.1).2;
  Ok (f, s).
End Pendulum.

End Examples.
