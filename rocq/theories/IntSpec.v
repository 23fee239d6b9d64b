(** * IntSpec: vocabulary for integer inputs

    numpy keeps int64 arrays int64: the first prediction and innovation of a
    filter whose parameters were written without a decimal point are computed in
    wrapping 64 bit integers. *)
From Coq Require Import ZArith.
From mathcomp Require Import ssreflect ssrfun ssrbool eqtype ssrnat seq.
From Verif Require Import Np NpLemmas Kf.

Set Implicit Arguments.
Unset Strict Implicit.
Unset Printing Implicit Defensive.

Section Spec.
Variable N : num.
Notation arr := (arr N).

(** a.astype(float) *)
Definition as_float (a : arr) : arr :=
  Arr DFloat (shp a) [seq VF (tofl v) | v <- dat a].

(** The integers of [a], if any, are at most [M] in absolute value. *)
Definition ints_le (M : Z) (a : arr) : bool :=
  all (fun v => match v with VI z => Z.leb (Z.abs z) M | VF _ => true end) (dat a).

(** [a] is an array whose dimensions are at most [d] and whose integers, if
    any, are at most [M] in absolute value. *)
Definition small (d : nat) (M : Z) (a : arr) : bool :=
  [&& wf a, all (fun k => k <= d) (shp a) & ints_le M a].

(** The same for a sequence of arrays along the first axis. *)
Definition small_rows (d : nat) (M : Z) (a : arr) : bool :=
  [&& wf a, all (fun k => k <= d) (behead (shp a)) & ints_le M a].

(** The float arithmetic is exact on integers up to [L]: sums, differences, and
    products of matrices whose partial sums, in whatever order they are formed,
    stay within [L].  True of doubles for L = 2^53 and of exact arithmetic for
    every L. *)
Record int_exact (L : Z) : Prop := IntExact {
  ie_nan : forall z, (Z.abs z <= L)%Z -> ~~ kisnan (kofZ N z);
  ie_add : forall x y, (Z.abs x <= L)%Z -> (Z.abs y <= L)%Z -> (Z.abs (x + y) <= L)%Z ->
    kadd (kofZ N x) (kofZ N y) = kofZ N (x + y);
  ie_sub : forall x y, (Z.abs x <= L)%Z -> (Z.abs y <= L)%Z -> (Z.abs (x - y) <= L)%Z ->
    ksub (kofZ N x) (kofZ N y) = kofZ N (x - y);
  ie_mm : forall kd m k n (a b : seq Z) i j Ba Bb, size a = m * k -> size b = k * n ->
    i < m -> j < n -> (0 <= Ba <= L)%Z -> (0 <= Bb <= L)%Z ->
    all (fun z => Z.leb (Z.abs z) Ba) a -> all (fun z => Z.leb (Z.abs z) Bb) b ->
    (Z.of_nat k * (Ba * Bb) <= L)%Z -> (Ba * Bb <= L)%Z ->
    kmm kd m k n (map (kofZ N) a) (map (kofZ N) b) i j = kofZ N (zdot k n a b i j)
}.

(** The largest integer that can occur in a filter whose arrays are small: the
    innovation covariance of the first step. *)
Definition first_step_max (d : nat) (M : Z) : Z := (3 * Z.of_nat d ^ 4 * M ^ 5)%Z.

(** A call with its arguments converted, and with small arguments.  Without
    control, the observations must be floats already: of integers numpy makes
    an integer placeholder (C10). *)
Definition conv_call (c : call N) : call N :=
  let f := as_float in let fo := omap as_float in
  match c with
  | CPredict A x B u P Q => CPredict (f A) (f x) (fo B) (fo u) (f P) (f Q)
  | CUpdate H x P z R => CUpdate (f H) (f x) (f P) (f z) (f R)
  | CFilter Z U => CFilter (f Z) (fo U)
  | CSmooth Z U => CSmooth (f Z) (fo U)
  end.

Definition small_call (d : nat) (M : Z) (c : call N) : Prop :=
  match c with
  | CPredict A x B u P Q =>
    [/\ small d M A, small d M x, small d M P & small d M Q] /\
    (if B is Some b then small d M b else true) /\ (if u is Some v then small d M v else true)
  | CUpdate H x P z R => [/\ small d M H, small d M x, small d M P, small d M z & small d M R]
  | CFilter Z U | CSmooth Z U =>
    small_rows d M Z /\ (if U is Some u then is_true (small_rows d M u) else dt Z = DFloat)
  end.

(** An outcome with its arrays converted. *)
Definition conv_res (r : res (arr * arr)) : res (arr * arr) :=
  match r with Ok p => Ok (as_float p.1, as_float p.2) | Raise e => Raise e end.

(** The arguments of the constructor are small. *)
Record small_args (d : nat) (M : Z) (A xk : arr) (B : option arr) (Pk H Q R : arr)
    (state_size : option Z) : Prop := SmallArgs {
  sm_A : small_rows d M A; sm_H : small_rows d M H; sm_Q : small_rows d M Q; sm_R : small_rows d M R;
  sm_B : if B is Some b then is_true (small_rows d M b) else dt A = DFloat;
  sm_x : small d M xk; sm_P : small d M Pk;
  sm_ss : if state_size is Some z then (z <= Z.of_nat d)%Z else True
}.

End Spec.
