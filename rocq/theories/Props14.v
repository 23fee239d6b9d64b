(** * Props14: C68: integer inputs

    Parameters and observations written without a decimal point are int64 arrays
    in numpy.  [as_float] is .astype(float); [conv_call] and [conv_res] convert
    the arguments of a call and the arrays of an outcome (IntSpec.v). *)
From Coq Require Import ZArith Lia List Floats.SpecFloat.
From mathcomp Require Import all_ssreflect all_algebra.
From Verif Require Import Np NpLemmas Kf ApiSpec FilterLemmas FilterThms SmoothLemmas Exact Binary64 IntSpec IntSim IntThms IntExact IntExact64.

Set Implicit Arguments.
Unset Strict Implicit.
Unset Printing Implicit Defensive.

Delimit Scope Z_scope with BZ.

Section Props.
Variable N : num.
Notation arr := (arr N).

(** Any history of calls with small integers gives, on the converted arguments,
    the converted outcomes and the same gains, as long as no integer that can
    occur, 3 d^4 M^5 at most, leaves the range [L] in which the float arithmetic
    is exact on integers. *)
Theorem C68_integers_as_floats (d : nat) (M L : Z) A xk B Pk H Q R ss (o : kf N) cs :
  (0 < d)%N -> Z.le 1 M -> Z.le (first_step_max d M) L -> Z.lt L (2 ^ 63) -> int_exact N L ->
  small_args d M A xk B Pk H Q R ss -> (forall c, In c cs -> small_call d M c) ->
  kf_init A xk B Pk H Q R ss = Ok o ->
  exists o', [/\ kf_init (as_float A) (as_float xk) (omap (@as_float N) B) (as_float Pk)
                         (as_float H) (as_float Q) (as_float R) ss = Ok o',
                 (kf_calls o' (map (@conv_call N) cs)).2 = map (@conv_res N) (kf_calls o cs).2 &
                 kf_gains (kf_calls o' (map (@conv_call N) cs)).1 = kf_gains (kf_calls o cs).1].
Proof.
move=> d1 M1 HL L63 NL Ha Hc Ho.
have [o' [E1 E2 E3]] := init_rel Ha Ho.
exists o'; have [] := calls_rel d1 M1 L63 HL NL (cs := cs) E2 E3; last by move=> -> ->.
move=> i c0 Hi; apply: Hc.
elim: cs i Hi {Ho E1 E2 E3} => [|c cs IH] [|i] //= Hi; first by left.
by right; apply: IH.
Qed.

(** filter and smooth return float64 arrays: their results are equal. *)
Theorem C68_filter_and_smooth (d : nat) (M L : Z) A xk B Pk H Q R ss (o : kf N) Z U :
  (0 < d)%N -> Z.le 1 M -> Z.le (first_step_max d M) L -> Z.lt L (2 ^ 63) -> int_exact N L ->
  small_args d M A xk B Pk H Q R ss -> small_rows d M Z ->
  (if U is Some u then is_true (small_rows d M u) else dt Z = DFloat) ->
  kf_init A xk B Pk H Q R ss = Ok o ->
  exists o', [/\ kf_init (as_float A) (as_float xk) (omap (@as_float N) B) (as_float Pk)
                         (as_float H) (as_float Q) (as_float R) ss = Ok o',
                 (forall g, kf_filter o' (as_float Z) (omap (@as_float N) U) g = kf_filter o Z U g) &
                 (forall g, kf_smooth o' (as_float Z) (omap (@as_float N) U) g = kf_smooth o Z U g)].
Proof.
move=> d1 M1 HL L63 NL Ha HZ HU Ho.
have [o' [E1 E2 E3]] := init_rel Ha Ho; exists o'.
have [H1 H2] := control_as_float HZ HU.
have eqr (r r' : res (arr * arr)) : rres eq r r' -> r' = r.
  by case: r r' => [x|e] [x'|e'] //= ->.
split=> // g.
  have [F1 F2] := sim_filter d1 M1 L63 HL NL E2 HZ H1 H2 g.
  by rewrite [LHS]surjective_pairing [RHS]surjective_pairing F1 (eqr _ _ F2).
have [F1 F2] := sim_smooth d1 M1 L63 HL NL E2 HZ H1 H2 g.
by rewrite [LHS]surjective_pairing [RHS]surjective_pairing F1 (eqr _ _ F2).
Qed.

(** What the constructor refuses does not depend on the dtype. *)
Theorem C68_constructor_raises A xk B Pk H Q R ss e :
  @kf_init N A xk B Pk H Q R ss = Raise e ->
  kf_init (as_float A) (as_float xk) (omap (@as_float N) B) (as_float Pk)
          (as_float H) (as_float Q) (as_float R) ss = Raise e.
Proof.
rewrite /kf_init; have -> : shape0 (as_float xk) = shape0 xk by [].
by case: (match ss with Some _ => _ | None => _ end).
Qed.

End Props.

(** Exact arithmetic and doubles (matrix products accumulated from +0) are
    exact on integers: up to any size, and up to 2^53. *)
Theorem C68_exact_arithmetic (F : realFieldType) (oracle : oracle_type F) n2i L :
  int_exact (exact oracle n2i) L.
Proof. exact: exact_int_exact. Qed.

Theorem C68_doubles n2i : int_exact (doubles0 n2i) (2 ^ 53).
Proof. exact: doubles_int_exact. Qed.

(** Beyond the bound the claim is false: with A = [[4]], x0 = [2^62] the
    first prediction wraps to 0 in int64, while in float64 it is 2^64. *)
Section Overflow.
Let N := doubles0 (- 2 ^ 63).
Let ia sh (s : seq Z) : arr N := Arr DInt sh (map (@VI N) s).
Let run (c : arr N -> arr N) : res (arr N * arr N) :=
  match kf_init (c (ia [:: 1; 1; 1] [:: 4]%BZ)) (c (ia [:: 1] [:: 2 ^ 62]%BZ)) (Some (c (ia [:: 1; 1; 1] [:: 0]%BZ)))
                (c (ia [:: 1; 1] [:: 1]%BZ)) (c (ia [:: 1; 1; 1] [:: 1]%BZ)) (c (ia [:: 1; 1; 1] [:: 1]%BZ))
                (c (ia [:: 1; 1; 1] [:: 1]%BZ)) None with
  | Ok o => (kf_filter o (c (ia [:: 1; 1] [:: 0]%BZ)) (Some (c (ia [:: 1; 1] [:: 0]%BZ))) [::]).2
  | Raise e => Raise e
  end.

Theorem C68_overflow_refuted :
  (if run id is Ok (x, _) then map (@tofl N) (dat x) = [:: S754_zero false] else False) /\
  (if run (@as_float N) is Ok (x, _) then
     if map (@tofl N) (dat x) is [:: S754_finite false _ _] then True else False else False).
Proof. by split; vm_compute. Qed.
End Overflow.

(** ** A case: two states, one sensor, all parameters written as integers *)
Section Case.
Let N := doubles0 (- 2 ^ 63).
Let ia sh (s : seq Z) : arr N := Arr DInt sh (map (@VI N) s).
Let A := ia [:: 2; 2; 2] [:: 1; 1; 0; 1; 1; 1; 0; 1]%BZ.
Let x0 := ia [:: 2] [:: 10; -3]%BZ.
Let B := ia [:: 2; 2; 1] [:: 1; 0; 2; 1]%BZ.
Let P0 := ia [:: 2; 2] [:: 5; 1; 1; 7]%BZ.
Let H := ia [:: 2; 1; 2] [:: 1; 0; 1; 1]%BZ.
Let Q := ia [:: 2; 2; 2] [:: 1; 0; 0; 1; 2; 0; 0; 3]%BZ.
Let R := ia [:: 2; 1; 1] [:: 2; 4]%BZ.
Let Zs := ia [:: 2; 1] [:: 8; 11]%BZ.
Let U := ia [:: 2; 1] [:: 1; -1]%BZ.

Example C68_case :
  [/\ small_args 2 20 A x0 (Some B) P0 H Q R None, small_rows 2 20 Zs && small_rows 2 20 U,
      Z.le (first_step_max 2 20) (2 ^ 53) &
      if kf_init A x0 (Some B) P0 H Q R None is Ok o then
        if (kf_smooth o Zs (Some U) [::]).2 is Ok (x, P) then True else False
      else False].
Proof. by split; [split; vm_compute|vm_compute|vm_compute|vm_compute]. Qed.
End Case.
