(** * Wide: numbers of 53 bits with exponents of any size

    Doubles, but for overflow and underflow: a number is a real with a mantissa
    of 53 bits and any exponent; every operation is the exact one, rounded to
    nearest, ties to even.  One value stands for NaN and the infinities (a
    quotient by zero).  The product and the solver are those of Lu.v, which are
    also those of the model of doubles. *)
From Coq Require Import ZArith Reals Floats.SpecFloat Lra Lia Bool.
From Flocq Require Import Core.Core IEEE754.BinarySingleNaN.
From Flocq Require Plus_error.
Import Plus_error.
From Verif Require Import Np Binary64 Lu Ieee Round64.
#[local] Open Scope R_scope.

#[local] Existing Instance Ieee.Hprec.
#[local] Existing Instance Ieee.Hmax.

(** 53 bits, no bound on the exponent. *)
Definition wround (x : R) : R := round radix2 (FLX_exp 53) ZnearestE x.

Definition wlift (f : R -> R -> R) (x y : option R) : option R :=
  match x, y with Some a, Some b => Some (wround (f a b)) | _, _ => None end.

(** Arithmetic; abs, < and "is zero" for the pivots. *)
Definition wide_ops : ops :=
  @Ops (option R) (Some 0) (wlift Rplus) (wlift Rminus) (wlift Rmult)
    (fun x y => match y with Some b => if Req_bool b 0 then None else wlift Rdiv x y | None => None end)
    (option_map Rabs)
    (fun x y => match x, y with Some a, Some b => Rlt_bool a b | _, _ => false end)
    (fun x => match x with Some a => Req_bool a 0 | None => false end).

(** The arithmetic for the model of the library; z: what a platform makes of
    NaN cast to int64. *)
Definition wide (z : Z) : num :=
  @Num (option R) (fun n => Some (wround (IZR n))) None
    (fun x => match x with None => true | _ => false end)
    (wlift Rplus) (wlift Rminus) (@g_mm wide_ops) (@g_solve wide_ops) z.

(** ** Rounding does not see a power of two *)
Lemma mag_pow g x : x <> 0 -> mag radix2 (x * bpow radix2 g) = (mag radix2 x + g)%Z :> Z.
Proof. now intros H; apply mag_mult_bpow. Qed.

Lemma wround_0 : wround 0 = 0.
Proof. unfold wround; apply round_0; auto with typeclass_instances. Qed.

Lemma wround_pow g x : wround (x * bpow radix2 g) = wround x * bpow radix2 g.
Proof.
destruct (Req_dec x 0) as [->|H]; [rewrite Rmult_0_l, wround_0; ring|].
unfold wround, round, scaled_mantissa, cexp, F2R; simpl.
rewrite mag_pow by easy; unfold FLX_exp.
replace (mag radix2 x + g - 53)%Z with (mag radix2 x - 53 + g)%Z by lia.
rewrite bpow_plus.
replace (x * bpow radix2 g * bpow radix2 (- (mag radix2 x - 53 + g))) with (x * bpow radix2 (- (mag radix2 x - 53))).
- ring.
- rewrite Rmult_assoc, <- bpow_plus; do 2 f_equal; lia.
Qed.

(** ** Inside the range of doubles it is the arithmetic of doubles *)

(** Zero, or a normal double. *)
Definition normal (x : R) : Prop := x = 0 \/ bpow radix2 (-1022) <= Rabs x.

Lemma rnd_wround x : normal x -> rnd x = wround x.
Proof.
intros [->|H]; [now rewrite wround_0, rnd_0|].
rewrite fexp_FLT; unfold wround; apply round_FLT_FLX; exact H.
Qed.

Lemma format_wide (X : b64) : generic_format radix2 (FLX_exp 53) (B2R X).
Proof.
generalize (generic_format_B2R 53 1024 X); change (SpecFloat.fexp 53 1024) with (FLT_exp (-1074) 53).
apply generic_format_FLX_FLT.
Qed.

Lemma rnd_wround_plus (X Y : b64) : rnd (B2R X + B2R Y) = wround (B2R X + B2R Y).
Proof.
destruct (Rle_or_lt (bpow radix2 (-1022)) (Rabs (B2R X + B2R Y))) as [H|H].
- now apply rnd_wround; right.
- assert (G : generic_format radix2 (FLT_exp (-1074) 53) (B2R X + B2R Y)).
  { apply (FLT_format_plus_small radix2 (-1074) 53); try (change (FLT_exp (-1074) 53) with (SpecFloat.fexp 53 1024); apply generic_format_B2R).
    apply Rlt_le, Rlt_le_trans with (1 := H); apply bpow_le; lia. }
  rewrite fexp_FLT; unfold wround; rewrite !round_generic; auto with typeclass_instances.
  apply (generic_format_FLX_FLT radix2 (-1074) 53); exact G.
Qed.

Lemma wide_add x y : double x = true -> double y = true -> finite (fadd x y) = true ->
  wlift Rplus (Some (real x)) (Some (real y)) = Some (real (fadd x y)).
Proof.
intros Dx Dy F; destruct (add_real x y Dx Dy F) as (_ & _ & ->).
destruct (doubleP x Dx) as [X ->], (doubleP y Dy) as [Y ->]; rewrite !real_B; simpl; now rewrite rnd_wround_plus.
Qed.

Lemma wide_sub x y : double x = true -> double y = true -> finite (fsub x y) = true ->
  wlift Rminus (Some (real x)) (Some (real y)) = Some (real (fsub x y)).
Proof.
intros Dx Dy F; destruct (sub_real x y Dx Dy F) as (_ & _ & ->).
destruct (doubleP x Dx) as [X ->], (doubleP y Dy) as [Y ->]; rewrite !real_B; simpl.
unfold Rminus; rewrite <- B2R_Bopp; now rewrite rnd_wround_plus.
Qed.

Lemma wide_mul x y : double x = true -> double y = true -> finite (fmul x y) = true -> normal (real x * real y) ->
  wlift Rmult (Some (real x)) (Some (real y)) = Some (real (fmul x y)).
Proof.
intros Dx Dy F N; destruct (mul_real x y Dx Dy F) as (_ & _ & ->); simpl; now rewrite rnd_wround.
Qed.

Lemma wide_div x y : double x = true -> double y = true -> finite (fdiv x y) = true -> real y <> 0 ->
  normal (real x / real y) -> finite y = true ->
  @odiv wide_ops (Some (real x)) (Some (real y)) = Some (real (fdiv x y)).
Proof.
intros Dx Dy F H N Fy; rewrite (div_real x y Dx Dy H F); simpl.
now rewrite Req_bool_false by easy; rewrite rnd_wround.
Qed.
