(** * WideThms: with exponents of any size, a power of two as unit is exact *)
From Coq Require Import ZArith Reals Floats.SpecFloat Lra Lia.
From Flocq Require Import Core.Core.
From mathcomp Require Import ssreflect ssrfun ssrbool eqtype ssrnat seq.
From Verif Require Import Np NpLemmas Kf Binary64 Lu Param Zeros Graded GradedOps Wide.

Set Implicit Arguments.
Unset Strict Implicit.
Unset Printing Implicit Defensive.

(** y is 2^g times x. *)
Definition times2 (g : Z) (x y : option R) : Prop :=
  match x, y with
  | Some a, Some b => b = Rmult a (bpow radix2 g)
  | None, None => True
  | _, _ => False
  end.

Section Pow.
Local Open Scope R_scope.
Notation p := (bpow radix2).

Lemma times2_0 g : times2 g (Some 0) (Some 0).
Proof. by rewrite /times2 Rmult_0_l. Qed.

Lemma times2_add g x y x' y' : times2 g x x' -> times2 g y y' -> times2 g (wlift Rplus x y) (wlift Rplus x' y').
Proof. by case: x x' y y' => [a|] [a'|] [b|] [b'|] //= -> ->; rewrite -Rmult_plus_distr_r wround_pow. Qed.
Lemma times2_sub g x y x' y' : times2 g x x' -> times2 g y y' -> times2 g (wlift Rminus x y) (wlift Rminus x' y').
Proof.
case: x x' y y' => [a|] [a'|] [b|] [b'|] //= -> ->; rewrite -wround_pow; congr wround; ring.
Qed.
Lemma times2_mul g h x y x' y' : times2 g x x' -> times2 h y y' ->
  times2 (g + h)%Z (wlift Rmult x y) (wlift Rmult x' y').
Proof.
case: x x' y y' => [a|] [a'|] [b|] [b'|] //= -> ->; rewrite -wround_pow bpow_plus; congr wround; ring.
Qed.

Lemma pow_n0 g : p g <> 0. Proof. exact: (Rgt_not_eq _ _ (bpow_gt_0 radix2 g)). Qed.

Lemma is0_pow a g : Req_bool (a * p g) 0 = Req_bool a 0.
Proof.
case: (Req_bool_spec a 0) => [->|Ha]; first by rewrite Rmult_0_l Req_bool_true.
by rewrite Req_bool_false // => /Rmult_integral [//|]; exact: pow_n0.
Qed.

Lemma times2_div g h x y x' y' : times2 g x x' -> times2 h y y' -> ois0 (o := wide_ops) y = false ->
  times2 (g - h)%Z (odiv (o := wide_ops) x y) (odiv (o := wide_ops) x' y').
Proof.
case: y y' => [b|] [b'|] //=.
move=> Hx ->; rewrite is0_pow => Hb; rewrite Hb.
case: x x' Hx => [a|] [a'|] //= ->; rewrite -wround_pow /Z.sub bpow_plus bpow_opp; congr wround.
have Nb : b <> 0 by move=> E; move: Hb; rewrite E Req_bool_true.
have Nh := @pow_n0 h; by field.
Qed.

Lemma times2_ltb g x y x' y' : times2 g x x' -> times2 g y y' ->
  oltb (o := wide_ops) (oabs (o := wide_ops) x) (oabs (o := wide_ops) y) =
  oltb (o := wide_ops) (oabs (o := wide_ops) x') (oabs (o := wide_ops) y').
Proof.
case: x x' y y' => [a|] [a'|] [b|] [b'|] //= -> ->; rewrite !Rabs_mult.
have Hp : 0 < Rabs (p g) by apply: Rabs_pos_lt; exact: pow_n0.
case: (Rlt_bool_spec (Rabs a) (Rabs b)) => H; case: Rlt_bool_spec => // H'.
- by have := Rmult_lt_compat_r _ _ _ Hp H; lra.
- by have := Rmult_le_compat_r _ _ _ (Rlt_le _ _ Hp) H; lra.
Qed.

Lemma times2_is0 g x x' : times2 g x x' -> ois0 (o := wide_ops) x = ois0 (o := wide_ops) x'.
Proof. by case: x x' => [a|] [a'|] //= ->; rewrite is0_pow. Qed.
End Pow.

Lemma wofZ0 : wround (IZR 0) = IZR 0. Proof. exact: wround_0. Qed.

Theorem times2_agree z : gagree (N1 := wide z) (N2 := wide z) times2 (Z.eqb 0).
Proof.
split=> //.
- by move=> g /=; rewrite wround_0 Rmult_0_l.
- by move=> g n /Z.eqb_eq <- /=; rewrite Rmult_1_r.
- by move=> g h /Z.eqb_eq <- /Z.eqb_eq <-.
- by move=> g [a|] [a'|].
- exact: times2_add.
- exact: times2_sub.
- move=> g h kd m k n a b a' b' i j _ _ /rel_list_seq Ha /rel_list_seq Hb _ _.
  exact: (@gq_mm wide_ops wide_ops times2 times2_0 times2_add times2_mul g h kd m k n a b a' b' i j Ha Hb).
- move=> g h n r a b a' b' Sa _ /rel_list_seq Ha /rel_list_seq Hb.
  have := @gq_solve wide_ops wide_ops times2 times2_0 times2_sub times2_mul times2_div times2_ltb times2_is0 g h n r a b a' b' Sa Ha Hb.
  rewrite -[ksolve n r a b]/(@g_solve wide_ops n r a b) -[ksolve n r a' b']/(@g_solve wide_ops n r a' b').
  by case: (g_solve (S := wide_ops) n r a b) => [f|]; case: (g_solve (S := wide_ops) n r a' b') => [f'|] //= h0 i j _ _; exact: h0.
Qed.
