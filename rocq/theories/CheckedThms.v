(** * CheckedThms: what the checked doubles keep is what doubles, and numbers
    with exponents of any size, compute *)
From Coq Require Import ZArith Reals Floats.SpecFloat.
From Flocq Require Import Core.Core.
From mathcomp Require Import ssreflect ssrfun ssrbool eqtype ssrnat seq.
From Verif Require Import Np NpLemmas Kf Binary64 Lu Param Zeros Graded GradedOps Ieee Round64 Wide WideThms.
From Verif Require Import Checked LaxOps LaxParam.

Set Implicit Arguments.
Unset Strict Implicit.
Unset Printing Implicit Defensive.

Section Inst.
Variable z : Z.
Notation N := (checked z).

(** Kept: the same double, finite. *)
Definition to_double : K N -> K (doubles z) -> Prop := lax (S := double_ops) id.
(** Kept: its value. *)
Definition to_wide : K N -> K (wide z) -> Prop := lax (S := wide_ops) (fun v => Some (real v)).
(** B and U, which are compared with NaN: all kept, or NaN. *)
Definition to_double_nan (x : K N) (y : K (doubles z)) : Prop :=
  match (x : option f64) with Some v => good v /\ y = v | None => y = S754_nan end.
Definition to_wide_nan (x : K N) (y : K (wide z)) : Prop :=
  match (x : option f64) with Some v => good v /\ y = Some (real v) | None => y = None end.

Lemma good0 : good fzero. Proof. by split. Qed.

Lemma double_lagree : lagree to_double to_double_nan.
Proof.
have a0 : id fzero = o0 double_ops by [].
have aA a b v : good a -> good b -> keep true (fadd a b) = Some v -> good v /\ oadd (o := double_ops) a b = v.
  by move=> Ga Gb E; have [-> [Gv _]] := keep_add a b v Ga Gb E.
have aS a b v : good a -> good b -> keep true (fsub a b) = Some v -> good v /\ osub (o := double_ops) a b = v.
  by move=> Ga Gb E; have [-> [Gv _]] := keep_sub a b v Ga Gb E.
have aM a b v : good a -> good b -> keep (is_zero a || is_zero b || fltb minn (fabs (fmul a b))) (fmul a b) = Some v ->
    good v /\ omul (o := double_ops) a b = v.
  by move=> Ga Gb E; have [-> [Gv _]] := keep_mul a b v Ga Gb E.
have aD a b v : good a -> good b -> is_zero b = false -> keep (is_zero a || fltb minn (fabs (fdiv a b))) (fdiv a b) = Some v ->
    good v /\ odiv (o := double_ops) a b = v.
  by move=> Ga Gb Nb E; have [-> [Gv _]] := keep_div a b v Ga Gb Nb E.
have aL a b : good a -> good b -> oltb (o := double_ops) (oabs (o := double_ops) a) (oabs (o := double_ops) b) = fltb (fabs a) (fabs b) by [].
have aZ a : good a -> ois0 (o := double_ops) a = is_zero a by [].
split=> //.
- by case=> [v|] y.
- by case=> [v|] y //= => [[[_ Fv] ->]|->] //; case: v Fv.
- by move=> n; rewrite /to_double /lax /=; case E : (keep _ _) => [v|] //; have [-> [Gv _]] := keep_ofZ _ _ E.
- by move=> x y x' y' h1 h2; exact: (@ladd double_ops id aA _ _ _ _ h1 h2).
- by move=> x y x' y' h1 h2; exact: (@lsub double_ops id aS _ _ _ _ h1 h2).
- move=> kd m k n a b a' b' i j _ _ /rel_list_seq Ha /rel_list_seq Hb _ _.
  exact: (@q_mm checked_ops double_ops (lax (S := double_ops) id) (@l0 double_ops id a0) (@ladd double_ops id aA) (@lmul double_ops id aM) kd m k n a b a' b' i j Ha Hb).
- move=> n r a b a' b' f Sa _ /rel_list_seq Ha /rel_list_seq Hb.
  exact: (@lax_solve double_ops id a0 aS aM aD aL aZ n r a b a' b' f Sa Ha Hb).
Qed.

Lemma wide_lagree : lagree to_wide to_wide_nan.
Proof.
pose e v : O wide_ops := Some (real v).
have a0 : e fzero = o0 wide_ops by [].
have aA a b v : good a -> good b -> keep true (fadd a b) = Some v -> good v /\ oadd (o := wide_ops) (e a) (e b) = e v.
  by move=> Ga Gb E; have [_ [Gv h]] := keep_add a b v Ga Gb E; rewrite /e h.
have aS a b v : good a -> good b -> keep true (fsub a b) = Some v -> good v /\ osub (o := wide_ops) (e a) (e b) = e v.
  by move=> Ga Gb E; have [_ [Gv h]] := keep_sub a b v Ga Gb E; rewrite /e h.
have aM a b v : good a -> good b -> keep (is_zero a || is_zero b || fltb minn (fabs (fmul a b))) (fmul a b) = Some v ->
    good v /\ omul (o := wide_ops) (e a) (e b) = e v.
  by move=> Ga Gb E; have [_ [Gv h]] := keep_mul a b v Ga Gb E; rewrite /e h.
have aD a b v : good a -> good b -> is_zero b = false -> keep (is_zero a || fltb minn (fabs (fdiv a b))) (fdiv a b) = Some v ->
    good v /\ odiv (o := wide_ops) (e a) (e b) = e v.
  move=> Ga Gb Nb E; have [_ [Gv h]] := keep_div a b v Ga Gb Nb E; rewrite /e h.
  by rewrite /= is0_real // Nb.
have aL a b : good a -> good b -> oltb (o := wide_ops) (oabs (o := wide_ops) (e a)) (oabs (o := wide_ops) (e b)) = fltb (fabs a) (fabs b).
  by move=> Ga Gb; rewrite (lt_real _ _ (good_abs _ Ga) (good_abs _ Gb)) !real_abs.
have aZ a : good a -> ois0 (o := wide_ops) (e a) = is_zero a by move=> Ga; rewrite /= is0_real.
split=> //.
- by case=> [v|] y.
- by case=> [v|] y //= => [[_ ->]|->].
- by move=> n; rewrite /to_wide /lax /=; case E : (keep _ _) => [v|] //; have [_ [Gv ->]] := keep_ofZ _ _ E.
- by move=> x y x' y' h1 h2; exact: (@ladd wide_ops e aA _ _ _ _ h1 h2).
- by move=> x y x' y' h1 h2; exact: (@lsub wide_ops e aS _ _ _ _ h1 h2).
- move=> kd m k n a b a' b' i j _ _ /rel_list_seq Ha /rel_list_seq Hb _ _.
  exact: (@q_mm checked_ops wide_ops (lax e) (@l0 wide_ops e a0) (@ladd wide_ops e aA) (@lmul wide_ops e aM) kd m k n a b a' b' i j Ha Hb).
- move=> n r a b a' b' f Sa _ /rel_list_seq Ha /rel_list_seq Hb.
  exact: (@lax_solve wide_ops e a0 aS aM aD aL aZ n r a b a' b' f Sa Ha Hb).
Qed.
End Inst.
