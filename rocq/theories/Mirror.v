(** * Mirror: rounding to nearest does not prefer a sign *)
From Coq Require Import ZArith Lia Floats.SpecFloat.
From mathcomp Require Import ssreflect ssrfun ssrbool eqtype ssrnat seq.
From Verif Require Import Np NpLemmas Kf Binary64 Lu Param Zeros Graded GradedOps.

Set Implicit Arguments.
Unset Strict Implicit.
Unset Printing Implicit Defensive.

Definition flip (b : bool) (x : f64) : f64 := if b then SFopp x else x.

Lemma zsame_sym x y : zsame x y -> zsame y x. Proof. by case=> *; constructor. Qed.
Lemma zsame_trans x y z : zsame x y -> zsame y z -> zsame x z.
Proof. by case=> [//|s s'] Hy; inversion Hy; constructor. Qed.
Lemma opp_opp x : SFopp (SFopp x) = x.
Proof. by case: x => [s|s| |s m e] //=; rewrite negbK. Qed.
Lemma zsame_opp x y : zsame x y -> zsame (SFopp x) (SFopp y).
Proof. by case=> *; constructor. Qed.
Lemma zsame_flip b x y : zsame x y -> zsame (flip b x) (flip b y).
Proof. by case: b => //; exact: zsame_opp. Qed.
Lemma flip_nan b : flip b S754_nan = S754_nan. Proof. by case: b. Qed.

Lemma round_opp s m e l : binary_round_aux 53 1024 (~~ s) m e l = SFopp (binary_round_aux 53 1024 s m e l).
Proof.
rewrite /binary_round_aux; case: (shr_fexp _ _ _ _ _) => mrs' e'.
case: (shr_fexp _ _ _ _ _) => mrs'' e''; case: (shr_m mrs'') => [|p|p] //.
by case: (Zle_bool _ _).
Qed.

Lemma normalize_opp m e s : zsame (binary_normalize 53 1024 (- m) e s) (SFopp (binary_normalize 53 1024 m e s)).
Proof.
case: m => [|p|p] /=; first exact: ZZero.
- rewrite /binary_round; case: (shl_align _ _ _) => mz ez; rewrite -[true]/(~~ false) round_opp; exact: ZEq.
- rewrite /binary_round; case: (shl_align _ _ _) => mz ez; rewrite -[false]/(~~ true) round_opp; exact: ZEq.
Qed.

Lemma cond_opp s z : cond_Zopp (~~ s) z = (- cond_Zopp s z)%Z.
Proof. by case: s => //=; rewrite Z.opp_involutive. Qed.

Lemma opp_add x y : zsame (fadd (SFopp x) (SFopp y)) (SFopp (fadd x y)).
Proof.
rewrite /fadd; case: x => [s|s| |s m e]; case: y => [t|t| |t m' e'] /=; try exact: ZEq.
- by case: s; case: t; constructor.
- by case: s; case: t; constructor.
rewrite !cond_opp -Z.opp_add_distr; exact: normalize_opp.
Qed.

Lemma opp_sub x y : zsame (fsub (SFopp x) (SFopp y)) (SFopp (fsub x y)).
Proof.
rewrite /fsub; case: x => [s|s| |s m e]; case: y => [t|t| |t m' e'] /=; try exact: ZEq.
- by case: s; case: t; constructor.
- by case: s; case: t; constructor.
rewrite !cond_opp.
have -> a b : (- a - - b = - (a - b))%Z by lia.
exact: normalize_opp.
Qed.

Lemma negb_xor a b : xorb (~~ a) b = ~~ xorb a b. Proof. by case: a; case: b. Qed.
Lemma xor_negb a b : xorb a (~~ b) = ~~ xorb a b. Proof. by case: a; case: b. Qed.

Lemma opp_mull x y : fmul (SFopp x) y = SFopp (fmul x y).
Proof.
rewrite /fmul; case: x => [s|s| |s m e]; case: y => [t|t| |t m' e'] //=; rewrite ?negb_xor //.
exact: round_opp.
Qed.
Lemma opp_mulr x y : fmul x (SFopp y) = SFopp (fmul x y).
Proof.
rewrite /fmul; case: x => [s|s| |s m e]; case: y => [t|t| |t m' e'] //=; rewrite ?xor_negb //.
exact: round_opp.
Qed.
Lemma opp_divl x y : fdiv (SFopp x) y = SFopp (fdiv x y).
Proof.
rewrite /fdiv; case: x => [s|s| |s m e]; case: y => [t|t| |t m' e'] //=; rewrite ?negb_xor //.
by case: (SFdiv_core_binary _ _ _ _ _ _) => [[mz ez] lz]; exact: round_opp.
Qed.
Lemma opp_divr x y : fdiv x (SFopp y) = SFopp (fdiv x y).
Proof.
rewrite /fdiv; case: x => [s|s| |s m e]; case: y => [t|t| |t m' e'] //=; rewrite ?xor_negb //.
by case: (SFdiv_core_binary _ _ _ _ _ _) => [[mz ez] lz]; exact: round_opp.
Qed.

Lemma flip_mul a b x y : fmul (flip a x) (flip b y) = flip (xorb a b) (fmul x y).
Proof. by case: a; case: b => //=; rewrite ?opp_mull ?opp_mulr ?opp_opp. Qed.
Lemma flip_div a b x y : fdiv (flip a x) (flip b y) = flip (xorb a b) (fdiv x y).
Proof. by case: a; case: b => //=; rewrite ?opp_divl ?opp_divr ?opp_opp. Qed.
Lemma flip_abs b x : fabs (flip b x) = fabs x. Proof. by case: b; case: x. Qed.
Lemma flip_is0 b x : (if flip b x is S754_zero _ then true else false) = (if x is S754_zero _ then true else false).
Proof. by case: b; case: x. Qed.

(** Of odd grade: the negative, up to the sign of a zero. *)
Definition mirror (g : Z) (x y : f64) : Prop := zsame (flip (Z.odd g) x) y.

Lemma mirror_add g x y x' y' : mirror g x x' -> mirror g y y' -> mirror g (fadd x y) (fadd x' y').
Proof.
rewrite /mirror; case: (Z.odd g) => Hx Hy; have := zsame_add Hx Hy => //.
by move=> h; apply: zsame_trans h; apply: zsame_sym; exact: opp_add.
Qed.
Lemma mirror_sub g x y x' y' : mirror g x x' -> mirror g y y' -> mirror g (fsub x y) (fsub x' y').
Proof.
rewrite /mirror; case: (Z.odd g) => Hx Hy; have := zsame_sub Hx Hy => //.
by move=> h; apply: zsame_trans h; apply: zsame_sym; exact: opp_sub.
Qed.
Lemma mirror_mul g h x y x' y' : mirror g x x' -> mirror h y y' -> mirror (g + h) (fmul x y) (fmul x' y').
Proof. by rewrite /mirror Z.odd_add => Hx Hy; rewrite -flip_mul; exact: zsame_mul. Qed.
Lemma mirror_div g h x y x' y' : mirror g x x' -> mirror h y y' ->
  (if y is S754_zero _ then true else false) = false -> mirror (g - h) (fdiv x y) (fdiv x' y').
Proof.
by rewrite /mirror Z.odd_sub => Hx Hy H0; rewrite -flip_div; apply: zsame_div => //; rewrite flip_is0.
Qed.
Lemma mirror_ltb g x y x' y' : mirror g x x' -> mirror g y y' -> fltb (fabs x) (fabs y) = fltb (fabs x') (fabs y').
Proof.
move=> /zsame_abs Hx /zsame_abs Hy; rewrite !flip_abs in Hx Hy; exact: zsame_ltb.
Qed.
Lemma mirror_is0 g x x' : mirror g x x' -> ois0 (o := double_ops) x = ois0 (o := double_ops) x'.
Proof. by move=> h; rewrite [LHS]/= -(flip_is0 (Z.odd g) x); case: h. Qed.
Lemma mirror0 g : mirror g fzero fzero.
Proof. by rewrite /mirror; case: (Z.odd g); constructor. Qed.

Theorem mirror_agree z : gagree (N1 := doubles z) (N2 := doubles z) mirror Z.even.
Proof.
split=> //.
- by move=> g; rewrite /mirror; case: (Z.odd g); constructor.
- by move=> g n; rewrite /mirror -Z.negb_even => ->; exact: ZEq.
- by move=> g h; rewrite Z.even_add => -> ->.
- by move=> g; rewrite /mirror flip_nan; exact: ZEq.
- move=> g x y /= Hxy; have -> : fisnan x = fisnan (flip (Z.odd g) x) by case: (Z.odd g); case: x {Hxy}.
  by case: Hxy.
- exact: mirror_add.
- exact: mirror_sub.
- move=> g h kd m k n a b a' b' i j _ _ /rel_list_seq Ha /rel_list_seq Hb _ _.
  exact: (@gq_mm double_ops double_ops mirror mirror0 mirror_add mirror_mul g h kd m k n a b a' b' i j Ha Hb).
- move=> g h n r a b a' b' Sa _ /rel_list_seq Ha /rel_list_seq Hb.
  have := @gq_solve double_ops double_ops mirror mirror0 mirror_sub mirror_mul mirror_div mirror_ltb mirror_is0 g h n r a b a' b' Sa Ha Hb.
  rewrite -double_solver /=; case: (f_solve _ _ _ _) => [f|]; case: (f_solve _ _ _ _) => [f'|] //=.
Qed.
