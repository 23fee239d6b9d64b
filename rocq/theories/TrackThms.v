(** * TrackThms: the bounds hold *)
From mathcomp Require Import all_ssreflect all_algebra.
From Coq Require Import ZArith Floats.SpecFloat Lia.
From Verif Require Import Np NpLemmas Binary64 Lu Exact IntExact RingTac Track.

Set Implicit Arguments.
Unset Strict Implicit.
Unset Printing Implicit Defensive.
Import GRing.Theory Num.Theory Order.Theory.
Delimit Scope Z_scope with Z.
Delimit Scope nat_scope with N.

Section Near.
Variable F : realFieldType.
Add Ring Fring : (mc_ring F).
Add Ring Fring1 : (mc_ring1 F).
Add Ring Fring2 : (mc_ring2 F).
Ltac mring := mc_norm F; mc_eq; ring.
Variable k : Z.
Hypothesis k0 : (0 <= k)%Z.
Local Open Scope ring_scope.
Notation c := (@ofZ F (one_k k)).
Notation oZ := (@ofZ F).

(** y is at most n units from the double x. *)
Definition near (x : f64) (n : Z) (y : F) : Prop :=
  exists2 i, units k x = Some i & `|y * c - oZ i| <= oZ n.

Lemma ofZ_pos z : (0 < z)%Z -> 0 < oZ z.
Proof. by case: z => // p _; rewrite /ofZ ltr0n; apply/ssrnat.ltP; exact: Pos2Nat.is_pos. Qed.
Lemma ofZ_ge0 z : (0 <= z)%Z -> 0 <= oZ z.
Proof. by move=> h; have [h1|h1] := Z_le_lt_eq_dec _ _ h; [exact: ltW (ofZ_pos h1)|rewrite -h1]. Qed.
Lemma ofZ_le a b : (a <= b)%Z -> oZ a <= oZ b.
Proof. by move=> h; rewrite -subr_ge0 -ofZ_sub; apply: ofZ_ge0; lia. Qed.
Lemma ofZ_abs z : oZ (Z.abs z) = `|oZ z|.
Proof.
case: (Z_le_gt_dec 0 z) => h; first by rewrite Z.abs_eq // ger0_norm // ofZ_ge0.
rewrite Z.abs_neq; last lia.
by rewrite ofZ_opp ltr0_norm // -oppr_gt0 -ofZ_opp; apply: ofZ_pos; lia.
Qed.

Lemma one_pos : (0 < one_k k)%Z. Proof. by apply: Z.pow_pos_nonneg; lia. Qed.
Lemma c_pos : 0 < c. Proof. exact: ofZ_pos one_pos. Qed.
Opaque one_k ofZ.

Lemma up_divP a b : (0 < b)%Z -> oZ a <= oZ (up_div a b) * oZ b.
Proof.
move=> Hb; rewrite -ofZ_mul; apply: ofZ_le; rewrite /up_div.
have := Z.mul_div_le (- a) b Hb; lia.
Qed.

Lemma near_add a na x b nb y : near a na x -> near b nb y ->
  forall n, (tadd k (a, Some na) (b, Some nb)).2 = Some n -> near (fadd a b) n (x + y).
Proof.
move=> [i1 E1 h1] [i2 E2 h2] n; rewrite /tadd /with_bound2 [_.2]/= E1 E2.
case E : (units k (fadd a b)) => [i|] // [En]; exists i; first by [].
rewrite -En !ofZ_add ofZ_abs ofZ_sub ofZ_add mulrDl.
have -> : x * c + y * c - oZ i = (x * c - oZ i1) + (y * c - oZ i2) + (oZ i1 + oZ i2 - oZ i).
  mring.
apply: le_trans (ler_norm_add _ _) _; rewrite ler_add2r.
by apply: le_trans (ler_norm_add _ _) _; exact: ler_add.
Qed.

Lemma near_sub a na x b nb y : near a na x -> near b nb y ->
  forall n, (tsub k (a, Some na) (b, Some nb)).2 = Some n -> near (fsub a b) n (x - y).
Proof.
move=> [i1 E1 h1] [i2 E2 h2] n; rewrite /tsub /with_bound2 [_.2]/= E1 E2.
case E : (units k (fsub a b)) => [i|] // [En]; exists i; first by [].
rewrite -En !ofZ_add ofZ_abs !ofZ_sub mulrBl.
have -> : x * c - y * c - oZ i = (x * c - oZ i1) - (y * c - oZ i2) + (oZ i1 - oZ i2 - oZ i).
  mring.
apply: le_trans (ler_norm_add _ _) _; rewrite ler_add2r.
by apply: le_trans (ler_norm_sub _ _) _; exact: ler_add.
Qed.

Lemma near_mul a na x b nb y : near a na x -> near b nb y ->
  forall n, (tmul k (a, Some na) (b, Some nb)).2 = Some n -> near (fmul a b) n (x * y).
Proof.
move=> [i1 E1 h1] [i2 E2 h2] n; rewrite /tmul /with_bound2 [_.2]/= E1 E2.
case E : (units k (fmul a b)) => [i|] // [En]; exists i; first by [].
rewrite -(ler_pmul2r c_pos) -En; apply: le_trans (up_divP _ one_pos).
rewrite !ofZ_add !ofZ_mul !ofZ_abs ofZ_sub !ofZ_mul.
rewrite -[X in _ * X <= _](gtr0_norm c_pos) -normrM.
set X := x * c in h1; set Y := y * c in h2.
have -> : (x * y * c - oZ i) * c = oZ i1 * (Y - oZ i2) + oZ i2 * (X - oZ i1) + (X - oZ i1) * (Y - oZ i2) + (oZ i1 * oZ i2 - oZ i * c).
  rewrite /X /Y; mring.
apply: le_trans (ler_norm_add _ _) _; rewrite ler_add2r.
apply: le_trans (ler_norm_add _ _) _; apply: ler_add; last by rewrite normrM; exact: ler_pmul.
apply: le_trans (ler_norm_add _ _) _; apply: ler_add; rewrite normrM; exact: ler_wpmul2l.
Qed.

Lemma near_n0 b nb y i : near b nb y -> units k b = Some i -> (nb <? Z.abs i)%Z -> y != 0.
Proof.
move=> [i' E h]; rewrite E => -[Ei]; rewrite -{i}Ei => /Z.ltb_lt Hlt; apply/eqP => y0.
move: h; rewrite y0 mul0r sub0r normrN -ofZ_abs leNgt -subr_gt0 -ofZ_sub ofZ_pos //; lia.
Qed.

Lemma near_div a na x b nb y : near a na x -> near b nb y ->
  forall n, (tdiv k (a, Some na) (b, Some nb)).2 = Some n -> y != 0 /\ near (fdiv a b) n (x / y).
Proof.
move=> h1' h2' n; have [i1 E1 h1] := h1'; have [i2 E2 h2] := h2'; rewrite /tdiv /with_bound2 [_.2]/= E1 E2.
case E : (units k (fdiv a b)) => [i|] //; case Hlt : (_ <? _)%Z => // -[En].
have y0 := near_n0 h2' E2 Hlt; split=> //; exists i; first by [].
set X := x * c in h1; set Y := y * c in h2.
have cn : c != 0 by apply: lt0r_neq0; exact: c_pos.
have Yn : Y != 0 by rewrite mulf_eq0 negb_or y0.
rewrite -(ler_pmul2r (_ : 0 < `|Y|)) ?normr_gt0 // -normrM.
have -> : (x / y * c - oZ i) * Y = (X - oZ i1) * c + (oZ i1 * c - oZ i * oZ i2) + oZ i * (oZ i2 - Y).
  have e : x / y * c * Y = X * c by rewrite /X /Y mulrACA divfK // mulrA.
  rewrite mulrBl e; clear; mring.
have HY : oZ (Z.abs i2 - nb) <= `|Y|.
  rewrite ofZ_sub ofZ_abs ler_subl_addr; apply: le_trans (_ : `|Y| + `|Y - oZ i2| <= _); last by rewrite ler_add2l.
  by rewrite -[X in `|X| <= _](subKr Y); exact: ler_norm_sub.
have Hp : (0 < Z.abs i2 - nb)%Z by move/Z.ltb_lt: Hlt; lia.
have N0 : 0 <= oZ n.
  rewrite -(ler_pmul2r (ofZ_pos Hp)) mul0r -En; apply: le_trans (up_divP _ Hp).
  rewrite !ofZ_add !ofZ_mul !ofZ_abs.
  have := le_trans (normr_ge0 _) h1; have := le_trans (normr_ge0 _) h2 => H2 H1.
  by rewrite !addr_ge0 ?mulr_ge0 ?normr_ge0 // ltW // c_pos.
apply: le_trans (ler_wpmul2l N0 HY); rewrite -En; apply: le_trans (up_divP _ Hp).
rewrite !ofZ_add !ofZ_mul !ofZ_abs ofZ_sub !ofZ_mul.
apply: le_trans (ler_norm_add _ _) _; apply: ler_add; last by rewrite normrM distrC; exact: ler_wpmul2l.
rewrite [X in _ <= X]addrC; apply: le_trans (ler_norm_add _ _) _; rewrite ler_add2r.
rewrite normrM (gtr0_norm c_pos); apply: ler_wpmul2r => //; exact: ltW c_pos.
Qed.

Lemma near_ofZ m n : (kofZ (tracked k 0) m : tnum).2 = Some n -> near (fofZ m) n (oZ m).
Proof.
rewrite /tracked [_.2]/=; case E : (units k (fofZ m)) => [i|] // [En]; exists i => //.
by rewrite -En ofZ_abs ofZ_sub ofZ_mul.
Qed.
End Near.
