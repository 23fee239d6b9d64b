(** * IntExact: exact arithmetic is exact on integers *)
From Coq Require Import ZArith Lia.
From mathcomp Require Import all_ssreflect all_algebra.
From Verif Require Import Np NpLemmas Exact IntSpec.

Set Implicit Arguments.
Unset Strict Implicit.
Unset Printing Implicit Defensive.
Import GRing.Theory Num.Theory.
Local Open Scope ring_scope.

Section OfZ.
Variable F : realFieldType.
Notation ofZ := (ofZ F).

Lemma ofZ_nat n : ofZ (Z.of_nat n) = n%:R.
Proof. by case: n => [|n] //=; rewrite SuccNat2Pos.id_succ. Qed.

Lemma ofZ_opp z : ofZ (Z.opp z) = - ofZ z.
Proof. by case: z => [|p|p] //=; rewrite ?oppr0 ?opprK. Qed.

Lemma Z_sub_nat (z : Z) : exists a b : nat, z = Z.sub (Z.of_nat a) (Z.of_nat b).
Proof. by exists (Z.to_nat z), (Z.to_nat (Z.opp z)); lia. Qed.

Lemma ofZ_sub_nat a b : ofZ (Z.sub (Z.of_nat a) (Z.of_nat b)) = a%:R - b%:R.
Proof.
case: (leqP b a) => H.
  have -> : Z.sub (Z.of_nat a) (Z.of_nat b) = Z.of_nat (a - b) by rewrite -minusE; move/leP: H; lia.
  by rewrite ofZ_nat natrB.
have -> : Z.sub (Z.of_nat a) (Z.of_nat b) = Z.opp (Z.of_nat (b - a)).
  by rewrite -minusE; move/ltP: H; lia.
by rewrite ofZ_opp ofZ_nat natrB ?(ltnW H) // opprB.
Qed.

Lemma ofZ_add x y : ofZ (Z.add x y) = ofZ x + ofZ y.
Proof.
have [a [b ->]] := Z_sub_nat x; have [c [e ->]] := Z_sub_nat y.
have -> : Z.add (Z.sub (Z.of_nat a) (Z.of_nat b)) (Z.sub (Z.of_nat c) (Z.of_nat e)) =
          Z.sub (Z.of_nat (a + c)) (Z.of_nat (b + e)) by rewrite -!plusE; lia.
by rewrite !ofZ_sub_nat !natrD opprD addrACA.
Qed.

Lemma ofZ_sub x y : ofZ (Z.sub x y) = ofZ x - ofZ y.
Proof. by rewrite -Z.add_opp_r ofZ_add ofZ_opp. Qed.

Lemma ofZ_mul x y : ofZ (Z.mul x y) = ofZ x * ofZ y.
Proof.
have [a [b ->]] := Z_sub_nat x; have [c [e ->]] := Z_sub_nat y.
have -> : Z.mul (Z.sub (Z.of_nat a) (Z.of_nat b)) (Z.sub (Z.of_nat c) (Z.of_nat e)) =
          Z.sub (Z.of_nat (a * c + b * e)) (Z.of_nat (a * e + b * c)) by rewrite -!plusE -!multE; lia.
rewrite !ofZ_sub_nat !natrD !natrM mulrBl !mulrBr opprB opprD addrACA.
done.
Qed.
End OfZ.

Section Ex.
Variable F : realFieldType.
Variable oracle : oracle_type F.
Variable n2i : Z.

Lemma zdot_sum k n (a b : seq Z) i j :
  ofZ F (zdot k n a b i j) =
  \sum_(l < k) ofZ F (nth Z0 a (i * k + l)) * ofZ F (nth Z0 b (l * n + j)).
Proof.
rewrite /zdot -(big_mkord xpredT (fun l => ofZ F (nth Z0 a (i * k + l)) * ofZ F (nth Z0 b (l * n + j)))).
rewrite /index_iota subn0; elim: (iota 0 k) => [|l s IH] /=; first by rewrite big_nil.
by rewrite big_cons ofZ_add ofZ_mul IH.
Qed.

Lemma exact_int_exact (L : Z) : int_exact (exact oracle n2i) L.
Proof.
split=> //=.
- by move=> x y _ _ _; rewrite ofZ_add.
- by move=> x y _ _ _; rewrite ofZ_sub.
move=> kd m k n a b i j Ba Bb Ha Hb Hi Hj _ _ _ _ _ _; rewrite /ex_mm.
have Ia l : (l < k)%N -> (i * k + l < size a)%N.
  move=> Hl; rewrite Ha; apply: (@leq_trans (i.+1 * k)).
    by rewrite mulSn addnC ltn_add2r.
  by rewrite leq_mul2r Hi orbT.
have Ib l : (l < k)%N -> (l * n + j < size b)%N.
  move=> Hl; rewrite Hb; apply: (@leq_trans (l.+1 * n)).
    by rewrite mulSn addnC ltn_add2r.
  by rewrite leq_mul2r Hl orbT.
rewrite ifT; last first.
  apply/allP => l; rewrite mem_iota => /andP [_ Hl].
  by rewrite !(nth_map Z0) ?Ia ?Ib.
congr Some; rewrite zdot_sum; apply: eq_bigr => l _.
by rewrite !(nth_map Z0) ?Ia ?Ib.
Qed.
End Ex.
