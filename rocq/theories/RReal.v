(** * RReal: the real numbers of Coq's standard library as a field of MathComp

    The exact-arithmetic theorems hold over every ordered field; this file makes
    the reals one of them, so that they can be stated with the exponential
    function and square roots (Gaussian densities).  Axioms of the standard
    library only: those of Reals, and the choice operator of ClassicalEpsilon
    (MathComp's fields have one). *)
From Coq Require Import Reals ClassicalEpsilon FunctionalExtensionality Lra.
From mathcomp Require Import all_ssreflect all_algebra.

Set Implicit Arguments.
Unset Strict Implicit.
Unset Printing Implicit Defensive.
Import GRing.Theory Num.Theory.
Delimit Scope R_scope with coqR.
Delimit Scope ring_scope with R.

Definition Req_bool (x y : R) : bool := if Req_EM_T x y then true else false.
Lemma Req_boolP : Equality.axiom Req_bool.
Proof. by move=> x y; rewrite /Req_bool; case: Req_EM_T => h; constructor. Qed.
Canonical R_eqType := EqType R (EqMixin Req_boolP).

Definition R_find (P : pred R) (_ : nat) : option R :=
  match excluded_middle_informative (exists x, P x) with
  | left ex => Some (proj1_sig (constructive_indefinite_description _ ex))
  | right _ => None
  end.
Lemma R_find_ok P k x : R_find P k = Some x -> P x.
Proof. by rewrite /R_find; case: excluded_middle_informative => // ex [<-]; case: constructive_indefinite_description. Qed.
Lemma R_find_some (P : pred R) : (exists x, P x) -> exists k, R_find P k.
Proof. by move=> ex; exists 0%N; rewrite /R_find; case: excluded_middle_informative. Qed.
Lemma R_find_ext (P Q : pred R) : P =1 Q -> R_find P =1 R_find Q.
Proof. by move=> E k; rewrite (functional_extensionality P Q E). Qed.
Canonical R_choiceType := ChoiceType R (Choice.Mixin R_find_ok R_find_some R_find_ext).

Lemma R_addA : associative Rplus. Proof. by move=> x y z; rewrite Rplus_assoc. Qed.
Lemma R_addC : commutative Rplus. Proof. exact: Rplus_comm. Qed.
Lemma R_add0 : left_id R0 Rplus. Proof. exact: Rplus_0_l. Qed.
Lemma R_addN : left_inverse R0 Ropp Rplus. Proof. exact: Rplus_opp_l. Qed.
Canonical R_zmodType := ZmodType R (ZmodMixin R_addA R_addC R_add0 R_addN).

Lemma R_mulA : associative Rmult. Proof. by move=> x y z; rewrite Rmult_assoc. Qed.
Lemma R_mulC : commutative Rmult. Proof. exact: Rmult_comm. Qed.
Lemma R_mul1 : left_id R1 Rmult. Proof. exact: Rmult_1_l. Qed.
Lemma R_mulD : left_distributive Rmult Rplus. Proof. by move=> x y z; rewrite Rmult_plus_distr_r. Qed.
Lemma R_10 : R1 != R0. Proof. by apply/eqP; exact: R1_neq_R0. Qed.
Canonical R_ringType := Eval hnf in RingType R (ComRingMixin R_mulA R_mulC R_mul1 R_mulD R_10).
Canonical R_comRingType := Eval hnf in ComRingType R R_mulC.

Definition Rinv0 (x : R) : R := if x == R0 then R0 else Rinv x.
Lemma R_inv : forall x : R, x != 0%R -> (Rinv0 x * x)%R = 1%R.
Proof. by move=> x h; rewrite /Rinv0 (negPf h); apply: Rinv_l; exact/eqP. Qed.
Lemma R_inv0 : Rinv0 0%R = 0%R. Proof. by rewrite /Rinv0 eqxx. Qed.
Canonical R_unitRingType := Eval hnf in UnitRingType R (FieldUnitMixin R_inv R_inv0).
Canonical R_comUnitRingType := Eval hnf in [comUnitRingType of R].
Lemma R_field : GRing.Field.mixin_of [unitRingType of R]. Proof. by []. Qed.
Canonical R_idomainType := Eval hnf in IdomainType R (FieldIdomainMixin R_field).
Canonical R_fieldType := FieldType R R_field.

Definition Rle_bool (x y : R) : bool := if Rle_dec x y then true else false.
Definition Rlt_bool (x y : R) : bool := if Rlt_dec x y then true else false.
Lemma Rle_boolP x y : reflect (x <= y)%coqR (Rle_bool x y).
Proof. by rewrite /Rle_bool; case: Rle_dec => h; constructor. Qed.
Lemma Rlt_boolP x y : reflect (x < y)%coqR (Rlt_bool x y).
Proof. by rewrite /Rlt_bool; case: Rlt_dec => h; constructor. Qed.
Definition Rnorm (x : R) : R := Rabs x.

Lemma R_le0D x y : Rle_bool 0%R x -> Rle_bool 0%R y -> Rle_bool 0%R (x + y)%R.
Proof. by move=> /Rle_boolP h /Rle_boolP h'; apply/Rle_boolP; exact: Rplus_le_le_0_compat. Qed.
Lemma R_le0M x y : Rle_bool 0%R x -> Rle_bool 0%R y -> Rle_bool 0%R (x * y)%R.
Proof. by move=> /Rle_boolP h /Rle_boolP h'; apply/Rle_boolP; exact: Rmult_le_pos. Qed.
Lemma R_le0_anti x : Rle_bool 0%R x -> Rle_bool x 0%R -> x = 0%R.
Proof. by move=> /Rle_boolP h /Rle_boolP h'; exact: Rle_antisym. Qed.
Lemma R_sub_ge0 x y : Rle_bool 0%R (y - x)%R = Rle_bool x y.
Proof.
apply/Rle_boolP/Rle_boolP => h; have e : (y - x)%R = (y - x)%coqR by [].
  by rewrite e in h; apply: Rge_le; apply: Rminus_ge; apply: Rle_ge.
by rewrite e; apply: Rge_le; apply: Rge_minus; apply: Rle_ge.
Qed.
Lemma R_le0_total x : Rle_bool 0%R x || Rle_bool x 0%R.
Proof.
case: (Rle_or_lt 0 x) => h; first by apply/orP; left; exact/Rle_boolP.
by apply/orP; right; apply/Rle_boolP; exact: Rlt_le.
Qed.
Lemma R_normN x : Rnorm (- x)%R = Rnorm x. Proof. exact: Rabs_Ropp. Qed.
Lemma R_ge0_norm x : Rle_bool 0%R x -> Rnorm x = x.
Proof. by move=> /Rle_boolP h; exact/Rabs_pos_eq. Qed.
Lemma R_lt_def x y : Rlt_bool x y = (y != x) && Rle_bool x y.
Proof.
apply/Rlt_boolP/andP => [h|[/eqP h /Rle_boolP h']].
  by split; [apply/eqP => e; case: (Rlt_irrefl x); rewrite -{2}e|apply/Rle_boolP; exact: Rlt_le].
by case: h' => // e; case: h.
Qed.
Definition R_leMixin : realLeMixin R_idomainType :=
  RealLeMixin R_le0D R_le0M R_le0_anti R_sub_ge0 R_le0_total R_normN R_ge0_norm R_lt_def.
Canonical R_porderType := POrderType ring_display R R_leMixin.
Canonical R_latticeType := LatticeType R R_leMixin.
Canonical R_distrLatticeType := DistrLatticeType R R_leMixin.
Canonical R_orderType := OrderType R R_leMixin.
Canonical R_numDomainType := NumDomainType R R_leMixin.
Canonical R_normedZmodType := NormedZmodType R R R_leMixin.
Canonical R_numFieldType := [numFieldType of R].
Canonical R_realDomainType := [realDomainType of R].
Canonical R_realFieldType := [realFieldType of R].

(** The operations are those of the reals. *)
Lemma R_leP (x y : R) : reflect (x <= y)%coqR (x <= y)%R. Proof. exact: Rle_boolP. Qed.
Lemma R_ltP (x y : R) : reflect (x < y)%coqR (x < y)%R. Proof. exact: Rlt_boolP. Qed.
Lemma R_addE (x y : R) : (x + y)%R = (x + y)%coqR. Proof. by []. Qed.
Lemma R_oppE (x : R) : (- x)%R = (- x)%coqR. Proof. by []. Qed.
Lemma R_mulE (x y : R) : (x * y)%R = (x * y)%coqR. Proof. by []. Qed.
Lemma R_invE (x : R) : x <> R0 -> (x^-1)%R = (/ x)%coqR.
Proof. by move=> h; rewrite /GRing.inv /= /Rinv0; case: eqP. Qed.
Lemma R_expE (x : R) k : (x ^+ k)%R = (x ^ k)%coqR.
Proof. by elim: k => [|k IH]; rewrite ?expr0 ?exprS ?IH. Qed.
