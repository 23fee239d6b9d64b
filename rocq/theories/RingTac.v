(** * RingTac: Coq's ring and field tactics on a mathcomp real field *)
From Coq Require Export Ring Field.
From mathcomp Require Import all_ssreflect all_algebra.

Set Implicit Arguments.
Unset Strict Implicit.
Unset Printing Implicit Defensive.
Import GRing.Theory.
Local Open Scope ring_scope.

Section Rings.
Variable F : realFieldType.
Notation mk_ring T := (@ring_theory T (@GRing.zero F) (@GRing.one F) (@GRing.add F) (@GRing.mul F)
   (fun a b : F => a - b) (@GRing.opp F) (@eq T)).
Notation mk_field T := (@field_theory T (@GRing.zero F) (@GRing.one F) (@GRing.add F) (@GRing.mul F)
   (fun a b : F => a - b) (@GRing.opp F) (fun a b : F => a / b) (@GRing.inv F) (@eq T)).

Lemma mc_ring : mk_ring F.
Proof.
split=> //=.
- exact: add0r.
- exact: addrC.
- exact: addrA.
- exact: mul1r.
- exact: mulrC.
- exact: mulrA.
- exact: mulrDl.
- exact: addrN.
Qed.

Lemma mc_field : mk_field F.
Proof.
split=> //=.
- exact: mc_ring.
- exact/eqP/oner_neq0.
- by move=> p /eqP; exact: mulVf.
Qed.

Definition mc_ring1 : mk_ring (GRing.Zmodule.sort F) := mc_ring.
Definition mc_ring2 : mk_ring (GRing.Ring.sort F) := mc_ring.
Definition mc_ring3 : mk_ring (GRing.UnitRing.sort F) := mc_ring.
Definition mc_field1 : mk_field (GRing.Zmodule.sort F) := mc_field.
Definition mc_field2 : mk_field (GRing.Ring.sort F) := mc_field.
Definition mc_field3 : mk_field (GRing.UnitRing.sort F) := mc_field.
End Rings.

(** Use one path of coercions for every operation. *)
Ltac mc_norm F :=
  repeat match goal with |- context [@fun_of_matrix ?V] =>
    lazymatch V with Num.RealField.sort F => fail | _ =>
      change (@fun_of_matrix V) with (@fun_of_matrix (Num.RealField.sort F)) end end;
  repeat match goal with |- context [@GRing.add ?V] =>
    lazymatch V with Num.RealField.zmodType F => fail | _ =>
      change (@GRing.add V) with (@GRing.add (Num.RealField.zmodType F)) end end;
  repeat match goal with |- context [@GRing.opp ?V] =>
    lazymatch V with Num.RealField.zmodType F => fail | _ =>
      change (@GRing.opp V) with (@GRing.opp (Num.RealField.zmodType F)) end end;
  repeat match goal with |- context [@GRing.zero ?V] =>
    lazymatch V with Num.RealField.zmodType F => fail | _ =>
      change (@GRing.zero V) with (@GRing.zero (Num.RealField.zmodType F)) end end;
  repeat match goal with |- context [@GRing.mul ?V] =>
    lazymatch V with Num.RealField.ringType F => fail | _ =>
      change (@GRing.mul V) with (@GRing.mul (Num.RealField.ringType F)) end end;
  repeat match goal with |- context [@GRing.one ?V] =>
    lazymatch V with Num.RealField.ringType F => fail | _ =>
      change (@GRing.one V) with (@GRing.one (Num.RealField.ringType F)) end end;
  repeat match goal with |- context [@GRing.inv ?V] =>
    lazymatch V with Num.RealField.unitRingType F => fail | _ =>
      change (@GRing.inv V) with (@GRing.inv (Num.RealField.unitRingType F)) end end.

(** The carrier ring looks for. *)
Ltac mc_eq := match goal with |- @eq _ ?a ?b => let T := type of a in change (@eq T a b) end.

(** Matrix products as atoms; an equation between matrices of sums of atoms. *)
Ltac mx_atoms F :=
  repeat match goal with |- context [@mulmx ?V] =>
    lazymatch V with Num.RealField.ringType F => fail | _ =>
      change (@mulmx V) with (@mulmx (Num.RealField.ringType F)) end end;
  repeat match goal with |- context [@trmx ?V] =>
    lazymatch V with Num.RealField.sort F => fail | _ =>
      change (@trmx V) with (@trmx (Num.RealField.sort F)) end end;
  repeat match goal with
  |- context [@mulmx ?R ?a ?b ?c ?x ?y] => generalize (@mulmx R a b c x y); intro end.
