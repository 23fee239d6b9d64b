(** * NlBlocks: two non-linear systems side by side *)
From Coq Require Import ZArith.
From mathcomp Require Import all_ssreflect all_algebra.
From Verif Require Import Np Kf Exact Repr Textbook Build Loewner KalmanAlg TextbookThms TextbookThms3 EndSpec EndToEnd EkfEnd NlInv.

Set Implicit Arguments.
Unset Strict Implicit.
Unset Printing Implicit Defensive.
Import GRing.Theory Num.Theory.
Local Open Scope ring_scope.

Section NlBlocks.
Variable F : realFieldType.
Variable oracle : oracle_type F.
Variable n2i : Z.
Notation N := (exact oracle n2i).
Notation arr := (arr N).
Variables (n1 n2 m1 m2 q : nat).
Notation dg A B := (block_mx A 0 0 B).

(** s holds the systems s1 and s2, driven by one control. *)
Definition nl_side_by_side (s1 : nl_model F n1 m1 q) (s2 : nl_model F n2 m2 q)
    (s : nl_model F (n1 + n2) (m1 + m2) q) : Prop :=
  [/\ (forall x1 x2 u, nf s (col_mx x1 x2) u = col_mx (nf s1 x1 u) (nf s2 x2 u)) /\
      (forall x1 x2, nh s (col_mx x1 x2) = col_mx (nh s1 x1) (nh s2 x2)),
      (forall x1 x2 u, njf s (col_mx x1 x2) u = dg (njf s1 x1 u) (njf s2 x2 u)) /\
      (forall x1 x2, njh s (col_mx x1 x2) = dg (njh s1 x1) (njh s2 x2)),
      forall k, nQ s k = dg (nQ s1 k) (nQ s2 k) /\ nR s k = dg (nR s1 k) (nR s2 k),
      forall k, [/\ nz s k = col_mx (nz s1 k) (nz s2 k), nu s1 k = nu s k & nu s2 k = nu s k] &
      nx0 s = col_mx (nx0 s1) (nx0 s2) /\ nP0 s = dg (nP0 s1) (nP0 s2)].

Variables (s1 : nl_model F n1 m1 q) (s2 : nl_model F n2 m2 q) (s : nl_model F (n1 + n2) (m1 + m2) q).
Hypothesis HS : nl_side_by_side s1 s2 s.

Let hf x1 x2 u : nf s (col_mx x1 x2) u = col_mx (nf s1 x1 u) (nf s2 x2 u). Proof. by case: HS => [[]]. Qed.
Let hh x1 x2 : nh s (col_mx x1 x2) = col_mx (nh s1 x1) (nh s2 x2). Proof. by case: HS => [[]]. Qed.
Let hjf x1 x2 u : njf s (col_mx x1 x2) u = dg (njf s1 x1 u) (njf s2 x2 u). Proof. by case: HS => _ []. Qed.
Let hjh x1 x2 : njh s (col_mx x1 x2) = dg (njh s1 x1) (njh s2 x2). Proof. by case: HS => _ []. Qed.
Let hQ k : nQ s k = dg (nQ s1 k) (nQ s2 k). Proof. by case: HS => _ _ /(_ k) []. Qed.
Let hR k : nR s k = dg (nR s1 k) (nR s2 k). Proof. by case: HS => _ _ /(_ k) []. Qed.
Let hz k : nz s k = col_mx (nz s1 k) (nz s2 k). Proof. by case: HS => _ _ _ /(_ k) []. Qed.
Let hu1 k : nu s1 k = nu s k. Proof. by case: HS => _ _ _ /(_ k) []. Qed.
Let hu2 k : nu s2 k = nu s k. Proof. by case: HS => _ _ _ /(_ k) []. Qed.

Lemma nb_pred k : nl_x s k = col_mx (nl_x s1 k) (nl_x s2 k) -> nl_P s k = dg (nl_P s1 k) (nl_P s2 k) ->
  [/\ nl_xa s k = col_mx (nl_xa s1 k) (nl_xa s2 k), nl_Pa s k = dg (nl_Pa s1 k) (nl_Pa s2 k) &
      nl_S s k = dg (nl_S s1 k) (nl_S s2 k)].
Proof.
move=> Ex EP.
have Ea : nl_xa s k = col_mx (nl_xa s1 k) (nl_xa s2 k) by rewrite /nl_xa /nl_prior_x Ex hf hu1 hu2.
have EPa : nl_Pa s k = dg (nl_Pa s1 k) (nl_Pa s2 k).
  by rewrite /nl_Pa /nl_prior_P EP Ex hjf hQ hu1 hu2 dg_tr !dg_mul dg_add.
by split=> //; rewrite /nl_S /nl_innovation EPa Ea hjh hR dg_tr !dg_mul dg_add.
Qed.

Lemma nb_step k : nl_x s k = col_mx (nl_x s1 k) (nl_x s2 k) -> nl_P s k = dg (nl_P s1 k) (nl_P s2 k) ->
  nl_S s1 k \in unitmx -> nl_S s2 k \in unitmx ->
  [/\ nl_K s k = dg (nl_K s1 k) (nl_K s2 k), nl_x s k.+1 = col_mx (nl_x s1 k.+1) (nl_x s2 k.+1) &
      nl_P s k.+1 = dg (nl_P s1 k.+1) (nl_P s2 k.+1)].
Proof.
move=> Ex EP u1 u2; have [Ea EPa ES] := nb_pred Ex EP.
have EK : nl_K s k = dg (nl_K s1 k) (nl_K s2 k).
  by rewrite /nl_K /nl_kgain -/(nl_S s k) -/(nl_S s1 k) -/(nl_S s2 k) ES dg_inv // EPa Ea hjh dg_tr !dg_mul.
have [p1 p2] := nl_postS s1 k; have [q1 q2] := nl_postS s2 k; have [r1 r2] := nl_postS s k.
split=> //.
  rewrite r1 p1 q1 /nl_corr_x -/(nl_K s k) -/(nl_K s1 k) -/(nl_K s2 k) EK Ea hh hz.
  by rewrite opp_col_mx add_col_mx dg_col add_col_mx.
rewrite r2 p2 q2 /nl_corr_P -/(nl_K s k) -/(nl_K s1 k) -/(nl_K s2 k) EK Ea EPa hjh.
by rewrite dg_1 dg_mul dg_sub dg_mul.
Qed.

Lemma nb_post k : (forall i, (i < k)%N -> nl_S s1 i \in unitmx /\ nl_S s2 i \in unitmx) ->
  nl_x s k = col_mx (nl_x s1 k) (nl_x s2 k) /\ nl_P s k = dg (nl_P s1 k) (nl_P s2 k).
Proof.
elim: k => [|k IH] H; first by case: HS => _ _ _ _ [].
have [|Ex EP] := IH; first by move=> i Hi; apply: H; exact: leqW.
by have [u1 u2] := H k (ltnSn k); have [] := nb_step Ex EP u1 u2.
Qed.

Lemma nb_back L i : (i <= L)%N -> (forall k, (k <= L)%N -> nl_S s1 k \in unitmx /\ nl_S s2 k \in unitmx) ->
  (forall k, (0 < k)%N -> (k <= L)%N -> nl_Pa s1 k \in unitmx /\ nl_Pa s2 k \in unitmx) ->
  nl_back_x s L i = col_mx (nl_back_x s1 L i) (nl_back_x s2 L i) /\
  nl_back_P s L i = dg (nl_back_P s1 L i) (nl_back_P s2 L i).
Proof.
move=> Hi uS uP; elim: i Hi => [|i IH] Hi.
  by apply: nb_post => k; rewrite ltnS; exact: uS.
have [E1 E2] := IH (ltnW Hi); cbn [nl_back_x nl_back_P]; rewrite E1 E2.
have HL : ((L - i.+1).+1 <= L)%N by rewrite subnSK // leq_subr.
move: HL; set k := (L - i.+1)%N => HL.
have [p1 p2] : nl_x s k.+1 = col_mx (nl_x s1 k.+1) (nl_x s2 k.+1) /\ nl_P s k.+1 = dg (nl_P s1 k.+1) (nl_P s2 k.+1).
  by apply: nb_post => j Hj; apply: uS; exact: leq_trans (ltnW Hj) HL.
have [q1 q2 _] := nb_pred p1 p2; have [u1 u2] := uP k.+1 isT HL.
have EG : nl_G s k = dg (nl_G s1 k) (nl_G s2 k).
  by rewrite /nl_G q2 dg_inv // p2 p1 hjf hu1 hu2 dg_tr !dg_mul.
rewrite EG q1 q2 p1 p2; split.
  by rewrite opp_col_mx add_col_mx dg_col add_col_mx.
by rewrite dg_tr dg_sub !dg_mul dg_add.
Qed.

Lemma nb_filter T len (g : seq arr) : nl_filter_answer s T len g =
  filter_answer (fun k => col_mx (nl_x s1 k.+1) (nl_x s2 k.+1)) (fun k => dg (nl_P s1 k.+1) (nl_P s2 k.+1))
    (fun k => dg (nl_K s1 k) (nl_K s2 k)) (fun k => dg (nl_S s1 k) (nl_S s2 k)) T len g.
Proof.
apply: filter_answer_upto => k Hk uS.
  have [|p1 p2] := @nb_post k; first by move=> i Hi; apply/andP; rewrite -dg_unit uS.
  by have [_ _ ->] := nb_pred p1 p2.
have uS' i : (i <= k)%N -> nl_S s1 i \in unitmx /\ nl_S s2 i \in unitmx.
  by move=> Hi; apply/andP; rewrite -dg_unit uS.
have [|p1 p2] := @nb_post k; first by move=> i Hi; apply: uS'; exact: ltnW.
by have [u1 u2] := uS' k (leqnn k); have [-> -> ->] := nb_step p1 p2 u1 u2.
Qed.

Lemma nb_smooth L (g : seq arr) : nl_smooth_answer s L g =
  smooth_answer (fun k => dg (nl_K s1 k) (nl_K s2 k)) (fun k => dg (nl_S s1 k) (nl_S s2 k))
    (fun k => col_mx (nl_back_x s1 L (L - k)) (nl_back_x s2 L (L - k)))
    (fun k => dg (nl_back_P s1 L (L - k)) (nl_back_P s2 L (L - k)))
    (fun k => dg (nl_Pa s1 k) (nl_Pa s2 k)) L g.
Proof.
have post k : (forall i, (i < k)%N -> dg (nl_S s1 i) (nl_S s2 i) \in unitmx) ->
    nl_x s k = col_mx (nl_x s1 k) (nl_x s2 k) /\ nl_P s k = dg (nl_P s1 k) (nl_P s2 k).
  by move=> uS; apply: nb_post => i Hi; apply/andP; rewrite -dg_unit uS.
apply: smooth_answer_upto => [k Hk uS|k Hk uS|k k0 Hk uS|uS uP k Hk].
- by have [p1 p2] := post k uS; have [_ _ ->] := nb_pred p1 p2.
- have uS' i : (i < k)%N -> dg (nl_S s1 i) (nl_S s2 i) \in unitmx by move=> Hi; apply: uS; exact: ltnW.
  have [p1 p2] := post k uS'; have := uS k (leqnn k); rewrite dg_unit => /andP [u1 u2].
  by have [-> _ _] := nb_step p1 p2 u1 u2.
- by have [p1 p2] := post k uS; have [_ -> _] := nb_pred p1 p2.
apply: nb_back => [|i Hi|i i0 Hi]; first exact: leq_subr.
  by apply/andP; rewrite -dg_unit uS.
by apply/andP; rewrite -dg_unit uP.
Qed.
End NlBlocks.
