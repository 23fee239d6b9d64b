(** * Steady: convergence to a steady state, with a rate *)
From mathcomp Require Import all_ssreflect all_algebra.
From Verif Require Import RingTac Loewner KalmanAlg Textbook TextbookThms TextbookThms2 TextbookThms3 Forget2.

Set Implicit Arguments.
Unset Strict Implicit.
Unset Printing Implicit Defensive.
Import GRing.Theory Num.Theory Order.Theory.
Local Open Scope ring_scope.

Section Steady.
Variable F : realFieldType.
Variables (n m : nat) (s : model F n m) (T : nat).
Variables (A Q W : 'M[F]_n) (H : 'M[F]_(m, n)) (R : 'M[F]_m).
Hypothesis hc : forall k, (k < T)%N -> [/\ mA s k = A, mH s k = H, mQ s k = Q & mR s k = R].
Hypothesis hQ : psd Q.
Hypothesis hR : psd R.
Hypothesis hW : psd W.
Hypothesis h0 : psd (mP0 s).
Hypothesis inn : forall k, (k < T)%N -> innov s k \in unitmx.
Hypothesis uW : ucov (ucov W A Q) H R \in unitmx.
Hypothesis fW : upost (ucov W A Q) H R = W.
Variables (v b : F).
Hypothesis v0 : 0 <= v.
Hypothesis b0 : 0 <= b.
Hypothesis hb : loewner (A *m W *m A^T) (b *: Q).

Lemma share_of c (P : 'M[F]_n) : 0 <= c -> psd P -> loewner (A *m P *m A^T) (c *: Q) ->
  loewner (A *m P *m A^T) ((c / (1 + c)) *: ucov P A Q).
Proof.
move=> c0 hP L; have d0 : 0 < 1 + c by exact: ltr_spaddl.
have dn : 1 + c != 0 by exact: lt0r_neq0.
have i0 : 0 <= (1 + c)^-1 by rewrite invr_ge0 ltW.
have X : A *m P *m A^T = (1 + c)^-1 *: ((1 + c) *: (A *m P *m A^T)) by rewrite scalerA mulVf // scale1r.
rewrite {1}X mulrC -scalerA; apply: loewner_scale => //.
rewrite /ucov scalerDr scalerDl scale1r addrC; by apply: loewner_add; [exact: loewner_refl|exact: L].
Qed.

Let r := b / (1 + b).
Lemma r0 : 0 <= r. Proof. exact: divr_ge0 b0 (addr_ge0 ler01 b0). Qed.
Lemma r1 : r <= 1. Proof.
have d0 : 0 < 1 + b by exact: ltr_spaddl ltr01 b0.
by rewrite /r ler_pdivr_mulr // mul1r ler_addr ler01.
Qed.

Lemma step_eq k : (k < T)%N -> [/\ ucov (ucov (post_P s k) A Q) H R \in unitmx &
  post_P s k.+1 = upost (ucov (post_P s k) A Q) H R].
Proof.
by move=> Hk; have [a1 a2 a3 a4] := hc Hk; have := inn Hk; rewrite innovE post_PS pred_PE a1 a2 a3 a4.
Qed.
Lemma posts k : (k <= T)%N -> psd (post_P s k).
Proof. by apply: post_psd => // j Hj; have [_ _ e1 e2] := hc Hj; rewrite ?e1 ?e2. Qed.

Lemma from_above : loewner (mP0 s) ((1 + v) *: W) -> forall k, (k <= T)%N ->
  loewner (post_P s k) ((1 + v * r ^+ k) *: W).
Proof.
move=> L; elim=> [|k IH] Hk; first by rewrite expr0 mulr1.
have [u E] := step_eq Hk; rewrite E -{1}fW exprSr mulrA.
apply: shrink_step => //; first exact/posts/ltnW.
- by rewrite mulr_ge0 ?exprn_ge0 ?r0.
- exact: r0.
- exact/IH/ltnW.
exact: share_of.
Qed.

Let c := (1 + v) * b.
Let q := c / (1 + c).
Lemma c0 : 0 <= c. Proof. exact: mulr_ge0 (addr_ge0 ler01 v0) b0. Qed.

Lemma from_below : loewner (mP0 s) ((1 + v) *: W) -> loewner W ((1 + v) *: mP0 s) -> forall k, (k <= T)%N ->
  loewner W ((1 + v * q ^+ k) *: post_P s k).
Proof.
move=> L L'; elim=> [|k IH] Hk; first by rewrite expr0 mulr1.
have [u E] := step_eq Hk; rewrite E -{1}fW exprSr mulrA.
have q0 : 0 <= q by exact: divr_ge0 c0 (addr_ge0 ler01 c0).
apply: shrink_step => //; first exact/posts/ltnW.
- by rewrite mulr_ge0 ?exprn_ge0.
- exact/IH/ltnW.
apply: share_of; [exact: c0|exact/posts/ltnW|].
have P := from_above L (ltnW Hk).
have P' : loewner (post_P s k) ((1 + v) *: W).
  apply: loewner_trans P _; rewrite /loewner -scalerBl; apply: psd_scale => //.
  by rewrite opprD addrACA subrr add0r -{1}(mulr1 v) -mulrBr mulr_ge0 // subr_ge0 exprn_ile1 ?r0 ?r1.
apply: loewner_trans (loewner_conj A P') _.
rewrite -scalemxAr -scalemxAl /c -scalerA; by apply: loewner_scale => //; exact: addr_ge0 ler01 v0.
Qed.
End Steady.

Section Rate.
Variable F : realFieldType.
Add Ring Fring : (mc_ring F).
Add Ring Fring1 : (mc_ring1 F).
Add Ring Fring2 : (mc_ring2 F).
Ltac mring := mc_norm F; mc_eq; ring.
Implicit Types (b v e : F).
Lemma bernoulli b k : 0 <= b -> b ^+ k.+1 + k.+1%:R * b ^+ k <= (1 + b) ^+ k.+1.
Proof.
move=> b0; elim: k => [|k IH]; first by rewrite !expr1 expr0 mulr1 addrC.
rewrite [X in _ <= X]exprS; have b1 : 0 <= 1 + b by exact: addr_ge0 ler01 b0.
apply: le_trans (ler_wpmul2l b1 IH).
have E : (1 + b) * (b ^+ k.+1 + k.+1%:R * b ^+ k) = b ^+ k.+2 + k.+2%:R * b ^+ k.+1 + k.+1%:R * b ^+ k.
  have -> : k.+2%:R = 1 + k.+1%:R :> F by rewrite mulrS.
  by rewrite !exprS; move: (b ^+ k) (k.+1%:R : F) => x y; mring.
by rewrite E ler_addl mulr_ge0 ?ler0n ?exprn_ge0.
Qed.

(** v (b / (1+b))^k is below e after v b / e steps at the latest. *)
Lemma rate v b e k : 0 <= b -> 0 <= v -> 0 <= e -> v * b <= k.+1%:R * e -> v * (b / (1 + b)) ^+ k.+1 <= e.
Proof.
move=> b0 v0 e0 L; have d0 : 0 < 1 + b by exact: ltr_spaddl ltr01 b0.
rewrite expr_div_n mulrA ler_pdivr_mulr ?exprn_gt0 //.
apply: le_trans (ler_wpmul2l e0 (bernoulli k b0)); rewrite mulrDr.
apply: le_trans (_ : e * (k.+1%:R * b ^+ k) <= _); last by rewrite ler_addr mulr_ge0 ?exprn_ge0.
by rewrite exprS !mulrA (mulrC e) ler_wpmul2r ?exprn_ge0.
Qed.
End Rate.
