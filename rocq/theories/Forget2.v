(** * Forget2: the initial covariance is forgotten by the Riccati recursion *)
From mathcomp Require Import all_ssreflect all_algebra.
From Verif Require Import RingTac Loewner KalmanAlg Textbook TextbookThms TextbookThms2 TextbookThms3.

Set Implicit Arguments.
Unset Strict Implicit.
Unset Printing Implicit Defensive.
Import GRing.Theory Num.Theory Order.Theory.
Local Open Scope ring_scope.

Section One.
Variable F : realFieldType.
Variables n m : nat.
Implicit Types (P Q : 'M[F]_n) (H : 'M[F]_(m, n)) (R : 'M[F]_m).

Lemma upost_scale c P H R : c != 0 -> ucov P H R \in unitmx ->
  upost (c *: P) H (c *: R) = c *: upost P H R.
Proof. by move=> c0 u; rewrite /upost ugain_scale // -scalemxAr. Qed.

Lemma loewner_scale c (P P' : 'M[F]_n) : 0 <= c -> loewner P P' -> loewner (c *: P) (c *: P').
Proof. by move=> c0 h; rewrite /loewner -scalerBr; exact: psd_scale. Qed.

Lemma loewner_scaleM c k (P : 'M[F]_k) : 0 <= c -> psd P -> loewner P ((1 + c) *: P).
Proof. by move=> c0 hP; rewrite /loewner scalerDl scale1r addrC addKr; exact: psd_scale. Qed.

(** P' <= (1+v) P, and the old uncertainty is at most the share r of the
    prediction from P: after the step, 1 + v r. *)
Lemma shrink_step (A : 'M[F]_n) P P' Q H R v r :
  psd P -> psd P' -> psd Q -> psd R -> 0 <= v -> 0 <= r ->
  ucov (ucov P A Q) H R \in unitmx -> ucov (ucov P' A Q) H R \in unitmx ->
  loewner P' ((1 + v) *: P) -> loewner (A *m P *m A^T) (r *: ucov P A Q) ->
  loewner (upost (ucov P' A Q) H R) ((1 + v * r) *: upost (ucov P A Q) H R).
Proof.
move=> hP hP' hQ hR v0 r0 u u' L Lr.
have vr : 0 <= v * r by exact: mulr_ge0.
have c0 : 1 + v * r != 0 by apply: lt0r_neq0; exact: ltr_spaddl.
rewrite -upost_scale //; apply: upost_mono => //.
- exact: ucov_psd.
- by rewrite ucov_scale unitmxZ ?unitfE.
- rewrite /ucov in Lr *.
  apply: (@loewner_trans _ _ _ (A *m ((1 + v) *: P) *m A^T + Q)).
    by apply: loewner_add; [exact: loewner_conj|exact: loewner_refl].
  rewrite -scalemxAr -scalemxAl !scalerDl !scale1r [(_ + _) + Q]addrAC.
  apply: loewner_add; first exact: loewner_refl.
  by rewrite -scalerA; exact: loewner_scale.
exact: loewner_scaleM.
Qed.
End One.

Section Run.
Variable F : realFieldType.
Variables (n m : nat) (s s' : model F n m) (T : nat).
Hypothesis ek : forall k, (k < T)%N ->
  [/\ mA s' k = mA s k, mH s' k = mH s k, mQ s' k = mQ s k & mR s' k = mR s k].
Hypothesis h0 : psd (mP0 s).
Hypothesis h0' : psd (mP0 s').
Hypothesis hk : forall k, (k < T)%N -> psd (mQ s k) /\ psd (mR s k).
Hypothesis inn : forall k, (k < T)%N -> innov s k \in unitmx.
Hypothesis inn' : forall k, (k < T)%N -> innov s' k \in unitmx.

Lemma post_psds k : (k <= T)%N -> psd (post_P s k) /\ psd (post_P s' k).
Proof.
move=> Hk; split.
  by apply: (@post_psd _ _ _ s T) => // j /hk [].
by apply: (@post_psd _ _ _ s' T) => // j Hj; have [_ _ e1 e2] := ek Hj; rewrite ?e1 ?e2; have [] := hk Hj.
Qed.

Lemma shrink j k v (r : nat -> F) : (j <= k <= T)%N -> 0 <= v ->
  (forall i, (j <= i < k)%N -> 0 <= r i /\ loewner (mA s i *m post_P s i *m (mA s i)^T) (r i *: pred_P s i)) ->
  loewner (post_P s' j) ((1 + v) *: post_P s j) ->
  loewner (post_P s' k) ((1 + v * \prod_(j <= i < k) r i) *: post_P s k).
Proof.
move=> /andP [jk kT] v0; elim: k jk kT => [|k IH] jk kT Hr W.
  by move: jk W; rewrite leqn0 => /eqP ->; rewrite big_geq // mulr1.
case: (ltngtP j k.+1) jk => // [jk _|<- _]; last by rewrite big_geq // mulr1.
rewrite ltnS in jk; have [r0 L] := Hr k (introT andP (conj jk (leqnn k.+1))).
have Hr' i : (j <= i < k)%N -> 0 <= r i /\ loewner (mA s i *m post_P s i *m (mA s i)^T) (r i *: pred_P s i).
  by move=> /andP [h1 h2]; apply: Hr; rewrite h1 (ltn_trans h2).
have {IH}W' := IH jk (ltnW kT) Hr' W.
rewrite !post_PS big_nat_recr // mulrA.
have [a1 a2 a3 a4] := ek kT; rewrite a2 a4 !pred_PE a1 a3.
have [p1 p2] := post_psds (ltnW kT); have [q1 q2] := hk kT.
have := inn kT; have := inn' kT; rewrite !innovE !pred_PE a1 a2 a3 a4 => u1 u2.
rewrite pred_PE in L; apply: shrink_step => //.
apply: mulr_ge0 => //; rewrite big_seq_cond; apply: prodr_ge0 => i; rewrite andbT mem_index_iota => h.
by have [] := Hr' i h.
Qed.
End Run.

(** ** A steady state of a constant model *)
Section Steady.
Variable F : realFieldType.
Variables (n m : nat) (s : model F n m) (T : nat).
Variables (A : 'M[F]_n) (C : 'M[F]_(m, n)) (Q : 'M[F]_n) (R : 'M[F]_m).
Hypothesis hc : forall k, (k < T)%N -> [/\ mA s k = A, mH s k = C, mQ s k = Q & mR s k = R].
Hypothesis hQ : psd Q.
Hypothesis hR : psd R.
Hypothesis h0 : psd (mP0 s).
Hypothesis hS : forall k, (k < T)%N -> innov s k \in unitmx.
Variables (W : 'M[F]_n) (r : F).
Hypothesis hW : psd W.
Hypothesis uW : ucov (ucov W A Q) C R \in unitmx.
Hypothesis fW : upost (ucov W A Q) C R = W.
Hypothesis r0 : 0 <= r.
Hypothesis Lr : loewner (A *m W *m A^T) (r *: ucov W A Q).

Lemma post_psd1 k : (k <= T)%N -> psd (post_P s k).
Proof.
by move=> Hk; apply: (@post_psd _ _ _ s T) => // j Hj; have [_ _ e1 e2] := hc Hj; rewrite ?e1 ?e2.
Qed.

Lemma steady_above v : 0 <= v -> loewner (mP0 s) ((1 + v) *: W) ->
  forall k, (k <= T)%N -> loewner (post_P s k) ((1 + v * r ^+ k) *: W).
Proof.
move=> v0 L; elim=> [|k IH] Hk; first by rewrite expr0 mulr1.
have [a1 a2 a3 a4] := hc Hk; rewrite post_PS pred_PE a1 a2 a3 a4 exprSr mulrA -{1}fW.
have := hS Hk; rewrite innovE pred_PE a1 a2 a3 a4 => u.
by apply: shrink_step (IH (ltnW Hk)) Lr => //; [exact/post_psd1/ltnW|rewrite mulr_ge0 ?exprn_ge0].
Qed.

(** The share of the old uncertainty along the run. *)
Lemma steady_share v P : 0 <= v -> r < 1 -> psd P -> loewner P ((1 + v) *: W) ->
  loewner (A *m P *m A^T) (((1 + v) * r / (1 + v * r)) *: ucov P A Q).
Proof.
move=> v0 r1 hP L; set q := _ / _.
have d0 : 0 < 1 + v * r by apply: ltr_spaddl => //; exact: mulr_ge0.
have dn := lt0r_neq0 d0.
have q1 : 1 - q = (1 - r) / (1 + v * r).
  rewrite /q -{1}(divff dn) -mulrBl; congr (_ / _).
  by rewrite mulrDl mul1r opprD addrACA subrr addr0.
have L1 : loewner ((1 - r) *: (A *m W *m A^T)) (r *: Q).
  move: Lr; rewrite /ucov /loewner scalerDr scalerBl scale1r opprB addrA.
  by rewrite [r *: Q + _]addrC.
have L2 : loewner ((1 - q) *: (A *m P *m A^T)) (q *: Q).
  apply: (@loewner_trans _ _ _ ((1 - q) *: ((1 + v) *: (A *m W *m A^T)))).
    apply: loewner_scale; first by rewrite q1 divr_ge0 ?subr_ge0 ?ltW.
    by have := loewner_conj A L; rewrite -scalemxAr -scalemxAl.
  have -> : (1 - q) *: ((1 + v) *: (A *m W *m A^T)) = ((1 + v) / (1 + v * r)) *: ((1 - r) *: (A *m W *m A^T)).
    by rewrite !scalerA q1; congr (_ *: _); rewrite mulrC mulrA [RHS]mulrAC.
  have -> : q *: Q = ((1 + v) / (1 + v * r)) *: (r *: Q) by rewrite scalerA mulrAC.
  by apply: loewner_scale => //; rewrite divr_ge0 ?ltW // ltr_spaddl.
move: L2; rewrite /ucov /loewner scalerDr scalerBl scale1r opprB addrA.
by rewrite [q *: Q + _]addrC.
Qed.

Lemma steady_below v w : 0 <= v -> 0 <= w -> r < 1 -> loewner (mP0 s) ((1 + v) *: W) ->
  loewner W ((1 + w) *: mP0 s) ->
  forall k, (k <= T)%N -> loewner W ((1 + w * ((1 + v) * r / (1 + v * r)) ^+ k) *: post_P s k).
Proof.
move=> v0 w0 r1 L L'; set q := _ / _.
have d0 : 0 < 1 + v * r by apply: ltr_spaddl => //; exact: mulr_ge0.
have q0 : 0 <= q by apply: divr_ge0; [rewrite mulr_ge0 // addr_ge0|exact: ltW].
have bd k : (k <= T)%N -> loewner (post_P s k) ((1 + v) *: W).
  move=> Hk; apply: loewner_trans (steady_above v0 L Hk) _.
  rewrite /loewner -scalerBl; apply: psd_scale => //.
  rewrite opprD addrACA subrr add0r subr_ge0 ler_pimulr // exprn_ile1 //; exact: ltW.
elim=> [|k IH] Hk; first by rewrite expr0 mulr1.
have [a1 a2 a3 a4] := hc Hk; rewrite post_PS pred_PE a1 a2 a3 a4 exprSr mulrA -{1}fW.
have := hS Hk; rewrite innovE pred_PE a1 a2 a3 a4 => u.
have hp := post_psd1 (ltnW Hk).
apply: shrink_step (IH (ltnW Hk)) _ => //; first by rewrite mulr_ge0 ?exprn_ge0.
exact: steady_share (bd _ (ltnW Hk)).
Qed.
End Steady.
