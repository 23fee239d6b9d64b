(** * TextbookThms3: more data, blind sensors, independent systems, constant
      models, on the textbook recursion *)
From mathcomp Require Import all_ssreflect all_algebra.
From Verif Require Import RingTac Loewner KalmanAlg Textbook TextbookThms TextbookThms2.

Set Implicit Arguments.
Unset Strict Implicit.
Unset Printing Implicit Defensive.
Import GRing.Theory Num.Theory Order.Theory.
Local Open Scope ring_scope.

Section Thms.
Variable F : realFieldType.

(** ** More data never hurts *)
Section More.
Variables (n m : nat) (s : model F n m) (N : nat).
Hypothesis hP0 : psd (mP0 s).
Hypothesis hQ : forall k, (k < N)%N -> psd (mQ s k).
Hypothesis hR : forall k, (k < N)%N -> psd (mR s k).
Hypothesis hS : forall k, (k < N)%N -> innov s k \in unitmx.

Lemma smooth_more1 T k : (T.+1 < N)%N -> (k <= T)%N ->
  (forall j, (j < T.+1)%N -> pred_P s j.+1 \in unitmx) ->
  loewner (smooth_P s T.+1 k) (smooth_P s T k).
Proof.
move=> HT Hk Hu; have [i Hi] : exists i, (k + i = T)%N by exists (T - k)%N; rewrite subnKC.
elim: i k Hi Hk => [|i IH] k Hi Hk.
  have -> : k = T by rewrite -Hi addn0.
  rewrite (@smooth_PT _ _ _ s T).
  by apply: (proj2 (@smooth_le _ _ _ s N hP0 hQ hR hS T.+1 T HT (leqnSn T) Hu)).
have HkT : (k < T)%N by rewrite -Hi addnS ltnS leq_addr.
rewrite (smooth_PS _ HkT) (smooth_PS _ (ltnW HkT : (k < T.+1)%N)).
apply: loewner_add; first exact: loewner_refl.
have H : loewner (smooth_P s T.+1 k.+1) (smooth_P s T k.+1).
  by apply: IH => //; rewrite addSn -addnS.
by apply: loewner_conj; apply: loewner_add => //; exact: loewner_refl.
Qed.

Lemma smooth_more T T' k : (T' < N)%N -> (k <= T)%N -> (T <= T')%N ->
  (forall j, (j < T')%N -> pred_P s j.+1 \in unitmx) ->
  loewner (smooth_P s T' k) (smooth_P s T k).
Proof.
move=> + Hk; elim: T' => [|T' IH] HT' HT Hu.
  by move: HT; rewrite leqn0 => /eqP ->; exact: loewner_refl.
move: HT; rewrite leq_eqVlt => /orP [/eqP ->|HT]; first exact: loewner_refl.
have HT1 : (T <= T')%N by [].
have Hk' : (k <= T')%N by exact: leq_trans HT1.
apply: (loewner_trans (smooth_more1 HT' Hk' Hu)).
by apply: IH => //; [exact: ltnW|move=> j Hj; apply: Hu; exact: ltnW].
Qed.
End More.

(** ** A sensor that measures nothing *)
Section Blind.
Variables (n m : nat).

Lemma blind_step (s : model F n m) k : mH s k = 0 ->
  [/\ innov s k = mR s k, gain_at s k = 0, post_x s k.+1 = pred_x s k & post_P s k.+1 = pred_P s k].
Proof.
move=> H0; have K0 : gain_at s k = 0 by rewrite gainE /ugain H0 trmx0 mulmx0 mul0mx.
split=> //; first by rewrite innovE /ucov H0 !mul0mx add0r.
  by rewrite post_xS /ucorr -gainE K0 mul0mx addr0.
by rewrite post_PS /upost -gainE K0 mul0mx subr0 mul1mx.
Qed.

(** Observations of blind steps are irrelevant. *)
Lemma blind_data (s s' : model F n m) N : mx0 s' = mx0 s -> mP0 s' = mP0 s ->
  (forall k, (k < N)%N -> [/\ mA s' k = mA s k, mc s' k = mc s k, mH s' k = mH s k, mQ s' k = mQ s k &
     mR s' k = mR s k /\ (mH s k != 0 -> mz s' k = mz s k)]) ->
  [/\ (forall k, (k < N)%N -> [/\ innov s' k = innov s k, pred_P s' k = pred_P s k & gain_at s' k = gain_at s k]),
      (forall k, (k <= N)%N -> post_x s' k = post_x s k /\ post_P s' k = post_P s k) &
      (forall L k, (L < N)%N -> (k <= L)%N -> smooth_x s' L k = smooth_x s L k /\ smooth_P s' L k = smooth_P s L k)].
Proof.
move=> h0 hP h.
have step k : (k < N)%N -> post_x s' k = post_x s k -> post_P s' k = post_P s k ->
  [/\ pred_x s' k = pred_x s k, pred_P s' k = pred_P s k, innov s' k = innov s k & gain_at s' k = gain_at s k].
  move=> Hk Ex EP; have [A c H Q [R _]] := h _ Hk.
  have pP : pred_P s' k = pred_P s k by rewrite !pred_PE A Q EP.
  by split=> //; rewrite ?pred_xE ?A ?c ?Ex // ?innovE ?gainE pP H R.
have main k : (k <= N)%N -> post_x s' k = post_x s k /\ post_P s' k = post_P s k.
  elim: k => [|k IH] Hk //; have [E1 E2] := IH (ltnW Hk).
  have [px pP _ eK] := step k Hk E1 E2; have [_ _ H _ [R z]] := h _ Hk.
  case: (eqVneq (mH s k) 0) => [H0|Hn].
    have [_ _ -> ->] := blind_step H0; have [_ _ -> ->] := blind_step (etrans H H0); by split.
  by rewrite !post_xS !post_PS px pP H R z.
split=> //.
  by move=> k Hk; have [E1 E2] := main k (ltnW Hk); case: (step k Hk E1 E2).
move=> L k HL Hk; have [i Hi] : exists i, (k + i = L)%N by exists (L - k)%N; rewrite subnKC.
elim: i k Hi Hk => [|i IH] k Hi Hk.
  have -> : k = L by rewrite -Hi addn0.
  by rewrite !smooth_PT !smooth_xT; exact: main.
have HkT : (k < L)%N by rewrite -Hi addnS ltnS leq_addr.
have HkN : (k.+1 < N)%N by exact: leq_ltn_trans HkT HL.
have [|E1 E2] := IH k.+1 _ HkT; first by rewrite addSn -addnS.
have [m1 m2] := main k.+1 (ltnW HkN); have [px pP _ _] := step k.+1 HkN m1 m2.
have [A _ _ Q _] := h _ HkN.
have g : sgain s' k = sgain s k by rewrite !sgainE m2 A Q.
by rewrite !(smooth_PS _ HkT) !(smooth_xS _ HkT) m1 m2 px pP g E1 E2.
Qed.
End Blind.

(** ** Independent systems, side by side *)
Section Blocks.
Variables (n1 n2 m1 m2 : nat).
Notation dg A B := (block_mx A 0 0 B).

Lemma dg_mul a1 a2 b1 b2 c1 c2 (A : 'M[F]_(a1, b1)) (B : 'M[F]_(a2, b2)) (C : 'M[F]_(b1, c1)) (D : 'M[F]_(b2, c2)) :
  dg A B *m dg C D = dg (A *m C) (B *m D).
Proof. by rewrite mulmx_block !mulmx0 !mul0mx !addr0 !add0r. Qed.
Lemma dg_col a1 a2 b1 b2 c (A : 'M[F]_(a1, b1)) (B : 'M[F]_(a2, b2)) (x : 'M[F]_(b1, c)) (y : 'M[F]_(b2, c)) :
  dg A B *m col_mx x y = col_mx (A *m x) (B *m y).
Proof. by rewrite mul_block_col !mul0mx addr0 add0r. Qed.
Lemma dg_tr a1 a2 b1 b2 (A : 'M[F]_(a1, b1)) (B : 'M[F]_(a2, b2)) : (dg A B)^T = dg A^T B^T.
Proof. by rewrite tr_block_mx !trmx0. Qed.
Lemma dg_add a1 a2 b1 b2 (A C : 'M[F]_(a1, b1)) (B D : 'M[F]_(a2, b2)) : dg A B + dg C D = dg (A + C) (B + D).
Proof. by rewrite add_block_mx !addr0. Qed.
Lemma dg_opp a1 a2 b1 b2 (A : 'M[F]_(a1, b1)) (B : 'M[F]_(a2, b2)) : - dg A B = dg (- A) (- B).
Proof. by rewrite opp_block_mx !oppr0. Qed.
Lemma dg_sub a1 a2 b1 b2 (A C : 'M[F]_(a1, b1)) (B D : 'M[F]_(a2, b2)) : dg A B - dg C D = dg (A - C) (B - D).
Proof. by rewrite dg_opp dg_add. Qed.
Lemma dg_1 a1 a2 : (1%:M : 'M[F]_(a1 + a2)) = dg 1%:M 1%:M.
Proof. by rewrite -scalar_mx_block. Qed.
Lemma dg_unit a1 a2 (A : 'M[F]_a1) (B : 'M[F]_a2) : (dg A B \in unitmx) = (A \in unitmx) && (B \in unitmx).
Proof. by rewrite unitmxE det_ublock unitrM -!unitmxE. Qed.
Lemma dg_inv a1 a2 (A : 'M[F]_a1) (B : 'M[F]_a2) : A \in unitmx -> B \in unitmx ->
  invmx (dg A B) = dg (invmx A) (invmx B).
Proof. by move=> uA uB; apply: invmx_eq; rewrite dg_mul !mulmxV // -dg_1. Qed.

Lemma dg_ucov P1 P2 (H1 : 'M[F]_(m1, n1)) (H2 : 'M[F]_(m2, n2)) R1 R2 :
  ucov (dg P1 P2) (dg H1 H2) (dg R1 R2) = dg (ucov P1 H1 R1) (ucov P2 H2 R2).
Proof. by rewrite /ucov dg_tr !dg_mul dg_add. Qed.
End Blocks.

Section Blocks2.
Variables (n1 n2 m1 m2 : nat).
Notation dg A B := (block_mx A 0 0 B).
Lemma dg_ugain n1' n2' m1' m2' P1 P2 (H1 : 'M[F]_(m1', n1')) (H2 : 'M[F]_(m2', n2')) R1 R2 :
  ucov P1 H1 R1 \in unitmx -> ucov P2 H2 R2 \in unitmx ->
  ugain (dg P1 P2) (dg H1 H2) (dg R1 R2) = dg (ugain P1 H1 R1) (ugain P2 H2 R2).
Proof. by move=> u1 u2; rewrite /ugain dg_ucov dg_inv // dg_tr !dg_mul. Qed.

Variables (s1 : model F n1 m1) (s2 : model F n2 m2) (s : model F (n1 + n2) (m1 + m2)) (N : nat).
Hypothesis h0 : mx0 s = col_mx (mx0 s1) (mx0 s2).
Hypothesis hP : mP0 s = dg (mP0 s1) (mP0 s2).
Hypothesis h : forall k, (k < N)%N ->
  [/\ mA s k = dg (mA s1 k) (mA s2 k), mc s k = col_mx (mc s1 k) (mc s2 k),
      mH s k = dg (mH s1 k) (mH s2 k), mQ s k = dg (mQ s1 k) (mQ s2 k) &
      mR s k = dg (mR s1 k) (mR s2 k) /\ mz s k = col_mx (mz s1 k) (mz s2 k)].

Lemma blocks_pred k : (k < N)%N -> post_x s k = col_mx (post_x s1 k) (post_x s2 k) ->
  post_P s k = dg (post_P s1 k) (post_P s2 k) ->
  [/\ pred_x s k = col_mx (pred_x s1 k) (pred_x s2 k), pred_P s k = dg (pred_P s1 k) (pred_P s2 k) &
      innov s k = dg (innov s1 k) (innov s2 k)].
Proof.
move=> Hk Ex EP; have [A c H Q [R z]] := h Hk.
have pP : pred_P s k = dg (pred_P s1 k) (pred_P s2 k) by rewrite pred_PE EP A Q dg_ucov.
split=> //; first by rewrite pred_xE Ex A c dg_col add_col_mx.
by rewrite innovE pP H R dg_ucov.
Qed.

(** As long as both systems run. *)
Lemma blocks_post k : (k <= N)%N -> (forall j, (j < k)%N -> innov s1 j \in unitmx /\ innov s2 j \in unitmx) ->
  post_x s k = col_mx (post_x s1 k) (post_x s2 k) /\ post_P s k = dg (post_P s1 k) (post_P s2 k).
Proof.
elim: k => [|k IH] Hk Hu //.
have [|E1 E2] := IH (ltnW Hk); first by move=> j Hj; apply: Hu; exact: ltnW.
have [px pP eS] := blocks_pred Hk E1 E2; have [_ _ H _ [R z]] := h Hk.
have [u1 u2] := Hu k (ltnSn k).
rewrite post_xS post_PS /ucorr /upost px pP H R z dg_ugain // dg_col opp_col_mx add_col_mx dg_col add_col_mx.
by split=> //; rewrite dg_mul dg_1 dg_sub dg_mul.
Qed.

Lemma blocks_gain k : (k < N)%N -> (forall j, (j <= k)%N -> innov s1 j \in unitmx /\ innov s2 j \in unitmx) ->
  gain_at s k = dg (gain_at s1 k) (gain_at s2 k).
Proof.
move=> Hk Hu; have [|E1 E2] := blocks_post (ltnW Hk).
  by move=> j Hj; apply: Hu; exact: ltnW.
have [px pP _] := blocks_pred Hk E1 E2; have [_ _ H _ [R _]] := h Hk; have [u1 u2] := Hu k (leqnn k).
by rewrite gainE pP H R dg_ugain.
Qed.

(** The stacked system runs iff both do. *)
Lemma blocks_units k : (k <= N)%N ->
  (forall j, (j < k)%N -> innov s j \in unitmx) <->
  (forall j, (j < k)%N -> innov s1 j \in unitmx /\ innov s2 j \in unitmx).
Proof.
elim: k => [|k IH] Hk; first by split.
have [I1 I2] := IH (ltnW Hk).
have ext (Pr : nat -> Prop) : (forall j, (j < k)%N -> Pr j) -> Pr k -> forall j, (j < k.+1)%N -> Pr j.
  by move=> a b j; rewrite ltnS leq_eqVlt => /orP [/eqP ->|]; [|exact: a].
have st : (forall j, (j < k)%N -> innov s1 j \in unitmx /\ innov s2 j \in unitmx) ->
  (innov s k \in unitmx) = (innov s1 k \in unitmx) && (innov s2 k \in unitmx).
  move=> Hu; have [E1 E2] := blocks_post (ltnW Hk) Hu.
  by have [_ _ ->] := blocks_pred Hk E1 E2; rewrite dg_unit.
split=> Hu; apply: ext.
- by apply: I1 => j Hj; apply: Hu; exact: ltnW.
- have Hu' := I1 (fun j Hj => Hu j (ltnW Hj)).
  by have := Hu k (ltnSn k); rewrite (st Hu') => /andP [].
- by apply: I2 => j Hj; apply: Hu; exact: ltnW.
by rewrite st; [apply/andP; exact: Hu|move=> j Hj; apply: Hu; exact: ltnW].
Qed.

Lemma blocks_smooth L k : (L < N)%N -> (k <= L)%N ->
  (forall j, (j <= L)%N -> innov s1 j \in unitmx /\ innov s2 j \in unitmx) ->
  (forall j, (j < L)%N -> pred_P s1 j.+1 \in unitmx /\ pred_P s2 j.+1 \in unitmx) ->
  smooth_x s L k = col_mx (smooth_x s1 L k) (smooth_x s2 L k) /\
  smooth_P s L k = dg (smooth_P s1 L k) (smooth_P s2 L k).
Proof.
move=> HL Hk Hu Hp; have [i Hi] : exists i, (k + i = L)%N by exists (L - k)%N; rewrite subnKC.
have main j : (j <= L.+1)%N -> post_x s j = col_mx (post_x s1 j) (post_x s2 j) /\
    post_P s j = dg (post_P s1 j) (post_P s2 j).
  move=> Hj; apply: blocks_post; first exact: leq_trans HL.
  by move=> l Hl; apply: Hu; rewrite -ltnS; exact: leq_trans Hj.
elim: i k Hi Hk => [|i IH] k Hi Hk.
  have -> : k = L by rewrite -Hi addn0.
  by rewrite !smooth_PT !smooth_xT; exact: main.
have HkT : (k < L)%N by rewrite -Hi addnS ltnS leq_addr.
have HkN : (k.+1 < N)%N by exact: leq_ltn_trans HkT HL.
have [|E1 E2] := IH k.+1 _ HkT; first by rewrite addSn -addnS.
have [e1 e2] := main k.+1 (ltnW HkT); have [px pP _] := blocks_pred HkN e1 e2.
have [A _ _ Q _] := h HkN; have [u1 u2] := Hp k HkT.
have g : sgain s k = dg (sgain s1 k) (sgain s2 k) by rewrite !sgainE e2 A Q dg_ugain.
rewrite (smooth_PS _ HkT) (smooth_xS _ HkT) e1 e2 px pP g E1 E2.
rewrite (smooth_PS s1 HkT) (smooth_PS s2 HkT) (smooth_xS s1 HkT) (smooth_xS s2 HkT).
rewrite opp_col_mx add_col_mx dg_col add_col_mx dg_tr dg_sub dg_mul dg_mul dg_add; split=> //.
Qed.

Lemma blocks_pred_units L : (L < N)%N ->
  (forall j, (j <= L)%N -> innov s1 j \in unitmx /\ innov s2 j \in unitmx) ->
  (forall j, (j < L)%N -> pred_P s j.+1 \in unitmx) <->
  (forall j, (j < L)%N -> pred_P s1 j.+1 \in unitmx /\ pred_P s2 j.+1 \in unitmx).
Proof.
move=> HL Hu.
have E j : (j < L)%N -> (pred_P s j.+1 \in unitmx) = (pred_P s1 j.+1 \in unitmx) && (pred_P s2 j.+1 \in unitmx).
  move=> Hj; have HjN : (j.+1 < N)%N by exact: leq_ltn_trans Hj HL.
  have [|e1 e2] := blocks_post (ltnW HjN); last by have [_ -> _] := blocks_pred HjN e1 e2; rewrite dg_unit.
  by move=> l; rewrite ltnS => Hl; apply: Hu; apply: (leq_trans Hl); exact: ltnW.
by split=> H j Hj; [apply/andP; rewrite -E // H|rewrite E //; apply/andP; exact: H].
Qed.
End Blocks2.

(** ** Constant models *)
Section Constant.
Variables (n m : nat) (s : model F n m) (N : nat).
Variables (A : 'M[F]_n) (H : 'M[F]_(m, n)) (Q : 'M[F]_n) (R : 'M[F]_m).
Hypothesis hc : forall k, (k < N)%N -> [/\ mA s k = A, mH s k = H, mQ s k = Q & mR s k = R].
Hypothesis hQ : psd Q.
Hypothesis hR : psd R.
Hypothesis hS : forall k, (k < N)%N -> innov s k \in unitmx.

(** The model started one step later. *)
Definition shift : model F n m :=
  Model (fun k => mA s k.+1) (fun k => mc s k.+1) (fun k => mH s k.+1) (fun k => mQ s k.+1)
        (fun k => mR s k.+1) (fun k => mz s k.+1) (post_x s 1) (post_P s 1).

Lemma shift_post k : post_x shift k = post_x s k.+1 /\ post_P shift k = post_P s k.+1.
Proof.
elim: k => [|k [IH1 IH2]] //.
have pP : pred_P shift k = pred_P s k.+1 by rewrite !pred_PE IH2.
have px : pred_x shift k = pred_x s k.+1 by rewrite !pred_xE IH1.
by rewrite !post_xS !post_PS pP px.
Qed.

Lemma shift_pred k : pred_P shift k = pred_P s k.+1 /\ innov shift k = innov s k.+1 /\ gain_at shift k = gain_at s k.+1.
Proof.
have [_ E] := shift_post k; have pP : pred_P shift k = pred_P s k.+1 by rewrite !pred_PE E.
by rewrite !innovE !gainE pP.
Qed.

(** The covariances of a constant model go one way. *)
Lemma riccati_down : psd (mP0 s) -> loewner (post_P s 1) (mP0 s) ->
  forall k, (k < N)%N -> loewner (post_P s k.+1) (post_P s k).
Proof.
move=> h0 h1 k Hk; have [_ <-] := shift_post k.
case: N hc hS Hk => [|N'] // hc' hS' Hk.
have hP1 : psd (mP0 shift).
  by apply: (@post_psd _ _ _ s 1) => // j; rewrite ltnS leqn0 => /eqP ->;
     [case: (hc' 0%N isT) => _ _ ->|case: (hc' 0%N isT) => _ _ _ ->|exact: hS'].
apply: (@monotone _ n m N') => //.
  move=> j Hj; have [a1 a2 a3 a4] := hc' _ (ltnW Hj : (j < N'.+1)%N).
  have [b1 b2 b3 b4] := hc' _ (Hj : (j.+1 < N'.+1)%N).
  rewrite /= a1 a2 a3 a4 b1 b2 b3 b4; split=> //; split; exact: loewner_refl.
by move=> j Hj; have [_ [-> _]] := shift_pred j; split; apply: hS' => //; exact: ltnW.
Qed.

Lemma riccati_up : psd (mP0 s) -> loewner (mP0 s) (post_P s 1) ->
  forall k, (k < N)%N -> loewner (post_P s k) (post_P s k.+1).
Proof.
move=> h0 h1 k Hk; have [_ <-] := shift_post k.
case: N hc hS Hk => [|N'] // hc' hS' Hk.
apply: (@monotone _ n m N') => //.
  move=> j Hj; have [a1 a2 a3 a4] := hc' _ (ltnW Hj : (j < N'.+1)%N).
  have [b1 b2 b3 b4] := hc' _ (Hj : (j.+1 < N'.+1)%N).
  rewrite /= a1 a2 a3 a4 b1 b2 b3 b4; split=> //; split; exact: loewner_refl.
by move=> j Hj; have [_ [-> _]] := shift_pred j; split; apply: hS' => //; exact: ltnW.
Qed.

(** A steady state stays. *)
Lemma riccati_fix : post_P s 1 = mP0 s -> forall k, (k < N)%N ->
  post_P s k.+1 = mP0 s /\ gain_at s k = gain_at s 0.
Proof.
move=> h1.
have main : forall k, (k < N)%N -> post_P s k = mP0 s -> post_P s k.+1 = mP0 s /\ gain_at s k = gain_at s 0.
  move=> k Hk E; have HN : (0 < N)%N by exact: leq_ltn_trans Hk.
  have [a1 a2 a3 a4] := hc Hk; have [b1 b2 b3 b4] := hc HN.
  have pP : pred_P s k = pred_P s 0 by rewrite !pred_PE E a1 a3 b1 b3.
  by rewrite post_PS !gainE pP a2 a4 -{1}b2 -{1}b4 -post_PS h1 b2 b4.
have P k : (k <= N)%N -> post_P s k = mP0 s.
  by elim: k => [|k IH] Hk //; have [] := main k Hk (IH (ltnW Hk)).
by move=> k Hk; apply: main => //; exact/P/ltnW.
Qed.

(** Covariances stay on their side of a steady state W. *)
Lemma riccati_below (W : 'M[F]_n) : psd (mP0 s) -> loewner (mP0 s) W ->
  ucov (ucov W A Q) H R \in unitmx -> upost (ucov W A Q) H R = W ->
  forall k, (k <= N)%N -> loewner (post_P s k) W.
Proof.
move=> h0 hW uW fW; have hWp := loewner_psd h0 hW.
elim=> [|k IH] Hk //; rewrite post_PS pred_PE -[W in loewner _ W]fW.
have [a1 a2 a3 a4] := hc Hk; have := hS Hk; rewrite innovE pred_PE a1 a2 a3 a4 => u.
have hp : psd (post_P s k).
  apply: (@post_psd _ _ _ s k) => // j Hj; have HjN := ltn_trans Hj Hk.
  - by have [_ _ -> _] := hc HjN.
  - by have [_ _ _ ->] := hc HjN.
  - exact: hS.
apply: upost_mono => //; [by apply: ucov_psd| |exact: loewner_refl].
by apply: loewner_add; [exact/loewner_conj/IH/ltnW|exact: loewner_refl].
Qed.

Lemma riccati_above (W : 'M[F]_n) : psd W -> loewner W (mP0 s) ->
  ucov (ucov W A Q) H R \in unitmx -> upost (ucov W A Q) H R = W ->
  forall k, (k <= N)%N -> loewner W (post_P s k).
Proof.
move=> hWp hW uW fW.
elim=> [|k IH] Hk //; rewrite post_PS pred_PE -[W in loewner W _]fW.
have [a1 a2 a3 a4] := hc Hk; have := hS Hk; rewrite innovE pred_PE a1 a2 a3 a4 => u.
apply: upost_mono => //; [by apply: ucov_psd| |exact: loewner_refl].
by apply: loewner_add; [exact/loewner_conj/IH/ltnW|exact: loewner_refl].
Qed.
End Constant.
End Thms.
