(** * TextbookThms: covariances of the textbook recursion *)
From mathcomp Require Import all_ssreflect all_algebra.
From Verif Require Import RingTac Loewner KalmanAlg Textbook.

Set Implicit Arguments.
Unset Strict Implicit.
Unset Printing Implicit Defensive.
Import GRing.Theory Num.Theory Order.Theory.
Local Open Scope ring_scope.

Section Thms.
Variable F : realFieldType.
Add Ring Fring : (mc_ring F).
Add Ring Fring1 : (mc_ring1 F).
Add Ring Fring2 : (mc_ring2 F).
Ltac mring := mc_norm F; mc_eq; ring.
Ltac mxadd := mx_atoms F; let i := fresh in let j := fresh in apply/matrixP => i j; rewrite !mxE; mring.

Section One.
Variables n m : nat.
Variable s : model F n m.

Lemma innovE k : innov s k = ucov (pred_P s k) (mH s k) (mR s k). Proof. by []. Qed.
Lemma gainE k : gain_at s k = ugain (pred_P s k) (mH s k) (mR s k). Proof. by []. Qed.
Lemma post_PS k : post_P s k.+1 = upost (pred_P s k) (mH s k) (mR s k). Proof. by []. Qed.
Lemma post_xS k : post_x s k.+1 = ucorr (pred_P s k) (mH s k) (mR s k) (pred_x s k) (mz s k). Proof. by []. Qed.
Lemma pred_PE k : pred_P s k = ucov (post_P s k) (mA s k) (mQ s k). Proof. by []. Qed.
Lemma pred_xE k : pred_x s k = mA s k *m post_x s k + mc s k. Proof. by []. Qed.
Lemma sgainE k : sgain s k = ugain (post_P s k.+1) (mA s k.+1) (mQ s k.+1). Proof. by []. Qed.

Lemma smooth_PT T : smooth_P s T T = post_P s T.+1.
Proof. by rewrite /smooth_P subnn. Qed.
Lemma smooth_xT T : smooth_x s T T = post_x s T.+1.
Proof. by rewrite /smooth_x subnn. Qed.
Lemma smooth_PS T k : (k < T)%N -> smooth_P s T k =
  post_P s k.+1 + sgain s k *m (smooth_P s T k.+1 - pred_P s k.+1) *m (sgain s k)^T.
Proof.
move=> Hk; rewrite /smooth_P; have E : (T - k = (T - k.+1).+1)%N by rewrite subnSK.
by rewrite E /=; have -> : (T - (T - k.+1).+1 = k)%N by rewrite -E subKn // ltnW.
Qed.
Lemma smooth_xS T k : (k < T)%N -> smooth_x s T k =
  post_x s k.+1 + sgain s k *m (smooth_x s T k.+1 - pred_x s k.+1).
Proof.
move=> Hk; rewrite /smooth_x; have E : (T - k = (T - k.+1).+1)%N by rewrite subnSK.
by rewrite E /=; have -> : (T - (T - k.+1).+1 = k)%N by rewrite -E subKn // ltnW.
Qed.

(** ** Positivity *)
Variable N : nat.

Section Psd.
Hypothesis hP0 : psd (mP0 s).
Hypothesis hQ : forall k, (k < N)%N -> psd (mQ s k).
Hypothesis hR : forall k, (k < N)%N -> psd (mR s k).
Hypothesis hS : forall k, (k < N)%N -> innov s k \in unitmx.

Lemma post_psd k : (k <= N)%N -> psd (post_P s k).
Proof.
elim: k => [|k IH] Hk //; rewrite post_PS; apply: upost_psd; [|exact: hR|exact: hS].
by rewrite pred_PE; apply: ucov_psd; [exact/IH/ltnW|exact: hQ].
Qed.

Lemma pred_psd k : (k < N)%N -> psd (pred_P s k).
Proof. by move=> Hk; rewrite pred_PE; apply: ucov_psd; [exact/post_psd/ltnW|exact: hQ]. Qed.

Lemma post_le_pred k : (k < N)%N -> loewner (post_P s k.+1) (pred_P s k).
Proof. by move=> Hk; rewrite post_PS; apply: upost_le; [exact: pred_psd|exact: hR|exact: hS]. Qed.

(** Smoothing. *)
Lemma smooth_le T k : (T < N)%N -> (k <= T)%N -> (forall j, (j < T)%N -> pred_P s j.+1 \in unitmx) ->
  psd (smooth_P s T k) /\ loewner (smooth_P s T k) (post_P s k.+1).
Proof.
move=> HT Hk Hu; have [i Hi] : exists i, (k + i = T)%N by exists (T - k)%N; rewrite subnKC.
elim: i k Hi Hk => [|i IH] k Hi Hk.
  have -> : k = T by rewrite -Hi addn0.
  by rewrite smooth_PT; split; [exact: post_psd|exact: loewner_refl].
have HkT : (k < T)%N by rewrite -Hi addnS ltnS leq_addr.
have [|h1 h2] := IH k.+1 _ HkT; first by rewrite addSn -addnS.
have HkN : (k.+1 < N)%N by exact: leq_ltn_trans HkT HT.
have hp := post_psd (ltnW HkN); have hS' := Hu _ HkT; rewrite pred_PE in hS'.
rewrite smooth_PS // sgainE; set G := ugain _ _ _; set W := smooth_P s T k.+1.
split.
- have -> : post_P s k.+1 + G *m (W - pred_P s k.+1) *m G^T =
            upost (post_P s k.+1) (mA s k.+1) (mQ s k.+1) + G *m W *m G^T.
    rewrite upostE ?hp.1 ?(hQ HkN).1 // -/G -pred_PE mulmxBr mulmxBl; mxadd.
  by apply: psd_add; [apply: upost_psd => //; exact: hQ|exact: psd_conj].
have -> : loewner (post_P s k.+1 + G *m (W - pred_P s k.+1) *m G^T) (post_P s k.+1) <->
          psd (G *m (pred_P s k.+1 - W) *m G^T).
  rewrite /loewner; have -> // : post_P s k.+1 - (post_P s k.+1 + G *m (W - pred_P s k.+1) *m G^T) =
    G *m (pred_P s k.+1 - W) *m G^T.
  rewrite !mulmxBr !mulmxBl; mxadd.
apply: psd_conj; exact: (loewner_trans h2 (post_le_pred HkN)).
Qed.

End Psd.

(** Invertibility and definiteness with positive definite sensor noise. *)
Section Pd.
Hypothesis hP0 : psd (mP0 s).
Hypothesis hQ : forall k, (k < N)%N -> psd (mQ s k).
Hypothesis hR : forall k, (k < N)%N -> pd (mR s k).

Lemma post_psd_pd k : (k <= N)%N -> psd (post_P s k).
Proof.
elim: k => [|k IH] Hk //; rewrite post_PS.
have hp : psd (pred_P s k) by rewrite pred_PE; apply: ucov_psd; [exact/IH/ltnW|exact: hQ].
by apply: upost_psd => //; [exact/pd_psd/hR|exact/pd_unit/ucov_pd/hR].
Qed.

Lemma pd_innov k : (k < N)%N -> pd (innov s k).
Proof.
move=> Hk; rewrite innovE; apply: ucov_pd; last exact: hR.
by rewrite pred_PE; apply: ucov_psd; [exact/post_psd_pd/ltnW|exact: hQ].
Qed.

Lemma innov_unit k : (k < N)%N -> innov s k \in unitmx.
Proof. by move=> Hk; apply/pd_unit/pd_innov. Qed.

Lemma pd_pred_ppsd k : (k < N)%N -> psd (pred_P s k).
Proof. apply: pred_psd => // j Hj; [exact/pd_psd/hR|exact: innov_unit]. Qed.
End Pd.

(** P0 definite and every A invertible. *)
Lemma post_pd_A : pd (mP0 s) -> (forall k, (k < N)%N -> psd (mQ s k)) ->
  (forall k, (k < N)%N -> pd (mR s k)) -> (forall k, (k < N)%N -> mA s k \in unitmx) ->
  forall k, (k <= N)%N -> pd (post_P s k) /\ ((k < N)%N -> pd (pred_P s k)).
Proof.
move=> h0 hQ hR hA k; have step j : (j < N)%N -> pd (post_P s j) -> pd (pred_P s j).
  by move=> Hj hj; rewrite pred_PE; apply: pd_addl; [exact/pd_conj/hj/hA|exact: hQ].
have hpost : (k <= N)%N -> pd (post_P s k).
  by elim: k => [|k IH] Hk //; rewrite post_PS; apply: upost_pd; [exact/step/IH/ltnW|exact: hR].
by move=> Hk; split; [exact: hpost|move=> Hk'; apply: step => //; exact: hpost].
Qed.

(** Every Q definite. *)
Lemma post_pd_Q : psd (mP0 s) -> (forall k, (k < N)%N -> pd (mQ s k)) ->
  (forall k, (k < N)%N -> pd (mR s k)) ->
  forall k, (k < N)%N -> pd (pred_P s k) /\ pd (post_P s k.+1).
Proof.
move=> h0 hQ hR k Hk.
have hQ' j : (j < N)%N -> psd (mQ s j) by move/hQ/pd_psd.
have hR' j : (j < N)%N -> psd (mR s j) by move/hR/pd_psd.
have hp : pd (pred_P s k).
  rewrite pred_PE; apply: pd_addr; last exact: hQ.
  by apply: psd_conj; apply: post_psd_pd => //; exact: ltnW.
by split=> //; rewrite post_PS; apply: upost_pd => //; exact: hR.
Qed.

(** ** A noise-free trajectory *)
Lemma exact_track (t : nat -> 'cV[F]_n) :
  (forall k, (k < N)%N -> t k = mA s k *m (if k is j.+1 then t j else mx0 s) + mc s k) ->
  (forall k, (k < N)%N -> mz s k = mH s k *m t k) ->
  (forall k, (k < N)%N -> pred_x s k = t k /\ post_x s k.+1 = t k) /\
  (forall T k, (T < N)%N -> (k <= T)%N -> smooth_x s T k = t k).
Proof.
move=> Ht Hz.
have main k : (k < N)%N -> pred_x s k = t k /\ post_x s k.+1 = t k.
  elim: k => [|k IH] Hk.
    have E : pred_x s 0 = t 0%N by rewrite Ht.
    by split=> //; rewrite post_xS E /ucorr Hz // subrr mulmx0 addr0.
  have [_ Hp] := IH (ltnW Hk).
  have E : pred_x s k.+1 = t k.+1 by rewrite [RHS]Ht // pred_xE Hp.
  by split=> //; rewrite post_xS E /ucorr Hz // subrr mulmx0 addr0.
split=> // T k HT Hk; have [i Hi] : exists i, (k + i = T)%N by exists (T - k)%N; rewrite subnKC.
elim: i k Hi Hk => [|i IH] k Hi Hk.
  have -> : k = T by rewrite -Hi addn0.
  by rewrite smooth_xT; case: (main T HT).
have HkT : (k < T)%N by rewrite -Hi addnS ltnS leq_addr.
rewrite smooth_xS // IH ?addSn -?addnS //.
have [_ ->] := main k (ltn_trans HkT HT); have [-> _] := main k.+1 (leq_ltn_trans HkT HT).
by rewrite subrr mulmx0 addr0.
Qed.

(** ** A certain prior *)
Lemma certain : mP0 s = 0 -> (forall k, (k < N)%N -> mQ s k = 0) ->
  forall k, (k < N)%N -> [/\ pred_P s k = 0, post_P s k.+1 = 0, gain_at s k = 0 & post_x s k.+1 = pred_x s k].
Proof.
move=> h0 hQ; have step k : (k < N)%N -> post_P s k = 0 ->
    [/\ pred_P s k = 0, post_P s k.+1 = 0, gain_at s k = 0 & post_x s k.+1 = pred_x s k].
  move=> Hk E; have Ep : pred_P s k = 0 by rewrite pred_PE /ucov E hQ // mulmx0 mul0mx addr0.
  have Eg : gain_at s k = 0 by rewrite gainE /ugain Ep !mul0mx.
  split=> //; first by rewrite post_PS /upost Ep mulmx0.
  by rewrite post_xS /ucorr -gainE Eg mul0mx addr0.
by elim=> [|k IH] Hk; apply: step => //; case: (IH (ltnW Hk)).
Qed.

End One.

(** ** Two models *)
Section Two.
Variables n m : nat.
Variable N : nat.

(** Superposition. *)
Lemma superpose (s1 s2 s : model F n m) (a b : F) :
  mP0 s1 = mP0 s -> mP0 s2 = mP0 s -> mx0 s = a *: mx0 s1 + b *: mx0 s2 ->
  (forall k, (k < N)%N -> [/\ mA s1 k = mA s k, mH s1 k = mH s k, mQ s1 k = mQ s k & mR s1 k = mR s k]) ->
  (forall k, (k < N)%N -> [/\ mA s2 k = mA s k, mH s2 k = mH s k, mQ s2 k = mQ s k & mR s2 k = mR s k]) ->
  (forall k, (k < N)%N -> mc s k = a *: mc s1 k + b *: mc s2 k /\ mz s k = a *: mz s1 k + b *: mz s2 k) ->
  (forall k, (k <= N)%N -> [/\ post_P s1 k = post_P s k, post_P s2 k = post_P s k &
     post_x s k = a *: post_x s1 k + b *: post_x s2 k]) /\
  (forall T k, (T < N)%N -> (k <= T)%N -> [/\ smooth_P s1 T k = smooth_P s T k, smooth_P s2 T k = smooth_P s T k &
     smooth_x s T k = a *: smooth_x s1 T k + b *: smooth_x s2 T k]).
Proof.
move=> hP1 hP2 hx h1 h2 hcz.
have pP k : (k < N)%N -> post_P s1 k = post_P s k -> post_P s2 k = post_P s k ->
    pred_P s1 k = pred_P s k /\ pred_P s2 k = pred_P s k.
  by move=> Hk E1 E2; have [a1 _ q1 _] := h1 _ Hk; have [a2 _ q2 _] := h2 _ Hk;
    rewrite !pred_PE E1 E2 a1 a2 q1 q2.
have px k : (k < N)%N -> post_x s k = a *: post_x s1 k + b *: post_x s2 k ->
    pred_x s k = a *: pred_x s1 k + b *: pred_x s2 k.
  move=> Hk E; have [a1 _ _ _] := h1 _ Hk; have [a2 _ _ _] := h2 _ Hk; have [c _] := hcz _ Hk.
  by rewrite !pred_xE E a1 a2 c mulmxDr -!scalemxAr !scalerDr addrACA.
have main k : (k <= N)%N -> [/\ post_P s1 k = post_P s k, post_P s2 k = post_P s k &
     post_x s k = a *: post_x s1 k + b *: post_x s2 k].
  elim: k => [|k IH] Hk //; have [E1 E2 E3] := IH (ltnW Hk).
  have [p1 p2] := pP k Hk E1 E2; have p3 := px k Hk E3.
  have [_ H1 _ r1] := h1 _ Hk; have [_ H2 _ r2] := h2 _ Hk; have [_ z] := hcz _ Hk.
  rewrite !post_PS !post_xS p1 p2 r1 r2 H1 H2; split=> //.
  rewrite /ucorr p3 z; move: (ugain _ _ _) (pred_x s1 k) (pred_x s2 k) => K x1 x2.
  rewrite !(mulmxBr, mulmxDr) -!scalemxAr !scalerDr !scalerN; mxadd.
split=> // T k HT Hk; have [i Hi] : exists i, (k + i = T)%N by exists (T - k)%N; rewrite subnKC.
elim: i k Hi Hk => [|i IH] k Hi Hk.
  have -> : k = T by rewrite -Hi addn0.
  by rewrite !smooth_PT !smooth_xT; exact: main.
have HkT : (k < T)%N by rewrite -Hi addnS ltnS leq_addr.
have HkN : (k.+1 < N)%N by exact: leq_ltn_trans HkT HT.
have [|E1 E2 E3] := IH k.+1 _ HkT; first by rewrite addSn -addnS.
have [m1 m2 m3] := main k.+1 (ltnW HkN).
have [p1 p2] := pP k.+1 HkN m1 m2; have p3 := px k.+1 HkN m3.
have [a1 _ q1 _] := h1 _ HkN; have [a2 _ q2 _] := h2 _ HkN.
have g1 : sgain s1 k = sgain s k by rewrite !sgainE m1 a1 q1.
have g2 : sgain s2 k = sgain s k by rewrite !sgainE m2 a2 q2.
rewrite !(smooth_PS _ HkT) !(smooth_xS _ HkT) m1 m2 m3 p1 p2 p3 g1 g2 E1 E2 E3; split=> //.
move: (sgain s k) (post_x s1 _) (post_x s2 _) (pred_x s1 _) (pred_x s2 _) (smooth_x s1 _ _) (smooth_x s2 _ _)
  => G v1 v2 v3 v4 v5 v6.
rewrite !(mulmxBr, mulmxDr) -!scalemxAr !scalerDr !scalerN; mxadd.
Qed.

(** Change of state coordinates. *)
Lemma coords (s s' : model F n m) (T : 'M[F]_n) : T \in unitmx ->
  mx0 s' = T *m mx0 s -> mP0 s' = T *m mP0 s *m T^T ->
  (forall k, (k < N)%N -> [/\ mA s' k = T *m mA s k *m invmx T, mc s' k = T *m mc s k,
     mH s' k = mH s k *m invmx T, mQ s' k = T *m mQ s k *m T^T & mR s' k = mR s k /\ mz s' k = mz s k]) ->
  (forall k, (k < N)%N -> [/\ innov s' k = innov s k, pred_P s' k = T *m pred_P s k *m T^T &
      gain_at s' k = T *m gain_at s k]) /\
  (forall k, (k <= N)%N -> post_x s' k = T *m post_x s k /\ post_P s' k = T *m post_P s k *m T^T) /\
  (forall L k, (L < N)%N -> (k <= L)%N -> (forall j, (j < L)%N -> pred_P s j.+1 \in unitmx) ->
     smooth_x s' L k = T *m smooth_x s L k /\ smooth_P s' L k = T *m smooth_P s L k *m T^T).
Proof.
move=> uT hx hP h.
have uT' : T^T \in unitmx by rewrite unitmx_tr.
have step k : (k < N)%N -> post_x s' k = T *m post_x s k -> post_P s' k = T *m post_P s k *m T^T ->
  [/\ pred_x s' k = T *m pred_x s k, pred_P s' k = T *m pred_P s k *m T^T,
      innov s' k = innov s k & gain_at s' k = T *m gain_at s k].
  move=> Hk Ex EP; have [A c H Q [R z]] := h _ Hk.
  have px : pred_x s' k = T *m pred_x s k.
    by rewrite !pred_xE Ex A c mulmxDr -!mulmxA mulKmx.
  have pP : pred_P s' k = T *m pred_P s k *m T^T.
    rewrite !pred_PE /ucov EP A Q mulmxDr mulmxDl; congr (_ + _).
    by rewrite !trmx_mul -!mulmxA mulKmx // [T^T *m (_ *m _)]mulmxA trmx_inv mulmxV // mul1mx.
  have eS : innov s' k = innov s k.
    rewrite !innovE /ucov pP H R; congr (_ + _).
    by rewrite trmx_mul -!mulmxA mulKmx // [T^T *m (_ *m _)]mulmxA trmx_inv mulmxV // mul1mx.
  split=> //; rewrite !gainE /ugain -!innovE eS pP H trmx_mul -!mulmxA.
  by rewrite [T^T *m (_ *m _)]mulmxA trmx_inv mulmxV // mul1mx.
have main k : (k <= N)%N -> post_x s' k = T *m post_x s k /\ post_P s' k = T *m post_P s k *m T^T.
  elim: k => [|k IH] Hk //; have [E1 E2] := IH (ltnW Hk).
  have [px pP eS eK] := step k Hk E1 E2; have [_ _ H _ [_ z]] := h _ Hk.
  rewrite !post_xS !post_PS /ucorr /upost -!gainE eK px pP H z; move: (gain_at s k) (pred_x s k) (pred_P s k) => K x0 W0; split.
    by rewrite [RHS]mulmxDr -!mulmxA mulKmx.
  by rewrite !mulmxBl !mul1mx mulmxBr mulmxBl -!mulmxA mulKmx.
split; last split=> //.
  by move=> k Hk; have [E1 E2] := main k (ltnW Hk); case: (step k Hk E1 E2).
move=> L k HL Hk Hu; have [i Hi] : exists i, (k + i = L)%N by exists (L - k)%N; rewrite subnKC.
elim: i k Hi Hk => [|i IH] k Hi Hk.
  have -> : k = L by rewrite -Hi addn0.
  by rewrite !smooth_PT !smooth_xT; exact: main.
have HkT : (k < L)%N by rewrite -Hi addnS ltnS leq_addr.
have HkN : (k.+1 < N)%N by exact: leq_ltn_trans HkT HL.
have [|E1 E2] := IH k.+1 _ HkT; first by rewrite addSn -addnS.
have [m1 m2] := main k.+1 (ltnW HkN); have [px pP _ _] := step k.+1 HkN m1 m2.
have [A _ _ _ _] := h _ HkN.
have g : sgain s' k = T *m sgain s k *m invmx T.
  rewrite /sgain m2 A pP; move: (pred_P s k.+1) (post_P s k.+1) (mA s k.+1) (Hu _ HkT) => W V A0 uW.
  rewrite invmx_mul ?unitmx_mul ?uT ?uW ?unitmx_tr // invmx_mul // !trmx_mul trmx_inv.
  rewrite -!mulmxA; congr (_ *m (_ *m _)).
  by rewrite mulKVmx // mulKVmx.
rewrite !(smooth_PS _ HkT) !(smooth_xS _ HkT) m1 m2 px pP g E1 E2.
move: (sgain s k) (post_x s _) (post_P s _) (pred_x s _) (pred_P s _) (smooth_x s _ _) (smooth_P s _ _)
  => G v1 v2 v3 v4 v5 v6; split.
  by rewrite -mulmxBr [RHS]mulmxDr -!mulmxA mulKmx.
rewrite -mulmxBl -mulmxBr [T *m (v2 + _)]mulmxDr [RHS]mulmxDl [in LHS]trmx_mul [in LHS]trmx_mul; congr (_ + _).
by rewrite -!mulmxA mulKmx // [T^T *m (_ *m _)]mulmxA trmx_inv mulmxV // mul1mx.
Qed.
End Two.
End Thms.
