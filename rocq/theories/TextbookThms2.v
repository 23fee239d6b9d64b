(** * TextbookThms2: sensor units, noise ratios, monotonicity, stacked sensors,
    constant level *)
From mathcomp Require Import all_ssreflect all_algebra.
From Verif Require Import RingTac Loewner KalmanAlg Textbook TextbookThms.

Set Implicit Arguments.
Unset Strict Implicit.
Unset Printing Implicit Defensive.
Import GRing.Theory Num.Theory Order.Theory.
Local Open Scope ring_scope.

Section Thms.
Variable F : realFieldType.
Add Ring Fring : (mc_ring F).
Add Ring Fring1 : (mc_ring1 F).
Add Ring Fring2 : (mc_ring2 F).
Add Field Ffield : (mc_field F).
Add Field Ffield1 : (mc_field1 F).
Add Field Ffield2 : (mc_field2 F).
Ltac mring := mc_norm F; mc_eq; ring.
Ltac mfield := mc_norm F; mc_eq; field.
Ltac mxadd := mx_atoms F; let i := fresh in let j := fresh in apply/matrixP => i j; rewrite !mxE; mring.

Section Two.
Variables n m : nat.
Variable N : nat.

(** ** Sensor units *)
Section Units.
Variables (P : 'M[F]_n) (H : 'M[F]_(m, n)) (R M : 'M[F]_m).
Hypothesis uM : M \in unitmx.

Lemma ucov_units : ucov P (M *m H) (M *m R *m M^T) = M *m ucov P H R *m M^T.
Proof. by rewrite /ucov trmx_mul mulmxDr mulmxDl !mulmxA. Qed.

Lemma ugain_units : ucov P H R \in unitmx ->
  ugain P (M *m H) (M *m R *m M^T) = ugain P H R *m invmx M.
Proof.
move=> uS; rewrite /ugain ucov_units invmx_mul ?unitmx_mul ?uM ?unitmx_tr // invmx_mul //.
by rewrite trmx_mul -!mulmxA mulKVmx // unitmx_tr.
Qed.
End Units.

Lemma units (s s' : model F n m) (M : nat -> 'M[F]_m) : (forall k, (k < N)%N -> M k \in unitmx) ->
  mx0 s' = mx0 s -> mP0 s' = mP0 s ->
  (forall k, (k < N)%N -> [/\ mA s' k = mA s k, mc s' k = mc s k, mQ s' k = mQ s k &
    [/\ mH s' k = M k *m mH s k, mR s' k = M k *m mR s k *m (M k)^T & mz s' k = M k *m mz s k]]) ->
  (forall k, (k < N)%N -> innov s k \in unitmx) ->
  [/\ (forall k, (k < N)%N -> innov s' k \in unitmx),
      (forall k, (k <= N)%N -> post_x s' k = post_x s k /\ post_P s' k = post_P s k),
      (forall k, (k < N)%N -> pred_P s' k = pred_P s k /\ gain_at s' k = gain_at s k *m invmx (M k)) &
      (forall L k, (L < N)%N -> (k <= L)%N ->
        smooth_x s' L k = smooth_x s L k /\ smooth_P s' L k = smooth_P s L k)].
Proof.
move=> uM hx hP h uS.
have step k : (k < N)%N -> post_x s' k = post_x s k -> post_P s' k = post_P s k ->
  [/\ pred_x s' k = pred_x s k, pred_P s' k = pred_P s k, innov s' k \in unitmx,
      gain_at s' k = gain_at s k *m invmx (M k) &
      post_x s' k.+1 = post_x s k.+1 /\ post_P s' k.+1 = post_P s k.+1].
  move=> Hk Ex EP; have [A c Q [H R z]] := h _ Hk.
  have px : pred_x s' k = pred_x s k by rewrite !pred_xE Ex A c.
  have pP : pred_P s' k = pred_P s k by rewrite !pred_PE EP A Q.
  have eK : gain_at s' k = gain_at s k *m invmx (M k).
    by rewrite !gainE pP H R ugain_units ?uM //; exact: uS.
  split=> //; first by rewrite innovE pP H R ucov_units !unitmx_mul unitmx_tr (uM _ Hk) -innovE (uS _ Hk).
  rewrite !post_xS !post_PS /ucorr /upost -!gainE eK px pP H z.
  move: (gain_at s k) (pred_x s k) (pred_P s k) (uM _ Hk) => K x W uMk; split.
    by rewrite -[M k *m _ *m x]mulmxA -mulmxBr -mulmxA mulKmx.
  by rewrite -!mulmxA mulKmx.
have main k : (k <= N)%N -> post_x s' k = post_x s k /\ post_P s' k = post_P s k.
  by elim: k => [|k IH] Hk //; have [E1 E2] := IH (ltnW Hk); case: (step k Hk E1 E2).
split=> //.
- by move=> k Hk; have [E1 E2] := main k (ltnW Hk); case: (step k Hk E1 E2).
- by move=> k Hk; have [E1 E2] := main k (ltnW Hk); case: (step k Hk E1 E2).
move=> L k HL Hk; have [i Hi] : exists i, (k + i = L)%N by exists (L - k)%N; rewrite subnKC.
elim: i k Hi Hk => [|i IH] k Hi Hk.
  have -> : k = L by rewrite -Hi addn0.
  by rewrite !smooth_PT !smooth_xT; exact: main.
have HkT : (k < L)%N by rewrite -Hi addnS ltnS leq_addr.
have HkN : (k.+1 < N)%N by exact: leq_ltn_trans HkT HL.
have [|E1 E2] := IH k.+1 _ HkT; first by rewrite addSn -addnS.
have [m1 m2] := main k.+1 (ltnW HkN); have [px pP _ _ _] := step k.+1 HkN m1 m2.
have [A _ Q _] := h _ HkN.
have g : sgain s' k = sgain s k by rewrite !sgainE m2 A Q.
by rewrite !(smooth_PS _ HkT) !(smooth_xS _ HkT) m1 m2 px pP g E1 E2.
Qed.

(** ** Noise ratios *)
Lemma ucov_scale c (P : 'M[F]_n) (H : 'M[F]_(m, n)) R : ucov (c *: P) H (c *: R) = c *: ucov P H R.
Proof. by rewrite /ucov -scalemxAr -scalemxAl -scalerDr. Qed.

Lemma ugain_scale c (P : 'M[F]_n) (H : 'M[F]_(m, n)) R : c != 0 -> ucov P H R \in unitmx ->
  ugain (c *: P) H (c *: R) = ugain P H R.
Proof.
move=> hc uS; rewrite /ugain ucov_scale invmxZ' // -scalemxAl -scalemxAl -scalemxAr scalerA.
by rewrite mulfV // scale1r.
Qed.

End Two.

Lemma ratios n m N (s s' : model F n m) (c : F) : c != 0 ->
  mx0 s' = mx0 s -> mP0 s' = c *: mP0 s ->
  (forall k, (k < N)%N -> [/\ mA s' k = mA s k, mc s' k = mc s k, mH s' k = mH s k &
    [/\ mQ s' k = c *: mQ s k, mR s' k = c *: mR s k & mz s' k = mz s k]]) ->
  (forall k, (k < N)%N -> innov s k \in unitmx) ->
  [/\ (forall k, (k < N)%N -> innov s' k \in unitmx),
      (forall k, (k <= N)%N -> post_x s' k = post_x s k /\ post_P s' k = c *: post_P s k),
      (forall k, (k < N)%N -> pred_P s' k = c *: pred_P s k /\ gain_at s' k = gain_at s k) &
      (forall L k, (L < N)%N -> (k <= L)%N -> (forall j, (j < L)%N -> pred_P s j.+1 \in unitmx) ->
        smooth_x s' L k = smooth_x s L k /\ smooth_P s' L k = c *: smooth_P s L k)].
Proof.
move=> hc hx hP h uS.
have step k : (k < N)%N -> post_x s' k = post_x s k -> post_P s' k = c *: post_P s k ->
  [/\ pred_x s' k = pred_x s k, pred_P s' k = c *: pred_P s k, innov s' k \in unitmx,
      gain_at s' k = gain_at s k &
      post_x s' k.+1 = post_x s k.+1 /\ post_P s' k.+1 = c *: post_P s k.+1].
  move=> Hk Ex EP; have [A e H [Q R z]] := h _ Hk.
  have px : pred_x s' k = pred_x s k by rewrite !pred_xE Ex A e.
  have pP : pred_P s' k = c *: pred_P s k by rewrite !pred_PE EP A Q ucov_scale.
  have eK : gain_at s' k = gain_at s k.
    by rewrite !gainE pP H R ugain_scale //; exact: uS.
  split=> //; first by rewrite innovE pP H R ucov_scale unitmxZ ?unitfE //; exact: uS.
  rewrite !post_xS !post_PS /ucorr /upost -!gainE eK px pP H z; split=> //.
  by rewrite -scalemxAr.
have main k : (k <= N)%N -> post_x s' k = post_x s k /\ post_P s' k = c *: post_P s k.
  by elim: k => [|k IH] Hk //; have [E1 E2] := IH (ltnW Hk); case: (step k Hk E1 E2).
split=> //.
- by move=> k Hk; have [E1 E2] := main k (ltnW Hk); case: (step k Hk E1 E2).
- by move=> k Hk; have [E1 E2] := main k (ltnW Hk); case: (step k Hk E1 E2).
move=> L k HL Hk Hu; have [i Hi] : exists i, (k + i = L)%N by exists (L - k)%N; rewrite subnKC.
elim: i k Hi Hk => [|i IH] k Hi Hk.
  have -> : k = L by rewrite -Hi addn0.
  by rewrite !smooth_PT !smooth_xT; exact: main.
have HkT : (k < L)%N by rewrite -Hi addnS ltnS leq_addr.
have HkN : (k.+1 < N)%N by exact: leq_ltn_trans HkT HL.
have [|E1 E2] := IH k.+1 _ HkT; first by rewrite addSn -addnS.
have [m1 m2] := main k.+1 (ltnW HkN); have [px pP _ _ _] := step k.+1 HkN m1 m2.
have [A _ _ [Q _ _]] := h _ HkN.
have g : sgain s' k = sgain s k by rewrite !sgainE m2 A Q ugain_scale //; exact: Hu.
rewrite !(smooth_PS _ HkT) !(smooth_xS _ HkT) m1 m2 px pP g E1 E2; split=> //.
by rewrite [RHS]scalerDr; congr (_ + _); rewrite -scalerBr -scalemxAr -scalemxAl.
Qed.

(** ** Better sensors and better priors *)
Lemma monotone n m N (s s' : model F n m) :
  psd (mP0 s) -> loewner (mP0 s) (mP0 s') ->
  (forall k, (k < N)%N -> [/\ mA s' k = mA s k, mH s' k = mH s k, psd (mQ s k), psd (mR s k) &
     loewner (mQ s k) (mQ s' k) /\ loewner (mR s k) (mR s' k)]) ->
  (forall k, (k < N)%N -> innov s k \in unitmx /\ innov s' k \in unitmx) ->
  forall k, (k <= N)%N -> loewner (post_P s k) (post_P s' k).
Proof.
move=> h0 hle h uS; elim=> [|k IH] Hk //.
have [A H hQ hR [lQ lR]] := h _ Hk; have [u u'] := uS _ Hk.
have hp : psd (pred_P s k).
  rewrite pred_PE; apply: ucov_psd => //.
  have Hj j : (j < k)%N -> (j < N)%N by move=> Hj; exact: ltn_trans Hj Hk.
  by apply: (@post_psd _ _ _ s k) => // j /Hj HjN; [case: (h _ HjN)|case: (h _ HjN)|case: (uS _ HjN)].
have lp : loewner (pred_P s k) (pred_P s' k).
  by rewrite !pred_PE A; apply: loewner_add => //; apply: loewner_conj; exact/IH/ltnW.
by rewrite !post_PS H; apply: upost_mono => //; rewrite -H.
Qed.

(** ** Two sensors *)
Section Stack.
Variables n m1 m2 : nat.
Variables (P : 'M[F]_n) (H1 : 'M[F]_(m1, n)) (H2 : 'M[F]_(m2, n)) (R1 : 'M[F]_m1) (R2 : 'M[F]_m2).
Let H := col_mx H1 H2.
Let R := block_mx R1 0 0 R2.
Let P1 := upost P H1 R1.
Hypothesis u1 : ucov P H1 R1 \in unitmx.
Hypothesis u2 : ucov P1 H2 R2 \in unitmx.

Lemma gain_noise k (P' : 'M[F]_n) (H' : 'M[F]_(k, n)) R' : ucov P' H' R' \in unitmx ->
  ugain P' H' R' *m R' = upost P' H' R' *m H'^T.
Proof.
move=> u; have := gain_cov u; rewrite /upost; move: (ugain P' H' R') => K.
by rewrite /ucov mulmxDr !mulmxBl mul1mx !mulmxA => <-; rewrite addrAC subrr add0r.
Qed.

Lemma stack_unit : ucov P H R \in unitmx.
Proof.
apply: unit_ker0 => x; rewrite -(vsubmxK x); move: (usubmx x) (dsubmx x) => u v.
rewrite /ucov /H /R tr_col_mx mul_col_mx mul_col_row add_block_mx !addr0 mul_block_col => /eqP.
rewrite -col_mx0 => /eqP /eq_col_mx [E1 E2].
have Eu : u = - (invmx (ucov P H1 R1) *m (H1 *m P *m H2^T *m v)).
  rewrite -(mulKmx u1 u) -mulmxN; congr (_ *m _); apply/eqP.
  by rewrite -addr_eq0 -/(ucov P H1 R1) E1.
have Ev : v = 0.
  apply: (mulmx_inj0 u2); rewrite -[RHS]E2 Eu /ucov /P1 /upost /ugain.
  rewrite -/(ucov P H1 R1); move: (invmx _) => S.
  rewrite !(mulmxDl, mulmxDr, mulmxBr, mulmxBl, mulmxN, mulNmx) mul1mx !(mulmxA, mulmxN, mulNmx); mxadd.
by rewrite Eu Ev !mulmx0 oppr0.
Qed.

Let K1 := ugain P H1 R1.
Let K2 := ugain P1 H2 R2.

Lemma stack_post2 : upost P1 H2 R2 = (1%:M - K2 *m H2) *m (1%:M - K1 *m H1) *m P.
Proof. by rewrite -mulmxA. Qed.

Lemma stack_gain : ugain P H R = row_mx ((1%:M - K2 *m H2) *m K1) K2.
Proof.
set L := row_mx _ _; rewrite -(mulmxK stack_unit L); congr (_ *m _).
have EL : (1%:M - L *m H) *m P = upost P1 H2 R2.
  rewrite /L /H mul_row_col stack_post2; congr (_ *m _).
  by move: K1 K2 => k1 k2; rewrite !(mulmxBl, mulmxBr, mulmx1, mul1mx) !mulmxA; mxadd.
have ER : L *m R = upost P1 H2 R2 *m H^T.
  rewrite /L /R mul_row_block !mulmx0 addr0 add0r /H tr_col_mx mul_mx_row; congr row_mx.
    by rewrite -mulmxA gain_noise // mulmxA.
  by rewrite gain_noise.
have -> : L *m ucov P H R = L *m H *m P *m H^T + L *m R by rewrite /ucov mulmxDr !mulmxA.
by rewrite ER -EL !mulmxBl mul1mx addrC subrK.
Qed.

Lemma stack_post : upost P H R = upost P1 H2 R2.
Proof.
rewrite stack_post2 /upost stack_gain /H mul_row_col; congr (_ *m _).
by move: K1 K2 => k1 k2; rewrite !(mulmxBl, mulmxBr, mulmx1, mul1mx) !mulmxA; mxadd.
Qed.

Lemma stack_corr x z1 z2 : ucorr P H R x (col_mx z1 z2) = ucorr P1 H2 R2 (ucorr P H1 R1 x z1) z2.
Proof.
rewrite /ucorr stack_gain -/K1 -/K2 /H mul_col_mx opp_col_mx add_col_mx mul_row_col.
by move: K1 K2 => k1 k2; rewrite !(mulmxBl, mulmxBr, mulmxDr, mulmx1, mul1mx) !mulmxA; mxadd.
Qed.
End Stack.

(** ** Sensors in another order *)
Section Swap.
Variables n m m' : nat.
Variables (P : 'M[F]_n) (H : 'M[F]_(m, n)) (R : 'M[F]_m) (M : 'M[F]_(m', m)) (W : 'M[F]_(m, m')).
Hypothesis MW : M *m W = 1%:M.
Hypothesis WM : W *m M = 1%:M.
Hypothesis u : ucov P H R \in unitmx.

Lemma swap_gain : ugain P (M *m H) (M *m R *m M^T) = ugain P H R *m W.
Proof.
rewrite /ugain; move: u.
have -> : ucov P (M *m H) (M *m R *m M^T) = M *m ucov P H R *m M^T.
  by rewrite /ucov trmx_mul mulmxDr mulmxDl !mulmxA.
move: (ucov P H R) => S uS.
have -> : invmx (M *m S *m M^T) = W^T *m invmx S *m W.
  apply: invmx_eq; rewrite !mulmxA -(mulmxA (M *m S) M^T) -trmx_mul WM trmx1 mulmx1.
  by rewrite -(mulmxA M S) mulmxV // mulmx1.
by rewrite trmx_mul !mulmxA -(mulmxA (P *m H^T) M^T) -trmx_mul WM trmx1 mulmx1.
Qed.

Lemma swap_post : upost P (M *m H) (M *m R *m M^T) = upost P H R.
Proof. by rewrite /upost swap_gain mulmxA -(mulmxA _ W M) WM mulmx1. Qed.

Lemma swap_corr x z : ucorr P (M *m H) (M *m R *m M^T) x (M *m z) = ucorr P H R x z.
Proof. by rewrite /ucorr swap_gain -(mulmxA M) -mulmxBr mulmxA -(mulmxA _ W M) WM mulmx1. Qed.
End Swap.

Lemma stack_either n m1 m2 (P : 'M[F]_n) (H1 : 'M[F]_(m1, n)) (H2 : 'M[F]_(m2, n)) R1 R2 x z1 z2 :
  let P1 := upost P H1 R1 in let P2 := upost P H2 R2 in
  ucov P H1 R1 \in unitmx -> ucov P1 H2 R2 \in unitmx ->
  ucov P H2 R2 \in unitmx -> ucov P2 H1 R1 \in unitmx ->
  upost P1 H2 R2 = upost P2 H1 R1 /\
  ucorr P1 H2 R2 (ucorr P H1 R1 x z1) z2 = ucorr P2 H1 R1 (ucorr P H2 R2 x z2) z1.
Proof.
move=> P1 P2 u1 u12 u2 u21.
pose M : 'M[F]_(m2 + m1, m1 + m2) := block_mx 0 1%:M 1%:M 0.
pose W : 'M[F]_(m1 + m2, m2 + m1) := block_mx 0 1%:M 1%:M 0.
have MW : M *m W = 1%:M by rewrite mulmx_block !mul0mx !mulmx0 !mul1mx !addr0 !add0r -scalar_mx_block.
have WM : W *m M = 1%:M by rewrite mulmx_block !mul0mx !mulmx0 !mul1mx !addr0 !add0r -scalar_mx_block.
have EH : col_mx H2 H1 = M *m col_mx H1 H2 by rewrite mul_block_col !mul0mx !mul1mx !addr0 !add0r.
have Ez : col_mx z2 z1 = M *m col_mx z1 z2 by rewrite mul_block_col !mul0mx !mul1mx !addr0 !add0r.
have MT : M^T = block_mx 0 1%:M 1%:M 0 by rewrite tr_block_mx !trmx0 !trmx1.
have ER : block_mx R2 0 0 R1 = M *m block_mx R1 0 0 R2 *m M^T.
  by rewrite MT !mulmx_block !mul0mx !mulmx0 !mul1mx !mulmx1 !addr0 ?add0r.
have us := stack_unit u1 u12.
split.
  rewrite -(stack_post u1 u12) -(stack_post u2 u21) EH ER.
  by rewrite (swap_post MW WM us).
rewrite -(stack_corr u1 u12) -(stack_corr u2 u21) EH ER Ez.
by rewrite (swap_corr MW WM us).
Qed.

(** ** Constant level *)
Lemma level (s : model F 1 1) N (p r : F) : 0 < p -> 0 < r ->
  mP0 s = p%:M ->
  (forall k, (k < N)%N -> [/\ mA s k = 1%:M, mc s k = 0, mH s k = 1%:M, mQ s k = 0 & mR s k = r%:M]) ->
  forall k, (k <= N)%N ->
    [/\ post_P s k = (p^-1 + k%:R / r)^-1%:M,
        post_x s k = (p^-1 + k%:R / r)^-1 *: (p^-1 *: mx0 s + r^-1 *: \sum_(j < k) mz s j) &
        (k < N)%N -> innov s k \in unitmx].
Proof.
move=> hp hr h0 h.
have hk k : 0 < p^-1 + k%:R / r by rewrite ltr_paddr ?invr_gt0 // divr_ge0 ?ler0n // ltW.
have scal k : (k <= N)%N -> post_P s k = (p^-1 + k%:R / r)^-1%:M ->
   (k < N)%N -> innov s k = ((p^-1 + k%:R / r)^-1 + r)%:M /\ innov s k \in unitmx.
  move=> Hk E Hk'; have [A c H Q R] := h _ Hk'.
  have e : innov s k = ((p^-1 + k%:R / r)^-1 + r)%:M.
    by rewrite innovE /ucov pred_PE /ucov E A H Q R !mul1mx !trmx1 !mulmx1 addr0 -raddfD.
  split=> //; rewrite e unitmxE det_scalar1 unitfE gt_eqF //.
  by rewrite addr_gt0 ?invr_gt0.
elim=> [|k IH] Hk.
  split=> //; first by rewrite mul0r addr0 invrK.
    by rewrite big_ord0 scaler0 addr0 mul0r addr0 invrK scalerA mulfV ?gt_eqF // scale1r.
  by move=> H0; apply: (proj2 (scal 0%N Hk _ H0)); rewrite mul0r addr0 invrK.
have [E1 E2 E3] := IH (ltnW Hk); have [Es _] := scal _ (ltnW Hk) E1 Hk.
have [A c H Q R] := h _ Hk.
have eP : pred_P s k = (p^-1 + k%:R / r)^-1%:M by rewrite pred_PE /ucov E1 A Q mul1mx trmx1 mulmx1 addr0.
have ex : pred_x s k = post_x s k by rewrite pred_xE A c mul1mx addr0.
set w := p^-1 + k%:R / r in E1 E2 Es eP; have hw : 0 < w := hk k.
have hS : w^-1 + r != 0 by rewrite gt_eqF // addr_gt0 // invr_gt0.
have eK : gain_at s k = (w^-1 / (w^-1 + r))%:M.
  rewrite gainE /ugain -innovE Es eP H trmx1 mulmx1 invmx_scalar.
  by rewrite -scalar_mxM.
have e1 : p^-1 + k.+1%:R / r = w + r^-1.
  by rewrite /w -addn1 natrD mulrDl mul1r addrA.
have hw' : w + r^-1 != 0 by rewrite -e1 gt_eqF.
have wn : w != 0 by rewrite gt_eqF.
have rn : r != 0 by rewrite gt_eqF.
have hS2 : w * r + 1 != 0 by rewrite gt_eqF // addr_gt0 ?ltr01 ?mulr_gt0.
have EP : post_P s k.+1 = (p^-1 + k.+1%:R / r)^-1%:M.
  rewrite post_PS /upost -gainE eK H mulmx1 eP e1 -raddfB /= -scalar_mxM; congr (_%:M).
  mfield.
  by split; [exact/eqP|split; [exact: (elimN eqP hS2)|exact/eqP]].
split=> //; last by move=> HN; apply: (proj2 (scal k.+1 Hk EP HN)).
rewrite post_xS /ucorr -gainE eK ex H mul1mx mul_scalar_mx e1 E2 big_ord_recr /=.
move: (\sum_(i < k) _) => S; apply/matrixP => i j; rewrite !mxE !ord1; mfield.
by split; [exact/eqP|split; [apply/eqP; rewrite gt_eqF|split; [exact: (elimN eqP hS2)|exact/eqP]]].
Qed.

End Thms.
