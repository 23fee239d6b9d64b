(** * BestLin: the filter and the smoother are best linear estimators *)
From mathcomp Require Import all_ssreflect all_algebra.
From Verif Require Import RingTac Loewner KalmanAlg Textbook TextbookThms Prob.

Set Implicit Arguments.
Unset Strict Implicit.
Unset Printing Implicit Defensive.
Import GRing.Theory Num.Theory Order.Theory.
Local Open Scope ring_scope.

Section Moments.
Variable F : realFieldType.
Variable W : prob F.
Notation rvec := (rvec W).
Notation Om := (Om W).

Lemma L1_const c : L1 (fun _ : Om => c : F).
Proof. by have := L2_mul (L2_const W c) (L2_const W 1); apply: L1_ext => w; rewrite mulr1. Qed.

Lemma Ex0 : Ex (fun _ : Om => 0 : F) = 0.
Proof.
have := @Ex_lin _ W (-1) _ _ (L1_const 1) (L1_const 1).
move=> E; transitivity (Ex (fun _ : Om => -1 * 1 + 1 : F)); last by rewrite E mulN1r addNr.
by apply: Ex_ext => w; rewrite mulN1r addNr.
Qed.

Lemma Ex_scale a f : L1 f -> Ex (fun w : Om => a * f w) = a * Ex f.
Proof.
move=> Hf; have := @Ex_lin _ W a f _ Hf (L1_const 0); rewrite Ex0 addr0 => <-.
by apply: Ex_ext => w; rewrite addr0.
Qed.

Lemma L1_add f g : L1 f -> L1 g -> L1 (fun w : Om => f w + g w).
Proof. by move=> Hf Hg; have := L1_lin 1 Hf Hg; apply: L1_ext => w; rewrite mul1r. Qed.
Lemma Ex_add f g : L1 f -> L1 g -> Ex (fun w : Om => f w + g w) = Ex f + Ex g.
Proof.
by move=> Hf Hg; have := Ex_lin 1 Hf Hg; rewrite mul1r => <-; apply: Ex_ext => w; rewrite mul1r.
Qed.
Lemma L1_scale a f : L1 f -> L1 (fun w : Om => a * f w).
Proof. by move=> Hf; have := L1_lin a Hf (L1_const 0); apply: L1_ext => w; rewrite addr0. Qed.
Lemma L2_scale a f : L2 f -> L2 (fun w : Om => a * f w).
Proof. by move=> Hf; have := L2_lin a Hf (L2_const W 0); apply: L2_ext => w; rewrite addr0. Qed.
Lemma L2_add f g : L2 f -> L2 g -> L2 (fun w : Om => f w + g w).
Proof. by move=> Hf Hg; have := L2_lin 1 Hf Hg; apply: L2_ext => w; rewrite mul1r. Qed.

Lemma L1_sum (I : Type) (r : seq I) (f : I -> Om -> F) : (forall i, L1 (f i)) ->
  L1 (fun w => \sum_(i <- r) f i w).
Proof.
move=> H; elim: r => [|i r IH].
  by apply: L1_ext (L1_const 0) => w; rewrite big_nil.
by apply: L1_ext (L1_add (H i) IH) => w; rewrite big_cons.
Qed.
Lemma L2_sum (I : Type) (r : seq I) (f : I -> Om -> F) : (forall i, L2 (f i)) ->
  L2 (fun w => \sum_(i <- r) f i w).
Proof.
move=> H; elim: r => [|i r IH].
  by apply: L2_ext (L2_const W 0) => w; rewrite big_nil.
by apply: L2_ext (L2_add (H i) IH) => w; rewrite big_cons.
Qed.
Lemma Ex_sum (I : Type) (r : seq I) (f : I -> Om -> F) : (forall i, L1 (f i)) ->
  Ex (fun w => \sum_(i <- r) f i w) = \sum_(i <- r) Ex (f i).
Proof.
move=> H; elim: r => [|i r IH].
  by rewrite big_nil -[RHS]Ex0; apply: Ex_ext => w; rewrite big_nil.
rewrite big_cons -IH -Ex_add //; last exact: L1_sum.
by apply: Ex_ext => w; rewrite big_cons.
Qed.

(** Random vectors. *)
Lemma L2v_ext n (X Y : rvec n) : (forall o, X o = Y o) -> L2v X -> L2v Y.
Proof. by move=> E H i; apply: L2_ext (H i) => o; rewrite E. Qed.
Lemma L2v_const n (a : 'cV[F]_n) : L2v ((fun _ => a) : rvec n).
Proof. by move=> i; exact: L2_const. Qed.
Lemma L2v_add n (X Y : rvec n) : L2v X -> L2v Y -> L2v ((fun o => X o + Y o) : rvec n).
Proof. by move=> HX HY i; apply: L2_ext (L2_add (HX i) (HY i)) => o; rewrite mxE. Qed.
Lemma L2v_mul n m (A : 'M[F]_(n, m)) (X : rvec m) : L2v X -> L2v ((fun o => A *m X o) : rvec n).
Proof.
move=> HX i; apply: L2_ext (L2_sum (index_enum _) (fun j => L2_scale (A i j) (HX j))) => o.
by rewrite mxE.
Qed.
Lemma L2v_sub n (X Y : rvec n) : L2v X -> L2v Y -> L2v ((fun o => X o - Y o) : rvec n).
Proof.
move=> HX HY; apply: L2v_ext (L2v_add HX (L2v_mul (- 1%:M) HY)) => o.
by rewrite mulNmx mul1mx.
Qed.

Lemma eq_moment n m (X X' : rvec n) (Y Y' : rvec m) :
  (forall o, X o = X' o) -> (forall o, Y o = Y' o) -> moment X Y = moment X' Y'.
Proof. by move=> EX EY; apply/matrixP => i j; rewrite !mxE; apply: Ex_ext => o; rewrite EX EY. Qed.

Lemma moment_tr n m (X : rvec n) (Y : rvec m) : (moment X Y)^T = moment Y X.
Proof. by apply/matrixP => i j; rewrite !mxE; apply: Ex_ext => o; rewrite mulrC. Qed.

Lemma momentDl n m (X X' : rvec n) (Y : rvec m) : L2v X -> L2v X' -> L2v Y ->
  moment ((fun o => X o + X' o) : rvec n) Y = moment X Y + moment X' Y.
Proof.
move=> HX HX' HY; apply/matrixP => i j; rewrite !mxE -Ex_add; try exact: L2_mul.
by apply: Ex_ext => o; rewrite mxE mulrDl.
Qed.

Lemma momentMl n k m (A : 'M[F]_(n, k)) (X : rvec k) (Y : rvec m) : L2v X -> L2v Y ->
  moment ((fun o => A *m X o) : rvec n) Y = A *m moment X Y.
Proof.
move=> HX HY; apply/matrixP => i j; rewrite !mxE.
have H l : L1 (fun o => A i l * (X o l 0 * Y o j 0)) by apply/L1_scale/L2_mul.
transitivity (Ex (fun o => \sum_l A i l * (X o l 0 * Y o j 0))).
  by apply: Ex_ext => o; rewrite mxE mulr_suml; apply: eq_bigr => l _; rewrite mulrA.
rewrite Ex_sum //; apply: eq_bigr => l _; rewrite mxE Ex_scale //; exact: L2_mul.
Qed.

Lemma momentBl n m (X X' : rvec n) (Y : rvec m) : L2v X -> L2v X' -> L2v Y ->
  moment ((fun o => X o - X' o) : rvec n) Y = moment X Y - moment X' Y.
Proof.
move=> HX HX' HY; rewrite -[moment X' Y]mul1mx -mulNmx -momentMl // -momentDl //; last exact: L2v_mul.
by apply: eq_moment => // o; rewrite mulNmx mul1mx.
Qed.

Lemma momentDr n m (X : rvec n) (Y Y' : rvec m) : L2v X -> L2v Y -> L2v Y' ->
  moment X ((fun o => Y o + Y' o) : rvec m) = moment X Y + moment X Y'.
Proof. by move=> HX HY HY'; rewrite -moment_tr momentDl // trD !moment_tr. Qed.
Lemma momentBr n m (X : rvec n) (Y Y' : rvec m) : L2v X -> L2v Y -> L2v Y' ->
  moment X ((fun o => Y o - Y' o) : rvec m) = moment X Y - moment X Y'.
Proof. by move=> HX HY HY'; rewrite -moment_tr momentBl // trB !moment_tr. Qed.
Lemma momentMr n k m (A : 'M[F]_(m, k)) (X : rvec n) (Y : rvec k) : L2v X -> L2v Y ->
  moment X ((fun o => A *m Y o) : rvec m) = moment X Y *m A^T.
Proof. by move=> HX HY; rewrite -moment_tr momentMl // trmx_mul moment_tr. Qed.

Lemma moment_cr n m (X : rvec n) (a : 'cV[F]_m) : L2v X -> moment X ((fun _ => a) : rvec m) = mean X *m a^T.
Proof.
move=> HX; apply/matrixP => i j; rewrite !mxE big_ord1 !mxE mulrC -Ex_scale.
  by apply: Ex_ext => o; rewrite mulrC.
by have := L2_mul (HX i) (L2_const W 1); apply: L1_ext => o; rewrite mulr1.
Qed.

Lemma moment0 n m (X : rvec n) (a : 'cV[F]_m) : L2v X -> mean X = 0 -> moment X ((fun _ => a) : rvec m) = 0.
Proof. by move=> HX E; rewrite moment_cr // E mul0mx. Qed.

Lemma meanE n (X : rvec n) : mean X = moment X ((fun _ => 1%:M) : rvec 1).
Proof. by apply/matrixP => i j; rewrite !mxE; apply: Ex_ext => o; rewrite ord1 ?mxE ?eqxx mulr1. Qed.

Lemma moment_psd n (X : rvec n) : L2v X -> psd (moment X X).
Proof.
move=> HX; split=> [|x]; first exact: moment_tr.
rewrite /quad; have -> : x^T *m moment X X *m x = moment ((fun o => x^T *m X o) : rvec 1) ((fun o => x^T *m X o) : rvec 1).
  by rewrite momentMl ?momentMr ?trmxK ?mulmxA //; exact: L2v_mul.
rewrite mxE; apply: Ex_ge0 => [|o]; last by rewrite -expr2 sqr_ge0.
by apply: L2_mul; exact: L2v_mul.
Qed.
End Moments.

Section Est.
Variable F : realFieldType.
Add Ring Fring : (mc_ring F).
Add Ring Fring1 : (mc_ring1 F).
Add Ring Fring2 : (mc_ring2 F).
Ltac mring := mc_norm F; mc_eq; ring.
Ltac mxadd := mx_atoms F; let i := fresh in let j := fresh in apply/matrixP => i j; rewrite !mxE; mring.
Variable W : prob F.
Notation rvec := (rvec W).
Notation Om := (Om W).
Variables (n m : nat) (s : model F n m) (T : nat).
Variables (e : rvec n) (w : nat -> rvec n) (v : nat -> rvec m).
Hypothesis HW : white_noises s T e w v.
Notation X := (true_state s e w).
Notation z := (sensed s e w v).

Lemma L2w k : (k < T)%N -> L2v (w k). Proof. by case: HW => _ _ _ _ H /H [[]]. Qed.
Lemma L2vv k : (k < T)%N -> L2v (v k). Proof. by case: HW => _ _ _ _ H /H [[]]. Qed.
Lemma L2e : L2v e. Proof. by case: HW. Qed.
Lemma mean_w k : (k < T)%N -> mean (w k) = 0. Proof. by case: HW => _ _ _ _ H /H [_ []]. Qed.
Lemma mean_v k : (k < T)%N -> mean (v k) = 0. Proof. by case: HW => _ _ _ _ H /H [_ []]. Qed.
Lemma m_ww k : (k < T)%N -> moment (w k) (w k) = mQ s k. Proof. by case: HW => _ _ _ _ H /H [_ _ []]. Qed.
Lemma m_vv k : (k < T)%N -> moment (v k) (v k) = mR s k. Proof. by case: HW => _ _ _ _ H /H [_ _ []]. Qed.
Lemma m_wv k j : (k < T)%N -> (j < T)%N -> moment (w k) (v j) = 0.
Proof. by case: HW => _ _ _ _ H /H [_ _ _ E _] /E. Qed.
Lemma m_vw k j : (k < T)%N -> (j < T)%N -> moment (v j) (w k) = 0.
Proof. by move=> Hk Hj; rewrite -moment_tr m_wv // trmx0. Qed.
Lemma m_wlt k j : (k < T)%N -> (j < k)%N -> moment (w k) (w j) = 0.
Proof. by case: HW => _ _ _ _ H /H [_ _ _ _ E] /E []. Qed.
Lemma m_vlt k j : (k < T)%N -> (j < k)%N -> moment (v k) (v j) = 0.
Proof. by case: HW => _ _ _ _ H /H [_ _ _ _ E] /E []. Qed.
Lemma m_we k : (k < T)%N -> moment (w k) e = 0.
Proof. by case: HW => _ _ _ H _ /H [E _]; rewrite -moment_tr E trmx0. Qed.
Lemma m_ve k : (k < T)%N -> moment (v k) e = 0.
Proof. by case: HW => _ _ _ H _ /H [_ E]; rewrite -moment_tr E trmx0. Qed.

Lemma L2X k : (k <= T)%N -> L2v (X k).
Proof.
elim: k => [|k IH] Hk; first exact: L2v_add (L2v_const _ _) L2e.
apply: (@L2v_add _ _ _ (fun o => mA s k *m X k o + mc s k)); last exact: L2w.
by apply: L2v_add (L2v_const _ _); apply: L2v_mul; exact/IH/ltnW.
Qed.

Lemma L2z k : (k < T)%N -> L2v (z k).
Proof. by move=> Hk; apply: L2v_add (L2vv Hk); apply: L2v_mul; exact: (@L2X k.+1). Qed.

(** Anything uncorrelated with the constants, the noises and the initial state
    is uncorrelated with states and observations. *)
Lemma perp_X d (D : rvec d) k : (k <= T)%N -> L2v D -> mean D = 0 -> moment D e = 0 ->
  (forall j, (j < k)%N -> moment D (w j) = 0) -> moment D (X k) = 0.
Proof.
move=> + hD h0 he; elim: k => [|k IH] Hk hw.
  rewrite [moment _ _](momentDr hD (L2v_const _ (mx0 s)) L2e) he addr0; exact: moment0.
rewrite [moment _ _](momentDr (Y := fun o => mA s k *m X k o + mc s k) hD _ (L2w Hk)); last first.
  by apply: L2v_add (L2v_const _ _); apply/L2v_mul/L2X/ltnW.
rewrite hw // addr0 [moment _ _](momentDr (Y := fun o => mA s k *m X k o) hD _ (L2v_const _ _)); last first.
  by apply/L2v_mul/L2X/ltnW.
rewrite moment0 // addr0 momentMr //; last by apply/L2X/ltnW.
by rewrite IH ?mul0mx //; [exact: ltnW|move=> j Hj; apply/hw/ltnW].
Qed.

Lemma w_X j k : (j <= k)%N -> (k < T)%N -> moment (w k) (X j) = 0.
Proof.
move=> Hj Hk; apply: perp_X => [|||| i Hi]; [exact: leq_trans (ltnW Hk)|exact: L2w|exact: mean_w|exact: m_we|].
by apply: m_wlt => //; exact: leq_trans Hj.
Qed.
Lemma v_X j k : (j <= T)%N -> (k < T)%N -> moment (v k) (X j) = 0.
Proof.
move=> Hj Hk; apply: perp_X => [//|||| i Hi]; [exact: L2vv|exact: mean_v|exact: m_ve|].
by apply: m_vw => //; exact: leq_trans Hj.
Qed.
Lemma w_z j k : (j < k)%N -> (k < T)%N -> moment (w k) (z j) = 0.
Proof.
move=> Hj Hk; have HjT := ltn_trans Hj Hk.
rewrite [moment _ _](momentDr (L2w Hk) (L2v_mul _ (@L2X j.+1 _)) (L2vv _)) // m_wv // addr0.
by rewrite momentMr ?w_X ?mul0mx //; [exact: L2w|exact: (@L2X j.+1)].
Qed.
Lemma v_z j k : (j < k)%N -> (k < T)%N -> moment (v k) (z j) = 0.
Proof.
move=> Hj Hk; have HjT := ltn_trans Hj Hk.
rewrite [moment _ _](momentDr (L2vv Hk) (L2v_mul _ (@L2X j.+1 _)) (L2vv _)) // m_vlt // addr0.
by rewrite momentMr ?v_X ?mul0mx //; [exact: L2vv|exact: (@L2X j.+1)].
Qed.

(** Affine estimators. *)
Lemma aff_const k d (a : 'cV[F]_d) : affine_in z k ((fun _ => a) : rvec d).
Proof. by exists a, (fun _ => 0) => o; rewrite big1 ?addr0 // => j _; rewrite mul0mx. Qed.
Lemma aff_add k d (Y Y' : rvec d) : affine_in z k Y -> affine_in z k Y' ->
  affine_in z k ((fun o => Y o + Y' o) : rvec d).
Proof.
move=> [a [L E]] [a' [L' E']]; exists (a + a'), (fun j => L j + L' j) => o.
rewrite E E' addrACA -big_split; congr (_ + _); apply: eq_bigr => j _; exact/esym/mulmxDl.
Qed.
Lemma aff_mul k d d' (A : 'M[F]_(d', d)) (Y : rvec d) : affine_in z k Y ->
  affine_in z k ((fun o => A *m Y o) : rvec d').
Proof.
move=> [a [L E]]; exists (A *m a), (fun j => A *m L j) => o.
by rewrite E mulmxDr mulmx_sumr; congr (_ + _); apply: eq_bigr => j _; rewrite mulmxA.
Qed.
Lemma aff_ext k d (Y Y' : rvec d) : (forall o, Y o = Y' o) -> affine_in z k Y -> affine_in z k Y'.
Proof. by move=> E [a [L H]]; exists a, L => o; rewrite -E. Qed.
Lemma aff_sub k d (Y Y' : rvec d) : affine_in z k Y -> affine_in z k Y' ->
  affine_in z k ((fun o => Y o - Y' o) : rvec d).
Proof.
move=> HY HY'; apply: aff_ext (aff_add HY (aff_mul (- 1%:M) HY')) => o.
by rewrite mulNmx mul1mx.
Qed.
Lemma aff_le k k' d (Y : rvec d) : (k <= k')%N -> affine_in z k Y -> affine_in z k' Y.
Proof.
move=> Hk [a [L E]]; exists a, (fun j => if (j < k)%N then L j else 0) => o; rewrite E; congr (_ + _).
rewrite (big_ord_widen k' (fun j => L j *m z j o) Hk) big_mkcond; apply: eq_bigr => j _.
by case: (j < k)%N => //; rewrite mul0mx.
Qed.
Lemma aff_z k j : (j < k)%N -> affine_in z k (z j).
Proof.
move=> Hj; exists 0, (fun i => if i == j then 1%:M else 0) => o.
rewrite add0r (bigD1 (Ordinal Hj)) //= eqxx mul1mx big1 ?addr0 // => i Hi.
by rewrite -val_eqE /= in Hi; rewrite (negbTE Hi) mul0mx.
Qed.
Lemma L2aff k d (Y : rvec d) : (k <= T)%N -> affine_in z k Y -> L2v Y.
Proof.
move=> Hk [a [L E]]; apply: (@L2v_ext _ _ _ (fun o => a + \sum_(j < k) L j *m z j o)) => //.
apply: L2v_add (L2v_const _ _) _; elim: k Hk {E} => [|k IH] Hk.
  by apply: L2v_ext (L2v_const W 0) => o; rewrite big_ord0.
apply: L2v_ext (L2v_add (IH (ltnW Hk)) (L2v_mul (L k) (L2z Hk))) => o.
by rewrite big_ord_recr.
Qed.
Lemma perp_aff k c d (D : rvec c) (Y : rvec d) : (k <= T)%N -> L2v D -> mean D = 0 ->
  (forall j, (j < k)%N -> moment D (z j) = 0) -> affine_in z k Y -> moment D Y = 0.
Proof.
move=> Hk HD h0 hz [a [L E]].
rewrite (eq_moment (X' := D) (Y' := fun o => a + \sum_(j < k) L j *m z j o)) //.
have H i : (i <= k)%N -> L2v ((fun o => \sum_(j < i) L j *m z j o) : rvec d) /\
   moment D ((fun o => \sum_(j < i) L j *m z j o) : rvec d) = 0.
  elim: i => [|i IH] Hi.
    have E0 o : 0 = \sum_(j < 0) L j *m z j o by rewrite big_ord0.
    split; first by apply: L2v_ext (L2v_const W 0).
    by rewrite -(eq_moment (X := D) (fun=> erefl) E0) moment0.
  have [h1 h2] := IH (ltnW Hi); have Hz := L2z (leq_trans Hi Hk).
  have E1 o : \sum_(j < i) L j *m z j o + L i *m z i o = \sum_(j < i.+1) L j *m z j o.
    by rewrite big_ord_recr.
  split; first by apply: L2v_ext E1 (L2v_add h1 (L2v_mul (L i) Hz)).
  rewrite -(eq_moment (X := D) (fun=> erefl) E1) momentDr //; last exact: L2v_mul.
  by rewrite h2 add0r momentMr // hz // mul0mx.
have [h1 h2] := H k (leqnn k).
by rewrite momentDr // ?moment0 ?add0r //; exact: L2v_const.
Qed.

(** ** The filter on random data *)
Variable sw : Om -> model F n m.
Hypothesis sw0 : forall o, mx0 (sw o) = mx0 s /\ mP0 (sw o) = mP0 s.
Hypothesis swk : forall o k, (k < T)%N ->
  [/\ mA (sw o) k = mA s k, mc (sw o) k = mc s k, mH (sw o) k = mH s k, mQ (sw o) k = mQ s k &
      mR (sw o) k = mR s k /\ mz (sw o) k = z k o].
Hypothesis inn : forall k, (k < T)%N -> innov s k \in unitmx.

Lemma sw_P o k : (k <= T)%N -> post_P (sw o) k = post_P s k.
Proof.
elim: k => [|k IH] Hk; first by have [_] := sw0 o.
by have [A _ H Q [R _]] := swk o Hk; rewrite !post_PS !pred_PE (IH (ltnW Hk)) A H Q R.
Qed.
Lemma sw_pred o k : (k < T)%N -> pred_P (sw o) k = pred_P s k.
Proof. by move=> Hk; have [A _ H Q _] := swk o Hk; rewrite !pred_PE sw_P ?A ?Q // ltnW. Qed.

Definition xh k : rvec n := fun o => post_x (sw o) k.
Definition xp k : rvec n := fun o => pred_x (sw o) k.
Definition err k : rvec n := fun o => X k o - xh k o.
Definition errp k : rvec n := fun o => X k.+1 o - xp k o.
Notation K := (gain_at s).

Lemma xpE k o : (k < T)%N -> xp k o = mA s k *m xh k o + mc s k.
Proof. by move=> Hk; rewrite /xp /xh pred_xE; have [-> -> _ _ _] := swk o Hk. Qed.
Lemma xhS k o : (k < T)%N -> xh k.+1 o = xp k o + K k *m (z k o - mH s k *m xp k o).
Proof.
move=> Hk; rewrite /xh post_xS /ucorr sw_pred //; have [_ _ -> _ [-> ->]] := swk o Hk.
by rewrite gainE.
Qed.

Lemma errpE k o : (k < T)%N -> errp k o = mA s k *m err k o + w k o.
Proof.
move=> Hk; rewrite /errp xpE // /err mulmxBr /=; set a := mA s k *m X k o; set b := mA s k *m xh k o; mxadd.
Qed.
Lemma errS k o : (k < T)%N -> err k.+1 o = (1%:M - K k *m mH s k) *m errp k o - K k *m v k o.
Proof.
move=> Hk; rewrite /err xhS //; set Kk := K k; rewrite /errp.
have -> : z k o - mH s k *m xp k o = mH s k *m (X k.+1 o - xp k o) + v k o.
  rewrite /sensed mulmxBr; set a := mH s k *m X k.+1 o; set b := mH s k *m xp k o; mxadd.
move: (X k.+1 o) (xp k o) => x y; rewrite mulmxDr mulmxBl mul1mx !mulmxA; move: (Kk *m mH s k) => M.
rewrite !mulmxBr; mxadd.
Qed.

Lemma xh_aff k : (k <= T)%N -> affine_in z k (xh k).
Proof.
elim: k => [|k IH] Hk.
  by apply: aff_ext (aff_const 0 (mx0 s)) => o; rewrite /xh /=; have [-> _] := sw0 o.
have h := aff_le (leqnSn k) (IH (ltnW Hk)).
have hp : affine_in z k.+1 (xp k).
  by apply: aff_ext (aff_add (aff_mul (mA s k) h) (aff_const _ (mc s k))) => o; rewrite xpE.
have hd : affine_in z k.+1 ((fun o => z k o - mH s k *m xp k o) : rvec m).
  by apply: aff_sub; [exact: aff_z|exact: aff_mul].
by apply: aff_ext (aff_add hp (aff_mul (K k) hd)) => o; rewrite xhS.
Qed.

Lemma L2xh k : (k <= T)%N -> L2v (xh k).
Proof. by move=> Hk; apply: L2aff (xh_aff Hk). Qed.
Lemma L2err k : (k <= T)%N -> L2v (err k).
Proof. by move=> Hk; apply: L2v_sub; [exact: L2X|exact: L2xh]. Qed.
Lemma xp_aff k : (k < T)%N -> affine_in z k (xp k).
Proof.
move=> Hk; have h := xh_aff (ltnW Hk).
by apply: aff_ext (aff_add (aff_mul (mA s k) h) (aff_const _ (mc s k))) => o; rewrite xpE.
Qed.
Lemma L2errp k : (k < T)%N -> L2v (errp k).
Proof. by move=> Hk; apply: L2v_sub; [exact: (@L2X k.+1)|exact: L2aff (ltnW Hk) (xp_aff Hk)]. Qed.

(** Moments of the errors with anything. *)
Lemma m_errp k d (Y : rvec d) : (k < T)%N -> L2v Y ->
  moment (errp k) Y = mA s k *m moment (err k) Y + moment (w k) Y.
Proof.
move=> Hk HY; rewrite (eq_moment (X' := fun o => mA s k *m err k o + w k o) (Y' := Y)) //.
  by rewrite momentDl ?momentMl //; [exact/L2err/ltnW|exact/L2v_mul/L2err/ltnW|exact: L2w].
by move=> o; exact: errpE.
Qed.
Lemma m_errS k d (Y : rvec d) : (k < T)%N -> L2v Y ->
  moment (err k.+1) Y = (1%:M - K k *m mH s k) *m moment (errp k) Y - K k *m moment (v k) Y.
Proof.
move=> Hk HY.
rewrite (eq_moment (X' := fun o => (1%:M - K k *m mH s k) *m errp k o - K k *m v k o) (Y' := Y)) //.
  rewrite momentBl ?momentMl //; [exact: L2vv|exact: L2errp|exact/L2v_mul/L2errp|exact/L2v_mul/L2vv].
by move=> o; exact: errS.
Qed.

Record est k : Prop := Est {
  est_mean : mean (err k) = 0;
  est_cov : moment (err k) (err k) = post_P s k;
  est_w : forall j, (k <= j)%N -> (j < T)%N -> moment (err k) (w j) = 0;
  est_v : forall j, (k <= j)%N -> (j < T)%N -> moment (err k) (v j) = 0;
  est_z : forall j, (j < k)%N -> moment (err k) (z j) = 0
}.

Lemma covs : psd (mP0 s) /\ forall k, (k < T)%N -> psd (mQ s k) /\ psd (mR s k).
Proof.
split; first by case: HW => h _ <- _ _; exact: moment_psd.
by move=> k Hk; rewrite -m_ww // -m_vv //; split; apply: moment_psd; [exact: L2w|exact: L2vv].
Qed.

Lemma est0 : est 0.
Proof.
have E o : e o = err 0 o.
  by rewrite /err /xh /=; have [-> _] := sw0 o; rewrite addrC addKr.
have E' d (Y : rvec d) : moment (err 0) Y = moment e Y by apply/esym/eq_moment.
case: HW => h0 h1 h2 h3 _; split=> //.
- by rewrite meanE E' -meanE.
- by rewrite E' -moment_tr E' moment_tr.
- by move=> j _ Hj; rewrite E'; have [] := h3 j Hj.
by move=> j _ Hj; rewrite E'; have [] := h3 j Hj.
Qed.

Lemma est_errp k : (k < T)%N -> est k ->
  [/\ mean (errp k) = 0, moment (errp k) (errp k) = pred_P s k,
      forall j, (j < k)%N -> moment (errp k) (z j) = 0,
      forall j, (k < j)%N -> (j < T)%N -> moment (errp k) (w j) = 0 &
      forall j, (k <= j)%N -> (j < T)%N -> moment (errp k) (v j) = 0].
Proof.
move=> Hk [hm hc hw hv hz]; have Le := L2err (ltnW Hk); have Lw := L2w Hk; have Lp := L2errp Hk.
split.
- rewrite meanE m_errp //; last exact: L2v_const.
  by rewrite -!meanE hm mean_w // mulmx0 addr0.
- have Eep : moment (err k) (errp k) = post_P s k *m (mA s k)^T.
    rewrite -moment_tr m_errp // hc -[moment (w k) _]moment_tr hw // trmx0 addr0 trmx_mul.
    by rewrite -hc moment_tr.
  rewrite m_errp // Eep -[moment (w k) _]moment_tr m_errp // hw // mulmx0 add0r m_ww //.
  have [_ [sQ _]] : psd (mP0 s) /\ psd (mQ s k) by have [h1 /(_ k Hk) []] := covs.
  by rewrite sQ pred_PE /ucov mulmxA.
- move=> j Hj; rewrite m_errp //; last exact/L2z/ltn_trans/Hk.
  by rewrite hz // w_z // mulmx0 addr0.
- move=> j Hj HjT; rewrite m_errp //; last exact: L2w.
  by rewrite hw ?(ltnW Hj) // mulmx0 add0r -moment_tr m_wlt // trmx0.
move=> j Hj HjT; rewrite m_errp //; last exact: L2vv.
by rewrite hv // mulmx0 add0r m_wv.
Qed.

Lemma estS k : (k < T)%N -> est k -> est k.+1.
Proof.
move=> Hk He; have [hm hc hz hw hv] := est_errp Hk He.
have Lv := L2vv Hk; have Lp := L2errp Hk.
have [sP sR] : (pred_P s k)^T = pred_P s k /\ (mR s k)^T = mR s k.
  by rewrite -hc moment_tr -m_vv // moment_tr.
have hS := inn Hk; rewrite innovE in hS.
have pv : moment (errp k) (v k) = 0 by exact: hv.
have vp : moment (v k) (errp k) = 0 by rewrite -moment_tr pv trmx0.
split.
- rewrite meanE m_errS //; last exact: L2v_const.
  by rewrite -!meanE hm mean_v // !mulmx0 subr0.
- have Es : moment (err k.+1) (errp k) = (1%:M - K k *m mH s k) *m pred_P s k.
    by rewrite m_errS // hc vp mulmx0 subr0.
  have Ev : moment (err k.+1) (v k) = - (K k *m mR s k).
    by rewrite m_errS // pv mulmx0 sub0r m_vv.
  rewrite m_errS //; last exact: (@L2err k.+1).
  rewrite -[moment (errp k) _]moment_tr Es -[moment (v k) _]moment_tr Ev.
  rewrite post_PS upost_joseph // /joseph -gainE trN mulmxN opprK.
  by move: (1%:M - K k *m mH s k) (K k) => M G; rewrite !trmx_mul sP sR !mulmxA.
- move=> j Hj HjT; rewrite m_errS //; last exact: L2w.
  by rewrite hw // m_vw // !mulmx0 subr0.
- move=> j Hj HjT; rewrite m_errS //; last exact: L2vv.
  by rewrite hv ?(ltnW Hj) // -[moment (v k) _]moment_tr m_vlt // trmx0 !mulmx0 subr0.
move=> j; rewrite ltnS leq_eqVlt => /orP [/eqP ->|Hj]; last first.
  rewrite m_errS //; last exact/L2z/ltn_trans/Hk.
  by rewrite hz // v_z // !mulmx0 subr0.
have Lxp := L2aff (ltnW Hk) (xp_aff Hk).
have Ez o : mH s k *m errp k o + (v k o + mH s k *m xp k o) = z k o.
  rewrite /errp mulmxBr /sensed; move: (mH s k *m X k.+1 o) (mH s k *m xp k o) => a b; mxadd.
rewrite -(eq_moment (X := err k.+1) (fun=> erefl) Ez) momentDr; last 3 first.
- exact: (@L2err k.+1).
- exact: L2v_mul.
- by apply: L2v_add => //; exact: L2v_mul.
rewrite momentDr //; [|exact: (@L2err k.+1)|exact: L2v_mul].
rewrite !momentMr //; [|exact: (@L2err k.+1)|exact: (@L2err k.+1)].
have E0 : moment (err k.+1) (xp k) = 0.
  have h1 : moment (errp k) (xp k) = 0 by apply: (perp_aff (ltnW Hk)) (xp_aff Hk).
  have h2 : moment (v k) (xp k) = 0.
    by apply: (perp_aff (ltnW Hk)) (xp_aff Hk) => // [|i Hi]; [exact: mean_v|exact: v_z].
  by rewrite m_errS // h1 h2 !mulmx0 subr0.
rewrite E0 mul0mx addr0 m_errS // hc vp mulmx0 subr0 m_errS // pv mulmx0 sub0r m_vv //.
rewrite gainE mulmxBl mul1mx mulmxBl -addrA -opprD.
have -> : ugain (pred_P s k) (mH s k) (mR s k) *m mH s k *m pred_P s k *m (mH s k)^T +
   ugain (pred_P s k) (mH s k) (mR s k) *m mR s k =
   ugain (pred_P s k) (mH s k) (mR s k) *m ucov (pred_P s k) (mH s k) (mR s k).
  by rewrite /ucov; move: (ugain _ _ _) => G; rewrite mulmxDr !mulmxA.
by rewrite gain_cov // subrr.
Qed.

Lemma est_all k : (k <= T)%N -> est k.
Proof. by elim: k => [|k IH] Hk; [exact: est0|exact/estS/IH/ltnW]. Qed.

(** Pythagoras: an unbiased-error estimator that is affine in the data and
    whose error is uncorrelated with them is best. *)
Lemma best_of k (B Xs Y : rvec n) P : (k <= T)%N -> L2v Xs -> affine_in z k B ->
  mean ((fun o => Xs o - B o) : rvec n) = 0 ->
  moment ((fun o => Xs o - B o) : rvec n) ((fun o => Xs o - B o) : rvec n) = P ->
  (forall j, (j < k)%N -> moment ((fun o => Xs o - B o) : rvec n) (z j) = 0) ->
  affine_in z k Y ->
  moment ((fun o => Xs o - Y o) : rvec n) ((fun o => Xs o - Y o) : rvec n) =
  P + moment ((fun o => B o - Y o) : rvec n) ((fun o => B o - Y o) : rvec n).
Proof.
move=> Hk LX aB hm hc hz aY; set D := (fun o => Xs o - B o) : rvec n in hm hc hz *.
set E := (fun o => B o - Y o) : rvec n.
have LB := L2aff Hk aB; have LY := L2aff Hk aY.
have LD : L2v D by exact: L2v_sub.
have LE : L2v E by exact: L2v_sub.
have DE : moment D E = 0 by apply: (perp_aff Hk LD hm hz); exact: aff_sub.
have eq o : Xs o - Y o = D o + E o by rewrite /D /E addrA subrK.
clearbody D E; rewrite (eq_moment eq eq) momentDl ?momentDr //; try exact: L2v_add.
by rewrite hc DE -[moment E D]moment_tr DE trmx0 addr0 add0r.
Qed.

Lemma filter_best k (Y : rvec n) : (k <= T)%N -> affine_in z k Y ->
  let D := (fun o => X k o - Y o) : rvec n in
  let E := (fun o => xh k o - Y o) : rvec n in
  moment D D = post_P s k + moment E E.
Proof.
move=> Hk aY; have [hm hc _ _ hz] := est_all Hk.
exact: (best_of Hk (L2X Hk) (xh_aff Hk)).
Qed.

(** ** The smoother on random data *)
Section Smooth.
Variable L : nat.
Hypothesis HL : (L < T)%N.
Hypothesis upred : forall k, (k < L)%N -> pred_P s k.+1 \in unitmx.

Definition xs k : rvec n := fun o => smooth_x (sw o) L k.
Definition errs k : rvec n := fun o => X k.+1 o - xs k o.
Notation G := (sgain s).

Lemma xsS k o : (k < L)%N -> xs k o = xh k.+1 o + G k *m (xs k.+1 o - xp k.+1 o).
Proof.
move=> Hk; have HkT := leq_ltn_trans Hk HL; rewrite /xs smooth_xS // !sgainE.
by rewrite sw_P 1?ltnW //; have [-> _ _ -> _] := swk o HkT.
Qed.

Lemma xs_aff k : (k <= L)%N -> affine_in z L.+1 (xs k).
Proof.
move=> Hk; have [i Hi] : exists i, (k + i = L)%N by exists (L - k)%N; rewrite subnKC.
elim: i k Hi Hk => [|i IH] k Hi Hk.
  have -> : k = L by rewrite -Hi addn0.
  by apply: aff_ext (xh_aff HL) => o; rewrite /xs smooth_xT.
have HkT : (k < L)%N by rewrite -Hi addnS ltnS leq_addr.
have h1 : affine_in z L.+1 (xs k.+1) by apply: IH; rewrite ?addSn -?addnS.
have h2 : affine_in z L.+1 (xp k.+1) by apply: aff_le (xp_aff (leq_ltn_trans HkT HL)); exact: leqW.
have h3 : affine_in z L.+1 (xh k.+1).
  by apply: aff_le (xh_aff _); [exact: leqW|exact: leq_trans HL].
apply: aff_ext (aff_add h3 (aff_mul (G k) (aff_sub h1 h2))) => o; exact/esym/xsS.
Qed.

(** The part of the filtering error that the next state does not explain. *)
Definition rest k : rvec n := fun o => err k.+1 o - G k *m errp k.+1 o.

Lemma L2rest k : (k < L)%N -> L2v (rest k).
Proof.
move=> Hk; have HkT := leq_ltn_trans Hk HL.
by apply: L2v_sub; [exact: (@L2err k.+1 (ltnW HkT))|exact/L2v_mul/L2errp].
Qed.

Lemma m_rest k d (Y : rvec d) : (k < L)%N -> L2v Y ->
  moment (rest k) Y = moment (err k.+1) Y - G k *m moment (errp k.+1) Y.
Proof.
move=> Hk HY; have HkT := leq_ltn_trans Hk HL.
have Lp := L2errp HkT; have Le := L2err (ltnW HkT).
by rewrite momentBl ?momentMl //; exact: L2v_mul.
Qed.

Lemma errsE k o : (k < L)%N -> errs k o = rest k o + G k *m errs k.+1 o.
Proof.
move=> Hk; rewrite /errs /rest xsS // /err /errp !mulmxBr.
move: (X k.+1 o) (X k.+2 o) (xs k.+1 o) (xp k.+1 o) (xh k.+1 o) (G k) => a b c d f M; mxadd.
Qed.

(** It is uncorrelated with the next state and with every observation. *)
Lemma rest_perp k : (k < L)%N ->
  [/\ mean (rest k) = 0, moment (rest k) (rest k) = post_P s k.+1 - G k *m pred_P s k.+1 *m (G k)^T,
      moment (rest k) (X k.+2) = 0 & forall j, (j < L.+1)%N -> moment (rest k) (z j) = 0].
Proof.
move=> Hk; have HkT := leq_ltn_trans Hk HL; have HkT' := ltnW HkT.
have He := est_all HkT'; have [hm hc hz hw hv] := est_errp HkT He.
have [em ec ew ev ez] := He.
have Lp := L2errp HkT; have Le := L2err HkT'; have Lr := L2rest Hk.
have uP := upred Hk.
have Eep : moment (err k.+1) (errp k.+1) = post_P s k.+1 *m (mA s k.+1)^T.
  rewrite -moment_tr m_errp // ec -[moment (w _) _]moment_tr ew // trmx0 addr0 trmx_mul.
  by rewrite -ec moment_tr.
have rp : moment (rest k) (errp k.+1) = 0.
  by rewrite m_rest // Eep hc sgainE gain_cov ?subrr // -pred_PE.
have rm : mean (rest k) = 0.
  by rewrite meanE m_rest //; [rewrite -!meanE em hm mulmx0 subr0|exact: L2v_const].
have rw j : (k.+1 < j)%N -> (j < T)%N -> moment (rest k) (w j) = 0.
  move=> Hj HjT; rewrite m_rest //; last exact: L2w.
  by rewrite ew ?(ltnW Hj) // hw // mulmx0 subr0.
have rv j : (k < j)%N -> (j < T)%N -> moment (rest k) (v j) = 0.
  move=> Hj HjT; rewrite m_rest //; last exact: L2vv.
  by rewrite ev // hv // mulmx0 subr0.
have rz j : (j < k.+1)%N -> moment (rest k) (z j) = 0.
  move=> Hj; rewrite m_rest //; last exact: (L2z (leq_trans Hj HkT')).
  by rewrite ez // hz // mulmx0 subr0.
have rX : moment (rest k) (X k.+2) = 0.
  have E o : errp k.+1 o + xp k.+1 o = X k.+2 o by rewrite /errp subrK.
  have Lxp := L2aff HkT' (xp_aff HkT).
  rewrite -(eq_moment (X := rest k) (fun=> erefl) E) momentDr // rp add0r.
  by apply: (perp_aff HkT' Lr rm) (xp_aff HkT).
have rXj i : (k.+2 + i <= T)%N -> moment (rest k) (X (k.+2 + i)) = 0.
  elim: i => [|i IH] Hi; first by rewrite addn0.
  rewrite addnS in Hi *; have Hi' := ltnW Hi; have LX := L2X Hi'.
  rewrite [moment _ _](momentDr (Y := fun o => mA s (k.+2 + i) *m X (k.+2 + i) o + mc s (k.+2 + i)) Lr _ (L2w Hi)); last first.
    by apply: L2v_add (L2v_const _ _); exact: L2v_mul.
  rewrite rw ?addr0 //; last by rewrite addSn ltnS leq_addr.
  rewrite [moment _ _](momentDr (Y := fun o => mA s (k.+2 + i) *m X (k.+2 + i) o) Lr _ (L2v_const _ _)); last exact: L2v_mul.
  by rewrite moment0 // addr0 momentMr // IH // mul0mx.
split=> //.
- have re : moment (err k.+1) (rest k) = post_P s k.+1 - post_P s k.+1 *m (mA s k.+1)^T *m (G k)^T.
    rewrite -moment_tr m_rest // ec -[moment (errp _) _]moment_tr Eep trB [(G k *m _)^T]trmx_mul trmxK.
    by congr (_ - _); rewrite -ec moment_tr.
  rewrite m_rest // re -[moment (errp _) _]moment_tr rp trmx0 mulmx0 subr0; congr (_ - _ *m _).
  by rewrite sgainE [pred_P s k.+1]pred_PE gain_cov // -pred_PE.
move=> j Hj; have [Hjk|Hkj] := ltnP j k.+1; first exact: rz.
have HjT := leq_trans Hj HL.
have LX : L2v (X j.+1) by exact: (@L2X j.+1).
rewrite [moment _ _](momentDr (Y := fun o => mH s j *m X j.+1 o) Lr _ (L2vv HjT)); last exact: L2v_mul.
rewrite rv // addr0 momentMr //.
have E : j.+1 = (k.+2 + (j - k.+1))%N by rewrite addSn subnKC.
by rewrite E rXj ?mul0mx // -E.
Qed.

Record ests k : Prop := Ests {
  ests_mean : mean (errs k) = 0;
  ests_cov : moment (errs k) (errs k) = smooth_P s L k;
  ests_z : forall j, (j < L.+1)%N -> moment (errs k) (z j) = 0
}.

Lemma L2errs k : (k <= L)%N -> L2v (errs k).
Proof.
move=> Hk; apply: L2v_sub; first exact: (@L2X k.+1 (leq_ltn_trans Hk HL)).
exact: (L2aff HL (xs_aff Hk)).
Qed.

Lemma ests_all k : (k <= L)%N -> ests k.
Proof.
move=> Hk; have [i Hi] : exists i, (k + i = L)%N by exists (L - k)%N; rewrite subnKC.
elim: i k Hi Hk => [|i IH] k Hi Hk.
  have -> : k = L by rewrite -Hi addn0.
  have E o : err L.+1 o = errs L o by rewrite /errs /err /xs smooth_xT.
  have E' d (Y : rvec d) : moment (errs L) Y = moment (err L.+1) Y by apply/esym/eq_moment.
  have [em ec _ _ ez] := est_all HL; split; first by rewrite meanE E' -meanE.
    by rewrite E' -moment_tr E' moment_tr ec smooth_PT.
  by move=> j Hj; rewrite E' ez.
have HkL : (k < L)%N by rewrite -Hi addnS ltnS leq_addr.
have [|sm sc sz] := IH k.+1 _ HkL; first by rewrite addSn -addnS.
have [rm rc rX rz] := rest_perp HkL.
have Lr := L2rest HkL; have Ls := L2errs HkL; have LX := @L2X k.+2 (leq_ltn_trans HkL HL).
have axs := xs_aff HkL; have Lxs := L2aff HL axs.
have rs : moment (rest k) (errs k.+1) = 0.
  by rewrite momentBr // rX sub0r (perp_aff HL Lr rm rz axs) oppr0.
have M d (Y : rvec d) : L2v Y -> moment (errs k) Y = moment (rest k) Y + G k *m moment (errs k.+1) Y.
  move=> HY; rewrite (eq_moment (X' := fun o => rest k o + G k *m errs k.+1 o) (Y' := Y)) //.
    by rewrite momentDl ?momentMl //; exact: L2v_mul.
  by move=> o; exact: errsE.
split.
- by rewrite meanE M -?meanE ?rm ?sm ?mulmx0 ?addr0 //; exact: L2v_const.
- have Es : moment (errs k) (errs k.+1) = G k *m smooth_P s L k.+1 by rewrite M // rs sc add0r.
  have Er : moment (errs k) (rest k) = moment (rest k) (rest k).
    by rewrite M // -[moment (errs _) _]moment_tr rs trmx0 mulmx0 addr0.
  rewrite M; last exact: (L2errs Hk).
  rewrite -[moment (rest k) _]moment_tr Er moment_tr -[moment (errs k.+1) _]moment_tr Es.
  have <- : (smooth_P s L k.+1)^T = smooth_P s L k.+1 by rewrite -sc moment_tr.
  rewrite rc [smooth_P s L k]smooth_PS //; move: (smooth_P s L k.+1) (G k) (pred_P s k.+1) => A B C.
  rewrite trmx_mul trmxK mulmxBr mulmxBl mulmxA; mxadd.
by move=> j Hj; rewrite M ?rz ?sz ?mulmx0 ?addr0 //; exact: (L2z (leq_trans Hj HL)).
Qed.

Lemma smooth_best k (Y : rvec n) : (k <= L)%N -> affine_in z L.+1 Y ->
  let D := (fun o => X k.+1 o - Y o) : rvec n in
  let E := (fun o => xs k o - Y o) : rvec n in
  moment D D = smooth_P s L k + moment E E.
Proof.
move=> Hk aY; have [hm hc hz] := ests_all Hk.
exact: (best_of HL (@L2X k.+1 (leq_ltn_trans Hk HL)) (xs_aff Hk)).
Qed.
End Smooth.
End Est.
