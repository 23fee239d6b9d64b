(** * Gauss: Gaussian densities and Bayes' rule *)
From Coq Require Import Reals ClassicalEpsilon FunctionalExtensionality Lra.
From mathcomp Require Import all_ssreflect all_algebra.
From Verif Require Import RReal RingTac Loewner KalmanAlg Textbook TextbookThms LeastSq.

Set Implicit Arguments.
Unset Strict Implicit.
Unset Printing Implicit Defensive.
Import GRing.Theory Num.Theory Order.Theory.
Delimit Scope R_scope with coqR.
Delimit Scope ring_scope with R.
Local Open Scope ring_scope.

Notation reals := R_realFieldType.
Definition rexp : reals -> reals := Rtrigo_def.exp.
Definition rsqrt : reals -> reals := R_sqrt.sqrt.
Definition rpi : reals := PI.

(** ** Specification *)
(** The density at x of the normal distribution with mean a and covariance P. *)
Definition gaussian n (a : 'cV[reals]_n) (P : 'M[reals]_n) (x : 'cV[reals]_n) : reals :=
  rexp (- (quad (invmx P) (x - a) / 2%:R)) / rsqrt ((2%:R * rpi) ^+ n * \det P).

(** What is used of the integral over R^n: it is homogeneous, and the integral of
    a normal density is 1. *)
Definition integral_like n (I : ('cV[reals]_n -> reals) -> reals) : Prop :=
  (forall (c : reals) f, I (fun x => c * f x) = c * I f) /\
  (forall (a : 'cV[reals]_n) P, pd P -> I (gaussian a P) = 1).

Section Spec.
Variables n m : nat.
Variable I : ('cV[reals]_n -> reals) -> reals.
Variable s : model reals n m.

(** The Bayes filter: density of the state before step k given the first k
    observations, density of the state of step k given these, and of observation
    k given these. *)
Fixpoint belief (k : nat) : 'cV[reals]_n -> reals :=
  if k is j.+1 then
    let pr y := I (fun x => gaussian (mA s j *m x + mc s j) (mQ s j) y * belief j x) in
    let joint y := gaussian (mH s j *m y) (mR s j) (mz s j) * pr y in
    fun y => joint y / I joint
  else gaussian (mx0 s) (mP0 s).
Definition predicted (k : nat) (y : 'cV[reals]_n) : reals :=
  I (fun x => gaussian (mA s k *m x + mc s k) (mQ s k) y * belief k x).
Definition evidence (k : nat) : reals :=
  I (fun y => gaussian (mH s k *m y) (mR s k) (mz s k) * predicted k y).

(** The Bayes smoother: density of the state of step T-i given T+1 observations. *)
Fixpoint belief_back (T i : nat) : 'cV[reals]_n -> reals :=
  if i is j.+1 then
    let k := (T - i)%N in
    fun x => belief k.+1 x *
      I (fun y => gaussian (mA s k.+1 *m x + mc s k.+1) (mQ s k.+1) y * belief_back T j y / predicted k.+1 y)
  else belief T.+1.
End Spec.

(** ** Lemmas *)
Lemma det_bayes n m (P : 'M[reals]_n) (H : 'M[reals]_(m, n)) (Q : 'M[reals]_m) :
  P^T = P -> Q^T = Q -> ucov P H Q \in unitmx ->
  \det P * \det Q = \det (upost P H Q) * \det (ucov P H Q).
Proof.
move=> sP sQ hS; set K := ugain P H Q; set S := ucov P H Q.
have KS : K *m S = P *m H^T by exact: gain_cov.
have SK : S *m K^T = H *m P by exact: cov_gainT.
have E1 : block_mx 1%:M 0 H 1%:M *m block_mx P 0 0 Q *m block_mx 1%:M H^T 0 1%:M =
  block_mx P (P *m H^T) (H *m P) S.
  rewrite !mulmx_block !mul1mx !mul0mx !mulmx0 !mulmx1 !addr0 !add0r.
  by congr block_mx.
have E2 : block_mx 1%:M K 0 1%:M *m block_mx (upost P H Q) 0 0 S *m block_mx 1%:M 0 K^T 1%:M =
  block_mx P (P *m H^T) (H *m P) S.
  rewrite !mulmx_block !mul1mx !mul0mx !mulmx0 !mulmx1 !addr0 !add0r KS SK.
  congr block_mx.
  by rewrite -KS -mulmxA SK /upost mulmxBl mul1mx -mulmxA -/K subrK.
move: E1 E2; rewrite -/S; move: (upost P H Q) => V E1 E2.
have := congr1 determinant E1; rewrite -E2 !det_mulmx.
by rewrite !det_lblock !det_ublock !det1 !mulr1 !mul1r.
Qed.

Lemma pd_det n (P : 'M[reals]_n) : pd P -> 0 < \det P.
Proof.
elim: n P => [P hP|n IH]; first by rewrite det_mx00 ltr01.
rewrite -add1n => P hP.
set a := ulsubmx P; set D := drsubmx P; set b := dlsubmx P.
have sP := hP.1; have EP := submxK P.
have eb : ursubmx P = b^T by rewrite /b trmx_dlsub sP.
have ea : a = (a 0 0)%:M by rewrite [LHS]mx11_scalar.
have a0 : 0 < a 0 0.
  have := pd_diag (lshift n (0 : 'I_1)) hP; by rewrite -{1}EP block_mxEul.
set L : 'M[reals]_(1 + n) := block_mx 1%:M 0 (- ((a 0 0)^-1 *: b)) 1%:M.
have LP : L *m P *m L^T = block_mx a 0 0 (D - (a 0 0)^-1 *: (b *m b^T)).
  rewrite -EP -/a -/b -/D eb /L tr_block_mx !mulmx_block !trmx1 !trmx0 !mul1mx !mul0mx !mulmx0 !mulmx1 !addr0.
  have ab : - ((a 0 0)^-1 *: b) *m a + b = 0.
    by rewrite {2}ea mul_mx_scalar scalerN scalerA divff ?gt_eqF // scale1r addNr.
  have ba : a *m (- ((a 0 0)^-1 *: b))^T + b^T = 0.
    have /(congr1 trmx) := ab; rewrite linearD /= trmx_mul trmx0 => <-; congr (_ *m _ + _).
    by rewrite {2}ea tr_scalar_mx.
  by rewrite ab ba mul0mx add0r; congr block_mx; rewrite mulNmx -scalemxAl addrC.
have uL : L \in unitmx by rewrite unitmxE /L det_lblock !det1 mulr1 unitr1.
have := pd_conj uL hP; rewrite LP => h.
have h2 : pd (D - (a 0 0)^-1 *: (b *m b^T)).
  have [sM hM] := h; split.
    by have := congr1 drsubmx sM; rewrite tr_block_mx !block_mxKdr.
  move=> x hx; have hx' : col_mx (0 : 'cV[reals]_1) x != 0.
    by apply: contra hx => /eqP e; have := congr1 dsubmx e; rewrite col_mxKd linear0 => ->.
  by have := hM _ hx'; rewrite /quad tr_col_mx mul_row_block mul_row_col !mulmx0 !add0r.
have := congr1 determinant LP; rewrite !det_mulmx det_tr /L !det_lblock !det1 !mul1r !mulr1 => ->.
by rewrite mulr_gt0 ?IH // {1}ea det_scalar expr1.
Qed.

Lemma exp_add (a b : reals) : rexp (a + b) = rexp a * rexp b.
Proof. exact: exp_plus. Qed.
Lemma exp_gt0 (a : reals) : 0 < rexp a. Proof. by apply/R_ltP; exact: exp_pos. Qed.
Lemma sqrt_mul (a b : reals) : 0 <= a -> 0 <= b -> rsqrt (a * b) = rsqrt a * rsqrt b.
Proof. by move=> /R_leP ha /R_leP hb; exact: sqrt_mult. Qed.
Lemma sqrt_gt0 (a : reals) : 0 < a -> 0 < rsqrt a.
Proof. by move=> /R_ltP ha; apply/R_ltP; exact: sqrt_lt_R0. Qed.
Lemma twopi : 0 < 2%:R * rpi.
Proof. by rewrite mulr_gt0 ?ltr0n //; apply/R_ltP; exact: PI_RGT_0. Qed.

Lemma gaussian_gt0 n a (P : 'M[reals]_n) x : pd P -> 0 < gaussian a P x.
Proof.
move=> hP; rewrite /gaussian divr_gt0 ?exp_gt0 //; apply: sqrt_gt0.
by rewrite mulr_gt0 ?exprn_gt0 ?twopi ?pd_det.
Qed.

(** Bayes' rule for normal densities: prior times likelihood is posterior times
    evidence. *)
Lemma bayes n m (P : 'M[reals]_n) (H : 'M[reals]_(m, n)) (Q : 'M[reals]_m) a x z : pd P -> pd Q ->
  gaussian (H *m x) Q z * gaussian a P x =
  gaussian (H *m a) (ucov P H Q) z * gaussian (ucorr P H Q a z) (upost P H Q) x.
Proof.
move=> hP hQ; have hS := ucov_pd H (pd_psd hP) hQ; have hV := upost_pd H hP hQ.
rewrite /gaussian !mulf_div -!exp_add -!sqrt_mul; try by rewrite mulr_ge0 ?exprn_ge0 ?ltW ?twopi ?pd_det.
congr (_ / _).
  congr rexp; rewrite -!opprD -!mulrDl; congr (- (_ / _)).
  by rewrite addrC complete_square // addrC.
congr rsqrt; have := det_bayes hP.1 hQ.1 (pd_unit hS).
move: (\det P) (\det Q) (\det (upost P H Q)) (\det (ucov P H Q)) (_ ^+ m) (_ ^+ n) => p q v u c d E.
by rewrite mulrACA [q * p]mulrC E [v * u]mulrC mulrACA.
Qed.

Lemma gaussian_shift n (a c y : 'cV[reals]_n) P : gaussian (a + c) P y = gaussian a P (y - c).
Proof. by rewrite /gaussian opprD addrA addrAC. Qed.

Section Filter.
Variables n m : nat.
Variable I : ('cV[reals]_n -> reals) -> reals.
Variable s : model reals n m.
Hypothesis hI : integral_like I.

Lemma int_ext f g : (forall x, f x = g x) -> I f = I g.
Proof. by move=> E; rewrite (functional_extensionality f g E). Qed.

(** Prior times likelihood, integrated: the evidence. *)
Lemma int_bayes k (P : 'M[reals]_n) (H : 'M[reals]_(k, n)) (Q : 'M[reals]_k) a c z : pd P -> pd Q ->
  I (fun x => gaussian (H *m x + c) Q z * gaussian a P x) = gaussian (H *m a + c) (ucov P H Q) z.
Proof.
move=> hP hQ; rewrite gaussian_shift.
rewrite (int_ext (fun x => etrans (congr1 ( *%R^~ _) (gaussian_shift _ _ _ _)) (bayes H a x (z - c) hP hQ))).
by rewrite hI.1 hI.2 ?mulr1 //; exact: upost_pd.
Qed.
Lemma int_bayes0 k (P : 'M[reals]_n) (H : 'M[reals]_(k, n)) (Q : 'M[reals]_k) a z : pd P -> pd Q ->
  I (fun x => gaussian (H *m x) Q z * gaussian a P x) = gaussian (H *m a) (ucov P H Q) z.
Proof.
move=> hP hQ; rewrite -[H *m a]addr0 -int_bayes //; apply: int_ext => x; by rewrite addr0.
Qed.

Variable N : nat.
Hypothesis hP0 : pd (mP0 s).
Hypothesis hQ : forall k, (k < N)%N -> pd (mQ s k).
Hypothesis hR : forall k, (k < N)%N -> pd (mR s k).

Lemma post_pd k : (k <= N)%N -> pd (post_P s k).
Proof. by case: k => // k Hk; have [] := all_pd hP0 hQ hR Hk. Qed.

Lemma predicted_of k : (k < N)%N -> (forall x, belief I s k x = gaussian (post_x s k) (post_P s k) x) ->
  forall y, predicted I s k y = gaussian (pred_x s k) (pred_P s k) y.
Proof.
move=> Hk E y; rewrite /predicted pred_xE pred_PE -(int_bayes _ _ _ _ (post_pd (ltnW Hk)) (hQ Hk)).
by apply: int_ext => x; rewrite E.
Qed.

Lemma beliefS k y : belief I s k.+1 y =
  gaussian (mH s k *m y) (mR s k) (mz s k) * predicted I s k y / evidence I s k.
Proof. by []. Qed.

Lemma evidence_of k : (k < N)%N -> (forall y, predicted I s k y = gaussian (pred_x s k) (pred_P s k) y) ->
  evidence I s k = gaussian (mH s k *m pred_x s k) (innov s k) (mz s k).
Proof.
move=> Hk E; have [_ h _] := all_pd hP0 hQ hR Hk.
by rewrite /evidence innovE -(int_bayes0 _ _ _ h (hR Hk)); apply: int_ext => y; rewrite E.
Qed.

Lemma beliefE k : (k <= N)%N -> forall x, belief I s k x = gaussian (post_x s k) (post_P s k) x.
Proof.
elim: k => [|k IH] Hk x //; have E := predicted_of Hk (IH (ltnW Hk)).
have [_ h _] := all_pd hP0 hQ hR Hk.
rewrite beliefS (evidence_of Hk E) E (bayes _ _ _ _ h (hR Hk)) -innovE -post_PS -post_xS mulrAC divff ?mul1r //.
by rewrite gt_eqF // gaussian_gt0 // innovE; exact: ucov_pd (pd_psd h) (hR Hk).
Qed.
Lemma predictedE k : (k < N)%N -> forall y, predicted I s k y = gaussian (pred_x s k) (pred_P s k) y.
Proof. by move=> Hk; exact: predicted_of (beliefE (ltnW Hk)). Qed.
Lemma evidenceE k : (k < N)%N -> evidence I s k = gaussian (mH s k *m pred_x s k) (innov s k) (mz s k).
Proof. by move=> Hk; exact: evidence_of (predictedE Hk). Qed.

Lemma belief_backS T i x : let k := (T - i.+1)%N in belief_back I s T i.+1 x = belief I s k.+1 x *
  I (fun y => gaussian (mA s k.+1 *m x + mc s k.+1) (mQ s k.+1) y * belief_back I s T i y / predicted I s k.+1 y).
Proof. by []. Qed.

Lemma belief_backE T k : (T < N)%N -> (k <= T)%N ->
  pd (smooth_P s T k) /\ forall x, belief_back I s T (T - k) x = gaussian (smooth_x s T k) (smooth_P s T k) x.
Proof.
move=> HT Hk; have [i Hi] : exists i, (k + i = T)%N by exists (T - k)%N; rewrite subnKC.
elim: i k Hi Hk => [|i IH] k Hi Hk.
  have -> : k = T by rewrite -Hi addn0.
  by rewrite subnn smooth_PT smooth_xT; split; [exact: post_pd|exact: beliefE].
have HkT : (k < T)%N by rewrite -Hi addnS ltnS leq_addr.
have HkN : (k.+1 < N)%N by apply: leq_trans HT.
have [hW EW] := IH k.+1 (etrans (addSnnS _ _) Hi) HkT.
have [h1 h2 h3] := all_pd hP0 hQ hR HkN; have hq := hQ HkN.
set P := post_P s k.+1; set A := mA s k.+1; set Q := mQ s k.+1.
set V := upost P A Q; have hV : pd V by exact: upost_pd.
set G := sgain s k.
have eS : smooth_P s T k = ucov (smooth_P s T k.+1) G V.
  rewrite smooth_PS // /ucov -/G /V upostE ?h1.1 ?hq.1 -?pred_PE ?pd_unit // -sgainE -/G.
  by rewrite mulmxBr mulmxBl addrCA.
have -> : (T - k = (T - k.+1).+1)%N by rewrite subnSK.
split; first by rewrite eS; exact: ucov_pd (pd_psd hW) hV.
move=> x; rewrite belief_backS; have -> : (T - (T - k.+1).+1 = k)%N by rewrite subnSK // subKn // ltnW.
rewrite -hI.1 beliefE; last exact: ltnW.
have -> : smooth_x s T k = G *m smooth_x s T k.+1 + (post_x s k.+1 - G *m pred_x s k.+1).
  by rewrite smooth_xS // mulmxBr addrCA.
rewrite eS -(int_bayes _ _ _ _ hW hV); apply: int_ext => y.
rewrite EW predictedE // (gaussian_shift (mA s k.+1 *m x)).
have -> : G *m y + (post_x s k.+1 - G *m pred_x s k.+1) = ucorr P A Q (post_x s k.+1) (y - mc s k.+1).
  rewrite addrCA -mulmxBr pred_xE opprD addrA [y - _ - _]addrAC /ucorr -/A -[P in RHS]/(post_P s k.+1).
  by rewrite /A /Q -sgainE.
have B : gaussian (A *m x) Q (y - mc s k.+1) * gaussian (post_x s k.+1) P x =
  gaussian (pred_x s k.+1) (pred_P s k.+1) y * gaussian (ucorr P A Q (post_x s k.+1) (y - mc s k.+1)) V x.
  rewrite (_ : gaussian (pred_x s k.+1) _ y = gaussian (A *m post_x s k.+1) (ucov P A Q) (y - mc s k.+1)).
    exact: (bayes A (post_x s k.+1) x (y - mc s k.+1) h1 hq).
  by rewrite pred_xE gaussian_shift.
have hg : gaussian (pred_x s k.+1) (pred_P s k.+1) y != 0 by rewrite gt_eqF // gaussian_gt0.
move: B hg; rewrite -/P -/A -/Q.
move: (gaussian (pred_x s k.+1) _ y) (gaussian (post_x s k.+1) _ x) (gaussian (A *m x) Q _) => p g0 g1.
move: (gaussian (smooth_x _ _ _) _ _) (gaussian (ucorr _ _ _ _ _) _ _) => w v B hp.
by rewrite !mulrA [g0 * g1]mulrC B mulrAC [p * v]mulrC mulfK.
Qed.
End Filter.

(** ** A multiple of a normal density determines the factor *)
Section Scalar.
Variable F : realFieldType.
Add Ring Fring : (mc_ring F).
Add Ring Fring1 : (mc_ring1 F).
Add Ring Fring2 : (mc_ring2 F).
Add Ring Fring3 : (mc_ring3 F).
Ltac mring := mc_norm F; mc_eq; ring.
Lemma scalar_ratio (c c' k k' v w w' : F) : c != 0 -> k != 0 ->
  c * (v / k) = c' * (w' / k') -> w * w' = 1 -> v * w = c' / c * (k / k').
Proof.
move=> c0 k0 E e; have -> : v = c' * (w' / k') / c * k by rewrite -E [c * _]mulrC mulfK // divfK.
rewrite -[RHS]mulr1 -e; mring.
Qed.
Lemma scalar_twice (p q r f : F) : p + q + - f *+ 2 - r = p -> p + q + f *+ 2 - r = p -> q = r.
Proof.
move=> h1 h2; have : (q - r) *+ 2 = (p + q + - f *+ 2 - r - p) + (p + q + f *+ 2 - r - p).
  by rewrite !mulr2n; mring.
rewrite h1 h2 subrr addr0 => /eqP; rewrite -mulr_natr mulf_eq0 pnatr_eq0 orbF subr_eq0; exact/eqP.
Qed.
End Scalar.

Lemma gaussian_factor n (a a' : 'cV[reals]_n) P P' (c c' : reals) : pd P -> pd P' ->
  (forall x, c * gaussian a P x = c' * gaussian a' P' x) -> c = c'.
Proof.
move=> hP hP' E.
have g0 (b : 'cV[reals]_n) V x : pd V -> gaussian b V x != 0 by move=> hV; rewrite gt_eqF // gaussian_gt0.
have [c0|c0] := eqVneq c 0.
  have := E 0; rewrite c0 mul0r => /esym/eqP; rewrite mulf_eq0 (negPf (g0 _ _ _ hP')) orbF => /eqP ->.
  by [].
set M := invmx P; set M' := invmx P'.
have hM : pd M := pd_inv hP; have hM' : pd M' := pd_inv hP'.
pose D x := quad M' (x - a') - quad M (x - a).
have Dc x y : D x = D y.
  set k := rsqrt ((2%:R * rpi) ^+ n * \det P); set k' := rsqrt ((2%:R * rpi) ^+ n * \det P').
  have k0 : k != 0 by rewrite gt_eqF // sqrt_gt0 // mulr_gt0 ?exprn_gt0 ?twopi ?pd_det.
  have k0' : k' != 0 by rewrite gt_eqF // sqrt_gt0 // mulr_gt0 ?exprn_gt0 ?twopi ?pd_det.
  have Ex z : rexp (D z / 2%:R) = c' / c * (k / k').
    have := E z; rewrite /gaussian -/k -/k' -/M -/M' => Ez.
    have -> : D z / 2%:R = - (quad M (z - a) / 2%:R) + quad M' (z - a') / 2%:R.
      by rewrite /D mulrBl addrC.
    rewrite exp_add; apply: (scalar_ratio c0 k0 Ez).
    by rewrite -exp_add subrr; exact: exp_0.
  have := etrans (Ex x) (esym (Ex y)) => /exp_inv /(congr1 (fun r : reals => r * 2%:R)).
  by rewrite !divfK ?pnatr_eq0.
have MM : M' = M.
  have Q e : quad M' e = quad M e.
    have := Dc (a + e) a; have := Dc (a - e) a; rewrite /D subrr quadx0 subr0.
    rewrite ![a + _ - a]addrAC subrr !add0r quadxN ![a + _ - a']addrAC; move: (a - a') => b.
    rewrite !(quad_add b _ hM'.1) quadxN mulmxN (mxE _ (fun i j => - (_ *m e) i j)).
    exact: scalar_twice.
  by apply: loewner_anti; split; rewrite ?trB ?hM.1 ?hM'.1 // => e; rewrite quadB Q subrr.
have aa : a = a'.
  have := Dc a a'; rewrite /D MM !subrr quadx0 -[a' - a]opprB quadxN sub0r subr0 => /eqP; rewrite -addr_eq0 -mulr2n.
  rewrite -mulr_natr mulf_eq0 pnatr_eq0 orbF => /eqP h.
  apply/eqP; rewrite -subr_eq0; apply/negPn/negP => h'; have := hM.2 _ h'; by rewrite h ltxx.
have PP : P' = P by rewrite -[P']invmxK -/M' MM invmxK.
by have := E 0; rewrite aa PP => /(mulIf (g0 _ _ _ hP)).
Qed.

(** So a functional as required exists: the factor of a multiple of a density
    (the integral over R^n is another). *)
Definition is_multiple n (f : 'cV[reals]_n -> reals) (c : reals) : Prop :=
  exists a P, pd P /\ forall x, f x = c * gaussian a P x.
Definition factor n (f : 'cV[reals]_n -> reals) : reals :=
  match excluded_middle_informative (exists c, is_multiple f c) with
  | left ex => proj1_sig (constructive_indefinite_description _ ex)
  | right _ => 0
  end.
Lemma factorE n (f : 'cV[reals]_n -> reals) c : is_multiple f c -> factor f = c.
Proof.
move=> h; rewrite /factor; case: excluded_middle_informative => [ex|[]]; last by exists c.
case: constructive_indefinite_description => c' [a' [P' [hP' E']]]; have [a [P [hP E]]] := h.
exact: (gaussian_factor hP' hP (fun x => etrans (esym (E' x)) (E x))).
Qed.
Lemma factor_integral n : integral_like (@factor n).
Proof.
split=> [c f|a P hP]; last by apply: factorE; exists a, P; split=> // x; rewrite mul1r.
have [c0|c0] := eqVneq c 0.
  rewrite c0 mul0r; apply: factorE; exists 0, 1%:M; split; first exact: pd_1.
  by move=> x; rewrite !mul0r.
case: (excluded_middle_informative (exists d, is_multiple f d)) => [[d h]|h].
  rewrite (factorE h); apply: factorE; have [a [P [hP E]]] := h; exists a, P; split=> // x.
  by rewrite E mulrA.
have h' : ~ exists d, is_multiple (fun x => c * f x) d.
  case=> d [a [P [hP E]]]; apply: h; exists (d / c), a, P; split=> // x.
  by apply: (mulfI c0); rewrite E [RHS]mulrA [c * (_ / _)]mulrC divfK.
by rewrite /factor; do 2! case: excluded_middle_informative => //; rewrite mulr0.
Qed.
