(** * Energy: worst-case error bounds, without probabilities

    Whatever the disturbances are, the error in the direction c is at most the
    computed standard deviation in this direction times the square root of the
    disturbances' energy. *)
From mathcomp Require Import all_ssreflect all_algebra.
From Verif Require Import RingTac Loewner KalmanAlg Textbook TextbookThms Prob RobustSpec BestLin Factor Robust.

Set Implicit Arguments.
Unset Strict Implicit.
Unset Printing Implicit Defensive.
Import GRing.Theory Num.Theory Order.Theory.
Local Open Scope ring_scope.

Section CS.
Variable F : realFieldType.
Add Ring Fring : (mc_ring F).
Add Ring Fring1 : (mc_ring1 F).
Add Ring Fring2 : (mc_ring2 F).
Ltac mring := mc_norm F; mc_eq; ring.

Definition dot n (c x : 'cV[F]_n) : F := (c^T *m x) 0 0.

Lemma dotD n (c x y : 'cV[F]_n) : dot c (x + y) = dot c x + dot c y.
Proof. by rewrite /dot mulmxDr mxE. Qed.
Lemma dotN n (c x : 'cV[F]_n) : dot c (- x) = - dot c x.
Proof. by rewrite /dot mulmxN mxE. Qed.
Lemma dot0 n (c : 'cV[F]_n) : dot c 0 = 0.
Proof. by rewrite /dot mulmx0 mxE. Qed.
Lemma dot_sum n (c : 'cV[F]_n) (T : nat) (X : nat -> 'cV[F]_n) :
  dot c (\sum_(j < T) X j) = \sum_(j < T) dot c (X j).
Proof.
elim: T => [|T IH]; first by rewrite !big_ord0 dot0.
by rewrite !big_ord_recr /= dotD IH.
Qed.
Lemma dot_mul n m (A : 'M[F]_(n, m)) (c : 'cV[F]_n) (x : 'cV[F]_m) : dot c (A *m x) = dot (A^T *m c) x.
Proof. by rewrite /dot trmx_mul trmxK mulmxA. Qed.
Lemma quad_sum n (T : nat) (M : nat -> 'M[F]_n) x : quad (\sum_(j < T) M j) x = \sum_(j < T) quad (M j) x.
Proof.
elim: T => [|T IH]; first by rewrite !big_ord0 quad0.
by rewrite !big_ord_recr /= quadD IH.
Qed.

Lemma quad_ge0 n (D : 'M[F]_n) x : psd D -> 0 <= quad D x.
Proof. by case. Qed.

Lemma cs_form n (D : 'M[F]_n) (x y : 'cV[F]_n) : psd D -> dot x (D *m y) ^+ 2 <= quad D x * quad D y.
Proof.
move=> hD; set b := dot _ _; set q := quad D y.
have q0 : 0 <= q := quad_ge0 _ hD.
have [z|nz] := eqVneq q 0.
  have Dy : D *m y = 0 by exact: psd_ker.
  by rewrite /b Dy dot0 z mulr0 expr0n.
have qp : 0 < q by rewrite lt_neqAle eq_sym nz.
have hs : D^T = D by case: hD.
have := quad_ge0 (q *: x + (- b) *: y) hD.
have -> : quad D (q *: x + (- b) *: y) = q * (q * quad D x - b ^+ 2).
  rewrite quad_add // !quadxZ -/q.
  have -> : ((q *: x)^T *m D *m (- b *: y)) 0 0 = - (q * b) * b.
    have E : ((q *: x)^T *m D *m (- b *: y)) = (- b * q) *: (x^T *m (D *m y)).
      by rewrite trZ -scalemxAr -!scalemxAl scalerA mulmxA.
    by rewrite E mxE -/(dot x (D *m y)) -/b; mring.
  rewrite expr2 ?mulr2n; mring.
by rewrite pmulr_rge0 // subr_ge0 mulrC.
Qed.

Lemma cs_add (a b p q E G : F) : 0 <= p -> 0 <= q -> 0 <= E -> 0 <= G ->
  a ^+ 2 <= p * E -> b ^+ 2 <= q * G -> (a + b) ^+ 2 <= (p + q) * (E + G).
Proof.
move=> p0 q0 E0 G0 ha hb.
have u0 : 0 <= p * G by exact: mulr_ge0.
have v0 : 0 <= q * E by exact: mulr_ge0.
have k : a * b *+ 2 <= p * G + q * E.
  rewrite leNgt; apply/negP => h.
  have s0 : 0 <= p * G + q * E by exact: addr_ge0.
  have h2 : (p * G + q * E) ^+ 2 < (a * b *+ 2) ^+ 2 by rewrite ltr_expn2r.
  have h3 : (a * b) ^+ 2 <= (p * G) * (q * E).
    rewrite exprMn [X in _ <= X](_ : _ = (p * E) * (q * G)); last by mring.
    by apply: ler_pmul => //; exact: sqr_ge0.
  have h4 : 0 <= (p * G - q * E) ^+ 2 by exact: sqr_ge0.
  move: h2; rewrite ltNge => /negP; apply.
  rewrite -subr_ge0 [X in 0 <= X](_ : _ = (p * G - q * E) ^+ 2 + ((p * G) * (q * E) - (a * b) ^+ 2) *+ 4).
    by apply: addr_ge0 => //; rewrite mulrn_wge0 // subr_ge0.
  have m2 (x : F) : x *+ 2 = x + x by rewrite mulr2n.
  have m4 (x : F) : x *+ 4 = x + x + (x + x) by rewrite -[4%N]/(2 + 2)%N mulrnDr !m2.
  rewrite !expr2 m2 m4; mring.
rewrite sqrrD mulrDl !mulrDr.
have -> : p * E + p * G + (q * E + q * G) = p * E + (p * G + q * E) + q * G by mring.
by apply: ler_add => //; apply: ler_add.
Qed.

Lemma cs_sum (T : nat) (a p E : nat -> F) :
  (forall j, (j < T)%N -> [/\ 0 <= p j, 0 <= E j & a j ^+ 2 <= p j * E j]) ->
  (\sum_(j < T) a j) ^+ 2 <= (\sum_(j < T) p j) * (\sum_(j < T) E j).
Proof.
elim: T => [|T IH] H; first by rewrite !big_ord0 expr0n mulr0.
rewrite !big_ord_recr /=; have [p0 E0 h] := H T (ltnSn T).
have H' j : (j < T)%N -> _ := fun Hj => H j (ltnW Hj).
apply: cs_add => //; last exact: IH.
  by apply: sumr_ge0 => j _; have [] := H' j (ltn_ord j).
by apply: sumr_ge0 => j _; have [] := H' j (ltn_ord j).
Qed.
End CS.

Section Bound.
Variable F : realFieldType.
Variables n m T : nat.

Lemma form_bound d (f : nform F n m d) (P0 : 'M[F]_n) (Q : nat -> 'M[F]_n) (R : nat -> 'M[F]_m)
   (l : 'cV[F]_n) (a : nat -> 'cV[F]_n) (b : nat -> 'cV[F]_m) (c : 'cV[F]_d) :
  psd P0 -> (forall j, (j < T)%N -> psd (Q j) /\ psd (R j)) ->
  dot c (evalf T f (P0 *m l) (fun j => Q j *m a j) (fun j => R j *m b j)) ^+ 2 <=
  quad (covf T f P0 Q R) c *
  (quad P0 l + \sum_(j < T) quad (Q j) (a j) + \sum_(j < T) quad (R j) (b j)).
Proof.
move=> h0 h; rewrite /evalf /covf !dotD !quadD (dot_sum c T (fun j => nf_w f j *m (Q j *m a j))) (dot_sum c T (fun j => nf_v f j *m (R j *m b j))).
rewrite (quad_sum T (fun j => nf_w f j *m Q j *m (nf_w f j)^T)) (quad_sum T (fun j => nf_v f j *m R j *m (nf_v f j)^T)).
have hq (j : 'I_T) := (h j (ltn_ord j)).1; have hr (j : 'I_T) := (h j (ltn_ord j)).2.
have e1 : forall e (M : 'M[F]_(d, e)) (D : 'M[F]_e) x, psd D ->
    dot c (M *m (D *m x)) ^+ 2 <= quad (M *m D *m M^T) c * quad D x.
  by move=> e M D x hD; rewrite dot_mul quad_conj; exact: cs_form.
have e2 : forall e (M : 'M[F]_(d, e)) (D : 'M[F]_e), psd D -> 0 <= quad (M *m D *m M^T) c.
  by move=> e M D hD; apply/quad_ge0/psd_conj.
have sq : 0 <= \sum_(j < T) quad (Q j) (a j) by apply: sumr_ge0 => j _; exact: quad_ge0.
have sr : 0 <= \sum_(j < T) quad (R j) (b j) by apply: sumr_ge0 => j _; exact: quad_ge0.
have q0 : 0 <= quad P0 l by exact: quad_ge0.
have s1 : 0 <= \sum_(j < T) quad (nf_w f j *m Q j *m (nf_w f j)^T) c.
  by apply: sumr_ge0 => j _; exact: e2.
apply: cs_add => //.
- by apply: addr_ge0 => //; exact: e2.
- by apply: sumr_ge0 => j _; exact: e2.
- exact: addr_ge0.
- apply: cs_add => //; [exact: e2|exact: e1|].
  apply: (cs_sum (a := fun j => dot c (nf_w f j *m (Q j *m a j))) (p := fun j => quad (nf_w f j *m Q j *m (nf_w f j)^T) c)
     (E := fun j => quad (Q j) (a j))) => j Hj; have [hj _] := h j Hj.
  by split; [exact: e2|exact: quad_ge0|exact: e1].
apply: (cs_sum (a := fun j => dot c (nf_v f j *m (R j *m b j))) (p := fun j => quad (nf_v f j *m R j *m (nf_v f j)^T) c)
     (E := fun j => quad (R j) (b j))) => j Hj; have [_ hj] := h j Hj.
by split; [exact: e2|exact: quad_ge0|exact: e1].
Qed.

(** The bound is attained in every direction. *)
Lemma form_sharp d (f : nform F n m d) (P0 : 'M[F]_n) (Q : nat -> 'M[F]_n) (R : nat -> 'M[F]_m) (c : 'cV[F]_d) :
  let l := (nf_e f)^T *m c in let a j := (nf_w f j)^T *m c in let b j := (nf_v f j)^T *m c in
  evalf T f (P0 *m l) (fun j => Q j *m a j) (fun j => R j *m b j) = covf T f P0 Q R *m c /\
  quad P0 l + \sum_(j < T) quad (Q j) (a j) + \sum_(j < T) quad (R j) (b j) = quad (covf T f P0 Q R) c.
Proof.
move=> l a b; split.
  rewrite /evalf /covf !mulmxDl !mulmx_suml /l /a /b !mulmxA.
  by congr (_ + _ + _); apply: eq_bigr => j _; rewrite !mulmxA.
rewrite /covf !quadD (quad_sum T (fun j => nf_w f j *m Q j *m (nf_w f j)^T)) (quad_sum T (fun j => nf_v f j *m R j *m (nf_v f j)^T)) quad_conj.
by congr (_ + _ + _); apply: eq_bigr => j _; rewrite quad_conj.
Qed.
End Bound.

(** ** Trajectories and their energy *)
Section Traj.
Variable F : realFieldType.
Variables (n m : nat) (s : model F n m).

Definition point : prob F.
Proof.
apply: (@finite_prob F [finType of unit] (fun _ => 1)) => [_|]; first exact: ler01.
by rewrite sumr_const card_unit.
Defined.

Section Det.
Variables (T : nat) (X : nat -> 'cV[F]_n).
Let e : rvec point n := fun _ => X 0%N - mx0 s.
Let w (k : nat) : rvec point n := fun _ => X k.+1 - (mA s k *m X k + mc s k).
Let v (k : nat) : rvec point m := fun _ => mz s k - mH s k *m X k.+1.
Let sw (_ : Om point) := s.

Lemma det_state k o : true_state s e w k o = X k.
Proof.
elim: k => [|k IH] /=; first by rewrite addrC subrK.
by rewrite IH addrC subrK.
Qed.
Lemma det_sw0 o : mx0 (sw o) = mx0 s /\ mP0 (sw o) = mP0 s. Proof. by []. Qed.
Lemma det_swk o k : (k < T)%N ->
  [/\ mA (sw o) k = mA s k, mc (sw o) k = mc s k, mH (sw o) k = mH s k, mQ (sw o) k = mQ s k &
      mR (sw o) k = mR s k /\ mz (sw o) k = sensed s e w v k o].
Proof. by split=> //; split=> //; rewrite /sensed det_state addrC subrK. Qed.

Lemma det_err k : (k <= T)%N -> X k - post_x s k =
  evalf T (err_form s k) (X 0%N - mx0 s) (fun j => X j.+1 - (mA s j *m X j + mc s j)) (fun j => mz s j - mH s j *m X j.+1).
Proof.
by move=> Hk; have := err_eval det_sw0 det_swk tt Hk; rewrite /err det_state.
Qed.
Lemma det_errs L k : (L < T)%N -> (k <= L)%N -> X k.+1 - smooth_x s L k =
  evalf T (errs_form s L k) (X 0%N - mx0 s) (fun j => X j.+1 - (mA s j *m X j + mc s j)) (fun j => mz s j - mH s j *m X j.+1).
Proof.
by move=> HL Hk; have := errs_eval det_sw0 det_swk tt HL Hk; rewrite /errs det_state.
Qed.
End Det.

Lemma eq_evalf T d (f : nform F n m d) e w v e' w' v' : e = e' -> (forall j, (j < T)%N -> w j = w' j /\ v j = v' j) ->
  evalf T f e w v = evalf T f e' w' v'.
Proof.
move=> -> H; rewrite /evalf; congr (_ + _ + _); apply: eq_bigr => j _; have [h1 h2] := H j (ltn_ord j).
  by rewrite h1.
by rewrite h2.
Qed.

Lemma energyE T l a b : energy s T l a b =
  quad (mP0 s) l + \sum_(j < T) quad (mQ s j) (a j) + \sum_(j < T) quad (mR s j) (b j).
Proof. by rewrite /energy big_split addrA. Qed.

Section Run.
Variable T : nat.
Hypothesis h0 : psd (mP0 s).
Hypothesis hk : forall k, (k < T)%N -> psd (mQ s k) /\ psd (mR s k).
Hypothesis inn : forall k, (k < T)%N -> innov s k \in unitmx.

Lemma traj_eval d (f : nform F n m d) X l a b : departs s T X l a b ->
  evalf T f (X 0%N - mx0 s) (fun j => X j.+1 - (mA s j *m X j + mc s j)) (fun j => mz s j - mH s j *m X j.+1) =
  evalf T f (mP0 s *m l) (fun j => mQ s j *m a j) (fun j => mR s j *m b j).
Proof.
move=> [H0 H]; apply: eq_evalf; first by rewrite H0 addrC addKr.
by move=> j Hj; have [-> ->] := H j Hj; split; rewrite addrC addKr.
Qed.

Lemma energy_bound X l a b c : departs s T X l a b ->
  dot c (X T - post_x s T) ^+ 2 <= quad (post_P s T) c * energy s T l a b.
Proof.
move=> H; rewrite (det_err X (leqnn T)) (traj_eval _ H) -(err_covf inn h0 hk (leqnn T)) energyE.
exact: form_bound.
Qed.
Lemma energy_bound_smooth L X l a b c k : T = L.+1 -> (forall j, (j < L)%N -> pred_P s j.+1 \in unitmx) ->
  (k <= L)%N -> departs s T X l a b ->
  dot c (X k.+1 - smooth_x s L k) ^+ 2 <= quad (smooth_P s L k) c * energy s T l a b.
Proof.
move=> HT upr Hk H; have HL : (L < T)%N by rewrite HT.
rewrite (det_errs X HL Hk) (traj_eval _ H) -(errs_covf inn h0 hk HL upr Hk) energyE.
exact: form_bound.
Qed.
End Run.
End Traj.

(** The disturbances that attain the bound. *)
Section Sharp.
Variable F : realFieldType.
Variables (n m : nat) (s : model F n m) (T : nat).
Hypothesis h0 : psd (mP0 s).
Hypothesis hk : forall k, (k < T)%N -> psd (mQ s k) /\ psd (mR s k).
Hypothesis inn : forall k, (k < T)%N -> innov s k \in unitmx.

Fixpoint driven (l : 'cV[F]_n) (a : nat -> 'cV[F]_n) (k : nat) : 'cV[F]_n :=
  if k is j.+1 then mA s j *m driven l a j + mc s j + mQ s j *m a j else mx0 s + mP0 s *m l.
Definition shown l a (b : nat -> 'cV[F]_m) k : 'cV[F]_m := mH s k *m driven l a k.+1 + mR s k *m b k.

Lemma driven_departs l a b : departs (data_of s (shown l a b)) T (driven l a) l a b.
Proof. by []. Qed.
Lemma data_post_P z k : post_P (data_of s z) k = post_P s k.
Proof. by elim: k => [|k IH] //; rewrite !post_PS !pred_PE IH. Qed.
Lemma err_form_ext z k : err_form (data_of s z) k = err_form s k.
Proof. by elim: k => [|k IH] //; cbn [err_form]; rewrite IH !gainE !pred_PE data_post_P. Qed.
Lemma errs_form_ext z L k : errs_form (data_of s z) L k = errs_form s L k.
Proof.
rewrite /errs_form; elim: (L - k)%N => [|i IH]; first exact: err_form_ext.
by cbn [back_form]; rewrite IH !sgainE /errp_form !err_form_ext !data_post_P.
Qed.

Lemma energy_sharp (c : 'cV[F]_n) : exists l a b, let s' := data_of s (shown l a b) in
  driven l a T - post_x s' T = post_P s T *m c /\ energy s T l a b = quad (post_P s T) c.
Proof.
pose f := err_form s T.
exists ((nf_e f)^T *m c), (fun j => (nf_w f j)^T *m c), (fun j => (nf_v f j)^T *m c).
set l := _ *m c; set a := fun j => (nf_w f j)^T *m c; set b := fun j => (nf_v f j)^T *m c.
have [e1 e2] := form_sharp T f (mP0 s) (mQ s) (mR s) c.
rewrite (err_covf inn h0 hk (leqnn T)) in e1 e2; cbv zeta; split; last by rewrite energyE.
rewrite (det_err _ _ (leqnn T)) (traj_eval _ (driven_departs l a b)) err_form_ext; exact: e1.
Qed.

Lemma energy_sharp_smooth L k (c : 'cV[F]_n) : T = L.+1 -> (forall j, (j < L)%N -> pred_P s j.+1 \in unitmx) ->
  (k <= L)%N -> exists l a b, let s' := data_of s (shown l a b) in
  driven l a k.+1 - smooth_x s' L k = smooth_P s L k *m c /\ energy s T l a b = quad (smooth_P s L k) c.
Proof.
move=> HT upr Hk; have HL : (L < T)%N by rewrite HT.
pose f := errs_form s L k.
exists ((nf_e f)^T *m c), (fun j => (nf_w f j)^T *m c), (fun j => (nf_v f j)^T *m c).
set l := _ *m c; set a := fun j => (nf_w f j)^T *m c; set b := fun j => (nf_v f j)^T *m c.
have [e1 e2] := form_sharp T f (mP0 s) (mQ s) (mR s) c.
rewrite (errs_covf inn h0 hk HL upr Hk) in e1 e2; cbv zeta; split; last by rewrite energyE.
rewrite (det_errs _ _ HL Hk) (traj_eval _ (driven_departs l a b)) errs_form_ext; exact: e1.
Qed.
End Sharp.
