(** * Props24: C89: the past is forgotten *)
From Coq Require Import ZArith.
From mathcomp Require Import all_ssreflect all_algebra.
From Verif Require Import Np NpLemmas Kf ApiSpec Loop FilterLemmas FilterThms UtilThms Exact Repr Textbook RunSpec Refine Refine2 Build
  Outputs RingTac Loewner KalmanAlg TextbookThms ExCases Prob RobustSpec BestLin Factor Robust Robust2 Energy Sensit Forget
  Props20 Props22.

Set Implicit Arguments.
Unset Strict Implicit.
Unset Printing Implicit Defensive.
Import GRing.Theory Num.Theory Order.Theory.
Local Open Scope ring_scope.

Section Props.
Variable F : realFieldType.
Variable oracle : oracle_type F.
Variable n2i : Z.
Notation N := (exact oracle n2i).
Notation arr := (arr N).

Section Two.
Variables (n m p p' : nat).
Variables (self self' : kf N) (Z Z' : arr) (U U' : option arr) (g g' : seq arr).
Let s := model_of n m p self Z U.
Let s' := model_of n m p' self' Z' U'.
Notation T := (steps self Z U).
Hypothesis H : exact_run n m p self Z U.
Hypothesis H' : exact_run n m p' self' Z' U'.
Hypothesis HT : steps self' Z' U' = T.
Hypothesis Hm : same_matrices n m p p' self self' Z Z' U U'.
Hypothesis h0 : psd (mP0 s).
Hypothesis hk : forall k, (k < T)%N -> psd (mQ s k) /\ psd (mR s k).

Variables (g1 g1' : seq arr) (st er st' er' : arr).
Hypothesis E : kf_filter self Z U g = (g1, Ok (st, er)).
Hypothesis E' : kf_filter self' Z' U' g' = (g1', Ok (st', er')).

(** The covariance before step i: Pk of the object, or row i-1 of errors. *)
Definition P_before (i : nat) : 'M[F]_n := if i is j.+1 then mx n n (row er j) else mP0 s.

(** r_i bounds the share of the old uncertainty in the prediction of step i:
    A P A' <= r_i (A P A' + Q). *)
Definition share (r : nat -> F) (i : nat) : Prop :=
  0 <= r i /\ loewner (mA s i *m P_before i *m (mA s i)^T)
                      (r i *: (mA s i *m P_before i *m (mA s i)^T + mQ s i)).

Definition same_data (i : nat) : Prop := mc s' i = mc s i /\ mz s' i = mz s i.

Lemma P_beforeE i : (i < T)%N -> P_before i = post_P s i.
Proof. by case: i => // i Hi; have [_ _ e _ _] := filter_out H E (ltnW Hi); exact: e. Qed.

Lemma shareE r i : (i < T)%N -> share r i -> 0 <= r i /\ loewner (mA s i *m post_P s i *m (mA s i)^T) (r i *: pred_P s i).
Proof. by move=> Hi; rewrite /share P_beforeE. Qed.

Lemma diff_row k : (k < T)%N -> mx n 1 (row st' k) - mx n 1 (row st k) = diff s s' k.+1 /\ mx n n (row er k) = post_P s k.+1.
Proof.
move=> Hk; have Hk' := Hk; rewrite -HT in Hk'.
by have [_ -> -> _ _] := filter_out H E Hk; have [_ -> _ _ _] := filter_out H' E' Hk'.
Qed.

(** From row j to row k, with the same inputs and readings in between. *)
Theorem C89_differences_fade j k v (r : nat -> F) : (j <= k < T)%N -> 0 <= v ->
  (forall i, (j < i <= k)%N -> same_data i /\ share r i) ->
  (forall c : 'cV[F]_n, ((c^T *m (mx n 1 (row st' j) - mx n 1 (row st j))) 0 0) ^+ 2 <=
     v * (c^T *m mx n n (row er j) *m c) 0 0) ->
  forall c : 'cV[F]_n, ((c^T *m (mx n 1 (row st' k) - mx n 1 (row st k))) 0 0) ^+ 2 <=
     v * (\prod_(j.+1 <= i < k.+1) r i) * (c^T *m mx n n (row er k) *m c) 0 0.
Proof.
move=> /andP [jk kT] v0 D W c; have jT := leq_ltn_trans jk kT.
have [-> ->] := diff_row kT; have [e1 e2] := diff_row jT; rewrite e1 e2 in W.
have [m0 mk] := Hm; have u := filter_units H E.
apply: (@fade _ _ _ s s' T m0 mk h0 hk u j.+1 k.+1 v r) => //; first by rewrite ltnS jk.
move=> i /andP [ji ik]; have iT : (i < T)%N by exact: leq_trans ik kT.
have [[d1 d2] /(shareE iT) [r0 L]] := D i (introT andP (conj ji (ik : (i <= k)%N))).
by split.
Qed.

(** From the start: a different initial state, everything else the same. *)
Theorem C89_initial_state_fades k l (r : nat -> F) : (k < T)%N ->
  mx0 s' = mx0 s + mP0 s *m l -> (forall i, (i <= k)%N -> same_data i /\ share r i) ->
  forall c : 'cV[F]_n, ((c^T *m (mx n 1 (row st' k) - mx n 1 (row st k))) 0 0) ^+ 2 <=
     (l^T *m mP0 s *m l) 0 0 * (\prod_(i < k.+1) r i) * (c^T *m mx n n (row er k) *m c) 0 0.
Proof.
move=> kT el D c; have [-> ->] := diff_row kT.
have [m0 mk] := Hm; have u := filter_units H E; rewrite -(big_mkord xpredT).
apply: (@fade _ _ _ s s' T m0 mk h0 hk u 0%N k.+1 (quad (mP0 s) l) r) => //; [by case: h0| |exact: within0].
move=> i /andP [_ ik]; have iT : (i < T)%N by exact: leq_trans ik kT.
by have [[d1 d2] /(shareE iT) [r0 L]] := D i ik; split.
Qed.

(** Every model: the weighted distance never grows (r = 1). *)
Lemma share1 i : (i < T)%N -> share (fun _ => 1) i.
Proof.
move=> Hi; split; first exact: ler01.
rewrite scale1r /loewner addrC addKr; by have [] := hk Hi.
Qed.

(** With P <= p, A A' <= a and Q >= q > 0 it shrinks at least by
    p a / (p a + q) < 1 at every step. *)
Lemma share_geometric (pp a q : F) i : 0 < q -> 0 <= pp -> 0 <= a -> (i < T)%N ->
  loewner (P_before i) pp%:M -> loewner (mA s i *m (mA s i)^T) a%:M -> loewner q%:M (mQ s i) ->
  share (fun _ => pp * a / (pp * a + q)) i.
Proof.
move=> q0 p0 a0 Hi LP LA LQ; set r := pp * a / (pp * a + q).
have d0 : 0 < pp * a + q by apply: ltr_spaddr => //; exact: mulr_ge0.
have r0 : 0 <= r by apply: divr_ge0; [exact: mulr_ge0|exact: ltW].
split=> //.
have r1 : 1 - r = q / (pp * a + q).
  by rewrite /r -{1}(divff (lt0r_neq0 d0)) -mulrBl addrC addKr.
have r1' : 0 <= 1 - r by rewrite r1; apply: divr_ge0; exact: ltW.
have L1 : loewner (mA s i *m P_before i *m (mA s i)^T) (pp * a)%:M.
  apply: loewner_trans (loewner_conj (mA s i) LP) _.
  rewrite mul_mx_scalar -scalemxAl -[(pp * a)%:M]scale_scalar_mx /loewner -scalerBr.
  exact: psd_scale.
have -> : r *: (mA s i *m P_before i *m (mA s i)^T + mQ s i) =
  mA s i *m P_before i *m (mA s i)^T + (r *: mQ s i - (1 - r) *: (mA s i *m P_before i *m (mA s i)^T)).
  by rewrite scalerBl scale1r scalerDr opprB addrCA [in RHS]addrC !addrA subrK addrC.
rewrite /loewner addrC addKr.
have -> : r *: mQ s i - (1 - r) *: (mA s i *m P_before i *m (mA s i)^T) =
  (r *: mQ s i - (r * q)%:M) + ((r * q)%:M - (1 - r) *: (mA s i *m P_before i *m (mA s i)^T)) by rewrite addrA subrK.
apply: psd_add.
  by rewrite -scale_scalar_mx -scalerBr; exact: psd_scale.
have -> : r * q = (1 - r) * (pp * a) by rewrite r1 /r; move: (pp * a) => x; rewrite mulrAC [RHS]mulrAC [x * q]mulrC.
by rewrite -scale_scalar_mx -scalerBr; exact: psd_scale.
Qed.

Theorem C89_initial_state_is_forgotten (pp a q : F) k l : 0 < q -> 0 <= pp -> 0 <= a -> (k < T)%N ->
  mx0 s' = mx0 s + mP0 s *m l ->
  (forall i, (i <= k)%N -> [/\ same_data i, loewner (P_before i) pp%:M,
     loewner (mA s i *m (mA s i)^T) a%:M & loewner q%:M (mQ s i)]) ->
  loewner (mx n n (row er k)) pp%:M ->
  let rate := pp * a / (pp * a + q) in
  [/\ 0 <= rate, rate < 1 &
   forall i, (mx n 1 (row st' k) i 0 - mx n 1 (row st k) i 0) ^+ 2 <= pp * (l^T *m mP0 s *m l) 0 0 * rate ^+ k.+1].
Proof.
move=> q0 p0 a0 kT el D LP rate.
have d0 : 0 < pp * a + q by apply: ltr_spaddr => //; exact: mulr_ge0.
have r0 : 0 <= rate by apply: divr_ge0; [exact: mulr_ge0|exact: ltW].
split=> //; first by rewrite ltr_pdivr_mulr // mul1r ltr_addl.
move=> i.
have Di j : (j <= k)%N -> same_data j /\ share (fun _ => rate) j.
  by move=> Hj; have [d1 d2 d3 d4] := D j Hj; split=> //; apply: share_geometric => //; exact: leq_ltn_trans Hj kT.
have := @C89_initial_state_fades k l (fun _ => rate) kT el Di (delta_mx i 0).
rewrite prodr_const card_ord -/(dot _ _) -/(quad _ _) -/(quad _ _) dot_delta quad_delta.
rewrite [X in X ^+ 2 <= _](_ : _ = mx n 1 (row st' k) i 0 - mx n 1 (row st k) i 0); last by rewrite !mxE.
move=> /le_trans; apply; rewrite [_ * mx n n _ i i]mulrC mulrA.
apply: ler_wpmul2r; first exact: exprn_ge0.
apply: ler_wpmul2r; first by case: h0.
by have := loewner_diag i LP; rewrite [X in _ <= X -> _]mxE eqxx mulr1n.
Qed.
End Two.

(** ** Case: two runs of a random walk that start differently *)
Definition walk (c x : F) : model F 1 1 :=
  Model (fun _ => 1%:M) (fun _ => 0) (fun _ => 1%:M) (fun _ => c%:M) (fun _ => c%:M) (fun k => (k%:R)%:M) x%:M c%:M.

Example C89_case (c x y : F) : 0 < c ->
  let self := build oracle n2i (walk c x) 3 in let Z := build_Z oracle n2i (walk c x) 3 in
  let U := build_U oracle n2i (walk c x) 3 in
  let self' := build oracle n2i (walk c y) 3 in let Z' := build_Z oracle n2i (walk c y) 3 in
  let U' := build_U oracle n2i (walk c y) 3 in
  let s := model_of 1 1 1 self Z U in let s' := model_of 1 1 1 self' Z' U' in
  exists g st er g' st' er' pp l,
  [/\ [/\ exact_run 1 1 1 self Z U, exact_run 1 1 1 self' Z' U', steps self Z U = 3%N & steps self' Z' U' = 3%N],
      same_matrices 1 1 1 1 self self' Z Z' U U',
      psd (mP0 s) /\ (forall k, (k < steps self Z U)%N -> psd (mQ s k) /\ psd (mR s k)),
      kf_filter self Z U [::] = (g, Ok (st, er)) /\ kf_filter self' Z' U' [::] = (g', Ok (st', er')) &
  [/\ 0 <= pp, mx0 s' = mx0 s + mP0 s *m l, mx0 s' - mx0 s = (y - x)%:M &
      forall k, (k < 3)%N ->
      [/\ same_data 1 1 1 1 self self' Z Z' U U' k, loewner (P_before 1 1 1 self Z U er k) pp%:M,
          loewner (mA s k *m (mA s k)^T) 1%:M, loewner c%:M (mQ s k) & loewner (mx 1 1 (row er k)) pp%:M]]].
Proof.
move=> c0; have c1 : c != 0 by exact: lt0r_neq0.
have lem1 : y%:M = x%:M + c%:M *m ((y - x) / c)%:M :> 'M[F]_1.
  by rewrite -scalar_mxM mulrC divfK // -raddfD addrC subrK.
have lem2 : y%:M - x%:M = (y - x)%:M :> 'M[F]_1 by rewrite -raddfB.
move=> self Z U self' Z' U' s s'.
have B := build_model oracle n2i (walk c x); have B' := build_model oracle n2i (walk c y).
have [b1 b2] := build_model0 oracle n2i (walk c x) 3; have [b1' b2'] := build_model0 oracle n2i (walk c y) 3.
have R : exact_run 1 1 1 self Z U by exact: build_run.
have R' : exact_run 1 1 1 self' Z' U' by exact: build_run.
have S : steps self Z U = 3%N by exact: build_steps.
have S' : steps self' Z' U' = 3%N by exact: build_steps.
have pc : pd (c%:M : 'M[F]_1) by apply/pd_scalar; rewrite mxE eqxx.
have P0 : psd (mP0 s) by rewrite b2; exact: pd_psd.
have PP k : (k < steps self Z U)%N -> pd (mQ s k) /\ pd (mR s k).
  by rewrite S => Hk; have [_ _ _ e1 [e2 _]] := B _ _ Hk; rewrite e1 e2; split; exact: pc.
have U1 k : (k < steps self Z U)%N -> innov s k \in unitmx.
  by apply: (innov_unit P0) => j Hj; have [/pd_psd] := PP j Hj; have [] := PP j Hj.
have M k : (k < steps self Z U)%N -> [/\ mA s' k = mA s k, mH s' k = mH s k, mQ s' k = mQ s k & mR s' k = mR s k].
  rewrite S => Hk; have [a1 _ a2 a3 [a4 _]] := B _ _ Hk; have [d1 _ d2 d3 [d4 _]] := B' _ _ Hk.
  by split; [exact: etrans d1 (esym a1)|exact: etrans d2 (esym a2)|exact: etrans d3 (esym a3)|exact: etrans d4 (esym a4)].
have M0 : mP0 s' = mP0 s by exact: etrans b2' (esym b2).
have [g [st [er E]]] := filter_returns [::] R U1.
have [|g' [st' [er' E']]] := filter_returns [::] R'.
  by rewrite S' -S => k Hk; rewrite (ext_innov M0 M Hk); exact: U1.
have er0 k : (k < 3)%N -> 0 <= mx 1 1 (row er k) 0 0.
  rewrite -S => Hk; have [_ _ -> _ _] := filter_out R E Hk; apply: psd_diag.
  have hq j : (j < steps self Z U)%N -> psd (mQ s j) by move=> /PP [/pd_psd].
  have hr j : (j < steps self Z U)%N -> psd (mR s j) by move=> /PP [_ /pd_psd].
  exact: (@post_psd _ _ _ s (steps self Z U) P0 hq hr U1 k.+1 Hk).
pose pp := c + (mx 1 1 (row er 0) 0 0 + mx 1 1 (row er 1) 0 0 + mx 1 1 (row er 2) 0 0).
have ge1 (M1 : 'M[F]_1) : M1 0 0 <= pp -> loewner M1 pp%:M.
  by move=> h; apply/psd_scalar; rewrite !mxE eqxx mulr1n subr_ge0.
have [e0 e1 e2] : [/\ 0 <= mx 1 1 (row er 0) 0 0, 0 <= mx 1 1 (row er 1) 0 0 & 0 <= mx 1 1 (row er 2) 0 0].
  by split; exact: er0.
have lem (u v w : F) : 0 <= u -> 0 <= v -> 0 <= w ->
    [/\ u <= c + (u + v + w), v <= c + (u + v + w), w <= c + (u + v + w), 0 <= c + (u + v + w) & c <= c + (u + v + w)].
  move=> u0 v0 w0; have cl := ltW c0; split.
  - by rewrite -[u + v + w]addrA addrCA ler_addl !addr_ge0.
  - by rewrite [u + v]addrC -[v + u + w]addrA addrCA ler_addl !addr_ge0.
  - by rewrite addrA ler_addr !addr_ge0.
  - by rewrite !addr_ge0.
  - by rewrite ler_addl !addr_ge0.
have [p1 p2 p3 p4 p5] := lem _ _ _ e0 e1 e2; rewrite -/pp in p1 p2 p3 p4 p5.
have erp k : (k < 3)%N -> loewner (mx 1 1 (row er k)) pp%:M.
  by move=> Hk; apply: ge1; move: k Hk => [|[|[|k]]] Hk; [exact: p1|exact: p2|exact: p3|].
exists g, st, er, g', st', er', pp, ((y - x) / c)%:M.
split; [split; [exact: R|exact: R'|exact: S|exact: S']|split; [exact: M0|exact: M]| |split; [exact: E|exact: E']|].
  by split; [exact: P0|move=> k Hk; have [q1 q2] := PP k Hk; split; exact: pd_psd].
split.
- exact: p4.
- have -> : mx0 s' = y%:M := b1'; have -> : mx0 s = x%:M := b1; have -> : mP0 s = c%:M := b2.
  exact: lem1.
- have -> : mx0 s' = y%:M := b1'; have -> : mx0 s = x%:M := b1; exact: lem2.
move=> k Hk; have [a1 a2 a3 a4 [a5 a6]] := B _ _ Hk; have [d1 d2 d3 d4 [d5 d6]] := B' _ _ Hk.
split.
- by split; [exact: etrans d2 (esym a2)|exact: etrans d6 (esym a6)].
- case: k Hk {a1 a2 a3 a4 a5 a6 d1 d2 d3 d4 d5 d6} => [_|k Hk]; last exact: erp (ltnW Hk).
  apply: ge1; have -> : P_before 1 1 1 self Z U er 0 = c%:M := b2.
  by rewrite mxE eqxx mulr1n; exact: p5.
- have -> : mA s k = 1%:M := a1; rewrite mul1mx trmx1; exact: loewner_refl.
- have -> : mQ s k = c%:M := a4; exact: loewner_refl.
exact: erp.
Qed.
End Props.
