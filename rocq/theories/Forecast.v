(** * Forecast: predicting several steps ahead *)
From Coq Require Import ZArith.
From mathcomp Require Import all_ssreflect all_algebra.
From Verif Require Import Np NpLemmas Kf ApiSpec Loop FilterLemmas FilterThms SliceThms Exact Repr Textbook RunSpec Refine Refine2 Build Outputs
  Loewner KalmanAlg TextbookThms Prob BestLin BestLin2 Props16.

Set Implicit Arguments.
Unset Strict Implicit.
Unset Printing Implicit Defensive.
Import GRing.Theory Num.Theory Order.Theory.
Local Open Scope ring_scope.

(** ** Specification *)

(** h calls of predict, with the parameters of steps k, k+1, .., k+h-1 of the
    object and the controls [u]. *)
Fixpoint forecast (N : num) (self : kf N) (u : arr N) (k h : nat) (x P : arr N) : res (arr N * arr N) :=
  if h is i.+1 then
    match forecast self u k i x P with
    | Ok (y, C) => kf_predict (row (kf_A self) (k + i)) y (Some (row (kf_B self) (k + i)))
                     (Some (row u (k + i))) C (row (kf_Q self) (k + i))
    | Raise e => Raise e
    end
  else Ok (x, P).

(** h predictions on paper, from (x, P) before step k. *)
Fixpoint fore_x (F : realFieldType) n m (s : model F n m) (k h : nat) (x : 'cV[F]_n) : 'cV[F]_n :=
  if h is i.+1 then mA s (k + i) *m fore_x s k i x + mc s (k + i) else x.
Fixpoint fore_P (F : realFieldType) n m (s : model F n m) (k h : nat) (P : 'M[F]_n) : 'M[F]_n :=
  if h is i.+1 then mA s (k + i) *m fore_P s k i P *m (mA s (k + i))^T + mQ s (k + i) else P.

Section Forecast.
Variable F : realFieldType.
Variable oracle : oracle_type F.
Variable n2i : Z.
Notation N := (exact oracle n2i).
Notation arr := (arr N).

Lemma forecast_rp n m p (self : kf N) Z U k h (x P : arr) (X : 'cV[F]_n) (MP : 'M[F]_n) :
  exact_run n m p self Z U -> (k + h <= steps self Z U)%N ->
  vrp m x X -> rp [:: n; n] P MP -> dt (kf_A self) = DFloat \/ (dt x = DFloat /\ dt P = DFloat) ->
  let s := model_of n m p self Z U in
  exists y C, [/\ forecast self (control Z U) k h x P = Ok (y, C), vrp m y (fore_x s k h X),
    rp [:: n; n] C (fore_P s k h MP) & dt (kf_A self) = DFloat \/ (dt y = DFloat /\ dt C = DFloat)].
Proof.
move=> Hrun Hh Rx RP Hd s; have [Hc Hw Cx CP [Hcl Hct _ Hbu]] := Hrun; have [Hit Hn Hx HP Hl] := Hw.
elim: h Hh => [|h IH] Hh; first by exists x, P.
rewrite addnS in Hh; have [y [C [E Ry RC D]]] := IH (ltnW Hh).
have [LA LH LB [LZ LQ LR]] := Hl _ Hh; have [CA CH CQ CR CZ] := Hcl _ Hh.
have Hd' : dt (row (kf_A self) (k + h)) = DFloat \/ (dt y = DFloat /\ dt C = DFloat) by rewrite dt_row.
have Hb' : dt (row (kf_B self) (k + h)) = DFloat \/ dt (row (control Z U) (k + h)) = DFloat by rewrite !dt_row.
have [y' [C' [Ep Ry' RC']]] := predict_rp (rp_mat LA CA) Ry RC Hd' LB (Hct _ Hh) Hb' LQ CQ.
exists y', C'; cbn [forecast]; rewrite E Ep; split=> //.
- by case/vrpfW: Ry' => h1 _; exact: h1.
- by case: RC'.
by case/vrpfW: Ry' => _ ->; case: RC' => _ ->; right.
Qed.
End Forecast.

(** ** Forecasts on random data *)
Section Random.
Variable F : realFieldType.
Variable W : prob F.
Variables (n m : nat) (s : model F n m) (T : nat).
Variables (e : rvec W n) (w : nat -> rvec W n) (v : nat -> rvec W m).
Hypothesis HW : white_noises s T e w v.
Notation X := (true_state s e w).
Notation z := (sensed s e w v).
Variable sw : Om W -> model F n m.
Hypothesis sw0 : forall o, mx0 (sw o) = mx0 s /\ mP0 (sw o) = mP0 s.
Variable k : nat.
Hypothesis Hk : (k <= T)%N.
Hypothesis swk : forall o j, (j < T)%N ->
  [/\ mA (sw o) j = mA s j, mc (sw o) j = mc s j, mH (sw o) j = mH s j, mQ (sw o) j = mQ s j &
      mR (sw o) j = mR s j /\ mz (sw o) j = z j o].
Hypothesis inn : forall j, (j < k)%N -> innov s j \in unitmx.

Definition fx h : rvec W n := fun o => fore_x (sw o) k h (post_x (sw o) k).
Definition fe h : rvec W n := fun o => X (k + h) o - fx h o.

(** The estimate after k steps needs only the first k innovations. *)
Let HWk : white_noises s k e w v.
Proof.
case: HW => h1 h2 h3 h4 h5; split=> // j Hj; first by apply: h4; exact: leq_trans Hj Hk.
have [a1 a2 a3 a4 a5] := h5 j (leq_trans Hj Hk); split=> // i Hi; apply: a4; exact: leq_trans Hi Hk.
Qed.
Let swk' o j : (j < k)%N ->
  [/\ mA (sw o) j = mA s j, mc (sw o) j = mc s j, mH (sw o) j = mH s j, mQ (sw o) j = mQ s j &
      mR (sw o) j = mR s j /\ mz (sw o) j = z j o].
Proof. by move=> Hj; apply: swk; exact: leq_trans Hj Hk. Qed.

Lemma fxS h o : (k + h < T)%N -> fx h.+1 o = mA s (k + h) *m fx h o + mc s (k + h).
Proof. by move=> Hh; rewrite /fx; cbn [fore_x]; have [-> -> _ _ _] := swk o Hh. Qed.

Lemma feS h o : (k + h < T)%N -> fe h.+1 o = mA s (k + h) *m fe h o + w (k + h) o.
Proof.
move=> Hh; rewrite /fe fxS // addnS (_ : X (k + h).+1 o = mA s (k + h) *m X (k + h) o + mc s (k + h) + w (k + h) o) //.
rewrite mulmxBr; move: (mA s _ *m X _ o) (mA s _ *m fx h o) (mc s _) (w _ o) => a b c d.
by rewrite [a + c + d]addrAC opprD addrACA subrr addr0 addrAC.
Qed.

Lemma fx_aff h : (k + h <= T)%N -> affine_in z k (fx h).
Proof.
elim: h => [|h IH] Hh; first exact: (xh_aff sw0 swk').
rewrite addnS in Hh; have aff := IH (ltnW Hh).
apply: (@aff_ext _ _ _ _ _ _ _ _ _ _ (fun o => mA s (k + h) *m fx h o + mc s (k + h))).
  by move=> o; rewrite fxS.
by apply: aff_add; [exact: aff_mul|exact: aff_const].
Qed.

Lemma L2fe h : (k + h <= T)%N -> L2v (fe h).
Proof.
move=> Hh; apply: L2v_sub; first exact: (L2X HW).
exact: (L2aff HW Hk (fx_aff Hh)).
Qed.

Lemma m_feS h d (Y : rvec W d) : (k + h < T)%N -> L2v Y ->
  moment (fe h.+1) Y = mA s (k + h) *m moment (fe h) Y + moment (w (k + h)) Y.
Proof.
move=> Hh HY; have Lf := L2fe (ltnW Hh); have Lw := L2w HW Hh.
rewrite (eq_moment (X' := fun o => mA s (k + h) *m fe h o + w (k + h) o) (Y' := Y)) //; last first.
  by move=> o; exact: feS.
by rewrite momentDl ?momentMl //; exact: L2v_mul.
Qed.

Lemma fe_all h : (k + h <= T)%N ->
  [/\ mean (fe h) = 0, moment (fe h) (fe h) = fore_P s k h (post_P s k),
      forall j, (j < k)%N -> moment (fe h) (z j) = 0 &
      forall j, (k + h <= j)%N -> (j < T)%N -> moment (fe h) (w j) = 0].
Proof.
elim: h => [|h IH] Hh.
  have E0 o : err s e w sw k o = fe 0 o by rewrite /fe addn0.
  have [hm hc _ _ hz] := est_all HWk sw0 swk' inn (leqnn k).
  have E0' d (Y : rvec W d) : moment (fe 0) Y = moment (err s e w sw k) Y by apply/esym/eq_moment.
  split.
  - by rewrite meanE E0' -meanE.
  - by rewrite E0' -moment_tr E0' moment_tr.
  - by move=> j Hj; rewrite E0' hz.
  move=> j; rewrite addn0 E0' => Hkj HjT.
  have Le : L2v (err s e w sw k) by apply: (L2err HWk sw0 swk').
  have Lw := L2w HW HjT; have Lx : L2v (X k) by apply: (L2X HW).
  have Lh : L2v (xh sw k) by apply: (L2aff HW Hk); exact: (xh_aff sw0 swk').
  rewrite -moment_tr (eq_moment (X' := w j) (Y' := fun o => X k o - xh sw k o)) // momentBr //.
  rewrite (w_X HW) //.
  have -> : moment (w j) (xh sw k) = 0.
    apply: (perp_aff HW Hk) (xh_aff sw0 swk' (leqnn k)) => //; first exact: (mean_w HW).
    by move=> i Hi; apply: (w_z HW) => //; exact: leq_trans Hi Hkj.
  by rewrite subr0 trmx0.
rewrite addnS in Hh; have [hm hc hz hw] := IH (ltnW Hh).
have Lf := L2fe (ltnW Hh); have Lw := L2w HW Hh.
have LS : L2v (fe h.+1) by apply: L2fe; rewrite addnS.
split.
- rewrite meanE m_feS //; last exact: L2v_const.
  by rewrite -!meanE hm (mean_w HW) // mulmx0 addr0.
- have sP : (fore_P s k h (post_P s k))^T = fore_P s k h (post_P s k) by rewrite -hc moment_tr.
  have Eep : moment (fe h) (fe h.+1) = fore_P s k h (post_P s k) *m (mA s (k + h))^T.
    rewrite -moment_tr m_feS // hc -[moment (w _) _]moment_tr hw // trmx0 addr0 trmx_mul.
    by rewrite sP.
  rewrite m_feS // Eep -[moment (w _) _]moment_tr m_feS // hw // mulmx0 add0r (m_ww HW) //.
  have [_ /(_ _ Hh) [[sQ _] _]] := covs HW.
  by cbn [fore_P]; rewrite sQ mulmxA.
- move=> j Hj; rewrite m_feS //; last exact: (L2z HW (leq_trans Hj Hk)).
  rewrite hz // (w_z HW) //; first by rewrite mulmx0 addr0.
  exact: leq_trans Hj (leq_addr _ _).
move=> j; rewrite addnS => Hj HjT; rewrite m_feS //; last exact: (L2w HW).
by rewrite hw ?(ltnW Hj) // mulmx0 add0r -moment_tr (m_wlt HW) // trmx0.
Qed.

Lemma fore_best h (Y : rvec W n) : (k + h <= T)%N -> affine_in z k Y ->
  let D := (fun o => X (k + h) o - Y o) : rvec W n in
  let E := (fun o => fx h o - Y o) : rvec W n in
  moment D D = fore_P s k h (post_P s k) + moment E E.
Proof.
move=> Hh aY; have [hm hc hz _] := fe_all Hh.
exact: (best_of HW Hk (L2X HW Hh) (fx_aff Hh)).
Qed.
End Random.
