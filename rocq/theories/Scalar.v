(** * Scalar: one state and one sensor: estimates as weighted means of the
    prediction and the reading (specification side: Textbook.v only) *)
From mathcomp Require Import all_ssreflect all_algebra.
From Verif Require Import Textbook Loewner KalmanAlg TextbookThms.

Set Implicit Arguments.
Unset Strict Implicit.
Unset Printing Implicit Defensive.
Import GRing.Theory Num.Theory Order.Theory.
Local Open Scope ring_scope.

Section Scalar.
Variable F : realFieldType.

Lemma e11 (A B : 'M[F]_1) : (A *m B) 0 0 = A 0 0 * B 0 0.
Proof. by rewrite mxE big_ord1. Qed.

Lemma d11 (A B : 'M[F]_1) : (A + B) 0 0 = A 0 0 + B 0 0. Proof. by rewrite mxE. Qed.
Lemma s11 (A B : 'M[F]_1) : (A - B) 0 0 = A 0 0 - B 0 0. Proof. by rewrite !mxE. Qed.

Lemma one11 : (1%:M : 'M[F]_1) 0 0 = 1. Proof. by rewrite mxE. Qed.
Lemma zero11 : (0 : 'M[F]_1) 0 0 = 0. Proof. by rewrite mxE. Qed.

Lemma unit11 (A : 'M[F]_1) : A \in unitmx -> A 0 0 != 0.
Proof. by rewrite unitmxE det_mx11 unitfE. Qed.

Lemma inv11 (A : 'M[F]_1) : A \in unitmx -> (invmx A) 0 0 = (A 0 0)^-1.
Proof.
move=> u; have a0 := unit11 u; apply: (mulfI a0).
by rewrite -e11 mulmxV // mulfV // mxE eqxx.
Qed.

Lemma tr11 (A : 'M[F]_1) : A^T = A.
Proof. by apply/matrixP => i j; rewrite mxE !ord1. Qed.

(** The weights of a correction. *)
Lemma weights (P H R : 'M[F]_1) : psd P -> psd R -> 0 <= H 0 0 -> ucov P H R \in unitmx ->
  [/\ 0 <= (ugain P H R) 0 0, 0 <= 1 - (ugain P H R) 0 0 * H 0 0 &
      (P 0 0 = 0 -> (ugain P H R) 0 0 = 0)].
Proof.
move=> /psd_scalar p0 /psd_scalar r0 h0 u.
have eS : (ucov P H R) 0 0 = H 0 0 * P 0 0 * H 0 0 + R 0 0.
  by rewrite /ucov mxE tr11 !e11.
have S0 : 0 < (ucov P H R) 0 0.
  by rewrite lt_def unit11 //= eS addr_ge0 // !mulr_ge0.
have eK : (ugain P H R) 0 0 = P 0 0 * H 0 0 / (ucov P H R) 0 0.
  by rewrite /ugain tr11 !e11 inv11.
rewrite eK; split; last by move=> ->; rewrite !mul0r.
  by rewrite divr_ge0 ?mulr_ge0 // ltW.
have -> : 1 - P 0 0 * H 0 0 / (ucov P H R) 0 0 * H 0 0 = R 0 0 / (ucov P H R) 0 0.
  rewrite -{1}(mulfV (unit11 u)) mulrAC -mulrBl; congr (_ / _); rewrite eS.
  by rewrite -[P 0 0 * H 0 0 * H 0 0]mulrA [P 0 0 * (H 0 0 * H 0 0)]mulrCA !mulrA addrAC subrr add0r.
by rewrite divr_ge0 // ltW.
Qed.

Variables (s : model F 1 1) (N : nat).
Hypothesis hP0 : psd (mP0 s).
Hypothesis hQ : forall k, (k < N)%N -> psd (mQ s k).
Hypothesis hR : forall k, (k < N)%N -> psd (mR s k).
Hypothesis hS : forall k, (k < N)%N -> innov s k \in unitmx.
Hypothesis hA : forall k, (k < N)%N -> 0 <= mA s k 0 0.
Hypothesis hH : forall k, (k < N)%N -> 0 <= mH s k 0 0.

Lemma filter_weights k : (k < N)%N ->
  let b := gain_at s k 0 0 in let a := 1 - b * mH s k 0 0 in
  [/\ 0 <= a, 0 <= b & post_x s k.+1 0 0 = a * (mA s k 0 0 * post_x s k 0 0 + mc s k 0 0) + b * mz s k 0 0].
Proof.
move=> Hk b a.
have [b0 a0 _] := weights (pred_psd hP0 hQ hR hS Hk) (hR Hk) (hH Hk) (hS Hk).
split=> //; rewrite post_xS /ucorr d11 e11 -gainE -/b s11 e11 pred_xE d11 e11 /a.
by rewrite mulrBr mulrBl mul1r mulrA addrA [RHS]addrAC.
Qed.

Lemma smooth_weights T k : (T < N)%N -> (k < T)%N -> (forall j, (j < T)%N -> pred_P s j.+1 \in unitmx) ->
  let b := sgain s k 0 0 in let a := 1 - b * mA s k.+1 0 0 in
  [/\ 0 <= a, 0 <= b &
    smooth_x s T k 0 0 = a * post_x s k.+1 0 0 + b * (smooth_x s T k.+1 0 0 - mc s k.+1 0 0)].
Proof.
move=> HT Hk hp b a; have Hk1 : (k.+1 < N)%N by exact: leq_ltn_trans HT.
have hq : ucov (post_P s k.+1) (mA s k.+1) (mQ s k.+1) \in unitmx by rewrite -pred_PE; exact: hp.
have [b0 a0 _] := weights (post_psd hP0 hQ hR hS (ltnW Hk1)) (hQ Hk1) (hA Hk1) hq.
rewrite -sgainE -/b in b0; rewrite -sgainE -/b -/a in a0; split=> //.
rewrite smooth_xS // d11 e11 -/b s11 pred_xE /a.
move: (post_x s k.+1) (smooth_x s T k.+1 0 0) => y w; rewrite d11 e11.
by rewrite mulrBl mul1r -mulrA -addrA; congr (_ + _); rewrite -mulrN -mulrDr; congr (_ * _); rewrite opprD addrCA.
Qed.
End Scalar.

(** Two models that differ in the initial mean, the inputs and the readings
    only have the same covariances and gains. *)
Section Same.
Variable F : realFieldType.
Variables (n m N : nat) (s s' : model F n m).
Hypothesis h0 : mP0 s' = mP0 s.
Hypothesis h : forall k, (k < N)%N -> [/\ mA s' k = mA s k, mH s' k = mH s k, mQ s' k = mQ s k & mR s' k = mR s k].

Lemma same_P k : (k <= N)%N -> post_P s' k = post_P s k.
Proof.
elim: k => [|k IH] Hk //; have [e1 e2 e3 e4] := h Hk.
by rewrite !post_PS !pred_PE (IH (ltnW Hk)) e1 e2 e3 e4.
Qed.

Lemma same_pred k : (k < N)%N -> pred_P s' k = pred_P s k.
Proof. by move=> Hk; have [e1 e2 e3 e4] := h Hk; rewrite !pred_PE (same_P (ltnW Hk)) e1 e3. Qed.

Lemma same_gain k : (k < N)%N -> innov s' k = innov s k /\ gain_at s' k = gain_at s k.
Proof. by move=> Hk; have [e1 e2 e3 e4] := h Hk; rewrite !innovE !gainE same_pred // e2 e4. Qed.

Lemma same_sgain k : (k.+1 < N)%N -> sgain s' k = sgain s k.
Proof. by move=> Hk; have [e1 e2 e3 e4] := h Hk; rewrite !sgainE (same_P (ltnW Hk)) e1 e3. Qed.
End Same.

Section Thms.
Variable F : realFieldType.
Variables (s s' : model F 1 1) (N : nat).
Hypothesis hP0 : psd (mP0 s).
Hypothesis hQ : forall k, (k < N)%N -> psd (mQ s k).
Hypothesis hR : forall k, (k < N)%N -> psd (mR s k).
Hypothesis hS : forall k, (k < N)%N -> innov s k \in unitmx.

Lemma mean2 (a b lo hi x y : F) : 0 <= a -> 0 <= b -> a + b = 1 -> lo <= x <= hi -> lo <= y <= hi ->
  lo <= a * x + b * y <= hi.
Proof.
move=> a0 b0 e /andP [x1 x2] /andP [y1 y2]; have E t : t = a * t + b * t by rewrite -mulrDl e mul1r.
by rewrite (E lo) (E hi) !ler_add ?ler_wpmul2l.
Qed.

Section Mono.
Hypothesis hA : forall k, (k < N)%N -> 0 <= mA s k 0 0.
Hypothesis hH : forall k, (k < N)%N -> 0 <= mH s k 0 0.
Hypothesis h0 : mP0 s' = mP0 s.
Hypothesis h : forall k, (k < N)%N -> [/\ mA s' k = mA s k, mH s' k = mH s k, mQ s' k = mQ s k & mR s' k = mR s k].

Lemma primed : [/\ psd (mP0 s'), forall k, (k < N)%N -> psd (mQ s' k) /\ psd (mR s' k),
    forall k, (k < N)%N -> innov s' k \in unitmx & forall k, (k < N)%N -> 0 <= mA s' k 0 0 /\ 0 <= mH s' k 0 0].
Proof.
split.
- by rewrite h0.
- by move=> k Hk; have [_ _ -> ->] := h Hk; split; [exact: hQ|exact: hR].
- by move=> k Hk; have [-> _] := same_gain h0 h Hk; exact: hS.
by move=> k Hk; have [-> -> _ _] := h Hk; split; [exact: hA|exact: hH].
Qed.

Hypothesis hx : mx0 s 0 0 <= mx0 s' 0 0.
Hypothesis hz : forall k, (k < N)%N -> mz s k 0 0 <= mz s' k 0 0.
Hypothesis hc : forall k, (k < N)%N -> mc s k 0 0 <= mc s' k 0 0.

Lemma filter_mono k : (k <= N)%N -> post_x s k 0 0 <= post_x s' k 0 0.
Proof.
have [q0 q1 q2 q3] := primed.
elim: k => [|k IH] Hk //; have [a0 b0 ->] := filter_weights hP0 hQ hR hS hH Hk.
have [_ _ ->] := filter_weights q0 (fun j Hj => (q1 j Hj).1) (fun j Hj => (q1 j Hj).2) q2 (fun j Hj => (q3 j Hj).2) Hk.
have [_ ->] := same_gain h0 h Hk; have [-> -> _ _] := h Hk.
apply: ler_add; apply: ler_wpmul2l => //; last exact: hz.
by apply: ler_add; [apply: ler_wpmul2l; [exact: hA|exact/IH/ltnW]|exact: hc].
Qed.

Hypothesis hc' : forall k, (k < N)%N -> mc s' k 0 0 = mc s k 0 0.

Lemma smooth_mono T k : (T < N)%N -> (k <= T)%N -> (forall j, (j < T)%N -> pred_P s j.+1 \in unitmx) ->
  smooth_x s T k 0 0 <= smooth_x s' T k 0 0.
Proof.
move=> HT Hk hp; have [q0 q1 q2 q3] := primed.
have hp' j : (j < T)%N -> pred_P s' j.+1 \in unitmx.
  by move=> Hj; rewrite (same_pred h0 h) ?hp //; exact: leq_ltn_trans HT.
have [i E] : exists i, (T - k)%N = i by exists (T - k)%N.
elim: i k Hk E => [|i IH] k Hk E.
  have -> : k = T by apply/eqP; rewrite eqn_leq Hk -subn_eq0 E.
  by rewrite !smooth_xT; exact: filter_mono.
have Hk' : (k < T)%N by rewrite -subn_gt0 E.
have Hk1 : (k.+1 < N)%N by exact: leq_ltn_trans HT.
have [a0 b0 ->] := smooth_weights hP0 hQ hR hS hA HT Hk' hp.
have [_ _ ->] := smooth_weights q0 (fun j Hj => (q1 j Hj).1) (fun j Hj => (q1 j Hj).2) q2 (fun j Hj => (q3 j Hj).1) HT Hk' hp'.
rewrite (same_sgain h0 h Hk1) (hc' Hk1); have [-> _ _ _] := h Hk1.
apply: ler_add; apply: ler_wpmul2l => //; first exact/filter_mono/ltnW.
by rewrite ler_add2r; apply: IH => //; rewrite subnS E.
Qed.
End Mono.

Section Level.
Variables lo hi : F.
Hypothesis hL : forall k, (k < N)%N -> [/\ mA s k = 1%:M, mH s k = 1%:M & mc s k = 0].
Hypothesis hx : lo <= mx0 s 0 0 <= hi.
Hypothesis hz : forall k, (k < N)%N -> lo <= mz s k 0 0 <= hi.

Let hA k : (k < N)%N -> 0 <= mA s k 0 0.
Proof. by move=> /hL [-> _ _]; rewrite mxE eqxx ler01. Qed.
Let hH k : (k < N)%N -> 0 <= mH s k 0 0.
Proof. by move=> /hL [_ -> _]; rewrite mxE eqxx ler01. Qed.

Lemma filter_between k : (k <= N)%N -> lo <= post_x s k 0 0 <= hi.
Proof.
elim: k => [|k IH] Hk //; have [a0 b0 ->] := filter_weights hP0 hQ hR hS hH Hk.
move: a0; have [-> -> ->] := hL Hk; rewrite !one11 zero11 mul1r mulr1 addr0 => a0.
by apply: mean2 => //; [by rewrite subrK|exact/IH/ltnW|exact: hz].
Qed.

Lemma smooth_between T k : (T < N)%N -> (k <= T)%N -> (forall j, (j < T)%N -> pred_P s j.+1 \in unitmx) ->
  lo <= smooth_x s T k 0 0 <= hi.
Proof.
move=> HT Hk hp.
have [i E] : exists i, (T - k)%N = i by exists (T - k)%N.
elim: i k Hk E => [|i IH] k Hk E.
  have -> : k = T by apply/eqP; rewrite eqn_leq Hk -subn_eq0 E.
  by rewrite !smooth_xT; exact: filter_between.
have Hk' : (k < T)%N by rewrite -subn_gt0 E.
have Hk1 : (k.+1 < N)%N by exact: leq_ltn_trans HT.
have [a0 b0 ->] := smooth_weights hP0 hQ hR hS hA HT Hk' hp.
move: a0; have [-> _ ->] := hL Hk1; rewrite !one11 zero11 mulr1 subr0 => a0.
apply: mean2 => //; [by rewrite subrK|exact/filter_between/ltnW|].
by apply: IH => //; rewrite subnS E.
Qed.
End Level.
(** Differences of two runs of a level. *)
Section Differ.
Variables lo hi : F.
Hypothesis h0 : mP0 s' = mP0 s.
Hypothesis h : forall k, (k < N)%N -> [/\ mA s' k = mA s k, mH s' k = mH s k, mQ s' k = mQ s k & mR s' k = mR s k].
Hypothesis hL : forall k, (k < N)%N -> [/\ mA s k = 1%:M, mH s k = 1%:M & mc s' k = mc s k].
Hypothesis hx : lo <= mx0 s' 0 0 - mx0 s 0 0 <= hi.
Hypothesis hz : forall k, (k < N)%N -> lo <= mz s' k 0 0 - mz s k 0 0 <= hi.

Let hA k : (k < N)%N -> 0 <= mA s k 0 0.
Proof. by move=> /hL [-> _ _]; rewrite one11 ler01. Qed.
Let hH k : (k < N)%N -> 0 <= mH s k 0 0.
Proof. by move=> /hL [_ -> _]; rewrite one11 ler01. Qed.

Lemma sub_mean (a b x y c x' y' : F) : a * (x' + c) + b * y' - (a * (x + c) + b * y) = a * (x' - x) + b * (y' - y).
Proof. by rewrite opprD addrACA -!mulrBr opprD addrACA subrr addr0. Qed.

Lemma filter_differ k : (k <= N)%N -> lo <= post_x s' k 0 0 - post_x s k 0 0 <= hi.
Proof.
have [q0 q1 q2 q3] := primed hA hH h0 h.
elim: k => [|k IH] Hk //; have [a0 b0 ->] := filter_weights hP0 hQ hR hS hH Hk.
have [_ _ ->] := filter_weights q0 (fun j Hj => (q1 j Hj).1) (fun j Hj => (q1 j Hj).2) q2 (fun j Hj => (q3 j Hj).2) Hk.
have [_ ->] := same_gain h0 h Hk; have [-> -> _ _] := h Hk; move: a0; have [-> -> ->] := hL Hk.
rewrite !one11 !mul1r mulr1 sub_mean => a0.
by apply: mean2 => //; [by rewrite subrK|exact/IH/ltnW|exact: hz].
Qed.

Lemma smooth_differ T k : (T < N)%N -> (k <= T)%N -> (forall j, (j < T)%N -> pred_P s j.+1 \in unitmx) ->
  lo <= smooth_x s' T k 0 0 - smooth_x s T k 0 0 <= hi.
Proof.
move=> HT Hk hp; have [q0 q1 q2 q3] := primed hA hH h0 h.
have hp' j : (j < T)%N -> pred_P s' j.+1 \in unitmx.
  by move=> Hj; rewrite (same_pred h0 h) ?hp //; exact: leq_ltn_trans HT.
have [i E] : exists i, (T - k)%N = i by exists (T - k)%N.
elim: i k Hk E => [|i IH] k Hk E.
  have -> : k = T by apply/eqP; rewrite eqn_leq Hk -subn_eq0 E.
  by rewrite !smooth_xT; exact: filter_differ.
have Hk' : (k < T)%N by rewrite -subn_gt0 E.
have Hk1 : (k.+1 < N)%N by exact: leq_ltn_trans HT.
have [a0 b0 ->] := smooth_weights hP0 hQ hR hS hA HT Hk' hp.
have [_ _ ->] := smooth_weights q0 (fun j Hj => (q1 j Hj).1) (fun j Hj => (q1 j Hj).2) q2 (fun j Hj => (q3 j Hj).1) HT Hk' hp'.
rewrite (same_sgain h0 h Hk1); have [-> _ _ _] := h Hk1; move: a0; have [-> _ ->] := hL Hk1.
rewrite !one11 mulr1 => a0.
have := sub_mean (1 - sgain s k 0 0) (sgain s k 0 0) (post_x s k.+1 0 0) (smooth_x s T k.+1 0 0 - mc s k.+1 0 0) 0
  (post_x s' k.+1 0 0) (smooth_x s' T k.+1 0 0 - mc s k.+1 0 0).
rewrite !addr0 => ->; rewrite opprB addrA subrK.
apply: mean2 => //; [by rewrite subrK|exact/filter_differ/ltnW|].
by apply: IH => //; rewrite subnS E.
Qed.
End Differ.
End Thms.
