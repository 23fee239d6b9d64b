(** * IntThms: the standard filter on int64 arrays *)
From Coq Require Import ZArith Lia List.
From mathcomp Require Import ssreflect ssrfun ssrbool eqtype ssrnat seq.
From Verif Require Import Np NpLemmas Kf Ekf ApiSpec Loop FilterLemmas FilterThms SmoothLemmas NpShapes UtilThms IntSpec IntSim.

Set Implicit Arguments.
Unset Strict Implicit.
Unset Printing Implicit Defensive.

Section Kf.
Variable N : num.
Notation arr := (arr N).
Implicit Types (a b : arr).
Variables (d : nat) (M L : Z).
Hypothesis d1 : 0 < d.
Hypothesis M1 : (1 <= M)%Z.
Hypothesis L63 : (L < 2 ^ 63)%Z.
Hypothesis HL : (first_step_max d M <= L)%Z.
Hypothesis NL : int_exact N L.
Notation rel := (@rel N d).
Notation D := (Z.of_nat d).

Lemma D1 : (1 <= D)%Z. Proof. by move/leP: d1; lia. Qed.

Lemma pow_le i j : (i <= 4)%N -> (j <= 5)%N ->
  (1 <= D ^ Z.of_nat i * M ^ Z.of_nat j <= D ^ 4 * M ^ 5)%Z.
Proof.
move=> /leP Hi /leP Hj; have HD := D1.
have HDi : (1 <= D ^ Z.of_nat i <= D ^ 4)%Z.
  by split; [apply: (Z.pow_le_mono_r D 0); lia|apply: Z.pow_le_mono_r; lia].
have HMj : (1 <= M ^ Z.of_nat j <= M ^ 5)%Z.
  by split; [apply: (Z.pow_le_mono_r M 0); lia|apply: Z.pow_le_mono_r; lia].
by nia.
Qed.

Lemma HL3 : (3 * (D ^ 4 * M ^ 5) <= L)%Z.
Proof. by move: HL; rewrite /first_step_max Z.mul_assoc. Qed.

(** Bounds of the form c d^i M^j. *)
Definition mon (c i j : nat) : Z := (Z.of_nat c * (D ^ Z.of_nat i * M ^ Z.of_nat j))%Z.
Notation R c i j := (rel (mon c i j)).

Lemma mon_pos c i j : (0 <= mon c i j)%Z.
Proof.
by rewrite /mon; have HD := D1; apply: Z.mul_nonneg_nonneg; [lia|apply: Z.mul_nonneg_nonneg; apply: Z.pow_nonneg; lia].
Qed.

Lemma mon_le c i j : (c <= 3)%N -> (i <= 4)%N -> (j <= 5)%N -> (0 <= mon c i j <= L)%Z.
Proof.
move=> /leP Hc Hi Hj; split; first exact: mon_pos.
have := pow_le Hi Hj; have := HL3; rewrite /mon; nia.
Qed.

Lemma mon_weak c i j c' i' j' : (c <= c')%N -> (i <= i')%N -> (j <= j')%N ->
  (mon c i j <= mon c' i' j')%Z.
Proof.
move=> /leP Hc /leP Hi /leP Hj; rewrite /mon; have HD := D1.
have HDi : (1 <= D ^ Z.of_nat i <= D ^ Z.of_nat i')%Z.
  by split; [apply: (Z.pow_le_mono_r D 0); lia|apply: Z.pow_le_mono_r; lia].
have HMj : (1 <= M ^ Z.of_nat j <= M ^ Z.of_nat j')%Z.
  by split; [apply: (Z.pow_le_mono_r M 0); lia|apply: Z.pow_le_mono_r; lia].
have : (0 <= Z.of_nat c <= Z.of_nat c')%Z by lia.
move: (D ^ Z.of_nat i)%Z (D ^ Z.of_nat i')%Z (M ^ Z.of_nat j)%Z (M ^ Z.of_nat j')%Z HDi HMj.
move=> x x' y y' Hx Hy Hz; apply: Z.mul_le_mono_nonneg; try lia; try nia.
Qed.

Lemma mon_mul c1 i1 j1 c2 i2 j2 :
  (D * (mon c1 i1 j1 * mon c2 i2 j2))%Z = mon (c1 * c2) (i1 + i2).+1 (j1 + j2).
Proof.
rewrite /mon Nat2Z.inj_succ Z.pow_succ_r; last by lia.
rewrite -plusE -multE Nat2Z.inj_mul !Nat2Z.inj_add !Z.pow_add_r; try lia.
Qed.

Lemma Rweak c i j c' i' j' a a' : R c i j a a' -> (c <= c')%N -> (i <= i')%N -> (j <= j')%N ->
  R c' i' j' a a'.
Proof. by move=> H Hc Hi Hj; apply: rel_weak H; apply: mon_weak. Qed.

Lemma relM a a' : rel M a a' -> R 1 0 1 a a'.
Proof. apply: rel_weak; change (M <= 1 * (D ^ 0 * M ^ 1))%Z.
by rewrite Z.pow_0_r Z.pow_1_r; lia. Qed.

Lemma R0 c i j a : isfloat a -> all (fun k => k <= d) (shp a) -> R c i j a a.
Proof. by move=> *; apply: rel_float. Qed.

Definition okm c i j := [&& c <= 3, i <= 4 & j <= 5].
Lemma okmP c i j : okm c i j -> (0 <= mon c i j <= L)%Z.
Proof. by case/and3P => *; apply: mon_le. Qed.

Lemma Rmul c1 i1 j1 c2 i2 j2 a a' b b' : R c1 i1 j1 a a' -> R c2 i2 j2 b b' ->
  okm c1 i1 j1 -> okm c2 i2 j2 -> okm (c1 * c2) (i1 + i2).+1 (j1 + j2) ->
  rres (R (c1 * c2) (i1 + i2).+1 (j1 + j2)) (np_matmul a b) (np_matmul a' b').
Proof.
move=> Ha Hb /okmP H1 /okmP H2 /okmP H3; rewrite -mon_mul.
by apply: (sim_matmul d1 L63 NL); rewrite ?mon_mul //; lia.
Qed.

Lemma Radd c1 i1 j1 c2 i2 j2 a a' b b' : R c1 i1 j1 a a' -> R c2 i2 j2 b b' ->
  okm (c1 + c2) (maxn i1 i2) (maxn j1 j2) ->
  rres (R (c1 + c2) (maxn i1 i2) (maxn j1 j2)) (np_add a b) (np_add a' b').
Proof.
move=> Ha Hb /okmP H3.
have E : (mon (c1 + c2) (maxn i1 i2) (maxn j1 j2) =
          mon c1 (maxn i1 i2) (maxn j1 j2) + mon c2 (maxn i1 i2) (maxn j1 j2))%Z.
  by rewrite /mon -plusE Nat2Z.inj_add; lia.
have w1 : R c1 (maxn i1 i2) (maxn j1 j2) a a' by apply: Rweak Ha _ _ _; rewrite ?leq_maxl.
have w2 : R c2 (maxn i1 i2) (maxn j1 j2) b b' by apply: Rweak Hb _ _ _; rewrite ?leq_maxr.
have [h1 h2] : (0 <= mon c1 (maxn i1 i2) (maxn j1 j2) /\ 0 <= mon c2 (maxn i1 i2) (maxn j1 j2))%Z.
  by split; apply: mon_pos.
by rewrite E; apply: (sim_add L63 NL) => //; rewrite -E; lia.
Qed.

Lemma Rsub c1 i1 j1 c2 i2 j2 a a' b b' : R c1 i1 j1 a a' -> R c2 i2 j2 b b' ->
  okm (c1 + c2) (maxn i1 i2) (maxn j1 j2) ->
  rres (R (c1 + c2) (maxn i1 i2) (maxn j1 j2)) (np_sub a b) (np_sub a' b').
Proof.
move=> Ha Hb /okmP H3.
have E : (mon (c1 + c2) (maxn i1 i2) (maxn j1 j2) =
          mon c1 (maxn i1 i2) (maxn j1 j2) + mon c2 (maxn i1 i2) (maxn j1 j2))%Z.
  by rewrite /mon -plusE Nat2Z.inj_add; lia.
have w1 : R c1 (maxn i1 i2) (maxn j1 j2) a a' by apply: Rweak Ha _ _ _; rewrite ?leq_maxl.
have w2 : R c2 (maxn i1 i2) (maxn j1 j2) b b' by apply: Rweak Hb _ _ _; rewrite ?leq_maxr.
have [h1 h2] : (0 <= mon c1 (maxn i1 i2) (maxn j1 j2) /\ 0 <= mon c2 (maxn i1 i2) (maxn j1 j2))%Z.
  by split; apply: mon_pos.
by rewrite E; apply: (sim_sub L63 NL) => //; rewrite -E; lia.
Qed.

(** A pair of float arrays, the same on both sides. *)
Definition same2 (p p' : arr * arr) : Prop :=
  [/\ p = p', isfloat p.1, isfloat p.2, all (fun k => k <= d) (shp p.1)
    & all (fun k => k <= d) (shp p.2)].

Lemma same_rel B a a' : (0 <= B)%Z -> isfloat a -> all (fun k => k <= d) (shp a) -> rel B a a.
Proof. by move=> *; apply: rel_float. Qed.

Lemma rel_eq B a a' : rel B a a' -> isfloat a -> a' = a.
Proof. by case/relP => _ _ _ _ -> /as_float_id ->. Qed.

(** np.isnan(a).all() does not tell an int array from its conversion. *)
Lemma sim_isnan B a a' : (0 <= B <= L)%Z -> rel B a a' -> np_isnan_all a' = np_isnan_all a.
Proof.
move=> HB /relP [_ _ _ Hb ->]; rewrite /np_isnan_all /= all_map.
move: Hb; rewrite ints_leE; elim: (dat a) => [|v s IH] //= /andP [Hv /IH ->]; congr andb.
case: v Hv => //= z /Z.leb_le Hz; apply/negbTE/(ie_nan NL); lia.
Qed.

Lemma rres_conv B C r r' : (B <= C)%Z -> rres (rel B) r r' -> rres (rel C) r r'.
Proof. by move=> HB H; apply: rres_impl H _ => x x'; apply: rel_weak. Qed.

Lemma sim_solve B1 B2 a a' b b' : rel B1 a a' -> rel B2 b b' ->
  rres (rel 0) (np_solve a b) (np_solve a' b').
Proof.
case/relP => _ _ Hd1 _ -> /relP [_ _ Hd2 _ ->]; rewrite solve_as_float.
case E: (np_solve a b) => [c|e] //=.
apply: rel_float; first exact: np_solve_float E.
move: E; rewrite /np_solve; case: ifP => // _; case: ifP => // _; case: ifP => // _; case: ifP => // _.
case Es: (bshape _ _) => [bs|] //; case: ifP => // _ [<-] /=.
have dim s i : all (fun k => k <= d) s -> nth 0 s i <= d.
  move=> Hs; case: (ltnP i (size s)) => Hi; first exact: (all_nthP 0 Hs).
  by rewrite nth_default.
have Hsb : all (fun k => k <= d) (if size (shp b) == 1 then rcons (shp b) 1 else shp b).
  by case: ifP => _ //; rewrite all_rcons d1.
rewrite all_cat /= dim // (bshape_le Es) /=.
- by case: ifP => _ //=; rewrite dim.
- by apply/allP => x /mem_take; apply: (allP Hd1).
by apply/allP => x /mem_take; apply: (allP Hsb).
Qed.

(** ** predict *)

Lemma sim_project_cov A A' P P' Q Q' : R 1 0 1 A A' -> R 1 0 1 P P' -> R 1 0 1 Q Q' ->
  rres (R 2 2 3) (project_cov A P Q) (project_cov A' P' Q').
Proof.
move=> HA HP HQ; rewrite /project_cov.
apply: rres_bind (Rmul HP (sim_T HA) isT isT isT) _ => PA PA' H1.
apply: rres_bind (Rmul HA H1 isT isT isT) _ => APA APA' H2.
exact: Radd H2 HQ isT.
Qed.

Lemma sim_is_nan c i j a a' : okm c i j -> R c i j a a' -> is_nan_all (Some a') = is_nan_all (Some a).
Proof. by move=> /okmP H Ha; rewrite /= (sim_isnan H Ha). Qed.

Lemma sim_project_state A A' x x' B B' u u' : R 1 0 1 A A' -> R 1 0 1 x x' ->
  R 1 0 1 B B' -> R 1 0 1 u u' ->
  rres (R 2 1 2) (project_state A x (Some B) (Some u)) (project_state A' x' (Some B') (Some u')).
Proof.
move=> HA Hx HB Hu; rewrite /project_state.
rewrite (sim_is_nan (isT : okm 1 0 1) HB) (sim_is_nan (isT : okm 1 0 1) Hu).
case: (is_nan_all (Some B)) => [bn|e] //=.
case: (if bn then _ else _) => [[] |e] //=.
  by apply: rres_impl (Rmul HA Hx isT isT isT) _ => y y' H; apply: Rweak H _ _ _.
apply: rres_bind (Rmul HA Hx isT isT isT) _ => Ax Ax' H1.
apply: rres_bind (Rmul HB Hu isT isT isT) _ => Bu Bu' H2.
exact: Radd H1 H2 isT.
Qed.

Definition R2 (p p' : arr * arr) : Prop := R 2 1 2 p.1 p'.1 /\ R 2 2 3 p.2 p'.2.

Lemma sim_predict A A' x x' B B' u u' P P' Q Q' : R 1 0 1 A A' -> R 1 0 1 x x' ->
  R 1 0 1 B B' -> R 1 0 1 u u' -> R 1 0 1 P P' -> R 1 0 1 Q Q' ->
  rres R2 (kf_predict A x (Some B) (Some u) P Q) (kf_predict A' x' (Some B') (Some u') P' Q').
Proof.
move=> HA Hx HB Hu HP HQ; rewrite /kf_predict.
apply: rres_bind (sim_project_state HA Hx HB Hu) _ => y y' Hy.
by apply: rres_bind (sim_project_cov HA HP HQ) _ => C C' HC.
Qed.

(** ** update *)

Lemma sim_innov H H' P P' V V' : R 1 0 1 H H' -> R 2 2 3 P P' -> R 1 0 1 V V' ->
  rres (R 3 4 5) (innov_cov H P V) (innov_cov H' P' V').
Proof.
move=> HH HP HV; rewrite /innov_cov.
apply: rres_bind (Rmul HP (sim_T HH) isT isT isT) _ => PH PH' H1.
apply: rres_bind (Rmul HH H1 isT isT isT) _ => HPH HPH' H2.
exact: Radd H2 HV isT.
Qed.

(** The same float array on both sides. *)
Definition same1 (a a' : arr) : Prop := [/\ a = a', isfloat a & all (fun k => k <= d) (shp a)].

Lemma same1_R c i j a a' : same1 a a' -> R c i j a a'.
Proof. by case=> <- *; apply: R0. Qed.

Lemma R_same1 c i j a a' : R c i j a a' -> isfloat a -> same1 a a'.
Proof. by move=> H Hf; split=> //; [rewrite (rel_eq H Hf)|case/relP: H]. Qed.

Lemma rres_float c i j r r' : rres (R c i j) r r' -> (forall x, r = Ok x -> isfloat x) ->
  rres same1 r r'.
Proof. by case: r r' => [x|e] [x'|e'] //= H Hf; apply: R_same1 H _; apply: Hf. Qed.

Lemma sim_gain S S' H H' P P' : R 3 4 5 S S' -> R 1 0 1 H H' -> R 2 2 3 P P' ->
  rres same1 (gain S H P) (gain S' H' P').
Proof.
move=> HS HH HP; apply: (@rres_float 0 0 0); last by move=> x; apply: gain_float.
rewrite /gain.
apply: rres_bind (Rmul HH (sim_T HP) isT isT isT) _ => HP1 HP1' H1.
apply: rres_bind (sim_solve (sim_T HS) H1) _ => X X' H2 /=.
by apply: sim_T; apply: rel_weak H2; exact: mon_pos.
Qed.

Lemma sim_correct_state x x' Kk Kk' z z' zh zh' : R 2 1 2 x x' -> same1 Kk Kk' -> R 1 0 1 z z' ->
  R 2 2 3 zh zh' -> rres same1 (correct_state x Kk z zh) (correct_state x' Kk' z' zh').
Proof.
move=> Hx HK Hz Hzh; have [_ Kf _] := HK.
apply: (@rres_float 2 4 5); rewrite /correct_state.
  apply: rres_bind (Rsub Hz Hzh isT) _ => y y' H1.
  apply: rres_bind (Rmul (same1_R 0 0 0 HK) (sim_atleast1 d1 H1) isT isT isT) _ => Ky Ky' H2.
  by apply: rres_impl (Radd Hx H2 isT) _ => w w' H; apply: Rweak H _ _ _.
move=> w; case: (np_sub z zh) => [y|e] //=; case E: (np_matmul _ _) => [Ky|e] //= Ew.
apply: np_add_floatr Ew _; apply: np_matmul_float E _.
by case/isfloatP: Kf => _ ->.
Qed.

Lemma sim_correct_cov I H H' Kk Kk' P P' : isfloat I -> all (fun k => k <= d) (shp I) ->
  R 1 0 1 H H' -> same1 Kk Kk' ->
  R 2 2 3 P P' -> rres same1 (correct_cov I Kk H P) (correct_cov I Kk' H' P').
Proof.
move=> HI HdI HH HK HP; apply: (@rres_float 0 4 5); rewrite /correct_cov.
  apply: rres_bind (Rmul (same1_R 0 0 0 HK) HH isT isT isT) _ => KH KH' H1.
  apply: rres_bind (Rsub (R0 0 0 0 HI HdI) H1 isT) _ => IKH IKH' H2.
  apply: rres_impl (Rmul H2 HP isT isT isT) _ => w w' H3.
  by apply: Rweak H3 _ _ _.
move=> w; case: (np_matmul Kk H) => [KH|e] //=; case E: (np_sub _ _) => [IKH|e] //= Ew.
apply: np_matmul_float Ew _; have := np_sub_floatl E HI => /isfloatP [_ ->].
by [].
Qed.

(** Methods: the gains logged are the same. *)
Definition mres T T' (Q : T -> T' -> Prop) (m : meth N T) (m' : meth N T') : Prop :=
  forall g, (m g).1 = (m' g).1 /\ rres Q (m g).2 (m' g).2.

Lemma mres_ret T T' (Q : T -> T' -> Prop) x x' : Q x x' -> mres Q (mret x) (mret x').
Proof. by move=> H g. Qed.

Lemma mres_lift T T' (Q : T -> T' -> Prop) r r' : rres Q r r' -> mres Q (mlift r) (mlift r').
Proof. by move=> H g. Qed.

Lemma mres_bind S S' T T' (Q : S -> S' -> Prop) (V : T -> T' -> Prop) m m' f f' :
  mres Q m m' -> (forall x x', Q x x' -> mres V (f x) (f' x')) ->
  mres V (mbind m f) (mbind m' f').
Proof.
move=> H Hf g; have := H g; rewrite /mbind; case: (m g) => [g1 [x|e]]; case: (m' g) => [g2 [x'|e']] /=.
- by case=> <- HQ; exact: Hf.
- by case.
- by case.
by case=> <- <-.
Qed.

Lemma mres_impl S S' (Q V : S -> S' -> Prop) m m' :
  mres Q m m' -> (forall x x', Q x x' -> V x x') -> mres V m m'.
Proof. by move=> H HV g; have [H1 H2] := H g; split=> //; apply: rres_impl H2 HV. Qed.

Lemma mres_append a a' : same1 a a' -> mres (fun _ _ => True) (append_gain a) (append_gain a').
Proof. by case=> <- _ _ g. Qed.

Lemma sim_update I H H' x x' P P' z z' V V' : isfloat I -> all (fun k => k <= d) (shp I) ->
  R 1 0 1 H H' -> R 2 1 2 x x' -> R 2 2 3 P P' -> R 1 0 1 z z' -> R 1 0 1 V V' ->
  mres same2 (kf_update I H x P z V) (kf_update I H' x' P' z' V').
Proof.
move=> HI HdI HH Hx HP Hz HV; rewrite /kf_update.
apply: mres_bind (mres_lift (sim_innov HH HP HV)) _ => S S' HS.
apply: mres_bind (mres_lift (sim_gain HS HH HP)) _ => Kk Kk' HK.
apply: mres_bind (mres_append HK) _ => _ _ _.
apply: mres_bind (mres_lift (Rmul HH Hx isT isT isT)) _ => zh zh' Hzh.
apply: mres_bind (mres_lift (sim_correct_state Hx HK Hz Hzh)) _ => y y' [<- Hy1 Hy2].
apply: mres_bind (mres_lift (sim_correct_cov HI HdI HH HK HP)) _ => C C' [<- HC1 HC2].
by apply: mres_ret.
Qed.

(** ** The loop *)

Definition Rrow (s s' : srow N) : Prop :=
  [/\ R 1 0 1 (rA s) (rA s'), R 1 0 1 (rH s) (rH s'), R 1 0 1 (rB s) (rB s') & R 1 0 1 (rU s) (rU s')] /\
  [/\ R 1 0 1 (rZ s) (rZ s'), R 1 0 1 (rQ s) (rQ s') & R 1 0 1 (rR s) (rR s')].

Lemma sim_step I s s' xP xP' : isfloat I -> all (fun k => k <= d) (shp I) -> Rrow s s' ->
  R 1 0 1 xP.1 xP'.1 -> R 1 0 1 xP.2 xP'.2 ->
  mres same2 (kf_step I s xP) (kf_step I s' xP').
Proof.
move=> HI HdI [[HA HH HB HU] [HZ HQ HR]] Hx HP; rewrite /kf_step.
apply: mres_bind (mres_lift (sim_predict HA Hx HB HU HP HQ)) _ => p p' [Hp1 Hp2].
exact: sim_update.
Qed.

Lemma same_loop S (step step' : S -> arr * arr -> meth N (arr * arr)) rows rows' k xP xP' out :
  Forall2 (fun s s' => forall y y', R 1 0 1 y.1 y'.1 -> R 1 0 1 y.2 y'.2 ->
     mres same2 (step s y) (step' s' y')) rows rows' ->
  R 1 0 1 xP.1 xP'.1 -> R 1 0 1 xP.2 xP'.2 ->
  mres eq (filter_loop step rows k xP out) (filter_loop step' rows' k xP' out).
Proof.
move=> HF; elim: HF k xP xP' out => [|s s' {}rows {}rows' Hs HF IH] k xP xP' out /= Hx HP.
  by apply: mres_ret.
apply: mres_bind (Hs _ _ Hx HP) _ => y y' [<- Hy1 Hy2 Hd1 Hd2].
apply: (@mres_bind _ _ _ _ eq) => [|o _ <-].
  by apply: mres_lift; case: (store _ _ _).
by apply: IH; exact: R0.
Qed.

Notation sr := (small_rows d M).

Lemma rel_row a k e sh : sr a -> shp a = e :: sh -> k < e -> R 1 0 1 (row a k) (row (as_float a) k).
Proof.
case/and3P => Hw Hs Hb E Hk; rewrite -as_float_row; apply: relM; split=> //; apply/and3P; split.
- exact: wf_row Hw E Hk.
- by rewrite shp_row.
rewrite /ints_le /=; set n := nelem _; move: Hb; rewrite /ints_le.
by rewrite -{1}[dat a](cat_take_drop (k * n)) -{1}[drop _ _](cat_take_drop n) !all_cat => /and3P [].
Qed.

Lemma sim_iter a : sr a ->
  rres (Forall2 (R 1 0 1)) (np_iter a) (np_iter (as_float a)).
Proof.
move=> Ha; rewrite /np_iter [shp (as_float a)]/=; case E: (shp a) => [|e sh] //=.
have : forall k, k \in iota 0 e -> R 1 0 1 (row a k) (row (as_float a) k).
  by move=> k; rewrite mem_iota => /andP [_ Hk]; apply: rel_row Ha E _.
elim: (iota 0 e) => [|k s IH] H /=; constructor.
  by apply: H; rewrite inE eqxx.
by apply: IH => j Hj; apply: H; rewrite inE Hj orbT.
Qed.

Lemma sim_zip7 (a a' h h' b b' u u' z z' q q' r r' : seq arr) :
  Forall2 (R 1 0 1) a a' -> Forall2 (R 1 0 1) h h' -> Forall2 (R 1 0 1) b b' ->
  Forall2 (R 1 0 1) u u' -> Forall2 (R 1 0 1) z z' -> Forall2 (R 1 0 1) q q' ->
  Forall2 (R 1 0 1) r r' -> Forall2 Rrow (zip7 a h b u z q r) (zip7 a' h' b' u' z' q' r').
Proof.
move=> Ha; elim: Ha h h' b b' u u' z z' q q' r r' => [|a0 a0' {}a {}a' H1 _ IH]; first by constructor.
move=> h h' b b' u u' z z' q q' r r'.
case=> [|h0 h0' {}h {}h' H2 H2']; first by constructor.
case=> [|b0 b0' {}b {}b' H3 H3']; first by constructor.
case=> [|u0 u0' {}u {}u' H4 H4']; first by constructor.
case=> [|z0 z0' {}z {}z' H5 H5']; first by constructor.
case=> [|q0 q0' {}q {}q' H6 H6']; first by constructor.
case=> [|r0 r0' {}r {}r' H7 H7']; first by constructor.
by constructor; [split; split|exact: IH].
Qed.

(** An object with int64 parameters and the same object with their
    conversions. *)
Definition kf_rel (o o' : kf N) : Prop :=
  [/\ kf_A o' = as_float (kf_A o), kf_B o' = as_float (kf_B o), kf_H o' = as_float (kf_H o),
      kf_Q o' = as_float (kf_Q o) & kf_R o' = as_float (kf_R o)] /\
  [/\ kf_xk o' = as_float (kf_xk o), kf_Pk o' = as_float (kf_Pk o), kf_size o' = kf_size o &
      kf_I o' = kf_I o] /\
  [/\ sr (kf_A o), sr (kf_B o), sr (kf_H o), sr (kf_Q o) & sr (kf_R o)] /\
  [/\ small d M (kf_xk o), small d M (kf_Pk o), kf_size o <= d &
      isfloat (kf_I o) /\ all (fun k => k <= d) (shp (kf_I o))].

Lemma sim_filter o o' Z U : kf_rel o o' -> sr Z -> sr (control Z U) ->
  control (as_float Z) (omap (@as_float N) U) = as_float (control Z U) ->
  mres eq (kf_filter o Z U) (kf_filter o' (as_float Z) (omap (@as_float N) U)).
Proof.
move=> [[EA EB EH EQ ER] [[Ex EP En EI] [[HA HB HH HQ HR] [Hx HP Hn [HI HdI]]]]] HZ HU EU.
rewrite /kf_filter -[check_none_and_broadcast U Z]/(control Z U).
rewrite -[check_none_and_broadcast _ (as_float Z)]/(control (as_float Z) _) EU.
rewrite EA EB EH EQ ER Ex EP En EI.
apply: (@mres_bind _ _ _ _ eq) => [|T _ <-].
  by apply: mres_lift; rewrite /np_len /=; case: (shp Z).
apply: mres_bind (mres_lift (sim_iter HA)) _ => a a' Ha.
apply: mres_bind (mres_lift (sim_iter HH)) _ => h h' Hh.
apply: mres_bind (mres_lift (sim_iter HB)) _ => b b' Hb.
apply: mres_bind (mres_lift (sim_iter HU)) _ => u u' Hu.
apply: mres_bind (mres_lift (sim_iter HZ)) _ => z z' Hz.
apply: mres_bind (mres_lift (sim_iter HQ)) _ => q q' Hq.
apply: mres_bind (mres_lift (sim_iter HR)) _ => r r' Hr.
apply: same_loop; last 2 first.
- by apply: relM.
- by apply: relM.
elim: (sim_zip7 Ha Hh Hb Hu Hz Hq Hr) => [|s s' t t' Hs _ IH]; constructor=> //.
by move=> y y' Hy1 Hy2; exact: sim_step.
Qed.


(** ** smooth *)

Lemma fits_as_float a sh : fits sh (as_float a) = fits sh a.
Proof. by []. Qed.

Lemma fit_as_float a sh : fit sh (as_float a) = fit sh a.
Proof. by rewrite /fit /=; apply: eq_mk => ix _; rewrite -as_float_reshape tofl_get. Qed.

Lemma setitem_as_float a k v : np_setitem a k (as_float v) = np_setitem a k v.
Proof.
case E: (np_pos a k) => [i|e]; last by rewrite /np_setitem E.
by rewrite !(setitem_at _ E) fits_as_float /setrow fit_as_float.
Qed.

(** The float arrays that filter and smooth allocate. *)
Definition outs (n : nat) (a : arr) : Prop :=
  isfloat a /\ all (fun k => k <= d) (behead (shp a)).

Lemma np_pos_lt a k i : np_pos a k = Ok i -> exists e sh, shp a = e :: sh /\ i < e.
Proof.
rewrite /np_pos; case: (shp a) => [|e sh] //.
move: (if Z.ltb k 0 then _ else _) => k'.
case: ifP => // /andP [/Z.leb_le H1 /Z.ltb_lt H2] [<-]; exists e, sh; split=> //.
by apply/ltP; lia.
Qed.

Lemma outs_get n a k : outs n a -> rres same1 (np_getitem a k) (np_getitem a k).
Proof.
case=> /isfloatP [Hw Hd] Hs; rewrite /np_getitem; case E: (np_pos a k) => [i|e] //=.
have [e [sh [Es Hi]]] := np_pos_lt E.
by split=> //; apply/isfloatP; split=> //; exact: wf_row Hw Es Hi.
Qed.

Lemma sim_get a k : sr a -> rres (R 1 0 1) (np_getitem a k) (np_getitem (as_float a) k).
Proof.
move=> Ha; rewrite /np_getitem.
have -> : np_pos (as_float a) k = np_pos a k by [].
case E: (np_pos a k) => [i|e] //=.
by have [e [sh [Es Hi]]] := np_pos_lt E; apply: rel_row Ha Es Hi.
Qed.

Lemma outs_set n a k v v' c i j : outs n a -> R c i j v v' ->
  rres (fun x x' => x = x' /\ outs n x) (np_setitem a k v) (np_setitem a k v').
Proof.
move=> [/isfloatP [Hw Hd] Hs] /relP [_ _ _ _ ->]; rewrite setitem_as_float.
case E: (np_pos a k) => [l|e]; last by rewrite /np_setitem E.
rewrite (setitem_at _ E); case: ifP => //= _; split=> //; split=> //.
have [e [sh [Es Hi]]] := np_pos_lt E.
by apply/isfloatP; split=> //; exact: wf_setrow Hw Hd Es Hi.
Qed.

Definition outs2 n (p p' : arr * arr) : Prop := p = p' /\ (outs n p.1 /\ outs n p.2).

Lemma sim_smooth_gain C C' P P' A A' : R 2 2 3 C C' -> same1 P P' -> R 1 0 1 A A' ->
  rres same1 (smooth_gain C P A) (smooth_gain C' P' A').
Proof.
move=> HC HP HA; apply: (@rres_float 0 0 0); rewrite /smooth_gain.
  apply: rres_bind (Rmul (same1_R 0 0 0 HP) (sim_T HA) isT isT isT) _ => PA PA' H1.
  apply: rres_bind (sim_solve (sim_T HC) (sim_T H1)) _ => X X' H2 /=.
  by apply: sim_T; apply: rel_weak H2; exact: mon_pos.
move=> w; case: (np_matmul _ _) => [PA|e] //=; case E: (np_solve _ _) => [X|e] //= [<-].
by apply: isfloat_T; apply: np_solve_float E.
Qed.

Lemma sim_smooth_state x x' G G' y y' v v' : same1 x x' -> same1 G G' -> same1 y y' -> R 2 1 2 v v' ->
  rres (R 0 4 5) (smooth_state x G y v) (smooth_state x' G' y' v').
Proof.
move=> Hx HG Hy Hv; rewrite /smooth_state.
apply: rres_bind (Rsub (same1_R 0 0 0 Hy) Hv isT) _ => w w' H1.
apply: rres_bind (Rmul (same1_R 0 0 0 HG) H1 isT isT isT) _ => t t' H2.
by apply: rres_impl (Radd (same1_R 0 0 0 Hx) H2 isT) _ => ? ? H; apply: Rweak H _ _ _.
Qed.

Lemma sim_smooth_cov P P' G G' Y Y' C C' : same1 P P' -> same1 G G' -> same1 Y Y' -> R 2 2 3 C C' ->
  rres (R 0 4 5) (smooth_cov P G Y C) (smooth_cov P' G' Y' C').
Proof.
move=> HP HG HY HC; rewrite /smooth_cov.
apply: rres_bind (Rsub (same1_R 0 0 0 HY) HC isT) _ => w w' H1.
apply: rres_bind (Rmul H1 (sim_T (same1_R 0 0 0 HG)) isT isT isT) _ => t t' H2.
apply: rres_bind (Rmul (same1_R 0 0 0 HG) H2 isT isT isT) _ => t2 t2' H3.
by apply: rres_impl (Radd (same1_R 0 0 0 HP) H3 isT) _ => ? ? H; apply: Rweak H _ _ _.
Qed.

Lemma sim_smooth_body n est est' sm sm' k p p' A A' : outs2 n est est' -> outs2 n sm sm' -> R2 p p' ->
  R 1 0 1 A A' ->
  rres (outs2 n) (smooth_body est sm k p A) (smooth_body est' sm' k p' A').
Proof.
move=> [<- [E1 E2]] [<- [S1 S2]] [Hp1 Hp2] HA; rewrite /smooth_body.
apply: rres_bind (outs_get (Z.of_nat k) E2) _ => P P' HP.
apply: rres_bind (outs_get (Z.of_nat k) E1) _ => x x' Hx.
apply: rres_bind (sim_smooth_gain Hp2 HP HA) _ => G G' HG.
apply: rres_bind (outs_get (Z.of_nat k.+1) S1) _ => xs1 xs1' Hxs1.
apply: rres_bind (sim_smooth_state Hx HG Hxs1 Hp1) _ => xs xs' Hxs.
apply: rres_bind (outs_set (Z.of_nat k) S1 Hxs) _ => smx smx' [<- Hsmx].
apply: rres_bind (outs_get (Z.of_nat k.+1) S2) _ => Ps1 Ps1' HPs1.
apply: rres_bind (sim_smooth_cov HP HG HPs1 Hp2) _ => Ps Ps' HPs.
by apply: rres_bind (outs_set (Z.of_nat k) S2 HPs) _ => smP smP' [<- HsmP].
Qed.

Lemma sim_smooth_step n o o' U est est' sm sm' k : kf_rel o o' -> sr U -> outs2 n est est' -> outs2 n sm sm' ->
  rres (outs2 n) (kf_smooth_step o U est k sm) (kf_smooth_step o' (as_float U) est' k sm').
Proof.
move=> [[EA EB EH EQ ER] [[Ex EP En EI] [[HA HB HH HQ HR] [Hx HP Hn [HI HdI]]]]] HU He Hs.
rewrite /kf_smooth_step EA EB EQ; have [Ee [E1 E2]] := He; rewrite -Ee.
apply: rres_bind (sim_get (Z.of_nat k.+1) HA) _ => A A' hA.
apply: rres_bind (sim_get (Z.of_nat k.+1) HQ) _ => Q Q' hQ.
apply: rres_bind (sim_get (Z.of_nat k.+1) HB) _ => B B' hB.
apply: rres_bind (sim_get (Z.of_nat k.+1) HU) _ => u u' hu.
apply: rres_bind (outs_get (Z.of_nat k) E2) _ => P P' hP.
apply: rres_bind (outs_get (Z.of_nat k) E1) _ => x x' hx.
apply: rres_bind (sim_predict hA (same1_R 1 0 1 hx) hB hu (same1_R 1 0 1 hP) hQ) _ => p p' hp.
by apply: sim_smooth_body.
Qed.

Lemma sim_smooth_loop n (step step' : nat -> arr * arr -> res (arr * arr)) j sm sm' :
  (forall k s s', outs2 n s s' -> rres (outs2 n) (step k s) (step' k s')) ->
  outs2 n sm sm' -> rres (outs2 n) (smooth_loop step j sm) (smooth_loop step' j sm').
Proof.
move=> H; elim: j sm sm' => [|k IH] sm sm' Hs //=.
by apply: rres_bind (H k _ _ Hs) _ => s s' Hss; exact: IH.
Qed.

Lemma sim_smooth_init T n est est' : n <= d -> outs2 n est est' ->
  rres (outs2 n) (smooth_init T n est) (smooth_init T n est').
Proof.
move=> Hn [<- [E1 E2]]; rewrite /smooth_init.
have [[W1 D1' S1] [W2 D2' S2]] := alloc_outshape N T n.
have O1 : outs n (alloc N T n).1 by split; [apply/isfloatP|rewrite S1 /= Hn].
have O2 : outs n (alloc N T n).2 by split; [apply/isfloatP|rewrite S2 /= Hn].
apply: rres_bind (outs_get (-1)%Z E1) _ => x x' hx.
apply: rres_bind (outs_set (-1)%Z O1 (same1_R 0 0 0 hx)) _ => s s' [<- hs].
apply: rres_bind (outs_get (-1)%Z E2) _ => P P' hP.
by apply: rres_bind (outs_set (-1)%Z O2 (same1_R 0 0 0 hP)) _ => t t' [<- ht].
Qed.


Lemma sim_smooth o o' Z U : kf_rel o o' -> sr Z -> sr (control Z U) ->
  control (as_float Z) (omap (@as_float N) U) = as_float (control Z U) ->
  mres eq (kf_smooth o Z U) (kf_smooth o' (as_float Z) (omap (@as_float N) U)).
Proof.
move=> Ho HZ HU EU; have HF := sim_filter Ho HZ HU EU.
have [_ [[_ _ En _] [_ [_ _ Hn _]]]] := Ho.
rewrite /kf_smooth -[check_none_and_broadcast U Z]/(control Z U).
rewrite -[check_none_and_broadcast _ (as_float Z)]/(control (as_float Z) _) EU En.
have HF' : mres (outs2 (kf_size o)) (kf_filter o Z U) (kf_filter o' (as_float Z) (omap (@as_float N) U)).
  move=> g; have [H1 H2] := HF g; split=> //.
  move: H1 H2; case E: (kf_filter o Z U g) => [g1 [[st er]|e]]; case: (kf_filter o' _ _ g) => [g2 [r|e']] //=.
  move=> _ Er; split=> //; have [[[W1 D1' S1] [W2 D2' S2]] _ _ _] := filter_ok E.
  by rewrite /outs S1 S2 /= Hn; split; split=> //; apply/isfloatP.
apply: mres_bind HF' _ => est est' He.
apply: (@mres_bind _ _ _ _ eq) => [|T _ <-].
  by apply: mres_lift; rewrite /np_len /=; case: (shp Z).
apply: mres_bind (mres_lift (sim_smooth_init T Hn He)) _ => sm sm' Hs.
have H := @sim_smooth_loop (kf_size o) (kf_smooth_step o (control Z U) est)
            (kf_smooth_step o' (as_float (control Z U)) est') (T - 1) sm sm'.
apply: mres_impl (mres_lift (H _ Hs)) _; last by move=> x x' [].
by move=> k s s'; apply: sim_smooth_step.
Qed.

(** ** Objects and histories *)

Lemma sr_full_like a : dt a = DFloat -> all (fun k => k <= d) (behead (shp a)) ->
  sr (np_full_like_nan a) /\ as_float (np_full_like_nan a) = np_full_like_nan a.
Proof.
move=> Hd Hs.
have Hf : isfloat (np_full_like_nan a) by apply/isfloatP; split; [exact: wf_full_like|].
split; last exact: as_float_id.
case/isfloatP: Hf => Hw _; apply/and3P; split=> //.
by rewrite /ints_le /= Hd all_nseq orbT.
Qed.

Lemma sr_dims a : sr a -> all (fun k => k <= d) (behead (shp a)).
Proof. by case/and3P. Qed.

Lemma control_as_float Z U : sr Z -> (if U is Some u then is_true (sr u) else dt Z = DFloat) ->
  sr (control Z U) /\ control (as_float Z) (omap (@as_float N) U) = as_float (control Z U).
Proof.
case: U => [u|] HZ HU //=; have [H1 H2] := sr_full_like HU (sr_dims HZ).
split=> //; rewrite H2 as_float_id //; apply/isfloatP; split=> //.
by case/and3P: HZ.
Qed.


Lemma init_rel A xk B Pk H Q V ss o : small_args d M A xk B Pk H Q V ss ->
  kf_init A xk B Pk H Q V ss = Ok o ->
  exists o', [/\ kf_init (as_float A) (as_float xk) (omap (@as_float N) B) (as_float Pk) (as_float H)
                  (as_float Q) (as_float V) ss = Ok o', kf_rel o o' & kf_gains o' = kf_gains o].
Proof.
move=> [HA HH HQ HV HB Hx HP Hss]; rewrite /kf_init.
have Esh : shape0 (as_float xk) = shape0 xk by [].
rewrite Esh; case En: (match ss with Some _ => _ | None => _ end) => [n|e] //= [<-].
have [HcB EcB] := control_as_float HA HB.
have Hn : n <= d.
  have Hx0 : shape0 xk = Ok n -> n <= d.
    by rewrite /shape0; case/and3P: Hx => _ Hd _; case: (shp xk) Hd => [|k s] // /andP [Hk _] [<-].
  case: ss En Hss => [z|En _]; last exact: Hx0.
  case: Z.eqb => [En _|]; first exact: Hx0.
  case: Z.ltb_spec => // Hz [<-] Hzd; apply/leP; lia.
eexists; split; [by []| |by []].
split; first by split=> //=.
split; first by split.
split; first by split.
by split=> //=; split; [exact: isfloat_identity|rewrite /= Hn].
Qed.

Lemma small_R a : small d M a -> R 1 0 1 a (as_float a).
Proof. by move=> H; apply: relM. Qed.

Lemma small_R' c i j a : small d M a -> 1 <= c -> 1 <= j -> R c i j a (as_float a).
Proof. by move=> H Hc Hj; apply: Rweak (small_R H) _ _ _. Qed.

Lemma rres_conv_res (T : arr * arr -> arr * arr -> Prop) r r' : rres T r r' ->
  (forall p p', T p p' -> p' = (as_float p.1, as_float p.2)) -> r' = conv_res r.
Proof. by case: r r' => [p|e] [p'|e'] //= H HT; [rewrite (HT _ _ H)|rewrite H]. Qed.

Lemma call_rel o o' c g : kf_rel o o' -> small_call d M c ->
  (run_meth (conv_call c) o' g).1 = (run_meth c o g).1 /\
  (run_meth (conv_call c) o' g).2 = conv_res (run_meth c o g).2.
Proof.
move=> Ho; case: c => [A x B u P Q|H x P z V|Z U|Z U].
- move=> [[HA Hx HP HQ] [HB Hu]]; split=> //.
  rewrite [run_meth _ _ _]/= [run_meth (CPredict _ _ _ _ _ _) _ _]/= /mlift.
  case: B HB => [b|] //= Hb; case: u Hu => [v|] /= Hv.
  + apply: rres_conv_res (sim_predict (small_R HA) (small_R Hx) (small_R Hb) (small_R Hv) (small_R HP) (small_R HQ)) _.
    by move=> [p1 p2] [q1 q2] [/= [_ ->] [_ ->]].
  have En := sim_isnan (okmP (isT : okm 1 0 1)) (small_R Hb).
  case Hn: (np_isnan_all b); last by rewrite !predict_unone ?En ?Hn.
  rewrite /kf_predict /project_state /= En Hn /=.
  apply: (@rres_conv_res R2); last by move=> [p1 p2] [q1 q2] [/= [_ ->] [_ ->]].
  apply: rres_bind (Rmul (small_R HA) (small_R Hx) isT isT isT) _ => y y' Hy.
  apply: rres_bind (sim_project_cov (small_R HA) (small_R HP) (small_R HQ)) _ => C C' HC.
  by split=> //; apply: Rweak Hy _ _ _.
- move=> [HH Hx HP Hz HV]; have [_ [[_ _ _ EI] [_ [_ _ _ [HI HdI]]]]] := Ho.
  have := sim_update HI HdI (small_R HH) (@small_R' 2 1 2 _ Hx isT isT) (@small_R' 2 2 3 _ HP isT isT) (small_R Hz) (small_R HV).
  move=> /(_ g) [H1 H2]; rewrite /= EI; split; first by rewrite H1.
  by apply: rres_conv_res H2 _ => p p' [<- f1 f2 _ _]; rewrite !as_float_id //; case: (p).
- move=> [HZ HU]; have [H1 H2] := control_as_float HZ HU.
  have [E1 E2] := sim_filter Ho HZ H1 H2 g; rewrite /=; split; first by rewrite E1.
  move: E2; case E: (kf_filter o Z U g) => [g1 [[st er]|e]]; case: (kf_filter o' _ _ g) => [g2 [r|e']] //=.
    move=> <-; have [[[W1 D1' S1] [W2 D2' S2]] _ _ _] := filter_ok E.
    by rewrite !as_float_id //; apply/isfloatP.
  by move=> ->.
move=> [HZ HU]; have [H1 H2] := control_as_float HZ HU.
have [E1 E2] := sim_smooth Ho HZ H1 H2 g; rewrite /=; split; first by rewrite E1.
move: E2; case E: (kf_smooth o Z U g) => [g1 [[st er]|e]]; case: (kf_smooth o' _ _ g) => [g2 [r|e']] //=.
  move=> <-; have [/and3P [W1 D1' _] /and3P [W2 D2' _]] := smooth_shapes E.
  by rewrite !as_float_id // /isfloat ?W1 ?W2.
by move=> ->.
Qed.

Lemma calls_rel cs o o' : kf_rel o o' -> kf_gains o' = kf_gains o ->
  (forall i c0, i < size cs -> small_call d M (nth c0 cs i)) ->
  kf_gains (kf_calls o' (map (@conv_call N) cs)).1 = kf_gains (kf_calls o cs).1 /\
  (kf_calls o' (map (@conv_call N) cs)).2 = map (@conv_res N) (kf_calls o cs).2.
Proof.
elim: cs o o' => [|c cs IH] o o' Ho Hg Hc //=.
have [E1 E2] := call_rel (kf_gains o) Ho (Hc 0 c isT).
rewrite /kf_call Hg; move: E1 E2.
case: (run_meth c o _) => [g r]; case: (run_meth _ o' _) => [g' r'] /= -> ->.
have Ho' : kf_rel (with_gains o g) (with_gains o' g) by [].
have := IH _ _ Ho' (erefl _) (fun i c0 Hi => Hc i.+1 c0 Hi).
by case: (kf_calls (with_gains o g) cs) => o1 rs; case: (kf_calls _ _) => o1' rs' /= [-> ->].
Qed.

End Kf.
