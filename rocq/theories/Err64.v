(** * Err64: the states of the scalar filter in double arithmetic, and the
    accumulation of rounding errors along a run *)
From Coq Require Import ZArith Reals Floats.SpecFloat Lra Psatz.
From mathcomp Require Import ssreflect ssrfun ssrbool eqtype ssrnat seq.
From Verif Require Import Np NpLemmas Kf Ekf ApiSpec Loop Frame FilterLemmas FilterThms NpShapes
  WellShaped Binary64 Ieee Scalar64 Run64 Round64.

Set Implicit Arguments.
Unset Strict Implicit.
Unset Printing Implicit Defensive.
Local Notation B := binary64.

Lemma vecs1 (x : arr B) : vecs 1 1 x -> exists v, x = Arr (dt x) [:: 1] [:: v] \/ x = s11 (dt x) v.
Proof.
case: x => d sh xs; rewrite /vecs /wfs /= => /andP [/eqP Hs].
by case/orP => /eqP E; subst sh; case: xs Hs => // v [|//] _; exists v; [left|right].
Qed.

(** A float64 vector of one number, in either layout. *)
Definition onef (sh : shape) (v : f64) : arr B := Arr DFloat sh [:: VF (v : K B)].

Lemma mulvec11 (A x : arr B) : mat_layout 1 1 A -> vecs 1 1 x -> dt A = DFloat \/ dt x = DFloat ->
  np_matmul A x = Ok (onef (shp x) (fmul (num1 A) (num1 x))).
Proof.
move=> HA Hx Hd; have [a EA] := layout11 HA; have [v Ex] := vecs1 Hx.
have Hp : promote (dt A) (dt x) = DFloat by case: Hd => ->; case: (dt _).
by rewrite EA; case: Ex => ->; rewrite /np_matmul /= Hp.
Qed.

Lemma num1_onef sh v : num1 (onef sh v) = v. Proof. by []. Qed.

Section State.
Variables (A H z R x : arr B) (P : arr B).
Hypotheses (HA : mat_layout 1 1 A) (HH : mat_layout 1 1 H) (Hx : vecs 1 1 x) (Hz : obs_layout 1 1 z).
Hypotheses (H1 : num1 H = fone) (HR : cov_layout 1 R).

Lemma correct11 (Kv yv : f64) sh zh r : double yv -> vecs 1 1 (onef sh yv) ->
  np_matmul H (onef sh yv) = Ok zh -> correct_state (onef sh yv) (f11 Kv) z zh = Ok r ->
  num1 r = fadd yv (fmul Kv (fsub (num1 z) yv)).
Proof.
move=> Dy Hy; rewrite mulvec11 //; last by right.
rewrite H1 num1_onef mul1l //.
case=> <-; case/andP: Hz; case: z => dz shz xs; rewrite /wf /= => /andP [/eqP Hs _].
have {Hy}: sh = [:: 1] \/ sh = [:: 1; 1] by case/andP: Hy => _ /orP [/eqP E|/and3P [_ _ /eqP E]]; [left|right].
case=> -> /or3P [] /eqP E; subst shz; case: xs Hs => // w [|//] _;
  rewrite /correct_state /np_sub /np_bin /= /num1 /=; case: w => w /= [<-] //=.
Qed.

Variable pm : f64.
Hypothesis (Dp : double pm).
Let s := fadd pm (num1 R).

(** update: the state, when it returns. *)
Lemma update_state11 (yv : f64) sh g r : double yv -> vecs 1 1 (onef sh yv) ->
  (kf_update (np_identity B 1) H (onef sh yv) (f11 pm) z R g).2 = Ok r ->
  num1 r.1 = fadd yv (fmul (fdiv pm s) (fsub (num1 z) yv)).
Proof.
move=> Dy Hy.
have [h EH] := layout11 HH; have Eh : tofl h = fone by rewrite -H1 EH.
rewrite /kf_update /mbind /mlift /innov_cov.
rewrite {1 2 3}EH {1}/f11 T11 mm11 //; cbn [rbind].
rewrite /f11 mm11 ?promoteF //; cbn [rbind]; rewrite /np_add (bin11 _ _ _ HR).
rewrite /gain /f11 !T11 mm11 ?promoteF //; cbn [rbind]; rewrite solve11.
cbn [tofl]; rewrite Eh hph // mul1l // -/s.
case Ez: (is_zero s) => //; cbn [rbind]; rewrite /append_gain T11.
case Ezh: (np_matmul H (onef sh yv)) => [zh|] //.
case Ec: (correct_state _ _ _ _) => [r1|] //.
rewrite -(correct11 Dy Hy Ezh Ec).
by case: (correct_cov _ _ _ _) => [r2|] //= [<-].
Qed.

End State.

(** The state before step k: the initial one, or that of row k-1 of [st]. *)
Definition x_before64 (self : kf B) (st : arr B) (k : nat) : f64 :=
  if k is j.+1 then num1 (row st j) else num1 (kf_xk self).

(** No control at step k: the matrix or the vector is all NaN (as when B or U
    is None). *)
Definition uncontrolled (self : kf B) (Z : arr B) (U : option (arr B)) (k : nat) : bool :=
  np_isnan_all (row (kf_B self) k) || np_isnan_all (row (control Z U) k).

Lemma num1_fit (x : arr B) : vecs 1 1 x -> num1 (fit [:: 1] x) = num1 x.
Proof. by move=> /vecs1 [v [] ->]; rewrite /num1 /fit /mk /=; case: (dt x); case: v. Qed.

Section Run.
Variables (p : nat) (self : kf B) (Z : arr B) (U : option (arr B)) (g : seq (arr B)).
Hypothesis Hrun : direct_scalar p self Z U.
Notation T := (steps self Z U).
Notation av k := (num1 (row (kf_A self) k)).
Notation qv k := (num1 (row (kf_Q self) k)).
Notation rv k := (num1 (row (kf_R self) k)).
Notation zv k := (num1 (row Z k)).
Hypothesis Hnc : forall k, k < T -> uncontrolled self Z U k /\ double (zv k).
Hypothesis Hdx : dt (kf_A self) = DFloat \/ dt (kf_xk self) = DFloat.
Hypothesis Dx0 : double (num1 (kf_xk self)).

Lemma step_state k g1 x P g2 x' P' : k < T -> good self k P -> vecs 1 1 x ->
  dt (kf_A self) = DFloat \/ dt x = DFloat -> double (num1 x) ->
  by_hand self Z (control Z U) k g = (g1, Ok (x, P)) ->
  by_hand self Z (control Z U) k.+1 g = (g2, Ok (x', P')) ->
  let y := fmul (av k) (num1 x) in let pm := prior64 (av k) (num1 P) (qv k) in
  num1 x' = fadd y (fmul (fdiv pm (fadd pm (rv k))) (fsub (zv k) y)).
Proof.
move=> Hk HG Hx Hd Dx E E' y pm; have [HP DP NP HdP] := HG.
have [Hc Hw _ _ /(_ k Hk) [DA EH /andP [DQ NQ] /andP [DR NR]]] := Hrun.
have [Hit Hn _ _ /(_ k Hk) [LA LH LB [LZ LQ LR]]] := Hw.
have [Dpm Npm] := prior_double Hrun Hk HG.
have {E'} : kf_step (np_identity B 1) (srow_at self Z (control Z U) k) (x, P) g1 = (g2, Ok (x', P')).
  rewrite -E' by_hand_rows // (take_nth (srow_at self Z (control Z U) 0)) ?size_rows_of //.
  rewrite iter_rows_rcons (nth_map 0) ?size_iota // nth_iota // add0n /mbind -by_hand_rows ?(ltnW Hk) //.
  by rewrite E (constructed_I Hc) Hn.
have [w [C [Ep Hy HC]]] := predict_shape (has_mat LA) Hx LB (has_mat HP) LQ.
have EC : C = f11 pm.
  have Hd' : dt (row (kf_A self) k) = DFloat \/ dt P = DFloat by [].
  exact: (predict11 LA HP LQ Hd' Ep).
have Ew : w = onef (shp x) y.
  move: Ep; rewrite /kf_predict; have [Hu _] := Hnc Hk.
  have -> : project_state (row (kf_A self) k) x (Some (row (kf_B self) k)) (Some (row (control Z U) k)) =
      np_matmul (row (kf_A self) k) x.
    rewrite /project_state /is_nan_all; cbn [rbind].
    by case/orP: Hu => ->; [|case: (np_isnan_all _)].
  have Hd' : dt (row (kf_A self) k) = DFloat \/ dt x = DFloat by [].
  rewrite (mulvec11 LA Hx Hd'); cbn [rbind].
  by case: (project_cov _ _ _) => [r|] //= [<-].
rewrite /kf_step /mbind /mlift; cbn [rA rB rU rQ rH rZ rR srow_at fst snd]; rewrite Ep EC Ew.
cbn [fst snd] => E2; rewrite Ew in Hy.
have Dy : double y by apply: double_mul.
have := @update_state11 (row (kf_H self) k) (row Z k) (row (kf_R self) k) LH LZ EH LR pm Dpm y (shp x) g1 (x', P') Dy Hy.
by rewrite E2 => /(_ erefl).
Qed.

Lemma state_good k g1 x P : k <= T -> by_hand self Z (control Z U) k g = (g1, Ok (x, P)) ->
  [/\ good self k P, vecs 1 1 x, dt (kf_A self) = DFloat \/ dt x = DFloat & double (num1 x)].
Proof.
elim: k g1 x P => [|k IH] g1 x P Hk E.
  have [_ [_ _ Hx _ _] _ _ _] := Hrun; case: E => _ <- <-.
  by split=> //; [exact: good0 Hrun|exact: vec_vecs].
have [Hc _ _ _ _] := Hrun.
case: (run64 g Hrun Hk) => [[g2 [x2 [P2 []]]]|[g2]]; rewrite E //.
case=> _ <- <- HG Hx; split=> //.
  by right; have [/isfloatP [_ ->] _] := by_hand_float Hc E.
case: (run64 g Hrun (ltnW Hk)) => [[g3 [x3 [P3 [E3 HG3 Hx3]]]]|[g3 E3]]; last first.
  move: E; have [_ [Hit _ _ _ _] _ _ _] := Hrun; move: E3.
  rewrite !by_hand_rows ?(ltnW Hk) // (take_nth (srow_at self Z (control Z U) 0)) ?size_rows_of // iter_rows_rcons.
  by rewrite /mbind => ->.
have [HG3' Hx3' Hd3 D3] := IH _ _ _ (ltnW Hk) E3.
rewrite (step_state Hk HG3 Hx3 Hd3 D3 E3 E).
have [Dp _] := prior_double Hrun Hk HG3.
have [_ _ _ _ /(_ k Hk) [DA _ _ /andP [DR _]]] := Hrun; have [_ DZ] := Hnc Hk.
have Dy := double_mul _ _ DA D3.
apply: double_add => //; apply: double_mul; first by apply: double_div => //; exact: double_add.
exact: double_sub.
Qed.

Lemma states64 g' st er k : kf_filter self Z U g = (g', Ok (st, er)) -> k < T ->
  let y := fmul (av k) (x_before64 self st k) in
  [/\ num1 (row st k) = fadd y (fmul (num1 (nth (np_zeros B [::]) g' (size g + k))) (fsub (zv k) y)),
      double (num1 (row st k)) & double (x_before64 self st k)].
Proof.
move=> E Hk y; have HnT : kf_size self = 1 by case: Hrun => _ [].
have [_ Hsz Hr _] := filter_ok E; rewrite HnT in Hr.
have [[x P] Ek] := filter_gains_at E (ltnW Hk).
have [x1 [P1 [E1 _ Es Er]]] := Hr k Hk.
have [HG Hx Hd Dx] := state_good (ltnW Hk) Ek.
have [HG1 Hx1 Hd1 Dx1] := state_good Hk E1.
have Ex : x_before64 self st k = num1 x.
  case: k Hk y Ek {E1 Es Er HG HG1} => [|j] Hj y; first by case=> _ <- _.
  move=> Ek; have [x3 [P3 [E3 _ Es3 _]]] := Hr j (ltnW Hj); rewrite /x_before64 Es3.
  have {Ek}EP3 : x3 = x by move: Ek; rewrite E3; clear; case.
  by rewrite EP3 num1_fit.
have [_ _ Eg _ _] := rows64 Hrun E Hk.
have EPm : P_prior64 self er k = prior64 (av k) (num1 P) (qv k).
  rewrite /P_prior64; suff -> : P_before64 self er k = num1 P by [].
  case: k Hk y Ek E1 Es Er HG HG1 Ex Eg => [|j] Hj y Ek E1 Es Er HG HG1 Ex Eg; first by case: Ek => _ _ <-.
  have [x3 [P3 [E3 _ _ Er3]]] := Hr j (ltnW Hj); rewrite /P_before64 Er3.
  have {Ek}EP3 : P3 = P by move: Ek; rewrite E3; clear; case.
  rewrite EP3 in E3 *; congr num1; apply: (stored_is (sh := [:: 1; 1])) => //.
    have [Hc _ _ _ _] := Hrun; exact: (by_hand_float Hc E3).2.
  by case: HG => /andP [_ /eqP].
rewrite Es num1_fit // Ex; split=> //.
by rewrite Eg EPm /y Ex; exact: step_state Hk HG Hx Hd Dx Ek E1.
Qed.

End Run.

(** ** Accumulation *)

(** The textbook scalar filter (H = 1, no control) in exact real arithmetic on
    the numbers the arrays hold: the variance and the state after k steps. *)
Section Exact.
Variables (self : kf B) (Z : arr B).
Definition rA k := real (num1 (row (kf_A self) k)).
Definition rQ k := real (num1 (row (kf_Q self) k)).
Definition rR k := real (num1 (row (kf_R self) k)).
Definition rZ k := real (num1 (row Z k)).

Fixpoint exact_var (k : nat) : R :=
  if k is j.+1 then exact_post (exact_prior (rA j) (exact_var j) (rQ j)) (rR j)
  else real (num1 (kf_Pk self)).
Definition exact_K (k : nat) : R := exact_gain (exact_prior (rA k) (exact_var k) (rQ k)) (rR k).
Fixpoint exact_state (k : nat) : R :=
  if k is j.+1 then
    (let y := rA j * exact_state j in y + exact_K j * (rZ j - y))%R
  else real (num1 (kf_xk self)).
End Exact.

Section Accumulate.
Variables (p : nat) (self : kf B) (Z : arr B) (U : option (arr B)) (g : seq (arr B)).
Variables (g' : seq (arr B)) (st er : arr B) (M alpha : R).
Hypothesis Hrun : direct_scalar p self Z U.
Hypothesis E : kf_filter self Z U g = (g', Ok (st, er)).
Notation T := (steps self Z U).
Notation rv k := (num1 (row (kf_R self) k)).
Notation pm k := (P_prior64 self er k).
Hypothesis Hfin : forall k, k < T -> finite (fadd (pm k) (rv k)).
Hypothesis HM : forall k, k < T -> (real (pm k) <= M)%R.
Hypothesis Ha : forall k, k < T -> (Rabs (rA self k) <= alpha)%R.
Notation cvar := (9 * u64 * M + (4 + alpha) * eta64)%R.

Lemma before_good k : k <= T -> double (P_before64 self er k) /\ nonneg (P_before64 self er k).
Proof.
have [_ _ _ /andP [DP NP] Hall] := Hrun.
case: k => [|k] Hk; first by split=> //; exact: fleb0.
have [[Dp Np] Hz _ Ep De] := rows64 Hrun E Hk; have [_ _ _ /andP [DR NR]] := Hall k Hk.
by split=> //; rewrite /P_before64 Ep; exact: post_nonneg.
Qed.

Lemma exact_var_pos k : k <= T -> (0 <= exact_var self k)%R.
Proof.
have [_ _ _ /andP [_ NP] Hall] := Hrun.
elim: k => [|k IH] Hk; first exact: real_nonneg (fleb0 NP).
have [_ _ /andP [_ NQ] /andP [_ NR]] := Hall k Hk.
have Hq := real_nonneg _ (fleb0 NQ); have Hr := real_nonneg _ (fleb0 NR); have Hv := IH (ltnW Hk).
have Hm : (0 <= exact_prior (rA self k) (exact_var self k) (rQ self k))%R by rewrite /exact_prior -/(rQ self k); have := Rle_0_sqr (rA self k); rewrite /Rsqr -/(rQ self k) in Hq *; nra.
by have [] := exact_post_range _ _ Hm Hr.
Qed.

Lemma M_pos k : k < T -> (0 <= M)%R.
Proof.
move=> Hk; have [[_ Np] _ _ _ _] := rows64 Hrun E Hk.
exact: Rle_trans (real_nonneg _ Np) (HM Hk).
Qed.

Lemma alpha_pos k : k < T -> (0 <= alpha)%R.
Proof. by move=> Hk; exact: Rle_trans (Rabs_pos _) (Ha Hk). Qed.

Lemma sqr_alpha k : k < T -> (rA self k * rA self k <= alpha * alpha)%R.
Proof.
move=> Hk; have -> : (rA self k * rA self k = Rabs (rA self k) * Rabs (rA self k))%R.
  by rewrite -Rabs_mult Rabs_pos_eq //; exact: Rle_0_sqr.
by apply: Rmult_le_compat (Ha Hk) (Ha Hk); exact: Rabs_pos.
Qed.

Lemma err_step k : k < T ->
  (Rabs (real (pm k) - exact_prior (rA self k) (exact_var self k) (rQ self k)) <=
     alpha * alpha * Rabs (real (P_before64 self er k) - exact_var self k) + cvar)%R /\
  (Rabs (real (num1 (row er k)) - exact_var self k.+1) <=
     alpha * alpha * Rabs (real (P_before64 self er k) - exact_var self k) + cvar)%R.
Proof.
move=> Hk; have [_ _ _ _ /(_ k Hk) [DA _ /andP [DQ NQ] /andP [DR NR]]] := Hrun.
have [Db Nb] := before_good (ltnW Hk).
have [_ Hz _ -> _] := rows64 Hrun E Hk.
have [E1 E2] := step_err _ _ _ _ (exact_var self k) M DA Db DQ DR Nb (fleb0 NQ) NR (exact_var_pos (ltnW Hk)) Hz (Hfin Hk) (HM Hk).
have S := sqr_alpha Hk; have A := Ha Hk; have M0 := M_pos Hk; have A0 := alpha_pos Hk.
have U0 := u64_pos; have Ep := eta64_pos; have P0 := Rabs_pos (real (P_before64 self er k) - exact_var self k).
have SP : (rA self k * rA self k * Rabs (real (P_before64 self er k) - exact_var self k) <=
  alpha * alpha * Rabs (real (P_before64 self er k) - exact_var self k))%R by exact: Rmult_le_compat_r.
have AE : (Rabs (rA self k) * eta64 <= alpha * eta64)%R by apply: Rmult_le_compat_r => //; lra.
have UM : (0 <= u64 * M)%R by apply: Rmult_le_pos => //; lra.
have L : (rA self k * rA self k * Rabs (real (P_before64 self er k) - exact_var self k) + 9 * u64 * M + (4 + Rabs (rA self k)) * eta64
   <= alpha * alpha * Rabs (real (P_before64 self er k) - exact_var self k) + cvar)%R by lra.
split; last exact: Rle_trans E2 L.
apply: Rle_trans E1 _; apply: Rle_trans L; rewrite -/(rA self k); lra.
Qed.

Lemma err_run k : k < T ->
  (Rabs (real (num1 (row er k)) - exact_var self k.+1) <= cvar * geo (alpha * alpha) k)%R /\
  (Rabs (real (pm k) - exact_prior (rA self k) (exact_var self k) (rQ self k)) <= cvar * geo (alpha * alpha) k)%R.
Proof.
elim: k => [|k IH] Hk.
  have [E1 E2] := err_step Hk; move: E1 E2.
  rewrite /P_before64 [exact_var self 0]/= Rminus_eq_0 Rabs_R0 /geo /=; lra.
have [E1 E2] := err_step Hk; have [IH1 _] := IH (ltnW Hk).
have A0 := Rle_0_sqr alpha; rewrite /Rsqr in A0.
have L : (alpha * alpha * Rabs (real (P_before64 self er k.+1) - exact_var self k.+1) <=
  alpha * alpha * (cvar * geo (alpha * alpha) k))%R by exact: Rmult_le_compat_l.
rewrite geo_S; split.
  apply: Rle_trans E2 _; lra.
apply: Rle_trans E1 _; lra.
Qed.

Lemma gain_run k rho : k < T -> (0 < rho <= rR self k)%R ->
  (Rabs (real (num1 (nth (np_zeros B [::]) g' (size g + k))) - exact_K self k) <=
   2 * u64 + eta64 + cvar * geo (alpha * alpha) k / rho)%R.
Proof.
move=> Hk Hr; have [[Dp Np] Hz -> _ _] := rows64 Hrun E Hk.
have [_ _ _ _ /(_ k Hk) [DA _ /andP [DQ NQ] /andP [DR NR]]] := Hrun.
have [Fm [_ _]] := add_real _ _ Dp DR (Hfin Hk).
have H0 : (0 <= exact_prior (rA self k) (exact_var self k) (rQ self k))%R.
  have := exact_var_pos (ltnW Hk); have := real_nonneg _ (fleb0 NQ); have := Rle_0_sqr (rA self k).
  rewrite /exact_prior /Rsqr /rQ; nra.
apply: Rle_trans (gain_err _ _ _ rho Dp DR Fm Np NR Hz (Hfin Hk) H0 Hr) _.
have [_ L] := err_run Hk; apply: Rplus_le_compat_l; apply: Rmult_le_compat_r => //.
by left; apply: Rinv_0_lt_compat; case: Hr.
Qed.

(** States. *)
Variables (X rho : R).
Hypothesis Halpha : (alpha <= 1)%R.
Hypothesis Hnc : forall k, k < T -> uncontrolled self Z U k /\ double (num1 (row Z k)).
Hypothesis Hdx : dt (kf_A self) = DFloat \/ dt (kf_xk self) = DFloat.
Hypothesis Dx0 : double (num1 (kf_xk self)).
Hypothesis Hrho : forall k, k < T -> (0 < rho <= rR self k)%R.
Hypothesis HX0 : (Rabs (real (num1 (kf_xk self))) <= X)%R.
Hypothesis HX : forall k, k < T ->
  [/\ (Rabs (rZ Z k) <= X)%R, (Rabs (real (num1 (row st k))) <= X)%R & finite (num1 (row st k))].

Notation dK k := (2 * u64 + eta64 + cvar * geo (alpha * alpha) k / rho)%R.

Lemma state_step k : k < T ->
  (Rabs (real (num1 (row st k)) - exact_state self Z k.+1) <=
   alpha * Rabs (real (x_before64 self st k) - exact_state self Z k) + 7 * u64 * X + 2 * eta64 + 2 * X * dK k)%R.
Proof.
move=> Hk; have [Es Ds Db] := states64 Hrun Hnc Hdx Dx0 E Hk.
have [HZ HS FS] := HX Hk; have [_ DZ] := Hnc Hk.
have [[Dp Np] Hz EK Er Der] := rows64 Hrun E Hk.
have [_ _ _ _ /(_ k Hk) [DA _ /andP [DQ NQ] /andP [DR NR]]] := Hrun.
have [Fm [_ _]] := add_real _ _ Dp DR (Hfin Hk).
have [FK [K0 K1]] := gain_range _ _ Dp DR Fm Np NR Hz.
have DK := double_div _ _ Dp (double_add _ _ Dp DR).
have K0' : (0 <= real (fdiv (pm k) (fadd (pm k) (rv k))))%R := real_le fzero _ erefl DK erefl FK K0.
have K1' := real_le _ fone DK double_one FK erefl K1; rewrite real_one in K1'.
have GK : (0 <= exact_K self k <= 1)%R.
  apply: exact_gain_range (real_nonneg _ (fleb0 NR)).
  have := exact_var_pos (ltnW Hk); have := real_nonneg _ (fleb0 NQ); have := Rle_0_sqr (rA self k).
  rewrite /exact_prior /Rsqr /rQ; nra.
have HXb : (Rabs (real (x_before64 self st k)) <= X)%R.
  by case: k Hk {Es Ds Db HZ HS FS DZ Dp Np Hz EK Er Der DA DQ NQ DR NR Fm FK K0 K1 DK K0' K1' GK} => [|k] Hk //; have [] := HX (ltnW Hk).
have GR := gain_run Hk (Hrho Hk).
rewrite Es in FS HS *; rewrite EK in FS HS GR *.
have X0 : (0 <= X)%R by apply: Rle_trans HX0; exact: Rabs_pos.
apply: Rle_trans (state_step_err _ _ _ _ X alpha (exact_state self Z k) (exact_K self k) DA Db DK DZ FS (conj K0' K1') GK (conj (Ha Hk) Halpha) HXb HZ HS) _.
apply: Rplus_le_compat_l; apply: Rmult_le_compat_l GR; lra.
Qed.

End Accumulate.
