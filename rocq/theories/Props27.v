(** * Props27: how far double precision drifts from exact arithmetic (C93, C94)

    The filter of a scalar state observed directly ([direct_scalar], Run64.v) is
    compared with the textbook recursion in exact real arithmetic on the same
    numbers ([exact_var], [exact_K], [exact_state], Err64.v).  [real x] is the real
    number a double stands for; [u64] = 2^-53, [eta64] = 2^-1075. *)
From Coq Require Import ZArith Reals Floats.SpecFloat Lra Psatz.
From mathcomp Require Import ssreflect ssrfun ssrbool eqtype ssrnat seq.
From Verif Require Import Np NpLemmas Kf Ekf ApiSpec Loop Frame FilterLemmas FilterThms NpShapes
  WellShaped Binary64 Ieee Scalar64 Run64 Round64 Err64 Cases Props9.

Set Implicit Arguments.
Unset Strict Implicit.
Unset Printing Implicit Defensive.
Local Notation B := binary64.

(** The call returned, no innovation variance overflowed, [M] is at least every
    predicted variance and [alpha] at least every |A|. *)
Definition run_within (p : nat) (self : kf B) (Z : arr B) (U : option (arr B)) (g g' : seq (arr B))
    (st er : arr B) (M alpha : R) : Prop :=
  [/\ direct_scalar p self Z U, kf_filter self Z U g = (g', Ok (st, er)) &
   forall k, k < steps self Z U ->
     [/\ finite (fadd (P_prior64 self er k) (num1 (row (kf_R self) k))),
         (real (P_prior64 self er k) <= M)%R & (Rabs (rA self k) <= alpha)%R]].

(** What one step can add to the error of the variance. *)
Definition var_step_err (M alpha : R) : R := (9 * u64 * M + (4 + alpha) * eta64)%R.

Section Var.
Variables (p : nat) (self : kf B) (Z : arr B) (U : option (arr B)) (g g' : seq (arr B)).
Variables (st er : arr B) (M alpha : R).
Hypothesis Hw : run_within p self Z U g g' st er M alpha.
Let Hrun : direct_scalar p self Z U. Proof. by case: Hw. Qed.
Let E : kf_filter self Z U g = (g', Ok (st, er)). Proof. by case: Hw. Qed.
Let Hfin k : k < steps self Z U -> finite (fadd (P_prior64 self er k) (num1 (row (kf_R self) k))).
Proof. by case: Hw => _ _ H /H []. Qed.
Let HM k : k < steps self Z U -> (real (P_prior64 self er k) <= M)%R.
Proof. by case: Hw => _ _ H /H []. Qed.
Let Ha k : k < steps self Z U -> (Rabs (rA self k) <= alpha)%R.
Proof. by case: Hw => _ _ H /H []. Qed.

Let c_pos k : k < steps self Z U -> (0 <= var_step_err M alpha)%R.
Proof.
move=> Hk; have M0 := M_pos Hrun E HM Hk; have A0 := alpha_pos Ha Hk.
have U0 := u64_pos; have P := eta64_pos; rewrite /var_step_err; nra.
Qed.
Let A0 : (0 <= alpha * alpha)%R. Proof. exact: Rle_0_sqr. Qed.

(** ** C93 the variances in double precision *)

(** Row k is within (1 + a^2 + ... + a^2k) steps' worth of error of the exact
    variance. *)
Theorem C93_variance_error k : k < steps self Z U ->
  (Rabs (real (num1 (row er k)) - exact_var self k.+1) <=
   var_step_err M alpha * sum_f_R0 (fun i => (alpha * alpha) ^ i) k)%R.
Proof. by move=> Hk; have [] := err_run Hrun E Hfin HM Ha Hk. Qed.

(** |A| <= 1 (a constant, a random walk): the error grows at most linearly. *)
Theorem C93_at_most_linear k : (alpha <= 1)%R -> k < steps self Z U ->
  (Rabs (real (num1 (row er k)) - exact_var self k.+1) <= INR k.+1 * (9 * u64 * M + 5 * eta64))%R.
Proof.
move=> H1 Hk; apply: Rle_trans (C93_variance_error Hk) _.
have C0 := c_pos Hk; have Al := alpha_pos Ha Hk; have Ep := eta64_pos.
have G : (geo (alpha * alpha) k <= INR k.+1)%R by apply: geo_le1; nra.
rewrite Rmult_comm; apply: Rmult_le_compat => //; first exact: geo_pos.
rewrite /var_step_err; nra.
Qed.

(** |A| <= alpha < 1: the error never exceeds a fixed bound, however long the
    run. *)
Theorem C93_stable_bounded k : (alpha < 1)%R -> k < steps self Z U ->
  (Rabs (real (num1 (row er k)) - exact_var self k.+1) <=
   (9 * u64 * M + 5 * eta64) / (1 - alpha * alpha))%R.
Proof.
move=> H1 Hk; apply: Rle_trans (C93_variance_error Hk) _.
have C0 := c_pos Hk; have Al := alpha_pos Ha Hk; have Ep := eta64_pos.
have G : (geo (alpha * alpha) k <= / (1 - alpha * alpha))%R by apply: geo_lt1; nra.
apply: Rmult_le_compat => //; first exact: geo_pos.
rewrite /var_step_err; nra.
Qed.

(** The gain appended by step k, when the observation variance is at least
    rho. *)
Theorem C93_gain_error k rho : k < steps self Z U -> (0 < rho <= rR self k)%R ->
  (Rabs (real (num1 (nth (np_zeros B [::]) g' (size g + k))) - exact_K self k) <=
   2 * u64 + eta64 + var_step_err M alpha * sum_f_R0 (fun i => (alpha * alpha) ^ i) k / rho)%R.
Proof. move=> Hk Hr; have := gain_run Hrun E Hfin HM Ha Hk Hr. by []. Qed.

(** ** C94 the states in double precision *)

(** Without control, with |A| <= 1: [X] is at least every state returned, the
    initial state and every observation, and [rho] > 0 at most every
    observation variance. *)
Definition states_within (X rho : R) : Prop :=
  [/\ dt (kf_A self) = DFloat \/ dt (kf_xk self) = DFloat,
      double (num1 (kf_xk self)), (Rabs (real (num1 (kf_xk self))) <= X)%R, (0 < rho)%R &
   forall k, k < steps self Z U ->
     [/\ uncontrolled self Z U k, double (num1 (row Z k)), (rho <= rR self k)%R &
      [/\ (Rabs (rZ Z k) <= X)%R, (Rabs (real (num1 (row st k))) <= X)%R & finite (num1 (row st k))]]].

Variables (X rho : R).
Hypothesis Hs : states_within X rho.

Let Hnc k : k < steps self Z U -> uncontrolled self Z U k /\ double (num1 (row Z k)).
Proof. by case: Hs => _ _ _ _ H /H []. Qed.
Let Hrho k : k < steps self Z U -> (0 < rho <= rR self k)%R.
Proof. by case: Hs => _ _ _ r0 H /H []. Qed.
Let HX k : k < steps self Z U ->
  [/\ (Rabs (rZ Z k) <= X)%R, (Rabs (real (num1 (row st k))) <= X)%R & finite (num1 (row st k))].
Proof. by case: Hs => _ _ _ _ H /H []. Qed.
Let Hdx : dt (kf_A self) = DFloat \/ dt (kf_xk self) = DFloat. Proof. by case: Hs. Qed.
Let Dx0 : double (num1 (kf_xk self)). Proof. by case: Hs. Qed.
Let HX0 : (Rabs (real (num1 (kf_xk self))) <= X)%R. Proof. by case: Hs. Qed.
Let X0 : (0 <= X)%R. Proof. by apply: Rle_trans HX0; exact: Rabs_pos. Qed.

(** One step, from an error before it. *)
Lemma state_one k G : (alpha <= 1)%R -> k < steps self Z U -> (geo (alpha * alpha) k <= G)%R ->
  (Rabs (real (num1 (row st k)) - exact_state self Z k.+1) <=
   alpha * Rabs (real (x_before64 self st k) - exact_state self Z k)
   + (12 * u64 * X + 2 * eta64 + 2 * X * ((9 * u64 * M + 5 * eta64) * G / rho)))%R.
Proof.
move=> H1 Hk HG.
apply: Rle_trans (state_step Hrun E Hfin HM Ha H1 Hnc Hdx Dx0 Hrho HX0 HX Hk) _.
have [r0 _] := Hrho Hk; have ri := Rinv_0_lt_compat _ r0.
have C0 := c_pos Hk; have Al := alpha_pos Ha Hk; have Ep := eta64_pos; have U0 := u64_pos; have Es := eta64_small.
have Eh : (eta64 <= / 2 * u64)%R by lra.
have XE : (X * eta64 <= X * (/ 2 * u64))%R by exact: Rmult_le_compat_l.
have L : ((9 * u64 * M + (4 + alpha) * eta64) * geo (alpha * alpha) k / rho <=
          (9 * u64 * M + 5 * eta64) * G / rho)%R.
  apply: Rmult_le_compat_r; first lra.
  apply: Rmult_le_compat => //; first exact: geo_pos.
  by apply: Rplus_le_compat_l; apply: Rmult_le_compat_r; lra.
have XL := Rmult_le_compat_l _ _ _ X0 L.
lra.
Qed.

(** n = k+1 steps: at most n (12 u X + 2 eta) + n (n+1) X (9 u M + 5 eta) / rho. *)
Theorem C94_state_error k : (alpha <= 1)%R -> k < steps self Z U ->
  (Rabs (real (num1 (row st k)) - exact_state self Z k.+1) <=
   INR k.+1 * (12 * u64 * X + 2 * eta64)
   + INR k.+1 * INR k.+2 * X * ((9 * u64 * M + 5 * eta64) / rho))%R.
Proof.
move=> H1; elim: k => [|k IH] Hk.
  have Al := alpha_pos Ha Hk.
  have G : (geo (alpha * alpha) 0 <= 1)%R by rewrite /geo /=; lra.
  apply: Rle_trans (state_one H1 Hk G) _.
  rewrite /x_before64 [exact_state _ _ 0]/= Rminus_eq_0 Rabs_R0 /=; lra.
have Al := alpha_pos Ha Hk.
have G : (geo (alpha * alpha) k.+1 <= INR k.+2)%R by apply: geo_le1; nra.
apply: Rle_trans (state_one H1 Hk G) _.
have IHk := IH (ltnW Hk); rewrite [x_before64 _ _ _]/=.
set e := Rabs _ in IHk *; have e0 : (0 <= e)%R by exact: Rabs_pos.
have L : (alpha * e <= e)%R by nra.
apply: Rle_trans (Rplus_le_compat_r _ _ _ (Rle_trans _ _ _ L IHk)) _.
have -> : INR k.+3 = (INR k.+1 + 2)%R by rewrite !S_INR; ring.
have -> : INR k.+2 = (INR k.+1 + 1)%R by rewrite !S_INR; ring.
apply: Req_le; rewrite /Rdiv; ring.
Qed.

(** |A| <= alpha < 1: bounded for ever. *)
Theorem C94_stable_bounded k : (alpha < 1)%R -> k < steps self Z U ->
  (Rabs (real (num1 (row st k)) - exact_state self Z k.+1) <=
   (12 * u64 * X + 2 * eta64 + 2 * X * ((9 * u64 * M + 5 * eta64) / (1 - alpha * alpha) / rho)) / (1 - alpha))%R.
Proof.
move=> H1; set D := (12 * u64 * X + _ + _)%R.
have Hone j : j < steps self Z U -> (Rabs (real (num1 (row st j)) - exact_state self Z j.+1) <=
    alpha * Rabs (real (x_before64 self st j) - exact_state self Z j) + D)%R.
  move=> Hj; have Al := alpha_pos Ha Hj.
  have G : (geo (alpha * alpha) j <= / (1 - alpha * alpha))%R by apply: geo_lt1; nra.
  by apply: state_one Hj G; lra.
have stepD e : (0 < 1 - alpha)%R -> (0 <= alpha)%R -> (e <= D / (1 - alpha))%R -> (alpha * e + D <= D / (1 - alpha))%R.
  move=> Hp Hal He.
  have -> : (D / (1 - alpha) = alpha * (D / (1 - alpha)) + D)%R by field; lra.
  by apply: Rplus_le_compat_r; exact: Rmult_le_compat_l.
elim: k => [|k IH] Hk; have Al := alpha_pos Ha Hk; apply: Rle_trans (Hone _ Hk) _; apply: stepD => //; try lra.
  rewrite /x_before64 [exact_state _ _ 0]/= Rminus_eq_0 Rabs_R0.
  apply: Rmult_le_pos; last by left; apply: Rinv_0_lt_compat; lra.
  have M0 := M_pos Hrun E HM Hk; have [r0 _] := Hrho Hk; have U0 := u64_pos; have Ep := eta64_pos.
  have I1 : (0 < / (1 - alpha * alpha))%R by apply: Rinv_0_lt_compat; nra.
  have I2 := Rinv_0_lt_compat _ r0.
  have UM : (0 <= u64 * M)%R by apply: Rmult_le_pos => //; lra.
  have UX : (0 <= u64 * X)%R by apply: Rmult_le_pos => //; lra.
  have : (0 <= X * ((9 * u64 * M + 5 * eta64) / (1 - alpha * alpha) / rho))%R.
    apply: Rmult_le_pos => //; apply: Rmult_le_pos; last lra; apply: Rmult_le_pos; lra.
  rewrite /D; lra.
exact: IH (ltnW Hk).
Qed.

End Var.

(** The run of C43_case: four steps, A = 1, Q = 0, R = 1/10, P0 = 1. *)
Definition within1 (x : f64) : bool := [&& double x, finite x, double (fabs x) & fleb (fabs x) fone].
Lemma within1P x : within1 x -> (Rabs (real x) <= 1)%R.
Proof.
case/and4P => D F Da L; rewrite -real_abs -real_one.
by apply: real_le => //; case: x F {D Da L}.
Qed.

Example C93_C94_case : exists g' st er,
  run_within 1 lvl lvl_Z None [::] g' st er 1 1 /\
  states_within lvl lvl_Z None st 1 (real (dec 1 1)) /\ steps lvl lvl_Z None = 4.
Proof.
have lt4 (Q : nat -> Prop) : Q 0 -> Q 1 -> Q 2 -> Q 3 -> forall k, k < steps lvl lvl_Z None -> Q k.
  by move=> ? ? ? ? [|[|[|[|k]]]].
have [Hd _] := C43_case.
have one x : within1 x -> (real x <= 1)%R.
  by move=> /within1P; have := Rle_abs (real x); lra.
have pos : (0 < real (dec 1 1))%R.
  have N : (0 <= real (dec 1 1))%R by apply: real_nonneg; vm_compute.
  case: (Rle_lt_or_eq_dec _ _ N) => // E0; exfalso.
  by have := zero_real (dec 1 1) erefl erefl (esym E0); vm_compute.
pose r := kf_filter lvl lvl_Z None [::].
exists r.1, (outs r).1, (outs r).2; split; [|split; [|reflexivity]].
  split; [exact: Hd|apply: outs_ok; by vm_compute|].
  apply: lt4; (split; [by vm_compute|apply: one; by vm_compute|apply: within1P; by vm_compute]).
split; [left; by vm_compute|by vm_compute|apply: within1P; by vm_compute|exact: pos|].
apply: lt4; (split; [by vm_compute|by vm_compute|apply: Req_le; reflexivity|
  split; [apply: within1P; by vm_compute|apply: within1P; by vm_compute|by vm_compute]]).
Qed.

(** The same with A = 1/2 and Q = 1/10. *)
Definition half_init := kf_init (fconst [:: 4; 1; 1] (dec 5 1)) (iarr [:: 1; 1] [:: 0%Z]) None
  (iarr [:: 1; 1] [:: 1%Z]) (fconst [:: 4; 1; 1] (fofZ 1)) (fconst [:: 4] (dec 1 1))
  (fconst [:: 4] (dec 1 1)) None.
Definition half := built half_init.
Lemma half_constructed : constructed half.
Proof.
exists (fconst [:: 4; 1; 1] (dec 5 1)), (iarr [:: 1; 1] [:: 0%Z]), None, (iarr [:: 1; 1] [:: 1%Z]),
  (fconst [:: 4; 1; 1] (fofZ 1)), (fconst [:: 4] (dec 1 1)), (fconst [:: 4] (dec 1 1)), None, half, [::].
by split.
Qed.
Lemma half_ws : well_shaped 1 1 1 half lvl_Z None.
Proof.
split=> // k Hk; have {Hk}: k < 4 by exact: Hk.
by case: k => [|[|[|[|k]]]] // _; split=> //; split.
Qed.
Definition within (b x : f64) : bool := [&& double x, finite x, double (fabs x) & fleb (fabs x) b].
Lemma withinP b x : double b -> finite b -> within b x -> (Rabs (real x) <= real b)%R.
Proof.
move=> Db Fb /and4P [D F Da L]; rewrite -real_abs.
by apply: real_le => //; case: x F {D Da L}.
Qed.

Example C93_C94_stable_case : exists g' st er (alpha : R),
  [/\ run_within 1 half lvl_Z None [::] g' st er 1 alpha, (alpha < 1)%R,
      states_within half lvl_Z None st 1 (real (dec 1 1)) & steps half lvl_Z None = 4].
Proof.
have lt4 (Q : nat -> Prop) : Q 0 -> Q 1 -> Q 2 -> Q 3 -> forall k, k < steps half lvl_Z None -> Q k.
  by move=> ? ? ? ? [|[|[|[|k]]]].
have one x : within1 x -> (real x <= 1)%R.
  by move=> /within1P; have := Rle_abs (real x); lra.
have pos : (0 < real (dec 1 1))%R.
  have N : (0 <= real (dec 1 1))%R by apply: real_nonneg; vm_compute.
  case: (Rle_lt_or_eq_dec _ _ N) => // E0; exfalso.
  by have := zero_real (dec 1 1) erefl erefl (esym E0); vm_compute.
have Eh : real (dec 5 1) = (/ 2)%R.
  have -> : dec 5 1 = S754_finite false 4503599627370496 (-53) by vm_compute.
  by rewrite /real /Flocq.IEEE754.BinarySingleNaN.SF2R /Defs.F2R /=; lra.
pose r := kf_filter half lvl_Z None [::].
exists r.1, (outs r).1, (outs r).2, (/ 2)%R; split; [|lra| |reflexivity].
  split; [|apply: outs_ok; by vm_compute|].
    split; [exact: half_constructed|exact: half_ws|left; by vm_compute|by vm_compute|].
    apply: lt4; (split; by vm_compute).
  apply: lt4; (split; [by vm_compute|apply: one; by vm_compute|
    rewrite -Eh; apply: withinP; by vm_compute]).
split; [left; by vm_compute|by vm_compute|apply: within1P; by vm_compute|exact: pos|].
apply: lt4; (split; [by vm_compute|by vm_compute|apply: Req_le; reflexivity|
  split; [apply: within1P; by vm_compute|apply: within1P; by vm_compute|by vm_compute]]).
Qed.
