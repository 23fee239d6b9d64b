(** * Round64: how far doubles are from the real numbers they round

    Every operation whose result is finite is the exact operation on the real
    values, rounded; the error is at most [u] = 2^-53 relatively, plus [eta] =
    2^-1075 for products and quotients that underflow. *)
From Coq Require Import ZArith Reals Floats.SpecFloat Lra Lia Psatz Bool.
From Flocq Require Import Core.Core IEEE754.BinarySingleNaN.
From Flocq Require Relative Plus_error.
Import Relative Plus_error.
From Verif Require Import Binary64 Ieee.
#[local] Open Scope R_scope.

#[local] Existing Instance Ieee.Hprec.
#[local] Existing Instance Ieee.Hmax.

(** The real number a double stands for (0 for NaN and the infinities). *)
Definition real (x : f64) : R := SF2R radix2 x.

(** Half the distance from 1 to the next double: 2^-53; half the smallest
    positive double: 2^-1075. *)
Definition u64 : R := bpow radix2 (-53).
Definition eta64 : R := bpow radix2 (-1075).

Lemma real_B (X : b64) : real (B2SF X) = B2R X.
Proof. unfold real; now rewrite SF2R_B2SF. Qed.

Lemma real_one : real fone = 1.
Proof. rewrite foneE, real_B; apply B1E. Qed.

Lemma u64_E : / 2 * bpow radix2 (-53 + 1) = u64.
Proof. unfold u64; rewrite bpow_plus; change (bpow radix2 1) with 2; field. Qed.
Lemma eta64_E : / 2 * bpow radix2 (-1074) = eta64.
Proof. unfold eta64; change (-1074)%Z with (-1075 + 1)%Z; rewrite bpow_plus; change (bpow radix2 1) with 2; field. Qed.
Lemma u64_pos : 0 < u64. Proof. apply bpow_gt_0. Qed.
Lemma eta64_pos : 0 < eta64. Proof. apply bpow_gt_0. Qed.
Lemma u64_small : u64 <= / 1048576.
Proof. unfold u64. change (/ 1048576) with (bpow radix2 (-20)). apply bpow_le; lia. Qed.
Lemma eta64_small : eta64 <= u64 * / 1048576.
Proof.
unfold u64, eta64; change (/ 1048576) with (bpow radix2 (-20)); rewrite <- bpow_plus.
apply bpow_le; lia.
Qed.

Lemma fexp_FLT : SpecFloat.fexp 53 1024 = FLT_exp (-1074) 53.
Proof. reflexivity. Qed.

(** Rounding: against the exact value and against the result. *)
Lemma rnd_err x : Rabs (rnd x - x) <= u64 * Rabs x + eta64.
Proof.
rewrite fexp_FLT.
destruct (error_N_FLT radix2 (-1074) 53 (eq_refl _) (fun x => negb (Z.even x)) x) as (e & h & He & Hh & Hp & E).
rewrite E; replace (x * (1 + e) + h - x) with (x * e + h) by ring.
change (/ 2 * bpow radix2 (- (53) + 1)) with (/ 2 * bpow radix2 (-53 + 1)) in He.
rewrite u64_E in He; rewrite eta64_E in Hh.
apply Rle_trans with (1 := Rabs_triang _ _); rewrite Rabs_mult.
assert (0 <= Rabs x) by apply Rabs_pos; nra.
Qed.

Lemma rnd_err' x : Rabs (rnd x - x) <= u64 * Rabs (rnd x) + eta64.
Proof.
rewrite fexp_FLT.
destruct (Rlt_or_le (Rabs x) (bpow radix2 (-1074 + 53 - 1))) as [H|H].
- assert (Rabs (round radix2 (FLT_exp (-1074) 53) ZnearestE x - x) <= / 2 * ulp radix2 (FLT_exp (-1074) 53) x)
    by (apply error_le_half_ulp; auto with typeclass_instances).
  rewrite ulp_FLT_small in H0; auto with typeclass_instances.
  + rewrite eta64_E in H0; assert (0 <= Rabs (round radix2 (FLT_exp (-1074) 53) ZnearestE x)) by apply Rabs_pos.
    assert (P := u64_pos); nra.
  + apply Rlt_le_trans with (1 := H), bpow_le; lia.
- generalize (relative_error_N_FLT_round radix2 (-1074) 53 (eq_refl _) (fun x => negb (Z.even x)) x H).
  change (/ 2 * bpow radix2 (- (53) + 1)) with (/ 2 * bpow radix2 (-53 + 1)).
  rewrite u64_E; assert (P := eta64_pos); intros; lra.
Qed.

(** Sums do not underflow. *)
Lemma rnd_plus (X Y : b64) :
  Rabs (rnd (B2R X + B2R Y) - (B2R X + B2R Y)) <= u64 * Rabs (B2R X + B2R Y) /\
  Rabs (rnd (B2R X + B2R Y) - (B2R X + B2R Y)) <= u64 * Rabs (rnd (B2R X + B2R Y)).
Proof.
assert (FX := format_B X); assert (FY := format_B Y).
rewrite fexp_FLT in *.
assert (L : u_ro radix2 53 = u64) by apply u64_E.
assert (L2 := u_rod1pu_ro_le_u_ro radix2 53 ); rewrite L in L2.
destruct (FLT_plus_error_N_ex radix2 (-1074) 53 (fun x => negb (Z.even x)) _ _ FX FY) as (e & He & E).
rewrite L in He.
destruct (FLT_plus_error_N_round_ex radix2 (-1074) 53 (fun x => negb (Z.even x)) _ _ FX FY) as (e' & He' & E').
rewrite L in He'.
split.
- rewrite E; replace ((B2R X + B2R Y) * (1 + e) - (B2R X + B2R Y)) with (e * (B2R X + B2R Y)) by ring.
  rewrite Rabs_mult; apply Rmult_le_compat_r; [apply Rabs_pos|]; lra.
- set (r := round _ _ _ _) in *; rewrite E'; replace (r - r * (1 + e')) with (- (e' * r)) by ring.
  rewrite Rabs_Ropp, Rabs_mult; apply Rmult_le_compat_r; [apply Rabs_pos|]; lra.
Qed.

(** ** The operations *)

Lemma mul_real x y : double x = true -> double y = true -> finite (fmul x y) = true ->
  finite x = true /\ finite y = true /\ real (fmul x y) = rnd (real x * real y).
Proof.
intros [X ->]%doubleP [Y ->]%doubleP; rewrite fmulE, !finite_B, !real_B; intros F.
generalize (Bmult_correct 53 1024 _ _ mode_NE X Y); cbn [round_mode].
case Rlt_bool.
- intros (E & EF & _); rewrite F in EF; symmetry in EF; apply andb_prop in EF; intuition.
- now destruct (Bmult mode_NE X Y).
Qed.

Lemma add_real x y : double x = true -> double y = true -> finite (fadd x y) = true ->
  finite x = true /\ finite y = true /\ real (fadd x y) = rnd (real x + real y).
Proof.
intros [X ->]%doubleP [Y ->]%doubleP; rewrite faddE, !finite_B, !real_B; intros F.
assert (HX : is_finite X = true) by
  (destruct X as [s|s| |s m e H]; trivial; destruct Y as [t|t| |t m e H]; trivial; destruct s, t; easy).
assert (HY : is_finite Y = true) by
  (destruct X as [s|s| |s m e H]; trivial; destruct Y as [t|t| |t m' e' H']; trivial; destruct s, t; easy).
repeat split; trivial.
generalize (Bplus_correct 53 1024 _ _ mode_NE X Y HX HY); cbn [round_mode].
case Rlt_bool; [now intros (E & _)|].
now destruct (Bplus mode_NE X Y).
Qed.

Lemma sub_real x y : double x = true -> double y = true -> finite (fsub x y) = true ->
  finite x = true /\ finite y = true /\ real (fsub x y) = rnd (real x - real y).
Proof.
intros [X ->]%doubleP [Y ->]%doubleP; rewrite fsubE, !finite_B, !real_B; intros F.
assert (HX : is_finite X = true) by
  (destruct X as [s|s| |s m e H]; trivial; destruct Y as [t|t| |t m e H]; trivial; destruct s, t; easy).
assert (HY : is_finite Y = true) by
  (destruct X as [s|s| |s m e H]; trivial; destruct Y as [t|t| |t m' e' H']; trivial; destruct s, t; easy).
repeat split; trivial.
generalize (Bminus_correct 53 1024 _ _ mode_NE X Y HX HY); cbn [round_mode].
case Rlt_bool; [now intros (E & _)|].
now destruct (Bminus mode_NE X Y).
Qed.

Lemma div_real x y : double x = true -> double y = true -> real y <> 0 -> finite (fdiv x y) = true ->
  real (fdiv x y) = rnd (real x / real y).
Proof.
intros [X ->]%doubleP [Y ->]%doubleP; rewrite fdivE, !finite_B, !real_B; intros HY F.
generalize (Bdiv_correct 53 1024 _ _ mode_NE X Y HY); cbn [round_mode].
case Rlt_bool; [now intros (E & _)|].
now destruct (Bdiv mode_NE X Y).
Qed.

Lemma fmul_err x y : double x = true -> double y = true -> finite (fmul x y) = true ->
  Rabs (real (fmul x y) - real x * real y) <= u64 * Rabs (real (fmul x y)) + eta64.
Proof. intros Dx Dy F; destruct (mul_real x y Dx Dy F) as (_ & _ & ->); apply rnd_err'. Qed.

Lemma fdiv_err x y : double x = true -> double y = true -> real y <> 0 -> finite (fdiv x y) = true ->
  Rabs (real (fdiv x y) - real x / real y) <= u64 * Rabs (real (fdiv x y)) + eta64.
Proof. intros Dx Dy N F; rewrite (div_real x y Dx Dy N F); apply rnd_err'. Qed.

Lemma fadd_err x y : double x = true -> double y = true -> finite (fadd x y) = true ->
  Rabs (real (fadd x y) - (real x + real y)) <= u64 * Rabs (real x + real y) /\
  Rabs (real (fadd x y) - (real x + real y)) <= u64 * Rabs (real (fadd x y)).
Proof.
intros Dx Dy F; destruct (add_real x y Dx Dy F) as (_ & _ & ->).
destruct (doubleP x Dx) as [X ->], (doubleP y Dy) as [Y ->]; rewrite !real_B; apply rnd_plus.
Qed.

Lemma real_opp (X : b64) : B2R (Bopp X) = - B2R X.
Proof. apply B2R_Bopp. Qed.

Lemma fsub_err x y : double x = true -> double y = true -> finite (fsub x y) = true ->
  Rabs (real (fsub x y) - (real x - real y)) <= u64 * Rabs (real x - real y) /\
  Rabs (real (fsub x y) - (real x - real y)) <= u64 * Rabs (real (fsub x y)).
Proof.
intros Dx Dy F; destruct (sub_real x y Dx Dy F) as (_ & _ & ->).
destruct (doubleP x Dx) as [X ->], (doubleP y Dy) as [Y ->]; rewrite !real_B.
unfold Rminus at 2 3 5 6 7; rewrite <- (real_opp Y).
replace (B2R X - B2R Y) with (B2R X + B2R (Bopp Y)) by (rewrite real_opp; ring); apply rnd_plus.
Qed.

(** Order. *)
Lemma real_le x y : double x = true -> double y = true -> finite x = true -> finite y = true ->
  fleb x y = true -> real x <= real y.
Proof.
intros [X ->]%doubleP [Y ->]%doubleP; rewrite !finite_B, !real_B; intros FX FY; now apply fle_B.
Qed.

Lemma real_nonneg x : nonneg x = true -> 0 <= real x.
Proof.
destruct x as [s|s| |s m e]; try (now right); destruct s; [easy|]; intros _; unfold real, SF2R.
apply F2R_ge_0; simpl; lia.
Qed.

Lemma real_abs x : real (fabs x) = Rabs (real x).
Proof.
destruct x as [s|s| |s m e]; try (now unfold real; simpl; rewrite Rabs_R0).
unfold real; cbn [fabs SFabs SF2R].
rewrite <- F2R_Zabs; f_equal; f_equal; now destruct s.
Qed.

Lemma zero_real x : double x = true -> finite x = true -> real x = 0 -> is_zero x = true.
Proof.
destruct x as [s|s| |s m e]; trivial; unfold real, SF2R; intros _ _ E.
now apply eq_0_F2R in E; destruct s.
Qed.

(** ** The scalar filter with H = 1, exactly *)

(** Predicted variance, gain, corrected variance. *)
Definition exact_prior (a p q : R) : R := a * p * a + q.
Definition exact_gain (m r : R) : R := m / (m + r).
Definition exact_post (m r : R) : R := (1 - exact_gain m r) * m.

Lemma exact_post_E m r : m + r <> 0 -> exact_post m r = m * r / (m + r).
Proof. intros H; unfold exact_post, exact_gain; now field. Qed.

Lemma exact_gain_range m r : 0 <= m -> 0 <= r -> 0 <= exact_gain m r <= 1.
Proof.
intros Hm Hr; unfold exact_gain; destruct (Req_dec (m + r) 0) as [E|E].
- assert (m = 0) by lra; subst m; unfold Rdiv; lra.
- assert (0 < m + r) by lra; split.
  + apply Rmult_le_pos; [trivial|]; left; now apply Rinv_0_lt_compat.
  + apply Rmult_le_reg_r with (m + r); trivial; unfold Rdiv; rewrite Rmult_assoc, Rinv_l by trivial; lra.
Qed.

Lemma exact_post_range m r : 0 <= m -> 0 <= r -> 0 <= exact_post m r <= m.
Proof. intros Hm Hr; destruct (exact_gain_range m r Hm Hr); unfold exact_post; nra. Qed.

Lemma exact_post_0 m : 0 <= m -> exact_post m 0 = 0.
Proof.
intros Hm; unfold exact_post, exact_gain; destruct (Req_dec m 0) as [->|N]; [ring|field; lra].
Qed.

(** Correcting does not amplify an error in the variance. *)
Lemma exact_post_lip m m' r : 0 <= m -> 0 <= m' -> 0 <= r ->
  Rabs (exact_post m r - exact_post m' r) <= Rabs (m - m').
Proof.
intros Hm Hm' [Hr|<-]; [|rewrite !exact_post_0, Rminus_0_r, Rabs_R0 by trivial; apply Rabs_pos].
rewrite !exact_post_E by lra.
replace (m * r / (m + r) - m' * r / (m' + r)) with ((r / (m + r)) * (r / (m' + r)) * (m - m')) by (field; lra).
rewrite !Rabs_mult.
assert (A : forall x, 0 <= x -> 0 <= Rabs (r / (x + r)) <= 1).
{ intros x Hx; assert (0 < / (x + r)) by (apply Rinv_0_lt_compat; lra).
  assert (E : (x + r) * / (x + r) = 1) by (apply Rinv_r; lra).
  unfold Rdiv; rewrite Rabs_pos_eq by nra; split; nra. }
assert (0 <= Rabs (m - m')) by apply Rabs_pos.
destruct (A m Hm), (A m' Hm').
replace (Rabs (m - m')) with (1 * 1 * Rabs (m - m')) at 2 by ring.
apply Rmult_le_compat_r; trivial; apply Rmult_le_compat; trivial.
Qed.

Lemma exact_gain_lip m m' r : 0 <= m -> 0 <= m' -> 0 < r ->
  Rabs (exact_gain m r - exact_gain m' r) <= Rabs (m - m') / r.
Proof.
intros Hm Hm' Hr; unfold exact_gain.
replace (m / (m + r) - m' / (m' + r)) with ((r / (m + r)) * (r / (m' + r)) * ((m - m') * / r)) by (field; lra).
rewrite !Rabs_mult, (Rabs_pos_eq (/ r)) by (left; now apply Rinv_0_lt_compat).
assert (A : forall x, 0 <= x -> 0 <= Rabs (r / (x + r)) <= 1).
{ intros x Hx; assert (0 < / (x + r)) by (apply Rinv_0_lt_compat; lra).
  assert (E : (x + r) * / (x + r) = 1) by (apply Rinv_r; lra).
  unfold Rdiv; rewrite Rabs_pos_eq by nra; split; nra. }
assert (0 <= Rabs (m - m') * / r) by (apply Rmult_le_pos; [apply Rabs_pos|left; now apply Rinv_0_lt_compat]).
destruct (A m Hm), (A m' Hm').
unfold Rdiv; replace (Rabs (m - m') * / r) with (1 * 1 * (Rabs (m - m') * / r)) at 2 by ring.
apply Rmult_le_compat_r; trivial; apply Rmult_le_compat; trivial.
Qed.

(** ** One step in doubles against one exact step from the same numbers *)

Lemma abs_le2 x e : Rabs x <= e -> - e <= x <= e.
Proof. apply Rabs_le_inv. Qed.

(** Predict.  [p] not negative, [m] the variance computed, [M] at least it. *)
Lemma prior_err a p q M : double a = true -> double p = true -> double q = true ->
  nonneg p = true -> nonneg q = true ->
  let m := fadd (fmul a (fmul p a)) q in
  finite m = true -> real m <= M ->
  Rabs (real m - exact_prior (real a) (real p) (real q)) <= 4 * u64 * M + (3 + Rabs (real a)) * eta64.
Proof.
intros Da Dp Dq Np Nq m F HM.
assert (Dt := double_mul _ _ Dp Da); assert (Dw := double_mul _ _ Da Dt).
assert (Nw := quad_nonneg a p Da Dp Np).
destruct (add_real _ _ Dw Dq F) as (Fw & Fq & Em); destruct (mul_real _ _ Da Dt Fw) as (Fa & Ft & Ew).
assert (Nm : 0 <= real m) by (apply real_nonneg, add_nonneg; trivial).
destruct (fadd_err _ _ Dw Dq F) as (_ & E3).
assert (E2 := fmul_err _ _ Da Dt Fw); assert (E1 := fmul_err _ _ Dp Da Ft).
fold m in E3, Em.
assert (Nw' := real_nonneg _ Nw); assert (Nq' := real_nonneg _ Nq); assert (Np' := real_nonneg _ Np).
set (t := fmul p a) in *; set (w := fmul a t) in *.
assert (wm : real w <= real m).
{ destruct (doubleP w Dw) as [W EW]; rewrite Em, EW, real_B, <- (rnd_id W).
  apply rnd_le; rewrite (rnd_id W), <- (real_B W), <- EW; lra. }
rewrite (Rabs_pos_eq (real m)) in E3 by trivial.
rewrite (Rabs_pos_eq (real w)) in E2 by trivial.
assert (U := u64_pos); assert (Us := u64_small); assert (Ep := eta64_pos); assert (Es := eta64_small).
assert (M0 : 0 <= M) by lra.
(* |a t| is close to w *)
assert (at_ : Rabs (real a * real t) <= real w + u64 * real w + eta64).
{ replace (real a * real t) with (real w - (real w - real a * real t)) by ring.
  apply Rle_trans with (1 := Rabs_triang _ _); rewrite Rabs_Ropp, (Rabs_pos_eq (real w)) by trivial; lra. }
assert (E1a : Rabs (real a * (real t - real p * real a)) <= u64 * (M + u64 * M + eta64) + Rabs (real a) * eta64).
{ rewrite Rabs_mult; assert (A0 := Rabs_pos (real a)).
  apply Rle_trans with (Rabs (real a) * (u64 * Rabs (real t) + eta64)); [now apply Rmult_le_compat_l|].
  rewrite Rabs_mult in at_.
  assert (Rabs (real a) * Rabs (real t) <= M + u64 * M + eta64) by nra; nra. }
unfold exact_prior.
replace (real m - (real a * real p * real a + real q)) with
  ((real m - (real w + real q)) + ((real w - real a * real t) + real a * (real t - real p * real a))) by ring.
apply Rle_trans with (1 := Rabs_triang _ _).
assert (T := Rabs_triang (real w - real a * real t) (real a * (real t - real p * real a))).
assert (u64 * u64 * M <= / 1048576 * u64 * M) by (apply Rmult_le_compat_r; trivial; nra).
nra.
Qed.

(** Update. *)
Lemma post_err m r M : double m = true -> double r = true -> finite m = true ->
  nonneg m = true -> fleb fzero r = true -> is_zero (fadd m r) = false ->
  finite (fadd m r) = true -> real m <= M ->
  Rabs (real (fdiv m (fadd m r)) - exact_gain (real m) (real r)) <= 2 * u64 + eta64 /\
  Rabs (real (fmul (fsub fone (fdiv m (fadd m r))) m) - exact_post (real m) (real r)) <= 5 * u64 * M + eta64.
Proof.
intros Dm Dr Fm Nm Nr Hz Fs HM.
assert (Ds := double_add _ _ Dm Dr).
destruct (gain_range m r Dm Dr Fm Nm Nr Hz) as [FK [K0 K1]].
destruct (post_range m r Dm Dr Fm Nm Nr Hz) as [FP [P0 P1]].
set (s := fadd m r) in *; set (K := fdiv m s) in *; set (c := fsub fone K) in *; set (p := fmul c m) in *.
assert (DK := double_div _ _ Dm Ds); fold K in DK.
assert (Dc := double_sub _ _ double_one DK); fold c in Dc.
assert (Dp := double_mul _ _ Dc Dm); fold p in Dp.
destruct (mul_real _ _ Dc Dm FP) as (Fc & _ & _).
assert (Nr' : 0 <= real r) by (apply real_nonneg; now apply nonneg_fleb in Nr).
assert (Nm' := real_nonneg _ Nm).
assert (Hs : real s <> 0) by (intros E; rewrite (zero_real s Ds Fs E) in Hz; discriminate).
destruct (add_real _ _ Dm Dr Fs) as (_ & Fr & Es); fold s in Es.
assert (ms : real m <= real s).
{ destruct (doubleP m Dm) as [W EW]; rewrite Es, EW, real_B, <- (rnd_id W).
  apply rnd_le; rewrite (rnd_id W); lra. }
assert (S0 : 0 < real s) by lra.
assert (MR : 0 < real m + real r).
{ destruct (Rle_lt_or_eq_dec 0 (real m + real r)) as [|E]; [lra|trivial|].
  rewrite <- E, rnd_0 in Es; contradiction. }
assert (K0' : 0 <= real K) by (change 0 with (real fzero); apply real_le; trivial).
assert (K1' : real K <= 1) by (rewrite <- real_one; apply real_le; trivial).
assert (P0' : 0 <= real p) by (change 0 with (real fzero); apply real_le; trivial).
assert (P1' : real p <= real m) by (apply real_le; trivial).
assert (U := u64_pos); assert (Us := u64_small); assert (Ep := eta64_pos); assert (Esm := eta64_small).
destruct (fadd_err _ _ Dm Dr Fs) as (E1 & _); fold s in E1; rewrite (Rabs_pos_eq (real m + real r)) in E1 by lra.
assert (E2 := fdiv_err _ _ Dm Ds Hs FK); fold K in E2; rewrite (Rabs_pos_eq (real K)) in E2 by trivial.
destruct (fsub_err _ _ double_one DK Fc) as (E3 & _); fold c in E3; rewrite real_one in E3.
rewrite (Rabs_pos_eq (1 - real K)) in E3 by lra.
assert (E4 := fmul_err _ _ Dc Dm FP); fold p in E4; rewrite (Rabs_pos_eq (real p)) in E4 by trivial.
assert (EK : Rabs (real K - exact_gain (real m) (real r)) <= 2 * u64 + eta64).
{ unfold exact_gain.
  replace (real K - real m / (real m + real r)) with
    ((real K - real m / real s) + real m / real s * / (real m + real r) * - (real s - (real m + real r))) by (field; lra).
  apply Rle_trans with (1 := Rabs_triang _ _).
  assert (Rabs (real m / real s * / (real m + real r) * - (real s - (real m + real r))) <= u64).
  { rewrite Rabs_mult, Rabs_Ropp.
    assert (I1 : 0 < / (real m + real r)) by now apply Rinv_0_lt_compat.
    assert (I2 : 0 < / real s) by now apply Rinv_0_lt_compat.
    assert (EI : (real m + real r) * / (real m + real r) = 1) by (apply Rinv_r; lra).
    assert (EI2 : real s * / real s = 1) by (apply Rinv_r; lra).
    assert (D0 : 0 <= real m / real s <= 1) by (unfold Rdiv; split; nra).
    rewrite Rabs_pos_eq by (apply Rmult_le_pos; lra).
    apply Rle_trans with (1 * / (real m + real r) * (u64 * (real m + real r))).
    - apply Rmult_le_compat; [apply Rmult_le_pos; lra|apply Rabs_pos| |trivial].
      apply Rmult_le_compat_r; lra.
    - replace (1 * / (real m + real r) * (u64 * (real m + real r))) with (u64 * ((real m + real r) * / (real m + real r))) by ring.
      rewrite EI; lra. }
  nra. }
split; trivial.
unfold exact_post.
replace (real p - (1 - exact_gain (real m) (real r)) * real m) with
  ((real p - real c * real m) + ((real c - (1 - real K)) - (real K - exact_gain (real m) (real r))) * real m) by ring.
apply Rle_trans with (1 := Rabs_triang _ _); rewrite Rabs_mult, (Rabs_pos_eq (real m)) by trivial.
assert (T := Rabs_triang (real c - (1 - real K)) (- (real K - exact_gain (real m) (real r)))).
rewrite Rabs_Ropp in T; fold (Rminus (real c - (1 - real K)) (real K - exact_gain (real m) (real r))) in T.
assert (Rabs (real c - (1 - real K) - (real K - exact_gain (real m) (real r))) <= 3 * u64 + eta64) by nra.
assert (Rabs (real c - (1 - real K) - (real K - exact_gain (real m) (real r))) * real m <= (3 * u64 + eta64) * M).
{ apply Rmult_le_compat; trivial; apply Rabs_pos. }
assert (eta64 * M <= u64 * / 1048576 * M) by (apply Rmult_le_compat_r; lra).
nra.
Qed.

(** The whole step on the variance: an error [e] before the step, against the
    exact recursion run from [p']. *)
Lemma step_err a p q r p' M : double a = true -> double p = true -> double q = true -> double r = true ->
  nonneg p = true -> nonneg q = true -> fleb fzero r = true -> 0 <= p' ->
  let m := fadd (fmul a (fmul p a)) q in
  let m' := exact_prior (real a) p' (real q) in
  is_zero (fadd m r) = false -> finite (fadd m r) = true -> real m <= M ->
  Rabs (real m - m') <= (real a * real a) * Rabs (real p - p') + 4 * u64 * M + (3 + Rabs (real a)) * eta64 /\
  Rabs (real (fmul (fsub fone (fdiv m (fadd m r))) m) - exact_post m' (real r))
    <= (real a * real a) * Rabs (real p - p') + 9 * u64 * M + (4 + Rabs (real a)) * eta64.
Proof.
intros Da Dp Dq Dr Np Nq Nr Hp' m m' Hz Fs HM.
assert (Dw := double_mul _ _ Da (double_mul _ _ Dp Da)).
assert (Dm := double_add _ _ Dw Dq); fold m in Dm.
destruct (add_real _ _ Dm Dr Fs) as (Fm & Fr & _).
assert (Nm : nonneg m = true) by (apply add_nonneg; trivial; now apply quad_nonneg).
assert (E1 := prior_err a p q M Da Dp Dq Np Nq Fm HM); fold m in E1.
destruct (post_err m r M Dm Dr Fm Nm Nr Hz Fs HM) as (_ & E2).
assert (Nr' : 0 <= real r) by (apply real_nonneg; now apply nonneg_fleb in Nr).
assert (Nq' := real_nonneg _ Nq); assert (Nm' := real_nonneg _ Nm); assert (Np' := real_nonneg _ Np).
assert (Hm' : 0 <= m') by (unfold m', exact_prior; nra).
assert (EP : Rabs (real m - m') <= (real a * real a) * Rabs (real p - p') + 4 * u64 * M + (3 + Rabs (real a)) * eta64).
{ replace (real m - m') with ((real m - exact_prior (real a) (real p) (real q)) + real a * real a * (real p - p'))
    by (unfold m', exact_prior; ring).
  apply Rle_trans with (1 := Rabs_triang _ _); rewrite Rabs_mult, (Rabs_pos_eq (real a * real a)) by nra; lra. }
split; trivial.
assert (L := exact_post_lip (real m) m' (real r) Nm' Hm' Nr').
set (ph := fmul _ m) in *.
replace (real ph - exact_post m' (real r)) with
  ((real ph - exact_post (real m) (real r)) + (exact_post (real m) (real r) - exact_post m' (real r))) by ring.
apply Rle_trans with (1 := Rabs_triang _ _); lra.
Qed.

(** ** The state *)

(** One step of the state from the same numbers and the same gain. *)
Lemma state_err a x K z X : double a = true -> double x = true -> double K = true -> double z = true ->
  let y := fmul a x in let x' := fadd y (fmul K (fsub z y)) in
  finite x' = true -> 0 <= real K <= 1 -> Rabs (real a) <= 1 ->
  Rabs (real x) <= X -> Rabs (real z) <= X -> Rabs (real x') <= X ->
  Rabs (real x' - (real a * real x + real K * (real z - real a * real x))) <= 7 * u64 * X + 2 * eta64.
Proof.
intros Da Dx DK Dz y x' F HK Ha HX HZ HX'.
assert (Dy := double_mul _ _ Da Dx); fold y in Dy.
assert (Dd := double_sub _ _ Dz Dy); assert (Dh := double_mul _ _ DK Dd).
destruct (add_real _ _ Dy Dh F) as (Fy & Fh & _).
destruct (mul_real _ _ DK Dd Fh) as (_ & Fd & Eh).
destruct (mul_real _ _ Da Dx Fy) as (_ & _ & Ey); fold y in Ey.
set (d := fsub z y) in *; set (h := fmul K d) in *.
assert (U := u64_pos); assert (Us := u64_small); assert (Ep := eta64_pos).
assert (X0 : 0 <= X) by (apply Rle_trans with (2 := HX), Rabs_pos).
assert (HY : Rabs (real y) <= X).
{ apply Rle_trans with (2 := HX).
  destruct (doubleP x Dx) as [W EW].
  assert (L : Rabs (real a * real x) <= Rabs (B2R W)).
  { rewrite Rabs_mult, EW, real_B; assert (P := Rabs_pos (B2R W)); nra. }
  rewrite Ey, EW, real_B; rewrite EW, real_B in L.
  apply Rabs_le; destruct (Rabs_le_inv _ _ L) as [L1 L2].
  assert (Q : rnd (Rabs (B2R W)) = Rabs (B2R W)).
  { apply round_generic; [apply valid_rnd_N|apply generic_format_abs, format_B]. }
  split.
  - rewrite <- Q, <- round_NE_opp, fexp_FLT.
    apply round_le; auto with typeclass_instances; now apply FLT_exp_valid.
  - rewrite <- Q; now apply rnd_le. }
assert (E1 : Rabs (real y - real a * real x) <= u64 * X + eta64).
{ apply Rle_trans with (1 := fmul_err _ _ Da Dx Fy); fold y; nra. }
assert (ZY : Rabs (real z - real y) <= 2 * X).
{ apply Rle_trans with (1 := Rabs_triang _ _); rewrite Rabs_Ropp; lra. }
assert (E2 : Rabs (real d - (real z - real y)) <= u64 * (2 * X)).
{ destruct (fsub_err _ _ Dz Dy Fd) as (A & _); fold d in A; nra. }
assert (HD : Rabs (real d) <= 2 * X + u64 * (2 * X)).
{ replace (real d) with ((real z - real y) + (real d - (real z - real y))) by ring.
  apply Rle_trans with (1 := Rabs_triang _ _); lra. }
assert (E3 : Rabs (real h - real K * real d) <= u64 * (2 * X + u64 * (2 * X)) + eta64).
{ rewrite Eh; apply Rle_trans with (1 := rnd_err _); rewrite Rabs_mult, (Rabs_pos_eq (real K)) by lra.
  assert (P := Rabs_pos (real d)).
  assert (real K * Rabs (real d) <= 2 * X + u64 * (2 * X)) by nra.
  apply Rplus_le_compat_r, Rmult_le_compat_l; lra. }
assert (E4 : Rabs (real x' - (real y + real h)) <= u64 * X).
{ destruct (fadd_err _ _ Dy Dh F) as (_ & A); fold x' in A; nra. }
replace (real x' - (real a * real x + real K * (real z - real a * real x))) with
  ((real x' - (real y + real h)) + ((real h - real K * real d) +
   (real K * (real d - (real z - real y)) + (1 - real K) * (real y - real a * real x)))) by ring.
apply Rle_trans with (1 := Rabs_triang _ _).
assert (T2 := Rabs_triang (real h - real K * real d) (real K * (real d - (real z - real y)) + (1 - real K) * (real y - real a * real x))).
assert (T3 := Rabs_triang (real K * (real d - (real z - real y))) ((1 - real K) * (real y - real a * real x))).
rewrite !Rabs_mult, (Rabs_pos_eq (real K)), (Rabs_pos_eq (1 - real K)) in T3 by lra.
assert (real K * Rabs (real d - (real z - real y)) <= u64 * (2 * X)).
{ assert (P := Rabs_pos (real d - (real z - real y))); nra. }
assert ((1 - real K) * Rabs (real y - real a * real x) <= u64 * X + eta64).
{ assert (P := Rabs_pos (real y - real a * real x)); nra. }
assert (u64 * u64 * X <= / 1048576 * u64 * X) by (apply Rmult_le_compat_r; trivial; nra).
nra.
Qed.

(** Against the exact state [x1] and gain [K1]. *)
Lemma state_step_err a x K z X alpha x1 K1 :
  double a = true -> double x = true -> double K = true -> double z = true ->
  let y := fmul a x in let x' := fadd y (fmul K (fsub z y)) in
  finite x' = true -> 0 <= real K <= 1 -> 0 <= K1 <= 1 -> Rabs (real a) <= alpha <= 1 ->
  Rabs (real x) <= X -> Rabs (real z) <= X -> Rabs (real x') <= X ->
  Rabs (real x' - (real a * x1 + K1 * (real z - real a * x1))) <=
    alpha * Rabs (real x - x1) + 7 * u64 * X + 2 * eta64 + 2 * X * Rabs (real K - K1).
Proof.
intros Da Dx DK Dz y x' F HK HK1 [Ha H1] HX HZ HX'.
assert (L : Rabs (real x' - (real a * real x + real K * (real z - real a * real x))) <= 7 * u64 * X + 2 * eta64).
{ apply state_err; trivial; lra. }
assert (X0 : 0 <= X) by (apply Rle_trans with (2 := HX), Rabs_pos).
replace (real x' - (real a * x1 + K1 * (real z - real a * x1))) with
  ((real x' - (real a * real x + real K * (real z - real a * real x))) +
   ((1 - K1) * real a * (real x - x1) + (real K - K1) * (real z - real a * real x))) by ring.
apply Rle_trans with (1 := Rabs_triang _ _).
assert (T := Rabs_triang ((1 - K1) * real a * (real x - x1)) ((real K - K1) * (real z - real a * real x))).
rewrite !Rabs_mult, (Rabs_pos_eq (1 - K1)) in T by lra.
assert (P1 := Rabs_pos (real a)); assert (P2 := Rabs_pos (real x - x1)); assert (P3 := Rabs_pos (real K - K1)).
assert ((1 - K1) * Rabs (real a) * Rabs (real x - x1) <= alpha * Rabs (real x - x1)).
{ apply Rmult_le_compat_r; trivial; nra. }
assert (Rabs (real z - real a * real x) <= 2 * X).
{ apply Rle_trans with (1 := Rabs_triang _ _); rewrite Rabs_Ropp, Rabs_mult.
  assert (P4 := Rabs_pos (real x)); nra. }
assert (Rabs (real K - K1) * Rabs (real z - real a * real x) <= Rabs (real K - K1) * (2 * X)) by now apply Rmult_le_compat_l.
lra.
Qed.

(** The gain against the exact gain. *)
Lemma gain_err m r m1 rho : double m = true -> double r = true -> finite m = true ->
  nonneg m = true -> fleb fzero r = true -> is_zero (fadd m r) = false -> finite (fadd m r) = true ->
  0 <= m1 -> 0 < rho <= real r ->
  Rabs (real (fdiv m (fadd m r)) - exact_gain m1 (real r)) <= 2 * u64 + eta64 + Rabs (real m - m1) / rho.
Proof.
intros Dm Dr Fm Nm Nr Hz Fs H1 [Hr1 Hr2].
destruct (post_err m r (real m) Dm Dr Fm Nm Nr Hz Fs (Rle_refl _)) as (E & _).
assert (L := exact_gain_lip (real m) m1 (real r) (real_nonneg _ Nm) H1).
assert (Rabs (exact_gain (real m) (real r) - exact_gain m1 (real r)) <= Rabs (real m - m1) / rho).
{ apply Rle_trans with (1 := L ltac:(lra)); unfold Rdiv; apply Rmult_le_compat_l; [apply Rabs_pos|].
  apply Rinv_le; trivial. }
replace (real (fdiv m (fadd m r)) - exact_gain m1 (real r)) with
  ((real (fdiv m (fadd m r)) - exact_gain (real m) (real r)) + (exact_gain (real m) (real r) - exact_gain m1 (real r))) by ring.
apply Rle_trans with (1 := Rabs_triang _ _); lra.
Qed.

(** Sums of powers. *)
Definition geo (x : R) (k : nat) : R := sum_f_R0 (fun i => x ^ i) k.
Lemma geo_S x k : geo x (S k) = 1 + x * geo x k.
Proof.
unfold geo; induction k as [|k IH]; [simpl; ring|].
change (sum_f_R0 (fun i => x ^ i) (S k) + x ^ (S (S k)) = 1 + x * (sum_f_R0 (fun i => x ^ i) k + x ^ (S k))).
rewrite IH; simpl; ring.
Qed.
Lemma geo_pos x k : 0 <= x -> 0 <= geo x k.
Proof. intros Hx; apply cond_pos_sum; intros; now apply pow_le. Qed.
Lemma geo_le1 x k : 0 <= x <= 1 -> geo x k <= INR (S k).
Proof.
intros Hx; induction k as [|k IH]; [unfold geo; simpl; lra|].
rewrite geo_S, S_INR; assert (P := geo_pos x k ltac:(lra)); assert (I := pos_INR (S k)); nra.
Qed.
Lemma geo_lt1 x k : 0 <= x < 1 -> geo x k <= / (1 - x).
Proof.
intros Hx; assert (D : 0 < / (1 - x)) by (apply Rinv_0_lt_compat; lra).
assert (E : (1 - x) * / (1 - x) = 1) by (apply Rinv_r; lra).
induction k as [|k IH]; [unfold geo; simpl|rewrite geo_S]; nra.
Qed.
