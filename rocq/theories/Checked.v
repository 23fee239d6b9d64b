(** * Checked: doubles that say when they leave their range

    The operations of doubles on finite doubles, but a result that is not finite,
    and a product or a quotient that may have underflowed, is lost ([None]); so
    is everything computed from it, and a system with a lost pivot is not solved. *)
From Coq Require Import ZArith Reals Floats.SpecFloat Lra Lia Bool.
From Flocq Require Import Core.Core IEEE754.BinarySingleNaN.
From Verif Require Import Np Binary64 Lu Ieee Round64 Wide.
#[local] Open Scope R_scope.

#[local] Existing Instance Ieee.Hprec.
#[local] Existing Instance Ieee.Hmax.

(** The smallest normal double, 2^-1022. *)
Definition minn : f64 := S754_finite false 4503599627370496 (-1074).

Definition keep (b : bool) (s : f64) : option f64 := if finite s && b then Some s else None.

Definition checked_ops : ops :=
  @Ops (option f64) (Some fzero)
    (fun x y => match x, y with Some a, Some b => keep true (fadd a b) | _, _ => None end)
    (fun x y => match x, y with Some a, Some b => keep true (fsub a b) | _, _ => None end)
    (fun x y => match x, y with
                | Some a, Some b => keep (is_zero a || is_zero b || fltb minn (fabs (fmul a b))) (fmul a b)
                | _, _ => None
                end)
    (fun x y => match x, y with
                | Some a, Some b => keep (is_zero a || fltb minn (fabs (fdiv a b))) (fdiv a b)
                | _, _ => None
                end)
    (option_map fabs)
    (fun x y => match x, y with Some a, Some b => fltb a b | _, _ => false end)
    (fun x => match x with Some a => is_zero a | None => true end).

(** The arithmetic for the model of the library. *)
Definition checked (z : Z) : num :=
  @Num (option f64) (fun n => keep true (fofZ n)) None
    (fun x => match x with None => true | _ => false end)
    (@oadd checked_ops) (@osub checked_ops) (@g_mm checked_ops) (@g_solve checked_ops) z.

Definition good (x : f64) : Prop := double x = true /\ finite x = true.

Lemma keepE b s v : keep b s = Some v -> v = s /\ finite s = true /\ b = true.
Proof. unfold keep; destruct (finite s), b; simpl; intros [= ->]; auto. Qed.

Lemma real_zero s : real (S754_zero s) = 0.
Proof. reflexivity. Qed.

Lemma is0_real x : good x -> Req_bool (real x) 0 = is_zero x.
Proof.
intros [D F]; destruct (is_zero x) eqn:E.
- destruct x; try easy. now apply Req_bool_true.
- apply Req_bool_false; intros H; now rewrite (zero_real x D F H) in E.
Qed.

Lemma lt_real x y : good x -> good y -> fltb x y = Rlt_bool (real x) (real y).
Proof.
intros [Dx Fx] [Dy Fy]; destruct (doubleP x Dx) as [X ->], (doubleP y Dy) as [Y ->].
rewrite !finite_B in *; rewrite !real_B; unfold fltb, SFltb, Rlt_bool.
assert (H := Bcompare_correct 53 1024 X Y Fx Fy); unfold Bcompare in H; rewrite H; now destruct Rcompare.
Qed.

Lemma good_abs x : good x -> good (fabs x).
Proof. intros [D F]; destruct x; split; trivial. Qed.

Lemma minn_real : real minn = bpow radix2 (-1022).
Proof. change (-1022)%Z with (52 + -1074)%Z; rewrite bpow_plus; reflexivity. Qed.

Lemma min_format : generic_format radix2 (SpecFloat.fexp 53 1024) (bpow radix2 (-1022)).
Proof. rewrite fexp_FLT; apply generic_format_bpow; unfold FLT_exp; lia. Qed.

Lemma big_normal s x : good s -> real s = rnd x -> fltb minn (fabs s) = true -> normal x.
Proof.
intros G E H; right; rewrite (lt_real minn (fabs s)) in H; [|now split|now apply good_abs].
destruct (Rlt_bool_spec (real minn) (real (fabs s))) as [H1|]; [|easy].
rewrite minn_real, real_abs, E in H1.
apply Rnot_lt_le; intros H2.
assert (H3 : Rabs (rnd x) <= bpow radix2 (-1022)).
{ apply abs_round_le_generic; auto with typeclass_instances; [now apply fexp_correct|apply min_format|now apply Rlt_le]. }
lra.
Qed.

Lemma mul_zero_l a b : is_zero a = true -> real a * real b = 0.
Proof. destruct a; try easy; intros _; unfold real; simpl; ring. Qed.
Lemma mul_zero_r a b : is_zero b = true -> real a * real b = 0.
Proof. destruct b; try easy; intros _; unfold real; simpl; ring. Qed.

(** ** What a kept result is *)
Lemma keep_add a b v : good a -> good b -> keep true (fadd a b) = Some v ->
  v = fadd a b /\ good v /\ real v = wround (real a + real b).
Proof.
intros [Da Fa] [Db Fb] (-> & F & _)%keepE; repeat split; trivial; [now apply double_add|].
generalize (wide_add a b Da Db F); simpl; congruence.
Qed.
Lemma keep_sub a b v : good a -> good b -> keep true (fsub a b) = Some v ->
  v = fsub a b /\ good v /\ real v = wround (real a - real b).
Proof.
intros [Da Fa] [Db Fb] (-> & F & _)%keepE; repeat split; trivial; [now apply double_sub|].
generalize (wide_sub a b Da Db F); simpl; congruence.
Qed.
Lemma keep_mul a b v : good a -> good b ->
  keep (is_zero a || is_zero b || fltb minn (fabs (fmul a b))) (fmul a b) = Some v ->
  v = fmul a b /\ good v /\ real v = wround (real a * real b).
Proof.
intros [Da Fa] [Db Fb] (-> & F & B)%keepE.
assert (G : good (fmul a b)) by (split; [now apply double_mul|easy]); repeat split; try apply G.
destruct (mul_real a b Da Db F) as (_ & _ & E); rewrite E; apply rnd_wround.
apply orb_prop in B; destruct B as [B|B]; [left; apply orb_prop in B; destruct B; [now apply mul_zero_l|now apply mul_zero_r]|].
now apply big_normal with (1 := G).
Qed.
Lemma keep_div a b v : good a -> good b -> is_zero b = false ->
  keep (is_zero a || fltb minn (fabs (fdiv a b))) (fdiv a b) = Some v ->
  v = fdiv a b /\ good v /\ real v = wround (real a / real b).
Proof.
intros [Da Fa] [Db Fb] Nb (-> & F & B)%keepE.
assert (Rb : real b <> 0) by (intros H; now rewrite (zero_real b Db Fb H) in Nb).
assert (G : good (fdiv a b)) by (split; [now apply double_div|easy]); repeat split; try apply G.
rewrite (div_real a b Da Db Rb F); apply rnd_wround.
apply orb_prop in B; destruct B as [B|B].
- left; unfold Rdiv; destruct a; try easy; unfold real at 1; simpl; ring.
- apply big_normal with (1 := G); [now apply div_real|easy].
Qed.

Lemma keep_ofZ n v : keep true (fofZ n) = Some v -> v = fofZ n /\ good v /\ real v = wround (IZR n).
Proof.
intros (-> & F & _)%keepE; repeat split; trivial; [apply double_ofZ|].
unfold fofZ in *; rewrite bn_equiv in *; rewrite finite_B in F; rewrite real_B.
generalize (binary_normalize_correct 53 1024 _ _ mode_NE n 0 false); cbn [round_mode].
replace (F2R (Float radix2 n 0)) with (IZR n) by (unfold F2R; simpl; ring).
destruct Rlt_bool.
- intros (E & _); rewrite E; apply rnd_wround.
  destruct (Z.eq_dec n 0) as [->|Hn]; [now left|right].
  apply Rle_trans with 1; [change 1 with (bpow radix2 0); apply bpow_le; lia|].
  rewrite <- abs_IZR; apply IZR_le; lia.
- intros E; exfalso; destruct (binary_normalize 53 1024 _ _ mode_NE n 0 false); try easy.
Qed.
