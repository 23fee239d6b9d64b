(** * Ieee: facts about IEEE-754 double arithmetic, round to nearest even

    The operations of Binary64.v are those of Coq.Floats.SpecFloat; here they are
    identified with Flocq's, and the scalar facts of the variance recursion are
    proved about them.  [double x] says that [x] is a double: a NaN, an infinity,
    a zero or a number m * 2^e with the mantissa and the exponent of the format. *)
From Coq Require Import ZArith Reals Floats.SpecFloat Lra Lia Bool.
From Flocq Require Import Core.Core IEEE754.BinarySingleNaN.
From Verif Require Import Binary64.

Definition double (x : f64) : bool := valid_binary 53 1024 x.
Definition finite (x : f64) : bool :=
  match x with S754_zero _ | S754_finite _ _ _ => true | _ => false end.

#[local] Instance Hprec : Prec_gt_0 53 := eq_refl _.
#[local] Instance Hmax : Prec_lt_emax 53 1024 := eq_refl _.
Notation b64 := (binary_float 53 1024).
Notation rnd := (round radix2 (SpecFloat.fexp 53 1024) ZnearestE).

Section Equiv.

Lemma rne_equiv s m l : round_nearest_even m l = choice_mode mode_NE s m l.
Proof.
case l; [reflexivity|intro c]; case c; [ | reflexivity..].
now simpl; unfold Round.cond_incr; case Z.even.
Qed.

Lemma bra_equiv sx mx ex lx :
  SpecFloat.binary_round_aux 53 1024 sx mx ex lx = binary_round_aux 53 1024 mode_NE sx mx ex lx.
Proof.
unfold SpecFloat.binary_round_aux, binary_round_aux.
set (mrse' := shr_fexp _ _ _ _ _); case mrse'; intros mrs' e'; simpl.
now rewrite (rne_equiv sx).
Qed.

Lemma br_equiv s m e : SpecFloat.binary_round 53 1024 s m e = binary_round 53 1024 mode_NE s m e.
Proof.
unfold SpecFloat.binary_round, binary_round, shl_align_fexp.
set (mez := shl_align _ _ _); case mez as [mz ez]; apply bra_equiv.
Qed.

Lemma bn_equiv m e szero : SpecFloat.binary_normalize 53 1024 m e szero
  = B2SF (binary_normalize 53 1024 Hprec Hmax mode_NE m e szero).
Proof.
case m as [ | p | p]; simpl; [reflexivity| |]; rewrite B2SF_SF2B; apply br_equiv.
Qed.

Lemma fmulE (x y : b64) : fmul (B2SF x) (B2SF y) = B2SF (Bmult mode_NE x y).
Proof.
unfold fmul; case x as [sx|sx| |sx mx ex Bx]; case y as [sy|sy| |sy my ey By]; [now trivial.. | ].
simpl; rewrite B2SF_SF2B; apply bra_equiv.
Qed.

Lemma faddE (x y : b64) : fadd (B2SF x) (B2SF y) = B2SF (Bplus mode_NE x y).
Proof.
unfold fadd; case x as [sx|sx| |sx mx ex Bx]; case y as [sy|sy| |sy my ey By];
  [now (trivial || simpl; case Bool.eqb).. | ].
apply bn_equiv.
Qed.

Lemma fsubE (x y : b64) : fsub (B2SF x) (B2SF y) = B2SF (Bminus mode_NE x y).
Proof.
unfold fsub; case x as [sx|sx| |sx mx ex Bx]; case y as [sy|sy| |sy my ey By];
  [now (trivial || simpl; case Bool.eqb).. | ].
simpl; unfold Zminus; rewrite <- cond_Zopp_negb; apply bn_equiv.
Qed.

Lemma fdivE (x y : b64) : fdiv (B2SF x) (B2SF y) = B2SF (Bdiv mode_NE x y).
Proof.
unfold fdiv; case x as [sx|sx| |sx mx ex Bx]; case y as [sy|sy| |sy my ey By];
  [now (trivial || simpl; case Bool.eqb).. | ].
simpl; rewrite B2SF_SF2B.
set (melz := SFdiv_core_binary _ _ _ _ _ _); case melz as [[mz ez] lz]; apply bra_equiv.
Qed.

Lemma doubleP x : double x = true -> exists X : b64, x = B2SF X.
Proof. intros H; exists (SF2B x H); now rewrite B2SF_SF2B. Qed.

Lemma double_B (X : b64) : double (B2SF X) = true.
Proof. apply valid_binary_B2SF. Qed.

Lemma double_ofZ z : double (fofZ z) = true.
Proof. unfold fofZ; rewrite bn_equiv; apply double_B. Qed.

Lemma double_mul x y : double x = true -> double y = true -> double (fmul x y) = true.
Proof. intros [X ->]%doubleP [Y ->]%doubleP; rewrite fmulE; apply double_B. Qed.
Lemma double_add x y : double x = true -> double y = true -> double (fadd x y) = true.
Proof. intros [X ->]%doubleP [Y ->]%doubleP; rewrite faddE; apply double_B. Qed.
Lemma double_sub x y : double x = true -> double y = true -> double (fsub x y) = true.
Proof. intros [X ->]%doubleP [Y ->]%doubleP; rewrite fsubE; apply double_B. Qed.
Lemma double_div x y : double x = true -> double y = true -> double (fdiv x y) = true.
Proof. intros [X ->]%doubleP [Y ->]%doubleP; rewrite fdivE; apply double_B. Qed.

Lemma finite_B (X : b64) : finite (B2SF X) = is_finite X.
Proof. now destruct X. Qed.

Lemma fle_B (X Y : b64) : is_finite X = true -> is_finite Y = true ->
  fleb (B2SF X) (B2SF Y) = true <-> (B2R X <= B2R Y)%R.
Proof.
intros FX FY; change (fleb (B2SF X) (B2SF Y)) with (Bleb X Y).
rewrite Bleb_correct by assumption; split; [case Rle_bool_spec; [trivial|discriminate]|apply Rle_bool_true].
Qed.

End Equiv.

Definition fone : f64 := fofZ 1.

(** Not negative: a NaN, a zero of either sign, or positive. *)
Definition nonneg (x : f64) : bool :=
  match x with S754_finite true _ _ | S754_infinity true => false | _ => true end.

Section Scalar.
Open Scope R_scope.

Lemma format_B (X : b64) : generic_format radix2 (SpecFloat.fexp 53 1024) (B2R X).
Proof. apply generic_format_B2R. Qed.

Lemma rnd_le x y : x <= y -> rnd x <= rnd y.
Proof. apply round_le; [now apply fexp_correct|apply valid_rnd_N]. Qed.

Lemma rnd_id (X : b64) : rnd (B2R X) = B2R X.
Proof. apply round_generic; [apply valid_rnd_N|apply format_B]. Qed.

Lemma rnd_0 : rnd 0 = 0.
Proof. apply round_0, valid_rnd_N. Qed.

Definition B1 : b64 := Bone.
Lemma B1E : B2R B1 = 1. Proof. apply Bone_correct. Qed.
Lemma foneE : fone = B2SF B1. Proof. reflexivity. Qed.
Lemma rnd_1 : rnd 1 = 1.
Proof. rewrite <- B1E; apply rnd_id. Qed.

Lemma lt_emax (X : b64) x : 0 <= x <= B2R X -> Rlt_bool (Rabs (rnd x)) (bpow radix2 1024) = true.
Proof.
intros [H0 H1]; apply Rlt_bool_true.
rewrite Rabs_pos_eq by (rewrite <- rnd_0; now apply rnd_le).
apply Rle_lt_trans with (B2R X); [rewrite <- (rnd_id X); now apply rnd_le|].
apply Rle_lt_trans with (1 := Rle_abs _), abs_B2R_lt_emax.
Qed.

Lemma mul1r x : double x = true -> fmul x fone = x.
Proof.
intros [X ->]%doubleP; rewrite foneE, fmulE; f_equal.
destruct X as [s|s| |s m e H] eqn:EX; try (now destruct s || reflexivity).
rewrite <- EX.
assert (E : rnd (B2R X * B2R B1) = B2R X) by (rewrite B1E, Rmult_1_r; apply rnd_id).
generalize (Bmult_correct 53 1024 _ _ mode_NE X B1); cbn [round_mode]; rewrite E.
rewrite Rlt_bool_true by apply abs_B2R_lt_emax.
intros (H1 & H2 & H3).
assert (FX : is_finite X = true) by now rewrite EX.
rewrite FX in H2; simpl in H2.
assert (HN : is_nan (Bmult mode_NE X B1) = false) by now destruct (Bmult mode_NE X B1).
apply B2R_Bsign_inj; trivial; rewrite (H3 HN).
change (Bsign B1) with false; now destruct (Bsign X).
Qed.

Lemma mulC x y : double x = true -> double y = true -> fmul x y = fmul y x.
Proof.
intros _ _; unfold fmul, SFmul; destruct x as [s|s| |s m e], y as [t|t| |t m' e'];
  rewrite 1?xorb_comm; trivial.
now rewrite Pos.mul_comm, Z.add_comm.
Qed.

Lemma double_one : double fone = true. Proof. reflexivity. Qed.

Lemma mul1l x : double x = true -> fmul fone x = x.
Proof. intros H; rewrite mulC by trivial; now apply mul1r. Qed.

(** ** Signs *)

Lemma nonneg_fleb x : fleb fzero x = true <-> nonneg x = true /\ x <> S754_nan.
Proof.
destruct x as [s|s| |s m e]; try destruct s; unfold fleb; simpl; split; try easy; intros [H1 H2]; easy.
Qed.

Lemma mul_sign (X Y : b64) : is_nan (Bmult mode_NE X Y) = false ->
  Bsign (Bmult mode_NE X Y) = xorb (Bsign X) (Bsign Y).
Proof.
intros HN; generalize (Bmult_correct 53 1024 _ _ mode_NE X Y).
case Rlt_bool; [now intros (_ & _ & ->)|].
now destruct (Bmult mode_NE X Y) as [s|s| |s m e H]; simpl; intros [=].
Qed.

Lemma sign_nonneg (X : b64) : (is_nan X = false -> Bsign X = false) -> nonneg (B2SF X) = true.
Proof. destruct X as [s|s| |s m e H]; trivial; destruct s; trivial; simpl; intros E; now rewrite E. Qed.


Lemma zero_mul s (A : b64) : fmul (S754_zero s) (B2SF A) = S754_nan \/
  exists t, fmul (S754_zero s) (B2SF A) = S754_zero t.
Proof. destruct A as [t|t| |t m e H]; simpl; eauto. Qed.

Lemma quad_nonneg a p : double a = true -> double p = true -> nonneg p = true ->
  nonneg (fmul a (fmul p a)) = true.
Proof.
intros Da Dp HP; destruct (doubleP _ Da) as [A EA].
destruct p as [s|s| |s m e] eqn:Ep.
- rewrite mulC by (trivial; now apply double_mul); rewrite EA.
  destruct (zero_mul s A) as [->|[t ->]]; trivial.
  destruct (zero_mul t A) as [->|[t' ->]]; trivial.
- rewrite <- Ep in *; destruct (doubleP _ Dp) as [P EP]; rewrite EA, EP, !fmulE.
  apply sign_nonneg; intros HN; rewrite mul_sign by trivial.
  assert (HN' : is_nan (Bmult mode_NE P A) = false) by
    (destruct (Bmult mode_NE P A); trivial; now destruct A).
  rewrite mul_sign by trivial.
  assert (Bsign P = false) by (rewrite EP in HP; rewrite Ep in EP; clear - EP HP; destruct P; try easy; simpl in *; now destruct s0).
  rewrite H; now destruct (Bsign A).
- now destruct a.
- rewrite <- Ep in *; destruct (doubleP _ Dp) as [P EP]; rewrite EA, EP, !fmulE.
  apply sign_nonneg; intros HN; rewrite mul_sign by trivial.
  assert (HN' : is_nan (Bmult mode_NE P A) = false) by
    (destruct (Bmult mode_NE P A); trivial; now destruct A).
  rewrite mul_sign by trivial.
  assert (Bsign P = false) by (rewrite EP in HP; rewrite Ep in EP; clear - EP HP; destruct P; try easy; simpl in *; now destruct s0).
  rewrite H; now destruct (Bsign A).
Qed.

Lemma nonneg_B2R (X : b64) : nonneg (B2SF X) = true -> 0 <= B2R X.
Proof.
destruct X as [s|s| |s m e H]; simpl; try (intros; apply Rle_refl).
destruct s; [easy|intros _; now apply F2R_ge_0].
Qed.

Lemma B2R_nonneg (X : b64) : is_finite X = true -> 0 <= B2R X -> nonneg (B2SF X) = true.
Proof.
destruct X as [s|s| |s m e H]; simpl; try easy; destruct s; trivial; intros _ HR.
assert (F2R (Float radix2 (Zneg m) e) < 0) by now apply F2R_lt_0.
simpl in HR; lra.
Qed.

Lemma add_nonneg x y : double x = true -> double y = true -> nonneg x = true -> nonneg y = true ->
  nonneg (fadd x y) = true.
Proof.
intros [X ->]%doubleP [Y ->]%doubleP HX HY; rewrite faddE.
destruct (is_finite X) eqn:FX; [destruct (is_finite Y) eqn:FY|].
- generalize (Bplus_correct 53 1024 _ _ mode_NE X Y FX FY); cbn [round_mode].
  case Rlt_bool.
  + intros (H1 & H2 & _); apply B2R_nonneg; trivial; rewrite H1, <- rnd_0; apply rnd_le.
    generalize (nonneg_B2R _ HX), (nonneg_B2R _ HY); lra.
  + destruct X as [s|s| |s m e H], Y as [t|t| |t m' e' H']; try easy.
    * now destruct s, t.
    * destruct s; [easy|]; destruct t; [easy|]; intros [-> _]; reflexivity.
- destruct X as [s|s| |s m e H], Y as [t|t| |t m' e' H']; try easy; now destruct t.
- destruct X as [s|s| |s m e H], Y as [t|t| |t m' e' H']; try easy; try (now destruct s); destruct s, t; easy.
Qed.

(** ** The scalar update *)

Section Update.
Variables (p r : f64).
Hypotheses (Dp : double p = true) (Dr : double r = true).
Hypotheses (Fp : finite p = true) (Np : nonneg p = true) (Nr : fleb fzero r = true).

(** S >= p *)
Lemma S_ge : let s := fadd p r in s = S754_infinity false \/ (finite s = true /\ fleb p s = true).
Proof.
destruct (doubleP _ Dp) as [P EP], (doubleP _ Dr) as [R ER]; subst p r.
rewrite finite_B in Fp; cbn zeta; rewrite faddE.
apply nonneg_fleb in Nr; destruct Nr as [NR NNR].
destruct (is_finite R) eqn:FR.
2:{ destruct R as [t|t| |t m' e' H']; try easy; destruct t; try easy; destruct P; try easy; now left. }
generalize (Bplus_correct 53 1024 _ _ mode_NE P R Fp FR); cbn [round_mode].
case Rlt_bool; [|intros H0].
- intros (H1 & H2 & _); right; rewrite finite_B; split; trivial.
  apply fle_B; trivial; rewrite H1, <- (rnd_id P) at 1; apply rnd_le.
  generalize (nonneg_B2R _ NR); lra.
- left; destruct P as [s|s| |s m e H], R as [t|t| |t m' e' H']; try easy; destruct s; try easy; destruct t; try easy.
  all: simpl in H0; destruct H0 as [H0 _]; try (now rewrite H0); now destruct H0.
Qed.

Definition is_zero (x : f64) : bool := match x with S754_zero _ => true | _ => false end.

Hypothesis Sp : is_zero (fadd p r) = false.
Let k := fdiv p (fadd p r).


Lemma gain_range : finite k = true /\ fleb fzero k = true /\ fleb k fone = true.
Proof.
assert (DS := double_add p r Dp Dr); assert (HS0 := S_ge); cbn zeta in HS0.
unfold k; clear k; revert DS HS0 Sp; generalize (fadd p r); clear Dr Nr; intros s Ds HS Hz; clear r.
destruct (doubleP _ Dp) as [P EP], (doubleP _ Ds) as [S ES]; subst p s.
rewrite finite_B in Fp; destruct HS as [HS|[FS HS]].
- rewrite HS; assert (E : S = B754_infinity false) by (now destruct S as [|s'| |]; try easy; destruct s').
  rewrite <- HS, fdivE, E.
  destruct P as [s'|s'| |s' m e H]; try easy; destruct s'; easy.
- rewrite finite_B in FS; apply fle_B in HS; trivial; rewrite fdivE.
  assert (HP := nonneg_B2R _ Np).
  assert (HS0 : B2R S <> 0).
  { destruct S as [t|t| |t m e H]; try easy; simpl; destruct t.
    - apply Rlt_not_eq; now apply F2R_lt_0.
    - apply Rgt_not_eq; now apply F2R_gt_0. }
  assert (HSpos : 0 < B2R S) by lra.
  assert (Hq0 : 0 <= B2R P / B2R S) by (apply Rmult_le_pos; [lra|apply Rlt_le, Rinv_0_lt_compat; lra]).
  assert (Hq1 : B2R P / B2R S <= 1) by (apply Rmult_le_reg_r with (B2R S); trivial; field_simplify; lra).
  generalize (Bdiv_correct 53 1024 _ _ mode_NE P S HS0); cbn [round_mode].
  rewrite (lt_emax B1) by (rewrite B1E; lra).
  intros (H1 & H2 & _); rewrite Fp in H2; rewrite finite_B; split; trivial.
  change fzero with (B2SF (B754_zero false : b64)); rewrite foneE; split; apply fle_B; trivial; rewrite H1.
  + simpl; rewrite <- rnd_0 at 1; now apply rnd_le.
  + rewrite B1E, <- rnd_1; now apply rnd_le.
Qed.

Let d := fsub fone k.
Lemma double_k : double k = true.
Proof. now apply double_div; [|apply double_add]. Qed.

Lemma compl_range : finite d = true /\ fleb fzero d = true /\ fleb d fone = true.
Proof.
generalize gain_range double_k; unfold d; clear d; clearbody k; revert k; intros x (Fk & K0 & K1) Dk.
destruct (doubleP _ Dk) as [K EK]; subst x; rewrite finite_B in Fk.
rewrite foneE, fsubE.
assert (F1 : is_finite B1 = true) by reflexivity.
change fzero with (B2SF (B754_zero false : b64)) in *.
rewrite foneE in K1; apply fle_B in K0; trivial; apply fle_B in K1; trivial.
rewrite B1E in K1; simpl in K0.
generalize (Bminus_correct 53 1024 _ _ mode_NE B1 K F1 Fk); cbn [round_mode].
rewrite (lt_emax B1) by (rewrite B1E; lra).
intros (H1 & H2 & _); rewrite finite_B; split; trivial; split; apply fle_B; trivial; rewrite H1, B1E.
+ simpl; rewrite <- rnd_0 at 1; apply rnd_le; lra.
+ rewrite <- rnd_1 at 2; apply rnd_le; lra.
Qed.

Lemma post_range : finite (fmul d p) = true /\ fleb fzero (fmul d p) = true /\ fleb (fmul d p) p = true.
Proof.
assert (Dd : double d = true) by (apply double_sub; [reflexivity|apply double_k]).
generalize compl_range Dd; clearbody d; clear Dd; revert d; intros x (Fd & D0 & D1) Dx; clear k Sp.
destruct (doubleP _ Dx) as [D ED], (doubleP _ Dp) as [P EP]; subst x p.
rewrite finite_B in Fd; rewrite finite_B in Fp; rewrite fmulE.
assert (F1 : is_finite B1 = true) by reflexivity.
change fzero with (B2SF (B754_zero false : b64)) in *.
rewrite foneE in D1; apply fle_B in D0; trivial; apply fle_B in D1; trivial.
rewrite B1E in D1; simpl in D0.
assert (HP := nonneg_B2R _ Np).
assert (H0 : 0 <= B2R D * B2R P) by (apply Rmult_le_pos; lra).
assert (HPP : B2R D * B2R P <= B2R P) by (rewrite <- (Rmult_1_l (B2R P)) at 2; apply Rmult_le_compat_r; lra).
generalize (Bmult_correct 53 1024 _ _ mode_NE D P); cbn [round_mode].
rewrite (lt_emax P) by lra.
rewrite Fd, Fp; intros (H1 & H2 & _); rewrite finite_B; split; trivial; split; apply fle_B; trivial; rewrite H1.
+ simpl; rewrite <- rnd_0 at 1; now apply rnd_le.
+ rewrite <- (rnd_id P) at 2; now apply rnd_le.
Qed.

End Update.

(** ** A transition that does not expand, without process noise *)
Lemma quad_le a p q : double a = true -> double p = true -> finite p = true -> nonneg p = true ->
  finite a = true -> fleb (fabs a) fone = true -> is_zero q = true ->
  let p' := fadd (fmul a (fmul p a)) q in finite p' = true /\ fleb p' p = true.
Proof.
intros Da Dp Fp Np Fa Ha Hq.
assert (E : exists X : b64, fmul a (fmul p a) = B2SF X /\ is_finite X = true /\ B2R X <= B2R (SF2B p Dp) /\ 0 <= B2R X).
{ destruct (doubleP _ Da) as [A EA], (doubleP _ Dp) as [P EP].
  assert (SF2B p Dp = P) as -> by (apply B2SF_inj; now rewrite B2SF_SF2B).
  assert (NNq : nonneg (fmul a (fmul p a)) = true) by now apply quad_nonneg.
  subst a p; rewrite finite_B in Fa, Fp; rewrite !fmulE; rewrite !fmulE in NNq.
  exists (Bmult mode_NE A (Bmult mode_NE P A)); split; trivial.
  assert (HA : Rabs (B2R A) <= 1).
  { rewrite <- B2R_Babs, <- B1E; apply fle_B; [now rewrite is_finite_Babs|easy|].
    rewrite <- foneE; now destruct A. }
  assert (HP := nonneg_B2R _ Np).
  assert (G : forall (Y : b64), is_finite Y = true -> Rabs (B2R Y) <= B2R P ->
     is_finite (Bmult mode_NE Y A) = true /\ Rabs (B2R (Bmult mode_NE Y A)) <= B2R P).
  { intros Y FY HY.
    assert (HYA : Rabs (B2R Y * B2R A) <= B2R P).
    { rewrite Rabs_mult; rewrite <- (Rmult_1_r (B2R P)); apply Rmult_le_compat; trivial; apply Rabs_pos. }
    assert (HR : Rabs (rnd (B2R Y * B2R A)) <= B2R P).
    { apply Rabs_le_inv in HYA; apply Rabs_le; split.
      - rewrite <- (rnd_id P), <- (round_NE_opp radix2); apply rnd_le; lra.
      - rewrite <- (rnd_id P); apply rnd_le; lra. }
    generalize (Bmult_correct 53 1024 _ _ mode_NE Y A); cbn [round_mode].
    rewrite Rlt_bool_true.
    - rewrite FY, Fa; intros (-> & -> & _); split; trivial.
    - apply Rle_lt_trans with (1 := HR), Rle_lt_trans with (1 := Rle_abs _), abs_B2R_lt_emax. }
  destruct (G P Fp) as [F1 H1]; [rewrite Rabs_pos_eq; lra|].
  destruct (G _ F1 H1) as [F2 H2].
  assert (EC : Bmult mode_NE A (Bmult mode_NE P A) = Bmult mode_NE (Bmult mode_NE P A) A).
  { apply B2SF_inj; rewrite <- !fmulE; apply mulC; rewrite ?fmulE; apply double_B. }
  split; [now rewrite EC|split].
  - rewrite EC; apply Rle_trans with (1 := Rle_abs _), H2.
  - now apply nonneg_B2R. }
destruct E as (X & -> & FX & HX & H0).
destruct q as [s|s| |s m e]; try easy.
change (S754_zero s) with (B2SF (B754_zero s : b64)); cbn zeta; rewrite faddE.
generalize (Bplus_correct 53 1024 _ _ mode_NE X (B754_zero s) FX eq_refl); cbn [round_mode].
simpl (B2R (B754_zero s)); rewrite Rplus_0_r, rnd_id, Rlt_bool_true by apply abs_B2R_lt_emax.
intros (H1 & H2 & _); rewrite finite_B; split; trivial.
replace p with (B2SF (SF2B p Dp)) by apply B2SF_SF2B.
apply fle_B; trivial; [now rewrite is_finite_SF2B; destruct p|now rewrite H1].
Qed.

(** ** The innovation variance is not zero when R is positive *)
Lemma S_nonzero p r : double p = true -> double r = true -> nonneg p = true -> fltb fzero r = true ->
  is_zero (fadd p r) = false.
Proof.
intros [P ->]%doubleP [R ->]%doubleP HP HR; rewrite faddE.
destruct (is_finite P) eqn:FP; [destruct (is_finite R) eqn:FR|].
- generalize (Bplus_correct 53 1024 _ _ mode_NE P R FP FR); cbn [round_mode].
  assert (HRp : 0 < B2R R).
  { destruct R as [t|t| |t m e H]; try easy; destruct t; try easy; now apply F2R_gt_0. }
  case Rlt_bool.
  + intros (H1 & H2 & _).
    assert (0 < B2R (Bplus mode_NE P R)).
    { rewrite H1; apply Rlt_le_trans with (1 := HRp); rewrite <- (rnd_id R) at 1; apply rnd_le.
      generalize (nonneg_B2R _ HP); lra. }
    destruct (Bplus mode_NE P R); try easy; simpl in H; lra.
  + now intros [-> _].
- destruct P as [s|s| |s m e H], R as [t|t| |t m' e' H']; easy.
- destruct P as [s|s| |s m e H], R as [t|t| |t m' e' H']; try easy; now destruct s, t.
Qed.

Lemma fle_trans x y z : double x = true -> double y = true -> double z = true ->
  finite x = true -> finite y = true -> finite z = true ->
  fleb x y = true -> fleb y z = true -> fleb x z = true.
Proof.
intros [X ->]%doubleP [Y ->]%doubleP [W ->]%doubleP; rewrite !finite_B; intros FX FY FW H1 H2.
apply fle_B in H1; trivial; apply fle_B in H2; trivial; apply fle_B; trivial; lra.
Qed.

End Scalar.
