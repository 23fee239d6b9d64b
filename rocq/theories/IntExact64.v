(** * IntExact64: doubles are exact on integers up to 2^53 *)
From Coq Require Import ZArith Reals Floats.SpecFloat Lra Lia.
From Flocq Require Import Core.Core IEEE754.BinarySingleNaN.
From mathcomp Require Import ssreflect ssrfun ssrbool eqtype ssrnat seq.
From Verif Require Import Np Binary64 Ieee IntSpec.

Set Implicit Arguments.
Unset Strict Implicit.
Unset Printing Implicit Defensive.

#[local] Existing Instance Hprec.
#[local] Existing Instance Hmax.

(** Entry of a matrix product with the accumulator starting at +0, as in
    numpy's own loop and in the reference BLAS (the product of [Binary64]
    starts at the first term, which can leave a zero negative). *)
Definition f_mm0 (kd : mmkind) (m k n : nat) (a b : seq f64) (i j : nat) : f64 :=
  foldl (fun acc l => fadd acc (fmul (nth fzero a (i * k + l)) (nth fzero b (l * n + j))))
        fzero (iota 0 k).

Definition doubles0 (n2i : Z) : num := @Num f64 fofZ S754_nan fisnan fadd fsub f_mm0 f_solve n2i.

(** [X] is a double of value z; if z is 0, of either sign. *)
Definition isval (X : b64) (z : Z) : Prop := is_finite X = true /\ B2R X = IZR z.
(** [X] is the double of value z, with +0 for 0. *)
Definition isint (X : b64) (z : Z) : Prop := isval X z /\ Bsign X = Z.ltb z 0.

Lemma isint_uniq X Y z : isint X z -> isint Y z -> X = Y.
Proof.
move=> [[H1 H2] H3] [[H4 H5] H6]; apply: B2R_Bsign_inj => //; first by rewrite H2 H5.
by rewrite H3 H6.
Qed.

Lemma int_format z : (Z.abs z <= 2 ^ 53)%Z ->
  generic_format radix2 (SpecFloat.fexp 53 1024) (IZR z).
Proof.
move=> H; apply: (generic_format_FLT radix2 (3 - 1024 - 53) 53).
case: (Z.eq_dec z (2 ^ 53)) => [->|H1].
  by exists (Float radix2 1 53) => /=; [rewrite /F2R /=; lra|lia|lia].
case: (Z.eq_dec z (- 2 ^ 53)) => [->|H2].
  by exists (Float radix2 (-1) 53) => /=; [rewrite /F2R /=; lra|lia|lia].
by exists (Float radix2 z 0) => /=; [rewrite /F2R /=; lra|lia|lia].
Qed.

Lemma rnd_int z : (Z.abs z <= 2 ^ 53)%Z -> rnd (IZR z) = IZR z.
Proof. by move=> H; apply: round_generic; apply: int_format. Qed.

Lemma int_lt_emax z : (Z.abs z <= 2 ^ 53)%Z -> Rlt_bool (Rabs (IZR z)) (bpow radix2 1024) = true.
Proof.
move=> H; apply: Rlt_bool_true; rewrite -abs_IZR.
apply: (Rle_lt_trans _ (IZR (2 ^ 53))); first by apply: IZR_le.
by apply: (Rlt_le_trans _ (bpow radix2 54)); [rewrite /=; lra|apply: bpow_le].
Qed.

Lemma fofZ_int z : (Z.abs z <= 2 ^ 53)%Z -> exists X, fofZ z = B2SF X /\ isint X z.
Proof.
move=> H; exists (binary_normalize 53 1024 Hprec Hmax mode_NE z 0 false).
split; first exact: bn_equiv.
have := binary_normalize_correct 53 1024 Hprec Hmax mode_NE z 0 false.
have -> : F2R (Float radix2 z 0) = IZR z by rewrite /F2R /=; lra.
cbv zeta; change (round radix2 (fexp 53 1024) (round_mode mode_NE) (IZR z)) with (rnd (IZR z)).
rewrite rnd_int // int_lt_emax // => -[H1 [H2 H3]]; split; first by split.
rewrite H3 (Rcompare_IZR z 0); case: Z.ltb_spec => Hz; case: Z.compare_spec => //; lia.
Qed.

Lemma val_sign X z : isval X z -> z <> 0%Z -> Bsign X = Z.ltb z 0.
Proof.
move=> [Hf HX] Hz; have HX0 : B2R X <> 0%R by rewrite HX; move/eq_IZR.
have : is_finite_strict X = true.
  by case: X Hf HX HX0 => [s|s| |s m e B] //= _ _ /(_ erefl).
move=> Hs; case: X Hs Hf HX HX0 => [s|s| |s m e B] //= _ _ HX _; clear Hz.
have Hp := bpow_gt_0 radix2 e.
case: s HX => HX; rewrite /F2R /= in HX; case: Z.ltb_spec => Hz //.
  have H1 : (IZR (Z.neg m) < 0)%R by apply: IZR_lt.
  have H2 : (0 <= IZR z)%R by apply: IZR_le.
  by nra.
have H1 : (0 < IZR (Z.pos m))%R by apply: IZR_lt.
have H2 : (IZR z < 0)%R by apply: IZR_lt.
by nra.
Qed.

(** Sums with an accumulator that is not -0. *)
Lemma add_int X Y x y : isint X x -> isval Y y -> (Z.abs (x + y) <= 2 ^ 53)%Z ->
  isint (Bplus mode_NE X Y) (x + y).
Proof.
move=> [[Xf XR] Xs] [Yf YR] H.
have := Bplus_correct _ _ Hprec Hmax mode_NE X Y Xf Yf.
rewrite XR YR -plus_IZR.
change (round radix2 (fexp 53 1024) (round_mode mode_NE) (IZR (x + y))) with (rnd (IZR (x + y))).
rewrite rnd_int // int_lt_emax // (Rcompare_IZR _ 0) => -[H1 [H2 H3]]; split; first by split.
rewrite H3; case: Z.compare_spec => Hc; case: Z.ltb_spec => Hz //; try lia.
rewrite Xs; case: Z.ltb_spec => //= Hx.
have -> := val_sign (conj Yf YR); last by lia.
by apply/Z.ltb_ge; lia.
Qed.

Lemma sub_int X Y x y : isint X x -> isint Y y -> (Z.abs (x - y) <= 2 ^ 53)%Z ->
  isint (Bminus mode_NE X Y) (x - y).
Proof.
move=> [[Xf XR] Xs] [[Yf YR] Ys] H.
have := Bminus_correct _ _ Hprec Hmax mode_NE X Y Xf Yf.
rewrite XR YR -minus_IZR.
change (round radix2 (fexp 53 1024) (round_mode mode_NE) (IZR (x - y))) with (rnd (IZR (x - y))).
rewrite rnd_int // int_lt_emax // (Rcompare_IZR _ 0) => -[H1 [H2 H3]]; split; first by split.
rewrite H3; case: Z.compare_spec => Hc; case: Z.ltb_spec => Hz //; try lia.
by rewrite Xs Ys; case: Z.ltb_spec => //= Hx; case: Z.ltb_spec => //= Hy; lia.
Qed.

Lemma mul_val X Y x y : isval X x -> isval Y y -> (Z.abs (x * y) <= 2 ^ 53)%Z ->
  isval (Bmult mode_NE X Y) (x * y).
Proof.
move=> [Xf XR] [Yf YR] H.
have := Bmult_correct _ _ Hprec Hmax mode_NE X Y.
rewrite XR YR -mult_IZR.
change (round radix2 (fexp 53 1024) (round_mode mode_NE) (IZR (x * y))) with (rnd (IZR (x * y))).
by rewrite rnd_int // int_lt_emax // Xf Yf => -[H1 [H2 _]]; split.
Qed.

Lemma isint_fofZ X z : (Z.abs z <= 2 ^ 53)%Z -> isint X z -> B2SF X = fofZ z.
Proof. by move=> H HX; have [Y [-> HY]] := fofZ_int H; rewrite (isint_uniq HX HY). Qed.

Lemma nth_fofZ (s : seq Z) i : nth fzero (map fofZ s) i = fofZ (nth 0%Z s i).
Proof.
case: (ltnP i (size s)) => Hi; first by rewrite (nth_map 0%Z).
by rewrite !nth_default ?size_map.
Qed.

Lemma nth_le B (s : seq Z) i : (0 <= B)%Z -> all (fun z => Z.leb (Z.abs z) B) s ->
  (Z.abs (nth 0%Z s i) <= B)%Z.
Proof.
move=> H0 H; case: (ltnP i (size s)) => Hi; last by rewrite nth_default.
by apply/Z.leb_le; exact: (all_nthP _ H).
Qed.

(** A dot product of integers whose partial sums stay below 2^53. *)
Lemma dot_int Ba Bb (a b : seq Z) (f h : nat -> nat) s acc A :
  (0 <= Ba)%Z -> (0 <= Bb)%Z ->
  all (fun z => Z.leb (Z.abs z) Ba) a -> all (fun z => Z.leb (Z.abs z) Bb) b ->
  (Ba * Bb <= 2 ^ 53)%Z -> (Ba <= 2 ^ 53)%Z -> (Bb <= 2 ^ 53)%Z ->
  (Z.abs A + Z.of_nat (size s) * (Ba * Bb) <= 2 ^ 53)%Z ->
  acc = fofZ A ->
  foldl (fun acc l => fadd acc (fmul (nth fzero (map fofZ a) (f l)) (nth fzero (map fofZ b) (h l)))) acc s =
  fofZ (A + foldr (fun l z => (nth 0%Z a (f l) * nth 0%Z b (h l) + z)%Z) 0%Z s).
Proof.
move=> HA HB Ha Hb Hab H1 H2.
elim: s acc A => [|l s IH] acc A Hs ->; first by rewrite /= Z.add_0_r.
rewrite [foldl _ _ _]/= [foldr _ _ _]/= !nth_fofZ.
have hx := nth_le (i := f l) HA Ha; have hy := nth_le (i := h l) HB Hb.
move: (nth _ a _) (nth _ b _) hx hy => x y hx hy.
have hxy : (Z.abs (x * y) <= Ba * Bb)%Z by rewrite Z.abs_mul; nia.
rewrite [size _]/= Nat2Z.inj_succ in Hs.
have Hs' : (Z.abs A + Ba * Bb + Z.of_nat (size s) * (Ba * Bb) <= 2 ^ 53)%Z by lia.
have H0 : (0 <= Z.of_nat (size s) * (Ba * Bb))%Z by apply: Z.mul_nonneg_nonneg; [lia|nia].
have [X [EX IX]] : exists X, fofZ x = B2SF X /\ isint X x by apply: fofZ_int; lia.
have [Y [EY IY]] : exists X, fofZ y = B2SF X /\ isint X y by apply: fofZ_int; lia.
have [W [EW IW]] : exists X, fofZ A = B2SF X /\ isint X A by apply: fofZ_int; lia.
rewrite EX EY EW fmulE faddE.
have HM := mul_val (proj1 IX) (proj1 IY) (Z.le_trans _ _ _ hxy Hab).
have HS : (Z.abs (A + x * y) <= 2 ^ 53)%Z by lia.
rewrite (isint_fofZ HS (add_int IW HM HS)) Z.add_assoc.
by apply: IH => //; lia.
Qed.

Lemma fisnan_B (X : b64) : is_finite X = true -> fisnan (B2SF X) = false.
Proof. by case: X. Qed.

Theorem doubles_int_exact n2i : int_exact (doubles0 n2i) (2 ^ 53).
Proof.
split=> [z Hz|x y Hx Hy Hxy|x y Hx Hy Hxy|kd m k n a b i j Ba Bb _ _ _ _ HBa HBb Ha Hb Hk Hab].
- change (is_true (~~ fisnan (fofZ z))); have [X [-> [[Hf _] _]]] := fofZ_int Hz.
  by rewrite fisnan_B.
- change (fadd (fofZ x) (fofZ y) = fofZ (x + y)); have [X [EX IX]] := fofZ_int Hx; have [Y [EY [IY _]]] := fofZ_int Hy.
  by rewrite EX EY faddE (isint_fofZ Hxy (add_int IX IY Hxy)).
- change (fsub (fofZ x) (fofZ y) = fofZ (x - y)); have [X [EX IX]] := fofZ_int Hx; have [Y [EY IY]] := fofZ_int Hy.
  by rewrite EX EY fsubE (isint_fofZ Hxy (sub_int IX IY Hxy)).
change (f_mm0 kd m k n (map fofZ a) (map fofZ b) i j = fofZ (zdot k n a b i j)).
rewrite /f_mm0 (@dot_int Ba Bb a b (fun l => i * k + l) (fun l => l * n + j) (iota 0 k) _ 0%Z) //; try lia.
by rewrite size_iota /=; lia.
Qed.
