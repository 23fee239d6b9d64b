(** * Run64: runs of the scalar filter in double arithmetic *)
From Coq Require Import ZArith Floats.SpecFloat.
From mathcomp Require Import ssreflect ssrfun ssrbool eqtype ssrnat seq.
From Verif Require Import Np NpLemmas Kf Ekf ApiSpec Loop Frame FilterLemmas FilterThms NpShapes
  WellShaped Binary64 Ieee Scalar64.

Set Implicit Arguments.
Unset Strict Implicit.
Unset Printing Implicit Defensive.
Local Notation B := binary64.

(** A scalar state that is observed directly (H = 1): any transition, any noise
    variances that are not negative (nor NaN; they may be infinite), any data,
    one control matrix or none.  The third condition excludes the product of two
    int64 arrays. *)
Definition direct_scalar (p : nat) (self : kf B) (Z : arr B) (U : option (arr B)) : Prop :=
  [/\ constructed self, well_shaped 1 1 p self Z U, dt (kf_A self) = DFloat \/ dt (kf_Pk self) = DFloat,
      double (num1 (kf_Pk self)) && fleb fzero (num1 (kf_Pk self)) &
   forall k, k < steps self Z U ->
     [/\ double (num1 (row (kf_A self) k)), num1 (row (kf_H self) k) = fone,
         double (num1 (row (kf_Q self) k)) && fleb fzero (num1 (row (kf_Q self) k)) &
         double (num1 (row (kf_R self) k)) && fleb fzero (num1 (row (kf_R self) k))]].

(** The variance before step k: the initial one, or that of row k-1 of [er]. *)
Definition P_before64 (self : kf B) (er : arr B) (k : nat) : f64 :=
  if k is j.+1 then num1 (row er j) else num1 (kf_Pk self).

(** The variance predict computes for step k: A * (P * A) + Q. *)
Definition P_prior64 (self : kf B) (er : arr B) (k : nat) : f64 :=
  let a := num1 (row (kf_A self) k) in
  fadd (fmul a (fmul (P_before64 self er k) a)) (num1 (row (kf_Q self) k)).

Section Run.
Variables (p : nat) (self : kf B) (Z : arr B) (U : option (arr B)) (g : seq (arr B)).
Hypothesis Hrun : direct_scalar p self Z U.
Notation T := (steps self Z U).
Notation av k := (num1 (row (kf_A self) k)).
Notation qv k := (num1 (row (kf_Q self) k)).
Notation rv k := (num1 (row (kf_R self) k)).

Definition good (k : nat) (P : arr B) : Prop :=
  [/\ mat_layout 1 1 P, double (num1 P), nonneg (num1 P) & dt (kf_A self) = DFloat \/ dt P = DFloat].

Lemma fleb0 x : fleb fzero x -> nonneg x.
Proof. by case/nonneg_fleb. Qed.

Lemma good0 : good 0 (kf_Pk self).
Proof.
have [Hc [_ _ _ HP _] Hd /andP [DP NP] _] := Hrun.
by split=> //; exact: fleb0.
Qed.

Lemma prior_double k P : k < T -> good k P ->
  double (prior64 (av k) (num1 P) (qv k)) /\ nonneg (prior64 (av k) (num1 P) (qv k)).
Proof.
move=> Hk [_ DP NP _]; have [_ _ _ _ /(_ k Hk) [DA _ /andP [DQ NQ] _]] := Hrun.
have D1 := double_mul _ _ DA (double_mul _ _ DP DA).
by split; [exact: double_add|apply: add_nonneg => //; [exact: quad_nonneg|exact: fleb0]].
Qed.

Lemma good_f11 k x : double x -> nonneg x -> good k (f11 x).
Proof. by move=> D Nn; split=> //; right. Qed.

Lemma post_nonneg pm r : double pm -> nonneg pm -> double r -> fleb fzero r ->
  is_zero (fadd pm r) = false -> nonneg (fmul (fsub fone (fdiv pm (fadd pm r))) pm).
Proof.
move=> Dp Np Dr Nr Hz; case Fp: (finite pm); first by have [_ [/fleb0 ]] := post_range pm r Dp Dr Fp Np Nr Hz.
case: pm Dp Np Hz Fp => [s|s| |s m e] // _.
by case: s => // _ Hz _; case: r Dr Nr Hz => [t|t| |t m e] //; case: t.
Qed.

(** One step, from what the steps before left. *)
Lemma step64 k g1 x P : k < T -> good k P -> vecs 1 1 x ->
  by_hand self Z (control Z U) k g = (g1, Ok (x, P)) ->
  let pm := prior64 (av k) (num1 P) (qv k) in let s := fadd pm (rv k) in
  let r := by_hand self Z (control Z U) k.+1 g in
  (is_zero s /\ r = (g1, Raise LinAlgError)) \/
  (is_zero s = false /\ exists2 x', vecs 1 1 x' &
     r = (rcons g1 (f11 (fdiv pm s)), Ok (x', f11 (fmul (fsub fone (fdiv pm s)) pm)))).
Proof.
move=> Hk HG Hx E pm s r; have [HP DP NP Hd] := HG.
have [Hc Hw _ _ /(_ k Hk) [DA EH /andP [DQ NQ] /andP [DR NR]]] := Hrun.
have [Hit Hn _ _ /(_ k Hk) [LA LH LB [LZ LQ LR]]] := Hw.
have [Dpm Npm] := prior_double Hk HG.
have -> : r = kf_step (np_identity B 1) (srow_at self Z (control Z U) k) (x, P) g1.
  rewrite /r by_hand_rows // (take_nth (srow_at self Z (control Z U) 0)) ?size_rows_of //.
  rewrite iter_rows_rcons (nth_map 0) ?size_iota // nth_iota // add0n /mbind -by_hand_rows ?(ltnW Hk) //.
  by rewrite E (constructed_I Hc) Hn.
have [y [C [Ep Hy HC]]] := predict_shape (has_mat LA) Hx LB (has_mat HP) LQ.
have EC : C = f11 pm.
  have Hd' : dt (row (kf_A self) k) = DFloat \/ dt P = DFloat by [].
  exact: (predict11 LA HP LQ Hd' Ep).
rewrite /kf_step /mbind /mlift; cbn [rA rB rU rQ rH rZ rR srow_at fst snd]; rewrite Ep EC.
have US := update_shape g1 (has_mat LH) Hy HC LZ LR; rewrite EC in US.
cbn [fst snd].
case: (update11 (row Z k) y LH LR EH Dpm g1) => [[Hz E2]|[Hz [E1 E2]]]; first by left.
right; split=> //; case: US E1 E2 => [[Kk [y' [C' [-> HK Hy' _]]]]|->]; cbn [fst snd]; last first.
  by move=> /(congr1 size); rewrite size_rcons => /eqP; rewrite ltn_eqF.
move=> -> /(_ _ (erefl _)); cbn [snd] => ->; exists y' => //.
by rewrite mul1r //; apply: double_div => //; exact: double_add.
Qed.

(** After k steps. *)
Lemma run64 k : k <= T ->
  (exists g1 x P, [/\ by_hand self Z (control Z U) k g = (g1, Ok (x, P)), good k P & vecs 1 1 x]) \/
  (exists g1, by_hand self Z (control Z U) k g = (g1, Raise LinAlgError)).
Proof.
elim: k => [|k IH] Hk.
  have [_ [_ _ Hx _ _] _ _ _] := Hrun.
  by left; exists g, (kf_xk self), (kf_Pk self); split; [|exact: good0|exact: vec_vecs].
case: (IH (ltnW Hk)) => [[g1 [x [P [E HG Hx]]]]|[g1 E]]; last first.
  right; exists g1; have [_ [Hit _ _ _ _] _ _ _] := Hrun; move: E.
  rewrite !by_hand_rows ?(ltnW Hk) // (take_nth (srow_at self Z (control Z U) 0)) ?size_rows_of // iter_rows_rcons.
  by rewrite /mbind => ->.
have [Dpm Npm] := prior_double Hk HG; have [_ _ _ _ /(_ k Hk) [_ _ _ /andP [DR NR]]] := Hrun.
case: (step64 Hk HG Hx E) => [[_ ->]|[Hz [x' Hx' ->]]]; first by right; exists g1.
left; eexists; eexists; eexists; split; [reflexivity| |exact: Hx'].
have Ds := double_add _ _ Dpm DR; have Dk := double_div _ _ Dpm Ds.
apply: good_f11; last exact: post_nonneg.
by apply: double_mul => //; apply: double_sub.
Qed.

(** The rows of a run that returned. *)
Lemma rows64 g' st er k : kf_filter self Z U g = (g', Ok (st, er)) -> k < T ->
  let pm := P_prior64 self er k in let s := fadd pm (rv k) in
  [/\ double pm /\ nonneg pm, is_zero s = false,
      num1 (nth (np_zeros B [::]) g' (size g + k)) = fdiv pm s,
      num1 (row er k) = fmul (fsub fone (fdiv pm s)) pm &
      double (num1 (row er k))].
Proof.
move=> E Hk pm s.
have HnT : kf_size self = 1 by case: Hrun => _ [].
have [_ Hsz Hr _] := filter_ok E; rewrite HnT in Hr.
have [[x P] Ek] := filter_gains_at E (ltnW Hk).
have [x1 [P1 [E1 _ _ Er]]] := Hr k Hk.
case: (run64 (ltnW Hk)); rewrite Ek; last by case.
case=> g1 [x2 [P2 [[Eg Ex EP] HG Hx]]]; subst x2 P2.
have [HP DP NP Hd] := HG.
have EPk : P_before64 self er k = num1 P.
  case: k Hk Ek {E1 Er pm s HG Eg} => [|j] Hj; first by case=> _ _ <-.
  move=> Ek; have [x3 [P3 [E3 _ _ Er3]]] := Hr j (ltnW Hj); rewrite /P_before64 Er3.
  have {Ek}EP3 : P3 = P by move: Ek; rewrite E3; clear; case.
  rewrite EP3 in E3 *; congr num1; apply: (stored_is (sh := [:: 1; 1])) => //.
    have [Hc _ _ _ _] := Hrun; exact: (by_hand_float Hc E3).2.
  by case/andP: HP => _ /eqP.
have Epm : pm = prior64 (av k) (num1 P) (qv k) by rewrite /pm /P_prior64 EPk.
have Dpm := prior_double Hk HG; rewrite -Epm in Dpm.
have := step64 Hk HG Hx Ek; rewrite -Epm -/s E1.
case=> [[] //|[Hz [x' _ [Eg1 _ EP1]]]].
have Er1 : row er k = P1 by rewrite Er EP1.
split=> //; last 2 first.
- by rewrite Er1 EP1.
- rewrite Er1 EP1; change (is_true (double (fmul (fsub fone (fdiv pm s)) pm))); have [_ _ _ _ /(_ k Hk) [_ _ _ /andP [DR NR]]] := Hrun.
  have Ds := double_add _ _ Dpm.1 DR; have Dk := double_div _ _ Dpm.1 Ds.
  by apply: double_mul; [apply: double_sub|case: Dpm].
have -> : nth (np_zeros B [::]) g' (size g + k) = last (np_zeros B [::]) (take (size g + k.+1) g').
  by rewrite (last_nth (np_zeros B [::])) size_takel ?addnS /= ?nth_take // Hsz ltn_add2l.
by rewrite Eg1 last_rcons.
Qed.

End Run.
