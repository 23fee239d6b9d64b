(** * Props9: double precision (C43, C44)

    The arithmetic here is [binary64] (Binary64.v): IEEE-754 doubles, round to
    nearest even.  For one-by-one matrices there is nothing to choose about the
    order of the operations, so what is said about them holds of any BLAS and
    LAPACK.  [fadd], [fmul], [fleb] ... are the IEEE operations of
    Coq.Floats.SpecFloat; [fleb x y] is the IEEE comparison x <= y, false on
    NaN. *)
From Coq Require Import ZArith Floats.SpecFloat.
From mathcomp Require Import ssreflect ssrfun ssrbool eqtype ssrnat seq.
From Verif Require Import Np NpLemmas Kf Ekf ApiSpec Loop Frame FilterLemmas FilterThms NpShapes
  WellShaped Binary64 Ieee Scalar64 Run64 Cases.

Set Implicit Arguments.
Unset Strict Implicit.
Unset Printing Implicit Defensive.
Local Notation B := binary64.

(** ** C43 double precision keeps the scalar filter sane *)

(** Whatever the length and the data (even NaN): at every step whose predicted
    variance A*(P*A)+Q is finite, the gain appended to kalman_gains is a number
    of [0,1] and the variance returned is a number of [0, A*(P*A)+Q]. *)
Theorem C43_gain_and_variance p (self : kf B) Z U g g' st er k :
  direct_scalar p self Z U ->
  kf_filter self Z U g = (g', Ok (st, er)) -> k < steps self Z U ->
  let prior := P_prior64 self er k in
  let gain := num1 (nth (np_zeros B [::]) g' (size g + k)) in
  let post := num1 (row er k) in
  finite prior ->
  [/\ fleb fzero gain && fleb gain fone, fleb fzero post && fleb post prior, finite gain & finite post].
Proof.
move=> Hrun E Hk prior gn post Hf.
have [[Dp Np] Hz Eg Ep _] := rows64 Hrun E Hk.
have [_ _ _ _ /(_ k Hk) [_ _ _ /andP [DR NR]]] := Hrun.
have [F1 [K0 K1]] := gain_range _ _ Dp DR Hf Np NR Hz.
have [F2 [P0 P1]] := post_range _ _ Dp DR Hf Np NR Hz.
by rewrite /gn /post /prior Eg Ep K0 K1 P0 P1.
Qed.

(** No variance is ever negative, finite or not. *)
Theorem C43_never_negative p (self : kf B) Z U g g' st er k :
  direct_scalar p self Z U ->
  kf_filter self Z U g = (g', Ok (st, er)) -> k < steps self Z U ->
  ~~ fltb (num1 (row er k)) fzero.
Proof.
move=> Hrun E Hk; have [[Dp Np] Hz Eg Ep _] := rows64 Hrun E Hk.
have [_ _ _ _ /(_ k Hk) [_ _ _ /andP [DR NR]]] := Hrun.
have := post_nonneg Dp Np DR NR Hz; rewrite -Ep.
by case: (num1 _) => [s|s| |s m e] //; case: s.
Qed.

(** With positive observation variances the call always returns, whatever the
    length: the innovation variance never rounds to zero. *)
Theorem C43_never_raises p (self : kf B) Z U g :
  direct_scalar p self Z U ->
  (forall k, k < steps self Z U -> fltb fzero (num1 (row (kf_R self) k))) ->
  exists g' st er, kf_filter self Z U g = (g', Ok (st, er)).
Proof.
move=> Hrun HR; have [Hc Hw _ _ _] := Hrun.
case: (well_shaped_raises g Hc Hw) => // -[g' E]; exfalso.
have [Hit _ _ _ _] := Hw.
have [j [Hj Hpre Hend]] := filter_raises Hit E.
have {Hend}Eh : by_hand self Z (control Z U) j.+1 g = (g', Raise LinAlgError) by case: Hend => [//|[]].
have [g1 [x [P [Ek HG Hx]]]] : exists g1 x P,
    [/\ by_hand self Z (control Z U) j g = (g1, Ok (x, P)), good self j P & vecs 1 1 x].
  case: (run64 g Hrun (ltnW Hj)) => // -[g1 Ek].
  case: j Hj Hpre Eh Ek => [|j] Hj Hpre Eh Ek; first by [].
  by have [gi [xP []]] := Hpre j (ltnSn _); rewrite Ek.
have [Dp Np] := prior_double Hrun Hj HG.
have [_ _ _ _ /(_ j Hj) [_ _ _ /andP [DR NR]]] := Hrun.
have Hz := S_nonzero _ _ Dp DR Np (HR j Hj).
by case: (step64 Hrun Hj HG Hx Ek); [rewrite Hz; case|case=> _ [x' _]; rewrite Eh].
Qed.

(** A transition that does not expand and no process noise (in particular the
    estimation of a constant, A = 1 and Q = 0): the variances stay finite and
    never increase, however long the run. *)
Theorem C43_variance_never_increases p (self : kf B) Z U g g' st er :
  direct_scalar p self Z U -> finite (num1 (kf_Pk self)) ->
  (forall k, k < steps self Z U ->
     [/\ finite (num1 (row (kf_A self) k)), fleb (fabs (num1 (row (kf_A self) k))) fone &
         is_zero (num1 (row (kf_Q self) k))]) ->
  kf_filter self Z U g = (g', Ok (st, er)) ->
  forall k, k < steps self Z U ->
    finite (num1 (row er k)) /\ fleb (num1 (row er k)) (P_before64 self er k).
Proof.
move=> Hrun F0 HA E.
have [_ _ _ /andP [DP NP] Hall] := Hrun.
have step k : k < steps self Z U -> double (P_before64 self er k) -> finite (P_before64 self er k) ->
    nonneg (P_before64 self er k) ->
    finite (num1 (row er k)) /\ fleb (num1 (row er k)) (P_before64 self er k).
  move=> Hk D F N; have [FA LA ZQ] := HA k Hk; have [DA _ _ /andP [DR NR]] := Hall k Hk.
  have [F1 L1] := quad_le _ _ _ DA D F N FA LA ZQ.
  have [[Dp Np] Hz Eg Ep De] := rows64 Hrun E Hk.
  have [_ /andP [_ L2] _ F2] := C43_gain_and_variance Hrun E Hk F1.
  by split=> //; exact: fle_trans L2 L1.
have all k : k <= steps self Z U -> [/\ double (P_before64 self er k), finite (P_before64 self er k) &
    nonneg (P_before64 self er k)].
  elim: k => [|k IH] Hk; first by split=> //; exact: fleb0.
  have [D F N] := IH (ltnW Hk); have [F' _] := step k Hk D F N.
  have [[Dp Np] Hz Eg Ep De] := rows64 Hrun E Hk.
  have [_ _ _ /andP [DR NR]] := Hall k Hk.
  by split=> //; rewrite /P_before64 Ep; exact: post_nonneg.
by move=> k Hk; have [D F N] := all k (ltnW Hk); exact: step.
Qed.

(** update called by hand, for a (1,1) float64 covariance: the same bounds, for
    any state and observation for which the call returns. *)
Theorem C43_update (H x P z R : arr B) g g' x' P' :
  mat_layout 1 1 H -> num1 H = fone -> mat_layout 1 1 P -> dt P = DFloat ->
  double (num1 P) && fleb fzero (num1 P) && finite (num1 P) ->
  cov_layout 1 R -> double (num1 R) && fleb fzero (num1 R) ->
  kf_update (np_identity B 1) H x P z R g = (g', Ok (x', P')) ->
  let gain := num1 (last (np_zeros B [::]) g') in
  [/\ fleb fzero gain && fleb gain fone, fleb fzero (num1 P') && fleb (num1 P') (num1 P),
      finite gain & finite (num1 P')].
Proof.
move=> HH EH HP DtP /andP [/andP [DP NP] FP] HR /andP [DR NR] E.
have EP : P = f11 (num1 P).
  case/andP: HP => /andP [Hs Hw] /eqP Es; case: P Es Hs Hw DtP {NP FP DP E} => d sh [|v [|w xs]] /= -> //=.
  by move=> _; case: v => [z0|x0] /=; case: d.
rewrite EP in E; have := update11 z x HH HR EH DP g; rewrite E.
case=> [[] //|[Hz [/= -> /(_ _ (erefl _)) /= ->]]].
have [F1 [K0 K1]] := gain_range _ _ DP DR FP (fleb0 NP) NR Hz.
have [F2 [P0 P1]] := post_range _ _ DP DR FP (fleb0 NP) NR Hz.
rewrite last_rcons mul1r; last by apply: double_div => //; exact: double_add.
rewrite -[num1 (f11 (fdiv _ _))]/(fdiv (num1 P) (fadd (num1 P) (num1 R))).
rewrite -[num1 (f11 (fmul _ _))]/(fmul (fsub fone (fdiv (num1 P) (fadd (num1 P) (num1 R)))) (num1 P)).
by rewrite K0 K1 P0 P1.
Qed.

(** What a call returned, or a dummy. *)
Definition outs (r : seq (arr B) * res (arr B * arr B)) : arr B * arr B :=
  if r.2 is Ok xP then xP else (iarr [::] [::], iarr [::] [::]).
Lemma outs_ok r : isok r.2 -> r = (r.1, Ok ((outs r).1, (outs r).2)).
Proof. by case: r => g [[st er]|e]. Qed.

(** A run of 4 steps with int64 initial values, as in tests/test_standard.py. *)
Lemma lvl_ws : well_shaped 1 1 1 lvl lvl_Z None.
Proof.
split=> // k Hk; have {Hk}: k < 4 by exact: Hk.
by case: k => [|[|[|[|k]]]] // _; split=> //; split.
Qed.
Example C43_case : direct_scalar 1 lvl lvl_Z None /\
  (forall k, k < steps lvl lvl_Z None -> fltb fzero (num1 (row (kf_R lvl) k))) /\
  finite (num1 (kf_Pk lvl)) /\
  (forall k, k < steps lvl lvl_Z None ->
     [/\ finite (num1 (row (kf_A lvl) k)), fleb (fabs (num1 (row (kf_A lvl) k))) fone &
         is_zero (num1 (row (kf_Q lvl) k))]) /\
  (exists g st er, kf_filter lvl lvl_Z None [::] = (g, Ok (st, er)) /\
     forall k, k < 4 -> finite (P_prior64 lvl er k) && fltb fzero (num1 (row er k))).
Proof.
have lt4 (Q : nat -> Prop) : Q 0 -> Q 1 -> Q 2 -> Q 3 -> forall k, k < 4 -> Q k.
  by move=> ? ? ? ? [|[|[|[|k]]]].
split; [|split; [|split; [|split]]] => //.
- split=> //; [exact: lvl_constructed|exact: lvl_ws|by left|].
  by apply: (lt4 (fun k => [/\ _, _, _ & _])).
- by apply: lt4.
- by apply: (lt4 (fun k => [/\ _, _ & _])).
pose r := kf_filter lvl lvl_Z None [::].
exists r.1, (outs r).1, (outs r).2; split; first by apply: outs_ok; vm_compute.
by apply: lt4; vm_compute.
Qed.

(** ** C44 double precision does not keep covariances symmetric or positive *)

(** Symmetric with a positive diagonal that dominates, hence positive definite:
    a 2x2 array of doubles. *)
Definition dominant2 (a : arr B) : bool :=
  let e i j := @tofl B (get a [:: i; j]) in
  [&& mat_layout 2 2 a, SFeqb (e 0 1) (e 1 0), fltb (fabs (e 0 1)) (e 0 0) & fltb (fabs (e 0 1)) (e 1 1)].
Definition dominant1 (a : arr B) : bool := mat_layout 1 1 a && fltb fzero (num1 a).

(** Symmetric positive definite inputs, and the covariance returned is not
    symmetric. *)
Theorem C44_not_symmetric : exists (self : kf B) (Z : arr B) g st er,
  [/\ constructed self, well_shaped 2 1 1 self Z None,
      dominant2 (kf_Pk self),
      (forall k, k < steps self Z None -> dominant2 (row (kf_Q self) k) /\ dominant1 (row (kf_R self) k)) &
      kf_filter self Z None [::] = (g, Ok (st, er)) /\
      exists k, [/\ k < steps self Z None,
          finite (@tofl B (get er [:: k; 0; 1])), finite (@tofl B (get er [:: k; 1; 0])) &
          SFeqb (@tofl B (get er [:: k; 0; 1])) (@tofl B (get er [:: k; 1; 0])) = false]].
Proof.
pose self := built (kf_init cart_A cart_x None cart_P cart_H cart_Q cart_R None).
pose r := kf_filter self cart_Z None [::].
exists self, cart_Z, r.1, (outs r).1, (outs r).2; split; last first.
- by split; [apply: outs_ok; vm_compute|exists 2; split; vm_compute].
- by move=> k Hk; have {Hk}: k < 3 by [exact: Hk]; case: k => [|[|[|k]]] // _; vm_compute.
- by vm_compute.
- split=> // k Hk; have {Hk}: k < 3 by exact: Hk.
  by case: k => [|[|[|k]]] // _; split=> //; split.
by exists cart_A, cart_x, None, cart_P, cart_H, cart_Q, cart_R, None, self, [::].
Qed.

(** Positive variances everywhere, and the variance returned is negative: the
    update (1 - K*7)*P rounds K*7 above 1.  A = 1, H = 7, P0 = 17/10, Q = R = 1e-20. *)
Definition neg_init := kf_init (fconst [:: 1; 1; 1] fone) (farr [:: 1] [:: fzero]) None
  (farr [:: 1; 1] [:: dec 17 1]) (fconst [:: 1; 1; 1] (fofZ 7)) (fconst [:: 1; 1; 1] (dec 1 20))
  (fconst [:: 1; 1; 1] (dec 1 20)) None.
Definition neg_obj := built neg_init.

Theorem C44_negative_variance : exists (self : kf B) (Z : arr B) g st er,
  [/\ constructed self, well_shaped 1 1 1 self Z None,
      dominant1 (kf_Pk self),
      (forall k, k < steps self Z None ->
         [/\ num1 (row (kf_A self) k) = fone, dominant1 (row (kf_Q self) k) & dominant1 (row (kf_R self) k)]) &
      [/\ kf_filter self Z None [::] = (g, Ok (st, er)), steps self Z None = 1,
          finite (num1 (row er 0)) & fltb (num1 (row er 0)) fzero]].
Proof.
pose r := kf_filter neg_obj (farr [:: 1; 1] [:: fone]) None [::].
exists neg_obj, (farr [:: 1; 1] [:: fone]), r.1, (outs r).1, (outs r).2; split; last first.
- by split; [apply: outs_ok|..]; vm_compute.
- by move=> k Hk; have {Hk}: k < 1 by [exact: Hk]; case: k => [|k] // _; vm_compute.
- by vm_compute.
- by split=> // k Hk; have {Hk}: k < 1 by [exact: Hk]; case: k => [|k] // _; split=> //; split.
by exists (fconst [:: 1; 1; 1] fone), (farr [:: 1] [:: fzero]), None, (farr [:: 1; 1] [:: dec 17 1]),
    (fconst [:: 1; 1; 1] (fofZ 7)), (fconst [:: 1; 1; 1] (dec 1 20)), (fconst [:: 1; 1; 1] (dec 1 20)), None, neg_obj, [::].
Qed.
