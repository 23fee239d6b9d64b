(** * Props29: C96: with normally distributed noises the answers are the Bayesian ones *)
From Coq Require Import ZArith Reals.
From mathcomp Require Import all_ssreflect all_algebra.
From Verif Require Import RReal Np NpLemmas Kf ApiSpec Exact Repr Textbook RunSpec Refine Refine2 Build Outputs
  Loewner KalmanAlg TextbookThms TextbookThms2 ExCases LeastSq Gauss Props7.

Set Implicit Arguments.
Unset Strict Implicit.
Unset Printing Implicit Defensive.
Import GRing.Theory Num.Theory Order.Theory.
Delimit Scope ring_scope with R.
Local Open Scope ring_scope.

Section Props.
Variable oracle : oracle_type reals.
Variable n2i : Z.
Notation N := (exact oracle n2i).
Notation arr := (arr N).

Section Run.
Variables (n m p : nat) (self : kf N) (Z : arr) (U : option arr) (g : seq arr).
Let s := model_of n m p self Z U.
Notation T := (steps self Z U).
Hypothesis H : exact_run n m p self Z U.
Hypothesis D : definite n m p self Z U.
Variable I : ('cV[reals]_n -> reals) -> reals.
Hypothesis hI : integral_like I.

Let hQ k (Hk : (k < T)%N) : pd (mQ s k). Proof. by have [_ h] := D; have [] := h k Hk. Qed.
Let hR k (Hk : (k < T)%N) : pd (mR s k). Proof. by have [_ h] := D; have [] := h k Hk. Qed.

(** ** filter: the density of the state given observations 0..k *)
Theorem C96_filter g' st er k : kf_filter self Z U g = (g', Ok (st, er)) -> (k < T)%N ->
  forall x, belief I s k.+1 x = gaussian (mx n 1 (row st k)) (mx n n (row er k)) x.
Proof.
move=> E Hk x; have [_ -> -> _ _] := filter_out H E Hk.
exact: (beliefE hI D.1 hQ hR Hk).
Qed.

(** Prediction of the state, and the likelihood of the observation, given
    observations 0..k-1. *)
Theorem C96_prediction g' st er k : kf_filter self Z U g = (g', Ok (st, er)) -> (k < T)%N ->
  let a := x_prior n m p self Z U st k in let P := P_prior n m p self Z U er k in
  (forall y, predicted I s k y = gaussian a P y) /\
  evidence I s k = gaussian (mH s k *m a) (mH s k *m P *m (mH s k)^T + mR s k) (mz s k).
Proof.
move=> E Hk /=.
have [-> ->] : x_prior n m p self Z U st k = pred_x s k /\ P_prior n m p self Z U er k = pred_P s k.
  have [] := before_out H E (ltnW Hk); rewrite /x_prior /P_prior => -> ->; by [].
split; first exact: (predictedE hI D.1 hQ hR Hk).
exact: (evidenceE hI D.1 hQ hR Hk).
Qed.

(** ** smooth: the density of the state of step k given all observations *)
Theorem C96_smooth g' xs Ps L k : T = nrows Z -> nrows Z = L.+1 ->
  kf_smooth self Z U g = (g', Ok (xs, Ps)) -> (k <= L)%N ->
  forall x, belief_back I s L (L - k) x = gaussian (mx n 1 (row xs k)) (mx n n (row Ps k)) x.
Proof.
move=> HT HL E Hk x; have [_ _ Hr] := smooth_out H HT HL E; have [-> -> _ _] := Hr k Hk.
have HLT : (L < T)%N by rewrite HT HL.
by have [_ ->] := belief_backE hI D.1 hQ hR HLT Hk.
Qed.
End Run.

(** The two-state example of ExCases.v over the reals, and a functional with the
    two properties of the integral. *)
Example C96_case : let c : reals := 1 in
  exact_run 2 1 2 (demo_kf oracle n2i c) (demo_Z oracle n2i c) (demo_U oracle n2i c) /\
  definite 2 1 2 (demo_kf oracle n2i c) (demo_Z oracle n2i c) (demo_U oracle n2i c) /\
  (exists I : ('cV[reals]_2 -> reals) -> reals, integral_like I) /\
  steps (demo_kf oracle n2i c) (demo_Z oracle n2i c) (demo_U oracle n2i c) = nrows (demo_Z oracle n2i c) /\
  nrows (demo_Z oracle n2i c) = 3%N.
Proof.
have [h1 [h2 [h3 h4]]] := @C28_case reals oracle n2i 1 ltr01.
split; first exact: h1; split; first exact: h2; split; last by split; [exact: h3|exact: h4].
exists (@factor 2); exact: factor_integral.
Qed.
End Props.
