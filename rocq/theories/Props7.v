(** * Props7: C28: filtering and smoothing as one least-squares problem *)
From Coq Require Import ZArith.
From mathcomp Require Import all_ssreflect all_algebra.
From Verif Require Import Np NpLemmas Kf ApiSpec Exact Repr Textbook RunSpec Refine Refine2 Build Outputs
  Loewner KalmanAlg TextbookThms TextbookThms2 ExCases LeastSq.

Set Implicit Arguments.
Unset Strict Implicit.
Unset Printing Implicit Defensive.
Import GRing.Theory Num.Theory Order.Theory.
Local Open Scope ring_scope.

Section Props.
Variable F : realFieldType.
Variable oracle : oracle_type F.
Variable n2i : Z.
Notation N := (exact oracle n2i).
Notation arr := (arr N).

Section Run.
Variables (n m p : nat) (self : kf N) (Z : arr) (U : option arr) (g : seq arr).
Let s := model_of n m p self Z U.
Notation T := (steps self Z U).
Hypothesis H : exact_run n m p self Z U.

(** The initial covariance and the noise covariances are positive definite. *)
Definition definite : Prop :=
  pd (mP0 s) /\ forall k, (k < T)%N -> pd (mQ s k) /\ pd (mR s k).

(** [t] is the only trajectory of least misfit with the first k steps. *)
Definition only_minimiser (k : nat) (t : nat -> 'cV[F]_n) : Prop :=
  forall t', misfit s k t <= misfit s k t' /\
             (misfit s k t' = misfit s k t -> forall j, (j <= k)%N -> t' j = t j).

Lemma best_only k : definite -> (k <= T)%N -> only_minimiser k (best s k).
Proof.
move=> [h0 h] Hk t'.
have hQ j (Hj : (j < T)%N) : pd (mQ s j) := proj1 (h j Hj).
have hR j (Hj : (j < T)%N) : pd (mR s j) := proj2 (h j Hj).
by split; [exact: best_min Hk|move=> E; exact: best_unique Hk E].
Qed.

Lemma eq_misfit k t t' : (forall j, (j <= k)%N -> t j = t' j) -> misfit s k t = misfit s k t'.
Proof.
move=> E; rewrite /misfit E //; congr (_ + _); apply: eq_bigr => j _.
by rewrite !E // ltnW.
Qed.

Lemma only_minimiser_eq k t t' : (forall j, (j <= k)%N -> t j = t' j) ->
  only_minimiser k t -> only_minimiser k t'.
Proof.
move=> E Ht u; have [h1 h2] := Ht u; rewrite -(eq_misfit E); split=> // Eu j Hj.
by rewrite -E //; exact: h2.
Qed.

(** ** filter: states[k] is where the trajectory that fits observations 0..k
    best ends *)
Theorem C28_filter g' st er k : definite -> kf_filter self Z U g = (g', Ok (st, er)) -> (k < T)%N ->
  exists t, only_minimiser k.+1 t /\ mx n 1 (row st k) = t k.+1.
Proof.
move=> h E Hk; exists (best s k.+1); split; first exact: best_only.
by have [_ -> _ _ _] := filter_out H E Hk; rewrite best_T.
Qed.

(** ** smooth: xs is, at every step, the trajectory that fits all observations
    best ([e] is its state before the first step, which smooth does not
    return) *)
Theorem C28_smooth g' xs Ps L : definite -> T = nrows Z -> nrows Z = L.+1 ->
  kf_smooth self Z U g = (g', Ok (xs, Ps)) ->
  exists e, only_minimiser L.+1 (fun k => if k is j.+1 then mx n 1 (row xs j) else e).
Proof.
move=> h HT HL E; exists (best s L.+1 0%N).
apply: (only_minimiser_eq _ (best_only h _)); last by rewrite HT HL.
case=> [|j] // Hj; have [_ _ Hr] := smooth_out H HT HL E; have [-> _ _ _] := Hr j Hj.
exact: best_smooth.
Qed.

(** Both calls do return. *)
Theorem C28_returns L : definite -> T = nrows Z -> nrows Z = L.+1 ->
  (exists g' st er, kf_filter self Z U g = (g', Ok (st, er))) /\
  (exists g' xs Ps, kf_smooth self Z U g = (g', Ok (xs, Ps))).
Proof.
move=> [h0 h] HT HL.
have hQ j (Hj : (j < T)%N) : pd (mQ s j) := proj1 (h j Hj).
have hR j (Hj : (j < T)%N) : pd (mR s j) := proj2 (h j Hj).
have hi j : (j < T)%N -> innov s j \in unitmx.
  by apply: innov_unit => //; [exact: pd_psd|move=> i Hi; exact/pd_psd/hQ].
split; first exact: filter_returns H hi.
apply: (smooth_returns g H HT HL) => j Hj; first by apply: hi; rewrite HT HL.
have Hj' : (j.+1 < T)%N by rewrite HT HL.
by have [_ h2 _] := all_pd h0 hQ hR Hj'; exact: pd_unit.
Qed.
End Run.

(** The two-state example of ExCases.v. *)
Example C28_case (c : F) : 0 < c ->
  exact_run 2 1 2 (demo_kf oracle n2i c) (demo_Z oracle n2i c) (demo_U oracle n2i c) /\
  definite 2 1 2 (demo_kf oracle n2i c) (demo_Z oracle n2i c) (demo_U oracle n2i c) /\
  steps (demo_kf oracle n2i c) (demo_Z oracle n2i c) (demo_U oracle n2i c) = nrows (demo_Z oracle n2i c) /\
  nrows (demo_Z oracle n2i c) = 3%N.
Proof.
move=> Hc; split; first exact: demo_run; split; last by rewrite demo_steps.
by have [h0 h] := demo_pd oracle n2i Hc; split=> // k; rewrite demo_steps => /h.
Qed.

End Props.
