(** * ExCases: a concrete system in exact arithmetic, for the [_case] examples *)
From Coq Require Import ZArith.
From mathcomp Require Import all_ssreflect all_algebra.
From Verif Require Import Np NpLemmas Kf ApiSpec Exact Repr Textbook RunSpec Refine Refine2 Build Outputs
  Loewner KalmanAlg TextbookThms.

Set Implicit Arguments.
Unset Strict Implicit.
Unset Printing Implicit Defensive.
Import GRing.Theory Num.Theory.
Local Open Scope ring_scope.

Section Demo.
Variable F : realFieldType.
Variable oracle : oracle_type F.
Variable n2i : Z.
Notation N := (exact oracle n2i).

(** Two states (position and velocity), one sensor (position), a control that
    changes from step to step, unit noises scaled by c. *)
Definition demo_A : 'M[F]_2 := \matrix_(i, j) (i <= j)%N%:R.
Definition demo_H : 'M[F]_(1, 2) := \row_j (j == 0)%:R.
Definition demo (c : F) : model F 2 1 :=
  Model (fun _ => demo_A) (fun k => const_mx k%:R) (fun _ => demo_H) (fun _ => c%:M) (fun _ => c%:M)
        (fun k => (k.+1%:R)%:M) (const_mx 1) c%:M.

Definition demo_kf c : kf N := build oracle n2i (demo c) 3.
Definition demo_Z c : arr N := build_Z oracle n2i (demo c) 3.
Definition demo_U c : option (arr N) := build_U oracle n2i (demo c) 3.
Definition demo_s c : model F 2 1 := model_of 2 1 2 (demo_kf c) (demo_Z c) (demo_U c).

Lemma demo_run c : exact_run 2 1 2 (demo_kf c) (demo_Z c) (demo_U c). Proof. exact: build_run. Qed.
Lemma demo_steps c : steps (demo_kf c) (demo_Z c) (demo_U c) = 3%N. Proof. exact: build_steps. Qed.
Lemma demo_rows c : nrows (demo_Z c) = 3%N. Proof. by []. Qed.

Lemma demo_AV : demo_A \in unitmx.
Proof.
rewrite unitmxE -det_tr det_trig; last first.
  by apply/is_trig_mxP => i j H; rewrite !mxE leqNgt H.
by rewrite big1 ?unitr1 // => i _; rewrite !mxE leqnn.
Qed.

Lemma demo_model c k : (k < 3)%N -> let s := demo_s c in
  [/\ mA s k = demo_A, mc s k = const_mx k%:R, mH s k = demo_H, mQ s k = c%:M &
      mR s k = c%:M /\ mz s k = (k.+1%:R)%:M].
Proof. exact: build_model. Qed.
Lemma demo_model0 c : mx0 (demo_s c) = const_mx 1 /\ mP0 (demo_s c) = c%:M.
Proof. exact: build_model0. Qed.

Lemma demo_pd c : 0 < c ->
  pd (mP0 (demo_s c)) /\ forall k, (k < 3)%N -> pd (mQ (demo_s c) k) /\ pd (mR (demo_s c) k).
Proof.
move=> Hc; have pdc n : pd (c%:M : 'M[F]_n) by rewrite -scalemx1; apply: pd_scale => //; exact: pd_1.
split; first by case: (demo_model0 c) => _ ->.
by move=> k Hk; have [_ _ _ -> [-> _]] := demo_model c Hk.
Qed.

Lemma demo_innov c : 0 < c -> forall k, (k < 3)%N -> innov (demo_s c) k \in unitmx.
Proof.
move=> Hc; have [H0 H] := demo_pd Hc.
by move=> k; apply: innov_unit; [exact: pd_psd|move=> i /H [/pd_psd]|move=> i /H []].
Qed.

Lemma demo_ok c g : 0 < c -> exists g' st er, kf_filter (demo_kf c) (demo_Z c) (demo_U c) g = (g', Ok (st, er)).
Proof.
move=> Hc; apply: (filter_returns _ (demo_run c)) => k; rewrite demo_steps; exact: demo_innov.
Qed.

Lemma demo_pred c : 0 < c -> forall k, (k < 3)%N -> pd (pred_P (demo_s c) k).
Proof.
move=> Hc; have [H0 H] := demo_pd Hc => k Hk.
by have [] := @post_pd_Q _ _ _ (demo_s c) 3 (pd_psd H0) (fun i Hi => proj1 (H i Hi)) (fun i Hi => proj2 (H i Hi)) k Hk.
Qed.

Lemma demo_smooth_ok c g : 0 < c ->
  exists g' xs Ps, kf_smooth (demo_kf c) (demo_Z c) (demo_U c) g = (g', Ok (xs, Ps)).
Proof.
move=> Hc; apply: (@smooth_returns _ _ _ _ _ _ _ _ _ g (demo_run c) 2).
- by rewrite demo_steps.
- by [].
- move=> k; exact: demo_innov.
by move=> k Hk; apply: pd_unit; apply: demo_pred.
Qed.

End Demo.
