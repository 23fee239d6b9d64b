(** * Props44: C110 continued: over the real numbers, with sine and cosine, the
    Jacobians of the pendulum programs are the derivatives of their f and h *)
From Coq Require Import Reals Lra ZArith.
From mathcomp Require Import all_ssreflect all_algebra.
From Verif Require Import RReal Examples.

Set Implicit Arguments.
Unset Strict Implicit.
Unset Printing Implicit Defensive.
Import GRing.Theory.
Local Open Scope ring_scope.

(** Coordinate i of x + t e_j. *)
Definition along (x : 'cV[R]_2) (j : 'I_2) (t : R) : 'cV[R]_2 := x + t *: delta_mx j 0.

Lemma alongE x j t i : along x j t i 0 = Rplus (x i 0) (Rmult t (if i == j then R1 else R0)).
Proof. by rewrite !mxE eqxx andbT; case: (i == j). Qed.

Lemma d_line (a u : R) : derivable_pt_lim (fun t => Rplus a (Rmult t u)) R0 u.
Proof.
have h := derivable_pt_lim_plus (fct_cte a) (mult_real_fct u id) R0 R0 (Rmult u R1)
  (derivable_pt_lim_const a R0) (derivable_pt_lim_scal id u R0 R1 (derivable_pt_lim_id R0)).
have e : Rplus R0 (Rmult u R1) = u by lra.
rewrite e in h; apply: (derivable_pt_lim_ext _ _ _ _ _ h) => t.
by rewrite /plus_fct /fct_cte /mult_real_fct /id; lra.
Qed.

Lemma d_sin (a u : R) : derivable_pt_lim (fun t => Rtrigo_def.sin (Rplus a (Rmult t u))) R0 (Rmult (Rtrigo_def.cos a) u).
Proof.
have h := derivable_pt_lim_comp _ _ _ _ _ (d_line a u) (derivable_pt_lim_sin (Rplus a (Rmult R0 u))).
have e : Rplus a (Rmult R0 u) = a by lra.
by rewrite e in h; exact: h.
Qed.

Theorem C110_jacobians (dt G : R) (x : 'cV[R]_2) :
  (forall i j, derivable_pt_lim (fun t => swing Rtrigo_def.sin dt G (along x j t) i 0) R0
                 (swing_jac Rtrigo_def.cos dt G x i j)) /\
  (forall j, derivable_pt_lim (fun t => seen Rtrigo_def.sin (along x j t)) R0
               (seen_jac Rtrigo_def.cos x 0 j)).
Proof.
split.
  move=> i j; set u := if 0 == j then R1 else R0; set w := if 1 == j then R1 else R0.
  case hi : (i == 0).
    have h := derivable_pt_lim_plus _ _ _ _ _ (d_line (x 0 0) u) (derivable_pt_lim_scal _ dt _ _ (d_line (x 1 0) w)).
    have -> : swing_jac Rtrigo_def.cos dt G x i j = Rplus u (Rmult dt w).
      rewrite mxE hi /u /w ![_ == j]eq_sym; case: j {h u w} => -[|[|]] // hj; cbn; lra.
    apply: (derivable_pt_lim_ext _ _ _ _ _ h) => t.
    by rewrite mxE hi /plus_fct /mult_real_fct !alongE.
  have h := derivable_pt_lim_minus _ _ _ _ _ (d_line (x 1 0) w) (derivable_pt_lim_scal _ (Rmult G dt) _ _ (d_sin (x 0 0) u)).
  have -> : swing_jac Rtrigo_def.cos dt G x i j = Rminus w (Rmult (Rmult G dt) (Rmult (Rtrigo_def.cos (x 0 0)) u)).
    rewrite mxE hi /u /w ![_ == j]eq_sym; case: j {h u w} => -[|[|]] // hj; cbn; lra.
  apply: (derivable_pt_lim_ext _ _ _ _ _ h) => t.
  by rewrite mxE hi /minus_fct /mult_real_fct !alongE.
move=> j; rewrite mxE; set u := if 0 == j then R1 else R0.
have -> : (if j == 0 then Rtrigo_def.cos (x 0 0) else 0) = Rmult (Rtrigo_def.cos (x 0 0)) u.
  by rewrite /u [0 == j]eq_sym; case: (j == 0); rewrite ?Rmult_1_r ?Rmult_0_r.
by apply: (derivable_pt_lim_ext _ _ _ _ _ (d_sin (x 0 0) u)) => t; rewrite /seen alongE.
Qed.
