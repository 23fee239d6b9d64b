(** * Sensit: how far two runs of one system with different data can be apart *)
From mathcomp Require Import all_ssreflect all_algebra.
From Verif Require Import RingTac Loewner KalmanAlg Textbook TextbookThms Prob RobustSpec BestLin Factor Robust Robust2 Energy.

Set Implicit Arguments.
Unset Strict Implicit.
Unset Printing Implicit Defensive.
Import GRing.Theory Num.Theory Order.Theory.
Local Open Scope ring_scope.

Section Sensit.
Variable F : realFieldType.
Variables (n m : nat) (s s' : model F n m) (T : nat).
Hypothesis e0 : mP0 s' = mP0 s.
Hypothesis ek : forall k, (k < T)%N ->
  [/\ mA s' k = mA s k, mH s' k = mH s k, mQ s' k = mQ s k & mR s' k = mR s k].

Lemma ext_err_form k : (k <= T)%N -> err_form s' k = err_form s k.
Proof.
elim: k => [|k IH] Hk //; cbn [err_form]; have [a b c d] := ek Hk.
by rewrite IH 1?ltnW // !gainE (ext_pred e0 ek Hk) a b d.
Qed.
Lemma ext_errs_form L k : (L < T)%N -> (k <= L)%N -> errs_form s' L k = errs_form s L k.
Proof.
move=> HL _; rewrite /errs_form; have : (L - k <= L)%N := leq_subr k L.
elim: (L - k)%N => [|i IH] Hi; first exact: ext_err_form.
have Hj : (L - i.+1 < L)%N by rewrite subnSK // leq_subr.
have HjT : ((L - i.+1).+1 < T)%N by exact: leq_ltn_trans Hj HL.
cbn [back_form]; rewrite IH 1?ltnW // !sgainE /errp_form !ext_err_form 1?ltnW //.
by rewrite (ext_post e0 ek) 1?ltnW //; have [-> _ -> _] := ek HjT.
Qed.

(** Initial states, inputs and readings of the two runs. *)
Variables (l : 'cV[F]_n) (a : nat -> 'cV[F]_n) (b : nat -> 'cV[F]_m).
Hypothesis d0 : mx0 s' = mx0 s + mP0 s *m l.
Hypothesis dk : forall k, (k < T)%N -> mc s' k = mc s k + mQ s k *m a k /\ mz s' k = mz s k + mR s k *m b k.

Fixpoint quiet (k : nat) : 'cV[F]_n := if k is j.+1 then mA s j *m quiet j + mc s j else mx0 s.

Lemma evalf_sub d (f : nform F n m d) e w v e' w' v' :
  evalf T f e w v - evalf T f e' w' v' = evalf T f (e - e') (fun j => w j - w' j) (fun j => v j - v' j).
Proof.
rewrite /evalf !opprD mulmxBr addrACA; congr (_ + _).
  rewrite addrACA -sumrB; congr (_ + _); apply: eq_bigr => j _; by rewrite mulmxBr.
by rewrite -sumrB; apply: eq_bigr => j _; rewrite mulmxBr.
Qed.

Lemma diff_evalf d (f : nform F n m d) :
  evalf T f (quiet 0 - mx0 s) (fun j => quiet j.+1 - (mA s j *m quiet j + mc s j)) (fun j => mz s j - mH s j *m quiet j.+1) -
  evalf T f (quiet 0 - mx0 s') (fun j => quiet j.+1 - (mA s' j *m quiet j + mc s' j)) (fun j => mz s' j - mH s' j *m quiet j.+1) =
  evalf T f (mP0 s *m l) (fun j => mQ s j *m a j) (fun j => mR s j *m - b j).
Proof.
rewrite evalf_sub; apply: eq_evalf.
  by rewrite d0 subrr add0r opprB addrC addKr.
move=> j Hj; have [-> -> _ _] := ek Hj; have [-> ->] := dk Hj.
split.
  by rewrite /= subrr add0r opprB addrA addrC addKr.
rewrite [RHS]mulmxN; move: (mH s j *m quiet j.+1) (mz s j) (mR s j *m b j) => x y z.
by rewrite opprB addrA subrK opprD addrA subrr sub0r.
Qed.

Hypothesis h0 : psd (mP0 s).
Hypothesis hk : forall k, (k < T)%N -> psd (mQ s k) /\ psd (mR s k).
Hypothesis inn : forall k, (k < T)%N -> innov s k \in unitmx.

Lemma energy_opp : energy s T l a (fun j => - b j) = energy s T l a b.
Proof. by rewrite /energy; congr (_ + _); apply: eq_bigr => j _; rewrite quadxN. Qed.

Lemma diff_sub (X y y' : 'cV[F]_n) : y' - y = (X - y) - (X - y').
Proof. by rewrite opprB [RHS]addrC addrA subrK. Qed.

Lemma sens_bound c : dot c (post_x s' T - post_x s T) ^+ 2 <= quad (post_P s T) c * energy s T l a b.
Proof.
rewrite (diff_sub (quiet T)) (det_err s quiet (leqnn T)) (det_err s' quiet (leqnn T)) ext_err_form //.
rewrite diff_evalf -(err_covf inn h0 hk (leqnn T)) -energy_opp energyE; exact: form_bound.
Qed.
Lemma sens_bound_smooth L c k : T = L.+1 -> (forall j, (j < L)%N -> pred_P s j.+1 \in unitmx) -> (k <= L)%N ->
  dot c (smooth_x s' L k - smooth_x s L k) ^+ 2 <= quad (smooth_P s L k) c * energy s T l a b.
Proof.
move=> HT upr Hk; have HL : (L < T)%N by rewrite HT.
rewrite (diff_sub (quiet k.+1)) (det_errs s quiet HL Hk) (det_errs s' quiet HL Hk) ext_errs_form //.
rewrite diff_evalf -(errs_covf inn h0 hk HL upr Hk) -energy_opp energyE; exact: form_bound.
Qed.
End Sensit.
