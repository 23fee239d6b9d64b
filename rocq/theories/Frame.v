(** * Frame: what a method call does to the list of gains, for every arithmetic *)
From Coq Require Import ZArith Lia.
From mathcomp Require Import ssreflect ssrfun ssrbool eqtype ssrnat seq.
From Verif Require Import Np NpLemmas Kf Ekf ApiSpec Loop.

Set Implicit Arguments.
Unset Strict Implicit.
Unset Printing Implicit Defensive.

Section Frame.
Variable N : num.
Notation arr := (arr N).

(** The method only appends, and neither what it appends nor its outcome
    depends on what the list held. *)
Definition framed T (m : meth N T) : Prop :=
  forall g, m g = (g ++ (m [::]).1, (m [::]).2).

Lemma framed_ret T (x : T) : framed (mret x).
Proof. by move=> g; rewrite /mret /= cats0. Qed.

Lemma framed_lift T (r : res T) : framed (mlift r).
Proof. by move=> g; rewrite /mlift /= cats0. Qed.

Lemma framed_append (a : arr) : framed (append_gain a).
Proof. by move=> g; rewrite /append_gain /= -cats1. Qed.

Lemma framed_bind S T (m : meth N S) (f : S -> meth N T) :
  framed m -> (forall x, framed (f x)) -> framed (mbind m f).
Proof.
move=> Hm Hf g; rewrite /mbind (Hm g); case: (m [::]) => [g1 [x|e]] //=.
by rewrite (Hf x (g ++ g1)) (Hf x g1) /= catA.
Qed.

Lemma framed_update I H x P z R : framed (@kf_update N I H x P z R).
Proof.
rewrite /kf_update.
do 2 (apply: framed_bind => [|?]; first exact: framed_lift).
apply: framed_bind => [|_]; first exact: framed_append.
do 3 (apply: framed_bind => [|?]; first exact: framed_lift).
exact: framed_ret.
Qed.

Lemma framed_eupdate self x P z R : framed (@ekf_update N self x P z R).
Proof.
rewrite /ekf_update.
do 3 (apply: framed_bind => [|?]; first exact: framed_lift).
apply: framed_bind => [|_]; first exact: framed_append.
do 3 (apply: framed_bind => [|?]; first exact: framed_lift).
exact: framed_ret.
Qed.

Lemma framed_loop S step (rows : seq S) k xP out :
  (forall s x, framed (step s x)) -> framed (@filter_loop N S step rows k xP out).
Proof.
move=> Hs; elim: rows k xP out => [|s rows IH] k xP out /=; first exact: framed_ret.
apply: framed_bind => [|?]; first exact: Hs.
by apply: framed_bind => [|?]; [apply: framed_lift|apply: IH].
Qed.

Lemma framed_iter S step (rows : seq S) xP :
  (forall s x, framed (step s x)) -> framed (@iter_rows N S step rows xP).
Proof.
move=> Hs; elim: rows xP => [|s rows IH] xP /=; first exact: framed_ret.
by apply: framed_bind => [|?]; [apply: Hs|apply: IH].
Qed.

Lemma framed_step I s xP : framed (@kf_step N I s xP).
Proof.
by apply: framed_bind => [|?]; [apply: framed_lift|apply: framed_update].
Qed.

Lemma framed_estep self s xP : framed (@ekf_step N self s xP).
Proof.
by apply: framed_bind => [|?]; [apply: framed_lift|apply: framed_eupdate].
Qed.

Lemma framed_filter self Z U : framed (@kf_filter N self Z U).
Proof.
do 8 (apply: framed_bind => [|?]; first exact: framed_lift).
apply: framed_loop => s x; exact: framed_step.
Qed.

Lemma framed_efilter self Z U : framed (@ekf_filter N self Z U).
Proof.
do 5 (apply: framed_bind => [|?]; first exact: framed_lift).
apply: framed_loop => s x; exact: framed_estep.
Qed.

Lemma framed_smooth self Z U : framed (@kf_smooth N self Z U).
Proof.
apply: framed_bind => [|?]; first exact: framed_filter.
do 2 (apply: framed_bind => [|?]; first exact: framed_lift).
exact: framed_lift.
Qed.

Lemma framed_esmooth self Z U : framed (@ekf_smooth N self Z U).
Proof.
apply: framed_bind => [|?]; first exact: framed_efilter.
do 2 (apply: framed_bind => [|?]; first exact: framed_lift).
exact: framed_lift.
Qed.

Lemma framed_run c self : framed (@run_meth N c self).
Proof.
case: c => *; [exact: framed_lift|exact: framed_update|exact: framed_filter|exact: framed_smooth].
Qed.

Lemma framed_erun c self : framed (@e_run N c self).
Proof.
case: c => *; [exact: framed_lift|exact: framed_eupdate|exact: framed_efilter|exact: framed_esmooth].
Qed.

(** The gains already logged are not read. *)
Lemma run_with_gains c self g : @run_meth N c (with_gains self g) = run_meth c self.
Proof. by case: c. Qed.

Lemma e_run_with_gains c self g : @e_run N c (e_with_gains self g) = e_run c self.
Proof. by case: c. Qed.

Lemma with_gainsK (self : kf N) : with_gains self (kf_gains self) = self.
Proof. by case: self. Qed.

Lemma e_with_gainsK (self : ekf N) : e_with_gains self (e_gains self) = self.
Proof. by case: self. Qed.

Lemma kf_callE self c : @kf_call N self c =
  (with_gains self (kf_gains self ++ (run_meth c self [::]).1), (run_meth c self [::]).2).
Proof. by rewrite /kf_call (framed_run c self (kf_gains self)). Qed.

Lemma e_callE self c : @e_call N self c =
  (e_with_gains self (e_gains self ++ (e_run c self [::]).1), (e_run c self [::]).2).
Proof. by rewrite /e_call (framed_erun c self (e_gains self)). Qed.

Lemma kf_callsE cs self : @kf_calls N self cs =
  (with_gains self (kf_gains self ++ flatten [seq (run_meth c self [::]).1 | c <- cs]),
   [seq (run_meth c self [::]).2 | c <- cs]).
Proof.
elim: cs self => [|c cs IH] self /=; first by rewrite cats0 with_gainsK.
rewrite kf_callE IH /= -catA.
by [].
Qed.

Lemma e_callsE cs self : @e_calls N self cs =
  (e_with_gains self (e_gains self ++ flatten [seq (e_run c self [::]).1 | c <- cs]),
   [seq (e_run c self [::]).2 | c <- cs]).
Proof.
elim: cs self => [|c cs IH] self /=; first by rewrite cats0 e_with_gainsK.
rewrite e_callE IH /= -catA.
by [].
Qed.

(** ** How many gains *)

(** At most one gain, exactly one on success. *)
Definition logs1 T (m : meth N T) : Prop :=
  match m [::] with
  | (g, Ok _) => size g = 1
  | (g, Raise _) => size g <= 1
  end.

Lemma logs1_update I H x P z R : logs1 (@kf_update N I H x P z R).
Proof.
rewrite /logs1 /kf_update /mbind /mlift.
case: (innov_cov _ _ _) => // S; case: (gain _ _ _) => //= Kk.
case: (np_matmul _ _) => //= zhat; case: (correct_state _ _ _ _) => // x'.
by case: (correct_cov _ _ _ _).
Qed.

Lemma logs1_eupdate self x P z R : logs1 (@ekf_update N self x P z R).
Proof.
rewrite /logs1 /ekf_update /mbind /mlift.
case: (e_jH _ _) => // H.
case: (innov_cov _ _ _) => // S; case: (gain _ _ _) => //= Kk.
case: (e_h _ _) => //= zhat; case: (correct_state _ _ _ _) => // x'.
by case: (correct_cov _ _ _ _).
Qed.

Lemma logs1_step I s xP : logs1 (@kf_step N I s xP).
Proof.
rewrite /logs1 /kf_step {1}/mbind /mlift; case: (kf_predict _ _ _ _ _ _) => // pr.
exact: logs1_update.
Qed.

Lemma logs1_estep self s xP : logs1 (@ekf_step N self s xP).
Proof.
rewrite /logs1 /ekf_step {1}/mbind /mlift; case: (ekf_predict _ _ _ _ _) => // pr.
exact: logs1_eupdate.
Qed.

Lemma iter_rows_size S step (rows : seq S) xP g :
  (forall s x, framed (step s x)) -> (forall s x, logs1 (step s x)) ->
  match @iter_rows N S step rows xP g with
  | (g', Ok _) => size g' = size g + size rows
  | (g', Raise _) => size g' <= size g + size rows
  end.
Proof.
move=> Hf H1; elim: rows xP g => [|s rows IH] xP g /=; first by rewrite addn0.
rewrite /mbind (Hf s xP g); move: (H1 s xP); rewrite /logs1.
case: (step s xP [::]) => [g1 [y|e]] /= Hs.
  by move: (IH y (g ++ g1)); rewrite size_cat Hs addn1 addSnnS.
by rewrite size_cat leq_add2l (leq_trans Hs).
Qed.

(** Later steps keep the gains of earlier ones. *)
Lemma iter_rows_take S step (rows : seq S) xP g j gj y g' r :
  (forall s x, framed (step s x)) -> (forall s x, logs1 (step s x)) ->
  j <= size rows ->
  iter_rows step (take j rows) xP g = (gj, Ok y) ->
  @iter_rows N S step rows xP g = (g', r) -> gj = take (size g + j) g'.
Proof.
move=> Hf H1 Hj E1 E2.
move: (iter_rows_size (take j rows) xP g Hf H1); rewrite E1 size_takel // => Hs.
move: E2; rewrite -{1}(cat_take_drop j rows) iter_rows_cat /mbind E1.
rewrite (framed_iter (drop j rows) y Hf gj) => -[<- _].
by rewrite -Hs take_size_cat.
Qed.

End Frame.
