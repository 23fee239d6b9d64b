(** * Scalar64: one step of the scalar filter in double arithmetic *)
From Coq Require Import ZArith Floats.SpecFloat.
From mathcomp Require Import ssreflect ssrfun ssrbool eqtype ssrnat seq.
From Verif Require Import Np NpLemmas Kf Ekf ApiSpec Loop Frame FilterLemmas FilterThms NpShapes
  WellShaped Binary64 Ieee.

Set Implicit Arguments.
Unset Strict Implicit.
Unset Printing Implicit Defensive.
Local Notation B := binary64.

(** The number held by an array of one number. *)
Definition num1 (a : arr B) : f64 := @tofl B (nth (VI 0) (dat a) 0).

Definition s11 (d : dtype) (v : scal B) : arr B := Arr d [:: 1; 1] [:: v].
Definition f11 (x : f64) : arr B := s11 DFloat (VF (x : K B)).

Lemma layout11 (a : arr B) : mat_layout 1 1 a -> exists v, a = s11 (dt a) v.
Proof.
case: a => d sh xs; rewrite /mat_layout /wf /= => /andP [/andP [/eqP Hs _] /eqP E]; subst sh.
by case: xs Hs => // v [|//] _; exists v.
Qed.

Lemma T11 d v : np_T (s11 d v) = s11 d v. Proof. by []. Qed.

Lemma mm11 d e v w : promote d e = DFloat ->
  np_matmul (s11 d v) (s11 e w) = Ok (f11 (fmul (tofl v) (tofl w))).
Proof. by rewrite /f11 /s11 => H; rewrite /np_matmul /= H. Qed.

Lemma bin11 fz fk x (q : arr B) : cov_layout 1 q ->
  np_bin fz fk (f11 x) q = Ok (f11 (fk x (num1 q))).
Proof.
case: q => d sh xs; rewrite /cov_layout /wf /= => /andP [/andP [/eqP Hs _]].
case/or4P => /eqP E; subst sh; case: xs Hs => // v [|//] _; rewrite /np_bin /f11 /s11 /mk /= /num1 /=;
  by case: d; case: v.
Qed.

Lemma f_solve11 s x : f_solve 1 1 [:: s] [:: x] =
  if is_zero s then None else Some (fun i j => nth fzero (nth [::] [:: [:: fdiv x s]] j) i).
Proof. by rewrite /f_solve /=; case: (fltb _ _) => /=; case: s. Qed.

Lemma solve11 (s x : f64) :
  np_solve (f11 s) (f11 x) = if is_zero s then Raise LinAlgError else Ok (f11 (fdiv x s)).
Proof.
transitivity (if isSome (f_solve 1 1 [:: s] [:: x]) && true then
    Ok (f11 (if f_solve 1 1 [:: s] [:: x] is Some g then g 0 0 else S754_nan))
  else Raise LinAlgError); first by [].
by rewrite f_solve11; case: (is_zero s).
Qed.

Lemma sub11 (x y : f64) : np_sub (f11 x) (f11 y) = Ok (f11 (fsub x y)).
Proof. by []. Qed.

Lemma eye11 : np_identity B 1 = f11 fone. Proof. by []. Qed.

Section Step.
Variables (A H b u z Q R x : arr B) (P : arr B).
Hypotheses (HA : mat_layout 1 1 A) (HH : mat_layout 1 1 H) (HP : mat_layout 1 1 P).
Hypotheses (HQ : cov_layout 1 Q) (HR : cov_layout 1 R).

Definition prior64 (a p q : f64) : f64 := fadd (fmul a (fmul p a)) q.

Lemma predict11 r : dt A = DFloat \/ dt P = DFloat ->
  kf_predict A x (Some b) (Some u) P Q = Ok r -> r.2 = f11 (prior64 (num1 A) (num1 P) (num1 Q)).
Proof.
move=> Hd; rewrite /kf_predict; case: (project_state _ _ _ _) => //= y.
have [a EA] := layout11 HA; have [v EP] := layout11 HP.
rewrite EA EP /project_cov T11 mm11; last by case: Hd => ->; case: (dt _).
cbn [rbind]; rewrite /f11 mm11; last by case: (dt A).
by cbn [rbind]; rewrite /np_add (bin11 _ _ _ HQ) => -[<-].
Qed.

Variable pm : f64.
Hypotheses (H1 : num1 H = fone) (Dp : double pm).
Let s := fadd pm (num1 R).

Lemma hph : fmul fone (fmul pm fone) = pm.
Proof. by rewrite mul1r ?mul1l. Qed.

Lemma update11 g : (is_zero s /\ kf_update (np_identity B 1) H x (f11 pm) z R g = (g, Raise LinAlgError)) \/
  (is_zero s = false /\
   (kf_update (np_identity B 1) H x (f11 pm) z R g).1 = rcons g (f11 (fdiv pm s)) /\
   forall r, (kf_update (np_identity B 1) H x (f11 pm) z R g).2 = Ok r ->
     r.2 = f11 (fmul (fsub fone (fmul (fdiv pm s) fone)) pm)).
Proof.
have [h EH] := layout11 HH; have Eh : tofl h = fone by rewrite -H1 EH.
rewrite /kf_update /mbind /mlift /innov_cov EH /f11 T11 mm11 //; cbn [rbind].
rewrite /f11 mm11 ?promoteF //; cbn [rbind]; rewrite /np_add (bin11 _ _ _ HR).
rewrite /gain /f11 !T11 mm11 ?promoteF //; cbn [rbind]; rewrite solve11.
cbn [tofl]; rewrite Eh hph mul1l // -/s.
case Ez: (is_zero s); [by left|right; split=> //].
cbn [rbind]; rewrite /append_gain T11; split.
  case: (np_matmul _ x) => // zh; by case: (correct_state _ _ _ _).
case: (np_matmul _ x) => // zh; case: (correct_state _ _ _ _) => // y.
rewrite /correct_cov mm11 //; cbn [rbind]; rewrite eye11 sub11; cbn [rbind].
by rewrite /f11 mm11 //; cbn [tofl]; rewrite Eh => r -[<-].
Qed.

End Step.
