(** * DataIndep: covariances and gains of the standard filter do not depend on
    the data, any arithmetic *)
From Coq Require Import ZArith Lia.
From mathcomp Require Import ssreflect ssrfun ssrbool eqtype ssrnat seq.
From Verif Require Import Np NpLemmas Kf Ekf ApiSpec Loop Frame FilterLemmas FilterThms.

Set Implicit Arguments.
Unset Strict Implicit.
Unset Printing Implicit Defensive.

Section DataIndep.
Variable N : num.
Notation arr := (arr N).

Lemma predict_cov A x B u P Q A' x' B' u' r r' : A = A' ->
  @kf_predict N A x B u P Q = Ok r -> kf_predict A' x' B' u' P Q = Ok r' -> r.2 = r'.2.
Proof.
move=> <-; rewrite /kf_predict.
case: (project_state A x B u) => //= y; case: (project_state A x' B' u') => //= y'.
by case: (project_cov A P Q) => //= C [<-] [<-].
Qed.

Lemma update_cov I H x P z R x' z' g g1 g2 r r' :
  @kf_update N I H x P z R g = (g1, Ok r) -> kf_update I H x' P z' R g = (g2, Ok r') ->
  r.2 = r'.2 /\ g1 = g2.
Proof.
rewrite /kf_update /mbind /mlift.
case: (innov_cov _ _ _) => // S; case: (gain _ _ _) => //= Kk.
case: (np_matmul H x) => // zh; case: (np_matmul H x') => // zh'.
case: (correct_state x _ _ _) => // y; case: (correct_state x' _ _ _) => // y'.
by case: (correct_cov _ _ _ _) => // C [<- <-] [<- <-].
Qed.

Lemma by_hand_cov (self : kf N) Z U Z' U' k g g1 g2 r r' :
  by_hand self Z U k g = (g1, Ok r) -> by_hand self Z' U' k g = (g2, Ok r') ->
  r.2 = r'.2 /\ g1 = g2.
Proof.
elim: k g1 g2 r r' => [|k IH] g1 g2 r r' /=.
  by rewrite /mret => -[<- <-] [<- <-].
rewrite /mbind /mlift.
case E1: (by_hand self Z U k g) => [h1 [xP|e]] //.
case E2: (by_hand self Z' U' k g) => [h2 [xP'|e]] //.
have [EP ->] := IH _ _ _ _ E1 E2.
case: (np_getitem (kf_A self) _) => // A; case: (np_getitem (kf_H self) _) => // H.
case: (np_getitem (kf_B self) _) => // B.
case: (np_getitem U _) => // u; case: (np_getitem U' _) => // u'.
case: (np_getitem Z _) => // z; case: (np_getitem Z' _) => // z'.
case: (np_getitem (kf_Q self) _) => // Q; case: (np_getitem (kf_R self) _) => // R.
rewrite EP.
case E3: (kf_predict A xP.1 _ _ _ _) => [p|] //; case E4: (kf_predict A xP'.1 _ _ _ _) => [p'|] //.
rewrite (predict_cov (erefl A) E3 E4); exact: update_cov.
Qed.

Lemma filter_cov (self : kf N) Z U Z' U' g g1 g2 st1 er1 st2 er2 :
  nrows Z = nrows Z' -> nrows (control Z U) = nrows (control Z' U') ->
  kf_filter self Z U g = (g1, Ok (st1, er1)) ->
  kf_filter self Z' U' g = (g2, Ok (st2, er2)) -> er1 = er2 /\ g1 = g2.
Proof.
move=> HZ HU E1 E2.
have [O1 Hg1 Hr1 Hz1] := filter_ok E1; have [O2 Hg2 Hr2 Hz2] := filter_ok E2.
have Es : steps self Z U = steps self Z' U' by rewrite /steps /= HZ HU.
have [_ [Hw1 Hd1 Hs1]] := O1; have [_ [Hw2 Hd2 Hs2]] := O2.
rewrite -HZ in Hs2 Hz2; rewrite -Es in Hg2 Hr2 Hz2; split.
  apply: (rows_ext (wf_wfs Hw1) (wf_wfs Hw2) _ Hs1 Hs2); first by rewrite Hd1.
  move=> i Hi; case: (ltnP i (steps self Z U)) => His.
    have [x [P [A1 _ _ ->]]] := Hr1 i His; have [x' [P' [B1 _ _ ->]]] := Hr2 i His.
    by have [/= -> _] := by_hand_cov A1 B1.
  have Hb : steps self Z U <= i < nrows Z by rewrite His.
  by rewrite (Hz1 i Hb).2 (Hz2 i Hb).2.
have [xP1 A1] := filter_gains_at E1 (leqnn _).
have [|xP2 A2] := @filter_gains_at _ self Z' U' g g2 st2 er2 (steps self Z U) E2; first by rewrite Es.
have [_] := by_hand_cov A1 A2.
by rewrite -{1}Hg1 -Hg2 !take_size.
Qed.

End DataIndep.
