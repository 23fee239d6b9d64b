(** * DataIndep2: smoothed covariances do not depend on the data *)
From Coq Require Import ZArith Lia.
From mathcomp Require Import ssreflect ssrfun ssrbool eqtype ssrnat seq.
From Verif Require Import Np NpLemmas Kf Ekf ApiSpec Loop Frame FilterLemmas FilterThms
  DataIndep SmoothLemmas.

Set Implicit Arguments.
Unset Strict Implicit.
Unset Printing Implicit Defensive.
Arguments Z.of_nat : simpl never.

Section DI.
Variable N : num.
Notation arr := (arr N).

Lemma rts_cov (self : kf N) U U' k A f f' nx nx' r r' : f.2 = f'.2 -> nx.2 = nx'.2 ->
  rts_by_hand (kf_ahead self U k) A f nx = Ok r ->
  rts_by_hand (kf_ahead self U' k) A f' nx' = Ok r' -> r.2 = r'.2.
Proof.
move=> Ef En; rewrite /rts_by_hand /kf_ahead Ef En.
case E1: (kf_predict _ _ _ (Some (row U k.+1)) _ _) => [a|] //; cbn [rbind].
case E2: (kf_predict _ _ _ (Some (row U' k.+1)) _ _) => [a'|] //; cbn [rbind].
have Ea := predict_cov erefl E1 E2; rewrite -Ea.
case: (np_matmul f'.2 _) => // PA; cbn [rbind]; case: (np_solve _ _) => // X; cbn [rbind].
case: (np_sub nx.1 _) => // dx; cbn [rbind]; case: (np_matmul _ dx) => // Gdx; cbn [rbind].
case: (np_add f.1 Gdx) => // x; cbn [rbind].
case: (np_sub nx'.1 _) => // dx'; cbn [rbind]; case: (np_matmul _ dx') => // Gdx'; cbn [rbind].
case: (np_add f'.1 Gdx') => // x'; cbn [rbind].
case: (np_sub nx'.2 _) => // dP; cbn [rbind]; case: (np_matmul dP _) => // dPG; cbn [rbind].
case: (np_matmul _ dPG) => // G; cbn [rbind]; case: (np_add f'.2 G) => // P; cbn [rbind].
by move=> [<-] [<-].
Qed.

Lemma smooth_cov_indep (self : kf N) Z U Z' U' g g1 g2 st1 er1 st2 er2 :
  nrows Z = nrows Z' -> nrows (control Z U) = nrows (control Z' U') ->
  kf_smooth self Z U g = (g1, Ok (st1, er1)) ->
  kf_smooth self Z' U' g = (g2, Ok (st2, er2)) -> er1 = er2 /\ g1 = g2.
Proof.
move=> HZ HU E1 E2.
have [s1 [e1 [T [F1 ET O1 L1 R1]]]] := smooth_ok E1.
have [s2 [e2 [T' [F2 ET' O2 L2 R2]]]] := smooth_ok E2.
have Ee := filter_cov HZ HU F1 F2; case: Ee => Ee ->; split=> //.
have {ET'} ETT : T' = T by move: ET'; rewrite -HZ ET => -[].
subst T' e2.
have [_ [Hw1 Hd1 Hs1]] := O1; have [_ [Hw2 Hd2 Hs2]] := O2.
apply: (rows_ext (wf_wfs Hw1) (wf_wfs Hw2) _ Hs1 Hs2); first by rewrite Hd1.
suff H : forall d, d <= T -> row er1 (T - d) = row er2 (T - d).
  by move=> k Hk; have := H (T - k); rewrite leq_subr subKn // => /(_ isT).
elim=> [|d IH] Hd.
  by rewrite subn0; have [_ ->] := pairrow_eq L1; have [_ ->] := pairrow_eq L2.
have Hk1 : (T - d.+1).+1 = T - d by rewrite subnSK.
have HkT : T - d.+1 < T by rewrite -{2}(subnK Hd) addnS ltnS leq_addr.
have := IH (ltnW Hd); rewrite -Hk1 => {IH} IH.
have [x [P [A1 _ A2]]] := R1 _ HkT; have [x' [P' [B1 _ B2]]] := R2 _ HkT.
have -> : row er1 (T - d.+1) = fit [:: kf_size self; kf_size self] P by have := f_equal snd A2.
have -> : row er2 (T - d.+1) = fit [:: kf_size self; kf_size self] P' by have := f_equal snd B2.
congr fit; apply: (rts_cov _ _ A1 B1) => //; exact: IH.
Qed.

End DI.
