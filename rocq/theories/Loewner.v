(** * Loewner: positive semidefinite and positive definite matrices *)
From mathcomp Require Import all_ssreflect all_algebra.

Set Implicit Arguments.
Unset Strict Implicit.
Unset Printing Implicit Defensive.
Import GRing.Theory Num.Theory Order.Theory.
Local Open Scope ring_scope.

Section Loewner.
Variable F : realFieldType.

(** x' P x *)
Definition quad n (P : 'M[F]_n) (x : 'cV[F]_n) : F := (x^T *m P *m x) 0 0.

(** Symmetric positive semidefinite; symmetric positive definite. *)
Definition psd n (P : 'M[F]_n) : Prop := P^T = P /\ forall x : 'cV[F]_n, 0 <= quad P x.
Definition pd n (P : 'M[F]_n) : Prop := P^T = P /\ forall x : 'cV[F]_n, x != 0 -> 0 < quad P x.

(** The Loewner order on symmetric matrices. *)
Definition loewner n (P Q : 'M[F]_n) : Prop := psd (Q - P).

Lemma quadD n (P Q : 'M[F]_n) x : quad (P + Q) x = quad P x + quad Q x.
Proof. by rewrite /quad mulmxDr mulmxDl mxE. Qed.
Lemma quadN n (P : 'M[F]_n) x : quad (- P) x = - quad P x.
Proof. by rewrite /quad mulmxN mulNmx mxE. Qed.
Lemma quadB n (P Q : 'M[F]_n) x : quad (P - Q) x = quad P x - quad Q x.
Proof. by rewrite quadD quadN. Qed.
Lemma quadZ n c (P : 'M[F]_n) x : quad (c *: P) x = c * quad P x.
Proof. by rewrite /quad -scalemxAr -scalemxAl mxE. Qed.
Lemma quad0 n x : quad (0 : 'M[F]_n) x = 0.
Proof. by rewrite /quad mulmx0 mul0mx mxE. Qed.
Lemma quadx0 n (P : 'M[F]_n) : quad P 0 = 0.
Proof. by rewrite /quad mulmx0 mxE. Qed.
Lemma trN m n (A : 'M[F]_(m, n)) : (- A)^T = - A^T. Proof. by apply/matrixP => i j; rewrite !mxE. Qed.
Lemma trD m n (A B : 'M[F]_(m, n)) : (A + B)^T = A^T + B^T. Proof. by apply/matrixP => i j; rewrite !mxE. Qed.
Lemma trB m n (A B : 'M[F]_(m, n)) : (A - B)^T = A^T - B^T. Proof. by apply/matrixP => i j; rewrite !mxE. Qed.
Lemma trZ m n c (A : 'M[F]_(m, n)) : (c *: A)^T = c *: A^T. Proof. by apply/matrixP => i j; rewrite !mxE. Qed.
Lemma quadxN n (P : 'M[F]_n) x : quad P (- x) = quad P x.
Proof. by rewrite /quad trN mulmxN mulNmx mulNmx opprK. Qed.
Lemma quadxZ n (P : 'M[F]_n) c x : quad P (c *: x) = c * c * quad P x.
Proof. by rewrite /quad trZ -scalemxAr -!scalemxAl scalerA mxE. Qed.
Lemma quad_conj m n (A : 'M[F]_(m, n)) (P : 'M[F]_n) x : quad (A *m P *m A^T) x = quad P (A^T *m x).
Proof. by rewrite /quad trmx_mul trmxK !mulmxA. Qed.
Lemma quad_conjT m n (A : 'M[F]_(n, m)) (P : 'M[F]_n) x : quad (A^T *m P *m A) x = quad P (A *m x).
Proof. by rewrite /quad trmx_mul !mulmxA. Qed.
Lemma quad_tr n (P : 'M[F]_n) x : quad P^T x = quad P x.
Proof.
rewrite /quad; transitivity ((x^T *m P *m x)^T 0 0); last by rewrite mxE.
by rewrite !trmx_mul trmxK mulmxA.
Qed.

(** The bilinear form, for polarisation. *)
Lemma form_sym n (P : 'M[F]_n) (x y : 'cV[F]_n) : P^T = P ->
  (x^T *m P *m y) 0 0 = (y^T *m P *m x) 0 0.
Proof.
move=> E; transitivity ((x^T *m P *m y)^T 0 0); first by rewrite [in RHS]mxE.
by rewrite !trmx_mul trmxK E mulmxA.
Qed.

Lemma quad_add n (P : 'M[F]_n) (x y : 'cV[F]_n) : P^T = P ->
  quad P (x + y) = quad P x + quad P y + ((x^T *m P *m y) 0 0) *+ 2.
Proof.
move=> E; have mE (a b : 'M[F]_1) : (a + b) 0 0 = a 0 0 + b 0 0 by rewrite mxE.
rewrite /quad trD !(mulmxDl, mulmxDr) !mE (form_sym y x E) mulr2n.
move: ((x^T *m P *m x) 0 0) ((x^T *m P *m y) 0 0) ((y^T *m P *m y) 0 0) => a b c.
by rewrite [b + c]addrC addrACA.
Qed.

Lemma psd0 n : psd (0 : 'M[F]_n).
Proof. by split=> [|x]; rewrite ?trmx0 // quad0. Qed.

Lemma psd_add n (P Q : 'M[F]_n) : psd P -> psd Q -> psd (P + Q).
Proof.
by move=> [sP hP] [sQ hQ]; split=> [|x]; [rewrite trD sP sQ|rewrite quadD addr_ge0].
Qed.

Lemma psd_scale n c (P : 'M[F]_n) : 0 <= c -> psd P -> psd (c *: P).
Proof. by move=> Hc [sP hP]; split=> [|x]; [rewrite trZ sP|rewrite quadZ mulr_ge0]. Qed.

Lemma pd_scale n c (P : 'M[F]_n) : 0 < c -> pd P -> pd (c *: P).
Proof. by move=> Hc [sP hP]; split=> [|x Hx]; [rewrite trZ sP|rewrite quadZ mulr_gt0 // hP]. Qed.

Lemma pd_psd n (P : 'M[F]_n) : pd P -> psd P.
Proof.
move=> [sP hP]; split=> // x; have [->|Hx] := eqVneq x 0; first by rewrite quadx0.
exact/ltW/hP.
Qed.

Lemma pd_addl n (P Q : 'M[F]_n) : pd P -> psd Q -> pd (P + Q).
Proof.
by move=> [sP hP] [sQ hQ]; split=> [|x Hx]; [rewrite trD sP sQ|rewrite quadD ltr_paddr ?hP].
Qed.

Lemma pd_addr n (P Q : 'M[F]_n) : psd P -> pd Q -> pd (P + Q).
Proof. by move=> hP hQ; rewrite addrC; exact: pd_addl. Qed.

Lemma psd_conj m n (A : 'M[F]_(m, n)) (P : 'M[F]_n) : psd P -> psd (A *m P *m A^T).
Proof.
move=> [sP hP]; split=> [|x]; first by rewrite !trmx_mul trmxK sP mulmxA.
by rewrite quad_conj.
Qed.

Lemma psd_conjT m n (A : 'M[F]_(n, m)) (P : 'M[F]_n) : psd P -> psd (A^T *m P *m A).
Proof. by move=> hP; rewrite -{2}(trmxK A); exact: psd_conj. Qed.

Lemma mulmx_inj0 n (A : 'M[F]_n) (x : 'cV[F]_n) : A \in unitmx -> A *m x = 0 -> x = 0.
Proof. by move=> hA E; rewrite -(mulKmx hA x) E mulmx0. Qed.

Lemma pd_conj n (A P : 'M[F]_n) : A \in unitmx -> pd P -> pd (A *m P *m A^T).
Proof.
move=> hA [sP hP]; split=> [|x Hx]; first by rewrite !trmx_mul trmxK sP mulmxA.
rewrite quad_conj hP //; apply: contra Hx => /eqP E; apply/eqP.
by apply: mulmx_inj0 E; rewrite unitmx_tr.
Qed.

(** A matrix without kernel is invertible. *)
Lemma unit_ker0 n (P : 'M[F]_n) : (forall x : 'cV[F]_n, P *m x = 0 -> x = 0) -> P \in unitmx.
Proof.
move=> H; rewrite -unitmx_tr -row_free_unit -kermx_eq0.
apply/eqP/row_matrixP => i; rewrite row0; set r := row i _.
have E : r *m P^T = 0 by rewrite /r -row_mul mulmx_ker row0.
have : P *m r^T = 0 by rewrite -[P]trmxK -trmx_mul E trmx0.
by move/H => Er; rewrite -(trmxK r) Er trmx0.
Qed.

Lemma pd_unit n (P : 'M[F]_n) : pd P -> P \in unitmx.
Proof.
move=> [_ hP]; apply: unit_ker0 => x Ex; apply/eqP; apply: contraT => Hx.
by have := hP x Hx; rewrite /quad -mulmxA Ex mulmx0 mxE ltxx.
Qed.

Lemma invmx_mul n (A B : 'M[F]_n) : A \in unitmx -> B \in unitmx -> invmx (A *m B) = invmx B *m invmx A.
Proof.
move=> uA uB; have uAB : A *m B \in unitmx by rewrite unitmx_mul uA uB.
by rewrite -[RHS](mulmxK uAB) -!mulmxA (mulmxA (invmx A)) mulVmx // mul1mx mulKmx.
Qed.

Lemma invmx_eq n (A B : 'M[F]_n) : A *m B = 1%:M -> invmx A = B.
Proof. by move=> E; have [uA _] := mulmx1_unit E; rewrite -(mulKmx uA B) E mulmx1. Qed.

Lemma invmxZ' n c (A : 'M[F]_n) : c != 0 -> A \in unitmx -> invmx (c *: A) = c^-1 *: invmx A.
Proof.
move=> hc uA; apply: invmx_eq; rewrite -scalemxAl -scalemxAr scalerA mulfV // scale1r.
exact: mulmxV.
Qed.

Lemma sym_inv n (P : 'M[F]_n) : P^T = P -> (invmx P)^T = invmx P.
Proof. by move=> E; rewrite trmx_inv E. Qed.

Lemma invmxZl n (P : 'M[F]_n) : P \in unitmx -> P *m invmx P = 1%:M.
Proof. exact: mulmxV. Qed.

Lemma inv_conj n (P : 'M[F]_n) : P \in unitmx -> P^T = P -> invmx P = invmx P *m P *m (invmx P)^T.
Proof. by move=> hP sP; rewrite mulVmx // mul1mx sym_inv. Qed.

Lemma psd_inv n (P : 'M[F]_n) : P \in unitmx -> psd P -> psd (invmx P).
Proof. by move=> hU hP; rewrite (inv_conj hU) ?hP.1 //; exact: psd_conj. Qed.

Lemma pd_inv n (P : 'M[F]_n) : pd P -> pd (invmx P).
Proof.
move=> hP; have hU := pd_unit hP; rewrite (inv_conj hU) ?hP.1 //.
by apply: pd_conj => //; rewrite unitmx_inv.
Qed.

Lemma pd_1 n : pd (1%:M : 'M[F]_n).
Proof.
split=> [|x Hx]; first exact: trmx1.
rewrite /quad mulmx1 mxE lt0r; apply/andP; split; last first.
  by apply: sumr_ge0 => i _; rewrite mxE -expr2 sqr_ge0.
apply: contra Hx => /eqP E; apply/eqP/colP => i; rewrite mxE.
have /psumr_eq0P H : forall j, true -> 0 <= x^T 0 j * x j 0.
  by move=> j _; rewrite mxE -expr2 sqr_ge0.
by have /eqP := H E i isT; rewrite mxE mulf_eq0 orbb => /eqP.
Qed.

(** A semidefinite matrix kills the vectors on which its form vanishes. *)
Lemma psd_ker n (P : 'M[F]_n) x : psd P -> quad P x = 0 -> P *m x = 0.
Proof.
move=> [sP hP] E.
have Hy (y : 'cV[F]_n) : (y^T *m P *m x) 0 0 = 0.
  apply/eqP; apply: contraT => Hb; set b := (_ *m _) 0 0 in Hb.
  have Hs t : 0 <= quad P y + (t * b) *+ 2.
    have := hP (y + t *: x); rewrite quad_add // quadxZ E mulr0 addr0.
    by rewrite -scalemxAr mxE.
  have := Hs (- (quad P y + 1) / (2 * b)).
  have -> : (- (quad P y + 1) / (2 * b) * b) *+ 2 = - (quad P y + 1).
    have H2 : (2 : F) != 0 by rewrite pnatr_eq0.
    by rewrite -mulr_natr -mulrA -[b * 2]mulrC mulfVK // mulf_neq0.
  by rewrite opprD addrA addrN add0r oppr_ge0 ler10.
apply/colP => i; rewrite [RHS]mxE -(Hy (delta_mx i 0)).
by rewrite -[in RHS]mulmxA trmx_delta -rowE [RHS]mxE.
Qed.

Lemma psd_unit_pd n (P : 'M[F]_n) : psd P -> P \in unitmx -> pd P.
Proof.
move=> hP hU; split=> [|x Hx]; first by case: hP.
rewrite lt0r (hP.2 x) andbT; apply: contra Hx => /eqP E.
by apply/eqP; apply: (mulmx_inj0 hU); apply: psd_ker.
Qed.

(** Order. *)
Lemma loewner_refl n (P : 'M[F]_n) : loewner P P.
Proof. by rewrite /loewner subrr; exact: psd0. Qed.

Lemma loewner_trans n (P Q R : 'M[F]_n) : loewner P Q -> loewner Q R -> loewner P R.
Proof. by rewrite /loewner => H1 H2; rewrite -(subrK Q R) -addrA; exact: psd_add. Qed.

Lemma psd_eq0 n (P : 'M[F]_n) : psd P -> psd (- P) -> P = 0.
Proof.
move=> hP [_ hN]; apply/matrixP => i j; rewrite [RHS]mxE.
have H : P *m delta_mx j 0 = 0 :> 'cV_n.
  apply: (psd_ker hP); apply/eqP; rewrite eq_le (hP.2 _) andbT.
  by rewrite -oppr_ge0 -quadN hN.
by have := congr1 (fun M : 'cV_n => M i 0) H; rewrite -colE !mxE.
Qed.

Lemma loewner_anti n (P Q : 'M[F]_n) : loewner P Q -> loewner Q P -> P = Q.
Proof.
move=> H1 H2; apply/esym/eqP; rewrite -subr_eq0; apply/eqP/psd_eq0 => //.
by rewrite opprB.
Qed.

Lemma loewner_psd n (P Q : 'M[F]_n) : psd P -> loewner P Q -> psd Q.
Proof. by move=> H1 H2; rewrite -(subrK P Q); exact: psd_add. Qed.

Lemma loewner_add n (P Q P' Q' : 'M[F]_n) : loewner P Q -> loewner P' Q' -> loewner (P + P') (Q + Q').
Proof. by rewrite /loewner opprD addrACA; exact: psd_add. Qed.

Lemma loewner_conj m n (A : 'M[F]_(m, n)) (P Q : 'M[F]_n) : loewner P Q ->
  loewner (A *m P *m A^T) (A *m Q *m A^T).
Proof. by rewrite /loewner -mulmxBl -mulmxBr; exact: psd_conj. Qed.

(** Diagonal entries and traces. *)
Lemma quad_delta n (P : 'M[F]_n) i : quad P (delta_mx i 0) = P i i.
Proof. by rewrite /quad trmx_delta -rowE -colE !mxE. Qed.

Lemma psd_diag n (P : 'M[F]_n) i : psd P -> 0 <= P i i.
Proof. by move=> [_ hP]; rewrite -quad_delta. Qed.

Lemma pd_diag n (P : 'M[F]_n) i : pd P -> 0 < P i i.
Proof.
move=> [_ hP]; rewrite -quad_delta; apply: hP; apply/eqP => /colP /(_ i).
by rewrite !mxE !eqxx /= => /eqP; rewrite oner_eq0.
Qed.

Lemma loewner_diag n (P Q : 'M[F]_n) i : loewner P Q -> P i i <= Q i i.
Proof. by move/psd_diag=> /(_ i); rewrite !mxE subr_ge0. Qed.

Lemma loewner_trace n (P Q : 'M[F]_n) : loewner P Q -> \tr P <= \tr Q.
Proof. by move=> H; rewrite /mxtrace; apply: ler_sum => i _; exact: loewner_diag. Qed.

Lemma psd_scalar (P : 'M[F]_1) : psd P <-> 0 <= P 0 0.
Proof.
split=> [/psd_diag //|H]; split=> [|x]; first by rewrite [P]mx11_scalar tr_scalar_mx.
rewrite [P]mx11_scalar /quad scalar_mxC mul_scalar_mx -scalemxAl mxE mulr_ge0 //.
by have := (pd_psd (pd_1 1)).2 x; rewrite /quad mulmx1.
Qed.

Lemma pd_scalar (P : 'M[F]_1) : pd P <-> 0 < P 0 0.
Proof.
split=> [/pd_diag //|H]; split=> [|x Hx]; first by rewrite [P]mx11_scalar tr_scalar_mx.
rewrite [P]mx11_scalar /quad scalar_mxC mul_scalar_mx -scalemxAl mxE mulr_gt0 //.
by have := (pd_1 1).2 x Hx; rewrite /quad mulmx1.
Qed.

(** Block-diagonal matrices. *)
Lemma quad_col m n (P : 'M[F]_(m + n)) x y :
  quad P (col_mx x y) = quad (ulsubmx P) x + (x^T *m ursubmx P *m y) 0 0 +
    ((y^T *m dlsubmx P *m x) 0 0 + quad (drsubmx P) y).
Proof.
rewrite /quad -[in LHS](submxK P) tr_col_mx mul_row_block mul_row_col !mulmxDl !mxE.
by rewrite addrACA.
Qed.

Lemma psd_block m n (P : 'M[F]_m) (Q : 'M[F]_n) : psd P -> psd Q -> psd (block_mx P 0 0 Q).
Proof.
move=> [sP hP] [sQ hQ]; split=> [|x]; first by rewrite tr_block_mx sP sQ !trmx0.
rewrite -(vsubmxK x) quad_col block_mxKul block_mxKur block_mxKdl block_mxKdr.
by rewrite !mulmx0 !mul0mx !mxE !addr0 add0r addr_ge0.
Qed.

Lemma pd_block m n (P : 'M[F]_m) (Q : 'M[F]_n) : pd P -> pd Q -> pd (block_mx P 0 0 Q).
Proof.
move=> hP hQ; split=> [|x Hx]; first by rewrite tr_block_mx hP.1 hQ.1 !trmx0.
rewrite -(vsubmxK x) quad_col block_mxKul block_mxKur block_mxKdl block_mxKdr.
rewrite !mulmx0 !mul0mx !mxE !addr0 add0r.
have [E|Hu] := eqVneq (usubmx x) 0; last by rewrite ltr_paddr ?hP.2 // (pd_psd hQ).2.
rewrite ltr_paddl ?(pd_psd hP).2 // hQ.2 //; apply: contra Hx => /eqP E'.
by rewrite -(vsubmxK x) E E' col_mx0.
Qed.

End Loewner.
