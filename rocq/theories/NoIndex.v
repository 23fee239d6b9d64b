(** * NoIndex: which exceptions numpy operations can raise *)
From Coq Require Import ZArith Lia.
From mathcomp Require Import ssreflect ssrfun ssrbool eqtype ssrnat seq.
From Verif Require Import Np NpLemmas Kf Ekf ApiSpec Loop Frame FilterLemmas FilterThms SmoothLemmas.

Set Implicit Arguments.
Unset Strict Implicit.
Unset Printing Implicit Defensive.
Arguments Z.of_nat : simpl never.

Section NoIndex.
Variable N : num.
Notation arr := (arr N).

(** The outcome is not an IndexError. *)
Definition noidx T (r : res T) : Prop := r <> Raise IndexError.

Lemma noidx_bind S T (m : res S) (f : S -> res T) :
  noidx m -> (forall x, m = Ok x -> noidx (f x)) -> noidx (rbind m f).
Proof. by rewrite /noidx; case: m => [x|e] H Hf //=; [exact: Hf|move=> [E]; apply: H; rewrite E]. Qed.

Lemma noidx_matmul (a b : arr) : noidx (np_matmul a b).
Proof.
rewrite /noidx /np_matmul; case: (shp a) => // d s; case: (shp b) => // e t.
by case: ifP => // _; case: (bshape _ _).
Qed.

Lemma noidx_bin fz fk (a b : arr) : noidx (np_bin fz fk a b).
Proof. by rewrite /noidx /np_bin; case: (bshape _ _). Qed.

Lemma noidx_add (a b : arr) : noidx (np_add a b). Proof. exact: noidx_bin. Qed.
Lemma noidx_sub (a b : arr) : noidx (np_sub a b). Proof. exact: noidx_bin. Qed.

Lemma noidx_solve (a b : arr) : noidx (np_solve a b).
Proof.
rewrite /noidx /np_solve; case: ifP => // _; case: ifP => // _; case: ifP => // _.
by case: ifP => // _; case: (bshape _ _) => // bs; case: ifP.
Qed.

Lemma noidx_ok T (x : T) : noidx (Ok x). Proof. by []. Qed.

Ltac nostep :=
  match goal with
  | |- noidx (rbind _ _) => apply: noidx_bind => [|? _]
  | |- noidx (np_matmul _ _) => exact: noidx_matmul
  | |- noidx (np_add _ _) => exact: noidx_add
  | |- noidx (np_sub _ _) => exact: noidx_sub
  | |- noidx (np_solve _ _) => exact: noidx_solve
  | |- noidx (Ok _) => exact: noidx_ok
  end.

Lemma noidx_project_cov A P Q : noidx (@project_cov N A P Q).
Proof. by rewrite /project_cov; repeat nostep. Qed.

Lemma noidx_innov H P R : noidx (@innov_cov N H P R).
Proof. by rewrite /innov_cov; repeat nostep. Qed.

Lemma noidx_gain S H P : noidx (@gain N S H P).
Proof. by rewrite /gain; repeat nostep. Qed.

Lemma noidx_cstate x Kk z zh : noidx (@correct_state N x Kk z zh).
Proof. by rewrite /correct_state; repeat nostep. Qed.

Lemma noidx_ccov I Kk H P : noidx (@correct_cov N I Kk H P).
Proof. by rewrite /correct_cov; repeat nostep. Qed.

Lemma noidx_predict A x B u P Q : noidx (@kf_predict N A x B u P Q).
Proof.
rewrite /kf_predict; apply: noidx_bind => [|y _].
  rewrite /project_state; apply: noidx_bind => [|b _]; first by case: B.
  apply: noidx_bind => [|s _]; first by case: b => //; case: u.
  case: s; first by nostep.
  by nostep; [nostep|case: B => // b'; case: u => // u'; repeat nostep].
by apply: noidx_bind => [|C _]; [exact: noidx_project_cov|].
Qed.

Lemma noidx_smooth_gain Pa P A : noidx (@smooth_gain N Pa P A).
Proof. by rewrite /smooth_gain; repeat nostep. Qed.
Lemma noidx_smooth_state x G xs xa : noidx (@smooth_state N x G xs xa).
Proof. by rewrite /smooth_state; repeat nostep. Qed.
Lemma noidx_smooth_cov P G Ps Pa : noidx (@smooth_cov N P G Ps Pa).
Proof. by rewrite /smooth_cov; repeat nostep. Qed.

Lemma noidx_mbind S T (m : meth N S) (f : S -> meth N T) g :
  noidx (m g).2 -> (forall x g', noidx (f x g').2) -> noidx (mbind m f g).2.
Proof.
rewrite /mbind; case: (m g) => [g' [x|e]] H Hf; first exact: Hf.
by case: e H => // H _; apply: H.
Qed.

Lemma noidx_update I H x P z R g : noidx (@kf_update N I H x P z R g).2.
Proof.
rewrite /kf_update.
apply: noidx_mbind => [|S g1]; first exact: noidx_innov.
apply: noidx_mbind => [|Kk g2]; first exact: noidx_gain.
apply: noidx_mbind => [|_ g3] //.
apply: noidx_mbind => [|zh g4]; first exact: noidx_matmul.
apply: noidx_mbind => [|y g5]; first exact: noidx_cstate.
by apply: noidx_mbind => [|C g6]; first exact: noidx_ccov.
Qed.

Lemma noidx_step I s xP g : noidx (@kf_step N I s xP g).2.
Proof.
by apply: noidx_mbind => [|p g1]; [exact: noidx_predict|exact: noidx_update].
Qed.

Lemma noidx_loop S (step : S -> arr * arr -> meth N (arr * arr)) rows n T k xP out g :
  (forall s xP g, noidx (step s xP g).2) -> outshape T n out -> k + size rows <= T ->
  noidx (filter_loop step rows k xP out g).2.
Proof.
move=> Hs; elim: rows k xP out g => [|s rows IH] k xP out g Ho Hk //=.
rewrite /mbind; move: (Hs s xP g); case: (step s xP g) => [g1 [y|e]] // _.
have K1 : k < T by apply: leq_trans Hk; rewrite /= addnS ltnS leq_addr.
rewrite /mlift (store_spec _ Ho K1); case: ifP => // _.
by apply: IH; [exact: setrow_outshape|rewrite addSnnS].
Qed.

Lemma noidx_filter (self : kf N) Z U g : noidx (kf_filter self Z U g).2.
Proof.
case Hit: (iterable self Z U); last by rewrite kf_filter_unsized ?Hit.
rewrite kf_filterE //.
apply: (noidx_loop (n := kf_size self) (T := nrows Z)); first by move=> *; exact: noidx_step.
  exact: alloc_outshape.
exact: size_rows_le.
Qed.

Lemma noidx_body T n est sm k ahead A : outshape T n est -> outshape T n sm -> k.+1 < T ->
  noidx (@smooth_body N est sm k ahead A) /\
  forall r, smooth_body est sm k ahead A = Ok r -> outshape T n r.
Proof.
move=> He Hs Hk; have Hk0 : k < T by exact: ltnW.
have [[_ _ Es1] [_ _ Es2]] := He; have [[_ _ Ss1] [_ _ Ss2]] := Hs.
rewrite /smooth_body (getitem_row Es2 Hk0) (getitem_row Es1 Hk0).
rewrite (getitem_row Ss1 Hk) (getitem_row Ss2 Hk); cbn [rbind].
rewrite -/(noidx _); split.
  apply: noidx_bind => [|G _]; first exact: noidx_smooth_gain.
  apply: noidx_bind => [|xs _]; first exact: noidx_smooth_state.
  rewrite (setitem_nat _ Ss1 Hk0); case: ifP => // _; cbn [rbind].
  apply: noidx_bind => [|Ps _]; first exact: noidx_smooth_cov.
  by rewrite (setitem_nat _ Ss2 Hk0); case: ifP.
case: (smooth_gain _ _ _) => //= G r; case: (smooth_state _ _ _ _) => //= xs.
rewrite (setitem_nat _ Ss1 Hk0); case: ifP => //= _.
case: (smooth_cov _ _ _ _) => //= Ps.
rewrite (setitem_nat _ Ss2 Hk0); case: ifP => //= _ [<-].
exact: (setrow_outshape (xs, Ps) Hs Hk0).
Qed.

Lemma noidx_smooth_loop (step : nat -> arr * arr -> res (arr * arr)) T n j sm :
  (forall k sm, outshape T n sm -> k.+1 < T ->
     noidx (step k sm) /\ forall r, step k sm = Ok r -> outshape T n r) ->
  outshape T n sm -> j < T -> noidx (smooth_loop step j sm).
Proof.
move=> Hst; elim: j sm => [|j IH] sm Hs Hj //=.
have [H1 H2] := Hst j sm Hs Hj.
by apply: noidx_bind => // r Er; apply: IH; [exact: H2|exact: ltnW].
Qed.

(** With parameters at least as long as the data, smooth never raises
    IndexError on a non-empty Z, whatever the lengths of H and R. *)
Lemma smooth_noidx (self : kf N) Z U g : 0 < nrows Z ->
  nrows Z <= nrows (kf_A self) -> nrows Z <= nrows (kf_Q self) ->
  nrows Z <= nrows (kf_B self) -> nrows Z <= nrows (control Z U) ->
  (kf_smooth self Z U g).2 <> Raise IndexError.
Proof.
move=> HT HA HQ HB HU; rewrite -/(noidx _) /kf_smooth {1}/mbind.
move: (@noidx_filter self Z U g).
case Ef: (kf_filter self Z U g) => [g1 [[st er]|e]] //= _.
have [Ho _ _ _] := filter_ok Ef.
have HZ : sized Z by case/andP: (filter_iterable Ef).
rewrite /mbind /mlift (len_sized HZ).
case ET: (nrows Z) HT Ho => [|T] // _ Ho.
have [sm -> [Hs _]] := smooth_init_ok Ho; rewrite subn1 [_.-1]/= [_.2]/=.
apply: (noidx_smooth_loop (T := T.+1) (n := kf_size self)) => // k sm' Hsm Hk.
rewrite /kf_smooth_step -/(control Z U) !getitem_cases.
have L a : nrows Z <= a -> k.+1 < a by rewrite ET; exact: leq_trans.
rewrite !L //; cbn [rbind].
have [[_ _ Es1] [_ _ Es2]] := Ho.
have -> : k < nrows er by rewrite /nrows Es2 /= ltnW.
have -> : k < nrows st by rewrite /nrows Es1 /= ltnW.
cbn [rbind fst snd].
case Ep: (kf_predict _ _ _ _ _ _) => [a|e]; cbn [rbind].
  exact: (noidx_body _ _ Ho Hsm Hk).
by split=> // -[Ee]; move: Ep; rewrite Ee; exact: noidx_predict.
Qed.

End NoIndex.
