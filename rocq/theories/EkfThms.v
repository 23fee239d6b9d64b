(** * EkfThms: the extended filter against the standard one, and its callables *)
From Coq Require Import ZArith Lia.
From mathcomp Require Import ssreflect ssrfun ssrbool eqtype ssrnat seq.
From Verif Require Import Np NpLemmas Kf Ekf ApiSpec Loop Frame FilterLemmas FilterThms SliceThms
  SmoothLemmas UtilThms.

Set Implicit Arguments.
Unset Strict Implicit.
Unset Printing Implicit Defensive.
Arguments Z.of_nat : simpl never.

Section Ekf.
Variable N : num.
Notation arr := (arr N).

Lemma filter_loop_eq (S1 S2 : Type) (st1 : S1 -> arr * arr -> meth N (arr * arr))
    (st2 : S2 -> arr * arr -> meth N (arr * arr)) (f1 : nat -> S1) (f2 : nat -> S2) l k xP out g :
  (forall i, i \in l -> forall xP g, st1 (f1 i) xP g = st2 (f2 i) xP g) ->
  filter_loop st1 (map f1 l) k xP out g = filter_loop st2 (map f2 l) k xP out g.
Proof.
elim: l k xP out g => [|i l IH] k xP out g H //=.
rewrite /mbind H ?mem_head //; case: (st2 (f2 i) xP g) => [g1 [y|e]] //.
rewrite /mlift; case: (store out k y) => // out'.
by apply: IH => j Hj; apply: H; rewrite inE Hj orbT.
Qed.

Lemma filter_loop_visited (S : Type) (st1 st2 : S -> arr * arr -> meth N (arr * arr)) rows k xP out g :
  (forall j s0 gj y, j < size rows -> iter_rows st1 (take j rows) xP g = (gj, Ok y) ->
     st1 (nth s0 rows j) y gj = st2 (nth s0 rows j) y gj) ->
  filter_loop st1 rows k xP out g = filter_loop st2 rows k xP out g.
Proof.
elim: rows k xP out g => [|s rows IH] k xP out g H //=.
have E : st1 s xP g = st2 s xP g by exact: (H 0 s g xP isT).
rewrite /mbind -E; case E1: (st1 s xP g) => [g1 [y|e]] //.
rewrite /mlift; case: (store out k y) => // out'.
apply: IH => j s0 gj y' Hj Hit; apply: (H j.+1 s0 gj y') => //=.
by rewrite /mbind E1.
Qed.

(** ** C17 *)
Section Linear.
Variables (self : ekf N) (kself : kf N) (A H B : arr) (Z : arr) (U : option arr).
Hypothesis Hf : forall x u, e_f self x (Some u) =
  (if np_isnan_all B || np_isnan_all u then np_matmul A x
   else do Ax <- np_matmul A x; do Bu <- np_matmul B u; np_add Ax Bu).
Hypothesis HjA : forall x u, e_jA self x u = Ok A.
Hypothesis Hh : forall x, e_h self x = np_matmul H x.
Hypothesis HjH : forall x, e_jH self x = Ok H.
Hypothesis HA : sized (kf_A kself) && (nrows Z <= nrows (kf_A kself)).
Hypothesis HH : sized (kf_H kself) && (nrows Z <= nrows (kf_H kself)).
Hypothesis HB : sized (kf_B kself) && (nrows Z <= nrows (kf_B kself)).
Hypothesis Hrow : forall i, i < nrows Z ->
  [/\ row (kf_A kself) i = A, row (kf_H kself) i = H & row (kf_B kself) i = B].
Hypothesis Hsame : [/\ kf_xk kself = e_xk self, kf_Pk kself = e_Pk self, kf_Q kself = e_Q self,
  kf_R kself = e_R self & kf_size kself = e_size self /\ kf_I kself = e_I self].

Lemma lin_predict x u P Q : ekf_predict self x (Some u) P Q = kf_predict A x (Some B) (Some u) P Q.
Proof.
rewrite /ekf_predict HjA Hf /kf_predict /project_state /=.
by case: (np_isnan_all B) => //=; case: (np_isnan_all u).
Qed.

Lemma lin_update x P z R g : ekf_update self x P z R g = kf_update (kf_I kself) H x P z R g.
Proof.
have [_ _ _ _ [_ ->]] := Hsame.
by rewrite /ekf_update /kf_update /mbind /mlift HjH Hh.
Qed.

Lemma lin_step u z q r xP g :
  kf_step (kf_I kself) (SRow A H B u z q r) xP g = ekf_step self (ERow u z q r) xP g.
Proof.
rewrite /kf_step /ekf_step; cbn [rA rB rU rQ rH rZ rR eU eQ eZ eR]; rewrite lin_predict.
rewrite [in LHS]/mbind [in RHS]/mbind /mlift.
by case: (kf_predict _ _ _ _ _ _) => // pr; rewrite lin_update.
Qed.

Lemma lin_iterable : iterable kself Z U = e_iterable self Z U.
Proof.
have [_ _ EQ ER _] := Hsame; rewrite /iterable /e_iterable /= EQ ER.
by case/andP: HA => -> _; case/andP: HH => -> _; case/andP: HB => -> _.
Qed.

Lemma lin_steps : steps kself Z U = e_steps self Z U.
Proof.
have [_ _ EQ ER _] := Hsame; apply: ltn_ext => i; rewrite steps_gt e_steps_gt EQ ER.
case HiZ: (i < nrows Z); last by rewrite !andbF.
case/andP: HA => _ /(leq_trans HiZ) ->; case/andP: HH => _ /(leq_trans HiZ) ->.
by case/andP: HB => _ /(leq_trans HiZ) ->.
Qed.

Lemma lin_filter g : kf_filter kself Z U g = ekf_filter self Z U g.
Proof.
case Hit: (iterable kself Z U); last first.
  by rewrite kf_filter_unsized ?Hit // ekf_filter_unsized // -lin_iterable Hit.
rewrite kf_filterE // ekf_filterE; last by rewrite -lin_iterable.
have [-> -> EQ ER [-> _]] := Hsame.
rewrite /rows_of /e_rows_of lin_steps; apply: filter_loop_eq => i.
rewrite mem_iota add0n => /andP [_ Hi] xP g'.
have HiZ : i < nrows Z by case: (e_steps_le self Z U) => HZ _ _ _; exact: leq_trans HZ.
have [EA EH EB] := Hrow HiZ.
rewrite /srow_at /erow_at EA EB EH EQ ER.
exact: lin_step.
Qed.

Lemma lin_smooth g : kf_smooth kself Z U g = ekf_smooth self Z U g.
Proof.
rewrite /kf_smooth /ekf_smooth [in LHS]/mbind [in RHS]/mbind lin_filter.
case Ef: (ekf_filter self Z U g) => [g1 [[st er]|e]] //.
have [Ho _ _ _] := e_filter_ok Ef.
have HZ : sized Z by case/andP: (e_filter_iterable Ef).
have [_ _ EQ ER [-> _]] := Hsame.
rewrite /mlift (len_sized HZ); case: (smooth_init _ _ _) => // sm; congr pair.
have : (nrows Z - 1).+1 <= nrows Z \/ nrows Z = 0.
  by case: (nrows Z) => [|T]; [right|left; rewrite subn1].
case=> [|->] //; elim: (nrows Z - 1) sm => [|k IH] sm //= Hk.
suff -> : kf_smooth_step kself (check_none_and_broadcast U Z) (st, er) k sm =
          ekf_smooth_step self (check_none_and_broadcast U Z) (st, er) k sm.
  case: (ekf_smooth_step _ _ _ _ _) => //= sm'; apply: IH; exact: ltnW.
rewrite /kf_smooth_step /ekf_smooth_step !getitem_cases EQ.
have [EA _ EB] := Hrow Hk; rewrite EA EB.
case/andP: HA => _ /(leq_trans Hk) ->; case/andP: HB => _ /(leq_trans Hk) ->.
cbn [rbind]; case: (k.+1 < nrows (e_Q self)) => //; cbn [rbind].
case: (k.+1 < nrows _) => //; cbn [rbind].
case: (k < nrows _) => //; cbn [rbind]; case: (k < nrows _) => //; cbn [rbind].
by rewrite lin_predict HjA.
Qed.

End Linear.

(** ** C19 *)
Section Visited.
Variables (self1 self2 : ekf N) (Z : arr) (U : option arr) (g : seq arr).
Hypothesis Hsame : [/\ e_xk self1 = e_xk self2, e_Pk self1 = e_Pk self2, e_Q self1 = e_Q self2,
  e_R self1 = e_R self2 & e_size self1 = e_size self2 /\ e_I self1 = e_I self2].

(** The callables agree where the run of the first filter evaluates them. *)
Hypothesis Hpred : forall k gk x P, k < e_steps self1 Z U ->
  e_by_hand self1 Z (control Z U) k g = (gk, Ok (x, P)) ->
  e_f self1 x (Some (row (control Z U) k)) = e_f self2 x (Some (row (control Z U) k)) /\
  e_jA self1 x (Some (row (control Z U) k)) = e_jA self2 x (Some (row (control Z U) k)).
Hypothesis Hupd : forall k gk x P x' P', k < e_steps self1 Z U ->
  e_by_hand self1 Z (control Z U) k g = (gk, Ok (x, P)) ->
  ekf_predict self1 x (Some (row (control Z U) k)) P (row (e_Q self1) k) = Ok (x', P') ->
  e_h self1 x' = e_h self2 x' /\ e_jH self1 x' = e_jH self2 x'.

Lemma visited_filter : ekf_filter self1 Z U g = ekf_filter self2 Z U g.
Proof.
have [Ex EP EQ ER [En EI]] := Hsame.
have Ei : e_iterable self1 Z U = e_iterable self2 Z U by rewrite /e_iterable EQ ER.
case Hit: (e_iterable self1 Z U); last by rewrite !ekf_filter_unsized // -?Ei Hit.
rewrite !ekf_filterE -?Ei // -Ex -EP -En.
have -> : e_rows_of self2 Z U = e_rows_of self1 Z U.
  by rewrite /e_rows_of /e_steps -EQ -ER /erow_at -EQ -ER.
apply: filter_loop_visited => j s0 gj [x P]; rewrite size_e_rows_of => Hj.
rewrite -e_by_hand_rows // ?(ltnW Hj) // => Hbh.
rewrite /e_rows_of (nth_map 0) ?size_iota // nth_iota // add0n.
have [Ef EA] := Hpred Hj Hbh.
have Epr : ekf_predict self1 x (Some (row (control Z U) j)) P (row (e_Q self1) j) =
           ekf_predict self2 x (Some (row (control Z U) j)) P (row (e_Q self1) j).
  by rewrite /ekf_predict Ef EA.
rewrite /ekf_step [in LHS]/mbind [in RHS]/mbind /mlift /erow_at; cbn [eU eQ eZ eR fst snd].
rewrite -Epr; case Ep: (ekf_predict self1 _ _ _ _) => [[x' P']|] //.
have [Eh EH] := Hupd Hj Hbh Ep.
by rewrite /ekf_update /mbind /mlift; cbn [fst snd]; rewrite -EH -Eh -EI.
Qed.

(** smooth evaluates f and the Jacobian again, at the filtered means. *)
Hypothesis Hsm : forall k st er, k.+1 < nrows Z ->
  (ekf_filter self1 Z U g).2 = Ok (st, er) ->
  e_f self1 (row st k) (Some (row (control Z U) k.+1)) = e_f self2 (row st k) (Some (row (control Z U) k.+1)) /\
  e_jA self1 (row st k) (Some (row (control Z U) k.+1)) = e_jA self2 (row st k) (Some (row (control Z U) k.+1)).

Lemma visited_smooth : ekf_smooth self1 Z U g = ekf_smooth self2 Z U g.
Proof.
rewrite /ekf_smooth [in LHS]/mbind [in RHS]/mbind -visited_filter.
case Ef: (ekf_filter self1 Z U g) => [g1 [[st er]|e]] //.
have HZ : sized Z by case/andP: (e_filter_iterable Ef).
have [Ex EP EQ ER [En EI]] := Hsame.
rewrite /mlift (len_sized HZ) -En; case: (smooth_init _ _ _) => // sm; congr pair.
have : (nrows Z - 1).+1 <= nrows Z \/ nrows Z = 0.
  by case: (nrows Z) => [|T]; [right|left; rewrite subn1].
case=> [|->] //; elim: (nrows Z - 1) sm => [|k IH] sm //= Hk.
suff -> : ekf_smooth_step self1 (check_none_and_broadcast U Z) (st, er) k sm =
          ekf_smooth_step self2 (check_none_and_broadcast U Z) (st, er) k sm.
  case: (ekf_smooth_step _ _ _ _ _) => //= sm'; apply: IH; exact: ltnW.
have [|Eff EAA] := Hsm (st := st) (er := er) Hk; first by rewrite Ef.
rewrite /ekf_smooth_step !getitem_cases -EQ.
case: (k.+1 < nrows (e_Q self1)) => //; cbn [rbind].
case: (k.+1 < nrows _) => //; cbn [rbind].
case: (k < nrows _) => //; cbn [rbind]; case: (k < nrows _) => //; cbn [rbind fst snd].
by rewrite /ekf_predict Eff EAA.
Qed.

End Visited.

(** With U=None the callables receive an all-NaN array shaped like the
    observation. *)
Lemma control_none_row (Z : arr) k : k < nrows Z -> dt Z = DFloat ->
  row (control Z None) k = np_full_like_nan (row Z k).
Proof.
move=> Hk Hd; have HZ : shp Z = nrows Z :: behead (shp Z) by move: Hk; rewrite /nrows; case: (shp Z).
exact: (row_full_like HZ Hk).
Qed.

End Ekf.
