(** * SmoothSuffix: smoothing the end of a record, any arithmetic *)
From Coq Require Import ZArith Lia.
From mathcomp Require Import ssreflect ssrfun ssrbool eqtype ssrnat seq.
From Verif Require Import Np NpLemmas Kf Ekf ApiSpec Loop Frame FilterLemmas FilterThms SliceThms SmoothLemmas.

Set Implicit Arguments.
Unset Strict Implicit.
Unset Printing Implicit Defensive.
Arguments Z.of_nat : simpl never.

Section Suffix.
Variable N : num.
Notation arr := (arr N).

(** Both raise the same, or both succeed and agree on row [k] of the second and
    [j + k] of the first, and on all later rows. *)
Definition shifted (j T n k : nat) (r r' : res (arr * arr)) : Prop :=
  match r, r' with
  | Ok o, Ok o' => [/\ outshape (j + T) n o, outshape T n o' &
                       forall i, k <= i < T -> pairrow o' i = pairrow o (j + i)]
  | Raise e, Raise e' => e = e'
  | _, _ => False
  end.

Lemma body_shift j T n k (est est' sm sm' : arr * arr) ahead A :
  outshape (j + T) n est -> outshape T n est' -> k.+1 < T ->
  pairrow est' k = pairrow est (j + k) ->
  shifted j T n k.+1 (Ok sm) (Ok sm') ->
  shifted j T n k (smooth_body est sm (j + k) ahead A) (smooth_body est' sm' k ahead A).
Proof.
move=> He He' Hk Erow [Hs Hs' Hrow]; have Hk0 : k < T by exact: ltnW.
have Jk0 : j + k < j + T by rewrite ltn_add2l.
have Jk : (j + k).+1 < j + T by rewrite -addnS ltn_add2l.
have [[_ _ Es1] [_ _ Es2]] := He; have [[_ _ Ss1] [_ _ Ss2]] := Hs.
have [[_ _ Es1'] [_ _ Es2']] := He'; have [[_ _ Ss1'] [_ _ Ss2']] := Hs'.
have X1 : row est'.1 k = row est.1 (j + k) by exact: (f_equal fst Erow).
have X2 : row est'.2 k = row est.2 (j + k) by exact: (f_equal snd Erow).
have Y := Hrow k.+1; rewrite leqnn Hk addnS in Y; move: (Y isT) => {}Y.
have Y1 : row sm'.1 k.+1 = row sm.1 (j + k).+1 by exact: (f_equal fst Y).
have Y2 : row sm'.2 k.+1 = row sm.2 (j + k).+1 by exact: (f_equal snd Y).
rewrite /smooth_body (getitem_row Es2 Jk0) (getitem_row Es1 Jk0).
rewrite (getitem_row Ss1 Jk) (getitem_row Ss2 Jk).
rewrite (getitem_row Es2' Hk0) (getitem_row Es1' Hk0).
rewrite (getitem_row Ss1' Hk) (getitem_row Ss2' Hk) X1 X2 Y1 Y2; cbn [rbind].
case: (smooth_gain _ _ _) => [G|e]; cbn [rbind]; last by [].
case: (smooth_state _ _ _ _) => [x|e]; cbn [rbind]; last by [].
rewrite (setitem_nat _ Ss1 Jk0) (setitem_nat _ Ss1' Hk0).
case: ifP => Fx; cbn [rbind]; last by [].
case: (smooth_cov _ _ _ _) => [P|e]; cbn [rbind]; last by [].
rewrite (setitem_nat _ Ss2 Jk0) (setitem_nat _ Ss2' Hk0).
case: ifP => FP; cbn [rbind]; last by [].
have [H1 H2] := outshape_set x P Hs Jk0; have [H1' H2'] := outshape_set x P Hs' Hk0.
split=> // i /andP [Hi HT]; rewrite H2' // H2 ?ltn_add2l // eqn_add2l.
by case: eqP => // /eqP Hne; apply: Hrow; rewrite HT andbT ltn_neqAle eq_sym Hne Hi.
Qed.

Lemma loop_frame (step : nat -> arr * arr -> res (arr * arr)) T n :
  (forall k sm r, outshape T n sm -> k.+1 < T -> step k sm = Ok r ->
     outshape T n r /\ forall i, i < T -> i != k -> pairrow r i = pairrow sm i) ->
  forall j sm o, j < T -> outshape T n sm -> smooth_loop step j sm = Ok o ->
  outshape T n o /\ forall i, j <= i < T -> pairrow o i = pairrow sm i.
Proof.
move=> Hfr; elim=> [|j IH] sm o Hj Hs /=; first by move=> [<-].
case E: (step j sm) => [sm1|] //= El.
have [B1 B2] := Hfr _ _ _ Hs Hj E.
have [C1 C2] := IH _ _ (ltnW Hj) B1 El.
split=> // l /andP [Hl HlT]; rewrite C2 ?(ltnW Hl) // B2 //.
by rewrite gtn_eqF.
Qed.

Lemma loop_shift (step step' : nat -> arr * arr -> res (arr * arr)) j T n :
  (forall k sm sm', k.+1 < T -> shifted j T n k.+1 (Ok sm) (Ok sm') ->
     shifted j T n k (step (j + k) sm) (step' k sm')) ->
  (forall k sm r, outshape (j + T) n sm -> k.+1 < j + T -> step k sm = Ok r ->
     outshape (j + T) n r /\ forall i, i < j + T -> i != k -> pairrow r i = pairrow sm i) ->
  forall k sm sm', k < T -> shifted j T n k (Ok sm) (Ok sm') ->
  (forall e, smooth_loop step' k sm' = Raise e -> smooth_loop step (j + k) sm = Raise e) /\
  (forall o, smooth_loop step (j + k) sm = Ok o ->
     exists2 o', smooth_loop step' k sm' = Ok o' & shifted j T n 0 (Ok o) (Ok o')).
Proof.
move=> Hst Hfr; elim=> [|k IH] sm sm' Hk Hsm.
  split; first by []. 
  move=> o; rewrite addn0 => El; exists sm'; first by [].
  case: Hsm => Hs Hs' Hrow.
  have Hj1 : j < j + T by rewrite -{1}[j]addn0 ltn_add2l.
  have := loop_frame Hfr Hj1 Hs El.
  move=> [Ho Horow]; split; [exact: Ho|exact: Hs'|move=> i /andP [_ Hi]].
  by rewrite Hrow // Horow // leq_addr ltn_add2l.
rewrite addnS /=; have := Hst k sm sm' Hk Hsm.
case: (step _ sm) => [sm1|e]; case: (step' _ sm') => [sm1'|e'] //=.
  by move=> H1; exact: (IH sm1 sm1' (ltnW Hk) H1).
by move=> ->; split.
Qed.

Lemma outshape_from T n j (o : arr * arr) : outshape (j + T) n o ->
  outshape T n (from_row j o.1, from_row j o.2).
Proof.
move=> [[Hw1 Hd1 Hs1] [Hw2 Hd2 Hs2]].
have wf_from (a : arr) sh : wf a -> shp a = (j + T) :: sh -> wf (from_row j a).
  move=> /andP [/eqP Hs Ha] E; rewrite /wf /from_row /nrows /= E /= size_drop Hs E /=.
  rewrite addKn mulnDl addKn eqxx /=.
  by move: Ha; rewrite -{1}(cat_take_drop (j * nelem sh) (dat a)) all_cat => /andP [].
split; split=> //=; rewrite ?Hs1 ?Hs2 /nrows ?Hs1 ?Hs2 /= ?addKn //.
  exact: wf_from Hs1.
exact: wf_from Hs2.
Qed.

Lemma frame_of n T (est : arr * arr) step (pred : nat -> arr * arr -> res (arr * arr)) (A : nat -> arr -> Prop) :
  (forall k sm r, outshape T n est -> outshape T n sm -> k.+1 < T -> step k sm = Ok r ->
    exists a x P, [/\ A k a,
    rts_by_hand (pred k) a (pairrow est k) (pairrow sm k.+1) = Ok (x, P),
    storable n (x, P), outshape T n r &
    forall i, i < T -> pairrow r i =
      if i == k then (fit [:: n] x, fit [:: n; n] P) else pairrow sm i]) ->
  outshape T n est ->
  forall k sm r, outshape T n sm -> k.+1 < T -> step k sm = Ok r ->
     outshape T n r /\ forall i, i < T -> i != k -> pairrow r i = pairrow sm i.
Proof.
move=> H He k sm r Hs Hk E; have [a [x [P [_ _ _ H1 H2]]]] := H k sm r He Hs Hk E.
by split=> // i Hi /negbTE Hne; rewrite H2 // Hne.
Qed.

(** What the rest of a split run returns. *)
Lemma vstack_shift T1 T2 n (o1 o2 : arr * arr) :
  outshape T1 n o1 -> outshape T2 n o2 ->
  forall i, i < T2 -> pairrow (vstack o1.1 o2.1, vstack o1.2 o2.2) (T1 + i) = pairrow o2 i.
Proof.
move=> [[Hw1 Hd1 Hs1] [Hw2 Hd2 Hs2]] [[Hw1' Hd1' Hs1'] [Hw2' Hd2' Hs2']] i Hi.
rewrite /pairrow; cbn [fst snd].
rewrite (row_vstack _ (wf_wfs Hw1) Hs1 Hs1') ?Hd1 // (row_vstack _ (wf_wfs Hw2) Hs2 Hs2') ?Hd2 //.
by rewrite ltnNge leq_addr /= addKn.
Qed.

Lemma smooth_suffix (self : kf N) Z U k g g1 st1 er1 x P :
  iterable self Z U -> k <= steps self Z U -> k < nrows Z ->
  kf_filter self (upto_row k Z) (omap (upto_row k) U) g = (g1, Ok (st1, er1)) ->
  (by_hand self Z (control Z U) k g).2 = Ok (x, P) ->
  let whole := kf_smooth self Z U g in
  let rest := kf_smooth (resumed self k x P) (from_row k Z) (omap (from_row k) U) g1 in
  [/\ rest.1 = whole.1,
      (forall xs Ps, whole.2 = Ok (xs, Ps) -> rest.2 = Ok (from_row k xs, from_row k Ps)) &
      (forall e, rest.2 = Raise e -> whole.2 = Raise e)].
Proof.
move=> Hit Hk HkZ E1 Ebh; cbn zeta.
have Ew := filter_resume Hit Hk E1 Ebh.
rewrite !smooth_gains Ew.
rewrite /kf_smooth /mbind Ew.
case Er: (kf_filter (resumed self k x P) _ _ g1) => [g2 [[st2 er2]|e]]; last first.
  split=> //.
have HZ : sized Z by case/andP: Hit.
set w := vstack st1 st2; set v := vstack er1 er2.
have [Ho1 _ _ _] := filter_ok E1; have [Ho2 _ _ _] := filter_ok Er.
rewrite nrows_upto (minn_idPl (ltnW HkZ)) in Ho1; rewrite nrows_from in Ho2.
cbn [kf_size resumed] in Ho2.
have [T ET] : exists T, nrows Z - k = T.+1.
  by case: (nrows Z - k) (subn_gt0 k (nrows Z)) => [|T]; [rewrite HkZ|exists T].
rewrite ET in Ho2.
have HZT : nrows Z = k + T.+1 by rewrite -ET subnKC // ltnW.
have Ho := outshape_vstack Ho1 Ho2; rewrite -/w -/v in Ho; cbn [fst snd] in Ho; rewrite -/w -/v in Ho.
have Hsh := vstack_shift Ho1 Ho2; cbn [fst snd] in Hsh; rewrite -/w -/v in Hsh.
rewrite /mlift (len_sized HZ) (len_sized (sized_from k Z)) nrows_from ET HZT.
cbn [kf_size resumed fst snd].
have Ho' : outshape (k + T).+1 (kf_size self) (w, v) by rewrite -addnS.
have [sm Esm [Hs Hl]] := smooth_init_ok Ho'; rewrite addnS Esm.
have [sm' Esm' [Hs' Hl']] := smooth_init_ok Ho2; rewrite Esm'.
rewrite !subn1 /=.
have Hsm : shifted k T.+1 (kf_size self) T (Ok sm) (Ok sm').
  split; [by rewrite addnS|exact: Hs'|].
  move=> i /andP [Hi]; rewrite ltnS => Hi'.
  have -> : i = T by apply/eqP; rewrite eqn_leq Hi Hi'.
  by rewrite Hl' Hl -(Hsh T (ltnSn T)).
pose U1 := control (from_row k Z) (omap (from_row k) U); pose U2 := control Z U.
rewrite -/(control _ _) -/U1 -/(control _ _) -/U2.
have Hst i s s' : i.+1 < T.+1 -> shifted k T.+1 (kf_size self) i.+1 (Ok s) (Ok s') ->
    shifted k T.+1 (kf_size self) i (kf_smooth_step self U2 (w, v) (k + i) s)
      (kf_smooth_step (resumed self k x P) U1 (st2, er2) i s').
  move=> Hi Hss; rewrite /kf_smooth_step !getitem_cases.
  cbn [kf_A kf_Q kf_B resumed].
  rewrite !nrows_from !ltn_subRL !row_from addnS.
  case: ifP => // _; cbn [rbind]; case: ifP => // _; cbn [rbind]; case: ifP => // _; cbn [rbind].
  rewrite (_ : nrows U1 = nrows U2 - k); last by rewrite /U1 /U2 nrows_control_from.
  rewrite ltn_subRL addnS; case: ifP => // _; cbn [rbind].
  have Hrow : row U1 i.+1 = row U2 (k + i).+1.
    rewrite /U1 /U2 control_from ?addnS //.
    by rewrite HZT -addnS ltn_add2l.
  have [[_ _ Es1] [_ _ Es2]] := Ho; have [[_ _ Es1'] [_ _ Es2']] := Ho2.
  cbn [fst snd] in Es1, Es2, Es1', Es2'; cbn [fst snd].
  rewrite /nrows Es1 Es2 Es1' Es2'; cbn [head].
  rewrite ltn_add2l (ltnW Hi); cbn [rbind].
  have Hp := Hsh i (ltnW Hi); rewrite Hrow.
  have [Hp1 Hp2] : row w (k + i) = row st2 i /\ row v (k + i) = row er2 i.
    by split; [exact: (f_equal fst Hp)|exact: (f_equal snd Hp)].
  rewrite Hp1 Hp2; case: (kf_predict _ _ _ _ _ _) => [ahead|e]; cbn [rbind]; last by [].
  by apply: body_shift.
have Hfr := frame_of (pred := kf_ahead self U2) (A := fun k a => Ok (row (kf_A self) k.+1) = Ok a)
              (@kf_smooth_step_ok N self U2 (k + T.+1) (kf_size self) (w, v)) Ho.
have [L1 L2] := loop_shift Hst Hfr (ltnSn T) Hsm.
split=> //.
move=> xs Ps Exs; have [o' -> [O1 O2 O3]] := L2 _ Exs; congr Ok.
have O1' := outshape_from O1.
apply: (outshape_ext O2 O1') => i Hi; have Hi' := O3 i Hi; cbn [fst snd]; rewrite !row_from.
by split; [exact: (f_equal fst Hi')|exact: (f_equal snd Hi')].
Qed.

Lemma e_smooth_suffix (self : ekf N) Z U k g g1 st1 er1 x P :
  e_iterable self Z U -> k <= e_steps self Z U -> k < nrows Z ->
  ekf_filter self (upto_row k Z) (omap (upto_row k) U) g = (g1, Ok (st1, er1)) ->
  (e_by_hand self Z (control Z U) k g).2 = Ok (x, P) ->
  let whole := ekf_smooth self Z U g in
  let rest := ekf_smooth (e_resumed self k x P) (from_row k Z) (omap (from_row k) U) g1 in
  [/\ rest.1 = whole.1,
      (forall xs Ps, whole.2 = Ok (xs, Ps) -> rest.2 = Ok (from_row k xs, from_row k Ps)) &
      (forall e, rest.2 = Raise e -> whole.2 = Raise e)].
Proof.
move=> Hit Hk HkZ E1 Ebh; cbn zeta.
have Ew := e_filter_resume Hit Hk E1 Ebh.
rewrite !e_smooth_gains Ew.
rewrite /ekf_smooth /mbind Ew.
case Er: (ekf_filter (e_resumed self k x P) _ _ g1) => [g2 [[st2 er2]|e]]; last first.
  split=> //.
have HZ : sized Z by case/andP: Hit.
set w := vstack st1 st2; set v := vstack er1 er2.
have [Ho1 _ _ _] := e_filter_ok E1; have [Ho2 _ _ _] := e_filter_ok Er.
rewrite nrows_upto (minn_idPl (ltnW HkZ)) in Ho1; rewrite nrows_from in Ho2.
cbn [e_size e_resumed] in Ho2.
have [T ET] : exists T, nrows Z - k = T.+1.
  by case: (nrows Z - k) (subn_gt0 k (nrows Z)) => [|T]; [rewrite HkZ|exists T].
rewrite ET in Ho2.
have HZT : nrows Z = k + T.+1 by rewrite -ET subnKC // ltnW.
have Ho := outshape_vstack Ho1 Ho2; rewrite -/w -/v in Ho; cbn [fst snd] in Ho; rewrite -/w -/v in Ho.
have Hsh := vstack_shift Ho1 Ho2; cbn [fst snd] in Hsh; rewrite -/w -/v in Hsh.
rewrite /mlift (len_sized HZ) (len_sized (sized_from k Z)) nrows_from ET HZT.
cbn [e_size e_resumed fst snd].
have Ho' : outshape (k + T).+1 (e_size self) (w, v) by rewrite -addnS.
have [sm Esm [Hs Hl]] := smooth_init_ok Ho'; rewrite addnS Esm.
have [sm' Esm' [Hs' Hl']] := smooth_init_ok Ho2; rewrite Esm'.
rewrite !subn1 /=.
have Hsm : shifted k T.+1 (e_size self) T (Ok sm) (Ok sm').
  split; [by rewrite addnS|exact: Hs'|].
  move=> i /andP [Hi]; rewrite ltnS => Hi'.
  have -> : i = T by apply/eqP; rewrite eqn_leq Hi Hi'.
  by rewrite Hl' Hl -(Hsh T (ltnSn T)).
pose U1 := control (from_row k Z) (omap (from_row k) U); pose U2 := control Z U.
rewrite -/(control _ _) -/U1 -/(control _ _) -/U2.
have Hst i s s' : i.+1 < T.+1 -> shifted k T.+1 (e_size self) i.+1 (Ok s) (Ok s') ->
    shifted k T.+1 (e_size self) i (ekf_smooth_step self U2 (w, v) (k + i) s)
      (ekf_smooth_step (e_resumed self k x P) U1 (st2, er2) i s').
  move=> Hi Hss; rewrite /ekf_smooth_step !getitem_cases.
  cbn [e_Q e_f e_h e_jA e_jH e_resumed].
  rewrite !nrows_from !ltn_subRL !row_from addnS.
  case: ifP => // _; cbn [rbind].
  rewrite (_ : nrows U1 = nrows U2 - k); last by rewrite /U1 /U2 nrows_control_from.
  rewrite ltn_subRL addnS; case: ifP => // _; cbn [rbind].
  have Hrow : row U1 i.+1 = row U2 (k + i).+1.
    rewrite /U1 /U2 control_from ?addnS //.
    by rewrite HZT -addnS ltn_add2l.
  have [[_ _ Es1] [_ _ Es2]] := Ho; have [[_ _ Es1'] [_ _ Es2']] := Ho2.
  cbn [fst snd] in Es1, Es2, Es1', Es2'; cbn [fst snd].
  rewrite /nrows Es1 Es2 Es1' Es2'; cbn [head].
  rewrite ltn_add2l (ltnW Hi); cbn [rbind].
  have Hp := Hsh i (ltnW Hi); rewrite Hrow.
  have [Hp1 Hp2] : row w (k + i) = row st2 i /\ row v (k + i) = row er2 i.
    by split; [exact: (f_equal fst Hp)|exact: (f_equal snd Hp)].
  rewrite Hp1 Hp2 /ekf_predict; cbn [e_f e_jA e_resumed].
  case: (e_jA self (row st2 i) _) => [Ak|e]; cbn [rbind]; last by [].
  case: (e_f self _ _) => [xa|e]; cbn [rbind]; last by [].
  case: (project_cov _ _ _) => [Pa|e]; cbn [rbind]; last by [].
  by apply: body_shift.
have Hfr := frame_of (pred := e_ahead self U2)
              (A := fun k a => e_jA self (row (w, v).1 k) (Some (row U2 k.+1)) = Ok a)
              (@ekf_smooth_step_ok N self U2 (k + T.+1) (e_size self) (w, v)) Ho.
have [L1 L2] := loop_shift Hst Hfr (ltnSn T) Hsm.
split=> //.
move=> xs Ps Exs; have [o' -> [O1 O2 O3]] := L2 _ Exs; congr Ok.
have O1' := outshape_from O1.
apply: (outshape_ext O2 O1') => i Hi; have Hi' := O3 i Hi; cbn [fst snd]; rewrite !row_from.
by split; [exact: (f_equal fst Hi')|exact: (f_equal snd Hi')].
Qed.

End Suffix.
