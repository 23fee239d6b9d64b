(** * FilterLemmas: consequences of the loop characterisation, any arithmetic *)
From Coq Require Import ZArith Lia.
From mathcomp Require Import ssreflect ssrfun ssrbool eqtype ssrnat seq.
From Verif Require Import Np NpLemmas Kf Ekf ApiSpec Loop Frame.

Set Implicit Arguments.
Unset Strict Implicit.
Unset Printing Implicit Defensive.

Section Gen.
Variable N : num.
Notation arr := (arr N).
Variables (S : Type) (step : S -> arr * arr -> meth N (arr * arr)).
Hypothesis Hf : forall s x, framed (step s x).
Hypothesis H1 : forall s x, logs1 (step s x).

(** Everything known of a successful run. *)
Lemma loop_ok n T rows xP g g' out : size rows <= T ->
  filter_loop step rows 0 xP (alloc N T n) g = (g', Ok out) ->
  [/\ outshape T n out, size g' = size g + size rows,
      (forall j, j < size rows -> exists y,
        [/\ iter_rows step (take j.+1 rows) xP g = (take (size g + j.+1) g', Ok y),
            storable n y,
            row out.1 j = fit [:: n] y.1 & row out.2 j = fit [:: n; n] y.2]) &
      (forall j, size rows <= j < T ->
        row out.1 j = np_zeros N [:: n] /\ row out.2 j = np_zeros N [:: n; n])].
Proof.
move=> HT E.
move: (@filter_loop_spec _ _ step n T rows 0 xP _ g (alloc_outshape N T n) HT).
rewrite E => -[Ho Hr Hz [y Hl]].
have Hl' : iter_rows step rows xP g = (g', Ok y) by move: Hl; rewrite /reaches take_size.
split=> //.
- by move: (iter_rows_size rows xP g Hf H1); rewrite Hl'.
- move=> j Hj; have [gj [yj [A1 A2 A3 A4]]] := Hr j Hj.
  exists yj; split=> //; rewrite A1; congr pair.
  exact: (iter_rows_take Hf H1 Hj A1 Hl').
- move=> j /andP [Hj HjT]; have [|-> ->] := Hz j HjT; first by right.
  exact: alloc_rows.
Qed.

(** The place where rows are stored does not matter. *)
Lemma loop_place n T1 T2 rows k1 k2 xP o1 o2 g :
  outshape T1 n o1 -> outshape T2 n o2 ->
  k1 + size rows <= T1 -> k2 + size rows <= T2 ->
  match filter_loop step rows k1 xP o1 g, filter_loop step rows k2 xP o2 g with
  | (g1, Ok _), (g2, Ok _) => g1 = g2
  | (g1, Raise e1), (g2, Raise e2) => g1 = g2 /\ e1 = e2
  | _, _ => False
  end.
Proof.
elim: rows k1 k2 xP o1 o2 g => [|s rows IH] k1 k2 xP o1 o2 g Ho1 Ho2 Hk1 Hk2 //=.
rewrite /mbind; case: (step s xP g) => [g1 [y|e]] //.
have K1 : k1 < T1 by apply: leq_trans Hk1; rewrite /= addnS ltnS leq_addr.
have K2 : k2 < T2 by apply: leq_trans Hk2; rewrite /= addnS ltnS leq_addr.
rewrite /mlift (store_spec _ Ho1 K1) (store_spec _ Ho2 K2); case: ifP => // Hst.
apply: IH; first [exact: setrow_outshape | by rewrite addSnnS].
Qed.

Lemma loop_cat rows1 rows2 k xP out g :
  filter_loop step (rows1 ++ rows2) k xP out g =
  match filter_loop step rows1 k xP out g, iter_rows step rows1 xP g with
  | (g1, Ok out1), (_, Ok y) => filter_loop step rows2 (k + size rows1) y out1 g1
  | (g1, Ok out1), (_, Raise e) => (g1, Raise e)
  | (g1, Raise e), _ => (g1, Raise e)
  end.
Proof.
elim: rows1 k xP out g => [|s r1 IH] k xP out g /=; first by rewrite addn0.
rewrite /mbind; case: (step s xP g) => [g1 [y|e]] //.
rewrite /mlift; case: (store _ _ _) => // out1.
by rewrite IH addSnnS.
Qed.

(** A run on the first [k] rows. *)
Lemma loop_prefix n T T' rows k xP g g' out : size rows <= T -> size (take k rows) <= T' ->
  filter_loop step rows 0 xP (alloc N T n) g = (g', Ok out) ->
  exists out', filter_loop step (take k rows) 0 xP (alloc N T' n) g =
               (take (size g + size (take k rows)) g', Ok out').
Proof.
move=> HT HT' E.
have HkT : size (take k rows) <= T.
  by rewrite size_take; case: ltnP => // H; apply: ltnW; apply: leq_trans HT.
have := @loop_place n T T' (take k rows) 0 0 xP _ _ g (alloc_outshape N T n)
          (alloc_outshape N T' n) HkT HT'.
move: (E); rewrite -{1}(cat_take_drop k rows) loop_cat.
case E1: (filter_loop _ (take k rows) 0 xP (alloc N T n) g) => [g1 [o1|e]] //.
case E2: (iter_rows _ (take k rows) xP g) => [g2 [y|e]] // E3.
case E4: (filter_loop _ _ _ _ (alloc N T' n) _) => [g3 [o3|e]] // E5.
rewrite E5 in E1; exists o3; congr pair.
have [_ Hs _ _] := loop_ok HT' E4.
have := framed_loop (drop k rows) (0 + size (take k rows)) y o1 Hf g1.
by rewrite E3 E5 => -[-> _]; rewrite -Hs take_size_cat.
Qed.

End Gen.

(** ** Posteriors are float64 arrays *)
Section Floats.
Variable N : num.
Notation arr := (arr N).

Definition isfloat (a : arr) : bool := wf a && (if dt a is DFloat then true else false).

Lemma isfloatP (a : arr) : reflect (wf a /\ dt a = DFloat) (isfloat a).
Proof.
by rewrite /isfloat; apply: (iffP andP); case: (dt a) => -[].
Qed.

Lemma wf_mkF sh (f : seq nat -> K N) : wf (mk DFloat sh (fun ix => VF (f ix))).
Proof. by apply/andP; split; [apply: wfs_mk|rewrite /=; elim: (indices sh)]. Qed.

Lemma isfloat_mk sh (f : seq nat -> K N) : isfloat (mk DFloat sh (fun ix => VF (f ix))).
Proof. by rewrite /isfloat wf_mkF. Qed.

Lemma all2_cat_ (T1 T2 : Type) (r : T1 -> T2 -> bool) s1 s2 t1 t2 : size s1 = size t1 ->
  all2 r (s1 ++ s2) (t1 ++ t2) = all2 r s1 t1 && all2 r s2 t2.
Proof. by elim: s1 t1 => [|x s1 IH] [|y t1] //= [E]; rewrite IH // andbA. Qed.

(** Transposition and reshaping keep float arrays. *)
Lemma valid_rev sh ix : valid sh ix -> valid (rev sh) (rev ix).
Proof.
rewrite /valid; elim: sh ix => [|d sh IH] [|i ix] //= /andP [Hi Hv].
rewrite !rev_cons -!cats1 all2_cat_ ?size_rev ?(valid_size Hv) // IH //=.
by rewrite Hi.
Qed.

Lemma isfloat_T (a : arr) : isfloat a -> isfloat (np_T a).
Proof.
case/isfloatP=> Hw Hd; rewrite /np_T Hd.
suff -> : mk DFloat (rev (shp a)) (fun ix => get a (rev ix)) =
          mk DFloat (rev (shp a)) (fun ix => VF (tofl (get a (rev ix)))).
  exact: isfloat_mk.
apply: eq_mk => ix Hv; move: (@wf_get _ a (rev ix) Hw).
rewrite Hd -{1}(revK (shp a)) => /(_ (valid_rev Hv)).
by case: (get a (rev ix)).
Qed.

Lemma isfloat_reshape (a : arr) sh : isfloat a -> nelem sh = nelem (shp a) -> isfloat (reshape a sh).
Proof. by rewrite /isfloat /wf /= => H ->. Qed.

Lemma nelem_cat s t : nelem (s ++ t) = nelem s * nelem t.
Proof. by elim: s => [|d s IH] /=; rewrite ?mul1n // IH mulnA. Qed.

Lemma np_matmul_float (a b c : arr) : np_matmul a b = Ok c ->
  promote (dt a) (dt b) = DFloat -> isfloat c.
Proof.
rewrite /np_matmul; case Ea: (shp a) => [|d sa] //; case Eb: (shp b) => [|e sb] //.
case: ifP => // _.
case Eb': (bshape _ _) => [bs|] //.
move=> E Hd; case: E => <-; rewrite Hd.
apply: isfloat_reshape; first exact: isfloat_mk.
rewrite /= !nelem_cat /=; congr muln.
case: sa {Ea Eb'} => [|? ?] /=; case: sb {Eb} => [|? ?] //=; rewrite ?muln1 ?mul1n //.
Qed.

Lemma np_solve_float (a b c : arr) : np_solve a b = Ok c -> isfloat c.
Proof.
rewrite /np_solve; case: ifP => // _; case: ifP => // _; case: ifP => // _; case: ifP => // _.
case: (bshape _ _) => [bs|] //; case: ifP => // _ [<-].
apply: isfloat_reshape; first exact: isfloat_mk.
rewrite !nelem_cat /=; congr muln; congr muln.
by case: (shp b) => [|? [|? ?]] //=; rewrite ?muln1.
Qed.

Lemma np_bin_floatr fz fk (a b c : arr) : np_bin fz fk a b = Ok c -> isfloat b ->
  (forall ix sh, bshape (shp a) (shp b) = Some sh -> valid sh ix -> valid (shp b) (bidx (shp b) ix)) ->
  isfloat c.
Proof.
rewrite /np_bin; case E: (bshape _ _) => [sh|] // [<-] /isfloatP [Hw Hd] Hv.
rewrite Hd; have -> : promote (dt a) DFloat = DFloat by case: (dt a).
set f := fun ix => _.
suff -> : mk DFloat sh f = mk DFloat sh (fun ix => VF (tofl (f ix))) by exact: isfloat_mk.
apply: eq_mk => ix Hix; rewrite /f /sbin.
move: (wf_get Hw (Hv _ _ (erefl _) Hix)); rewrite Hd.
by case: (get b _) => // k _; case: (get a _).
Qed.

Lemma np_bin_floatl fz fk (a b c : arr) : np_bin fz fk a b = Ok c -> isfloat a ->
  (forall ix sh, bshape (shp a) (shp b) = Some sh -> valid sh ix -> valid (shp a) (bidx (shp a) ix)) ->
  isfloat c.
Proof.
rewrite /np_bin; case E: (bshape _ _) => [sh|] // [<-] /isfloatP [Hw Hd] Hv.
rewrite Hd /=.
set f := fun ix => _.
suff -> : mk DFloat sh f = mk DFloat sh (fun ix => VF (tofl (f ix))) by exact: isfloat_mk.
apply: eq_mk => ix Hix; rewrite /f /sbin.
move: (wf_get Hw (Hv _ _ (erefl _) Hix)); rewrite Hd.
by case: (get a _).
Qed.

(** Broadcast indices are valid indices of the operands. *)
Lemma valid_strip s ix : valid s ix ->
  valid s [seq (if p.1 == 1 then 0 else p.2) | p <- zip s ix].
Proof.
elim: s ix => [|d s IH] [|i ix] //= /andP [Hi Hv].
rewrite /valid /= -/(valid _ _) IH // andbT; case: eqP => [->|_] //.
Qed.

Lemma valid_bidx_rev s t u ix : bshape_rev s t = Some u -> valid u ix ->
  valid s [seq (if p.1 == 1 then 0 else p.2) | p <- zip s ix].
Proof.
elim: s t u ix => [|d s IH] t u ix; first by case: ix.
case: t => [|e t] /=; first by move=> [<-]; exact: valid_strip.
case Hb: (bdim d e) => [x|] //; case Hs: (bshape_rev s t) => [u'|] // [<-].
case: ix => [|i ix] // /andP [Hi Hv]; rewrite /valid /= -/(valid _ _) (IH _ _ _ Hs Hv) andbT.
case: eqP => [->|Hd] //; move: Hb; rewrite /bdim.
by case: eqP => [_ [->] //|_]; case: eqP => // _; case: eqP => // _ [->].
Qed.

Lemma bshape_rev_sym s t : bshape_rev s t = bshape_rev t s.
Proof.
elim: s t => [|d s IH] [|e t] //=; rewrite IH /bdim.
rewrite (eq_sym e d); case: (d =P e) => [->|_] //.
by case: (d =P 1) => [->|_] //; case: (e =P 1) => [->|_].
Qed.

Lemma bshape_size s t u : bshape_rev s t = Some u -> size s <= size u.
Proof.
elim: s t u => [|d s IH] [|e t] u //=; first by case=> <-.
by case: (bdim d e) => // x; case E: (bshape_rev s t) => [v|] // [<-]; exact: (IH _ _ E).
Qed.

Lemma valid_bidx_l s t u ix : bshape s t = Some u -> valid u ix -> valid s (bidx s ix).
Proof.
rewrite /bshape; case E: (bshape_rev _ _) => [v|] // [<-] Hv.
have Hsz : size s <= size ix.
  rewrite (valid_size Hv) size_rev -(size_rev s); exact: bshape_size E.
have Hv' : valid v (rev ix) by rewrite -(revK v); exact: valid_rev.
have := valid_rev (valid_bidx_rev E Hv'); rewrite revK -map_rev => H.
suff -> : bidx s ix = [seq if p.1 == 1 then 0 else p.2 | p <- rev (zip (rev s) (rev ix))] by [].
rewrite /bidx; congr map.
have Hd : size s = size (drop (size ix - size s) ix) by rewrite size_drop subKn.
have -> : rev ix = rev (drop (size ix - size s) ix) ++ rev (take (size ix - size s) ix).
  by rewrite -rev_cat cat_take_drop.
rewrite -[rev s]cats0 zip_cat ?size_rev //.
have -> T1 T2 (w : seq T2) : zip (@nil T1) w = [::] by case: w.
by rewrite cats0 -rev_zip // revK.
Qed.

Lemma valid_bidx_r s t u ix : bshape s t = Some u -> valid u ix -> valid t (bidx t ix).
Proof.
move=> H; apply: (@valid_bidx_l t s); rewrite -H /bshape bshape_rev_sym //.
Qed.

Lemma np_add_floatr (a b c : arr) : np_add a b = Ok c -> isfloat b -> isfloat c.
Proof. by move=> E Hb; apply: (np_bin_floatr E Hb) => ix sh; exact: valid_bidx_r. Qed.

Lemma np_sub_floatl (a b c : arr) : np_sub a b = Ok c -> isfloat a -> isfloat c.
Proof. by move=> E Hb; apply: (np_bin_floatl E Hb) => ix sh; exact: valid_bidx_l. Qed.

Lemma promoteF d : promote d DFloat = DFloat. Proof. by case: d. Qed.

Lemma gain_float (S H P Kk : arr) : gain S H P = Ok Kk -> isfloat Kk.
Proof.
rewrite /gain; case: (np_matmul _ _) => //= HP; case E: (np_solve _ _) => [X|] //= [<-].
exact/isfloat_T/(np_solve_float E).
Qed.

Lemma correct_float I x Kk H P z zh x' P' : isfloat Kk -> isfloat I ->
  correct_state x Kk z zh = Ok x' -> @correct_cov N I Kk H P = Ok P' ->
  isfloat x' /\ isfloat P'.
Proof.
move=> HK HI; rewrite /correct_state /correct_cov.
case: (np_sub z zh) => //= y; case Ey: (np_matmul Kk _) => [Ky|] //= Ex.
case: (np_matmul Kk H) => //= KH; case Es: (np_sub I KH) => [IK|] //= EP.
have HdK : dt Kk = DFloat by case/isfloatP: HK.
split.
  by apply: (np_add_floatr Ex); apply: (np_matmul_float Ey); rewrite HdK.
apply: (np_matmul_float EP).
by case/isfloatP: (np_sub_floatl Es HI) => _ ->.
Qed.

Lemma kf_update_float I H x P z R g g' x' P' : isfloat I ->
  @kf_update N I H x P z R g = (g', Ok (x', P')) -> isfloat x' /\ isfloat P'.
Proof.
move=> HI; rewrite /kf_update /mbind /mlift.
case: (innov_cov _ _ _) => // S; case Eg: (gain _ _ _) => [Kk|] //=.
case: (np_matmul _ _) => //= zhat; case Ex: (correct_state _ _ _ _) => // [x1].
case EP: (correct_cov _ _ _ _) => // [P1] [_ <- <-].
exact: (correct_float (gain_float Eg) HI Ex EP).
Qed.

Lemma ekf_update_float self x P z R g g' x' P' : isfloat (e_I self) ->
  @ekf_update N self x P z R g = (g', Ok (x', P')) -> isfloat x' /\ isfloat P'.
Proof.
move=> HI; rewrite /ekf_update /mbind /mlift.
case: (e_jH _ _) => // H.
case: (innov_cov _ _ _) => // S; case Eg: (gain _ _ _) => [Kk|] //=.
case: (e_h _ _) => //= zhat; case Ex: (correct_state _ _ _ _) => // [x1].
case EP: (correct_cov _ _ _ _) => // [P1] [_ <- <-].
exact: (correct_float (gain_float Eg) HI Ex EP).
Qed.

Lemma isfloat_identity n : isfloat (np_identity N n).
Proof. exact: isfloat_mk. Qed.

End Floats.
