(** * FilterThms: proofs of the structural properties of filter, any arithmetic *)
From Coq Require Import ZArith Lia.
From mathcomp Require Import ssreflect ssrfun ssrbool eqtype ssrnat seq.
From Verif Require Import Np NpLemmas Kf Ekf ApiSpec Loop Frame FilterLemmas.

Set Implicit Arguments.
Unset Strict Implicit.
Unset Printing Implicit Defensive.

Section Thms.
Variable N : num.
Notation arr := (arr N).

Lemma constructed_I (self : kf N) : constructed self ->
  kf_I self = np_identity N (kf_size self).
Proof.
case=> A [xk [B [Pk [H [Q [R [ss [self0 [cs [Hi ->]]]]]]]]]].
rewrite kf_callsE /=; move: Hi; rewrite /kf_init.
by case: (match ss with Some _ => _ | _ => _ end) => //= n [<-].
Qed.

Lemma e_constructed_I (self : ekf N) : e_constructed self ->
  e_I self = np_identity N (e_size self).
Proof.
case=> xk [Pk [Q [R [f [h [jA [jH [self0 [cs [Hi ->]]]]]]]]]].
by rewrite e_callsE /=; move: Hi; rewrite /ekf_init; case: (shape0 _) => //= n [<-].
Qed.

(** A call that returns was given sequences everywhere. *)
Lemma filter_iterable (self : kf N) Z U g g' r :
  kf_filter self Z U g = (g', Ok r) -> iterable self Z U.
Proof. by case H: (iterable self Z U) => //; rewrite kf_filter_unsized ?H. Qed.

Lemma e_filter_iterable (self : ekf N) Z U g g' r :
  ekf_filter self Z U g = (g', Ok r) -> e_iterable self Z U.
Proof. by case H: (e_iterable self Z U) => //; rewrite ekf_filter_unsized ?H. Qed.

Lemma size_rows_le (self : kf N) Z U : size (rows_of self Z U) <= nrows Z.
Proof. by rewrite size_rows_of; case: (steps_le self Z U) => -[]. Qed.

Lemma e_size_rows_le (self : ekf N) Z U : size (e_rows_of self Z U) <= nrows Z.
Proof. by rewrite size_e_rows_of; case: (e_steps_le self Z U). Qed.

(** Everything known of a successful filter run. *)
Lemma filter_ok (self : kf N) Z U g g' st er :
  kf_filter self Z U g = (g', Ok (st, er)) ->
  let n := kf_size self in let T := nrows Z in let s := steps self Z U in
  [/\ outshape T n (st, er), size g' = size g + s,
      (forall j, j < s -> exists x P,
        [/\ by_hand self Z (control Z U) j.+1 g = (take (size g + j.+1) g', Ok (x, P)),
            storable n (x, P), row st j = fit [:: n] x & row er j = fit [:: n; n] P]) &
      (forall j, s <= j < T ->
        row st j = np_zeros N [:: n] /\ row er j = np_zeros N [:: n; n])].
Proof.
move=> E n T s; have Hit := filter_iterable E; rewrite kf_filterE // in E.
have [Ho Hs Hr Hz] := loop_ok (@framed_step _ _) (@logs1_step _ _) (size_rows_le self Z U) E.
rewrite size_rows_of in Hs Hr Hz; split=> // j Hj.
have [[x P] [A1 A2 A3 A4]] := Hr j Hj; exists x, P; split=> //.
by rewrite by_hand_rows.
Qed.

Lemma e_filter_ok (self : ekf N) Z U g g' st er :
  ekf_filter self Z U g = (g', Ok (st, er)) ->
  let n := e_size self in let T := nrows Z in let s := e_steps self Z U in
  [/\ outshape T n (st, er), size g' = size g + s,
      (forall j, j < s -> exists x P,
        [/\ e_by_hand self Z (control Z U) j.+1 g = (take (size g + j.+1) g', Ok (x, P)),
            storable n (x, P), row st j = fit [:: n] x & row er j = fit [:: n; n] P]) &
      (forall j, s <= j < T ->
        row st j = np_zeros N [:: n] /\ row er j = np_zeros N [:: n; n])].
Proof.
move=> E n T s; have Hit := e_filter_iterable E; rewrite ekf_filterE // in E.
have [Ho Hs Hr Hz] := loop_ok (@framed_estep _ _) (@logs1_estep _ _) (e_size_rows_le self Z U) E.
rewrite size_e_rows_of in Hs Hr Hz; split=> // j Hj.
have [[x P] [A1 A2 A3 A4]] := Hr j Hj; exists x, P; split=> //.
by rewrite e_by_hand_rows.
Qed.

(** Everything known of a run that raises. *)
Lemma filter_raises (self : kf N) Z U g g' e : iterable self Z U ->
  kf_filter self Z U g = (g', Raise e) ->
  exists j, [/\ j < steps self Z U,
    (forall i, i < j -> exists gi xP,
       by_hand self Z (control Z U) i.+1 g = (gi, Ok xP) /\ storable (kf_size self) xP) &
    by_hand self Z (control Z U) j.+1 g = (g', Raise e) \/
    (e = ValueError /\ exists xP,
       by_hand self Z (control Z U) j.+1 g = (g', Ok xP) /\ ~~ storable (kf_size self) xP)].
Proof.
move=> Hit E; rewrite kf_filterE // in E.
have := @filter_loop_spec _ _ (kf_step (kf_I self)) (kf_size self) (nrows Z) (rows_of self Z U) 0
   (kf_xk self, kf_Pk self) _ g (alloc_outshape N _ _) (size_rows_le self Z U).
rewrite E => -[j []]; rewrite size_rows_of => Hj Hpre Hend; exists j; split=> //.
  move=> i Hi; have [gi [y [A1 A2]]] := Hpre i Hi; exists gi, y; split=> //.
  by rewrite by_hand_rows // (ltn_trans Hi).
by rewrite by_hand_rows //.
Qed.

Lemma e_filter_raises (self : ekf N) Z U g g' e : e_iterable self Z U ->
  ekf_filter self Z U g = (g', Raise e) ->
  exists j, [/\ j < e_steps self Z U,
    (forall i, i < j -> exists gi xP,
       e_by_hand self Z (control Z U) i.+1 g = (gi, Ok xP) /\ storable (e_size self) xP) &
    e_by_hand self Z (control Z U) j.+1 g = (g', Raise e) \/
    (e = ValueError /\ exists xP,
       e_by_hand self Z (control Z U) j.+1 g = (g', Ok xP) /\ ~~ storable (e_size self) xP)].
Proof.
move=> Hit E; rewrite ekf_filterE // in E.
have := @filter_loop_spec _ _ (ekf_step self) (e_size self) (nrows Z) (e_rows_of self Z U) 0
   (e_xk self, e_Pk self) _ g (alloc_outshape N _ _) (e_size_rows_le self Z U).
rewrite E => -[j []]; rewrite size_e_rows_of => Hj Hpre Hend; exists j; split=> //.
  move=> i Hi; have [gi [y [A1 A2]]] := Hpre i Hi; exists gi, y; split=> //.
  by rewrite e_by_hand_rows // (ltn_trans Hi).
by rewrite e_by_hand_rows //.
Qed.

Lemma outshape_float T n (o : arr * arr) : outshape T n o ->
  float_shaped [:: T; n] o.1 /\ float_shaped [:: T; n; n] o.2.
Proof. by case=> -[H1 H2 H3] [H4 H5 H6]; rewrite /float_shaped H1 H2 H3 H4 H5 H6 !eqxx. Qed.

(** ** C01, filter part *)
Lemma filter_shapes (self : kf N) Z U g g' st er :
  kf_filter self Z U g = (g', Ok (st, er)) ->
  float_shaped [:: nrows Z; kf_size self] st /\
  float_shaped [:: nrows Z; kf_size self; kf_size self] er.
Proof. by case/filter_ok => /outshape_float []. Qed.

Lemma e_filter_shapes (self : ekf N) Z U g g' st er :
  ekf_filter self Z U g = (g', Ok (st, er)) ->
  float_shaped [:: nrows Z; e_size self] st /\
  float_shaped [:: nrows Z; e_size self; e_size self] er.
Proof. by case/e_filter_ok => /outshape_float []. Qed.

(** Posteriors computed by hand are float arrays. *)
Lemma by_hand_float (self : kf N) Z U k g g' x P : constructed self ->
  by_hand self Z U k.+1 g = (g', Ok (x, P)) -> isfloat x /\ isfloat P.
Proof.
move=> Hc /=; rewrite /mbind /mlift; case: (by_hand _ _ _ _ _) => [g1 [xP|]] //.
do 7 (case: (np_getitem _ _) => // ?).
case: (kf_predict _ _ _ _ _ _) => // pr.
by apply: kf_update_float; rewrite (constructed_I Hc); exact: isfloat_identity.
Qed.

Lemma e_by_hand_float (self : ekf N) Z U k g g' x P : e_constructed self ->
  e_by_hand self Z U k.+1 g = (g', Ok (x, P)) -> isfloat x /\ isfloat P.
Proof.
move=> Hc /=; rewrite /mbind /mlift; case: (e_by_hand _ _ _ _ _) => [g1 [xP|]] //.
do 4 (case: (np_getitem _ _) => // ?).
case: (ekf_predict _ _ _ _ _) => // pr.
by apply: ekf_update_float; rewrite (e_constructed_I Hc); exact: isfloat_identity.
Qed.

(** What is stored is the posterior itself when it has the shape of a row. *)
Lemma stored_is n (a : arr) sh : isfloat a -> shp a = sh -> n = sh -> fit n a = a.
Proof. by move=> /isfloatP [Hw Hd] <- ->; exact: fit_id. Qed.

(** ** C03 *)
Lemma control_nrows (Z : arr) U : nrows (control Z U) = if U is Some u then nrows u else nrows Z.
Proof. by case: U. Qed.

Lemma steps_gt (self : kf N) Z U i :
  (i < steps self Z U) = [&& i < nrows (kf_A self), i < nrows (kf_H self), i < nrows (kf_B self),
    i < nrows (control Z U), i < nrows (kf_Q self), i < nrows (kf_R self) & i < nrows Z].
Proof. by rewrite /steps /= !leq_min. Qed.

Lemma e_steps_gt (self : ekf N) Z U i :
  (i < e_steps self Z U) = [&& i < nrows (control Z U), i < nrows (e_Q self), i < nrows (e_R self)
     & i < nrows Z].
Proof. by rewrite /e_steps /= !leq_min. Qed.

Lemma sized_getitem (a b : arr) k : 0 < k -> agree k a b -> forall i, i < k ->
  np_getitem a (Z.of_nat i) = np_getitem b (Z.of_nat i).
Proof.
move=> Hk [Ha Hb H] i Hi.
have E (c : arr) : k <= nrows c -> np_getitem c (Z.of_nat i) = Ok (row c i).
  move=> Hc; have : 0 < nrows c by exact: leq_trans Hk Hc.
  rewrite /nrows; case Es: (shp c) => [|d sh] //= _.
  apply: (getitem_row Es); move: Hc; rewrite /nrows Es /=; exact: leq_trans.
by rewrite !E // H.
Qed.

Lemma by_hand_agree (self : kf N) Z U Z' U' k i g : agree k Z Z' -> agree k U U' -> i <= k ->
  by_hand self Z U i g = by_hand self Z' U' i g.
Proof.
move=> HZ HU; elim: i g => [|i IH] g Hi //=.
have Hk : 0 < k by exact: leq_trans Hi.
rewrite /mbind (IH g (ltnW Hi)); case: (by_hand self Z' U' i g) => [g1 [xP|e]] //.
by rewrite (sized_getitem Hk HZ Hi) (sized_getitem Hk HU Hi).
Qed.

Lemma e_by_hand_agree (self : ekf N) Z U Z' U' k i g : agree k Z Z' -> agree k U U' -> i <= k ->
  e_by_hand self Z U i g = e_by_hand self Z' U' i g.
Proof.
move=> HZ HU; elim: i g => [|i IH] g Hi //=.
have Hk : 0 < k by exact: leq_trans Hi.
rewrite /mbind (IH g (ltnW Hi)); case: (e_by_hand self Z' U' i g) => [g1 [xP|e]] //.
by rewrite (sized_getitem Hk HZ Hi) (sized_getitem Hk HU Hi).
Qed.

Lemma min_eq k a b : (forall i, i < k -> (i < a) = (i < b)) -> minn k a = minn k b.
Proof.
suff H x y : (forall i, i < k -> i < x -> i < y) -> minn k x <= minn k y.
  move=> E; apply/eqP; rewrite eqn_leq !H // => i Hi; by rewrite (E i Hi).
move=> E; rewrite leq_min geq_minl /=.
case Em: (minn k x) => [|m] //; apply: E.
  by rewrite -Em geq_minl.
by rewrite -Em geq_minr.
Qed.

Lemma filter_gains_at (self : kf N) Z U g g' st er j :
  kf_filter self Z U g = (g', Ok (st, er)) -> j <= steps self Z U ->
  exists xP, by_hand self Z (control Z U) j g = (take (size g + j) g', Ok xP).
Proof.
move=> E; case: j => [|j] Hj /=; last first.
  by have [_ _ Hr _] := filter_ok E; case: (Hr j Hj) => x [P [H _ _ _]]; exists (x, P).
exists (kf_xk self, kf_Pk self); rewrite addn0 /mret; congr pair.
by move: (framed_filter self Z U g); rewrite E => -[-> _]; rewrite take_size_cat.
Qed.

Lemma filter_causal (self : kf N) Z U Z' U' k g g1 g2 st1 er1 st2 er2 :
  agree k Z Z' -> agree k (control Z U) (control Z' U') ->
  kf_filter self Z U g = (g1, Ok (st1, er1)) ->
  kf_filter self Z' U' g = (g2, Ok (st2, er2)) ->
  [/\ agree k st1 st2, agree k er1 er2 & take (size g + k) g1 = take (size g + k) g2].
Proof.
move=> HZ HU E1 E2.
have [[[_ _ Hs1] [_ _ Hs1']] Hg1 Hr1 Hz1] := filter_ok E1.
have [[[_ _ Hs2] [_ _ Hs2']] Hg2 Hr2 Hz2] := filter_ok E2.
change (shp st1 = [:: nrows Z; kf_size self]) in Hs1; change (shp st2 = [:: nrows Z'; kf_size self]) in Hs2.
change (shp er1 = [:: nrows Z; kf_size self; kf_size self]) in Hs1'; change (shp er2 = [:: nrows Z'; kf_size self; kf_size self]) in Hs2'.
case: (HZ) (HU) => HZ1 HZ2 HZ3 [HU1 HU2 HU3].
have Hst i : i < k -> (i < steps self Z U) = (i < steps self Z' U').
  move=> Hi; rewrite !steps_gt.
  by rewrite !(leq_trans Hi HZ1, leq_trans Hi HZ2, leq_trans Hi HU1, leq_trans Hi HU2).
have R i : i < k -> row st1 i = row st2 i /\ row er1 i = row er2 i.
  move=> Hi; case: (ltnP i (steps self Z U)) => His.
    have [x [P [A1 A2 A3 A4]]] := Hr1 i His.
    have His' := His; rewrite (Hst i Hi) in His'.
    have [x' [P' [B1 B2 B3 B4]]] := Hr2 i His'.
    move: A1; rewrite (by_hand_agree self g HZ HU Hi) B1 => -[_ Ex EP].
    by rewrite A3 A4 B3 B4 Ex EP.
  have HT1 : i < nrows Z by exact: leq_trans Hi HZ1.
  have HT2 : i < nrows Z' by exact: leq_trans Hi HZ2.
  have [|-> ->] := Hz1 i; first by rewrite His.
  have [|-> ->] := Hz2 i; last by [].
  by rewrite leqNgt -(Hst i Hi) -leqNgt His HT2.
have Hm : minn k (steps self Z U) = minn k (steps self Z' U') by exact: min_eq.
have tk (h : seq arr) s : size h = size g + s -> take (size g + k) h = take (size g + minn k s) h.
  move=> Hh; case: (leqP k s) => // H.
  by rewrite -Hh take_size take_oversize // Hh leq_add2l ltnW.
split.
- split=> [||i /R []] //; by rewrite /nrows ?Hs1 ?Hs2.
- split=> [||i /R []] //; by rewrite /nrows ?Hs1' ?Hs2'.
rewrite (tk _ _ Hg1) (tk _ _ Hg2) -Hm.
have Hk1 : minn k (steps self Z U) <= steps self Z U by exact: geq_minr.
have [xP1] := filter_gains_at E1 Hk1.
have [|xP2 A2] := @filter_gains_at self Z' U' g g2 st2 er2 (minn k (steps self Z U)) E2.
  by rewrite Hm; exact: geq_minr.
by rewrite (by_hand_agree self g HZ HU (geq_minl _ _)) A2 => -[->].
Qed.

Lemma e_filter_gains_at (self : ekf N) Z U g g' st er j :
  ekf_filter self Z U g = (g', Ok (st, er)) -> j <= e_steps self Z U ->
  exists xP, e_by_hand self Z (control Z U) j g = (take (size g + j) g', Ok xP).
Proof.
move=> E; case: j => [|j] Hj /=; last first.
  by have [_ _ Hr _] := e_filter_ok E; case: (Hr j Hj) => x [P [H _ _ _]]; exists (x, P).
exists (e_xk self, e_Pk self); rewrite addn0 /mret; congr pair.
by move: (framed_efilter self Z U g); rewrite E => -[-> _]; rewrite take_size_cat.
Qed.

Lemma e_filter_causal (self : ekf N) Z U Z' U' k g g1 g2 st1 er1 st2 er2 :
  agree k Z Z' -> agree k (control Z U) (control Z' U') ->
  ekf_filter self Z U g = (g1, Ok (st1, er1)) ->
  ekf_filter self Z' U' g = (g2, Ok (st2, er2)) ->
  [/\ agree k st1 st2, agree k er1 er2 & take (size g + k) g1 = take (size g + k) g2].
Proof.
move=> HZ HU E1 E2.
have [[[_ _ Hs1] [_ _ Hs1']] Hg1 Hr1 Hz1] := e_filter_ok E1.
have [[[_ _ Hs2] [_ _ Hs2']] Hg2 Hr2 Hz2] := e_filter_ok E2.
change (shp st1 = [:: nrows Z; e_size self]) in Hs1; change (shp st2 = [:: nrows Z'; e_size self]) in Hs2.
change (shp er1 = [:: nrows Z; e_size self; e_size self]) in Hs1'; change (shp er2 = [:: nrows Z'; e_size self; e_size self]) in Hs2'.
case: (HZ) (HU) => HZ1 HZ2 HZ3 [HU1 HU2 HU3].
have Hst i : i < k -> (i < e_steps self Z U) = (i < e_steps self Z' U').
  move=> Hi; rewrite !e_steps_gt.
  by rewrite !(leq_trans Hi HZ1, leq_trans Hi HZ2, leq_trans Hi HU1, leq_trans Hi HU2).
have R i : i < k -> row st1 i = row st2 i /\ row er1 i = row er2 i.
  move=> Hi; case: (ltnP i (e_steps self Z U)) => His.
    have [x [P [A1 A2 A3 A4]]] := Hr1 i His.
    have His' := His; rewrite (Hst i Hi) in His'.
    have [x' [P' [B1 B2 B3 B4]]] := Hr2 i His'.
    move: A1; rewrite (e_by_hand_agree self g HZ HU Hi) B1 => -[_ Ex EP].
    by rewrite A3 A4 B3 B4 Ex EP.
  have HT1 : i < nrows Z by exact: leq_trans Hi HZ1.
  have HT2 : i < nrows Z' by exact: leq_trans Hi HZ2.
  have [|-> ->] := Hz1 i; first by rewrite His.
  have [|-> ->] := Hz2 i; last by [].
  by rewrite leqNgt -(Hst i Hi) -leqNgt His HT2.
have Hm : minn k (e_steps self Z U) = minn k (e_steps self Z' U') by exact: min_eq.
have tk (h : seq arr) s : size h = size g + s -> take (size g + k) h = take (size g + minn k s) h.
  move=> Hh; case: (leqP k s) => // H.
  by rewrite -Hh take_size take_oversize // Hh leq_add2l ltnW.
split.
- split=> [||i /R []] //; by rewrite /nrows ?Hs1 ?Hs2.
- split=> [||i /R []] //; by rewrite /nrows ?Hs1' ?Hs2'.
rewrite (tk _ _ Hg1) (tk _ _ Hg2) -Hm.
have Hk1 : minn k (e_steps self Z U) <= e_steps self Z U by exact: geq_minr.
have [xP1] := e_filter_gains_at E1 Hk1.
have [|xP2 A2] := @e_filter_gains_at self Z' U' g g2 st2 er2 (minn k (e_steps self Z U)) E2.
  by rewrite Hm; exact: geq_minr.
by rewrite (e_by_hand_agree self g HZ HU (geq_minl _ _)) A2 => -[->].
Qed.

End Thms.
