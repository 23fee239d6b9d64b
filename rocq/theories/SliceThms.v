(** * SliceThms: filter on prefixes and suffixes of the data, any arithmetic *)
From Coq Require Import ZArith Lia.
From mathcomp Require Import ssreflect ssrfun ssrbool eqtype ssrnat seq.
From Verif Require Import Np NpLemmas Kf Ekf ApiSpec Loop Frame FilterLemmas FilterThms.

Set Implicit Arguments.
Unset Strict Implicit.
Unset Printing Implicit Defensive.

Section Slices.
Variable N : num.
Notation arr := (arr N).

Lemma ltn_ext (x y : nat) : (forall i, (i < x) = (i < y)) -> x = y.
Proof.
move=> H; apply/eqP; rewrite eqn_leq; apply/andP; split; rewrite leqNgt.
  by rewrite H ltnn.
by rewrite -H ltnn.
Qed.

Lemma row_upto k (a : arr) i : i < k -> row (upto_row k a) i = row a i.
Proof.
move=> Hi; rewrite /row /upto_row /=; congr Arr.
set e := nelem _.
have -> : k * e = e + (k - i.+1) * e + i * e.
  by rewrite -mulSn -mulnDl addSnnS addnC subnKC.
by rewrite -take_drop take_take // leq_addr.
Qed.

Lemma row_from k (a : arr) i : row (from_row k a) i = row a (k + i).
Proof. by rewrite /row /from_row /= drop_drop -mulnDl addnC. Qed.

Lemma nrows_upto k (a : arr) : nrows (upto_row k a) = minn k (nrows a).
Proof. by []. Qed.
Lemma nrows_from k (a : arr) : nrows (from_row k a) = nrows a - k.
Proof. by []. Qed.
Lemma sized_upto k (a : arr) : sized (upto_row k a). Proof. by []. Qed.
Lemma sized_from k (a : arr) : sized (from_row k a). Proof. by []. Qed.

Lemma control_upto k (Z : arr) U i : i < k -> i < nrows Z ->
  row (control (upto_row k Z) (omap (upto_row k) U)) i = row (control Z U) i.
Proof.
move=> Hi HiZ; case: U => [u|] /=; first by rewrite row_upto.
have HZ : shp Z = nrows Z :: behead (shp Z) by move: HiZ; rewrite /nrows; case: (shp Z).
rewrite (row_full_like HZ HiZ).
rewrite (@row_full_like _ (upto_row k Z) i (minn k (nrows Z)) (behead (shp Z))) //; last first.
  by rewrite leq_min Hi.
Qed.

Lemma control_from k (Z : arr) U i : k + i < nrows Z ->
  row (control (from_row k Z) (omap (from_row k) U)) i = row (control Z U) (k + i).
Proof.
move=> HiZ; case: U => [u|] /=; first by rewrite row_from.
have HZ : shp Z = nrows Z :: behead (shp Z) by move: HiZ; rewrite /nrows; case: (shp Z).
rewrite (row_full_like HZ HiZ).
rewrite (@row_full_like _ (from_row k Z) i (nrows Z - k) (behead (shp Z))) //; last first.
  by rewrite ltn_subRL.
Qed.

Lemma nrows_control_upto k (Z : arr) U :
  nrows (control (upto_row k Z) (omap (upto_row k) U)) = minn k (nrows (control Z U)).
Proof. by case: U. Qed.
Lemma nrows_control_from k (Z : arr) U :
  nrows (control (from_row k Z) (omap (from_row k) U)) = nrows (control Z U) - k.
Proof. by case: U. Qed.

(** ** Rows of the truncated and of the remaining problem *)
Lemma map_iota_take T (f : nat -> T) k s : take k [seq f i | i <- iota 0 s] = [seq f i | i <- iota 0 (minn k s)].
Proof. by rewrite -map_take take_iota. Qed.

Lemma map_iota_drop T (f : nat -> T) k s :
  drop k [seq f i | i <- iota 0 s] = [seq f (k + i) | i <- iota 0 (s - k)].
Proof. by rewrite -map_drop drop_iota add0n -{1}[k]addn0 iotaDl -map_comp. Qed.

Lemma steps_upto (self : kf N) k Z U :
  steps self (upto_row k Z) (omap (upto_row k) U) = minn k (steps self Z U).
Proof.
apply: ltn_ext => i; rewrite leq_min !steps_gt nrows_control_upto nrows_upto !leq_min.
by case: (i < k); rewrite ?andbF.
Qed.

Lemma e_steps_upto (self : ekf N) k Z U :
  e_steps self (upto_row k Z) (omap (upto_row k) U) = minn k (e_steps self Z U).
Proof.
apply: ltn_ext => i; rewrite leq_min !e_steps_gt nrows_control_upto nrows_upto !leq_min.
by case: (i < k); rewrite ?andbF.
Qed.

Lemma rows_upto (self : kf N) k Z U :
  rows_of self (upto_row k Z) (omap (upto_row k) U) = take k (rows_of self Z U).
Proof.
rewrite /rows_of map_iota_take steps_upto; apply/eq_in_map => i.
rewrite mem_iota add0n leq_min => /andP [_ /andP [Hk Hi]].
have [[HZ _ _ _] _] := steps_le self Z U.
by rewrite /srow_at control_upto ?row_upto // (leq_trans Hi).
Qed.

Lemma e_rows_upto (self : ekf N) k Z U :
  e_rows_of self (upto_row k Z) (omap (upto_row k) U) = take k (e_rows_of self Z U).
Proof.
rewrite /e_rows_of map_iota_take e_steps_upto; apply/eq_in_map => i.
rewrite mem_iota add0n leq_min => /andP [_ /andP [Hk Hi]].
have [HZ _ _ _] := e_steps_le self Z U.
by rewrite /erow_at control_upto ?row_upto // (leq_trans Hi).
Qed.

Lemma steps_from (self : kf N) k x P Z U :
  steps (resumed self k x P) (from_row k Z) (omap (from_row k) U) = steps self Z U - k.
Proof.
apply: ltn_ext => i; rewrite ltn_subRL !steps_gt nrows_control_from.
by cbn [kf_A kf_H kf_B kf_Q kf_R resumed]; rewrite !nrows_from !ltn_subRL.
Qed.

Lemma rows_from (self : kf N) k x P Z U :
  rows_of (resumed self k x P) (from_row k Z) (omap (from_row k) U) = drop k (rows_of self Z U).
Proof.
rewrite /rows_of map_iota_drop steps_from; apply/eq_in_map => i.
rewrite mem_iota add0n => /andP [_]; rewrite ltn_subRL => Hi.
have [[HZ _ _ _] _] := steps_le self Z U.
by rewrite /srow_at control_from ?row_from // (leq_trans Hi).
Qed.

Lemma e_steps_from (self : ekf N) k x P Z U :
  e_steps (e_resumed self k x P) (from_row k Z) (omap (from_row k) U) = e_steps self Z U - k.
Proof.
apply: ltn_ext => i; rewrite ltn_subRL !e_steps_gt nrows_control_from.
by cbn [e_Q e_R e_resumed]; rewrite !nrows_from !ltn_subRL.
Qed.

Lemma e_rows_from (self : ekf N) k x P Z U :
  e_rows_of (e_resumed self k x P) (from_row k Z) (omap (from_row k) U) = drop k (e_rows_of self Z U).
Proof.
rewrite /e_rows_of map_iota_drop e_steps_from; apply/eq_in_map => i.
rewrite mem_iota add0n => /andP [_]; rewrite ltn_subRL => Hi.
have [HZ _ _ _] := e_steps_le self Z U.
by rewrite /erow_at control_from ?row_from // (leq_trans Hi).
Qed.

Lemma rows_trunc (self : kf N) k Z U : steps self Z U <= k ->
  rows_of (truncated self k) Z (omap (upto_row k) U) = rows_of self Z U.
Proof.
move=> Hk.
have Es : steps (truncated self k) Z (omap (upto_row k) U) = steps self Z U.
  apply: ltn_ext => i.
  have -> : (i < steps self Z U) = (i < k) && (i < steps self Z U).
    by case H: (i < steps _ _ _); rewrite ?andbF // (leq_trans H).
  rewrite !steps_gt /= !nrows_upto !leq_min.
  case: U {Hk} => [u|] /=; rewrite ?nrows_upto ?leq_min;
    by case: (i < k); rewrite ?andbF //=.
rewrite /rows_of Es; apply/eq_in_map => i.
rewrite mem_iota add0n => /andP [_ Hi].
have Hik : i < k by exact: leq_trans Hi Hk.
by rewrite /srow_at; case: U {Hk Es Hi} => [u|] /=; rewrite !row_upto.
Qed.

Lemma e_rows_trunc (self : ekf N) k Z U : e_steps self Z U <= k ->
  e_rows_of (e_truncated self k) Z (omap (upto_row k) U) = e_rows_of self Z U.
Proof.
move=> Hk.
have Es : e_steps (e_truncated self k) Z (omap (upto_row k) U) = e_steps self Z U.
  apply: ltn_ext => i.
  have -> : (i < e_steps self Z U) = (i < k) && (i < e_steps self Z U).
    by case H: (i < e_steps _ _ _); rewrite ?andbF // (leq_trans H).
  rewrite !e_steps_gt /= !nrows_upto !leq_min.
  case: U {Hk} => [u|] /=; rewrite ?nrows_upto ?leq_min;
    by case: (i < k); rewrite ?andbF //=.
rewrite /e_rows_of Es; apply/eq_in_map => i.
rewrite mem_iota add0n => /andP [_ Hi].
have Hik : i < k by exact: leq_trans Hi Hk.
by rewrite /erow_at; case: U {Hk Es Hi} => [u|] /=; rewrite !row_upto.
Qed.

(** ** Slices of the results *)
Lemma wf_upto k (a : arr) d sh : wf a -> shp a = d :: sh -> wf (upto_row k a).
Proof.
move=> /andP [/eqP Hs Ha] E; apply/andP; split.
  rewrite /upto_row /nrows /= E /= size_take Hs E /=; case: ltnP.
    by rewrite ltn_mul2r => /andP [_ H]; rewrite (minn_idPl (ltnW H)).
  rewrite leq_mul2r => /orP [/eqP ->|H]; first by rewrite !muln0.
  by rewrite (minn_idPr H).
rewrite /upto_row /=; move: Ha.
by rewrite -{1}(cat_take_drop (k * nelem (behead (shp a))) (dat a)) all_cat => /andP [].
Qed.

Lemma wf_vstack (a b : arr) d e sh : wf a -> wf b -> dt a = dt b -> shp a = d :: sh ->
  shp b = e :: sh -> wf (vstack a b).
Proof.
move=> /andP [/eqP Hs Ha] /andP [/eqP Hs' Hb] Hd E E'; apply/andP; split.
  by rewrite /vstack /nrows E E' /= size_cat Hs Hs' E E' /= mulnDl.
by rewrite /vstack /= all_cat Ha /= Hd.
Qed.

Lemma row_vstack (a b : arr) d e sh i : wfs a -> shp a = d :: sh -> shp b = e :: sh -> dt a = dt b ->
  row (vstack a b) i = if i < d then row a i else row b (i - d).
Proof.
move=> /eqP Hs E E' Hd; rewrite /row /vstack /= E E' /= Hd; rewrite E /= in Hs.
case: ltnP => Hi; rewrite ?E ?E' ?Hd /=; congr Arr.
  rewrite drop_cat Hs.
  case: (ltnP (i * nelem sh) (d * nelem sh)) => H.
    rewrite takel_cat // size_drop Hs -mulnBl leq_pmull // subn_gt0 //.
  have Hn : nelem sh = 0.
    by apply/eqP; move: H; rewrite leq_mul2r [d <= i]leqNgt Hi orbF.
  by rewrite Hn !take0.
by rewrite drop_cat Hs ltnNge leq_mul2r Hi orbT /= mulnBl.
Qed.

End Slices.

Section Gen.
Variable N : num.
Notation arr := (arr N).
Variables (S : Type) (step : S -> arr * arr -> meth N (arr * arr)).
Hypothesis Hf : forall s x, framed (step s x).
Hypothesis H1 : forall s x, logs1 (step s x).

Lemma outshape_upto T n k (o : arr * arr) : outshape T n o ->
  outshape (minn k T) n (upto_row k o.1, upto_row k o.2).
Proof.
move=> [[Hw1 Hd1 Hs1] [Hw2 Hd2 Hs2]]; split; split=> //=.
- exact: wf_upto Hs1.
- by rewrite /nrows Hs1.
- exact: wf_upto Hs2.
- by rewrite /nrows Hs2.
Qed.

Lemma outshape_vstack T1 T2 n (o1 o2 : arr * arr) : outshape T1 n o1 -> outshape T2 n o2 ->
  outshape (T1 + T2) n (vstack o1.1 o2.1, vstack o1.2 o2.2).
Proof.
move=> [[Hw1 Hd1 Hs1] [Hw2 Hd2 Hs2]] [[Hw1' Hd1' Hs1'] [Hw2' Hd2' Hs2']]; split; split=> //=.
- by apply: (wf_vstack Hw1 Hw1' _ Hs1 Hs1'); rewrite Hd1.
- by rewrite /nrows Hs1 Hs1'.
- by apply: (wf_vstack Hw2 Hw2' _ Hs2 Hs2'); rewrite Hd2.
- by rewrite /nrows Hs2 Hs2'.
Qed.

Lemma loop_upto n T rows k xP g g' out : size rows <= T ->
  filter_loop step rows 0 xP (alloc N T n) g = (g', Ok out) ->
  filter_loop step (take k rows) 0 xP (alloc N (minn k T) n) g =
    (take (size g + minn k (size rows)) g', Ok (upto_row k out.1, upto_row k out.2)).
Proof.
move=> HT E.
have Hsz : size (take k rows) = minn k (size rows).
  by rewrite size_take.
have HT' : size (take k rows) <= minn k T by rewrite Hsz leq_min geq_minl /= (leq_trans (geq_minr _ _)).
have [out' E'] := loop_prefix Hf H1 HT HT' E.
have [Ho _ Hr Hz] := loop_ok Hf H1 HT E.
have [Ho' _ Hr' Hz'] := loop_ok Hf H1 HT' E'.
rewrite E' Hsz; congr (_, Ok _).
apply: (outshape_ext Ho' (outshape_upto k Ho)) => i; rewrite leq_min => /andP [Hik HiT].
rewrite [in X in _ = X /\ _]/= [in X in _ /\ _ = X]/= !row_upto //.
case: (ltnP i (size rows)) => Hi.
  have Hi' : i < size (take k rows) by rewrite Hsz leq_min Hik.
  have [y [A1 _ A3 A4]] := Hr i Hi; have [y' [B1 _ B3 B4]] := Hr' i Hi'.
  move: B1; rewrite take_take // A1 => -[_ Ey].
  by rewrite B3 B4 A3 A4 Ey.
have [|-> ->] := Hz i; first by rewrite Hi.
by apply: Hz'; rewrite Hsz geq_min Hi orbT leq_min Hik.
Qed.

Lemma loop_resume n T2 k r1 r2 xP g g1 y o1 : size r1 = k -> size r2 <= T2 ->
  filter_loop step r1 0 xP (alloc N k n) g = (g1, Ok o1) ->
  (iter_rows step r1 xP g).2 = Ok y ->
  filter_loop step (r1 ++ r2) 0 xP (alloc N (k + T2) n) g =
  (let: (g2, r) := filter_loop step r2 0 y (alloc N T2 n) g1 in
   (g2, match r with Ok o2 => Ok (vstack o1.1 o2.1, vstack o1.2 o2.2) | Raise e => Raise e end)).
Proof.
move=> Hk HT2 E1 Ey.
have HkT : 0 + size r1 <= k + T2 by rewrite Hk leq_addr.
have Hkk : 0 + size r1 <= k by rewrite Hk.
have Hkk2 : k + size r2 <= k + T2 by rewrite leq_add2l.
have Ha := alloc_outshape N (k + T2) n.
have := @loop_place _ _ step n (k + T2) k r1 0 0 xP _ _ g Ha (alloc_outshape N k n) HkT Hkk.
rewrite E1 loop_cat.
case E3: (filter_loop step r1 0 xP (alloc N (k + T2) n) g) => [g3 [o3|e]] // Eg.
rewrite Eg in E3 *.
case Ei: (iter_rows step r1 xP g) Ey => [gy r] /= ->.
have := @filter_loop_spec _ _ step n _ r1 0 xP _ g Ha HkT; rewrite E3 => -[Ho3 Hr3 Hz3 _].
rewrite Hk add0n.
have := @loop_place _ _ step n (k + T2) T2 r2 k 0 y _ _ g1 Ho3 (alloc_outshape N T2 n) Hkk2 HT2.
have := @filter_loop_spec _ _ step n _ r2 k y _ g1 Ho3 Hkk2.
case E4: (filter_loop step r2 k y o3 g1) => [g4 [o4|e]]; case E5: (filter_loop step r2 0 y (alloc N T2 n) g1) => [g5 [o5|e5]] //.
  move=> [Ho4 Hr4 Hz4 _] Hg; rewrite Hg in E4 *; congr (_, Ok _).
  have [Ho5 _ Hr5 Hz5] := loop_ok Hf H1 HT2 E5.
  have [Ho1 _ Hr1 Hz1] := loop_ok Hf H1 Hkk E1.
  apply: (outshape_ext Ho4 (outshape_vstack Ho1 Ho5)) => i Hi.
  case: (Ho1) (Ho5) => -[Hw1 Hd1 Hs1] [Hw2 Hd2 Hs2] [[Hw1' Hd1' Hs1'] [Hw2' Hd2' Hs2']].
  rewrite [in X in _ = X /\ _]/= [in X in _ /\ _ = X]/=.
  rewrite (row_vstack _ (wf_wfs Hw1) Hs1 Hs1'); last by rewrite Hd1.
  rewrite (row_vstack _ (wf_wfs Hw2) Hs2 Hs2'); last by rewrite Hd2.
  case: ltnP => Hik.
    have [|-> ->] := Hz4 i Hi; first by left.
    rewrite -Hk in Hik; have [y1 [A1 _ A3 A4]] := Hr1 i Hik.
    have [gj [y3 [B1 _ B3 B4]]] := Hr3 i Hik.
    rewrite /reaches A1 in B1; case: B1 => _ Ey.
    by rewrite A3 A4 B3 B4 Ey.
  case: (ltnP (i - k) (size r2)) => Hi2.
    have [gj [y4 [B1 _ B3 B4]]] := Hr4 _ Hi2.
    have [y5 [A1 _ A3 A4]] := Hr5 _ Hi2.
    rewrite subnKC // in B3 B4; rewrite A3 A4 B3 B4.
    by move: B1; rewrite /reaches A1 => -[_ ->].
  have [|-> ->] := Hz4 i Hi.
    by right; rewrite -(subnKC Hik) leq_add2l.
  have [|-> ->] := Hz3 i Hi; first by right; rewrite Hk.
  rewrite !(alloc_rows _ _ Hi).1 !(alloc_rows _ _ Hi).2.
  have [|-> ->] := Hz5 (i - k); first by rewrite Hi2 ltn_subLR.
  by [].
by move=> _ [-> ->].
Qed.

End Gen.

Section Api.
Variable N : num.
Notation arr := (arr N).

Lemma iterable_upto (self : kf N) Z U k : iterable self Z U ->
  iterable self (upto_row k Z) (omap (upto_row k) U).
Proof.
by rewrite /iterable /= => /and5P [HZ -> -> -> /and4P [HU -> -> _]]; case: U {HU}.
Qed.

Lemma e_iterable_upto (self : ekf N) Z U k : e_iterable self Z U ->
  e_iterable self (upto_row k Z) (omap (upto_row k) U).
Proof. by rewrite /e_iterable /= => /and5P [HZ HU -> -> _]; case: U {HU}. Qed.

Lemma iterable_from (self : kf N) Z U k x P :
  iterable (resumed self k x P) (from_row k Z) (omap (from_row k) U).
Proof. by rewrite /iterable /=; case: U. Qed.

Lemma e_iterable_from (self : ekf N) Z U k x P :
  e_iterable (e_resumed self k x P) (from_row k Z) (omap (from_row k) U).
Proof. by rewrite /e_iterable /=; case: U. Qed.

Lemma filter_upto (self : kf N) Z U k g g' st er :
  kf_filter self Z U g = (g', Ok (st, er)) ->
  kf_filter self (upto_row k Z) (omap (upto_row k) U) g =
  (take (size g + minn k (steps self Z U)) g', Ok (upto_row k st, upto_row k er)).
Proof.
move=> E; have Hit := filter_iterable E.
rewrite kf_filterE ?iterable_upto // rows_upto nrows_upto.
rewrite kf_filterE // in E.
rewrite (loop_upto (@framed_step _ _) (@logs1_step _ _) k (size_rows_le self Z U) E).
by rewrite size_rows_of.
Qed.

Lemma e_filter_upto (self : ekf N) Z U k g g' st er :
  ekf_filter self Z U g = (g', Ok (st, er)) ->
  ekf_filter self (upto_row k Z) (omap (upto_row k) U) g =
  (take (size g + minn k (e_steps self Z U)) g', Ok (upto_row k st, upto_row k er)).
Proof.
move=> E; have Hit := e_filter_iterable E.
rewrite ekf_filterE ?e_iterable_upto // e_rows_upto nrows_upto.
rewrite ekf_filterE // in E.
rewrite (loop_upto (@framed_estep _ _) (@logs1_estep _ _) k (e_size_rows_le self Z U) E).
by rewrite size_e_rows_of.
Qed.

Lemma filter_resume (self : kf N) Z U k g g1 st1 er1 x P :
  iterable self Z U -> k <= steps self Z U ->
  kf_filter self (upto_row k Z) (omap (upto_row k) U) g = (g1, Ok (st1, er1)) ->
  (by_hand self Z (control Z U) k g).2 = Ok (x, P) ->
  kf_filter self Z U g =
  (let: (g2, r) := kf_filter (resumed self k x P) (from_row k Z) (omap (from_row k) U) g1 in
   (g2, match r with Ok (st2, er2) => Ok (vstack st1 st2, vstack er1 er2) | Raise e => Raise e end)).
Proof.
move=> Hit Hk E1 Ey.
rewrite kf_filterE // [in RHS]kf_filterE ?iterable_from // rows_from nrows_from.
have [[HZ _ _ _] _] := steps_le self Z U.
have HkZ : k <= nrows Z by exact: leq_trans HZ.
have E1' := E1; rewrite kf_filterE ?iterable_upto // rows_upto nrows_upto (minn_idPl HkZ) in E1'.
rewrite by_hand_rows // in Ey.
have Hsz : size (take k (rows_of self Z U)) = k by rewrite size_takel // size_rows_of.
have HT2 : size (drop k (rows_of self Z U)) <= nrows Z - k by rewrite size_drop size_rows_of leq_sub2r.
have := loop_resume (@framed_step _ _) (@logs1_step _ _) Hsz HT2 E1' Ey.
rewrite cat_take_drop (subnKC HkZ) => ->; cbn [fst snd].
by case: (filter_loop _ _ _ _ _ _) => [g2 [[st2 er2]|e]].
Qed.

Lemma e_filter_resume (self : ekf N) Z U k g g1 st1 er1 x P :
  e_iterable self Z U -> k <= e_steps self Z U ->
  ekf_filter self (upto_row k Z) (omap (upto_row k) U) g = (g1, Ok (st1, er1)) ->
  (e_by_hand self Z (control Z U) k g).2 = Ok (x, P) ->
  ekf_filter self Z U g =
  (let: (g2, r) := ekf_filter (e_resumed self k x P) (from_row k Z) (omap (from_row k) U) g1 in
   (g2, match r with Ok (st2, er2) => Ok (vstack st1 st2, vstack er1 er2) | Raise e => Raise e end)).
Proof.
move=> Hit Hk E1 Ey.
rewrite ekf_filterE // [in RHS]ekf_filterE ?e_iterable_from // e_rows_from nrows_from.
have [HZ _ _ _] := e_steps_le self Z U.
have HkZ : k <= nrows Z by exact: leq_trans HZ.
have E1' := E1; rewrite ekf_filterE ?e_iterable_upto // e_rows_upto nrows_upto (minn_idPl HkZ) in E1'.
rewrite e_by_hand_rows // in Ey.
have Hsz : size (take k (e_rows_of self Z U)) = k by rewrite size_takel // size_e_rows_of.
have HT2 : size (drop k (e_rows_of self Z U)) <= nrows Z - k by rewrite size_drop size_e_rows_of leq_sub2r.
have := loop_resume (@framed_estep _ _) (@logs1_estep _ _) Hsz HT2 E1' Ey.
rewrite cat_take_drop (subnKC HkZ) => ->; cbn [fst snd].
by case: (filter_loop _ _ _ _ _ _) => [g2 [[st2 er2]|e]].
Qed.

Lemma filter_truncated (self : kf N) Z U k g : iterable self Z U -> steps self Z U <= k ->
  kf_filter (truncated self k) Z (omap (upto_row k) U) g = kf_filter self Z U g.
Proof.
move=> Hit Hk; rewrite !kf_filterE //; first by rewrite rows_trunc.
by move: Hit; rewrite /iterable /= => /and5P [-> _ _ _ /and4P [HU _ _ _]]; case: U HU {Hk} => //= ->.
Qed.

Lemma e_filter_truncated (self : ekf N) Z U k g : e_iterable self Z U -> e_steps self Z U <= k ->
  ekf_filter (e_truncated self k) Z (omap (upto_row k) U) g = ekf_filter self Z U g.
Proof.
move=> Hit Hk; rewrite !ekf_filterE //; first by rewrite e_rows_trunc.
by move: Hit; rewrite /e_iterable /= => /and5P [-> HU _ _ _]; case: U HU {Hk} => //= ->.
Qed.

End Api.
