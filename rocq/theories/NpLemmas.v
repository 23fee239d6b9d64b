(** * NpLemmas: facts about the numpy model, for every arithmetic *)
From Coq Require Import ZArith Lia.
From mathcomp Require Import ssreflect ssrfun ssrbool eqtype ssrnat div seq.
From Verif Require Import Np.

Set Implicit Arguments.
Unset Strict Implicit.
Unset Printing Implicit Defensive.

(** A valid multi-index of a shape. *)
Definition valid (sh : shape) (ix : seq nat) : bool := all2 (fun i d => i < d) ix sh.

Lemma valid_size sh ix : valid sh ix -> size ix = size sh.
Proof. by rewrite /valid; elim: ix sh => [|i ix IH] [|d sh] //= /andP [_ /IH ->]. Qed.

Lemma size_flatten_const T (c : nat) (f : nat -> seq T) k d :
  (forall i, size (f i) = c) -> size (flatten [seq f i | i <- iota k d]) = d * c.
Proof. by move=> H; elim: d k => [|d IH] k //=; rewrite size_cat H IH mulSn. Qed.

Lemma nth_flatten_const T x0 (c : nat) (f : nat -> seq T) k d i j :
  (forall i, size (f i) = c) -> i < d -> j < c ->
  nth x0 (flatten [seq f i | i <- iota k d]) (i * c + j) = nth x0 (f (k + i)) j.
Proof.
move=> H; elim: d k i => [|d IH] k [|i] //= Hi Hj; rewrite nth_cat H.
  by rewrite mul0n add0n Hj addn0.
by rewrite mulSn -addnA ltnNge leq_addr /= addKn IH // addSnnS.
Qed.

Lemma size_indices sh : size (indices sh) = nelem sh.
Proof.
by elim: sh => [|d sh IH] //=; apply: size_flatten_const => i; rewrite size_map.
Qed.

Lemma offset_lt sh ix : valid sh ix -> offset sh ix < nelem sh.
Proof.
elim: sh ix => [|d sh IH] [|i ix] //= /andP [Hi /IH Ho].
apply: (@leq_trans (i.+1 * nelem sh)); first by rewrite mulSn addnC ltn_add2r.
by rewrite leq_mul2r Hi orbT.
Qed.

Lemma nth_indices sh ix : valid sh ix -> nth [::] (indices sh) (offset sh ix) = ix.
Proof.
elim: sh ix => [|d sh IH] [|i ix] //= /andP [Hi Hv].
rewrite (@nth_flatten_const _ _ (nelem sh)) //.
- by rewrite (nth_map [::]) ?size_indices ?offset_lt // IH.
- by move=> l; rewrite size_map size_indices.
- exact: offset_lt.
Qed.

Lemma mem_indices sh ix : (ix \in indices sh) = valid sh ix.
Proof.
elim: sh ix => [|d sh IH] ix /=.
  by case: ix => [|i ix]; rewrite inE.
apply/idP/idP.
  case/flattenP=> s /mapP [i]; rewrite mem_iota add0n => /andP [_ Hi] ->.
  by case/mapP=> l; rewrite IH => Hl ->; rewrite /valid /= Hi.
case: ix => [|i ix] // /andP [Hi Hv].
apply/flattenP; exists [seq i :: l | l <- indices sh].
  by apply/mapP; exists i => //; rewrite mem_iota add0n.
by apply/mapP; exists ix; rewrite ?IH.
Qed.

Section Arrays.
Variable N : num.
Notation arr := (arr N).
Implicit Types (a b v : arr) (sh : shape).

Lemma get_mk d sh f ix : valid sh ix -> get (@mk N d sh f) ix = f ix.
Proof.
move=> H; rewrite /get /mk /= (nth_map [::]) ?size_indices ?offset_lt //.
by rewrite nth_indices.
Qed.

Lemma size_mk d sh f : size (dat (@mk N d sh f)) = nelem sh.
Proof. by rewrite size_map size_indices. Qed.

Lemma eq_mk d sh f g :
  (forall ix, valid sh ix -> f ix = g ix) -> @mk N d sh f = mk d sh g.
Proof. by move=> H; congr Arr; apply/eq_in_map => ix; rewrite mem_indices => /H. Qed.

(** The size fits the shape. *)
Definition wfs a : bool := size (dat a) == nelem (shp a).

Lemma wf_wfs a : wf a -> wfs a. Proof. by case/andP. Qed.

Lemma wfs_mk d sh f : wfs (@mk N d sh f).
Proof. by rewrite /wfs size_mk. Qed.

Lemma mk_get a : wfs a -> a = mk (dt a) (shp a) (get a).
Proof.
case: a => d sh s /eqP /= H; congr Arr.
apply: (@eq_from_nth _ (VI 0)); first by rewrite size_map size_indices.
rewrite H => i Hi; rewrite (nth_map [::]) ?size_indices //=.
rewrite /get /=.
suff -> : offset sh (nth [::] (indices sh) i) = i by [].
elim: sh i {H} Hi => [|d' sh IH] i //=; first by case: i.
move=> Hi.
have Hn : 0 < nelem sh by move: Hi; case: (nelem sh) => //; rewrite muln0.
rewrite {1}(divn_eq i (nelem sh)) (@nth_flatten_const _ _ (nelem sh)) //.
- rewrite (nth_map [::]) ?size_indices ?ltn_mod //= add0n IH ?ltn_mod //.
  by rewrite -divn_eq.
- by move=> l; rewrite size_map size_indices.
- by rewrite ltn_divLR.
- by rewrite ltn_mod.
Qed.

Lemma arr_ext a b : wfs a -> wfs b -> dt a = dt b -> shp a = shp b ->
  (forall ix, valid (shp a) ix -> get a ix = get b ix) -> a = b.
Proof.
move=> Ha Hb Hd Hs H; rewrite (mk_get Ha) (mk_get Hb) -Hd -Hs.
exact: eq_mk.
Qed.

Lemma valid1 d ix : valid [:: d] ix -> exists2 i, i < d & ix = [:: i].
Proof.
by case: ix => [|i [|j ix]] //; rewrite /valid /= ?andbT ?andbF // => H; exists i.
Qed.

Lemma valid2 d e ix :
  valid [:: d; e] ix -> exists i j, [/\ i < d, j < e & ix = [:: i; j]].
Proof.
case: ix => [|i [|j [|? ?]]] //; rewrite /valid /= ?andbF ?andbT // => /andP [Hi Hj].
by exists i, j.
Qed.

Lemma valid0 ix : valid [::] ix -> ix = [::].
Proof. by case: ix. Qed.

(** ** Rows *)
Lemma shp_row a k : shp (row a k) = behead (shp a).
Proof. by []. Qed.

Lemma dt_row a k : dt (row a k) = dt a.
Proof. by []. Qed.

Lemma wfs_row a k d sh : wfs a -> shp a = d :: sh -> k < d -> wfs (row a k).
Proof.
rewrite /wfs /row /= => /eqP H E Hk; rewrite E /=.
rewrite size_take size_drop H E /=.
case: ltnP => // Hle; apply/eqP/anti_leq; rewrite Hle /=.
rewrite -{1}[nelem sh]mul1n -mulnBl leq_mul2r subn_gt0 Hk orbT //.
Qed.

Lemma wf_row a k d sh : wf a -> shp a = d :: sh -> k < d -> wf (row a k).
Proof.
move=> /andP [Hs Ht] E Hk; apply/andP; split; first exact: (wfs_row Hs E Hk).
rewrite /row /=; move: Ht.
rewrite -{1}[dat a](cat_take_drop (k * nelem (behead (shp a)))) all_cat => /andP [_].
by rewrite -{1}[drop _ _](cat_take_drop (nelem (behead (shp a)))) all_cat => /andP [].
Qed.

Lemma get_row a k d sh ix :
  shp a = d :: sh -> valid sh ix -> get (row a k) ix = get a (k :: ix).
Proof.
move=> E H; rewrite /get /row /= E /= nth_take ?offset_lt // nth_drop //.
Qed.

Lemma nelem_pos_valid d sh ix : valid (d :: sh) ix -> 0 < d.
Proof. by case: ix => //= i ix /andP [H _]; apply: leq_trans H. Qed.

Lemma rows_ext a b d sh : wfs a -> wfs b -> dt a = dt b ->
  shp a = d :: sh -> shp b = d :: sh ->
  (forall k, k < d -> row a k = row b k) -> a = b.
Proof.
move=> Ha Hb Hd Ea Eb H; apply: arr_ext => //; first by rewrite Ea Eb.
rewrite Ea => -[|i ix] // /andP [Hi Hv].
by rewrite -(get_row _ Ea Hv) -(get_row _ Eb Hv) H.
Qed.

Lemma row_mk d e sh f k : k < e ->
  row (@mk N d (e :: sh) f) k = mk d sh (fun ix => f (k :: ix)).
Proof.
move=> Hk; apply: arr_ext => //.
- exact: (wfs_row (wfs_mk _ _ _) (erefl _) Hk).
- exact: wfs_mk.
- move=> ix /= Hv; rewrite (@get_row (mk d (e :: sh) f) k e sh ix) // !get_mk //.
  by rewrite /valid /= Hk.
Qed.

Lemma row_zeros e sh k : k < e -> row (np_zeros N (e :: sh)) k = np_zeros N sh.
Proof. exact: row_mk. Qed.

Lemma row_full_like a k d sh : shp a = d :: sh -> k < d ->
  row (np_full_like_nan a) k = np_full_like_nan (row a k).
Proof.
move=> E Hk; rewrite /row /np_full_like_nan /= E /=; congr Arr.
rewrite drop_nseq take_nseq // -mulnBl.
by rewrite leq_pmull // subn_gt0.
Qed.

(** ** Item assignment *)

(** What an array becomes when assigned to a float64 slot of shape [dst]. *)
Definition fit (dst : shape) v : arr :=
  let src := strip_ones (size (shp v) - size dst) (shp v) in
  mk DFloat dst (fun ix => VF (tofl (get (reshape v src) (bidx src ix)))).

(** The assignment is accepted. *)
Definition fits (dst : shape) v : bool :=
  assign_ok (strip_ones (size (shp v) - size dst) (shp v)) dst.

Lemma np_pos_nat a k d sh : shp a = d :: sh -> k < d -> np_pos a (Z.of_nat k) = Ok k.
Proof.
move=> E Hk; rewrite /np_pos E.
have -> : (Z.of_nat k <? 0)%Z = false by apply/Z.ltb_ge; lia.
have -> : (0 <=? Z.of_nat k)%Z by apply/Z.leb_le; lia.
have -> : (Z.of_nat k <? Z.of_nat d)%Z by apply/Z.ltb_lt; move/ltP: Hk; lia.
by rewrite Nat2Z.id.
Qed.

Lemma np_pos_big a k d sh : shp a = d :: sh -> d <= k ->
  np_pos a (Z.of_nat k) = Raise IndexError.
Proof.
move=> E Hk; rewrite /np_pos E.
have -> : (Z.of_nat k <? 0)%Z = false by apply/Z.ltb_ge; lia.
have -> : (Z.of_nat k <? Z.of_nat d)%Z = false by apply/Z.ltb_ge; move/leP: Hk; lia.
by rewrite andbF.
Qed.

Lemma np_pos_last a d sh : shp a = d.+1 :: sh -> np_pos a (-1) = Ok d.
Proof.
move=> E; rewrite /np_pos E [(_ <? 0)%Z]/=.
have -> : (0 <=? -1 + Z.of_nat d.+1)%Z by apply/Z.leb_le; lia.
have -> : (-1 + Z.of_nat d.+1 <? Z.of_nat d.+1)%Z by apply/Z.ltb_lt; lia.
by change (Ok (Z.to_nat (-1 + Z.of_nat d.+1)) = Ok d); congr Ok; lia.
Qed.

Lemma np_pos_empty a sh : shp a = 0 :: sh -> np_pos a (-1) = Raise IndexError.
Proof. by move=> E; rewrite /np_pos E. Qed.

Lemma getitem_row a k d sh : shp a = d :: sh -> k < d ->
  np_getitem a (Z.of_nat k) = Ok (row a k).
Proof. by move=> E Hk; rewrite /np_getitem (np_pos_nat E Hk). Qed.

Definition setrow a (i : nat) v : arr :=
  let dst := behead (shp a) in
  Arr (dt a) (shp a)
      (take (i * nelem dst) (dat a) ++ dat (fit dst v) ++ drop (i.+1 * nelem dst) (dat a)).

Lemma setitem_at a k i v : np_pos a k = Ok i ->
  np_setitem a k v =
  (if fits (behead (shp a)) v then Ok (setrow a i v) else Raise ValueError).
Proof. by move=> H; rewrite /np_setitem H. Qed.

Lemma setitem_nat a k d sh v : shp a = d :: sh -> k < d ->
  np_setitem a (Z.of_nat k) v = (if fits sh v then Ok (setrow a k v) else Raise ValueError).
Proof. by move=> E Hk; rewrite (setitem_at _ (np_pos_nat E Hk)) E. Qed.

Lemma shp_setrow a i v : shp (setrow a i v) = shp a. Proof. by []. Qed.
Lemma dt_setrow a i v : dt (setrow a i v) = dt a. Proof. by []. Qed.

Lemma wfs_setrow a i v d sh : wfs a -> shp a = d :: sh -> i < d -> wfs (setrow a i v).
Proof.
move=> Hw E Hi; rewrite /wfs /setrow /=; move/eqP: Hw; rewrite E /= => Hs.
rewrite !size_cat size_map size_indices size_takel; last first.
  by rewrite Hs leq_mul2r (ltnW Hi) orbT.
rewrite size_drop Hs -mulnBl -{2}[nelem sh]mul1n -!mulnDl.
by apply/eqP; congr muln; rewrite addnA addn1 subnKC.
Qed.

Lemma get_setrow a i v d sh k ix : wfs a -> shp a = d :: sh -> i < d -> k < d ->
  valid sh ix ->
  get (setrow a i v) (k :: ix) = if k == i then get (fit sh v) ix else get a (k :: ix).
Proof.
move=> Hw E Hi Hk Hv; rewrite /get /setrow /= E /=.
move/eqP: Hw; rewrite E /= => Hs.
have Ho := offset_lt Hv.
have Hsz : size (take (i * nelem sh) (dat a)) = i * nelem sh.
  by rewrite size_takel // Hs leq_mul2r (ltnW Hi) orbT.
rewrite nth_cat Hsz; case: (ltngtP k i) => Hki.
- (* k < i *)
  have -> : k * nelem sh + offset sh ix < i * nelem sh.
    apply: (@leq_trans (k.+1 * nelem sh)); first by rewrite mulSn addnC ltn_add2r.
    by rewrite leq_mul2r Hki orbT.
  rewrite nth_take //.
  apply: (@leq_trans (k.+1 * nelem sh)); first by rewrite mulSn addnC ltn_add2r.
  by rewrite leq_mul2r Hki orbT.
- have Hle : i.+1 * nelem sh <= k * nelem sh + offset sh ix.
    by apply: leq_trans (leq_addr _ _); rewrite leq_mul2r Hki orbT.
  rewrite ltnNge (leq_trans _ Hle) /=; last by rewrite leq_mul2r leqnSn orbT.
  rewrite nth_cat size_map size_indices ltnNge.
  have -> : nelem sh <= k * nelem sh + offset sh ix - i * nelem sh.
    by rewrite leq_subRL -?mulSnr // (leq_trans _ Hle) // leq_mul2r leqnSn orbT.
  by rewrite /= nth_drop -subnDA -mulSnr subnKC.
- by rewrite Hki ltnNge leq_addr /= addKn nth_cat size_map size_indices Ho.
Qed.

Lemma row_setrow a i v d sh k : wfs a -> dt a = DFloat -> shp a = d :: sh ->
  i < d -> k < d ->
  row (setrow a i v) k = if k == i then fit sh v else row a k.
Proof.
move=> Hw Hd E Hi Hk.
have Hw' := wfs_setrow v Hw E Hi.
apply: arr_ext.
- exact: (wfs_row Hw' E Hk).
- by case: ifP => _; [apply: wfs_mk|apply: (wfs_row Hw E Hk)].
- by case: ifP => _ /=.
- by case: ifP => _ /=; rewrite E.
- move=> ix; rewrite shp_row shp_setrow E /= => Hv.
  rewrite (get_row _ (a := setrow a i v) E Hv) (get_setrow v Hw E Hi Hk Hv).
  by case: ifP => _ //; rewrite (get_row _ E Hv).
Qed.

Lemma wf_fit dst v : wf (fit dst v).
Proof.
apply/andP; split; first exact: wfs_mk.
by rewrite /fit /=; elim: (indices dst).
Qed.

Lemma wf_zeros sh : wf (np_zeros N sh).
Proof. by apply/andP; split; [apply: wfs_mk|rewrite /=; elim: (indices sh)]. Qed.

Lemma wf_setrow a i v d sh : wf a -> dt a = DFloat -> shp a = d :: sh -> i < d ->
  wf (setrow a i v).
Proof.
move=> Hw Hd E Hi; apply/andP; split; first exact: (wfs_setrow v (wf_wfs Hw) E Hi).
case/andP: Hw => _ Ha; rewrite /setrow /= !all_cat Hd; rewrite Hd in Ha.
apply/and3P; split.
- by rewrite -[dat a](cat_take_drop (i * nelem (behead (shp a)))) all_cat in Ha; case/andP: Ha.
- by elim: (indices _).
- by rewrite -[dat a](cat_take_drop (i.+1 * nelem (behead (shp a)))) all_cat in Ha; case/andP: Ha.
Qed.

Lemma strip_ones0 sh : strip_ones 0 sh = sh. Proof. by case: sh. Qed.

Lemma valid_nth sh ix i : valid sh ix -> i < size sh -> nth 0 ix i < nth 0 sh i.
Proof.
rewrite /valid; elim: sh ix i => [|d sh IH] [|j ix] [|i] //= /andP [Hj Hv] // Hi.
exact: IH.
Qed.

Lemma bidx_id sh ix : valid sh ix -> bidx sh ix = ix.
Proof.
move=> H; rewrite /bidx (valid_size H) subnn drop0.
elim: sh ix H => [|d sh IH] [|i ix] //= /andP [Hi Hv].
rewrite (IH _ Hv); congr (_ :: _); case: eqP => // E.
by move: Hi; rewrite E; case: i.
Qed.

Lemma wf_get v ix : wf v -> valid (shp v) ix ->
  match dt v, get v ix with DInt, VI _ | DFloat, VF _ => true | _, _ => false end.
Proof.
case/andP=> /eqP Hs /all_nthP H Hv; apply: (H (VI 0)); rewrite Hs; exact: offset_lt.
Qed.

Lemma fit_id v : wf v -> dt v = DFloat -> fit (shp v) v = v.
Proof.
move=> Hw Hd; rewrite /fit subnn strip_ones0 [RHS](mk_get (wf_wfs Hw)) Hd.
apply: eq_mk => ix Hv; rewrite bidx_id //.
have -> : get (reshape v (shp v)) ix = get v ix by [].
by move: (wf_get Hw Hv); rewrite Hd; case: (get v ix).
Qed.

Lemma fits_id v : fits (shp v) v.
Proof.
rewrite /fits subnn strip_ones0 /assign_ok leqnn subnn drop0 /=.
by elim: (shp v) => //= d sh ->; rewrite eqxx orbT.
Qed.

End Arrays.
