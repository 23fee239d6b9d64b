(** * IntSim: int64 inputs and their conversions to float64 give the same results *)
From Coq Require Import ZArith Lia.
From mathcomp Require Import ssreflect ssrfun ssrbool eqtype ssrnat seq.
From Verif Require Import Np NpLemmas Kf Ekf ApiSpec Loop FilterLemmas NpShapes IntSpec.

Set Implicit Arguments.
Unset Strict Implicit.
Unset Printing Implicit Defensive.

Section Arrays.
Variable N : num.
Notation arr := (arr N).
Implicit Types (a b : arr).

Lemma as_float_id a : isfloat a -> as_float a = a.
Proof.
case/isfloatP; case: a => d sh s /= /andP [_ Ha] Hd; rewrite {}Hd in Ha *.
rewrite /as_float /=; congr Arr.
by elim: s Ha => [|[z|k] s IH] //= /IH ->.
Qed.

Lemma isfloat_as_float a : wf a -> isfloat (as_float a).
Proof.
case/andP => Hs _; rewrite /isfloat /as_float /wf /= size_map Hs /= andbT.
by elim: (dat a).
Qed.

Lemma get_as_float a ix : offset (shp a) ix < size (dat a) ->
  get (as_float a) ix = VF (tofl (get a ix)).
Proof. by move=> H; rewrite /get /= (nth_map (VI 0)). Qed.

Lemma tofl_get a ix : tofl (get (as_float a) ix) = tofl (get a ix).
Proof.
rewrite /get /=; case: (ltnP (offset (shp a) ix) (size (dat a))) => H.
  by rewrite (nth_map (VI 0)).
by rewrite !nth_default // size_map.
Qed.

Lemma get_as_float_valid a ix : wfs a -> valid (shp a) ix ->
  get (as_float a) ix = VF (tofl (get a ix)).
Proof. by move=> /eqP Hs Hv; apply: get_as_float; rewrite Hs offset_lt. Qed.

Lemma as_float_mk d sh f : as_float (@mk N d sh f) = mk DFloat sh (fun ix => VF (tofl (f ix))).
Proof. by rewrite /as_float /mk /= -map_comp. Qed.

Lemma as_float_reshape a sh : as_float (reshape a sh) = reshape (as_float a) sh.
Proof. by []. Qed.

Lemma as_float_row a k : as_float (row a k) = row (as_float a) k.
Proof. by rewrite /as_float /row /= map_take map_drop. Qed.

Lemma map_tofl_mat_at a bix r c :
  map (@tofl N) (mat_at (as_float a) bix r c) = map (@tofl N) (mat_at a bix r c).
Proof.
rewrite /mat_at !map_allpairs; congr flatten; apply: eq_map => i; apply: eq_map => j.
exact: tofl_get.
Qed.

Lemma solve_as_float a b : np_solve (as_float a) (as_float b) = np_solve a b.
Proof.
rewrite /np_solve /=; case: ifP => // _; case: ifP => // _.
case: ifP => // _; case: ifP => // _.
case: (bshape _ _) => // bs.
have E bix bix' n r sh :
    ksolve n r (map (@tofl N) (mat_at (as_float a) bix n n))
               (map (@tofl N) (mat_at (reshape (as_float b) sh) bix' n r)) =
    ksolve n r (map (@tofl N) (mat_at a bix n n)) (map (@tofl N) (mat_at (reshape b sh) bix' n r)).
  by rewrite map_tofl_mat_at -as_float_reshape map_tofl_mat_at.
under eq_all => bix do rewrite E.
case: ifP => // _; congr Ok; congr reshape; apply: eq_mk => ix _.
by rewrite E.
Qed.

(** ** Bounds *)

Definition ibd (B : Z) (v : scal N) : bool :=
  match v with VI z => Z.leb (Z.abs z) B | VF _ => true end.

Lemma ints_leE B a : ints_le B a = all (ibd B) (dat a).
Proof. by []. Qed.

Lemma ibd_get B a ix : (0 <= B)%Z -> ints_le B a -> ibd B (get a ix).
Proof.
move=> H0 H; rewrite /get; case: (ltnP (offset (shp a) ix) (size (dat a))) => Hi.
  exact: (all_nthP _ H).
by rewrite nth_default //=; apply/Z.leb_le.
Qed.

Lemma ibd_weak B B' v : (B <= B')%Z -> ibd B v -> ibd B' v.
Proof. by case: v => //= z H /Z.leb_le Hz; apply/Z.leb_le; lia. Qed.

Lemma ints_le_mk B d sh f : (forall ix, valid sh ix -> ibd B (f ix)) ->
  ints_le B (@mk N d sh f).
Proof.
move=> H; rewrite ints_leE /= all_map; apply/allP => ix; rewrite mem_indices => Hv.
exact: H.
Qed.

(** Every element of an int array is an integer. *)
Lemma get_int a ix : wf a -> dt a = DInt -> exists z, get a ix = VI z.
Proof.
case/andP => _ H Hd; rewrite {}Hd in H; rewrite /get.
case: (ltnP (offset (shp a) ix) (size (dat a))) => Hi.
  by move/all_nthP: H => /(_ (VI 0) _ Hi); case: (nth _ _ _) => // z _; exists z.
by exists 0%Z; rewrite nth_default.
Qed.

Lemma wrap_id z : (Z.abs z < 2 ^ 63)%Z -> wrap64 z = z.
Proof. by move=> H; rewrite /wrap64 Z.mod_small; lia. Qed.

Lemma nthZ_bd B (s : seq Z) i : (0 <= B)%Z -> all (fun z => Z.leb (Z.abs z) B) s ->
  (Z.abs (nth 0%Z s i) <= B)%Z.
Proof.
move=> H0 H; case: (ltnP i (size s)) => Hi; last by rewrite nth_default.
by apply/Z.leb_le; exact: (all_nthP _ H).
Qed.

Lemma zdot_bd k n (a b : seq Z) i j Ba Bb : (0 <= Ba)%Z -> (0 <= Bb)%Z ->
  all (fun z => Z.leb (Z.abs z) Ba) a -> all (fun z => Z.leb (Z.abs z) Bb) b ->
  (Z.abs (zdot k n a b i j) <= Z.of_nat k * (Ba * Bb))%Z.
Proof.
move=> HA HB Ha Hb; rewrite /zdot.
have: forall s, (Z.abs (foldr (fun l acc => (nth 0%Z a (i * k + l)%N * nth 0%Z b (l * n + j)%N + acc)%Z) 0%Z s) <= Z.of_nat (size s) * (Ba * Bb))%Z.
  elim=> [|l s IH]; first by rewrite /=; lia.
  rewrite [size _]/= [foldr _ _ _]/=.
  have := nthZ_bd (i := i * k + l) HA Ha; have := nthZ_bd (i := l * n + j) HB Hb.
  move: (nth _ b _) (nth _ a _) => y x Hy Hx.
  have: (Z.abs (x * y) <= Ba * Bb)%Z by rewrite Z.abs_mul; nia.
  by move: (Ba * Bb)%Z (x * y)%Z IH => c t; lia.
by move/(_ (iota 0 k)); rewrite size_iota.
Qed.

Lemma toZ_mat_at a bix r c B : wf a -> dt a = DInt -> (0 <= B)%Z -> ints_le B a ->
  map (@tofl N) (mat_at a bix r c) = map (kofZ N) (map (@toZ N) (mat_at a bix r c)) /\
  all (fun z => Z.leb (Z.abs z) B) (map (@toZ N) (mat_at a bix r c)).
Proof.
move=> Hw Hd H0 Hb; rewrite -map_comp; split.
  rewrite /mat_at !map_allpairs; congr flatten; apply: eq_map => i; apply: eq_map => j /=.
  by case: (get_int (bix ++ [:: i; j]) Hw Hd) => z ->.
rewrite all_map /mat_at; elim: (iota 0 r) => [|i s IH] //=.
rewrite all_cat IH andbT all_map; apply/allP => j _ /=.
by have := ibd_get (bix ++ [:: i; j]) H0 Hb; case: (get_int (bix ++ [:: i; j]) Hw Hd) => z ->.
Qed.

Lemma size_mat_at a bix r c : size (mat_at a bix r c) = r * c.
Proof. by rewrite /mat_at size_allpairs !size_iota. Qed.


(** ** The relation between a computation on integers and on their conversions *)
Variables (d : nat) (L : Z).
Hypothesis d1 : 0 < d.
Hypothesis L63 : (L < 2 ^ 63)%Z.
Hypothesis NL : int_exact N L.

(** [a'] is [a] converted, and [a] is small. *)
Definition rel (B : Z) (a a' : arr) : Prop := small d B a /\ a' = as_float a.

Definition rres (T T' : Type) (R : T -> T' -> Prop) (r : res T) (r' : res T') : Prop :=
  match r, r' with
  | Ok a, Ok a' => R a a'
  | Raise e, Raise e' => e = e'
  | _, _ => False
  end.

Lemma rres_bind S S' T T' (R : S -> S' -> Prop) (Q : T -> T' -> Prop) m m' f f' :
  rres R m m' -> (forall x x', R x x' -> rres Q (f x) (f' x')) ->
  rres Q (rbind m f) (rbind m' f').
Proof. by case: m m' => [x|e] [x'|e'] //= H; apply. Qed.

Lemma rres_impl S S' (R Q : S -> S' -> Prop) m m' :
  rres R m m' -> (forall x x', R x x' -> Q x x') -> rres Q m m'.
Proof. by case: m m' => [x|e] [x'|e'] //= H; apply. Qed.

Lemma rel_weak B B' a a' : (B <= B')%Z -> rel B a a' -> rel B' a a'.
Proof.
move=> HB [/and3P [H1 H2 H3] E]; split=> //; apply/and3P; split=> //.
by move: H3; rewrite !ints_leE; apply: sub_all => v; apply: ibd_weak.
Qed.

Lemma rel_float B a : isfloat a -> all (fun k => k <= d) (shp a) -> rel B a a.
Proof.
move=> Hf Hs; split; last by rewrite as_float_id.
case/isfloatP: Hf => Hw Hd; apply/and3P; split=> //.
rewrite ints_leE; case/andP: Hw => _; rewrite Hd; apply: sub_all => v.
by case: v.
Qed.

Lemma relP B a a' : rel B a a' ->
  [/\ wf a, wfs a, all (fun k => k <= d) (shp a), ints_le B a & a' = as_float a].
Proof. by move=> [/and3P [H1 H2 H3] E]; split=> //; exact: wf_wfs. Qed.

Lemma rel_isfloat B a a' : rel B a a' -> isfloat a' /\ all (fun k => k <= d) (shp a').
Proof. by case/relP => Hw _ Hs _ ->; split; first exact: isfloat_as_float. Qed.

(** Once one operand is a float array, so is the result, and there is no
    difference any more. *)
Lemma bshape_le s t u : bshape s t = Some u -> all (fun k => k <= d) s -> all (fun k => k <= d) t ->
  all (fun k => k <= d) u.
Proof.
rewrite /bshape; case E: (bshape_rev _ _) => [v|] //= [<-]; rewrite all_rev.
rewrite -[all _ s]all_rev -[all _ t]all_rev.
elim: (rev s) (rev t) v E => [|x s' IH] [|y t'] v //=; first by case=> <-.
  by case=> <-.
  by case=> <-.
case E1: (bdim x y) => [z|] //; case E2: (bshape_rev s' t') => [w|] // [<-] /=.
move=> /andP [Hx Hs'] /andP [Hy Ht']; rewrite (IH _ _ E2) // andbT.
by move: E1; rewrite /bdim; do 3 (case: ifP => _ //; first by case=> <-).
Qed.

Lemma sim_T B a a' : rel B a a' -> rel B (np_T a) (np_T a').
Proof.
case/relP => Hw Hws Hs Hb ->; split; last first.
  rewrite /np_T as_float_mk; apply: eq_mk => ix Hv.
  by rewrite get_as_float_valid // -[shp a]revK; apply: valid_rev.
have Hg ix : valid (rev (shp a)) ix -> valid (shp a) (rev ix).
  by move=> H; rewrite -[shp a]revK; apply: valid_rev.
apply/and3P; split.
- case Hd: (dt a).
    rewrite /wf size_mk eqxx /= all_map; apply/allP => ix _ /=.
    by rewrite Hd; case: (get_int (rev ix) Hw Hd) => z ->.
  by case/isfloatP: (isfloat_T (introT (isfloatP _) (conj Hw Hd))).
- by rewrite /= all_rev.
apply: ints_le_mk => ix Hv.
have := Hws => /eqP Hz; move/all_nthP: Hb => /(_ (VI 0) (offset (shp a) (rev ix))); apply.
by rewrite Hz offset_lt // Hg.
Qed.

Lemma sim_atleast1 B a a' : rel B a a' -> rel B (np_atleast_1d a) (np_atleast_1d a').
Proof.
case/relP => Hw Hws Hs Hb ->; rewrite /np_atleast_1d /=.
case E: (shp a) => [|k s]; last by split=> //; rewrite /small Hw Hs Hb.
by split=> //; rewrite /small /wf /=; move: Hw Hb; rewrite /wf /ints_le E /= d1 => -> ->.
Qed.

Lemma sim_bin (fz : Z -> Z -> Z) (fk : K N -> K N -> K N) B1 B2 B3 a a' b b' :
  (forall x y, (Z.abs x <= B1)%Z -> (Z.abs y <= B2)%Z ->
     (Z.abs (fz x y) <= B3)%Z /\ fk (kofZ N x) (kofZ N y) = kofZ N (fz x y)) ->
  (0 <= B1)%Z -> (0 <= B2)%Z -> (B3 < 2 ^ 63)%Z -> rel B1 a a' -> rel B2 b b' ->
  rres (rel B3) (np_bin fz fk a b) (np_bin fz fk a' b').
Proof.
move=> Hf H1 H2 H3 /relP [Hw1 Hs1 Hd1 Hb1 ->] /relP [Hw2 Hs2 Hd2 Hb2 ->].
rewrite /np_bin /=; case E: (bshape _ _) => [sh|] //=.
have G ix : valid sh ix ->
    let v := get a (bidx (shp a) ix) in let w := get b (bidx (shp b) ix) in
    [/\ sbin fz fk (get (as_float a) (bidx (shp a) ix)) (get (as_float b) (bidx (shp b) ix)) =
        VF (tofl (sbin fz fk v w)), ibd B3 (sbin fz fk v w) &
        (match promote (dt a) (dt b), sbin fz fk v w with
         | DInt, VI _ | DFloat, VF _ => true | _, _ => false end : bool)].
  move=> Hv /=; rewrite !get_as_float_valid //; last 2 first.
  - exact: valid_bidx_r E Hv.
  - exact: valid_bidx_l E Hv.
  have := ibd_get (bidx (shp a) ix) H1 Hb1; have := ibd_get (bidx (shp b) ix) H2 Hb2.
  have := wf_get Hw1 (valid_bidx_l E Hv); have := wf_get Hw2 (valid_bidx_r E Hv).
  case: (get a _) => [x|x]; case: (get b _) => [y|y]; case: (dt a) => //; case: (dt b) => //=.
  move=> _ _ /Z.leb_le Hy /Z.leb_le Hx; case: (Hf _ _ Hx Hy) => HZ Hk.
  by rewrite wrap_id ?Hk; [split=> //; apply/Z.leb_le|lia].
split; last first.
  by rewrite as_float_mk; apply: eq_mk => ix /G [].
apply/and3P; split.
- rewrite /wf size_mk eqxx /= all_map; apply/allP => ix; rewrite mem_indices => /G [_ _ H].
  exact: H.
- exact: bshape_le E Hd1 Hd2.
by apply: ints_le_mk => ix /G [].
Qed.

Lemma sim_add B1 B2 a a' b b' : (0 <= B1)%Z -> (0 <= B2)%Z -> (B1 + B2 <= L)%Z ->
  rel B1 a a' -> rel B2 b b' -> rres (rel (B1 + B2)) (np_add a b) (np_add a' b').
Proof.
move=> H1 H2 H3 Ha Hb; apply: sim_bin Ha Hb => //; last by lia.
move=> x y Hx Hy; split; first by lia.
by apply: (ie_add NL); lia.
Qed.

Lemma sim_sub B1 B2 a a' b b' : (0 <= B1)%Z -> (0 <= B2)%Z -> (B1 + B2 <= L)%Z ->
  rel B1 a a' -> rel B2 b b' -> rres (rel (B1 + B2)) (np_sub a b) (np_sub a' b').
Proof.
move=> H1 H2 H3 Ha Hb; apply: sim_bin Ha Hb => //; last by lia.
move=> x y Hx Hy; split; first by lia.
by apply: (ie_sub NL); lia.
Qed.


Lemma sim_matmul B1 B2 a a' b b' : (0 <= B1 <= L)%Z -> (0 <= B2 <= L)%Z ->
  (Z.of_nat d * (B1 * B2) <= L)%Z ->
  rel B1 a a' -> rel B2 b b' ->
  rres (rel (Z.of_nat d * (B1 * B2))) (np_matmul a b) (np_matmul a' b').
Proof.
move=> H1 H2 H3 /relP [Hw1 Hs1 Hd1 Hb1 ->] /relP [Hw2 Hs2 Hd2 Hb2 ->].
rewrite /np_matmul [shp (as_float a)]/= [shp (as_float b)]/=.
case Ea: (shp a) => [|a0 sa]; first by [].
case Eb: (shp b) => [|b0 sb]; first by [].
rewrite -Ea -Eb; cbv zeta.
set sa' := (if size (shp a) == 1 then _ else _).
set sb' := (if size (shp b) == 1 then _ else _).
set m := nth 0 sa' (size sa' - 2); set k := nth 0 sa' (size sa' - 1).
set n := nth 0 sb' (size sb' - 1).
case: ifP => // Hk; case E: (bshape _ _) => [bs|] //=.
set kd := (if size (shp a) == 1 then _ else _).
set B3 := (Z.of_nat d * (B1 * B2))%Z in H3 *.
have Hkd : k <= d.
  rewrite /k /sa'; case: ifP => _; rewrite Ea in Hd1 *; rewrite [size _]/= subn1 /=;
    by apply: (all_nthP 0 Hd1); rewrite /=.
have dim s i : all (fun k => k <= d) s -> nth 0 s i <= d.
  move=> Hs; case: (ltnP i (size s)) => Hi; first exact: (all_nthP 0 Hs).
  by rewrite nth_default.
have Hsa' : all (fun k => k <= d) sa' by rewrite /sa'; case: ifP => _ //=; rewrite d1.
have Hsb' : all (fun k => k <= d) sb'.
  by rewrite /sb'; case: ifP => _ //=; rewrite all_rcons d1.
have G ix : valid (bs ++ [:: m; n]) ix ->
  let e := mm_entry (promote (dt a) (dt b)) kd m k n
             (mat_at (reshape a sa') (bidx (take (size sa' - 2) sa') (take (size bs) ix)) m k)
             (mat_at (reshape b sb') (bidx (take (size sb' - 2) sb') (take (size bs) ix)) k n)
             (nth 0 ix (size bs)) (nth 0 ix (size bs).+1) in
  [/\ kmm kd m k n
       (map (@tofl N) (mat_at (reshape (as_float a) sa') (bidx (take (size sa' - 2) sa') (take (size bs) ix)) m k))
       (map (@tofl N) (mat_at (reshape (as_float b) sb') (bidx (take (size sb' - 2) sb') (take (size bs) ix)) k n))
       (nth 0 ix (size bs)) (nth 0 ix (size bs).+1) = tofl e, ibd B3 e &
      (match promote (dt a) (dt b), e with
       | DInt, VI _ | DFloat, VF _ => true | _, _ => false end : bool)].
  move=> Hv; cbv zeta; rewrite -!as_float_reshape !map_tofl_mat_at.
  case Ep: (promote _ _); last by split.
  have [Da Db] : dt a = DInt /\ dt b = DInt by move: Ep; case: (dt a); case: (dt b).
  have Wa : wf (reshape a sa').
    by move: Hw1; rewrite /wf /= /sa' Ea; case: ifP => //= _; rewrite mul1n.
  have Wb : wf (reshape b sb').
    move: Hw2; rewrite /wf /= /sb' Eb; case: ifP => //= _.
    by rewrite -cats1 nelem_cat /= !muln1.
  have [Ta Ba] := toZ_mat_at (bidx (take (size sa' - 2) sa') (take (size bs) ix)) m k Wa Da (proj1 H1) Hb1.
  have [Tb Bb] := toZ_mat_at (bidx (take (size sb' - 2) sb') (take (size bs) ix)) k n Wb Db (proj1 H2) Hb2.
  have Hz := zdot_bd (k := k) (n := n) (i := nth 0 ix (size bs)) (j := nth 0 ix (size bs).+1) (proj1 H1) (proj1 H2) Ba Bb.
  have Hi : nth 0 ix (size bs) < m.
    have := valid_nth (i := size bs) Hv; rewrite size_cat /= addn2 nth_cat ltnn subnn /=.
    by apply; rewrite ltnS leqnSn.
  have Hj : nth 0 ix (size bs).+1 < n.
    have := valid_nth (i := (size bs).+1) Hv; rewrite size_cat /= addn2 nth_cat (_ : (size bs).+1 < size bs = false) ?subSnn /=; last by rewrite ltnNge leqnSn.
    by apply.
  have HkL : (Z.of_nat k * (B1 * B2) <= B3)%Z.
    have : (Z.of_nat k <= Z.of_nat d)%Z by apply/Nat2Z.inj_le/leP.
    have : (0 <= B1 * B2)%Z by apply: Z.mul_nonneg_nonneg; lia.
    by rewrite /B3; nia.
  have Hzk := Z.le_trans _ _ _ Hz HkL.
  rewrite /mm_entry wrap_id; last by apply: Z.le_lt_trans Hzk _; lia.
  split=> //; last by apply/Z.leb_le.
  rewrite Ta Tb [RHS]/=; have [_ _ _ mm] := NL; apply: (mm _ _ _ _ _ _ _ _ B1 B2) => //; try lia.
  - by rewrite size_map size_mat_at.
  - by rewrite size_map size_mat_at.
  have : (1 <= Z.of_nat d)%Z by move/leP: d1; lia.
  have : (0 <= B1 * B2)%Z by apply: Z.mul_nonneg_nonneg; lia.
  by move: H3; rewrite /B3; nia.
split; last first.
  rewrite as_float_reshape as_float_mk; congr reshape; apply: eq_mk => ix Hv.
  by case: (G ix Hv) => -> _ _.
apply/and3P; split.
- rewrite /wf; apply/andP; split.
    rewrite size_mk /= !nelem_cat /= /m /n /sa' /sb'; apply/eqP; congr muln.
    by rewrite Ea Eb; case: (sa) => [|? ?] /=; case: (sb) => [|? ?] //=; rewrite ?muln1 ?mul1n.
  rewrite /= all_map; apply/allP => ix; rewrite mem_indices => /G [_ _ H].
  exact: H.
- rewrite /= all_cat (bshape_le E) ?all_cat /=.
  + by case: ifP => _; case: ifP => _ //=; rewrite ?dim.
  + by apply/allP => x /mem_take; apply: (allP Hsa').
  by apply/allP => x /mem_take; apply: (allP Hsb').
by apply: (ints_le_mk (promote (dt a) (dt b)) (sh := bs ++ [:: m; n])) => ix /G [].
Qed.

End Arrays.
