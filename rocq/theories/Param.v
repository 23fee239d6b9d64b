(** * Param: what the code does depends on the numbers only

    Two arithmetics N1, N2 and a relation R between their numbers that every
    operation of the arithmetic respects: then the whole library respects it. *)
From Coq Require Import ZArith.
From mathcomp Require Import ssreflect ssrfun ssrbool eqtype ssrnat seq.
From Verif Require Import Np NpLemmas Kf Ekf.

Set Implicit Arguments.
Unset Strict Implicit.
Unset Printing Implicit Defensive.
Arguments Z.of_nat : simpl never.

Section Rel.
Variables (N1 N2 : num) (R : K N1 -> K N2 -> Prop).

(** ** Related values *)
Definition rel_list (a : seq (K N1)) (b : seq (K N2)) : Prop :=
  size a = size b /\ forall i, i < size a -> R (nth (knan N1) a i) (nth (knan N2) b i).

Inductive rel_scal : scal N1 -> scal N2 -> Prop :=
| RelI z : rel_scal (VI z) (VI z)
| RelF x y : R x y -> rel_scal (VF x) (VF y).

(** Same dtype, same shape, related elements. *)
Definition rel_arr (a : arr N1) (b : arr N2) : Prop :=
  [/\ dt a = dt b, shp a = shp b, size (dat a) = size (dat b) &
      forall i, rel_scal (nth (VI 0) (dat a) i) (nth (VI 0) (dat b) i)].

Definition rel_res S1 S2 (P : S1 -> S2 -> Prop) (a : res S1) (b : res S2) : Prop :=
  match a, b with
  | Ok x, Ok y => P x y
  | Raise e, Raise e' => e = e'
  | _, _ => False
  end.
Definition rel_opt S1 S2 (P : S1 -> S2 -> Prop) (a : option S1) (b : option S2) : Prop :=
  match a, b with Some x, Some y => P x y | None, None => True | _, _ => False end.
Fixpoint rel_seq S1 S2 (P : S1 -> S2 -> Prop) (a : seq S1) (b : seq S2) : Prop :=
  match a, b with
  | [::], [::] => True
  | x :: a', y :: b' => P x y /\ rel_seq P a' b'
  | _, _ => False
  end.
Definition rel_pair (p : arr N1 * arr N1) (q : arr N2 * arr N2) : Prop :=
  rel_arr p.1 q.1 /\ rel_arr p.2 q.2.

(** The operations respect R. *)
Record agree : Prop := Agree {
  ag_ofZ : forall z, R (kofZ N1 z) (kofZ N2 z);
  ag_nan : R (knan N1) (knan N2);
  ag_isnan : forall x y, R x y -> kisnan x = kisnan y;
  ag_add : forall x y x' y', R x x' -> R y y' -> R (kadd x y) (kadd x' y');
  ag_sub : forall x y x' y', R x x' -> R y y' -> R (ksub x y) (ksub x' y');
  ag_mm : forall kd m k n a b a' b' i j, size a = m * k -> size b = k * n -> rel_list a a' -> rel_list b b' ->
    i < m -> j < n -> R (kmm kd m k n a b i j) (kmm kd m k n a' b' i j);
  ag_solve : forall n r a b a' b', size a = n * n -> size b = n * r -> rel_list a a' -> rel_list b b' ->
    rel_opt (fun g g' => forall i j, i < n -> j < r -> R (g i j) (g' i j)) (ksolve n r a b) (ksolve n r a' b');
  ag_n2i : knan2int N1 = knan2int N2
}.
Hypothesis H : agree.

(** ** numpy *)
Lemma rel_tofl v w : rel_scal v w -> R (tofl v) (tofl w).
Proof. by case=> [z|x y] //=; apply: (ag_ofZ H). Qed.
Lemma rel_get a b ix : rel_arr a b -> rel_scal (get a ix) (get b ix).
Proof. by case=> _ Es _ Hn; rewrite /get Es. Qed.

Lemma rel_map (s : seq (seq nat)) (f : seq nat -> scal N1) g i :
  (forall ix, ix \in s -> rel_scal (f ix) (g ix)) ->
  rel_scal (nth (VI 0) [seq f ix | ix <- s] i) (nth (VI 0) [seq g ix | ix <- s] i).
Proof.
move=> Hs; case: (ltnP i (size s)) => Hi; last by rewrite !nth_default ?size_map //; exact: RelI.
by rewrite !(nth_map [::]) //; apply: Hs; rewrite mem_nth.
Qed.

Lemma rel_mk d sh f g : (forall ix, ix \in indices sh -> rel_scal (f ix) (g ix)) ->
  rel_arr (mk d sh f) (mk d sh g).
Proof. by move=> Hf; split=> //=; [rewrite !size_map|move=> i; apply: rel_map]. Qed.

Lemma rel_zeros sh : rel_arr (np_zeros N1 sh) (np_zeros N2 sh).
Proof. by apply: rel_mk => ix _; apply: RelF; apply: (ag_ofZ H). Qed.
Lemma rel_identity n : rel_arr (np_identity N1 n) (np_identity N2 n).
Proof. by apply: rel_mk => ix _; apply: RelF; case: eqP => _; apply: (ag_ofZ H). Qed.

Lemma rel_full a b : rel_arr a b -> rel_arr (np_full_like_nan a) (np_full_like_nan b).
Proof.
case=> Ed Es _ _; rewrite /np_full_like_nan Ed Es; split=> //=; first by rewrite !size_nseq.
move=> i; rewrite !nth_nseq; case: ifP => _; last exact: RelI.
by case: (dt b); [rewrite (ag_n2i H); exact: RelI|apply: RelF; apply: (ag_nan H)].
Qed.

Lemma rel_snan v w : rel_scal v w -> snan v = snan w.
Proof. by case=> //= x y Hxy; apply: (ag_isnan H). Qed.
Lemma rel_isnan_all a b : rel_arr a b -> np_isnan_all a = np_isnan_all b.
Proof.
case=> _ _ Es Hn; rewrite /np_isnan_all.
apply/(all_nthP (VI 0))/(all_nthP (VI 0)) => Hall i Hi.
  by rewrite -(rel_snan (Hn i)); apply: Hall; rewrite Es.
by rewrite (rel_snan (Hn i)); apply: Hall; rewrite -Es.
Qed.

Lemma rel_T a b : rel_arr a b -> rel_arr (np_T a) (np_T b).
Proof.
by move=> Hab; have [Ed Es _ _] := Hab; rewrite /np_T Ed Es; apply: rel_mk => ix _; apply: rel_get.
Qed.
Lemma rel_reshape a b sh : rel_arr a b -> rel_arr (reshape a sh) (reshape b sh).
Proof. by case=> Ed _ Es Hn; split. Qed.
Lemma rel_atleast a b : rel_arr a b -> rel_arr (np_atleast_1d a) (np_atleast_1d b).
Proof. by move=> Hab; have [Ed Es Ez Hn] := Hab; rewrite /np_atleast_1d -Es; case: (shp a). Qed.

Lemma rel_bin fz f1 f2 a b a' b' :
  (forall x y x' y', R x x' -> R y y' -> R (f1 x y) (f2 x' y')) ->
  rel_arr a a' -> rel_arr b b' -> rel_res rel_arr (np_bin fz f1 a b) (np_bin fz f2 a' b').
Proof.
move=> Hf Ha Hb; have [Ed Es _ _] := Ha; have [Ed' Es' _ _] := Hb.
rewrite /np_bin Ed Es Ed' Es'; case: (bshape _ _) => [sh|] //; apply: rel_mk => ix _.
have := rel_get (bidx (shp a') ix) Ha; have := rel_get (bidx (shp b') ix) Hb.
move: (get a _) (get a' _) (get b _) (get b' _) => v v' w w' Hw Hv.
case: Hv => [z|x x' Hx]; case: Hw => [z'|y y' Hy] /=; try exact: RelI; apply: RelF; apply: Hf => //;
  by [apply: (ag_ofZ H)|].
Qed.
Lemma rel_add a b a' b' : rel_arr a a' -> rel_arr b b' -> rel_res rel_arr (np_add a b) (np_add a' b').
Proof. apply: rel_bin; exact: (ag_add H). Qed.
Lemma rel_sub a b a' b' : rel_arr a a' -> rel_arr b b' -> rel_res rel_arr (np_sub a b) (np_sub a' b').
Proof. apply: rel_bin; exact: (ag_sub H). Qed.

Lemma rel_mat a a' bix r c : rel_arr a a' ->
  size (mat_at a bix r c) = r * c /\ forall i, rel_scal (nth (VI 0) (mat_at a bix r c) i) (nth (VI 0) (mat_at a' bix r c) i).
Proof.
move=> Ha; rewrite /mat_at.
have E (N : num) (x : arr N) : [seq get x (bix ++ [:: i; j]) | i <- iota 0 r, j <- iota 0 c] =
    [seq get x (bix ++ ix) | ix <- [seq [:: i; j] | i <- iota 0 r, j <- iota 0 c]].
  by rewrite map_allpairs.
rewrite (E N1) (E N2); split; first by rewrite size_map size_allpairs !size_iota.
by move=> i; apply: rel_map => ix _; apply: rel_get.
Qed.

Lemma rel_mat_list a a' bix r c : rel_arr a a' ->
  size (map (@tofl N1) (mat_at a bix r c)) = r * c /\
  rel_list (map (@tofl N1) (mat_at a bix r c)) (map (@tofl N2) (mat_at a' bix r c)).
Proof.
move=> Ha; have [Hs Hn] := rel_mat bix r c Ha.
have Hs' : size (mat_at a' bix r c) = r * c by rewrite /mat_at size_allpairs !size_iota.
split; first by rewrite size_map.
split; first by rewrite !size_map Hs Hs'.
move=> i; rewrite size_map => Hi; rewrite !(nth_map (VI 0)) ?Hs' -?Hs //; exact: rel_tofl.
Qed.

Lemma rel_mat_Z a a' bix r c : rel_arr a a' ->
  map (@toZ N1) (mat_at a bix r c) = map (@toZ N2) (mat_at a' bix r c).
Proof.
move=> Ha; have [Hs Hn] := rel_mat bix r c Ha.
have Hs' : size (mat_at a' bix r c) = r * c by rewrite /mat_at size_allpairs !size_iota.
apply: (@eq_from_nth _ 0%Z); first by rewrite !size_map Hs Hs'.
move=> i; rewrite size_map => Hi; rewrite !(nth_map (VI 0)) ?Hs' -?Hs //.
by case: (Hn i).
Qed.

Lemma valid_last2 bs m n ix : ix \in indices (bs ++ [:: m; n]) ->
  nth 0 ix (size bs) < m /\ nth 0 ix (size bs).+1 < n.
Proof.
rewrite mem_indices; elim: bs ix => [|d bs IH] [|i ix] //=.
  by case: ix => [|j [|k ix]] //=; rewrite ?andbT ?andbF //; case/andP.
by case/andP => _ /IH.
Qed.

Lemma rel_matmul a b a' b' : rel_arr a a' -> rel_arr b b' ->
  rel_res rel_arr (np_matmul a b) (np_matmul a' b').
Proof.
move=> Ha Hb; have [Ed Es _ _] := Ha; have [Ed' Es' _ _] := Hb.
rewrite /np_matmul Ed Es Ed' Es'; case: (shp a') => [|da sa] //; case: (shp b') => [|db sb] //.
case: ifP => // _; case: (bshape _ _) => [bs|] //.
apply: rel_reshape; apply: rel_mk => ix /valid_last2 [Hi Hj].
rewrite /mm_entry; case: (promote _ _).
  rewrite (rel_mat_Z _ _ _ (rel_reshape _ Ha)) (rel_mat_Z _ _ _ (rel_reshape _ Hb)); exact: RelI.
apply: RelF; apply: (ag_mm H) => //.
- exact: (proj1 (rel_mat_list _ _ _ (rel_reshape _ Ha))).
- exact: (proj1 (rel_mat_list _ _ _ (rel_reshape _ Hb))).
- exact: (proj2 (rel_mat_list _ _ _ (rel_reshape _ Ha))).
exact: (proj2 (rel_mat_list _ _ _ (rel_reshape _ Hb))).
Qed.

Lemma rel_solve a b a' b' : rel_arr a a' -> rel_arr b b' ->
  rel_res rel_arr (np_solve a b) (np_solve a' b').
Proof.
move=> Ha Hb; have [Ed Es _ _] := Ha; have [Ed' Es' _ _] := Hb.
rewrite /np_solve Es Es'; case: ifP => // _; case: ifP => // _; case: ifP => // _; case: ifP => // _.
case: (bshape _ _) => [bs|] //.
set n := nth 0 (shp a') _; set sb := if _ then _ else shp b'; set r := nth 0 sb (size sb - 1).
set ba := take _ (shp a'); set bb := take _ sb.
have Hsol bix : rel_opt (fun g g' => forall i j, i < n -> j < r -> R (g i j) (g' i j))
    (ksolve n r (map (@tofl N1) (mat_at a (bidx ba bix) n n)) (map (@tofl N1) (mat_at (reshape b sb) (bidx bb bix) n r)))
    (ksolve n r (map (@tofl N2) (mat_at a' (bidx ba bix) n n)) (map (@tofl N2) (mat_at (reshape b' sb) (bidx bb bix) n r))).
  have [S1 L1] := rel_mat_list (bidx ba bix) n n Ha.
  have [S2 L2] := rel_mat_list (bidx bb bix) n r (rel_reshape sb Hb).
  by apply: (ag_solve H).
rewrite (@eq_all _ _ (fun bix => isSome (ksolve n r (map (@tofl N2) (mat_at a' (bidx ba bix) n n))
    (map (@tofl N2) (mat_at (reshape b' sb) (bidx bb bix) n r))))); last first.
  by move=> bix /=; have := Hsol bix; case: (ksolve _ _ _ _) => [g|]; case: (ksolve _ _ _ _).
case: ifP => // _; apply: rel_reshape; apply: rel_mk => ix /valid_last2 [Hi Hj]; apply: RelF.
have := Hsol (take (size bs) ix); case: (ksolve _ _ _ _) => [g|]; case: (ksolve _ _ _ _) => [g'|] //=.
  by apply.
by move=> _; apply: (ag_nan H).
Qed.

Lemma rel_row a b k : rel_arr a b -> rel_arr (row a k) (row b k).
Proof.
case=> Ed Es Ez Hn; rewrite /row Ed Es; split=> //=; first by rewrite !size_take !size_drop Ez.
move=> i; case: (ltnP i (nelem (behead (shp b)))) => Hi; first by rewrite !nth_take // !nth_drop.
by rewrite !nth_default ?size_take ?size_drop; try exact: RelI; case: ltnP => // h; apply: leq_trans h _.
Qed.

Lemma rel_getitem a b k : rel_arr a b -> rel_res rel_arr (np_getitem a k) (np_getitem b k).
Proof.
move=> Hab; have [_ Es _ _] := Hab; rewrite /np_getitem /np_pos Es.
case: (shp b) => [|d sh] //=; case: ifP => //= _; exact: rel_row.
Qed.

Lemma rel_setitem a b k v w : rel_arr a b -> rel_arr v w -> rel_res rel_arr (np_setitem a k v) (np_setitem b k w).
Proof.
move=> Hab Hvw; have [Ed Es Ez Hn] := Hab; have [_ Es' _ _] := Hvw.
rewrite /np_setitem /np_pos Es Es' Ed; case: (shp b) => [|d sh] //=; case: ifP => //= _; case: ifP => // _.
set src := strip_ones _ _; set i := Z.to_nat _.
have Hnew j : rel_scal (nth (VI 0) [seq VF (tofl (get (reshape v src) (bidx src ix))) | ix <- indices sh] j)
    (nth (VI 0) [seq VF (tofl (get (reshape w src) (bidx src ix))) | ix <- indices sh] j).
  by apply: rel_map => ix _; apply: RelF; apply: rel_tofl; apply: rel_get; apply: rel_reshape.
split=> //=; first by rewrite !size_cat !size_take !size_drop !size_map Ez.
move=> j; rewrite !nth_cat !size_take !size_map Ez; case: ifP => Hj.
  have Hj' : j < i * nelem sh by apply: leq_trans Hj _; case: (ltnP (i * nelem sh) (size (dat b))).
  by rewrite !nth_take.
by case: ifP => _; [exact: Hnew|rewrite !nth_drop].
Qed.

Lemma rel_len a b : rel_arr a b -> np_len a = np_len b.
Proof. by case=> _ Es _ _; rewrite /np_len Es. Qed.
Lemma rel_iter a b : rel_arr a b -> rel_res (rel_seq rel_arr) (np_iter a) (np_iter b).
Proof.
move=> Hab; have [_ Es _ _] := Hab; rewrite /np_iter Es; case: (shp b) => //= d _.
by elim: (iota 0 d) => //= k s IH; split=> //; apply: rel_row.
Qed.

(** ** The library *)
Lemma rel_bind S1 S2 T1 T2 (P : S1 -> S2 -> Prop) (Q : T1 -> T2 -> Prop) m m' f f' :
  rel_res P m m' -> (forall x y, P x y -> rel_res Q (f x) (f' y)) -> rel_res Q (rbind m f) (rbind m' f').
Proof. by case: m => [x|e]; case: m' => [y|e'] //= Hm; apply. Qed.

Definition rel_meth S1 S2 (P : S1 -> S2 -> Prop) (m : meth N1 S1) (m' : meth N2 S2) : Prop :=
  forall g g', rel_seq rel_arr g g' -> rel_seq rel_arr (m g).1 (m' g').1 /\ rel_res P (m g).2 (m' g').2.

Lemma rel_mbind S1 S2 T1 T2 (P : S1 -> S2 -> Prop) (Q : T1 -> T2 -> Prop) m m' f f' :
  rel_meth P m m' -> (forall x y, P x y -> rel_meth Q (f x) (f' y)) -> rel_meth Q (mbind m f) (mbind m' f').
Proof.
move=> Hm Hf g g' /Hm; rewrite /mbind.
case: (m g) => g1 [x|e]; case: (m' g') => g1' [y|e'] [] //= Hg Hx; exact: Hf.
Qed.
Lemma rel_mlift S1 S2 (P : S1 -> S2 -> Prop) r r' : rel_res P r r' -> rel_meth P (mlift r) (mlift r').
Proof. by move=> Hr g g' Hg. Qed.
Lemma rel_mret S1 S2 (P : S1 -> S2 -> Prop) x y : P x y -> rel_meth P (mret x) (mret y).
Proof. by move=> Hr g g' Hg. Qed.
Lemma rel_rcons S1 S2 (P : S1 -> S2 -> Prop) a b x y : rel_seq P a b -> P x y -> rel_seq P (rcons a x) (rcons b y).
Proof. by elim: a b => [|u a IH] [|v b] //= [Huv /IH Hab] /Hab. Qed.
Lemma rel_append x y : rel_arr x y -> rel_meth (fun _ _ => True) (append_gain x) (append_gain y).
Proof. by move=> Hxy g g' Hg; split=> //=; apply: rel_rcons. Qed.

Lemma rel_check a b u v : rel_opt rel_arr u v -> rel_arr a b ->
  rel_arr (check_none_and_broadcast u a) (check_none_and_broadcast v b).
Proof. by case: u => [x|]; case: v => [y|] //= _; apply: rel_full. Qed.

Lemma rel_is_nan u v : rel_opt rel_arr u v -> rel_res eq (is_nan_all u) (is_nan_all v).
Proof. by case: u => [x|]; case: v => [y|] //=; apply: rel_isnan_all. Qed.

Lemma rel_project_state A x B u A' x' B' u' : rel_arr A A' -> rel_arr x x' -> rel_opt rel_arr B B' ->
  rel_opt rel_arr u u' -> rel_res rel_arr (@project_state N1 A x B u) (@project_state N2 A' x' B' u').
Proof.
move=> HA Hx HB Hu; rewrite /project_state.
apply: (rel_bind (P := eq)); first exact: rel_is_nan.
move=> b _ <-; apply: (rel_bind (P := eq)); first by case: b => //; apply: rel_is_nan.
move=> s _ <-; case: s; first exact: rel_matmul.
apply: rel_bind; first exact: rel_matmul.
move=> Ax Ax' HAx; case: B B' HB => [B|] [B'|] //= HB; case: u u' Hu => [u|] [u'|] //= Hu.
apply: rel_bind; first exact: rel_matmul.
by move=> Bu Bu' HBu; apply: rel_add.
Qed.

Lemma rel_project_cov A P Q A' P' Q' : rel_arr A A' -> rel_arr P P' -> rel_arr Q Q' ->
  rel_res rel_arr (project_cov A P Q) (project_cov A' P' Q').
Proof.
move=> HA HP HQ; apply: rel_bind; first by apply: rel_matmul => //; apply: rel_T.
move=> X X' HX; apply: rel_bind; first exact: rel_matmul.
by move=> Y Y' HY; apply: rel_add.
Qed.

Lemma rel_predict A x B u P Q A' x' B' u' P' Q' : rel_arr A A' -> rel_arr x x' -> rel_opt rel_arr B B' ->
  rel_opt rel_arr u u' -> rel_arr P P' -> rel_arr Q Q' ->
  rel_res rel_pair (kf_predict A x B u P Q) (kf_predict A' x' B' u' P' Q').
Proof.
move=> HA Hx HB Hu HP HQ; apply: rel_bind; first exact: rel_project_state.
move=> y y' Hy; apply: rel_bind; first exact: rel_project_cov.
by move=> S S' HS; split.
Qed.

Lemma rel_gain S H_ P S' H_' P' : rel_arr S S' -> rel_arr H_ H_' -> rel_arr P P' ->
  rel_res rel_arr (gain S H_ P) (gain S' H_' P').
Proof.
move=> HS HH HP; apply: rel_bind; first by apply: rel_matmul => //; apply: rel_T.
move=> X X' HX; apply: rel_bind; first by apply: rel_solve => //; apply: rel_T.
by move=> Y Y' HY; apply: rel_T.
Qed.

Lemma rel_correct_state x K z y x' K' z' y' : rel_arr x x' -> rel_arr K K' -> rel_arr z z' -> rel_arr y y' ->
  rel_res rel_arr (correct_state x K z y) (correct_state x' K' z' y').
Proof.
move=> Hx HK Hz Hy; apply: rel_bind; first exact: rel_sub.
move=> d d' Hd; apply: rel_bind; first by apply: rel_matmul => //; apply: rel_atleast.
by move=> e e' He; apply: rel_add.
Qed.

Lemma rel_correct_cov I K H_ P I' K' H_' P' : rel_arr I I' -> rel_arr K K' -> rel_arr H_ H_' -> rel_arr P P' ->
  rel_res rel_arr (correct_cov I K H_ P) (correct_cov I' K' H_' P').
Proof.
move=> HI HK HH HP; apply: rel_bind; first exact: rel_matmul.
move=> d d' Hd; apply: rel_bind; first exact: rel_sub.
by move=> e e' He; apply: rel_matmul.
Qed.

Lemma rel_update I H_ x P z R_ I' H_' x' P' z' R_' : rel_arr I I' -> rel_arr H_ H_' -> rel_arr x x' ->
  rel_arr P P' -> rel_arr z z' -> rel_arr R_ R_' ->
  rel_meth rel_pair (kf_update I H_ x P z R_) (kf_update I' H_' x' P' z' R_').
Proof.
move=> HI HH Hx HP Hz HR; apply: rel_mbind; first by apply: rel_mlift; apply: rel_project_cov.
move=> S S' HS; apply: rel_mbind; first by apply: rel_mlift; apply: rel_gain.
move=> K K' HK; apply: rel_mbind; first exact: rel_append.
move=> _ _ _; apply: rel_mbind; first by apply: rel_mlift; apply: rel_matmul.
move=> y y' Hy; apply: rel_mbind; first by apply: rel_mlift; apply: rel_correct_state.
move=> d d' Hd; apply: rel_mbind; first by apply: rel_mlift; apply: rel_correct_cov.
by move=> e e' He; apply: (@rel_mret _ _ rel_pair (d, e) (d', e') (conj Hd He)).
Qed.

Lemma rel_store o k p o' p' : rel_pair o o' -> rel_pair p p' ->
  rel_res rel_pair (store o k p) (store o' k p').
Proof.
move=> [H1 H2] [H3 H4]; apply: rel_bind; first exact: rel_setitem.
move=> a a' Ha; apply: rel_bind; first exact: rel_setitem.
by move=> b b' Hb; split.
Qed.

Lemma rel_loop S1 S2 (P : S1 -> S2 -> Prop) step step' rows rows' k p o p' o' :
  (forall s s' q q', P s s' -> rel_pair q q' -> rel_meth rel_pair (step s q) (step' s' q')) ->
  rel_seq P rows rows' -> rel_pair p p' -> rel_pair o o' ->
  rel_meth rel_pair (filter_loop step rows k p o) (filter_loop step' rows' k p' o').
Proof.
move=> Hstep; elim: rows rows' k p o p' o' => [|s rows IH] [|s' rows'] k p o p' o' //=.
move=> [Hs Hrows] Hp Ho; apply: rel_mbind; first exact: Hstep.
move=> q q' Hq; apply: rel_mbind; first by apply: rel_mlift; apply: rel_store.
by move=> t t' Ht; apply: IH.
Qed.

Lemma rel_alloc T n : rel_pair (alloc N1 T n) (alloc N2 T n).
Proof. by split; apply: rel_zeros. Qed.

Definition rel_srow (s : srow N1) (s' : srow N2) : Prop :=
  [/\ rel_arr (rA s) (rA s'), rel_arr (rH s) (rH s'), rel_arr (rB s) (rB s'), rel_arr (rU s) (rU s') &
      [/\ rel_arr (rZ s) (rZ s'), rel_arr (rQ s) (rQ s') & rel_arr (rR s) (rR s')]].

Lemma rel_zip7 a h b u z q r a' h' b' u' z' q' r' : rel_seq rel_arr a a' -> rel_seq rel_arr h h' ->
  rel_seq rel_arr b b' -> rel_seq rel_arr u u' -> rel_seq rel_arr z z' -> rel_seq rel_arr q q' ->
  rel_seq rel_arr r r' -> rel_seq rel_srow (zip7 a h b u z q r) (zip7 a' h' b' u' z' q' r').
Proof.
elim: a h b u z q r a' h' b' u' z' q' r' => [|? a IH] h b u z q r [|? a'] h' b' u' z' q' r' //= [? ?].
case: h h' => [|? h] [|? h'] //= [? ?]; case: b b' => [|? b] [|? b'] //= [? ?].
case: u u' => [|? u] [|? u'] //= [? ?]; case: z z' => [|? z] [|? z'] //= [? ?].
case: q q' => [|? q] [|? q'] //= [? ?]; case: r r' => [|? r] [|? r'] //= [? ?].
by split; [|apply: IH].
Qed.

Definition rel_kf (o : kf N1) (o' : kf N2) : Prop :=
  [/\ [/\ rel_arr (kf_A o) (kf_A o'), rel_arr (kf_xk o) (kf_xk o'), rel_arr (kf_B o) (kf_B o') &
          rel_arr (kf_Pk o) (kf_Pk o')],
      [/\ rel_arr (kf_H o) (kf_H o'), rel_arr (kf_Q o) (kf_Q o') & rel_arr (kf_R o) (kf_R o')],
      kf_size o = kf_size o', rel_arr (kf_I o) (kf_I o') & rel_seq rel_arr (kf_gains o) (kf_gains o')].

Lemma rel_filter o o' Z U Z' U' : rel_kf o o' -> rel_arr Z Z' -> rel_opt rel_arr U U' ->
  rel_meth rel_pair (kf_filter o Z U) (kf_filter o' Z' U').
Proof.
move=> [[HA Hx HB HP] [HH HQ HR] Hn HI Hg] HZ HU; rewrite /kf_filter.
apply: (rel_mbind (P := eq)); first by apply: rel_mlift; rewrite (rel_len HZ); case: (np_len Z').
move=> T _ <-; have HU' := rel_check HU HZ.
apply: rel_mbind; first by apply: rel_mlift; apply: rel_iter HA.
move=> a a' Ha; apply: rel_mbind; first by apply: rel_mlift; apply: rel_iter HH.
move=> h h' Hh; apply: rel_mbind; first by apply: rel_mlift; apply: rel_iter HB.
move=> b b' Hb; apply: rel_mbind; first by apply: rel_mlift; apply: rel_iter HU'.
move=> u u' Hu; apply: rel_mbind; first by apply: rel_mlift; apply: rel_iter HZ.
move=> z z' Hz; apply: rel_mbind; first by apply: rel_mlift; apply: rel_iter HQ.
move=> q q' Hq; apply: rel_mbind; first by apply: rel_mlift; apply: rel_iter HR.
move=> r r' Hr; rewrite Hn; apply: (rel_loop (P := rel_srow)) => //; [|exact: rel_zip7|exact: rel_alloc].
move=> s s' p p' [H1 H2 H3 H4 [H5 H6 H7]] [Hp1 Hp2]; rewrite /kf_step.
apply: rel_mbind; first by apply: rel_mlift; apply: rel_predict.
by move=> t t' [Ht1 Ht2]; apply: rel_update.
Qed.

Lemma rel_smooth_body e s k ah A e' s' ah' A' : rel_pair e e' -> rel_pair s s' -> rel_pair ah ah' -> rel_arr A A' ->
  rel_res rel_pair (smooth_body e s k ah A) (smooth_body e' s' k ah' A').
Proof.
move=> [He1 He2] [Hs1 Hs2] [Ha1 Ha2] HA.
apply: rel_bind; first exact: rel_getitem He2.
move=> P P' HP; apply: rel_bind; first exact: rel_getitem He1.
move=> x x' Hx; apply: (rel_bind (P := rel_arr)).
  apply: rel_bind; first by apply: rel_matmul => //; apply: rel_T.
  move=> X X' HX; apply: rel_bind; first by apply: rel_solve; apply: rel_T.
  by move=> Y Y' HY; apply: rel_T.
move=> G G' HG; apply: rel_bind; first exact: rel_getitem Hs1.
move=> x1 x1' Hx1; apply: (rel_bind (P := rel_arr)).
  apply: rel_bind; first exact: rel_sub.
  move=> X X' HX; apply: rel_bind; first exact: rel_matmul.
  by move=> Y Y' HY; apply: rel_add.
move=> xs xs' Hxs; apply: rel_bind; first by apply: rel_setitem Hs1 Hxs.
move=> smx smx' Hsmx; apply: rel_bind; first exact: rel_getitem Hs2.
move=> P1 P1' HP1; apply: (rel_bind (P := rel_arr)).
  apply: rel_bind; first exact: rel_sub.
  move=> X X' HX; apply: rel_bind; first by apply: rel_matmul => //; apply: rel_T.
  move=> Y Y' HY; apply: rel_bind; first exact: rel_matmul.
  by move=> W W' HW; apply: rel_add.
move=> Ps Ps' HPs; apply: rel_bind; first by apply: rel_setitem Hs2 HPs.
by move=> smP smP' HsmP; split.
Qed.

Lemma rel_smooth_loop step step' j s s' :
  (forall k q q', rel_pair q q' -> rel_res rel_pair (step k q) (step' k q')) -> rel_pair s s' ->
  rel_res rel_pair (smooth_loop step j s) (smooth_loop step' j s').
Proof.
move=> Hstep; elim: j s s' => [|j IH] s s' Hs //=.
by apply: rel_bind; [exact: Hstep|exact: IH].
Qed.

Lemma rel_smooth_init T n e e' : rel_pair e e' -> rel_res rel_pair (smooth_init T n e) (smooth_init T n e').
Proof.
move=> [He1 He2]; have [Ha1 Ha2] := rel_alloc T n.
apply: rel_bind; first exact: rel_getitem He1.
move=> x x' Hx; apply: rel_bind; first by apply: rel_setitem Ha1 Hx.
move=> sx sx' Hsx; apply: rel_bind; first exact: rel_getitem He2.
move=> P P' HP; apply: rel_bind; first by apply: rel_setitem Ha2 HP.
by move=> sP sP' HsP; split.
Qed.

Lemma rel_smooth o o' Z U Z' U' : rel_kf o o' -> rel_arr Z Z' -> rel_opt rel_arr U U' ->
  rel_meth rel_pair (kf_smooth o Z U) (kf_smooth o' Z' U').
Proof.
move=> Ho HZ HU; have [[HA Hx HB HP] [HH HQ HR] Hn HI Hg] := Ho; rewrite /kf_smooth.
apply: rel_mbind; first exact: rel_filter.
move=> e e' He; apply: (rel_mbind (P := eq)); first by apply: rel_mlift; rewrite (rel_len HZ); case: (np_len Z').
move=> T _ <-; apply: rel_mbind; first by apply: rel_mlift; rewrite Hn; apply: rel_smooth_init.
move=> s s' Hs; apply: rel_mlift; apply: rel_smooth_loop => // k q q' Hq; have HU' := rel_check HU HZ.
have [He1 He2] := He.
apply: rel_bind; first exact: rel_getitem HA.
move=> A A' HAk; apply: rel_bind; first exact: rel_getitem HQ.
move=> Q Q' HQk; apply: rel_bind; first exact: rel_getitem HB.
move=> B B' HBk; apply: rel_bind; first exact: rel_getitem HU'.
move=> u u' Hu; apply: rel_bind; first exact: rel_getitem He2.
move=> P P' HPk; apply: rel_bind; first exact: rel_getitem He1.
move=> x x' Hxk; apply: rel_bind; first by apply: rel_predict.
by move=> ah ah' Hah; apply: rel_smooth_body.
Qed.

Inductive rel_call : call N1 -> call N2 -> Prop :=
| RPredict A x B u P Q A' x' B' u' P' Q' : rel_arr A A' -> rel_arr x x' -> rel_opt rel_arr B B' ->
    rel_opt rel_arr u u' -> rel_arr P P' -> rel_arr Q Q' ->
    rel_call (CPredict A x B u P Q) (CPredict A' x' B' u' P' Q')
| RUpdate H_ x P z R_ H_' x' P' z' R_' : rel_arr H_ H_' -> rel_arr x x' -> rel_arr P P' -> rel_arr z z' ->
    rel_arr R_ R_' -> rel_call (CUpdate H_ x P z R_) (CUpdate H_' x' P' z' R_')
| RFilter Z U Z' U' : rel_arr Z Z' -> rel_opt rel_arr U U' -> rel_call (CFilter Z U) (CFilter Z' U')
| RSmooth Z U Z' U' : rel_arr Z Z' -> rel_opt rel_arr U U' -> rel_call (CSmooth Z U) (CSmooth Z' U').

Lemma rel_kf_call o o' c c' : rel_kf o o' -> rel_call c c' ->
  rel_kf (kf_call o c).1 (kf_call o' c').1 /\ rel_res rel_pair (kf_call o c).2 (kf_call o' c').2.
Proof.
move=> Ho Hc; have [H1 H2 H3 H4 H5] := Ho.
suff Hm : rel_meth rel_pair (run_meth c o) (run_meth c' o').
  have := Hm _ _ H5; rewrite /kf_call.
  by case: (run_meth c o _) => g r; case: (run_meth c' o' _) => g' r' [Hg Hr].
case: Hc => *; [by apply: rel_mlift; apply: rel_predict|exact: rel_update|exact: rel_filter|exact: rel_smooth].
Qed.

Lemma rel_kf_calls o o' cs cs' : rel_kf o o' -> rel_seq rel_call cs cs' ->
  rel_kf (kf_calls o cs).1 (kf_calls o' cs').1 /\
  rel_seq (rel_res rel_pair) (kf_calls o cs).2 (kf_calls o' cs').2.
Proof.
elim: cs cs' o o' => [|c cs IH] [|c' cs'] o o' Ho //= [Hc Hcs].
have := rel_kf_call Ho Hc; case: (kf_call o c) => o1 r; case: (kf_call o' c') => o1' r' [/= Ho1 Hr].
have := IH _ _ _ Ho1 Hcs; case: (kf_calls o1 cs) => o2 rs; case: (kf_calls o1' cs') => o2' rs' [/= Ho2 Hrs].
by split.
Qed.

Lemma rel_init A x B P H_ Q R_ sz A' x' B' P' H_' Q' R_' : rel_arr A A' -> rel_arr x x' -> rel_opt rel_arr B B' ->
  rel_arr P P' -> rel_arr H_ H_' -> rel_arr Q Q' -> rel_arr R_ R_' ->
  rel_res rel_kf (kf_init A x B P H_ Q R_ sz) (kf_init A' x' B' P' H_' Q' R_' sz).
Proof.
move=> HA Hx HB HP HH HQ HR; rewrite /kf_init.
have HB' := rel_check HB HA; have [_ Es _ _] := Hx.
apply: (rel_bind (P := eq)).
  case: sz => [z|]; last by rewrite /shape0 Es; case: (shp x').
  by case: ifP => _; [rewrite /shape0 Es; case: (shp x')|case: ifP].
by move=> n _ <-; split=> //=; exact: rel_identity.
Qed.

(** ** ExtendedKalmanFilter: with callables that respect the relation *)
Definition rel_fun1 (f : arr N1 -> res (arr N1)) (f' : arr N2 -> res (arr N2)) : Prop :=
  forall x x', rel_arr x x' -> rel_res rel_arr (f x) (f' x').
Definition rel_fun2 (f : arr N1 -> option (arr N1) -> res (arr N1)) (f' : arr N2 -> option (arr N2) -> res (arr N2)) : Prop :=
  forall x u x' u', rel_arr x x' -> rel_opt rel_arr u u' -> rel_res rel_arr (f x u) (f' x' u').

Definition rel_ekf (o : ekf N1) (o' : ekf N2) : Prop :=
  [/\ [/\ rel_fun2 (e_f o) (e_f o'), rel_fun1 (e_h o) (e_h o'), rel_fun2 (e_jA o) (e_jA o') &
          rel_fun1 (e_jH o) (e_jH o')],
      [/\ rel_arr (e_xk o) (e_xk o'), rel_arr (e_Pk o) (e_Pk o'), rel_arr (e_Q o) (e_Q o') & rel_arr (e_R o) (e_R o')],
      e_size o = e_size o', rel_arr (e_I o) (e_I o') & rel_seq rel_arr (e_gains o) (e_gains o')].

Lemma rel_epredict o o' x u P Q x' u' P' Q' : rel_ekf o o' -> rel_arr x x' -> rel_opt rel_arr u u' ->
  rel_arr P P' -> rel_arr Q Q' -> rel_res rel_pair (ekf_predict o x u P Q) (ekf_predict o' x' u' P' Q').
Proof.
move=> [[Hf Hh HA HH] _ _ _ _] Hx Hu HP HQ; apply: rel_bind; first exact: HA.
move=> A A' HAk; apply: rel_bind; first exact: Hf.
move=> y y' Hy; apply: rel_bind; first exact: rel_project_cov.
by move=> S S' HS; split.
Qed.

Lemma rel_eupdate o o' x P z R_ x' P' z' R_' : rel_ekf o o' -> rel_arr x x' ->
  rel_arr P P' -> rel_arr z z' -> rel_arr R_ R_' ->
  rel_meth rel_pair (ekf_update o x P z R_) (ekf_update o' x' P' z' R_').
Proof.
move=> [[Hf Hh HA HH] _ _ HI _] Hx HP Hz HR; apply: rel_mbind; first by apply: rel_mlift; apply: HH.
move=> Hk Hk' HHk; apply: rel_mbind; first by apply: rel_mlift; apply: rel_project_cov.
move=> S S' HS; apply: rel_mbind; first by apply: rel_mlift; apply: rel_gain.
move=> K K' HK; apply: rel_mbind; first exact: rel_append.
move=> _ _ _; apply: rel_mbind; first by apply: rel_mlift; apply: Hh.
move=> y y' Hy; apply: rel_mbind; first by apply: rel_mlift; apply: rel_correct_state.
move=> d d' Hd; apply: rel_mbind; first by apply: rel_mlift; apply: rel_correct_cov.
by move=> e e' He; apply: (@rel_mret _ _ rel_pair (d, e) (d', e') (conj Hd He)).
Qed.

Definition rel_erow (s : erow N1) (s' : erow N2) : Prop :=
  [/\ rel_arr (eU s) (eU s'), rel_arr (eZ s) (eZ s'), rel_arr (eQ s) (eQ s') & rel_arr (eR s) (eR s')].

Lemma rel_zip4 u z q r u' z' q' r' : rel_seq rel_arr u u' -> rel_seq rel_arr z z' -> rel_seq rel_arr q q' ->
  rel_seq rel_arr r r' -> rel_seq rel_erow (zip4 u z q r) (zip4 u' z' q' r').
Proof.
elim: u z q r u' z' q' r' => [|? u IH] z q r [|? u'] z' q' r' //= [? ?].
case: z z' => [|? z] [|? z'] //= [? ?]; case: q q' => [|? q] [|? q'] //= [? ?].
case: r r' => [|? r] [|? r'] //= [? ?].
by split; [|apply: IH].
Qed.

Lemma rel_efilter o o' Z U Z' U' : rel_ekf o o' -> rel_arr Z Z' -> rel_opt rel_arr U U' ->
  rel_meth rel_pair (ekf_filter o Z U) (ekf_filter o' Z' U').
Proof.
move=> Ho HZ HU; have [_ [Hx HP HQ HR] Hn HI Hg] := Ho; rewrite /ekf_filter.
apply: (rel_mbind (P := eq)); first by apply: rel_mlift; rewrite (rel_len HZ); case: (np_len Z').
move=> T _ <-; have HU' := rel_check HU HZ.
apply: rel_mbind; first by apply: rel_mlift; apply: rel_iter HU'.
move=> u u' Hu; apply: rel_mbind; first by apply: rel_mlift; apply: rel_iter HZ.
move=> z z' Hz; apply: rel_mbind; first by apply: rel_mlift; apply: rel_iter HQ.
move=> q q' Hq; apply: rel_mbind; first by apply: rel_mlift; apply: rel_iter HR.
move=> r r' Hr; rewrite Hn; apply: (rel_loop (P := rel_erow)) => //; [|exact: rel_zip4|exact: rel_alloc].
move=> s s' p p' [H1 H2 H3 H4] [Hp1 Hp2]; rewrite /ekf_step.
apply: rel_mbind; first by apply: rel_mlift; apply: rel_epredict.
by move=> t t' [Ht1 Ht2]; apply: rel_eupdate.
Qed.

Lemma rel_esmooth o o' Z U Z' U' : rel_ekf o o' -> rel_arr Z Z' -> rel_opt rel_arr U U' ->
  rel_meth rel_pair (ekf_smooth o Z U) (ekf_smooth o' Z' U').
Proof.
move=> Ho HZ HU; have [[Hf Hh HA HH] [Hx HP HQ HR] Hn HI Hg] := Ho; rewrite /ekf_smooth.
apply: rel_mbind; first exact: rel_efilter.
move=> e e' He; apply: (rel_mbind (P := eq)); first by apply: rel_mlift; rewrite (rel_len HZ); case: (np_len Z').
move=> T _ <-; apply: rel_mbind; first by apply: rel_mlift; rewrite Hn; apply: rel_smooth_init.
move=> s s' Hs; apply: rel_mlift; apply: rel_smooth_loop => // k q q' Hq; have HU' := rel_check HU HZ.
have [He1 He2] := He; rewrite /ekf_smooth_step.
apply: rel_bind; first exact: rel_getitem HQ.
move=> Q Q' HQk; apply: rel_bind; first exact: rel_getitem HU'.
move=> u u' Hu; apply: rel_bind; first exact: rel_getitem He2.
move=> P P' HPk; apply: rel_bind; first exact: rel_getitem He1.
move=> x x' Hxk; apply: rel_bind; first by apply: rel_epredict.
move=> ah ah' Hah; apply: rel_bind; first by apply: HA.
by move=> A A' HAk; apply: rel_smooth_body.
Qed.

Inductive rel_ecall : ecall N1 -> ecall N2 -> Prop :=
| REPredict x u P Q x' u' P' Q' : rel_arr x x' -> rel_opt rel_arr u u' -> rel_arr P P' -> rel_arr Q Q' ->
    rel_ecall (EPredict x u P Q) (EPredict x' u' P' Q')
| REUpdate x P z R_ x' P' z' R_' : rel_arr x x' -> rel_arr P P' -> rel_arr z z' ->
    rel_arr R_ R_' -> rel_ecall (EUpdate x P z R_) (EUpdate x' P' z' R_')
| REFilter Z U Z' U' : rel_arr Z Z' -> rel_opt rel_arr U U' -> rel_ecall (EFilter Z U) (EFilter Z' U')
| RESmooth Z U Z' U' : rel_arr Z Z' -> rel_opt rel_arr U U' -> rel_ecall (ESmooth Z U) (ESmooth Z' U').

Lemma rel_e_call o o' c c' : rel_ekf o o' -> rel_ecall c c' ->
  rel_ekf (e_call o c).1 (e_call o' c').1 /\ rel_res rel_pair (e_call o c).2 (e_call o' c').2.
Proof.
move=> Ho Hc; have [H1 H2 H3 H4 H5] := Ho.
suff Hm : rel_meth rel_pair (e_run c o) (e_run c' o').
  have := Hm _ _ H5; rewrite /e_call.
  by case: (e_run c o _) => g r; case: (e_run c' o' _) => g' r' [Hg Hr].
case: Hc => *; [by apply: rel_mlift; apply: rel_epredict|exact: rel_eupdate|exact: rel_efilter|exact: rel_esmooth].
Qed.

Lemma rel_e_calls o o' cs cs' : rel_ekf o o' -> rel_seq rel_ecall cs cs' ->
  rel_ekf (e_calls o cs).1 (e_calls o' cs').1 /\
  rel_seq (rel_res rel_pair) (e_calls o cs).2 (e_calls o' cs').2.
Proof.
elim: cs cs' o o' => [|c cs IH] [|c' cs'] o o' Ho //= [Hc Hcs].
have := rel_e_call Ho Hc; case: (e_call o c) => o1 r; case: (e_call o' c') => o1' r' [/= Ho1 Hr].
have := IH _ _ _ Ho1 Hcs; case: (e_calls o1 cs) => o2 rs; case: (e_calls o1' cs') => o2' rs' [/= Ho2 Hrs].
by split.
Qed.

Lemma rel_einit x P Q R_ f h jA jH x' P' Q' R_' f' h' jA' jH' : rel_arr x x' -> rel_arr P P' -> rel_arr Q Q' ->
  rel_arr R_ R_' -> rel_fun2 f f' -> rel_fun1 h h' -> rel_fun2 jA jA' -> rel_fun1 jH jH' ->
  rel_res rel_ekf (ekf_init x P Q R_ f h jA jH) (ekf_init x' P' Q' R_' f' h' jA' jH').
Proof.
move=> Hx HP HQ HR Hf Hh HA HH; have [_ Es _ _] := Hx; rewrite /ekf_init /shape0 Es.
by case: (shp x') => //= n _; split=> //=; exact: rel_identity.
Qed.
End Rel.
