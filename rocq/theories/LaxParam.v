(** * LaxParam: the library does not depend on how numbers are computed, where
    the first of two arithmetics may give up

    As Param.v, but the first arithmetic may lose numbers (a lost number is
    related to every number) and refuse to solve; only B and U, which the code
    compares with NaN, must not be lost. *)
From Coq Require Import ZArith.
From mathcomp Require Import ssreflect ssrfun ssrbool eqtype ssrnat seq.
From Verif Require Import Np NpLemmas Kf Ekf Param.

Set Implicit Arguments.
Unset Strict Implicit.
Unset Printing Implicit Defensive.

Section Lax.
Variables (N1 N2 : num) (R : K N1 -> K N2 -> Prop).

Variable RS : K N1 -> K N2 -> Prop.
Notation lx_list := (rel_list R).
Notation lx_arr := (rel_arr R).
Notation ls_arr := (rel_arr RS).
Notation lx_opt := rel_opt.
Notation lx_seq := rel_seq.
Notation lx_pair := (rel_pair R).
Notation lx_scal := (rel_scal R).
Notation LxI := (@RelI N1 N2 R).
Notation LxF := RelF.

(** Related values, or the same exception; nothing is claimed if the first is
    LinAlgError. *)
Definition lx_res S1 S2 (P : S1 -> S2 -> Prop) (a : res S1) (b : res S2) : Prop :=
  match a, b with
  | Ok x, Ok y => P x y
  | Raise LinAlgError, _ => True
  | Raise e, Raise e' => e = e'
  | _, _ => False
  end.
Lemma lx_strict S1 S2 (P : S1 -> S2 -> Prop) a b : rel_res P a b -> lx_res P a b.
Proof. by case: a b => [x|e] [y|e'] //= ->; case: e'. Qed.

Lemma lx_refl S (m : res S) : lx_res eq m m.
Proof. by case: m => [x|[]]. Qed.

(** RS relates the numbers a caller passes as B or U, R all the others. *)
Record lagree : Prop := LAgree {
  la_sub : forall x y, RS x y -> R x y;
  la_nanS : RS (knan N1) (knan N2);
  la_isnan : forall x y, RS x y -> kisnan x = kisnan y;
  la_nan : forall y, R (knan N1) y;
  la_ofZ : forall z, R (kofZ N1 z) (kofZ N2 z);
  la_add : forall x y x' y', R x x' -> R y y' -> R (kadd x y) (kadd x' y');
  la_diff : forall x y x' y', R x x' -> R y y' -> R (ksub x y) (ksub x' y');
  la_mm : forall kd m k n a b a' b' i j, size a = m * k -> size b = k * n -> lx_list a a' -> lx_list b b' ->
    i < m -> j < n -> R (kmm kd m k n a b i j) (kmm kd m k n a' b' i j);
  la_solve : forall n r a b a' b' f, size a = n * n -> size b = n * r -> lx_list a a' -> lx_list b b' ->
    ksolve n r a b = Some f -> exists2 f', ksolve n r a' b' = Some f' & forall i j, R (f i j) (f' i j);
  la_n2i : knan2int N1 = knan2int N2
}.
Hypothesis H : lagree.

Lemma ls_lx a b : ls_arr a b -> lx_arr a b.
Proof.
by case=> h1 h2 h3 h4; split=> // i; case: (h4 i) => [z|x y /(la_sub H)]; [apply: RelI|apply: RelF].
Qed.

(** ** numpy *)
Lemma lx_tofl v w : lx_scal v w -> R (tofl v) (tofl w).
Proof. by case=> [z|x y] //=; apply: (la_ofZ H). Qed.
Lemma lx_get a b ix : lx_arr a b -> lx_scal (get a ix) (get b ix).
Proof. by case=> _ Es _ Hn; rewrite /get Es. Qed.

Lemma lx_map (s : seq (seq nat)) (f : seq nat -> scal N1) g i :
  (forall ix, ix \in s -> lx_scal (f ix) (g ix)) ->
  lx_scal (nth (VI 0) [seq f ix | ix <- s] i) (nth (VI 0) [seq g ix | ix <- s] i).
Proof.
move=> Hs; case: (ltnP i (size s)) => Hi; last by rewrite !nth_default ?size_map //; exact: RelI.
by rewrite !(nth_map [::]) //; apply: Hs; rewrite mem_nth.
Qed.

Lemma lx_mk d sh f g : (forall ix, ix \in indices sh -> lx_scal (f ix) (g ix)) ->
  lx_arr (mk d sh f) (mk d sh g).
Proof. by move=> Hf; split=> //=; [rewrite !size_map|move=> i; apply: lx_map]. Qed.

Lemma lx_zeros sh : lx_arr (np_zeros N1 sh) (np_zeros N2 sh).
Proof. by apply: lx_mk => ix _; apply: RelF; apply: (la_ofZ H). Qed.
Lemma lx_identity n : lx_arr (np_identity N1 n) (np_identity N2 n).
Proof. by apply: lx_mk => ix _; apply: RelF; case: eqP => _; apply: (la_ofZ H). Qed.

Lemma lx_full a b : lx_arr a b -> ls_arr (np_full_like_nan a) (np_full_like_nan b).
Proof.
case=> Ed Es _ _; rewrite /np_full_like_nan Ed Es; split=> //=; first by rewrite !size_nseq.
move=> i; rewrite !nth_nseq; case: ifP => _; last exact: RelI.
by case: (dt b); [rewrite (la_n2i H); exact: RelI|apply: RelF; apply: (la_nanS H)].
Qed.

Lemma lx_snan v w : rel_scal RS v w -> snan v = snan w.
Proof. by case=> //= x y Hxy; apply: (la_isnan H). Qed.
Lemma lx_isnan_all a b : ls_arr a b -> np_isnan_all a = np_isnan_all b.
Proof.
case=> _ _ Es Hn; rewrite /np_isnan_all.
apply/(all_nthP (VI 0))/(all_nthP (VI 0)) => Hall i Hi.
  by rewrite -(lx_snan (Hn i)); apply: Hall; rewrite Es.
by rewrite (lx_snan (Hn i)); apply: Hall; rewrite -Es.
Qed.

Lemma lx_T a b : lx_arr a b -> lx_arr (np_T a) (np_T b).
Proof.
by move=> Hab; have [Ed Es _ _] := Hab; rewrite /np_T Ed Es; apply: lx_mk => ix _; apply: lx_get.
Qed.
Lemma lx_reshape a b sh : lx_arr a b -> lx_arr (reshape a sh) (reshape b sh).
Proof. by case=> Ed _ Es Hn; split. Qed.
Lemma lx_atleast a b : lx_arr a b -> lx_arr (np_atleast_1d a) (np_atleast_1d b).
Proof. by move=> Hab; have [Ed Es Ez Hn] := Hab; rewrite /np_atleast_1d -Es; case: (shp a). Qed.

Lemma lx_bin fz f1 f2 a b a' b' :
  (forall x y x' y', R x x' -> R y y' -> R (f1 x y) (f2 x' y')) ->
  lx_arr a a' -> lx_arr b b' -> lx_res lx_arr (np_bin fz f1 a b) (np_bin fz f2 a' b').
Proof.
move=> Hf Ha Hb; have [Ed Es _ _] := Ha; have [Ed' Es' _ _] := Hb.
rewrite /np_bin Ed Es Ed' Es'; case: (bshape _ _) => [sh|] //; apply: lx_mk => ix _.
have := lx_get (bidx (shp a') ix) Ha; have := lx_get (bidx (shp b') ix) Hb.
move: (get a _) (get a' _) (get b _) (get b' _) => v v' w w' Hw Hv.
case: Hv => [z|x x' Hx]; case: Hw => [z'|y y' Hy] /=; try exact: RelI; apply: RelF; apply: Hf => //;
  by [apply: (la_ofZ H)|].
Qed.
Lemma lx_add a b a' b' : lx_arr a a' -> lx_arr b b' -> lx_res lx_arr (np_add a b) (np_add a' b').
Proof. apply: lx_bin; exact: (la_add H). Qed.
Lemma lx_sub a b a' b' : lx_arr a a' -> lx_arr b b' -> lx_res lx_arr (np_sub a b) (np_sub a' b').
Proof. apply: lx_bin; exact: (la_diff H). Qed.

Lemma lx_mat a a' bix r c : lx_arr a a' ->
  size (mat_at a bix r c) = r * c /\ forall i, lx_scal (nth (VI 0) (mat_at a bix r c) i) (nth (VI 0) (mat_at a' bix r c) i).
Proof.
move=> Ha; rewrite /mat_at.
have E (N : num) (x : arr N) : [seq get x (bix ++ [:: i; j]) | i <- iota 0 r, j <- iota 0 c] =
    [seq get x (bix ++ ix) | ix <- [seq [:: i; j] | i <- iota 0 r, j <- iota 0 c]].
  by rewrite map_allpairs.
rewrite (E N1) (E N2); split; first by rewrite size_map size_allpairs !size_iota.
by move=> i; apply: lx_map => ix _; apply: lx_get.
Qed.

Lemma lx_mat_list a a' bix r c : lx_arr a a' ->
  size (map (@tofl N1) (mat_at a bix r c)) = r * c /\
  lx_list (map (@tofl N1) (mat_at a bix r c)) (map (@tofl N2) (mat_at a' bix r c)).
Proof.
move=> Ha; have [Hs Hn] := lx_mat bix r c Ha.
have Hs' : size (mat_at a' bix r c) = r * c by rewrite /mat_at size_allpairs !size_iota.
split; first by rewrite size_map.
split; first by rewrite !size_map Hs Hs'.
move=> i; rewrite size_map => Hi; rewrite !(nth_map (VI 0)) ?Hs' -?Hs //; exact: lx_tofl.
Qed.

Lemma lx_mat_Z a a' bix r c : lx_arr a a' ->
  map (@toZ N1) (mat_at a bix r c) = map (@toZ N2) (mat_at a' bix r c).
Proof.
move=> Ha; have [Hs Hn] := lx_mat bix r c Ha.
have Hs' : size (mat_at a' bix r c) = r * c by rewrite /mat_at size_allpairs !size_iota.
apply: (@eq_from_nth _ 0%Z); first by rewrite !size_map Hs Hs'.
move=> i; rewrite size_map => Hi; rewrite !(nth_map (VI 0)) ?Hs' -?Hs //.
by case: (Hn i).
Qed.

Lemma valid_last2 bs m n ix : ix \in indices (bs ++ [:: m; n]) ->
  nth 0 ix (size bs) < m /\ nth 0 ix (size bs).+1 < n.
Proof.
rewrite mem_indices; elim: bs ix => [|d bs IH] [|i ix] //=.
  by case: ix => [|j [|k ix]] //=; rewrite ?andbT ?andbF //; case/andP.
by case/andP => _ /IH.
Qed.

Lemma lx_matmul a b a' b' : lx_arr a a' -> lx_arr b b' ->
  lx_res lx_arr (np_matmul a b) (np_matmul a' b').
Proof.
move=> Ha Hb; have [Ed Es _ _] := Ha; have [Ed' Es' _ _] := Hb.
rewrite /np_matmul Ed Es Ed' Es'; case: (shp a') => [|da sa] //; case: (shp b') => [|db sb] //.
case: ifP => // _; case: (bshape _ _) => [bs|] //.
apply: lx_reshape; apply: lx_mk => ix /valid_last2 [Hi Hj].
rewrite /mm_entry; case: (promote _ _).
  rewrite (lx_mat_Z _ _ _ (lx_reshape _ Ha)) (lx_mat_Z _ _ _ (lx_reshape _ Hb)); exact: RelI.
apply: RelF; apply: (la_mm H) => //.
- exact: (proj1 (lx_mat_list _ _ _ (lx_reshape _ Ha))).
- exact: (proj1 (lx_mat_list _ _ _ (lx_reshape _ Hb))).
- exact: (proj2 (lx_mat_list _ _ _ (lx_reshape _ Ha))).
exact: (proj2 (lx_mat_list _ _ _ (lx_reshape _ Hb))).
Qed.

Lemma lx_solve a b a' b' : lx_arr a a' -> lx_arr b b' ->
  lx_res lx_arr (np_solve a b) (np_solve a' b').
Proof.
move=> Ha Hb; have [Ed Es _ _] := Ha; have [Ed' Es' _ _] := Hb.
rewrite /np_solve Es Es'; case: ifP => // _; case: ifP => // _; case: ifP => // _; case: ifP => // _.
case: (bshape _ _) => [bs|] //.
set n := nth 0 (shp a') _; set sb := if _ then _ else shp b'; set r := nth 0 sb (size sb - 1).
set ba := take _ (shp a'); set bb := take _ sb.
have Hsol bix f : ksolve n r (map (@tofl N1) (mat_at a (bidx ba bix) n n)) (map (@tofl N1) (mat_at (reshape b sb) (bidx bb bix) n r)) = Some f ->
    exists2 f', ksolve n r (map (@tofl N2) (mat_at a' (bidx ba bix) n n)) (map (@tofl N2) (mat_at (reshape b' sb) (bidx bb bix) n r)) = Some f' &
      forall i j, R (f i j) (f' i j).
  have [S1 L1] := lx_mat_list (bidx ba bix) n n Ha.
  have [S2 L2] := lx_mat_list (bidx bb bix) n r (lx_reshape sb Hb).
  by apply: (la_solve H).
case: ifP => // Hall.
have -> : all (fun bix => isSome (ksolve n r (map (@tofl N2) (mat_at a' (bidx ba bix) n n))
    (map (@tofl N2) (mat_at (reshape b' sb) (bidx bb bix) n r)))) (indices bs).
  apply: sub_all Hall => bix /=; case E : (ksolve n r (map (@tofl N1) _) _) => [f|] // _.
  by have [f' -> _] := Hsol _ _ E.
apply: lx_reshape; apply: lx_mk => ix _; apply: LxF.
case E : (ksolve n r (map (@tofl N1) _) _) => [f|]; last exact: (la_nan H).
by have [f' -> Hf] := Hsol _ _ E; apply: Hf.
Qed.

Lemma lx_row a b k : lx_arr a b -> lx_arr (row a k) (row b k).
Proof.
case=> Ed Es Ez Hn; rewrite /row Ed Es; split=> //=; first by rewrite !size_take !size_drop Ez.
move=> i; case: (ltnP i (nelem (behead (shp b)))) => Hi; first by rewrite !nth_take // !nth_drop.
by rewrite !nth_default ?size_take ?size_drop; try exact: RelI; case: ltnP => // h; apply: leq_trans h _.
Qed.

Lemma ls_row a b k : ls_arr a b -> ls_arr (row a k) (row b k).
Proof.
case=> Ed Es Ez Hn; rewrite /row Ed Es; split=> //=; first by rewrite !size_take !size_drop Ez.
move=> i; case: (ltnP i (nelem (behead (shp b)))) => Hi; first by rewrite !nth_take // !nth_drop.
by rewrite !nth_default ?size_take ?size_drop; try exact: RelI; case: ltnP => // h; apply: leq_trans h _.
Qed.
Lemma ls_getitem a b k : ls_arr a b -> lx_res ls_arr (np_getitem a k) (np_getitem b k).
Proof.
move=> Hab; have [_ Es _ _] := Hab; rewrite /np_getitem /np_pos Es.
case: (shp b) => [|d sh] //=; case: ifP => //= _; exact: ls_row.
Qed.
Lemma ls_iter a b : ls_arr a b -> lx_res (lx_seq ls_arr) (np_iter a) (np_iter b).
Proof.
move=> Hab; have [_ Es _ _] := Hab; rewrite /np_iter Es; case: (shp b) => //= d _.
by elim: (iota 0 d) => //= k s IH; split=> //; apply: ls_row.
Qed.

Lemma lx_getitem a b k : lx_arr a b -> lx_res lx_arr (np_getitem a k) (np_getitem b k).
Proof.
move=> Hab; have [_ Es _ _] := Hab; rewrite /np_getitem /np_pos Es.
case: (shp b) => [|d sh] //=; case: ifP => //= _; exact: lx_row.
Qed.

Lemma lx_setitem a b k v w : lx_arr a b -> lx_arr v w -> lx_res lx_arr (np_setitem a k v) (np_setitem b k w).
Proof.
move=> Hab Hvw; have [Ed Es Ez Hn] := Hab; have [_ Es' _ _] := Hvw.
rewrite /np_setitem /np_pos Es Es' Ed; case: (shp b) => [|d sh] //=; case: ifP => //= _; case: ifP => // _.
set src := strip_ones _ _; set i := Z.to_nat _.
have Hnew j : lx_scal (nth (VI 0) [seq VF (tofl (get (reshape v src) (bidx src ix))) | ix <- indices sh] j)
    (nth (VI 0) [seq VF (tofl (get (reshape w src) (bidx src ix))) | ix <- indices sh] j).
  by apply: lx_map => ix _; apply: RelF; apply: lx_tofl; apply: lx_get; apply: lx_reshape.
split=> //=; first by rewrite !size_cat !size_take !size_drop !size_map Ez.
move=> j; rewrite !nth_cat !size_take !size_map Ez; case: ifP => Hj.
  have Hj' : j < i * nelem sh by apply: leq_trans Hj _; case: (ltnP (i * nelem sh) (size (dat b))).
  by rewrite !nth_take.
by case: ifP => _; [exact: Hnew|rewrite !nth_drop].
Qed.

Lemma lx_len a b : lx_arr a b -> np_len a = np_len b.
Proof. by case=> _ Es _ _; rewrite /np_len Es. Qed.
Lemma lx_iter a b : lx_arr a b -> lx_res (lx_seq lx_arr) (np_iter a) (np_iter b).
Proof.
move=> Hab; have [_ Es _ _] := Hab; rewrite /np_iter Es; case: (shp b) => //= d _.
by elim: (iota 0 d) => //= k s IH; split=> //; apply: lx_row.
Qed.

(** ** The library *)
Lemma lx_bind S1 S2 T1 T2 (P : S1 -> S2 -> Prop) (Q : T1 -> T2 -> Prop) m m' f f' :
  lx_res P m m' -> (forall x y, P x y -> lx_res Q (f x) (f' y)) -> lx_res Q (rbind m f) (rbind m' f').
Proof.
case: m => [x|e]; case: m' => [y|e'] // Hm Hf; first by exact: (Hf _ _ Hm).
by case: e Hm.
Qed.

Definition lx_meth S1 S2 (P : S1 -> S2 -> Prop) (m : meth N1 S1) (m' : meth N2 S2) : Prop :=
  forall g g', lx_seq lx_arr g g' -> (m g).2 <> Raise LinAlgError ->
    lx_seq lx_arr (m g).1 (m' g').1 /\ lx_res P (m g).2 (m' g').2.

Lemma lx_mbind S1 S2 T1 T2 (P : S1 -> S2 -> Prop) (Q : T1 -> T2 -> Prop) m m' f f' :
  lx_meth P m m' -> (forall x y, P x y -> lx_meth Q (f x) (f' y)) -> lx_meth Q (mbind m f) (mbind m' f').
Proof.
move=> Hm Hf g g' Hg; rewrite /mbind; have := Hm g g' Hg.
case: (m g) => g1 [x|e]; case: (m' g') => g1' [y|e'] /= h Ne.
- by have [//|Hg1 Hx] := h; exact: Hf.
- by have [] := h.
- have Ne' : Raise e <> Raise LinAlgError :> res S1 by move=> E; apply: Ne; case: E => ->.
  by have [Hg1] := h Ne'; case: (e) Ne'.
- have Ne' : Raise e <> Raise LinAlgError :> res S1 by move=> E; apply: Ne; case: E => ->.
  by have [Hg1] := h Ne'; case: (e) Ne'.
Qed.
Lemma lx_mlift S1 S2 (P : S1 -> S2 -> Prop) r r' : lx_res P r r' -> lx_meth P (mlift r) (mlift r').
Proof. by move=> Hr g g' Hg _. Qed.
Lemma lx_mret S1 S2 (P : S1 -> S2 -> Prop) x y : P x y -> lx_meth P (mret x) (mret y).
Proof. by move=> Hr g g' Hg _. Qed.
Lemma lx_append x y : lx_arr x y -> lx_meth (fun _ _ => True) (append_gain x) (append_gain y).
Proof. by move=> Hxy g g' Hg _; split=> //=; apply: rel_rcons. Qed.

Lemma lx_check a b u v : lx_opt ls_arr u v -> lx_arr a b ->
  ls_arr (check_none_and_broadcast u a) (check_none_and_broadcast v b).
Proof. by case: u => [x|]; case: v => [y|] //= _; apply: lx_full. Qed.

Lemma lx_is_nan u v : lx_opt ls_arr u v -> lx_res eq (is_nan_all u) (is_nan_all v).
Proof. by case: u => [x|]; case: v => [y|] //=; apply: lx_isnan_all. Qed.

Lemma lx_project_state A x B u A' x' B' u' : lx_arr A A' -> lx_arr x x' -> lx_opt ls_arr B B' ->
  lx_opt ls_arr u u' -> lx_res lx_arr (@project_state N1 A x B u) (@project_state N2 A' x' B' u').
Proof.
move=> HA Hx HB Hu; rewrite /project_state.
apply: (lx_bind (P := eq)); first exact: lx_is_nan.
move=> b _ <-; apply: (lx_bind (P := eq)); first by case: b => //; apply: lx_is_nan.
move=> s _ <-; case: s; first exact: lx_matmul.
apply: lx_bind; first exact: lx_matmul.
move=> Ax Ax' HAx; case: B B' HB => [B|] [B'|] //= HB; case: u u' Hu => [u|] [u'|] //= Hu.
apply: lx_bind; first by apply: lx_matmul; apply: ls_lx.
by move=> Bu Bu' HBu; apply: lx_add.
Qed.

Lemma lx_project_cov A P Q A' P' Q' : lx_arr A A' -> lx_arr P P' -> lx_arr Q Q' ->
  lx_res lx_arr (project_cov A P Q) (project_cov A' P' Q').
Proof.
move=> HA HP HQ; apply: lx_bind; first by apply: lx_matmul => //; apply: lx_T.
move=> X X' HX; apply: lx_bind; first exact: lx_matmul.
by move=> Y Y' HY; apply: lx_add.
Qed.

Lemma lx_predict A x B u P Q A' x' B' u' P' Q' : lx_arr A A' -> lx_arr x x' -> lx_opt ls_arr B B' ->
  lx_opt ls_arr u u' -> lx_arr P P' -> lx_arr Q Q' ->
  lx_res lx_pair (kf_predict A x B u P Q) (kf_predict A' x' B' u' P' Q').
Proof.
move=> HA Hx HB Hu HP HQ; apply: lx_bind; first exact: lx_project_state.
move=> y y' Hy; apply: lx_bind; first exact: lx_project_cov.
by move=> S S' HS; split.
Qed.

Lemma lx_gain S H_ P S' H_' P' : lx_arr S S' -> lx_arr H_ H_' -> lx_arr P P' ->
  lx_res lx_arr (gain S H_ P) (gain S' H_' P').
Proof.
move=> HS HH HP; apply: lx_bind; first by apply: lx_matmul => //; apply: lx_T.
move=> X X' HX; apply: lx_bind; first by apply: lx_solve => //; apply: lx_T.
by move=> Y Y' HY; apply: lx_T.
Qed.

Lemma lx_correct_state x K z y x' K' z' y' : lx_arr x x' -> lx_arr K K' -> lx_arr z z' -> lx_arr y y' ->
  lx_res lx_arr (correct_state x K z y) (correct_state x' K' z' y').
Proof.
move=> Hx HK Hz Hy; apply: lx_bind; first exact: lx_sub.
move=> d d' Hd; apply: lx_bind; first by apply: lx_matmul => //; apply: lx_atleast.
by move=> e e' He; apply: lx_add.
Qed.

Lemma lx_correct_cov I K H_ P I' K' H_' P' : lx_arr I I' -> lx_arr K K' -> lx_arr H_ H_' -> lx_arr P P' ->
  lx_res lx_arr (correct_cov I K H_ P) (correct_cov I' K' H_' P').
Proof.
move=> HI HK HH HP; apply: lx_bind; first exact: lx_matmul.
move=> d d' Hd; apply: lx_bind; first exact: lx_sub.
by move=> e e' He; apply: lx_matmul.
Qed.

Lemma lx_update I H_ x P z R_ I' H_' x' P' z' R_' : lx_arr I I' -> lx_arr H_ H_' -> lx_arr x x' ->
  lx_arr P P' -> lx_arr z z' -> lx_arr R_ R_' ->
  lx_meth lx_pair (kf_update I H_ x P z R_) (kf_update I' H_' x' P' z' R_').
Proof.
move=> HI HH Hx HP Hz HR; apply: lx_mbind; first by apply: lx_mlift; apply: lx_project_cov.
move=> S S' HS; apply: lx_mbind; first by apply: lx_mlift; apply: lx_gain.
move=> K K' HK; apply: lx_mbind; first exact: lx_append.
move=> _ _ _; apply: lx_mbind; first by apply: lx_mlift; apply: lx_matmul.
move=> y y' Hy; apply: lx_mbind; first by apply: lx_mlift; apply: lx_correct_state.
move=> d d' Hd; apply: lx_mbind; first by apply: lx_mlift; apply: lx_correct_cov.
by move=> e e' He; apply: (@lx_mret _ _ lx_pair (d, e) (d', e') (conj Hd He)).
Qed.

Lemma lx_store o k p o' p' : lx_pair o o' -> lx_pair p p' ->
  lx_res lx_pair (store o k p) (store o' k p').
Proof.
move=> [H1 H2] [H3 H4]; apply: lx_bind; first exact: lx_setitem.
move=> a a' Ha; apply: lx_bind; first exact: lx_setitem.
by move=> b b' Hb; split.
Qed.

Lemma lx_loop S1 S2 (P : S1 -> S2 -> Prop) step step' rows rows' k p o p' o' :
  (forall s s' q q', P s s' -> lx_pair q q' -> lx_meth lx_pair (step s q) (step' s' q')) ->
  lx_seq P rows rows' -> lx_pair p p' -> lx_pair o o' ->
  lx_meth lx_pair (filter_loop step rows k p o) (filter_loop step' rows' k p' o').
Proof.
move=> Hstep; elim: rows rows' k p o p' o' => [|s rows IH] [|s' rows'] k p o p' o' //=.
move=> [Hs Hrows] Hp Ho; apply: lx_mbind; first exact: Hstep.
move=> q q' Hq; apply: lx_mbind; first by apply: lx_mlift; apply: lx_store.
by move=> t t' Ht; apply: IH.
Qed.

Lemma lx_alloc T n : lx_pair (alloc N1 T n) (alloc N2 T n).
Proof. by split; apply: lx_zeros. Qed.

Definition lx_srow (s : srow N1) (s' : srow N2) : Prop :=
  [/\ lx_arr (rA s) (rA s'), lx_arr (rH s) (rH s'), ls_arr (rB s) (rB s'), ls_arr (rU s) (rU s') &
      [/\ lx_arr (rZ s) (rZ s'), lx_arr (rQ s) (rQ s') & lx_arr (rR s) (rR s')]].

Lemma lx_zip7 a h b u z q r a' h' b' u' z' q' r' : lx_seq lx_arr a a' -> lx_seq lx_arr h h' ->
  lx_seq ls_arr b b' -> lx_seq ls_arr u u' -> lx_seq lx_arr z z' -> lx_seq lx_arr q q' ->
  lx_seq lx_arr r r' -> lx_seq lx_srow (zip7 a h b u z q r) (zip7 a' h' b' u' z' q' r').
Proof.
elim: a h b u z q r a' h' b' u' z' q' r' => [|? a IH] h b u z q r [|? a'] h' b' u' z' q' r' //= [? ?].
case: h h' => [|? h] [|? h'] //= [? ?]; case: b b' => [|? b] [|? b'] //= [? ?].
case: u u' => [|? u] [|? u'] //= [? ?]; case: z z' => [|? z] [|? z'] //= [? ?].
case: q q' => [|? q] [|? q'] //= [? ?]; case: r r' => [|? r] [|? r'] //= [? ?].
by split; [|apply: IH].
Qed.

Definition lx_kf (o : kf N1) (o' : kf N2) : Prop :=
  [/\ [/\ lx_arr (kf_A o) (kf_A o'), lx_arr (kf_xk o) (kf_xk o'), ls_arr (kf_B o) (kf_B o') &
          lx_arr (kf_Pk o) (kf_Pk o')],
      [/\ lx_arr (kf_H o) (kf_H o'), lx_arr (kf_Q o) (kf_Q o') & lx_arr (kf_R o) (kf_R o')],
      kf_size o = kf_size o', lx_arr (kf_I o) (kf_I o') & lx_seq lx_arr (kf_gains o) (kf_gains o')].

Lemma lx_filter o o' Z U Z' U' : lx_kf o o' -> lx_arr Z Z' -> lx_opt ls_arr U U' ->
  lx_meth lx_pair (kf_filter o Z U) (kf_filter o' Z' U').
Proof.
move=> [[HA Hx HB HP] [HH HQ HR] Hn HI Hg] HZ HU; rewrite /kf_filter.
apply: (lx_mbind (P := eq)); first by apply: lx_mlift; rewrite (lx_len HZ); apply: lx_refl.
move=> T _ <-; have HU' := lx_check HU HZ.
apply: lx_mbind; first by apply: lx_mlift; apply: lx_iter HA.
move=> a a' Ha; apply: lx_mbind; first by apply: lx_mlift; apply: lx_iter HH.
move=> h h' Hh; apply: lx_mbind; first by apply: lx_mlift; apply: ls_iter HB.
move=> b b' Hb; apply: lx_mbind; first by apply: lx_mlift; apply: ls_iter HU'.
move=> u u' Hu; apply: lx_mbind; first by apply: lx_mlift; apply: lx_iter HZ.
move=> z z' Hz; apply: lx_mbind; first by apply: lx_mlift; apply: lx_iter HQ.
move=> q q' Hq; apply: lx_mbind; first by apply: lx_mlift; apply: lx_iter HR.
move=> r r' Hr; rewrite Hn; apply: (lx_loop (P := lx_srow)) => //; [|exact: lx_zip7|exact: lx_alloc].
move=> s s' p p' [H1 H2 H3 H4 [H5 H6 H7]] [Hp1 Hp2]; rewrite /kf_step.
apply: lx_mbind; first by apply: lx_mlift; apply: lx_predict.
by move=> t t' [Ht1 Ht2]; apply: lx_update.
Qed.

Lemma lx_smooth_body e s k ah A e' s' ah' A' : lx_pair e e' -> lx_pair s s' -> lx_pair ah ah' -> lx_arr A A' ->
  lx_res lx_pair (smooth_body e s k ah A) (smooth_body e' s' k ah' A').
Proof.
move=> [He1 He2] [Hs1 Hs2] [Ha1 Ha2] HA.
apply: lx_bind; first exact: lx_getitem He2.
move=> P P' HP; apply: lx_bind; first exact: lx_getitem He1.
move=> x x' Hx; apply: (lx_bind (P := lx_arr)).
  apply: lx_bind; first by apply: lx_matmul => //; apply: lx_T.
  move=> X X' HX; apply: lx_bind; first by apply: lx_solve; apply: lx_T.
  by move=> Y Y' HY; apply: lx_T.
move=> G G' HG; apply: lx_bind; first exact: lx_getitem Hs1.
move=> x1 x1' Hx1; apply: (lx_bind (P := lx_arr)).
  apply: lx_bind; first exact: lx_sub.
  move=> X X' HX; apply: lx_bind; first exact: lx_matmul.
  by move=> Y Y' HY; apply: lx_add.
move=> xs xs' Hxs; apply: lx_bind; first by apply: lx_setitem Hs1 Hxs.
move=> smx smx' Hsmx; apply: lx_bind; first exact: lx_getitem Hs2.
move=> P1 P1' HP1; apply: (lx_bind (P := lx_arr)).
  apply: lx_bind; first exact: lx_sub.
  move=> X X' HX; apply: lx_bind; first by apply: lx_matmul => //; apply: lx_T.
  move=> Y Y' HY; apply: lx_bind; first exact: lx_matmul.
  by move=> W W' HW; apply: lx_add.
move=> Ps Ps' HPs; apply: lx_bind; first by apply: lx_setitem Hs2 HPs.
by move=> smP smP' HsmP; split.
Qed.

Lemma lx_smooth_loop step step' j s s' :
  (forall k q q', lx_pair q q' -> lx_res lx_pair (step k q) (step' k q')) -> lx_pair s s' ->
  lx_res lx_pair (smooth_loop step j s) (smooth_loop step' j s').
Proof.
move=> Hstep; elim: j s s' => [|j IH] s s' Hs //=.
by apply: lx_bind; [exact: Hstep|exact: IH].
Qed.

Lemma lx_smooth_init T n e e' : lx_pair e e' -> lx_res lx_pair (smooth_init T n e) (smooth_init T n e').
Proof.
move=> [He1 He2]; have [Ha1 Ha2] := lx_alloc T n.
apply: lx_bind; first exact: lx_getitem He1.
move=> x x' Hx; apply: lx_bind; first by apply: lx_setitem Ha1 Hx.
move=> sx sx' Hsx; apply: lx_bind; first exact: lx_getitem He2.
move=> P P' HP; apply: lx_bind; first by apply: lx_setitem Ha2 HP.
by move=> sP sP' HsP; split.
Qed.

Lemma lx_smooth o o' Z U Z' U' : lx_kf o o' -> lx_arr Z Z' -> lx_opt ls_arr U U' ->
  lx_meth lx_pair (kf_smooth o Z U) (kf_smooth o' Z' U').
Proof.
move=> Ho HZ HU; have [[HA Hx HB HP] [HH HQ HR] Hn HI Hg] := Ho; rewrite /kf_smooth.
apply: lx_mbind; first exact: lx_filter.
move=> e e' He; apply: (lx_mbind (P := eq)); first by apply: lx_mlift; rewrite (lx_len HZ); apply: lx_refl.
move=> T _ <-; apply: lx_mbind; first by apply: lx_mlift; rewrite Hn; apply: lx_smooth_init.
move=> s s' Hs; apply: lx_mlift; apply: lx_smooth_loop => // k q q' Hq; have HU' := lx_check HU HZ.
have [He1 He2] := He.
apply: lx_bind; first exact: lx_getitem HA.
move=> A A' HAk; apply: lx_bind; first exact: lx_getitem HQ.
move=> Q Q' HQk; apply: lx_bind; first by apply: ls_getitem HB.
move=> B B' HBk; apply: lx_bind; first by apply: ls_getitem HU'.
move=> u u' Hu; apply: lx_bind; first exact: lx_getitem He2.
move=> P P' HPk; apply: lx_bind; first exact: lx_getitem He1.
move=> x x' Hxk; apply: lx_bind; first by apply: lx_predict.
by move=> ah ah' Hah; apply: lx_smooth_body.
Qed.

Inductive lx_call : call N1 -> call N2 -> Prop :=
| LPredict A x B u P Q A' x' B' u' P' Q' : lx_arr A A' -> lx_arr x x' -> lx_opt ls_arr B B' ->
    lx_opt ls_arr u u' -> lx_arr P P' -> lx_arr Q Q' ->
    lx_call (CPredict A x B u P Q) (CPredict A' x' B' u' P' Q')
| LUpdate H_ x P z R_ H_' x' P' z' R_' : lx_arr H_ H_' -> lx_arr x x' -> lx_arr P P' -> lx_arr z z' ->
    lx_arr R_ R_' -> lx_call (CUpdate H_ x P z R_) (CUpdate H_' x' P' z' R_')
| LFilter Z U Z' U' : lx_arr Z Z' -> lx_opt ls_arr U U' -> lx_call (CFilter Z U) (CFilter Z' U')
| LSmooth Z U Z' U' : lx_arr Z Z' -> lx_opt ls_arr U U' -> lx_call (CSmooth Z U) (CSmooth Z' U').

Lemma lx_kf_call o o' c c' : lx_kf o o' -> lx_call c c' -> (kf_call o c).2 <> Raise LinAlgError ->
  lx_kf (kf_call o c).1 (kf_call o' c').1 /\ lx_res lx_pair (kf_call o c).2 (kf_call o' c').2.
Proof.
move=> Ho Hc; have [H1 H2 H3 H4 H5] := Ho.
suff Hm : lx_meth lx_pair (run_meth c o) (run_meth c' o').
  have := Hm _ _ H5; rewrite /kf_call.
  by case: (run_meth c o _) => g r; case: (run_meth c' o' _) => g' r' /= h /h [Hg Hr].
case: Hc => *; [by apply: lx_mlift; apply: lx_predict|exact: lx_update|exact: lx_filter|exact: lx_smooth].
Qed.

Lemma lx_kf_calls o o' cs cs' : lx_kf o o' -> lx_seq lx_call cs cs' ->
  rel_seq (fun r _ => r <> Raise LinAlgError) (kf_calls o cs).2 (kf_calls o cs).2 ->
  lx_kf (kf_calls o cs).1 (kf_calls o' cs').1 /\
  lx_seq (lx_res lx_pair) (kf_calls o cs).2 (kf_calls o' cs').2.
Proof.
elim: cs cs' o o' => [|c cs IH] [|c' cs'] o o' Ho //= [Hc Hcs].
have := lx_kf_call Ho Hc; case: (kf_call o c) => o1 r; case: (kf_call o' c') => o1' r' /= h.
have := fun h => IH _ o1 o1' h Hcs; case: (kf_calls o1 cs) => o2 rs; case: (kf_calls o1' cs') => o2' rs' /= h2 [Hr Hrs].
by have [Ho1 Hr1] := h Hr; have [? ?] := h2 Ho1 Hrs; split.
Qed.

Lemma lx_init A x B P H_ Q R_ sz A' x' B' P' H_' Q' R_' : lx_arr A A' -> lx_arr x x' -> lx_opt ls_arr B B' ->
  lx_arr P P' -> lx_arr H_ H_' -> lx_arr Q Q' -> lx_arr R_ R_' ->
  lx_res lx_kf (kf_init A x B P H_ Q R_ sz) (kf_init A' x' B' P' H_' Q' R_' sz).
Proof.
move=> HA Hx HB HP HH HQ HR; rewrite /kf_init.
have HB' := lx_check HB HA; have [_ Es _ _] := Hx.
apply: (lx_bind (P := eq)).
  case: sz => [z|]; last by rewrite /shape0 Es; case: (shp x').
  by case: ifP => _; [rewrite /shape0 Es; case: (shp x')|case: ifP].
by move=> n _ <-; split=> //=; exact: lx_identity.
Qed.

(** ** ExtendedKalmanFilter: with callables that respect the relation *)
Definition lx_fun1 (f : arr N1 -> res (arr N1)) (f' : arr N2 -> res (arr N2)) : Prop :=
  forall x x', lx_arr x x' -> lx_res lx_arr (f x) (f' x').
Definition lx_fun2 (f : arr N1 -> option (arr N1) -> res (arr N1)) (f' : arr N2 -> option (arr N2) -> res (arr N2)) : Prop :=
  forall x u x' u', lx_arr x x' -> lx_opt ls_arr u u' -> lx_res lx_arr (f x u) (f' x' u').

Definition lx_ekf (o : ekf N1) (o' : ekf N2) : Prop :=
  [/\ [/\ lx_fun2 (e_f o) (e_f o'), lx_fun1 (e_h o) (e_h o'), lx_fun2 (e_jA o) (e_jA o') &
          lx_fun1 (e_jH o) (e_jH o')],
      [/\ lx_arr (e_xk o) (e_xk o'), lx_arr (e_Pk o) (e_Pk o'), lx_arr (e_Q o) (e_Q o') & lx_arr (e_R o) (e_R o')],
      e_size o = e_size o', lx_arr (e_I o) (e_I o') & lx_seq lx_arr (e_gains o) (e_gains o')].

Lemma lx_epredict o o' x u P Q x' u' P' Q' : lx_ekf o o' -> lx_arr x x' -> lx_opt ls_arr u u' ->
  lx_arr P P' -> lx_arr Q Q' -> lx_res lx_pair (ekf_predict o x u P Q) (ekf_predict o' x' u' P' Q').
Proof.
move=> [[Hf Hh HA HH] _ _ _ _] Hx Hu HP HQ; apply: lx_bind; first exact: HA.
move=> A A' HAk; apply: lx_bind; first exact: Hf.
move=> y y' Hy; apply: lx_bind; first exact: lx_project_cov.
by move=> S S' HS; split.
Qed.

Lemma lx_eupdate o o' x P z R_ x' P' z' R_' : lx_ekf o o' -> lx_arr x x' ->
  lx_arr P P' -> lx_arr z z' -> lx_arr R_ R_' ->
  lx_meth lx_pair (ekf_update o x P z R_) (ekf_update o' x' P' z' R_').
Proof.
move=> [[Hf Hh HA HH] _ _ HI _] Hx HP Hz HR; apply: lx_mbind; first by apply: lx_mlift; apply: HH.
move=> Hk Hk' HHk; apply: lx_mbind; first by apply: lx_mlift; apply: lx_project_cov.
move=> S S' HS; apply: lx_mbind; first by apply: lx_mlift; apply: lx_gain.
move=> K K' HK; apply: lx_mbind; first exact: lx_append.
move=> _ _ _; apply: lx_mbind; first by apply: lx_mlift; apply: Hh.
move=> y y' Hy; apply: lx_mbind; first by apply: lx_mlift; apply: lx_correct_state.
move=> d d' Hd; apply: lx_mbind; first by apply: lx_mlift; apply: lx_correct_cov.
by move=> e e' He; apply: (@lx_mret _ _ lx_pair (d, e) (d', e') (conj Hd He)).
Qed.

Definition lx_erow (s : erow N1) (s' : erow N2) : Prop :=
  [/\ ls_arr (eU s) (eU s'), lx_arr (eZ s) (eZ s'), lx_arr (eQ s) (eQ s') & lx_arr (eR s) (eR s')].

Lemma lx_zip4 u z q r u' z' q' r' : lx_seq ls_arr u u' -> lx_seq lx_arr z z' -> lx_seq lx_arr q q' ->
  lx_seq lx_arr r r' -> lx_seq lx_erow (zip4 u z q r) (zip4 u' z' q' r').
Proof.
elim: u z q r u' z' q' r' => [|? u IH] z q r [|? u'] z' q' r' //= [? ?].
case: z z' => [|? z] [|? z'] //= [? ?]; case: q q' => [|? q] [|? q'] //= [? ?].
case: r r' => [|? r] [|? r'] //= [? ?].
by split; [|apply: IH].
Qed.

Lemma lx_efilter o o' Z U Z' U' : lx_ekf o o' -> lx_arr Z Z' -> lx_opt ls_arr U U' ->
  lx_meth lx_pair (ekf_filter o Z U) (ekf_filter o' Z' U').
Proof.
move=> Ho HZ HU; have [_ [Hx HP HQ HR] Hn HI Hg] := Ho; rewrite /ekf_filter.
apply: (lx_mbind (P := eq)); first by apply: lx_mlift; rewrite (lx_len HZ); apply: lx_refl.
move=> T _ <-; have HU' := lx_check HU HZ.
apply: lx_mbind; first by apply: lx_mlift; apply: ls_iter HU'.
move=> u u' Hu; apply: lx_mbind; first by apply: lx_mlift; apply: lx_iter HZ.
move=> z z' Hz; apply: lx_mbind; first by apply: lx_mlift; apply: lx_iter HQ.
move=> q q' Hq; apply: lx_mbind; first by apply: lx_mlift; apply: lx_iter HR.
move=> r r' Hr; rewrite Hn; apply: (lx_loop (P := lx_erow)) => //; [|exact: lx_zip4|exact: lx_alloc].
move=> s s' p p' [H1 H2 H3 H4] [Hp1 Hp2]; rewrite /ekf_step.
apply: lx_mbind; first by apply: lx_mlift; apply: lx_epredict.
by move=> t t' [Ht1 Ht2]; apply: lx_eupdate.
Qed.

Lemma lx_esmooth o o' Z U Z' U' : lx_ekf o o' -> lx_arr Z Z' -> lx_opt ls_arr U U' ->
  lx_meth lx_pair (ekf_smooth o Z U) (ekf_smooth o' Z' U').
Proof.
move=> Ho HZ HU; have [[Hf Hh HA HH] [Hx HP HQ HR] Hn HI Hg] := Ho; rewrite /ekf_smooth.
apply: lx_mbind; first exact: lx_efilter.
move=> e e' He; apply: (lx_mbind (P := eq)); first by apply: lx_mlift; rewrite (lx_len HZ); apply: lx_refl.
move=> T _ <-; apply: lx_mbind; first by apply: lx_mlift; rewrite Hn; apply: lx_smooth_init.
move=> s s' Hs; apply: lx_mlift; apply: lx_smooth_loop => // k q q' Hq; have HU' := lx_check HU HZ.
have [He1 He2] := He; rewrite /ekf_smooth_step.
apply: lx_bind; first exact: lx_getitem HQ.
move=> Q Q' HQk; apply: lx_bind; first by apply: ls_getitem HU'.
move=> u u' Hu; apply: lx_bind; first exact: lx_getitem He2.
move=> P P' HPk; apply: lx_bind; first exact: lx_getitem He1.
move=> x x' Hxk; apply: lx_bind; first by apply: lx_epredict.
move=> ah ah' Hah; apply: lx_bind; first by apply: HA.
by move=> A A' HAk; apply: lx_smooth_body.
Qed.

Inductive lx_ecall : ecall N1 -> ecall N2 -> Prop :=
| LEPredict x u P Q x' u' P' Q' : lx_arr x x' -> lx_opt ls_arr u u' -> lx_arr P P' -> lx_arr Q Q' ->
    lx_ecall (EPredict x u P Q) (EPredict x' u' P' Q')
| LEUpdate x P z R_ x' P' z' R_' : lx_arr x x' -> lx_arr P P' -> lx_arr z z' ->
    lx_arr R_ R_' -> lx_ecall (EUpdate x P z R_) (EUpdate x' P' z' R_')
| LEFilter Z U Z' U' : lx_arr Z Z' -> lx_opt ls_arr U U' -> lx_ecall (EFilter Z U) (EFilter Z' U')
| LESmooth Z U Z' U' : lx_arr Z Z' -> lx_opt ls_arr U U' -> lx_ecall (ESmooth Z U) (ESmooth Z' U').

Lemma lx_e_call o o' c c' : lx_ekf o o' -> lx_ecall c c' -> (e_call o c).2 <> Raise LinAlgError ->
  lx_ekf (e_call o c).1 (e_call o' c').1 /\ lx_res lx_pair (e_call o c).2 (e_call o' c').2.
Proof.
move=> Ho Hc; have [H1 H2 H3 H4 H5] := Ho.
suff Hm : lx_meth lx_pair (e_run c o) (e_run c' o').
  have := Hm _ _ H5; rewrite /e_call.
  by case: (e_run c o _) => g r; case: (e_run c' o' _) => g' r' /= h /h [Hg Hr].
case: Hc => *; [by apply: lx_mlift; apply: lx_epredict|exact: lx_eupdate|exact: lx_efilter|exact: lx_esmooth].
Qed.

Lemma lx_e_calls o o' cs cs' : lx_ekf o o' -> lx_seq lx_ecall cs cs' ->
  rel_seq (fun r _ => r <> Raise LinAlgError) (e_calls o cs).2 (e_calls o cs).2 ->
  lx_ekf (e_calls o cs).1 (e_calls o' cs').1 /\
  lx_seq (lx_res lx_pair) (e_calls o cs).2 (e_calls o' cs').2.
Proof.
elim: cs cs' o o' => [|c cs IH] [|c' cs'] o o' Ho //= [Hc Hcs].
have := lx_e_call Ho Hc; case: (e_call o c) => o1 r; case: (e_call o' c') => o1' r' /= h.
have := fun h => IH _ o1 o1' h Hcs; case: (e_calls o1 cs) => o2 rs; case: (e_calls o1' cs') => o2' rs' /= h2 [Hr Hrs].
by have [Ho1 Hr1] := h Hr; have [? ?] := h2 Ho1 Hrs; split.
Qed.

Lemma lx_einit x P Q R_ f h jA jH x' P' Q' R_' f' h' jA' jH' : lx_arr x x' -> lx_arr P P' -> lx_arr Q Q' ->
  lx_arr R_ R_' -> lx_fun2 f f' -> lx_fun1 h h' -> lx_fun2 jA jA' -> lx_fun1 jH jH' ->
  lx_res lx_ekf (ekf_init x P Q R_ f h jA jH) (ekf_init x' P' Q' R_' f' h' jA' jH').
Proof.
move=> Hx HP HQ HR Hf Hh HA HH; have [_ Es _ _] := Hx; rewrite /ekf_init /shape0 Es.
by case: (shp x') => //= n _; split=> //=; exact: lx_identity.
Qed.
End Lax.
