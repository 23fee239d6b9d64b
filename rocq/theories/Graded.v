(** * Graded: quantities with a unit

    Every array of a run has a grade (a power of some unit, or a parity): the
    states a, the observations b, the inputs c; hence A: 0, H: b-a, B: a-c,
    Pk and Q: 2a, R: 2b, gains: a-b.  If the operations of two arithmetics
    respect a family of relations R g (product: grades add; division: they
    subtract; sums: same grade), the whole library does. *)
From Coq Require Import ZArith Lia.
From mathcomp Require Import ssreflect ssrfun ssrbool eqtype ssrnat seq.
From Verif Require Import Np NpLemmas Kf Ekf Param.

Set Implicit Arguments.
Unset Strict Implicit.
Unset Printing Implicit Defensive.
Arguments Z.of_nat : simpl never.

Section Graded.
Variables (N1 N2 : num) (R : Z -> K N1 -> K N2 -> Prop) (ig : Z -> bool).

Notation rlist g := (rel_list (R g)).

(** Integers have grade g only if ig g; zero has every grade. *)
Inductive gr_scal (g : Z) : scal N1 -> scal N2 -> Prop :=
| GrI z : ig g \/ z = 0%Z -> gr_scal g (VI z) (VI z)
| GrF x y : R g x y -> gr_scal g (VF x) (VF y).

Definition gr_arr (g : Z) (a : arr N1) (b : arr N2) : Prop :=
  [/\ dt a = dt b, shp a = shp b, size (dat a) = size (dat b) &
      forall i, gr_scal g (nth (VI 0) (dat a) i) (nth (VI 0) (dat b) i)].

Definition gr_pair (g h : Z) (p : arr N1 * arr N1) (q : arr N2 * arr N2) : Prop :=
  gr_arr g p.1 q.1 /\ gr_arr h p.2 q.2.

(** The operations respect the grades. *)
Record gagree : Prop := GAgree {
  gg_0 : forall g, R g (kofZ N1 0) (kofZ N2 0);
  gg_ofZ : forall g z, ig g -> R g (kofZ N1 z) (kofZ N2 z);
  gg_ig0 : ig 0%Z;
  gg_igD : forall g h, ig g -> ig h -> ig (g + h)%Z;
  gg_nan : forall g, R g (knan N1) (knan N2);
  gg_isnan : forall g x y, R g x y -> kisnan x = kisnan y;
  gg_add : forall g x y x' y', R g x x' -> R g y y' -> R g (kadd x y) (kadd x' y');
  gg_sub : forall g x y x' y', R g x x' -> R g y y' -> R g (ksub x y) (ksub x' y');
  gg_mm : forall g h kd m k n a b a' b' i j, size a = m * k -> size b = k * n -> rlist g a a' -> rlist h b b' ->
    i < m -> j < n -> R (g + h)%Z (kmm kd m k n a b i j) (kmm kd m k n a' b' i j);
  gg_solve : forall g h n r a b a' b', size a = n * n -> size b = n * r -> rlist g a a' -> rlist h b b' ->
    rel_opt (fun f f' => forall i j, i < n -> j < r -> R (h - g)%Z (f i j) (f' i j)) (ksolve n r a b) (ksolve n r a' b');
  gg_n2i : knan2int N1 = knan2int N2
}.
Hypothesis H : gagree.

Lemma gr_eq g h a b : g = h -> gr_arr g a b -> gr_arr h a b. Proof. by move=> ->. Qed.
Lemma GrI0 g : gr_scal g (VI 0) (VI 0). Proof. by apply: GrI; right. Qed.

(** ** numpy *)
Lemma gr_tofl g v w : gr_scal g v w -> R g (tofl v) (tofl w).
Proof. by case=> [z [Hz| ->]|x y] //=; [apply: (gg_ofZ H)|apply: (gg_0 H)]. Qed.
Lemma gr_get g a b ix : gr_arr g a b -> gr_scal g (get a ix) (get b ix).
Proof. by case=> _ Es _ Hn; rewrite /get Es. Qed.

Lemma gr_map g (s : seq (seq nat)) (f : seq nat -> scal N1) f' i :
  (forall ix, ix \in s -> gr_scal g (f ix) (f' ix)) ->
  gr_scal g (nth (VI 0) [seq f ix | ix <- s] i) (nth (VI 0) [seq f' ix | ix <- s] i).
Proof.
move=> Hs; case: (ltnP i (size s)) => Hi; last by rewrite !nth_default ?size_map //; exact: GrI0.
by rewrite !(nth_map [::]) //; apply: Hs; rewrite mem_nth.
Qed.

Lemma gr_mk g d sh f f' : (forall ix, ix \in indices sh -> gr_scal g (f ix) (f' ix)) ->
  gr_arr g (mk d sh f) (mk d sh f').
Proof. by move=> Hf; split=> //=; [rewrite !size_map|move=> i; apply: gr_map]. Qed.

Lemma gr_zeros g sh : gr_arr g (np_zeros N1 sh) (np_zeros N2 sh).
Proof. by apply: gr_mk => ix _; apply: GrF; apply: (gg_0 H). Qed.
Lemma gr_identity n : gr_arr 0%Z (np_identity N1 n) (np_identity N2 n).
Proof. by apply: gr_mk => ix _; apply: GrF; case: eqP => _; apply: (gg_ofZ H); exact: (gg_ig0 H). Qed.

(** A placeholder has every grade, if it can hold NaN. *)
Lemma gr_full g h a b : gr_arr g a b -> dt a = DFloat \/ ig h -> gr_arr h (np_full_like_nan a) (np_full_like_nan b).
Proof.
case=> Ed Es _ _ Hh; rewrite /np_full_like_nan -Ed Es; split=> //=; first by rewrite !size_nseq.
move=> i; rewrite !nth_nseq; case: ifP => _; last exact: GrI0.
move: Hh; case: (dt a); last by move=> _; apply: GrF; apply: (gg_nan H).
by move=> [//|Hh]; rewrite (gg_n2i H); apply: GrI; left.
Qed.

Lemma gr_snan g v w : gr_scal g v w -> snan v = snan w.
Proof. by case=> //= x y Hxy; apply: (gg_isnan H Hxy). Qed.
Lemma gr_isnan_all g a b : gr_arr g a b -> np_isnan_all a = np_isnan_all b.
Proof.
case=> _ _ Es Hn; rewrite /np_isnan_all.
apply/(all_nthP (VI 0))/(all_nthP (VI 0)) => Hall i Hi.
  by rewrite -(gr_snan (Hn i)); apply: Hall; rewrite Es.
by rewrite (gr_snan (Hn i)); apply: Hall; rewrite -Es.
Qed.

Lemma gr_T g a b : gr_arr g a b -> gr_arr g (np_T a) (np_T b).
Proof.
by move=> Hab; have [Ed Es _ _] := Hab; rewrite /np_T Ed Es; apply: gr_mk => ix _; apply: gr_get.
Qed.
Lemma gr_reshape g a b sh : gr_arr g a b -> gr_arr g (reshape a sh) (reshape b sh).
Proof. by case=> Ed _ Es Hn; split. Qed.
Lemma gr_atleast g a b : gr_arr g a b -> gr_arr g (np_atleast_1d a) (np_atleast_1d b).
Proof. by move=> Hab; have [Ed Es Ez Hn] := Hab; rewrite /np_atleast_1d -Es; case: (shp a). Qed.

Lemma gr_bin g fz f1 f2 a b a' b' :
  (forall x y, ig g \/ x = 0%Z -> ig g \/ y = 0%Z -> ig g \/ wrap64 (fz x y) = 0%Z) ->
  (forall x y x' y', R g x x' -> R g y y' -> R g (f1 x y) (f2 x' y')) ->
  gr_arr g a a' -> gr_arr g b b' -> rel_res (gr_arr g) (np_bin fz f1 a b) (np_bin fz f2 a' b').
Proof.
move=> Hz Hf Ha Hb; have [Ed Es _ _] := Ha; have [Ed' Es' _ _] := Hb.
rewrite /np_bin Ed Es Ed' Es'; case: (bshape _ _) => [sh|] //; apply: gr_mk => ix _.
have := gr_get (bidx (shp a') ix) Ha; have := gr_get (bidx (shp b') ix) Hb.
move: (get a _) (get a' _) (get b _) (get b' _) => v v' w w' Hw Hv.
have Lv := gr_tofl Hv; have Lw := gr_tofl Hw.
case: Hv Lv => [z Hz1|x x' Hx] Lv; case: Hw Lw => [z' Hz2|y y' Hy] Lw /=; last 3 first.
- by apply: GrF; apply: Hf.
- by apply: GrF; apply: Hf.
- by apply: GrF; apply: Hf.
by apply: GrI; apply: Hz.
Qed.
Lemma gr_add g a b a' b' : gr_arr g a a' -> gr_arr g b b' -> rel_res (gr_arr g) (np_add a b) (np_add a' b').
Proof.
apply: gr_bin; last exact: (gg_add H).
by move=> x y [Hx _|->]; [left|move=> [Hy| ->]; [left|right]].
Qed.
Lemma gr_sub g a b a' b' : gr_arr g a a' -> gr_arr g b b' -> rel_res (gr_arr g) (np_sub a b) (np_sub a' b').
Proof.
apply: gr_bin; last exact: (gg_sub H).
by move=> x y [Hx _|->]; [left|move=> [Hy| ->]; [left|right]].
Qed.

Lemma gr_mat g a a' bix r c : gr_arr g a a' ->
  size (mat_at a bix r c) = r * c /\ forall i, gr_scal g (nth (VI 0) (mat_at a bix r c) i) (nth (VI 0) (mat_at a' bix r c) i).
Proof.
move=> Ha; rewrite /mat_at.
have E (N : num) (x : arr N) : [seq get x (bix ++ [:: i; j]) | i <- iota 0 r, j <- iota 0 c] =
    [seq get x (bix ++ ix) | ix <- [seq [:: i; j] | i <- iota 0 r, j <- iota 0 c]].
  by rewrite map_allpairs.
rewrite (E N1) (E N2); split; first by rewrite size_map size_allpairs !size_iota.
by move=> i; apply: gr_map => ix _; apply: gr_get.
Qed.

Lemma gr_mat_list g a a' bix r c : gr_arr g a a' ->
  size (map (@tofl N1) (mat_at a bix r c)) = r * c /\
  rlist g (map (@tofl N1) (mat_at a bix r c)) (map (@tofl N2) (mat_at a' bix r c)).
Proof.
move=> Ha; have [Hs Hn] := gr_mat bix r c Ha.
have Hs' : size (mat_at a' bix r c) = r * c by rewrite /mat_at size_allpairs !size_iota.
split; first by rewrite size_map.
split; first by rewrite !size_map Hs Hs'.
move=> i; rewrite size_map => Hi; rewrite !(nth_map (VI 0)) ?Hs' -?Hs //; exact: gr_tofl.
Qed.

Lemma gr_mat_Z g a a' bix r c : gr_arr g a a' ->
  map (@toZ N1) (mat_at a bix r c) = map (@toZ N2) (mat_at a' bix r c) /\
  (ig g \/ forall i, nth 0%Z (map (@toZ N1) (mat_at a bix r c)) i = 0%Z).
Proof.
move=> Ha; have [Hs Hn] := gr_mat bix r c Ha.
have Hs' : size (mat_at a' bix r c) = r * c by rewrite /mat_at size_allpairs !size_iota.
split.
  apply: (@eq_from_nth _ 0%Z); first by rewrite !size_map Hs Hs'.
  move=> i; rewrite size_map => Hi; rewrite !(nth_map (VI 0)) ?Hs' -?Hs //.
  by case: (Hn i).
case E : (ig g); [by left|right=> i].
case: (ltnP i (r * c)) => Hi; last by rewrite nth_default // size_map Hs.
rewrite (nth_map (VI 0)) ?Hs //; case: (Hn i) => [z [|->]|x y _] //; by rewrite E.
Qed.

Lemma zdot0 k n a b i j : (forall l, nth 0%Z a l = 0%Z) \/ (forall l, nth 0%Z b l = 0%Z) -> zdot k n a b i j = 0%Z.
Proof.
by move=> Hab; rewrite /zdot; elim: (iota 0 k) => //= l s ->; case: Hab => ->; rewrite ?Z.mul_0_r.
Qed.

Lemma gr_mm_int g h x y x' y' bi bj m k n i j : gr_arr g x x' -> gr_arr h y y' ->
  gr_scal (g + h)%Z (VI (wrap64 (zdot k n (map (@toZ N1) (mat_at x bi m k)) (map (@toZ N1) (mat_at y bj k n)) i j)))
    (VI (wrap64 (zdot k n (map (@toZ N2) (mat_at x' bi m k)) (map (@toZ N2) (mat_at y' bj k n)) i j))).
Proof.
move=> Hx Hy; have [<- Zx] := gr_mat_Z bi m k Hx; have [<- Zy] := gr_mat_Z bj k n Hy.
apply: GrI; case: Zx => [Ix|Zx]; last by right; rewrite zdot0 //; left.
case: Zy => [Iy|Zy]; last by right; rewrite zdot0 //; right.
by left; apply: (gg_igD H).
Qed.

Lemma gr_matmul g h a b a' b' : gr_arr g a a' -> gr_arr h b b' ->
  rel_res (gr_arr (g + h)%Z) (np_matmul a b) (np_matmul a' b').
Proof.
move=> Ha Hb; have [Ed Es _ _] := Ha; have [Ed' Es' _ _] := Hb.
rewrite /np_matmul Ed Es Ed' Es'; case: (shp a') => [|da sa] //; case: (shp b') => [|db sb] //.
case: ifP => // _; case: (bshape _ _) => [bs|] //.
apply: gr_reshape; apply: gr_mk => ix /valid_last2 [Hi Hj].
rewrite /mm_entry; case: (promote _ _).
  exact: gr_mm_int (gr_reshape _ Ha) (gr_reshape _ Hb).
apply: GrF; apply: (gg_mm H) => //.
- exact: (proj1 (gr_mat_list _ _ _ (gr_reshape _ Ha))).
- exact: (proj1 (gr_mat_list _ _ _ (gr_reshape _ Hb))).
- exact: (proj2 (gr_mat_list _ _ _ (gr_reshape _ Ha))).
exact: (proj2 (gr_mat_list _ _ _ (gr_reshape _ Hb))).
Qed.

Lemma gr_solve g h a b a' b' : gr_arr g a a' -> gr_arr h b b' ->
  rel_res (gr_arr (h - g)%Z) (np_solve a b) (np_solve a' b').
Proof.
move=> Ha Hb; have [Ed Es _ _] := Ha; have [Ed' Es' _ _] := Hb.
rewrite /np_solve Es Es'; case: ifP => // _; case: ifP => // _; case: ifP => // _; case: ifP => // _.
case: (bshape _ _) => [bs|] //.
set n := nth 0 (shp a') _; set sb := if _ then _ else shp b'; set r := nth 0 sb (size sb - 1).
set ba := take _ (shp a'); set bb := take _ sb.
have Hsol bix : rel_opt (fun f f' => forall i j, i < n -> j < r -> R (h - g)%Z (f i j) (f' i j))
    (ksolve n r (map (@tofl N1) (mat_at a (bidx ba bix) n n)) (map (@tofl N1) (mat_at (reshape b sb) (bidx bb bix) n r)))
    (ksolve n r (map (@tofl N2) (mat_at a' (bidx ba bix) n n)) (map (@tofl N2) (mat_at (reshape b' sb) (bidx bb bix) n r))).
  have [S1 L1] := gr_mat_list (bidx ba bix) n n Ha.
  have [S2 L2] := gr_mat_list (bidx bb bix) n r (gr_reshape sb Hb).
  by apply: (gg_solve H).
rewrite (@eq_all _ _ (fun bix => isSome (ksolve n r (map (@tofl N2) (mat_at a' (bidx ba bix) n n))
    (map (@tofl N2) (mat_at (reshape b' sb) (bidx bb bix) n r))))); last first.
  by move=> bix /=; have := Hsol bix; case: (ksolve _ _ _ _) => [f|]; case: (ksolve _ _ _ _).
case: ifP => // _; apply: gr_reshape; apply: gr_mk => ix /valid_last2 [Hi Hj]; apply: GrF.
have := Hsol (take (size bs) ix); case: (ksolve _ _ _ _) => [f|]; case: (ksolve _ _ _ _) => [f'|] //=.
  by apply.
by move=> _; apply: (gg_nan H).
Qed.

Lemma gr_row g a b k : gr_arr g a b -> gr_arr g (row a k) (row b k).
Proof.
case=> Ed Es Ez Hn; rewrite /row Ed Es; split=> //=; first by rewrite !size_take !size_drop Ez.
move=> i; case: (ltnP i (nelem (behead (shp b)))) => Hi; first by rewrite !nth_take // !nth_drop.
by rewrite !nth_default ?size_take ?size_drop; try exact: GrI0; case: ltnP => // h; apply: leq_trans h _.
Qed.

Lemma gr_getitem g a b k : gr_arr g a b -> rel_res (gr_arr g) (np_getitem a k) (np_getitem b k).
Proof.
move=> Hab; have [_ Es _ _] := Hab; rewrite /np_getitem /np_pos Es.
case: (shp b) => [|d sh] //=; case: ifP => //= _; exact: gr_row.
Qed.

Lemma gr_setitem g a b k v w : gr_arr g a b -> gr_arr g v w -> rel_res (gr_arr g) (np_setitem a k v) (np_setitem b k w).
Proof.
move=> Hab Hvw; have [Ed Es Ez Hn] := Hab; have [_ Es' _ _] := Hvw.
rewrite /np_setitem /np_pos Es Es' Ed; case: (shp b) => [|d sh] //=; case: ifP => //= _; case: ifP => // _.
set src := strip_ones _ _; set i := Z.to_nat _.
have Hnew j : gr_scal g (nth (VI 0) [seq VF (tofl (get (reshape v src) (bidx src ix))) | ix <- indices sh] j)
    (nth (VI 0) [seq VF (tofl (get (reshape w src) (bidx src ix))) | ix <- indices sh] j).
  by apply: gr_map => ix _; apply: GrF; apply: gr_tofl; apply: gr_get; apply: gr_reshape.
split=> //=; first by rewrite !size_cat !size_take !size_drop !size_map Ez.
move=> j; rewrite !nth_cat !size_take !size_map Ez; case: ifP => Hj.
  have Hj' : j < i * nelem sh by apply: leq_trans Hj _; case: (ltnP (i * nelem sh) (size (dat b))).
  by rewrite !nth_take.
by case: ifP => _; [exact: Hnew|rewrite !nth_drop].
Qed.

Lemma gr_len g a b : gr_arr g a b -> np_len a = np_len b.
Proof. by case=> _ Es _ _; rewrite /np_len Es. Qed.
Lemma gr_iter g a b : gr_arr g a b -> rel_res (rel_seq (gr_arr g)) (np_iter a) (np_iter b).
Proof.
move=> Hab; have [_ Es _ _] := Hab; rewrite /np_iter Es; case: (shp b) => //= d _.
by elim: (iota 0 d) => //= k s IH; split=> //; apply: gr_row.
Qed.

(** ** The library: states of grade a, observations of grade b, inputs of grade c *)
Variables a b c : Z.
Notation rA := (gr_arr 0%Z).
Notation rx := (gr_arr a).
Notation rP := (gr_arr (a + a)%Z).
Notation rz := (gr_arr b).
Notation rR := (gr_arr (b + b)%Z).
Notation ru := (gr_arr c).
Notation rB := (gr_arr (a - c)%Z).
Notation rH := (gr_arr (b - a)%Z).
Notation rK := (gr_arr (a - b)%Z).
Notation rxP := (gr_pair a (a + a)%Z).

Definition gr_meth S1 S2 (P : S1 -> S2 -> Prop) (m : meth N1 S1) (m' : meth N2 S2) : Prop :=
  forall g g', rel_seq rK g g' -> rel_seq rK (m g).1 (m' g').1 /\ rel_res P (m g).2 (m' g').2.

Lemma gr_mbind S1 S2 T1 T2 (P : S1 -> S2 -> Prop) (Q : T1 -> T2 -> Prop) m m' f f' :
  gr_meth P m m' -> (forall x y, P x y -> gr_meth Q (f x) (f' y)) -> gr_meth Q (mbind m f) (mbind m' f').
Proof.
move=> Hm Hf g g' /Hm; rewrite /mbind.
case: (m g) => g1 [x|e]; case: (m' g') => g1' [y|e'] [] //= Hg Hx; exact: Hf.
Qed.
Lemma gr_mlift S1 S2 (P : S1 -> S2 -> Prop) r r' : rel_res P r r' -> gr_meth P (mlift r) (mlift r').
Proof. by move=> Hr g g' Hg. Qed.
Lemma gr_mret S1 S2 (P : S1 -> S2 -> Prop) x y : P x y -> gr_meth P (mret x) (mret y).
Proof. by move=> Hr g g' Hg. Qed.
Lemma gr_append x y : rK x y -> gr_meth (fun _ _ => True) (append_gain x) (append_gain y).
Proof. by move=> Hxy g g' Hg; split=> //=; apply: rel_rcons. Qed.

Lemma gr_check g h x y u v : rel_opt (gr_arr h) u v -> gr_arr g x y -> (u = None -> dt x = DFloat \/ ig h) ->
  gr_arr h (check_none_and_broadcast u x) (check_none_and_broadcast v y).
Proof. by case: u => [?|]; case: v => [?|] //= _ Hx Hd; apply: (gr_full Hx); apply: Hd. Qed.

Lemma gr_is_nan g u v : rel_opt (gr_arr g) u v -> rel_res eq (is_nan_all u) (is_nan_all v).
Proof. by case: u => [x|]; case: v => [y|] //=; apply: gr_isnan_all. Qed.

(** Products, with the grade of the result given. *)
Lemma gr_mul g h k x y x' y' : (g + h)%Z = k -> gr_arr g x x' -> gr_arr h y y' ->
  rel_res (gr_arr k) (np_matmul x y) (np_matmul x' y').
Proof. by move=> <-; exact: gr_matmul. Qed.
Lemma gr_div g h k x y x' y' : (h - g)%Z = k -> gr_arr g x x' -> gr_arr h y y' ->
  rel_res (gr_arr k) (np_solve x y) (np_solve x' y').
Proof. by move=> <-; exact: gr_solve. Qed.

Lemma gr_project_state A x B u A' x' B' u' : rA A A' -> rx x x' -> rel_opt rB B B' ->
  rel_opt ru u u' -> rel_res rx (@project_state N1 A x B u) (@project_state N2 A' x' B' u').
Proof.
move=> HA Hx HB Hu; rewrite /project_state.
apply: (rel_bind (P := eq)); first exact: gr_is_nan HB.
move=> bn _ <-; apply: (rel_bind (P := eq)); first by case: bn => //; apply: gr_is_nan Hu.
move=> s _ <-; case: s; first exact: gr_mul HA Hx.
apply: rel_bind; first exact: (gr_mul (k := a) _ HA Hx).
move=> Ax Ax' HAx; case: B B' HB => [B|] [B'|] //= HB; case: u u' Hu => [u|] [u'|] //= Hu.
apply: (rel_bind (P := rx)); first by apply: (gr_mul _ HB Hu); lia.
by move=> Bu Bu' HBu; apply: gr_add.
Qed.

(** M P M' + Q for M of grade g. *)
Lemma gr_project_cov g M P Q M' P' Q' : gr_arr g M M' -> rP P P' -> gr_arr (a + a + g + g)%Z Q Q' ->
  rel_res (gr_arr (a + a + g + g)%Z) (project_cov M P Q) (project_cov M' P' Q').
Proof.
move=> HA HP HQ; apply: (rel_bind (P := gr_arr (a + a + g)%Z)); first by apply: (gr_mul _ HP (gr_T HA)); lia.
move=> X X' HX; apply: (rel_bind (P := gr_arr (a + a + g + g)%Z)); first by apply: (gr_mul _ HA HX); lia.
by move=> Y Y' HY; apply: gr_add.
Qed.
Lemma gr_project_A A P Q A' P' Q' : rA A A' -> rP P P' -> rP Q Q' ->
  rel_res rP (project_cov A P Q) (project_cov A' P' Q').
Proof.
move=> HA HP HQ; have E : (a + a + 0 + 0 = a + a)%Z by lia.
by have := @gr_project_cov 0%Z A P Q A' P' Q' HA HP; rewrite E; apply.
Qed.
Lemma gr_project_H A P Q A' P' Q' : rH A A' -> rP P P' -> rR Q Q' ->
  rel_res rR (project_cov A P Q) (project_cov A' P' Q').
Proof.
move=> HA HP HQ; have E : (a + a + (b - a) + (b - a) = b + b)%Z by lia.
by have := @gr_project_cov (b - a)%Z A P Q A' P' Q' HA HP; rewrite E; apply.
Qed.

Lemma gr_predict A x B u P Q A' x' B' u' P' Q' : rA A A' -> rx x x' -> rel_opt rB B B' ->
  rel_opt ru u u' -> rP P P' -> rP Q Q' ->
  rel_res rxP (kf_predict A x B u P Q) (kf_predict A' x' B' u' P' Q').
Proof.
move=> HA Hx HB Hu HP HQ; apply: rel_bind; first by apply: gr_project_state HA Hx HB Hu.
move=> y y' Hy; apply: rel_bind; first by apply: gr_project_A HA HP HQ.
by move=> S S' HS; split.
Qed.

Lemma gr_gain S H_ P S' H_' P' : rR S S' -> rH H_ H_' -> rP P P' ->
  rel_res rK (gain S H_ P) (gain S' H_' P').
Proof.
move=> HS HH HP; apply: (rel_bind (P := gr_arr (a + b)%Z)); first by apply: (gr_mul _ HH (gr_T HP)); lia.
move=> X X' HX; apply: (rel_bind (P := rK)); first by apply: (gr_div _ (gr_T HS) HX); lia.
by move=> Y Y' HY; apply: gr_T.
Qed.

Lemma gr_correct_state x K z y x' K' z' y' : rx x x' -> rK K K' -> rz z z' -> rz y y' ->
  rel_res rx (correct_state x K z y) (correct_state x' K' z' y').
Proof.
move=> Hx HK Hz Hy; apply: (rel_bind (P := rz)); first exact: gr_sub.
move=> d d' Hd; apply: (rel_bind (P := rx)); first by apply: (gr_mul _ HK (gr_atleast Hd)); lia.
by move=> e e' He; apply: gr_add.
Qed.

Lemma gr_correct_cov I K H_ P I' K' H_' P' : rA I I' -> rK K K' -> rH H_ H_' -> rP P P' ->
  rel_res rP (correct_cov I K H_ P) (correct_cov I' K' H_' P').
Proof.
move=> HI HK HH HP; apply: (rel_bind (P := rA)); first by apply: (gr_mul _ HK HH); lia.
move=> d d' Hd; apply: (rel_bind (P := rA)); first exact: gr_sub.
by move=> e e' He; apply: (gr_mul _ He HP); lia.
Qed.

Lemma gr_update I H_ x P z R_ I' H_' x' P' z' R_' : rA I I' -> rH H_ H_' -> rx x x' ->
  rP P P' -> rz z z' -> rR R_ R_' ->
  gr_meth rxP (kf_update I H_ x P z R_) (kf_update I' H_' x' P' z' R_').
Proof.
move=> HI HH Hx HP Hz HR; apply: gr_mbind; first by apply: gr_mlift; apply: gr_project_H HH HP HR.
move=> S S' HS; apply: gr_mbind; first by apply: gr_mlift; apply: gr_gain HS HH HP.
move=> K K' HK; apply: gr_mbind; first exact: gr_append.
move=> _ _ _; apply: (gr_mbind (P := rz)); first by apply: gr_mlift; apply: (gr_mul _ HH Hx); lia.
move=> y y' Hy; apply: gr_mbind; first by apply: gr_mlift; apply: gr_correct_state Hx HK Hz Hy.
move=> d d' Hd; apply: gr_mbind; first by apply: gr_mlift; apply: gr_correct_cov HI HK HH HP.
by move=> e e' He; apply: (@gr_mret _ _ rxP (d, e) (d', e') (conj Hd He)).
Qed.

Lemma gr_store o k p o' p' : rxP o o' -> rxP p p' ->
  rel_res rxP (store o k p) (store o' k p').
Proof.
move=> [H1 H2] [H3 H4]; apply: rel_bind; first exact: gr_setitem H1 H3.
move=> x x' Hx; apply: rel_bind; first exact: gr_setitem H2 H4.
by move=> y y' Hy; split.
Qed.

Lemma gr_loop S1 S2 (P : S1 -> S2 -> Prop) step step' rows rows' k p o p' o' :
  (forall s s' q q', P s s' -> rxP q q' -> gr_meth rxP (step s q) (step' s' q')) ->
  rel_seq P rows rows' -> rxP p p' -> rxP o o' ->
  gr_meth rxP (filter_loop step rows k p o) (filter_loop step' rows' k p' o').
Proof.
move=> Hstep; elim: rows rows' k p o p' o' => [|s rows IH] [|s' rows'] k p o p' o' //=.
move=> [Hs Hrows] Hp Ho; apply: gr_mbind; first exact: Hstep Hs Hp.
move=> q q' Hq; apply: gr_mbind; first by apply: gr_mlift; apply: gr_store Ho Hq.
by move=> t t' Ht; apply: IH.
Qed.

Lemma gr_alloc T n : rxP (alloc N1 T n) (alloc N2 T n).
Proof. by split; apply: gr_zeros. Qed.

Definition gr_srow (s : srow N1) (s' : srow N2) : Prop :=
  [/\ rA (Kf.rA s) (Kf.rA s'), rH (Kf.rH s) (Kf.rH s'), rB (Kf.rB s) (Kf.rB s'), ru (rU s) (rU s') &
      [/\ rz (rZ s) (rZ s'), rP (rQ s) (rQ s') & rR (Kf.rR s) (Kf.rR s')]].

Lemma gr_zip7 sa h sb u z q r sa' h' sb' u' z' q' r' : rel_seq rA sa sa' -> rel_seq rH h h' ->
  rel_seq rB sb sb' -> rel_seq ru u u' -> rel_seq rz z z' -> rel_seq rP q q' ->
  rel_seq rR r r' -> rel_seq gr_srow (zip7 sa h sb u z q r) (zip7 sa' h' sb' u' z' q' r').
Proof.
elim: sa h sb u z q r sa' h' sb' u' z' q' r' => [|? sa IH] h sb u z q r [|? sa'] h' sb' u' z' q' r' //= [? ?].
case: h h' => [|? h] [|? h'] //= [? ?]; case: sb sb' => [|? sb] [|? sb'] //= [? ?].
case: u u' => [|? u] [|? u'] //= [? ?]; case: z z' => [|? z] [|? z'] //= [? ?].
case: q q' => [|? q] [|? q'] //= [? ?]; case: r r' => [|? r] [|? r'] //= [? ?].
by split; [|apply: IH].
Qed.

Definition gr_kf (o : kf N1) (o' : kf N2) : Prop :=
  [/\ [/\ rA (kf_A o) (kf_A o'), rx (kf_xk o) (kf_xk o'), rB (kf_B o) (kf_B o') &
          rP (kf_Pk o) (kf_Pk o')],
      [/\ rH (kf_H o) (kf_H o'), rP (kf_Q o) (kf_Q o') & rR (kf_R o) (kf_R o')],
      kf_size o = kf_size o', rA (kf_I o) (kf_I o') & rel_seq rK (kf_gains o) (kf_gains o')].

(** A missing U needs a place for NaN (or a grade integers may have). *)
Definition holds_nan (U : option (arr N1)) (Z : arr N1) : Prop := U = None -> dt Z = DFloat \/ ig c.

Lemma gr_filter o o' Z U Z' U' : gr_kf o o' -> rz Z Z' -> rel_opt ru U U' -> holds_nan U Z ->
  gr_meth rxP (kf_filter o Z U) (kf_filter o' Z' U').
Proof.
move=> [[HA Hx HB HP] [HH HQ HR] Hn HI Hg] HZ HU Hh; rewrite /kf_filter.
apply: (gr_mbind (P := eq)); first by apply: gr_mlift; rewrite (gr_len HZ); case: (np_len Z').
move=> T _ <-; have HU' := gr_check HU HZ Hh.
apply: gr_mbind; first by apply: gr_mlift; apply: gr_iter HA.
move=> ? ? Ha; apply: gr_mbind; first by apply: gr_mlift; apply: gr_iter HH.
move=> h h' Hhh; apply: gr_mbind; first by apply: gr_mlift; apply: gr_iter HB.
move=> ? ? Hb; apply: gr_mbind; first by apply: gr_mlift; apply: gr_iter HU'.
move=> u u' Hu; apply: gr_mbind; first by apply: gr_mlift; apply: gr_iter HZ.
move=> z z' Hz; apply: gr_mbind; first by apply: gr_mlift; apply: gr_iter HQ.
move=> q q' Hq; apply: gr_mbind; first by apply: gr_mlift; apply: gr_iter HR.
move=> r r' Hr; rewrite Hn; apply: (gr_loop (P := gr_srow)) => //; [|exact: gr_zip7|exact: gr_alloc].
move=> s s' p p' [H1 H2 H3 H4 [H5 H6 H7]] [Hp1 Hp2]; rewrite /kf_step.
apply: gr_mbind; first by apply: gr_mlift; apply: gr_predict.
by move=> t t' [Ht1 Ht2]; apply: gr_update.
Qed.

Lemma gr_smooth_body e s k ah A e' s' ah' A' : rxP e e' -> rxP s s' -> rxP ah ah' -> rA A A' ->
  rel_res rxP (smooth_body e s k ah A) (smooth_body e' s' k ah' A').
Proof.
move=> [He1 He2] [Hs1 Hs2] [Ha1 Ha2] HA.
apply: rel_bind; first exact: gr_getitem He2.
move=> P P' HP; apply: rel_bind; first exact: gr_getitem He1.
move=> x x' Hx; apply: (rel_bind (P := rA)).
  apply: (rel_bind (P := rP)); first by apply: (gr_mul _ HP (gr_T HA)); lia.
  move=> X X' HX; apply: (rel_bind (P := rA)); first by apply: (gr_div _ (gr_T Ha2) (gr_T HX)); lia.
  by move=> Y Y' HY; apply: gr_T.
move=> G G' HG; apply: rel_bind; first exact: gr_getitem Hs1.
move=> x1 x1' Hx1; apply: (rel_bind (P := rx)).
  apply: (rel_bind (P := rx)); first exact: gr_sub.
  move=> X X' HX; apply: (rel_bind (P := rx)); first by apply: (gr_mul _ HG HX); lia.
  by move=> Y Y' HY; apply: gr_add.
move=> xs xs' Hxs; apply: rel_bind; first by apply: gr_setitem Hs1 Hxs.
move=> smx smx' Hsmx; apply: rel_bind; first exact: gr_getitem Hs2.
move=> P1 P1' HP1; apply: (rel_bind (P := rP)).
  apply: (rel_bind (P := rP)); first exact: gr_sub.
  move=> X X' HX; apply: (rel_bind (P := rP)); first by apply: (gr_mul _ HX (gr_T HG)); lia.
  move=> Y Y' HY; apply: (rel_bind (P := rP)); first by apply: (gr_mul _ HG HY); lia.
  by move=> W W' HW; apply: gr_add.
move=> Ps Ps' HPs; apply: rel_bind; first by apply: gr_setitem Hs2 HPs.
by move=> smP smP' HsmP; split.
Qed.

Lemma gr_smooth_loop step step' j s s' :
  (forall k q q', rxP q q' -> rel_res rxP (step k q) (step' k q')) -> rxP s s' ->
  rel_res rxP (smooth_loop step j s) (smooth_loop step' j s').
Proof.
move=> Hstep; elim: j s s' => [|j IH] s s' Hs //=.
by apply: rel_bind; [exact: Hstep Hs|exact: IH].
Qed.

Lemma gr_smooth_init T n e e' : rxP e e' -> rel_res rxP (smooth_init T n e) (smooth_init T n e').
Proof.
move=> [He1 He2]; have [Ha1 Ha2] := gr_alloc T n.
apply: rel_bind; first exact: gr_getitem He1.
move=> x x' Hx; apply: rel_bind; first by apply: gr_setitem Ha1 Hx.
move=> sx sx' Hsx; apply: rel_bind; first exact: gr_getitem He2.
move=> P P' HP; apply: rel_bind; first by apply: gr_setitem Ha2 HP.
by move=> sP sP' HsP; split.
Qed.

Lemma gr_smooth o o' Z U Z' U' : gr_kf o o' -> rz Z Z' -> rel_opt ru U U' -> holds_nan U Z ->
  gr_meth rxP (kf_smooth o Z U) (kf_smooth o' Z' U').
Proof.
move=> Ho HZ HU Hh; have [[HA Hx HB HP] [HH HQ HR] Hn HI Hg] := Ho; rewrite /kf_smooth.
apply: gr_mbind; first exact: gr_filter Ho HZ HU Hh.
move=> e e' He; apply: (gr_mbind (P := eq)); first by apply: gr_mlift; rewrite (gr_len HZ); case: (np_len Z').
move=> T _ <-; apply: gr_mbind; first by apply: gr_mlift; rewrite Hn; apply: gr_smooth_init He.
move=> s s' Hs; apply: gr_mlift; apply: gr_smooth_loop => // k q q' Hq; have HU' := gr_check HU HZ Hh.
have [He1 He2] := He.
apply: rel_bind; first exact: gr_getitem HA.
move=> A A' HAk; apply: rel_bind; first exact: gr_getitem HQ.
move=> Q Q' HQk; apply: rel_bind; first exact: gr_getitem HB.
move=> B B' HBk; apply: rel_bind; first exact: gr_getitem HU'.
move=> u u' Hu; apply: rel_bind; first exact: gr_getitem He2.
move=> P P' HPk; apply: rel_bind; first exact: gr_getitem He1.
move=> x x' Hxk; apply: rel_bind; first by apply: gr_predict HAk Hxk _ _ HPk HQk; [exact: HBk|exact: Hu].
by move=> ah ah' Hah; apply: gr_smooth_body He Hq Hah HAk.
Qed.

Inductive gr_call : call N1 -> call N2 -> Prop :=
| GPredict A x B u P Q A' x' B' u' P' Q' : rA A A' -> rx x x' -> rel_opt rB B B' ->
    rel_opt ru u u' -> rP P P' -> rP Q Q' ->
    gr_call (CPredict A x B u P Q) (CPredict A' x' B' u' P' Q')
| GUpdate H_ x P z R_ H_' x' P' z' R_' : rH H_ H_' -> rx x x' -> rP P P' -> rz z z' ->
    rR R_ R_' -> gr_call (CUpdate H_ x P z R_) (CUpdate H_' x' P' z' R_')
| GFilter Z U Z' U' : rz Z Z' -> rel_opt ru U U' -> holds_nan U Z -> gr_call (CFilter Z U) (CFilter Z' U')
| GSmooth Z U Z' U' : rz Z Z' -> rel_opt ru U U' -> holds_nan U Z -> gr_call (CSmooth Z U) (CSmooth Z' U').

Lemma gr_kf_call o o' k k' : gr_kf o o' -> gr_call k k' ->
  gr_kf (kf_call o k).1 (kf_call o' k').1 /\ rel_res rxP (kf_call o k).2 (kf_call o' k').2.
Proof.
move=> Ho Hc; have [H1 H2 H3 H4 H5] := Ho.
suff Hm : gr_meth rxP (run_meth k o) (run_meth k' o').
  have := Hm _ _ H5; rewrite /kf_call.
  by case: (run_meth k o _) => g r; case: (run_meth k' o' _) => g' r' [Hg Hr].
case: Hc => *; [by apply: gr_mlift; apply: gr_predict|exact: gr_update|exact: gr_filter|exact: gr_smooth].
Qed.

Lemma gr_kf_calls o o' cs cs' : gr_kf o o' -> rel_seq gr_call cs cs' ->
  gr_kf (kf_calls o cs).1 (kf_calls o' cs').1 /\
  rel_seq (rel_res rxP) (kf_calls o cs).2 (kf_calls o' cs').2.
Proof.
elim: cs cs' o o' => [|k cs IH] [|k' cs'] o o' Ho //= [Hc Hcs].
have := gr_kf_call Ho Hc; case: (kf_call o k) => o1 r; case: (kf_call o' k') => o1' r' [/= Ho1 Hr].
have := IH _ _ _ Ho1 Hcs; case: (kf_calls o1 cs) => o2 rs; case: (kf_calls o1' cs') => o2' rs' [/= Ho2 Hrs].
by split.
Qed.

Lemma gr_init A x B P H_ Q R_ sz A' x' B' P' H_' Q' R_' : rA A A' -> rx x x' -> rel_opt rB B B' ->
  (B = None -> dt A = DFloat \/ ig (a - c)%Z) ->
  rP P P' -> rH H_ H_' -> rP Q Q' -> rR R_ R_' ->
  rel_res gr_kf (kf_init A x B P H_ Q R_ sz) (kf_init A' x' B' P' H_' Q' R_' sz).
Proof.
move=> HA Hx HB Hh HP HH HQ HR; rewrite /kf_init.
have HB' := gr_check HB HA Hh; have [_ Es _ _] := Hx.
apply: (rel_bind (P := eq)).
  case: sz => [z|]; last by rewrite /shape0 Es; case: (shp x').
  by case: ifP => _; [rewrite /shape0 Es; case: (shp x')|case: ifP].
by move=> n _ <-; split=> //=; exact: gr_identity.
Qed.

(** ** ExtendedKalmanFilter: with callables that respect the grades *)
Definition gr_fun1 g (f : arr N1 -> res (arr N1)) (f' : arr N2 -> res (arr N2)) : Prop :=
  forall x x', rx x x' -> rel_res (gr_arr g) (f x) (f' x').
Definition gr_fun2 g (f : arr N1 -> option (arr N1) -> res (arr N1)) (f' : arr N2 -> option (arr N2) -> res (arr N2)) : Prop :=
  forall x u x' u', rx x x' -> rel_opt ru u u' -> rel_res (gr_arr g) (f x u) (f' x' u').

Definition gr_ekf (o : ekf N1) (o' : ekf N2) : Prop :=
  [/\ [/\ gr_fun2 a (e_f o) (e_f o'), gr_fun1 b (e_h o) (e_h o'), gr_fun2 0%Z (e_jA o) (e_jA o') &
          gr_fun1 (b - a)%Z (e_jH o) (e_jH o')],
      [/\ rx (e_xk o) (e_xk o'), rP (e_Pk o) (e_Pk o'), rP (e_Q o) (e_Q o') & rR (e_R o) (e_R o')],
      e_size o = e_size o', rA (e_I o) (e_I o') & rel_seq rK (e_gains o) (e_gains o')].

Lemma gr_epredict o o' x u P Q x' u' P' Q' : gr_ekf o o' -> rx x x' -> rel_opt ru u u' ->
  rP P P' -> rP Q Q' -> rel_res rxP (ekf_predict o x u P Q) (ekf_predict o' x' u' P' Q').
Proof.
move=> [[Hf Hh HA HH] _ _ _ _] Hx Hu HP HQ; apply: rel_bind; first exact: HA Hx Hu.
move=> A A' HAk; apply: rel_bind; first exact: Hf Hx Hu.
move=> y y' Hy; apply: rel_bind; first exact: gr_project_A HAk HP HQ.
by move=> S S' HS; split.
Qed.

Lemma gr_eupdate o o' x P z R_ x' P' z' R_' : gr_ekf o o' -> rx x x' ->
  rP P P' -> rz z z' -> rR R_ R_' ->
  gr_meth rxP (ekf_update o x P z R_) (ekf_update o' x' P' z' R_').
Proof.
move=> [[Hf Hh HA HH] _ _ HI _] Hx HP Hz HR; apply: gr_mbind; first by apply: gr_mlift; apply: HH Hx.
move=> Hk Hk' HHk; apply: gr_mbind; first by apply: gr_mlift; apply: gr_project_H HHk HP HR.
move=> S S' HS; apply: gr_mbind; first by apply: gr_mlift; apply: gr_gain HS HHk HP.
move=> K K' HK; apply: gr_mbind; first exact: gr_append.
move=> _ _ _; apply: gr_mbind; first by apply: gr_mlift; apply: Hh Hx.
move=> y y' Hy; apply: gr_mbind; first by apply: gr_mlift; apply: gr_correct_state Hx HK Hz Hy.
move=> d d' Hd; apply: gr_mbind; first by apply: gr_mlift; apply: gr_correct_cov HI HK HHk HP.
by move=> e e' He; apply: (@gr_mret _ _ rxP (d, e) (d', e') (conj Hd He)).
Qed.

Definition gr_erow (s : erow N1) (s' : erow N2) : Prop :=
  [/\ ru (eU s) (eU s'), rz (eZ s) (eZ s'), rP (eQ s) (eQ s') & rR (eR s) (eR s')].

Lemma gr_zip4 u z q r u' z' q' r' : rel_seq ru u u' -> rel_seq rz z z' -> rel_seq rP q q' ->
  rel_seq rR r r' -> rel_seq gr_erow (zip4 u z q r) (zip4 u' z' q' r').
Proof.
elim: u z q r u' z' q' r' => [|? u IH] z q r [|? u'] z' q' r' //= [? ?].
case: z z' => [|? z] [|? z'] //= [? ?]; case: q q' => [|? q] [|? q'] //= [? ?].
case: r r' => [|? r] [|? r'] //= [? ?].
by split; [|apply: IH].
Qed.

Lemma gr_efilter o o' Z U Z' U' : gr_ekf o o' -> rz Z Z' -> rel_opt ru U U' -> holds_nan U Z ->
  gr_meth rxP (ekf_filter o Z U) (ekf_filter o' Z' U').
Proof.
move=> Ho HZ HU Hh; have [_ [Hx HP HQ HR] Hn HI Hg] := Ho; rewrite /ekf_filter.
apply: (gr_mbind (P := eq)); first by apply: gr_mlift; rewrite (gr_len HZ); case: (np_len Z').
move=> T _ <-; have HU' := gr_check HU HZ Hh.
apply: gr_mbind; first by apply: gr_mlift; apply: gr_iter HU'.
move=> u u' Hu; apply: gr_mbind; first by apply: gr_mlift; apply: gr_iter HZ.
move=> z z' Hz; apply: gr_mbind; first by apply: gr_mlift; apply: gr_iter HQ.
move=> q q' Hq; apply: gr_mbind; first by apply: gr_mlift; apply: gr_iter HR.
move=> r r' Hr; rewrite Hn; apply: (gr_loop (P := gr_erow)) => //; [|exact: gr_zip4|exact: gr_alloc].
move=> s s' p p' [H1 H2 H3 H4] [Hp1 Hp2]; rewrite /ekf_step.
apply: gr_mbind; first by apply: gr_mlift; apply: gr_epredict.
by move=> t t' [Ht1 Ht2]; apply: gr_eupdate.
Qed.

Lemma gr_esmooth o o' Z U Z' U' : gr_ekf o o' -> rz Z Z' -> rel_opt ru U U' -> holds_nan U Z ->
  gr_meth rxP (ekf_smooth o Z U) (ekf_smooth o' Z' U').
Proof.
move=> Ho HZ HU Hh; have [[Hf _ HA HH] [Hx HP HQ HR] Hn HI Hg] := Ho; rewrite /ekf_smooth.
apply: gr_mbind; first exact: gr_efilter Ho HZ HU Hh.
move=> e e' He; apply: (gr_mbind (P := eq)); first by apply: gr_mlift; rewrite (gr_len HZ); case: (np_len Z').
move=> T _ <-; apply: gr_mbind; first by apply: gr_mlift; rewrite Hn; apply: gr_smooth_init He.
move=> s s' Hs; apply: gr_mlift; apply: gr_smooth_loop => // k q q' Hq; have HU' := gr_check HU HZ Hh.
have [He1 He2] := He; rewrite /ekf_smooth_step.
apply: rel_bind; first exact: gr_getitem HQ.
move=> Q Q' HQk; apply: rel_bind; first exact: gr_getitem HU'.
move=> u u' Hu; apply: rel_bind; first exact: gr_getitem He2.
move=> P P' HPk; apply: rel_bind; first exact: gr_getitem He1.
move=> x x' Hxk; apply: rel_bind; first by apply: gr_epredict Ho Hxk _ HPk HQk; exact: Hu.
move=> ah ah' Hah; apply: rel_bind; first by apply: HA Hxk _; exact: Hu.
by move=> A A' HAk; apply: gr_smooth_body He Hq Hah HAk.
Qed.

Inductive gr_ecall : ecall N1 -> ecall N2 -> Prop :=
| GEPredict x u P Q x' u' P' Q' : rx x x' -> rel_opt ru u u' -> rP P P' -> rP Q Q' ->
    gr_ecall (EPredict x u P Q) (EPredict x' u' P' Q')
| GEUpdate x P z R_ x' P' z' R_' : rx x x' -> rP P P' -> rz z z' ->
    rR R_ R_' -> gr_ecall (EUpdate x P z R_) (EUpdate x' P' z' R_')
| GEFilter Z U Z' U' : rz Z Z' -> rel_opt ru U U' -> holds_nan U Z -> gr_ecall (EFilter Z U) (EFilter Z' U')
| GESmooth Z U Z' U' : rz Z Z' -> rel_opt ru U U' -> holds_nan U Z -> gr_ecall (ESmooth Z U) (ESmooth Z' U').

Lemma gr_e_call o o' k k' : gr_ekf o o' -> gr_ecall k k' ->
  gr_ekf (e_call o k).1 (e_call o' k').1 /\ rel_res rxP (e_call o k).2 (e_call o' k').2.
Proof.
move=> Ho Hc; have [H1 H2 H3 H4 H5] := Ho.
suff Hm : gr_meth rxP (e_run k o) (e_run k' o').
  have := Hm _ _ H5; rewrite /e_call.
  by case: (e_run k o _) => g r; case: (e_run k' o' _) => g' r' [Hg Hr].
case: Hc => *; [by apply: gr_mlift; apply: gr_epredict Ho _ _ _ _|exact: gr_eupdate|exact: gr_efilter|exact: gr_esmooth].
Qed.

Lemma gr_e_calls o o' cs cs' : gr_ekf o o' -> rel_seq gr_ecall cs cs' ->
  gr_ekf (e_calls o cs).1 (e_calls o' cs').1 /\
  rel_seq (rel_res rxP) (e_calls o cs).2 (e_calls o' cs').2.
Proof.
elim: cs cs' o o' => [|k cs IH] [|k' cs'] o o' Ho //= [Hc Hcs].
have := gr_e_call Ho Hc; case: (e_call o k) => o1 r; case: (e_call o' k') => o1' r' [/= Ho1 Hr].
have := IH _ _ _ Ho1 Hcs; case: (e_calls o1 cs) => o2 rs; case: (e_calls o1' cs') => o2' rs' [/= Ho2 Hrs].
by split.
Qed.

Lemma gr_einit x P Q R_ f h jA jH x' P' Q' R_' f' h' jA' jH' : rx x x' -> rP P P' -> rP Q Q' ->
  rR R_ R_' -> gr_fun2 a f f' -> gr_fun1 b h h' -> gr_fun2 0%Z jA jA' -> gr_fun1 (b - a)%Z jH jH' ->
  rel_res gr_ekf (ekf_init x P Q R_ f h jA jH) (ekf_init x' P' Q' R_' f' h' jA' jH').
Proof.
move=> Hx HP HQ HR Hf Hh HA HH; have [_ Es _ _] := Hx; rewrite /ekf_init /shape0 Es.
by case: (shp x') => //= n _; split=> //=; exact: gr_identity.
Qed.
End Graded.
