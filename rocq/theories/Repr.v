(** * Repr: arrays as matrices, and the array operations on them *)
From Coq Require Import ZArith.
From mathcomp Require Import all_ssreflect all_algebra.
From Verif Require Import Np NpLemmas Kf ApiSpec FilterLemmas NpShapes WellShaped Exact.

Set Implicit Arguments.
Unset Strict Implicit.
Unset Printing Implicit Defensive.
Import GRing.Theory Num.Theory.
Local Open Scope ring_scope.

Section Repr.
Variable F : realFieldType.
Variable oracle : oracle_type F.
Variable n2i : Z.
Notation N := (exact oracle n2i).
Notation arr := (arr N).

(** The number an element holds; NaN counts as 0 (only used on arrays without
    NaN). *)
Definition fval (v : scal N) : F := odflt 0 (tofl v : option F).

(** The m*n matrix with the elements of [a], row by row. *)
Definition mx (m n : nat) (a : arr) : 'M[F]_(m, n) :=
  \matrix_(i, j) fval (nth (VI 0) (dat a) (i * n + j)).

(** A noise covariance: an array with a single number is that number in every
    entry (numpy broadcasting), anything else is an n*n matrix. *)
Definition cov (n : nat) (q : arr) : 'M[F]_n :=
  if size (dat q) == 1%N then const_mx (fval (nth (VI 0) (dat q) 0)) else mx n n q.

(** No element is NaN. *)
Definition clean (a : arr) : bool := all (fun v => ~~ snan v) (dat a).

(** [a] has shape [sh], no NaN and holds the matrix [M]. *)
Definition rp (sh : shape) (m n : nat) (a : arr) (M : 'M[F]_(m, n)) : Prop :=
  [/\ wf a, shp a = sh, nelem sh = (m * n)%N, clean a & mx m n a = M].
(** ... and is a float64 array. *)
Definition rpf sh m n a M : Prop := @rp sh m n a M /\ dt a = DFloat.

Lemma snanE (v : scal N) : ~~ snan v = isSome (tofl v : option F).
Proof. by case: v => [z|[k|]]. Qed.

Lemma fvalE (v : scal N) : ~~ snan v -> tofl v = Some (fval v).
Proof. by rewrite snanE /fval; case: (tofl v). Qed.

Lemma fvalS x : fval (@VF N (Some x)) = x. Proof. by []. Qed.

Lemma clean_nth (a : arr) p : clean a -> ~~ snan (nth (VI 0) (dat a) p).
Proof.
move=> H; case: (ltnP p (size (dat a))) => Hp; first exact: (all_nthP (VI 0) H).
by rewrite nth_default.
Qed.

Lemma clean_get (a : arr) ix : clean a -> ~~ snan (get a ix).
Proof. exact: clean_nth. Qed.

Lemma clean_isSome (a : arr) : clean a -> all isSome (map (@tofl N) (dat a)).
Proof. by rewrite all_map; apply: sub_all => v; rewrite snanE. Qed.

Lemma clean_mk d sh f : (forall ix, valid sh ix -> ~~ snan (f ix)) -> clean (@mk N d sh f).
Proof.
move=> H; rewrite /clean /mk /= all_map; apply/allP => ix.
by rewrite mem_indices => /H.
Qed.

Lemma nth_map_tofl (s : seq (scal N)) p : (p < size s)%N ->
  nth None (map (@tofl N) s) p = tofl (nth (VI 0) s p).
Proof. by move=> H; rewrite (nth_map (VI 0)). Qed.

Lemma mxE_get m n (a : arr) (i : 'I_m) (j : 'I_n) : shp a = [:: m; n] -> mx m n a i j = fval (get a [:: val i; val j]).
Proof. by move=> E; rewrite mxE /get E /= !muln1 !addn0. Qed.

Lemma vecE_get m (a : arr) (i : 'I_m) j : shp a = [:: m] -> mx m 1 a i j = fval (get a [:: val i]).
Proof. by move=> E; rewrite mxE /get E ord1 /=. Qed.

Lemma mx_mk2 m n d f : mx m n (@mk N d [:: m; n] f) = \matrix_(i, j) fval (f [:: val i; val j]).
Proof. by apply/matrixP => i j; rewrite mxE_get // get_mk ?mxE // /valid /= !ltn_ord. Qed.

Lemma mx_mk1 m d f : mx m 1 (@mk N d [:: m] f) = \matrix_(i, j) fval (f [:: val i]).
Proof. by apply/matrixP => i j; rewrite vecE_get // get_mk ?mxE // /valid /= !ltn_ord. Qed.

Lemma size_rp sh m n (a : arr) (M : 'M_(m, n)) : rp sh a M -> size (dat a) = (m * n)%N.
Proof. by case=> /wf_wfs /eqP -> -> ->. Qed.

Lemma rp_has sh m n a (M : 'M_(m, n)) : rp sh a M -> has sh a.
Proof. by case=> W E _ _ _; apply/hasP; split; first exact: wf_wfs. Qed.

(** ** Product *)
Lemma ex_entry kd m k n (a b : arr) (i j : nat) : clean a -> clean b ->
  size (dat a) = (m * k)%N -> size (dat b) = (k * n)%N -> (i < m)%N -> (j < n)%N ->
  kmm (n := N) kd m k n (map (@tofl N) (dat a)) (map (@tofl N) (dat b)) i j =
  Some (\sum_(l < k) fval (nth (VI 0) (dat a) (i * k + l)) * fval (nth (VI 0) (dat b) (l * n + j))).
Proof.
move=> Ca Cb Sa Sb Hi Hj; rewrite /= /ex_mm.
have Ha l : (l < k)%N -> nth None (map (@tofl N) (dat a)) (i * k + l) = Some (fval (nth (VI 0) (dat a) (i * k + l))).
  move=> Hl; rewrite nth_map_tofl ?fvalE ?clean_nth // Sa.
  by apply: (@leq_trans (i.+1 * k)%N); rewrite ?leq_mul2r ?Hi ?orbT // mulSn addnC ltn_add2r.
have Hb l : (l < k)%N -> nth None (map (@tofl N) (dat b)) (l * n + j) = Some (fval (nth (VI 0) (dat b) (l * n + j))).
  move=> Hl; rewrite nth_map_tofl ?fvalE ?clean_nth // Sb.
  by apply: (@leq_trans (l.+1 * n)%N); rewrite ?leq_mul2r ?Hl ?orbT // mulSn addnC ltn_add2r.
case: ifP => [_|/negP []].
  by congr Some; apply: eq_bigr => l _; rewrite Ha // Hb.
by apply/allP => l; rewrite mem_iota => /andP [_ Hl]; rewrite Ha // Hb.
Qed.

Lemma rp_mm m k n (a b : arr) (A : 'M_(m, k)) (B : 'M_(k, n)) :
  rp [:: m; k] a A -> rp [:: k; n] b B -> promote (dt a) (dt b) = DFloat ->
  exists2 c, np_matmul a b = Ok c & rpf [:: m; n] c (A *m B).
Proof.
move=> Ra Rb Hd; have Sa := size_rp Ra; have Sb := size_rp Rb.
case: Ra => Wa Ea _ Ca <-; case: Rb => Wb Eb _ Cb <-.
rewrite (matmul_mm (wf_wfs Wa) (wf_wfs Wb) Ea Eb) Hd /mm_entry.
eexists; first by reflexivity.
split=> //; split=> //.
- exact: wf_mkF.
- by rewrite /= muln1.
- apply: clean_mk => ix /valid2 [i [j [Hi Hj ->]]]; cbn [nth].
  by rewrite (ex_entry MatMat Ca Cb Sa Sb Hi Hj).
rewrite mx_mk2; apply/matrixP => i j; rewrite !mxE /fval; cbn [tofl nth].
rewrite (ex_entry MatMat Ca Cb Sa Sb (ltn_ord i) (ltn_ord j)) /=.
by apply: eq_bigr => l _; rewrite !mxE.
Qed.

Lemma rp_mv m k (a b : arr) (A : 'M_(m, k)) (B : 'cV_k) :
  rp [:: m; k] a A -> rp [:: k] b B -> promote (dt a) (dt b) = DFloat ->
  exists2 c, np_matmul a b = Ok c & rpf [:: m] c (A *m B).
Proof.
move=> Ra Rb Hd; have Sa := size_rp Ra; have Sb := size_rp Rb.
case: Ra => Wa Ea _ Ca <-; case: Rb => Wb Eb _ Cb <-.
rewrite (matmul_mv (wf_wfs Wa) (wf_wfs Wb) Ea Eb) Hd /mm_entry.
eexists; first by reflexivity.
split=> //; split=> //.
- exact: wf_mkF.
- apply: clean_mk => ix /valid1 [i Hi ->]; cbn [nth].
  by rewrite (ex_entry MatVec Ca Cb Sa Sb Hi (ltn0Sn 0)).
rewrite mx_mk1; apply/matrixP => i j; rewrite !mxE /fval; cbn [tofl nth].
rewrite (ex_entry MatVec Ca Cb Sa Sb (ltn_ord i) (ltn0Sn 0)) /=.
by apply: eq_bigr => l _; rewrite !mxE ord1.
Qed.

(** ** Transposition *)
Lemma rp_T m n (a : arr) (A : 'M_(m, n)) : rp [:: m; n] a A -> rp [:: n; m] (np_T a) A^T.
Proof.
case=> Wa Ea _ Ca <-; split.
- rewrite /wf /np_T; apply/andP; split; first exact: wfs_mk.
  cbn [dat dt mk]; rewrite all_map; apply/allP => ix; rewrite mem_indices => Hv /=.
  have := @wf_get _ a (rev ix) Wa; rewrite -{1}(revK (shp a)) => /(_ (valid_rev Hv)).
  by case: (dt a); case: (get a (rev ix)).
- exact: shp_T2.
- by rewrite /= muln1.
- by rewrite (T2 Ea); apply: clean_mk => ix _; apply: clean_get.
by rewrite (T2 Ea) mx_mk2; apply/matrixP => i j; rewrite mxE [RHS]mxE mxE_get.
Qed.

Lemma dt_T (a : arr) : dt (np_T a) = dt a. Proof. by []. Qed.

(** ** Elementwise operations *)
Lemma sbin_float fz fk (v w : scal N) d e : promote d e = DFloat ->
  (match d, v with DInt, VI _ | DFloat, VF _ => true | _, _ => false end) ->
  (match e, w with DInt, VI _ | DFloat, VF _ => true | _, _ => false end) ->
  sbin fz fk v w = VF (fk (tofl v) (tofl w)).
Proof. by case: d; case: e => //; case: v; case: w. Qed.

Section Bin.
Variables (fz : Z -> Z -> Z) (op : F -> F -> F).
Notation bin := (@np_bin N fz (olift2 op)).

Lemma bin_float (a b : arr) sh : wf a -> wf b -> clean a -> clean b ->
  promote (dt a) (dt b) = DFloat -> bshape (shp a) (shp b) = Some sh ->
  bin a b = Ok (mk DFloat sh (fun ix => @VF N (Some (op (fval (get a (bidx (shp a) ix)))
                                                     (fval (get b (bidx (shp b) ix))))))).
Proof.
move=> Wa Wb Ca Cb Hd Hs; rewrite (bin_ok _ _ Hs) Hd; congr Ok; apply: eq_mk => ix Hv.
rewrite (sbin_float _ _ Hd).
- by rewrite !fvalE ?clean_get.
- exact: (wf_get Wa (valid_bidx_l Hs Hv)).
exact: (wf_get Wb (valid_bidx_r Hs Hv)).
Qed.

(** The entries of the result, as one matrix. *)
Definition mx_op m n (A B : 'M[F]_(m, n)) : 'M[F]_(m, n) := \matrix_(i, j) op (A i j) (B i j).

Lemma rp_bin2 m n (a b : arr) (A B : 'M_(m, n)) : rp [:: m; n] a A -> rp [:: m; n] b B ->
  promote (dt a) (dt b) = DFloat ->
  exists2 c, bin a b = Ok c & rpf [:: m; n] c (mx_op A B).
Proof.
case=> Wa Ea Hn Ca <- [] Wb Eb _ Cb <- Hd.
rewrite (bin_float Wa Wb Ca Cb Hd (sh := [:: m; n])); last by rewrite Ea Eb bshape_same.
eexists; first by reflexivity.
split=> //; split=> //; [exact: wf_mkF|exact: clean_mk|].
rewrite mx_mk2; apply/matrixP => i j; rewrite [LHS]mxE fvalS [RHS]mxE.
by rewrite Ea Eb !bidx_id ?/valid ?/= ?ltn_ord // -!mxE_get.
Qed.

Lemma rp_bin1 m (a b : arr) (A B : 'cV_m) : rp [:: m] a A -> rp [:: m] b B ->
  promote (dt a) (dt b) = DFloat ->
  exists2 c, bin a b = Ok c & rpf [:: m] c (mx_op A B).
Proof.
case=> Wa Ea Hn Ca <- [] Wb Eb _ Cb <- Hd.
rewrite (bin_float Wa Wb Ca Cb Hd (sh := [:: m])); last by rewrite Ea Eb bshape_same.
eexists; first by reflexivity.
split=> //; split=> //; [exact: wf_mkF|exact: clean_mk|].
rewrite mx_mk1; apply/matrixP => i j; rewrite [LHS]mxE fvalS [RHS]mxE.
by rewrite Ea Eb !bidx_id ?/valid ?/= ?ltn_ord // -!(vecE_get _ j).
Qed.

(** A covariance operand. *)
Lemma get_single (q : arr) ix : size (dat q) = 1%N -> valid (shp q) ix -> wf q ->
  get q ix = nth (VI 0) (dat q) 0.
Proof.
move=> S Hv /wf_wfs /eqP E; rewrite /get; have := offset_lt Hv; rewrite -E S.
by case: (offset _ _).
Qed.

Lemma rp_bincov n (a q : arr) (A : 'M_n) : rp [:: n; n] a A -> cov_layout n q -> clean q ->
  dt a = DFloat ->
  exists2 c, bin a q = Ok c & rpf [:: n; n] c (mx_op A (cov n q)).
Proof.
case=> Wa Ea Hn Ca <- Hl Cq Hd; have Hs := cov_has Hl; case/andP: Hl => Wq Hl.
have Hp : promote (dt a) (dt q) = DFloat by rewrite Hd.
have Hs' : bshape (shp a) (shp q) = Some [:: n; n] by rewrite Ea.
rewrite (bin_float Wa Wq Ca Cq Hp Hs').
eexists; first by reflexivity.
split=> //; split=> //; [exact: wf_mkF|exact: clean_mk|].
rewrite mx_mk2; apply/matrixP => i j; rewrite [LHS]mxE fvalS [RHS]mxE.
have Hv : valid [:: n; n] [:: val i; val j] by rewrite /valid /= !ltn_ord.
congr (op _ _); first by rewrite Ea bidx_id // -mxE_get.
rewrite /cov; case: eqP => S1.
  by rewrite mxE (get_single S1 _ Wq) //; apply: (valid_bidx_r Hs').
have Eq : shp q = [:: n; n].
  have /eqP E := wf_wfs Wq; rewrite E in S1.
  by case/or4P: Hl => /eqP Eq //; rewrite Eq in S1.
by rewrite Eq bidx_id // -mxE_get.
Qed.

End Bin.

Lemma mx_op_add m n (A B : 'M[F]_(m, n)) : mx_op +%R A B = A + B.
Proof. by apply/matrixP => i j; rewrite !mxE. Qed.
Lemma mx_op_sub m n (A B : 'M[F]_(m, n)) : mx_op (fun x y => x - y) A B = A - B.
Proof. by apply/matrixP => i j; rewrite !mxE. Qed.

(** ** Solver *)
Lemma rp_solve n r (a b : arr) (A : 'M_n) (B : 'M_(n, r)) :
  rp [:: n; n] a A -> rp [:: n; r] b B ->
  if A \in unitmx then exists2 c, np_solve a b = Ok c & rpf [:: n; r] c (invmx A *m B)
  else np_solve a b = Raise LinAlgError.
Proof.
move=> Ra Rb; have Sa := size_rp Ra; have Sb := size_rp Rb.
case: Ra => Wa Ea _ Ca <-; case: Rb => Wb Eb _ Cb <-.
rewrite (solve_mm (wf_wfs Wa) (wf_wfs Wb) Ea Eb) /= /ex_solve !clean_isSome //=.
have -> : mx_of n n (map (@tofl N) (dat a)) = mx n n a.
  apply/matrixP => i j; rewrite !mxE nth_map_tofl //.
  rewrite Sa; apply: (@leq_trans (i.+1 * n)%N); last by rewrite leq_mul2r ltn_ord orbT.
  by rewrite mulSn addnC ltn_add2r.
case Hu: (mx n n a \in unitmx) => //; eexists; first by reflexivity.
split=> //; split=> //.
- exact: wf_mkF.
- by rewrite /= muln1.
- exact: clean_mk.
rewrite mx_mk2; apply/matrixP => i j; rewrite [LHS]mxE fvalS [RHS]mxE.
apply: eq_bigr => l _; congr (_ * _); first by rewrite valK.
rewrite mxE nth_map_tofl // Sb.
apply: (@leq_trans (l.+1 * r)%N); last by rewrite leq_mul2r ltn_ord orbT.
by rewrite /= mulSn addnC ltn_add2r ltn_ord.
Qed.

(** ** Identity *)
Lemma rp_identity n : rpf [:: n; n] (np_identity N n) (1%:M : 'M[F]_n).
Proof.
split=> //; split=> //.
- by case/andP: (isfloat_identity N n).
- by rewrite /= muln1.
- by apply: clean_mk => ix _; case: ifP.
rewrite /np_identity mx_mk2; apply/matrixP => i j; rewrite !mxE /fval /=.
by rewrite -val_eqE; case: eqP.
Qed.

End Repr.
