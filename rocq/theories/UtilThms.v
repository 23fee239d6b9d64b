(** * UtilThms: utils.py, control terms, None and scalars, any arithmetic *)
From Coq Require Import ZArith Lia.
From mathcomp Require Import ssreflect ssrfun ssrbool eqtype ssrnat seq.
From Verif Require Import Np NpLemmas Kf Ekf ApiSpec Loop Frame FilterLemmas FilterThms SliceThms
  SmoothLemmas.

Set Implicit Arguments.
Unset Strict Implicit.
Unset Printing Implicit Defensive.
Arguments Z.of_nat : simpl never.

Section Util.
Variable N : num.
Notation arr := (arr N).

(** C13 *)
Lemma isnan_allP (a : arr) : wfs a -> np_isnan_all a <-> every_nan a.
Proof.
move=> Hw; rewrite /np_isnan_all {1}(mk_get Hw) /mk /= all_map; split.
  by move/allP => H ix Hv; apply: H; rewrite mem_indices.
by move=> H; apply/allP => ix; rewrite mem_indices => /H.
Qed.

Lemma isnan_all_int (a : arr) : wf a -> dt a = DInt -> 0 < nelem (shp a) -> np_isnan_all a = false.
Proof.
case/andP=> /eqP Hs Ha Hd; rewrite -Hs /np_isnan_all Hd in Ha *.
by case: (dat a) Ha => [|[z|k] s] //= .
Qed.

Lemma isnan_all_empty (a : arr) : wfs a -> nelem (shp a) = 0 -> np_isnan_all a.
Proof. by move=> /eqP Hs E; rewrite E in Hs; rewrite /np_isnan_all (size0nil Hs). Qed.

(** C14 *)
Lemma get_full_like (a : arr) ix : valid (shp a) ix ->
  get (np_full_like_nan a) ix = match dt a with DInt => VI (knan2int N) | DFloat => VF (knan N) end.
Proof. by move=> H; rewrite /get /= nth_nseq offset_lt. Qed.

Lemma wf_full_like (a : arr) : wf (np_full_like_nan a).
Proof.
rewrite /wf /= size_nseq eqxx /=; case: (dt a) => /=; by elim: (nelem _).
Qed.

Lemma isnan_full_like (a : arr) : kisnan (knan N) -> dt a = DFloat -> np_isnan_all (np_full_like_nan a).
Proof. by move=> H Hd; rewrite /np_isnan_all /= Hd; elim: (nelem _) => //= n ->; rewrite H. Qed.

(** C09 *)
Lemma predict_plain A x B u P Q : np_isnan_all B || np_isnan_all u ->
  @kf_predict N A x (Some B) (Some u) P Q = plain_predict A x P Q.
Proof.
move=> H; rewrite /kf_predict /project_state /plain_predict /project_cov /=.
have -> : (do skip <- (if np_isnan_all B then Ok true else Ok (np_isnan_all u));
    (if skip then np_matmul A x else
       do Ax <- np_matmul A x; do Bu <- np_matmul B u; np_add Ax Bu)) = np_matmul A x.
  by move: H; case: (np_isnan_all B) => //= ->.
case: (np_matmul A x) => //= y; case: (np_matmul P (np_T A)) => //= PA.
by case: (np_matmul A PA) => //= APA.
Qed.

Lemma predict_control A x B u P Q : ~~ np_isnan_all B -> ~~ np_isnan_all u ->
  @kf_predict N A x (Some B) (Some u) P Q = control_predict A x B u P Q.
Proof.
move=> /negbTE HB /negbTE Hu; rewrite /kf_predict /project_state /control_predict /project_cov /=.
rewrite HB Hu /=.
case: (np_matmul A x) => //= y; case: (np_matmul B u) => //= w; case: (np_add y w) => //= v.
case: (np_matmul P (np_T A)) => //= PA; by case: (np_matmul A PA).
Qed.

(** C11 *)
Lemma predict_Bnone A x u P Q : @kf_predict N A x None u P Q = Raise TypeError.
Proof. by []. Qed.

Lemma predict_unone A x B P Q : ~~ np_isnan_all B ->
  @kf_predict N A x (Some B) None P Q = Raise TypeError.
Proof. by move=> /negbTE H; rewrite /kf_predict /project_state /= H. Qed.

Lemma predict_unone_nan A x B P Q : np_isnan_all B ->
  @kf_predict N A x (Some B) None P Q = plain_predict A x P Q.
Proof.
move=> H; rewrite -(@predict_plain A x B B P Q) ?H //.
by rewrite /kf_predict /project_state /= H.
Qed.

(** C10 *)
Lemma by_hand_nocontrol (self : kf N) Z U k g : iterable self Z U -> k <= steps self Z U ->
  (forall j, j < k -> np_isnan_all (row (kf_B self) j) || np_isnan_all (row (control Z U) j)) ->
  by_hand self Z (control Z U) k g = by_hand_plain self Z k g.
Proof.
move=> Hit; elim: k g => [|k IH] g Hk Hn //=.
rewrite /mbind IH; last by move=> j Hj; apply: Hn; exact: ltnW.
  case: (by_hand_plain _ _ _ _) => [g1 [xP|e]] //.
  rewrite /mlift !getitem_cases.
  have [[-> -> -> ->] [-> -> ->]] : [/\ k < nrows Z, k < nrows (kf_A self), k < nrows (kf_H self) & k < nrows (kf_B self)] /\
      [/\ k < nrows (control Z U), k < nrows (kf_Q self) & k < nrows (kf_R self)].
    by move: Hk; rewrite steps_gt => /and5P [-> -> -> -> /and3P [-> -> ->]].
  by rewrite predict_plain // Hn.
exact: ltnW.
Qed.

Lemma control_none_nan (Z : arr) j : kisnan (knan N) -> dt Z = DFloat -> j < nrows Z ->
  np_isnan_all (row (control Z None) j).
Proof.
move=> Hk Hd Hj; have HZ : shp Z = nrows Z :: behead (shp Z) by move: Hj; rewrite /nrows; case: (shp Z).
by rewrite (row_full_like HZ Hj); exact: isnan_full_like.
Qed.

Lemma filter_U_none (self : kf N) Z j g : kisnan (knan N) -> dt Z = DFloat ->
  iterable self Z None -> j <= steps self Z None ->
  by_hand self Z (control Z None) j g = by_hand_plain self Z j g.
Proof.
move=> Hk Hd Hit Hj; apply: by_hand_nocontrol => // i Hi; apply/orP; right.
apply: control_none_nan => //; case: (steps_le self Z None) => -[H _ _ _] _.
by apply: leq_trans H; exact: leq_trans Hj.
Qed.

Lemma filter_B_none (self : kf N) A xk Pk H Q R ss Z U j g : kisnan (knan N) -> dt A = DFloat ->
  kf_init A xk None Pk H Q R ss = Ok self ->
  iterable self Z U -> j <= steps self Z U ->
  by_hand self Z (control Z U) j g = by_hand_plain self Z j g.
Proof.
move=> Hk Hd Hi Hit Hj; apply: by_hand_nocontrol => // i Hij; apply/orP; left.
have [EB EA] : kf_B self = np_full_like_nan A /\ kf_A self = A.
  by move: Hi; rewrite /kf_init; case: (match ss with Some _ => _ | _ => _ end) => //= n [<-].
rewrite EB; case: (steps_le self Z U) => -[_ HA _ _] _.
have HiA : i < nrows A by rewrite -EA; apply: leq_trans HA; exact: leq_trans Hj.
exact: (control_none_nan Hk Hd HiA).
Qed.

(** C10, integers: the placeholder of an int64 array is no NaN. *)
Lemma int_placeholder (Z : arr) j : wf Z -> dt Z = DInt -> j < nrows Z ->
  0 < nelem (behead (shp Z)) -> np_isnan_all (row (control Z None) j) = false.
Proof.
move=> Hw Hd Hj Hn; have HZ : shp Z = nrows Z :: behead (shp Z) by move: Hj; rewrite /nrows; case: (shp Z).
rewrite (row_full_like HZ Hj); apply: isnan_all_int => //; exact: wf_full_like.
Qed.

(** C12 *)
Lemma smooth_unsized (self : kf N) Z U g : ~~ iterable self Z U ->
  kf_smooth self Z U g = (g, Raise TypeError).
Proof. by move=> H; rewrite /kf_smooth /mbind kf_filter_unsized. Qed.

Lemma e_smooth_unsized (self : ekf N) Z U g : ~~ e_iterable self Z U ->
  ekf_smooth self Z U g = (g, Raise TypeError).
Proof. by move=> H; rewrite /ekf_smooth /mbind ekf_filter_unsized. Qed.

(** C21, constructor *)
Lemma init_size A xk B Pk H Q R ss (self : kf N) : kf_init A xk B Pk H Q R ss = Ok self ->
  [/\ kf_A self = A, kf_xk self = xk, kf_Pk self = Pk &
   [/\ kf_H self = H, kf_Q self = Q, kf_R self = R, kf_gains self = [::] &
   match ss with
   | Some z => if (z =? 0)%Z then shp xk != [::] /\ kf_size self = nrows xk
               else (0 < z)%Z /\ kf_size self = Z.to_nat z
   | None => shp xk != [::] /\ kf_size self = nrows xk
   end]].
Proof.
rewrite /kf_init; case: ss => [z|].
  case: (Z.eqb_spec z 0) => Hz.
    by rewrite /shape0 /nrows; case: (shp xk) => //= d sh [<-].
  case: (Z.ltb_spec z 0) => Hz' //= [<-]; split=> //; split=> //; split=> //=.
  by lia.
by rewrite /shape0 /nrows; case: (shp xk) => //= d sh [<-].
Qed.

Lemma init_raises A xk B Pk H Q R ss e : @kf_init N A xk B Pk H Q R ss = Raise e ->
  (e = ValueError /\ exists2 z, ss = Some z & (z < 0)%Z) \/
  (e = IndexError /\ shp xk = [::] /\ (ss = None \/ ss = Some 0%Z)).
Proof.
rewrite /kf_init; case: ss => [z|].
  case: (Z.eqb_spec z 0) => Hz.
    rewrite /shape0; case: (shp xk) => //= -[<-]; right; split=> //; split=> //; right.
    by rewrite Hz.
  case: (Z.ltb_spec z 0) => Hz' //= [<-]; left; split=> //; by exists z.
by rewrite /shape0; case: (shp xk) => //= -[<-]; right; split=> //; split=> //; left.
Qed.

End Util.
