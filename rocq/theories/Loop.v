(** * Loop: the filter loop, for any step and any arithmetic *)
From Coq Require Import ZArith Lia.
From mathcomp Require Import ssreflect ssrfun ssrbool eqtype ssrnat seq.
From Verif Require Import Np NpLemmas Kf Ekf ApiSpec.

Set Implicit Arguments.
Unset Strict Implicit.
Unset Printing Implicit Defensive.

Section Loop.
Variable N : num.
Notation arr := (arr N).

Lemma mbindA S T V (m : meth N S) (f : S -> meth N T) (h : T -> meth N V) g :
  mbind (mbind m f) h g = mbind m (fun x => mbind (f x) h) g.
Proof. by rewrite /mbind; case: (m g) => g' [x|e]. Qed.

(** The posterior after all [rows], and the gains. *)
Fixpoint iter_rows (S : Type) (step : S -> arr * arr -> meth N (arr * arr))
    (rows : seq S) (xP : arr * arr) : meth N (arr * arr) :=
  match rows with
  | [::] => mret xP
  | s :: rows' => mdo xP' <- step s xP; iter_rows step rows' xP'
  end.

Lemma iter_rows_rcons S step (rows : seq S) s xP g :
  iter_rows step (rcons rows s) xP g = mbind (iter_rows step rows xP) (step s) g.
Proof.
elim: rows xP g => [|s' rows IH] xP g /=.
  by rewrite /mbind /mret; case: (step s xP g) => g' [x|e].
rewrite mbindA /mbind; case: (step s' xP g) => g' [x|e] //; exact: IH.
Qed.

Lemma iter_rows_cat S step (r1 r2 : seq S) xP g :
  iter_rows step (r1 ++ r2) xP g = mbind (iter_rows step r1 xP) (iter_rows step r2) g.
Proof.
elim: r1 xP g => [|s' r1 IH] xP g //=.
rewrite mbindA /mbind; case: (step s' xP g) => g' [x|e] //; exact: IH.
Qed.

(** (states, errors) as allocated and as maintained by the loop. *)
Definition outshape (T n : nat) (out : arr * arr) : Prop :=
  [/\ wf out.1, dt out.1 = DFloat & shp out.1 = [:: T; n]] /\
  [/\ wf out.2, dt out.2 = DFloat & shp out.2 = [:: T; n; n]].

Lemma alloc_outshape T n : outshape T n (alloc N T n).
Proof. by split; split=> //=; apply: wf_zeros. Qed.

Lemma alloc_rows T n k : k < T ->
  row (alloc N T n).1 k = np_zeros N [:: n] /\ row (alloc N T n).2 k = np_zeros N [:: n; n].
Proof. by move=> Hk; rewrite /alloc /= !row_zeros. Qed.

Lemma storableE n (xP : arr * arr) : storable n xP = fits [:: n] xP.1 && fits [:: n; n] xP.2.
Proof. by []. Qed.

Lemma store_spec T n out k xP : outshape T n out -> k < T ->
  store out k xP =
  (if storable n xP then Ok (setrow out.1 k xP.1, setrow out.2 k xP.2) else Raise ValueError).
Proof.
move=> [[Hw1 Hd1 Hs1] [Hw2 Hd2 Hs2]] Hk; rewrite storableE /store.
rewrite (setitem_nat _ Hs1 Hk); case: ifP => //= _.
by rewrite (setitem_nat _ Hs2 Hk); case: ifP.
Qed.

Lemma setrow_outshape T n out k xP : outshape T n out -> k < T ->
  outshape T n (setrow out.1 k xP.1, setrow out.2 k xP.2).
Proof.
move=> [[Hw1 Hd1 Hs1] [Hw2 Hd2 Hs2]] Hk; split; split=> //=.
  exact: (wf_setrow _ Hw1 Hd1 Hs1 Hk).
exact: (wf_setrow _ Hw2 Hd2 Hs2 Hk).
Qed.

Lemma outshape_ext T n o1 o2 : outshape T n o1 -> outshape T n o2 ->
  (forall i, i < T -> row o1.1 i = row o2.1 i /\ row o1.2 i = row o2.2 i) -> o1 = o2.
Proof.
move=> [[Hw1 Hd1 Hs1] [Hw2 Hd2 Hs2]] [[Hw1' Hd1' Hs1'] [Hw2' Hd2' Hs2']] H.
rewrite (surjective_pairing o1) (surjective_pairing o2); congr pair.
  by apply: (rows_ext (wf_wfs Hw1) (wf_wfs Hw1') _ Hs1 Hs1'); rewrite ?Hd1 // => k /H [].
by apply: (rows_ext (wf_wfs Hw2) (wf_wfs Hw2') _ Hs2 Hs2'); rewrite ?Hd2 // => k /H [].
Qed.

Section Step.
Variables (S : Type) (step : S -> arr * arr -> meth N (arr * arr)).

(** Step [j] of the run over [rows] from [xP] succeeds with posterior [y] and
    gains [gj]. *)
Definition reaches rows xP g j gj y := iter_rows step (take j rows) xP g = (gj, Ok y).

Lemma filter_loop_spec n T rows k xP out g :
  outshape T n out -> k + size rows <= T ->
  match filter_loop step rows k xP out g with
  | (g', Ok out') =>
    [/\ outshape T n out',
        (forall j, j < size rows -> exists gj y,
          [/\ reaches rows xP g j.+1 gj y, storable n y,
              row out'.1 (k + j) = fit [:: n] y.1 & row out'.2 (k + j) = fit [:: n; n] y.2]),
        (forall i, i < T -> i < k \/ k + size rows <= i ->
          row out'.1 i = row out.1 i /\ row out'.2 i = row out.2 i) &
        exists y, reaches rows xP g (size rows) g' y]
  | (g', Raise e) => exists j,
    [/\ j < size rows,
        (forall i, i < j -> exists gi y, reaches rows xP g i.+1 gi y /\ storable n y) &
        iter_rows step (take j.+1 rows) xP g = (g', Raise e) \/
        (e = ValueError /\ exists y, reaches rows xP g j.+1 g' y /\ ~~ storable n y)]
  end.
Proof.
elim: rows k xP out g => [|s rows IH] k xP out g Ho Hk /=.
  split=> //; by exists xP.
have Hk0 : k < T by apply: leq_trans Hk => /=; rewrite addnS ltnS leq_addr.
rewrite {1}/mbind; case Es: (step s xP g) => [g1 [y|e]]; last first.
  by exists 0; split=> //; left; rewrite /= take0 /= /mbind Es.
rewrite {1}/mbind {1}/mlift (store_spec _ Ho Hk0); case: ifP => Hst; last first.
  exists 0; split=> //; right; split=> //; exists y; split; last by rewrite Hst.
  by rewrite /reaches /= take0 /= /mbind Es.
have Ho' := setrow_outshape y Ho Hk0.
have Hk' : k.+1 + size rows <= T by rewrite addSnnS.
move: (IH k.+1 y _ g1 Ho' Hk').
case: (filter_loop _ _ _ _ _) => [g' [out'|e]].
- case=> Hout Hrows Hrest Hlast; split=> //.
  + case=> [|j] /= Hj.
      exists g1, y; split=> //; first by rewrite /reaches /= take0 /= /mbind Es.
        rewrite addn0; have [|-> _] := Hrest k Hk0; first by left.
        case: Ho => -[Hw1 Hd1 Hs1] _ /=.
        by rewrite (row_setrow _ (wf_wfs Hw1) Hd1 Hs1 Hk0 Hk0) eqxx.
      rewrite addn0; have [|_ ->] := Hrest k Hk0; first by left.
      case: Ho => _ [Hw1 Hd1 Hs1] /=.
      by rewrite (row_setrow _ (wf_wfs Hw1) Hd1 Hs1 Hk0 Hk0) eqxx.
    have [gj [yj [H1 H2 H3 H4]]] := Hrows j Hj.
    exists gj, yj; split=> //; rewrite ?addnS //.
    by rewrite /reaches /= /mbind Es.
  + move=> i Hi Hik; have [|-> ->] := Hrest i Hi.
      by case: Hik => H; [left; apply: leq_trans H _|right; rewrite addSnnS].
    have Hne : (i == k) = false.
      apply/eqP => E; case: Hik; rewrite E ?ltnn //.
      by rewrite addnS leqNgt ltnS leq_addr.
    case: Ho => -[Hw1 Hd1 Hs1] [Hw2 Hd2 Hs2] /=.
    by rewrite (row_setrow _ (wf_wfs Hw1) Hd1 Hs1 Hk0 Hi) (row_setrow _ (wf_wfs Hw2) Hd2 Hs2 Hk0 Hi) Hne.
  + by case: Hlast => yl Hl; exists yl; rewrite /reaches /= /mbind Es.
- case=> j [Hj Hpre Hend]; exists j.+1; split=> //.
    case=> [|i] Hi; first by exists g1, y; split=> //; rewrite /reaches /= take0 /= /mbind Es.
    have [gi [yi [H1 H2]]] := Hpre i Hi; exists gi, yi; split=> //.
    by rewrite /reaches /= /mbind Es.
  case: Hend => [H|[He [yj [H1 H2]]]]; [left|right].
    by rewrite [take _ _]/= /= /mbind Es.
  split=> //; exists yj; split=> //; by rewrite /reaches /= /mbind Es.
Qed.

End Step.

(** ** Rows that are zipped *)
Lemma iter_sized (a : arr) : sized a -> np_iter a = Ok [seq row a k | k <- iota 0 (nrows a)].
Proof. by rewrite /np_iter /nrows /sized; case: (shp a). Qed.

Lemma iter_unsized (a : arr) : ~~ sized a -> np_iter a = Raise TypeError.
Proof. by rewrite /np_iter /sized; case: (shp a). Qed.

Lemma len_sized (a : arr) : sized a -> np_len a = Ok (nrows a).
Proof. by rewrite /np_len /nrows /sized; case: (shp a). Qed.

Lemma len_unsized (a : arr) : ~~ sized a -> np_len a = Raise TypeError.
Proof. by rewrite /np_len /sized; case: (shp a). Qed.

(** Row [j] of the parameters, controls and observations. *)
Definition srow_at (self : kf N) (Z U : arr) (j : nat) : srow N :=
  SRow (row (kf_A self) j) (row (kf_H self) j) (row (kf_B self) j) (row U j) (row Z j)
       (row (kf_Q self) j) (row (kf_R self) j).

Lemma zip7_iota (fa fh fb fu fz fq fr : nat -> arr) s na nh nb nu nz nq nr :
  zip7 (map fa (iota s na)) (map fh (iota s nh)) (map fb (iota s nb)) (map fu (iota s nu))
       (map fz (iota s nz)) (map fq (iota s nq)) (map fr (iota s nr)) =
  [seq SRow (fa k) (fh k) (fb k) (fu k) (fz k) (fq k) (fr k) |
    k <- iota s (foldr minn nz [:: na; nh; nb; nu; nq; nr])].
Proof.
elim: na s nh nb nu nz nq nr => [|na IH] s nh nb nu nz nq nr; first by rewrite /= min0n.
case: nh => [|nh]; first by rewrite /= !(min0n, minn0).
case: nb => [|nb]; first by rewrite /= !(min0n, minn0).
case: nu => [|nu]; first by rewrite /= !(min0n, minn0).
case: nz => [|nz]; first by rewrite /= ?(min0n, minn0, if_same, ltn0).
case: nq => [|nq]; first by rewrite /= !(min0n, minn0).
case: nr => [|nr]; first by rewrite /= ?(min0n, minn0).
by rewrite /= !minnSS /= IH.
Qed.

Definition rows_of (self : kf N) (Z : arr) (U : option arr) : seq (srow N) :=
  [seq srow_at self Z (control Z U) k | k <- iota 0 (steps self Z U)].

Lemma size_rows_of self Z U : size (rows_of self Z U) = steps self Z U.
Proof. by rewrite size_map size_iota. Qed.

Lemma steps_le (self : kf N) Z U :
  let n := steps self Z U in
  [/\ n <= nrows Z, n <= nrows (kf_A self), n <= nrows (kf_H self) & n <= nrows (kf_B self)] /\
  [/\ n <= nrows (control Z U), n <= nrows (kf_Q self) & n <= nrows (kf_R self)].
Proof.
by rewrite /steps /=; split; split; rewrite !geq_min leqnn ?orbT.
Qed.

Lemma kf_filterE (self : kf N) (Z : arr) (U : option arr) g : iterable self Z U ->
  kf_filter self Z U g =
  filter_loop (kf_step (kf_I self)) (rows_of self Z U) 0 (kf_xk self, kf_Pk self)
              (alloc N (nrows Z) (kf_size self)) g.
Proof.
rewrite /iterable /= => /and5P [HZ HA HH HB /and4P [HU HQ HR _]].
rewrite /kf_filter /mbind /mlift len_sized // !iter_sized //.
by rewrite zip7_iota.
Qed.

Lemma kf_filter_unsized (self : kf N) (Z : arr) (U : option arr) g : ~~ iterable self Z U ->
  kf_filter self Z U g = (g, Raise TypeError).
Proof.
rewrite /iterable /kf_filter /mbind /mlift.
case HZ: (sized Z); last by rewrite len_unsized ?HZ.
rewrite len_sized //=.
case HA: (sized (kf_A self)); last by rewrite iter_unsized ?HA.
rewrite (iter_sized HA).
case HH: (sized (kf_H self)); last by rewrite iter_unsized ?HH.
rewrite (iter_sized HH).
case HB: (sized (kf_B self)); last by rewrite iter_unsized ?HB.
rewrite (iter_sized HB) -/(control Z U).
case HU: (sized (control Z U)); last by rewrite iter_unsized ?HU.
rewrite (iter_sized HU) (iter_sized HZ).
case HQ: (sized (kf_Q self)); last by rewrite iter_unsized ?HQ.
rewrite (iter_sized HQ).
case HR: (sized (kf_R self)); last by rewrite iter_unsized ?HR.
by rewrite HZ.
Qed.

Lemma by_hand_rows (self : kf N) (Z : arr) (U : option arr) k g : iterable self Z U -> k <= steps self Z U ->
  by_hand self Z (control Z U) k g =
  iter_rows (kf_step (kf_I self)) (take k (rows_of self Z U)) (kf_xk self, kf_Pk self) g.
Proof.
rewrite /iterable /= => /and5P [HZ HA HH HB /and4P [HU HQ HR _]].
elim: k g => [|k IH] g Hk; first by rewrite take0.
rewrite (take_nth (srow_at self Z (control Z U) 0)) ?size_rows_of // iter_rows_rcons.
rewrite (nth_map 0) ?size_iota // nth_iota // add0n.
rewrite [by_hand _ _ _ _]/= /mbind (IH g (ltnW Hk)).
case: (iter_rows _ _ _ _) => [g' [xP|e]] //.
have [[K1 K2 K3 K4] [K5 K6 K7]] := steps_le self Z U.
have E (a : arr) : sized a -> steps self Z U <= nrows a ->
    np_getitem a (Z.of_nat k) = Ok (row a k).
  move=> Ha Hle; apply: (@getitem_row _ _ _ (nrows a) (behead (shp a))).
    by move: Ha; rewrite /sized /nrows; case: (shp a).
  exact: leq_trans Hk Hle.
by rewrite /mlift !E.
Qed.

(** ** The same for the extended filter *)
Definition erow_at (self : ekf N) (Z U : arr) (j : nat) : erow N :=
  ERow (row U j) (row Z j) (row (e_Q self) j) (row (e_R self) j).

Lemma zip4_iota (fu fz fq fr : nat -> arr) s nu nz nq nr :
  zip4 (map fu (iota s nu)) (map fz (iota s nz)) (map fq (iota s nq)) (map fr (iota s nr)) =
  [seq ERow (fu k) (fz k) (fq k) (fr k) | k <- iota s (foldr minn nz [:: nu; nq; nr])].
Proof.
elim: nu s nz nq nr => [|nu IH] s nz nq nr; first by rewrite /= min0n.
case: nz => [|nz]; first by rewrite /= ?(min0n, minn0).
case: nq => [|nq]; first by rewrite /= ?(min0n, minn0).
case: nr => [|nr]; first by rewrite /= ?(min0n, minn0).
by rewrite /= !minnSS /= IH.
Qed.

Definition e_rows_of (self : ekf N) (Z : arr) (U : option arr) : seq (erow N) :=
  [seq erow_at self Z (control Z U) k | k <- iota 0 (e_steps self Z U)].

Lemma size_e_rows_of self Z U : size (e_rows_of self Z U) = e_steps self Z U.
Proof. by rewrite size_map size_iota. Qed.

Lemma e_steps_le (self : ekf N) Z U :
  let n := e_steps self Z U in
  [/\ n <= nrows Z, n <= nrows (control Z U), n <= nrows (e_Q self) & n <= nrows (e_R self)].
Proof. by rewrite /e_steps /=; split; rewrite !geq_min leqnn ?orbT. Qed.

Lemma ekf_filterE (self : ekf N) (Z : arr) (U : option arr) g : e_iterable self Z U ->
  ekf_filter self Z U g =
  filter_loop (ekf_step self) (e_rows_of self Z U) 0 (e_xk self, e_Pk self)
              (alloc N (nrows Z) (e_size self)) g.
Proof.
rewrite /e_iterable /= => /and5P [HZ HU HQ HR _].
rewrite /ekf_filter /mbind /mlift len_sized // !iter_sized //.
by rewrite zip4_iota.
Qed.

Lemma ekf_filter_unsized (self : ekf N) (Z : arr) (U : option arr) g :
  ~~ e_iterable self Z U -> ekf_filter self Z U g = (g, Raise TypeError).
Proof.
rewrite /e_iterable /ekf_filter /mbind /mlift.
case HZ: (sized Z); last by rewrite len_unsized ?HZ.
rewrite len_sized //= -/(control Z U).
case HU: (sized (control Z U)); last by rewrite iter_unsized ?HU.
rewrite (iter_sized HU) (iter_sized HZ).
case HQ: (sized (e_Q self)); last by rewrite iter_unsized ?HQ.
rewrite (iter_sized HQ).
case HR: (sized (e_R self)); last by rewrite iter_unsized ?HR.
by rewrite HZ.
Qed.

Lemma e_by_hand_rows (self : ekf N) (Z : arr) (U : option arr) k g :
  e_iterable self Z U -> k <= e_steps self Z U ->
  e_by_hand self Z (control Z U) k g =
  iter_rows (ekf_step self) (take k (e_rows_of self Z U)) (e_xk self, e_Pk self) g.
Proof.
rewrite /e_iterable /= => /and5P [HZ HU HQ HR _].
elim: k g => [|k IH] g Hk; first by rewrite take0.
rewrite (take_nth (erow_at self Z (control Z U) 0)) ?size_e_rows_of // iter_rows_rcons.
rewrite (nth_map 0) ?size_iota // nth_iota // add0n.
rewrite [e_by_hand _ _ _ _]/= /mbind (IH g (ltnW Hk)).
case: (iter_rows _ _ _ _) => [g' [xP|e]] //.
have [K1 K2 K3 K4] := e_steps_le self Z U.
have E (a : arr) : sized a -> e_steps self Z U <= nrows a ->
    np_getitem a (Z.of_nat k) = Ok (row a k).
  move=> Ha Hle; apply: (@getitem_row _ _ _ (nrows a) (behead (shp a))).
    by move: Ha; rewrite /sized /nrows; case: (shp a).
  exact: leq_trans Hk Hle.
by rewrite /mlift !E.
Qed.

End Loop.
