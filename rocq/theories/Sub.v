(** * Sub: filter and smooth as inherited by subclasses of KalmanFilter

    filter and smooth call self.predict and self.update (and smooth self.filter):
    a subclass that overrides these changes what filter and smooth do.  [S] is the
    state of an object of the subclass, whatever attributes it has; [attrs] reads
    from it the attributes of KalmanFilter.  Methods may change the state.  They
    are assumed not to write into existing arrays. *)
From Coq Require Import ZArith Lia.
From mathcomp Require Import ssreflect ssrfun ssrbool eqtype ssrnat seq.
From Verif Require Import Np NpLemmas Kf Ekf ApiSpec Loop Frame FilterLemmas FilterThms SmoothLemmas.

Set Implicit Arguments.
Unset Strict Implicit.
Unset Printing Implicit Defensive.

(** ** Model *)
Section Model.
Variables (N : num) (S : Type) (attrs : S -> kf N).
Notation arr := (arr N).

(** A method: from the state before the call to the state after it, with a value
    or an exception. *)
Definition act (T : Type) := S -> S * res T.
Definition aret T (x : T) : act T := fun s => (s, Ok x).
Definition alift T (r : res T) : act T := fun s => (s, r).
Definition abind V T (m : act V) (f : V -> act T) : act T := fun s =>
  match m s with
  | (s', Ok x) => f x s'
  | (s', Raise e) => (s', Raise e)
  end.
Notation "'ado' x <- m ; f" := (abind m (fun x => f))
  (at level 200, x name, m at level 100, f at level 200).

(** The methods predict and update of the subclass. *)
Record cls := Cls {
  c_predict : arr -> arr -> option arr -> option arr -> arr -> arr -> act (arr * arr);
  c_update : arr -> arr -> arr -> arr -> arr -> act (arr * arr)
}.
Variable c : cls.

(** standard.py:293-301 *)
Definition sub_step (s : srow N) (xP : arr * arr) : act (arr * arr) :=
  ado pr <- c_predict c (rA s) xP.1 (Some (rB s)) (Some (rU s)) xP.2 (rQ s);
  c_update c (rH s) pr.1 pr.2 (rZ s) (rR s).

(** standard.py:292-308 *)
Fixpoint sub_loop (rows : seq (srow N)) (k : nat) (xP out : arr * arr) : act (arr * arr) :=
  match rows with
  | [::] => aret out
  | s :: rows' =>
    ado xP' <- sub_step s xP;
    ado out' <- alift (store out k xP');
    sub_loop rows' k.+1 xP' out'
  end.

(** standard.py:277-310: everything is read from self before the first call of
    predict. *)
Definition sub_filter (Z : arr) (U : option arr) : act (arr * arr) := fun o =>
  let self := attrs o in
  (ado T <- alift (np_len Z);
   let U' := check_none_and_broadcast U Z in
   ado a <- alift (np_iter (kf_A self));
   ado h <- alift (np_iter (kf_H self));
   ado b <- alift (np_iter (kf_B self));
   ado u <- alift (np_iter U');
   ado z <- alift (np_iter Z);
   ado q <- alift (np_iter (kf_Q self));
   ado r <- alift (np_iter (kf_R self));
   sub_loop (zip7 a h b u z q r) 0 (kf_xk self, kf_Pk self) (alloc N T (kf_size self))) o.

(** standard.py:364-383: index [k]; A, B and Q were read from self after filter
    returned (:357-359). *)
Definition sub_smooth_step (self : kf N) (U : arr) (xP_est : arr * arr) (k : nat)
    (sm : arr * arr) : act (arr * arr) :=
  ado Ak <- alift (np_getitem (kf_A self) (Z.of_nat k.+1));
  ado Qk <- alift (np_getitem (kf_Q self) (Z.of_nat k.+1));
  ado Bk <- alift (np_getitem (kf_B self) (Z.of_nat k.+1));
  ado uk <- alift (np_getitem U (Z.of_nat k.+1));
  ado Pk <- alift (np_getitem xP_est.2 (Z.of_nat k));
  ado xk <- alift (np_getitem xP_est.1 (Z.of_nat k));
  ado ahead <- c_predict c Ak xk (Some Bk) (Some uk) Pk Qk;
  alift (smooth_body xP_est sm k ahead Ak).

Fixpoint sub_smooth_loop (step : nat -> arr * arr -> act (arr * arr))
    (j : nat) (sm : arr * arr) : act (arr * arr) :=
  match j with
  | 0 => aret sm
  | k.+1 => ado sm' <- step k sm; sub_smooth_loop step k sm'
  end.

(** standard.py:344-385; [filter] is self.filter, inherited or overridden. *)
Definition sub_smooth (filter : arr -> option arr -> act (arr * arr)) (Z : arr) (U : option arr)
    : act (arr * arr) :=
  ado xP_est <- filter Z U;
  ado T <- alift (np_len Z);
  fun o => let self := attrs o in
  (ado sm <- alift (smooth_init T (kf_size self) xP_est);
   let U' := check_none_and_broadcast U Z in
   sub_smooth_loop (sub_smooth_step self U' xP_est) (T - 1) sm) o.

(** ** By hand, in terms of the overridden methods *)
Fixpoint sub_by_hand (self : kf N) (Z U : arr) (k : nat) : act (arr * arr) :=
  match k with
  | 0 => aret (kf_xk self, kf_Pk self)
  | j.+1 =>
    ado xP <- sub_by_hand self Z U j;
    ado pr <- c_predict c (row (kf_A self) j) xP.1 (Some (row (kf_B self) j)) (Some (row U j)) xP.2
                (row (kf_Q self) j);
    c_update c (row (kf_H self) j) pr.1 pr.2 (row Z j) (row (kf_R self) j)
  end.

(** ** The loop *)
Lemma abindA V T W (m : act V) (f : V -> act T) (h : T -> act W) s :
  abind (abind m f) h s = abind m (fun x => abind (f x) h) s.
Proof. by rewrite /abind; case: (m s) => s' [x|e]. Qed.

Fixpoint sub_rows (rows : seq (srow N)) (xP : arr * arr) : act (arr * arr) :=
  match rows with
  | [::] => aret xP
  | s :: rows' => ado xP' <- sub_step s xP; sub_rows rows' xP'
  end.

Lemma sub_rows_rcons rows s xP o :
  sub_rows (rcons rows s) xP o = abind (sub_rows rows xP) (sub_step s) o.
Proof.
elim: rows xP o => [|s' rows IH] xP o /=.
  by rewrite /abind /aret; case: (sub_step s xP o) => o' [x|e].
rewrite abindA /abind; case: (sub_step s' xP o) => o' [x|e] //; exact: IH.
Qed.

Lemma sub_loop_spec n T rows k xP out o :
  outshape T n out -> k + size rows <= T ->
  match sub_loop rows k xP out o with
  | (o', Ok out') =>
    [/\ outshape T n out',
        (forall j, j < size rows -> exists oj y,
          [/\ sub_rows (take j.+1 rows) xP o = (oj, Ok y), storable n y,
              row out'.1 (k + j) = fit [:: n] y.1 & row out'.2 (k + j) = fit [:: n; n] y.2]),
        (forall i, i < T -> i < k \/ k + size rows <= i ->
          row out'.1 i = row out.1 i /\ row out'.2 i = row out.2 i) &
        exists y, sub_rows rows xP o = (o', Ok y)]
  | (o', Raise e) => exists j,
    [/\ j < size rows,
        (forall i, i < j -> exists oi y, sub_rows (take i.+1 rows) xP o = (oi, Ok y) /\ storable n y) &
        sub_rows (take j.+1 rows) xP o = (o', Raise e) \/
        (e = ValueError /\ exists y, sub_rows (take j.+1 rows) xP o = (o', Ok y) /\ ~~ storable n y)]
  end.
Proof.
elim: rows k xP out o => [|s rows IH] k xP out o Ho Hk /=.
  split=> //; by exists xP.
have Hk0 : k < T by apply: leq_trans Hk => /=; rewrite addnS ltnS leq_addr.
rewrite {1}/abind; case Es: (sub_step s xP o) => [o1 [y|e]]; last first.
  by exists 0; split=> //; left; rewrite /= take0 /= /abind Es.
rewrite {1}/abind {1}/alift (store_spec _ Ho Hk0); case: ifP => Hst; last first.
  exists 0; split=> //; right; split=> //; exists y; split; last by rewrite Hst.
  by rewrite /= take0 /= /abind Es.
have Ho' := setrow_outshape y Ho Hk0.
have Hk' : k.+1 + size rows <= T by rewrite addSnnS.
move: (IH k.+1 y _ o1 Ho' Hk').
case: (sub_loop _ _ _ _ _) => [o' [out'|e]].
- case=> Hout Hrows Hrest Hlast; split=> //.
  + case=> [|j] /= Hj.
      exists o1, y; split=> //; first by rewrite /= take0 /= /abind Es.
        rewrite addn0; have [|-> _] := Hrest k Hk0; first by left.
        case: Ho => -[Hw1 Hd1 Hs1] _ /=.
        by rewrite (row_setrow _ (wf_wfs Hw1) Hd1 Hs1 Hk0 Hk0) eqxx.
      rewrite addn0; have [|_ ->] := Hrest k Hk0; first by left.
      case: Ho => _ [Hw1 Hd1 Hs1] /=.
      by rewrite (row_setrow _ (wf_wfs Hw1) Hd1 Hs1 Hk0 Hk0) eqxx.
    have [gj [yj [H1 H2 H3 H4]]] := Hrows j Hj.
    exists gj, yj; split=> //; rewrite ?addnS //.
    by rewrite /= /abind Es.
  + move=> i Hi Hik; have [|-> ->] := Hrest i Hi.
      by case: Hik => H; [left; apply: leq_trans H _|right; rewrite addSnnS].
    have Hne : (i == k) = false.
      apply/eqP => E; case: Hik; rewrite E ?ltnn //.
      by rewrite addnS leqNgt ltnS leq_addr.
    case: Ho => -[Hw1 Hd1 Hs1] [Hw2 Hd2 Hs2] /=.
    by rewrite (row_setrow _ (wf_wfs Hw1) Hd1 Hs1 Hk0 Hi) (row_setrow _ (wf_wfs Hw2) Hd2 Hs2 Hk0 Hi) Hne.
  + by case: Hlast => yl Hl; exists yl; rewrite /= /abind Es.
- case=> j [Hj Hpre Hend]; exists j.+1; split=> //.
    case=> [|i] Hi; first by exists o1, y; split=> //; rewrite /= take0 /= /abind Es.
    have [gi [yi [H1 H2]]] := Hpre i Hi; exists gi, yi; split=> //.
    by rewrite /= /abind Es.
  case: Hend => [H|[He [yj [H1 H2]]]]; [left|right].
    by rewrite [take _ _]/= /= /abind Es.
  split=> //; exists yj; split=> //; by rewrite /= /abind Es.
Qed.

Lemma sub_filterE Z U o : iterable (attrs o) Z U ->
  sub_filter Z U o =
  sub_loop (rows_of (attrs o) Z U) 0 (kf_xk (attrs o), kf_Pk (attrs o)) (alloc N (nrows Z) (kf_size (attrs o))) o.
Proof.
rewrite /iterable /= => /and5P [HZ HA HH HB /and4P [HU HQ HR _]].
rewrite /sub_filter /abind /alift len_sized // !iter_sized //.
by rewrite zip7_iota.
Qed.

Lemma sub_filter_unsized Z U o : ~~ iterable (attrs o) Z U -> sub_filter Z U o = (o, Raise TypeError).
Proof.
rewrite /iterable /sub_filter /abind /alift; set self := attrs o.
case HZ: (sized Z); last by rewrite len_unsized ?HZ.
rewrite len_sized //=.
case HA: (sized (kf_A self)); last by rewrite iter_unsized ?HA.
rewrite (iter_sized HA).
case HH: (sized (kf_H self)); last by rewrite iter_unsized ?HH.
rewrite (iter_sized HH).
case HB: (sized (kf_B self)); last by rewrite iter_unsized ?HB.
rewrite (iter_sized HB) -/(control Z U).
case HU: (sized (control Z U)); last by rewrite iter_unsized ?HU.
rewrite (iter_sized HU) (iter_sized HZ).
case HQ: (sized (kf_Q self)); last by rewrite iter_unsized ?HQ.
rewrite (iter_sized HQ).
case HR: (sized (kf_R self)); last by rewrite iter_unsized ?HR.
by rewrite HZ.
Qed.

Lemma sub_by_hand_rows self Z U k o : k <= steps self Z U ->
  sub_by_hand self Z (control Z U) k o =
  sub_rows (take k (rows_of self Z U)) (kf_xk self, kf_Pk self) o.
Proof.
elim: k o => [|k IH] o Hk; first by rewrite take0.
have Hs : k < size (rows_of self Z U) by rewrite size_rows_of.
have [s0 _] : exists s0 : srow N, True by case: (rows_of self Z U) Hs => // s0; exists s0.
rewrite (take_nth s0) // sub_rows_rcons /= /abind IH ?(ltnW Hk) //.
case: (sub_rows _ _ _) => [o' [xP|e]] //.
by rewrite /rows_of (nth_map 0) ?size_iota // nth_iota // add0n.
Qed.

End Model.

Notation "'ado' x <- m ; f" := (abind m (fun x => f))
  (at level 200, x name, m at level 100, f at level 200).
