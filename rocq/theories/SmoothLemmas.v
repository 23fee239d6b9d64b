(** * SmoothLemmas: the smoother, any arithmetic *)
From Coq Require Import ZArith Lia.
From mathcomp Require Import ssreflect ssrfun ssrbool eqtype ssrnat seq.
From Verif Require Import Np NpLemmas Kf Ekf ApiSpec Loop Frame FilterLemmas FilterThms.

Set Implicit Arguments.
Unset Strict Implicit.
Unset Printing Implicit Defensive.
Arguments Z.of_nat : simpl never.

Section Smooth.
Variable N : num.
Notation arr := (arr N).

Definition pairrow (o : arr * arr) (k : nat) : arr * arr := (row o.1 k, row o.2 k).

Lemma row_float T n (o : arr * arr) k : outshape T n o -> k < T ->
  [/\ wf (row o.1 k), dt (row o.1 k) = DFloat & shp (row o.1 k) = [:: n]] /\
  [/\ wf (row o.2 k), dt (row o.2 k) = DFloat & shp (row o.2 k) = [:: n; n]].
Proof.
move=> [[Hw1 Hd1 Hs1] [Hw2 Hd2 Hs2]] Hk; split; split; rewrite ?dt_row ?shp_row ?Hs1 ?Hs2 //.
  exact: (wf_row Hw1 Hs1 Hk).
exact: (wf_row Hw2 Hs2 Hk).
Qed.

Lemma outshape_set T n (o : arr * arr) k x P : outshape T n o -> k < T ->
  outshape T n (setrow o.1 k x, setrow o.2 k P) /\
  forall i, i < T -> pairrow (setrow o.1 k x, setrow o.2 k P) i =
    if i == k then (fit [:: n] x, fit [:: n; n] P) else pairrow o i.
Proof.
move=> Ho Hk; have [Ho1 Ho2] := Ho.
split; first exact: (setrow_outshape (x, P) Ho Hk).
case: Ho1 Ho2 => Hw1 Hd1 Hs1 [Hw2 Hd2 Hs2] i Hi; rewrite /pairrow.
rewrite (row_setrow _ (wf_wfs Hw1) Hd1 Hs1 Hk Hi) (row_setrow _ (wf_wfs Hw2) Hd2 Hs2 Hk Hi).
by case: eqP.
Qed.

(** Initialisation: the last row is the filter's. *)
Lemma smooth_init_ok T n (o : arr * arr) : outshape T.+1 n o ->
  exists2 sm, smooth_init T.+1 n o = Ok sm &
    outshape T.+1 n sm /\ pairrow sm T = pairrow o T.
Proof.
move=> Ho; rewrite /smooth_init.
have [[Hw1 Hd1 Hs1] [Hw2 Hd2 Hs2]] := Ho.
rewrite /np_getitem (np_pos_last Hs1) (np_pos_last Hs2).
have Ha := alloc_outshape N T.+1 n.
have [[Hwa Hda Hsa] [Hwb Hdb Hsb]] := Ha.
have [[Rw1 Rd1 Rs1] [Rw2 Rd2 Rs2]] := row_float Ho (ltnSn T).
have F1 : fits (behead (shp (alloc N T.+1 n).1)) (row o.1 T) by rewrite Hsa -Rs1 fits_id.
have F2 : fits (behead (shp (alloc N T.+1 n).2)) (row o.2 T) by rewrite Hsb -Rs2 fits_id.
cbn [rbind].
rewrite (setitem_at _ (np_pos_last Hsa)) F1; cbn [rbind].
rewrite (setitem_at _ (np_pos_last Hsb)) F2; cbn [rbind].
eexists; first by [].
have [H1 H2] := outshape_set (row o.1 T) (row o.2 T) Ha (ltnSn T); split; first exact: H1.
by rewrite H2 // eqxx /pairrow -{1}Rs1 fit_id // -{1}Rs2 fit_id.
Qed.

Lemma smooth_init_empty n (o : arr * arr) : outshape 0 n o -> smooth_init 0 n o = Raise IndexError.
Proof. by move=> [[_ _ Hs] _]; rewrite /smooth_init /np_getitem (np_pos_empty Hs). Qed.

(** One backward step. *)
Lemma smooth_body_ok T n (est sm : arr * arr) k (pred : arr * arr -> res (arr * arr)) A ahead r :
  outshape T n est -> outshape T n sm -> k.+1 < T ->
  pred (pairrow est k) = Ok ahead ->
  smooth_body est sm k ahead A = Ok r ->
  exists x P, [/\ rts_by_hand pred A (pairrow est k) (pairrow sm k.+1) = Ok (x, P),
    storable n (x, P), outshape T n r &
    forall i, i < T -> pairrow r i =
      if i == k then (fit [:: n] x, fit [:: n; n] P) else pairrow sm i].
Proof.
move=> He Hs Hk Hp; have Hk0 : k < T by exact: ltnW.
have [[_ _ Es1] [_ _ Es2]] := He; have [[_ _ Ss1] [_ _ Ss2]] := Hs.
rewrite /smooth_body (getitem_row Es2 Hk0) (getitem_row Es1 Hk0).
rewrite (getitem_row Ss1 Hk) (getitem_row Ss2 Hk) /= /smooth_gain /rts_by_hand Hp /=.
case: (np_matmul (row est.2 k) _) => //= PA; case: (np_solve _ _) => //= X.
rewrite /smooth_state; case: (np_sub (row sm.1 k.+1) _) => //= dx.
case: (np_matmul _ dx) => //= Gdx; case: (np_add _ Gdx) => //= x.
rewrite (setitem_nat _ Ss1 Hk0); case: ifP => //= Fx.
rewrite /smooth_cov; case: (np_sub (row sm.2 k.+1) _) => //= dP.
case: (np_matmul dP _) => //= dPG; case: (np_matmul _ dPG) => //= GdPG.
case: (np_add _ GdPG) => //= P.
rewrite (setitem_nat _ Ss2 Hk0); case: ifP => //= FP [<-].
exists x, P; have [H1 H2] := outshape_set x P Hs Hk0; split=> //.
by rewrite storableE Fx FP.
Qed.

(** The loop. *)
Section Loop.
Variables (step : nat -> arr * arr -> res (arr * arr)).
Variables (pred : nat -> arr * arr -> res (arr * arr)) (A : nat -> res arr).
Variables (T n : nat) (est : arr * arr).
Hypothesis He : outshape T n est.
Hypothesis Hstep : forall k sm r, outshape T n sm -> k.+1 < T -> step k sm = Ok r ->
  exists a x P, [/\ A k = Ok a,
    rts_by_hand (pred k) a (pairrow est k) (pairrow sm k.+1) = Ok (x, P),
    storable n (x, P), outshape T n r &
    forall i, i < T -> pairrow r i =
      if i == k then (fit [:: n] x, fit [:: n; n] P) else pairrow sm i].

Lemma smooth_loop_ok j sm r : outshape T n sm -> j < T ->
  smooth_loop step j sm = Ok r ->
  [/\ outshape T n r,
      (forall i, j <= i < T -> pairrow r i = pairrow sm i) &
      (forall k, k < j -> exists a x P, [/\ A k = Ok a,
        rts_by_hand (pred k) a (pairrow est k) (pairrow r k.+1) = Ok (x, P),
        storable n (x, P) & pairrow r k = (fit [:: n] x, fit [:: n; n] P)])].
Proof.
elim: j sm => [|j IH] sm Hs Hj /=; first by move=> [<-].
case E: (step j sm) => [sm'|] //= E'.
have [a [x [P [Ha A1 A2 A3 A4]]]] := Hstep Hs Hj E.
have [B1 B2 B3] := IH sm' A3 (ltnW Hj) E'; split=> //.
- move=> i /andP [Hi HiT]; rewrite B2 ?HiT ?(ltnW Hi) // A4 //.
  by case: eqP Hi => // ->; rewrite ltnn.
- move=> k; rewrite ltnS leq_eqVlt => /orP [/eqP ->|Hk]; last exact: B3.
  exists a, x, P; split=> //; last first.
    by rewrite B2 ?leqnn ?(ltnW Hj) // A4 ?(ltnW Hj) // eqxx.
  rewrite B2; last by rewrite leqnSn Hj.
  by rewrite A4 // gtn_eqF // A1.
Qed.

End Loop.

(** ** The standard smoother *)
Definition kf_ahead (self : kf N) (U : arr) (k : nat) (xP : arr * arr) : res (arr * arr) :=
  kf_predict (row (kf_A self) k.+1) xP.1 (Some (row (kf_B self) k.+1)) (Some (row U k.+1))
             xP.2 (row (kf_Q self) k.+1).

Definition e_ahead (self : ekf N) (U : arr) (k : nat) (xP : arr * arr) : res (arr * arr) :=
  ekf_predict self xP.1 (Some (row U k.+1)) xP.2 (row (e_Q self) k.+1).

Lemma getitem_ok (a : arr) k b : np_getitem a (Z.of_nat k) = Ok b -> k < nrows a /\ b = row a k.
Proof.
rewrite /np_getitem /nrows; case E: (shp a) => [|d sh].
  by rewrite /np_pos E.
case: (ltnP k d) => H; last by rewrite (np_pos_big E H).
by rewrite (np_pos_nat E H) /= => -[<-].
Qed.

Lemma kf_smooth_step_ok self U T n est k sm r :
  outshape T n est -> outshape T n sm -> k.+1 < T ->
  kf_smooth_step self U est k sm = Ok r ->
  exists a x P, [/\ Ok (row (kf_A self) k.+1) = Ok a,
    rts_by_hand (kf_ahead self U k) a (pairrow est k) (pairrow sm k.+1) = Ok (x, P),
    storable n (x, P), outshape T n r &
    forall i, i < T -> pairrow r i =
      if i == k then (fit [:: n] x, fit [:: n; n] P) else pairrow sm i].
Proof.
move=> He Hs Hk; rewrite /kf_smooth_step.
case EA: (np_getitem (kf_A self) _) => [a|] //=; have [_ ->] := getitem_ok EA.
case EQ: (np_getitem (kf_Q self) _) => [q|] //=; have [_ ->] := getitem_ok EQ.
case EB: (np_getitem (kf_B self) _) => [b|] //=; have [_ ->] := getitem_ok EB.
case EU: (np_getitem U _) => [u|] //=; have [_ ->] := getitem_ok EU.
have [[_ _ Es1] [_ _ Es2]] := He.
rewrite (getitem_row Es2 (ltnW Hk)) (getitem_row Es1 (ltnW Hk)) /=.
case Ep: (kf_predict _ _ _ _ _ _) => [ahead|] //= Eb.
have [x [P H]] := smooth_body_ok (pred := kf_ahead self U k) He Hs Hk Ep Eb.
by exists (row (kf_A self) k.+1), x, P; case: H.
Qed.

Lemma ekf_smooth_step_ok self U T n est k sm r :
  outshape T n est -> outshape T n sm -> k.+1 < T ->
  ekf_smooth_step self U est k sm = Ok r ->
  exists a x P, [/\ e_jA self (row est.1 k) (Some (row U k.+1)) = Ok a,
    rts_by_hand (e_ahead self U k) a (pairrow est k) (pairrow sm k.+1) = Ok (x, P),
    storable n (x, P), outshape T n r &
    forall i, i < T -> pairrow r i =
      if i == k then (fit [:: n] x, fit [:: n; n] P) else pairrow sm i].
Proof.
move=> He Hs Hk; rewrite /ekf_smooth_step.
case EQ: (np_getitem (e_Q self) _) => [q|] //=; have [_ ->] := getitem_ok EQ.
case EU: (np_getitem U _) => [u|] //=; have [_ ->] := getitem_ok EU.
have [[_ _ Es1] [_ _ Es2]] := He.
rewrite (getitem_row Es2 (ltnW Hk)) (getitem_row Es1 (ltnW Hk)) /=.
case Ep: (ekf_predict _ _ _ _ _) => [ahead|] //=.
case Ea: (e_jA _ _ _) => [a|] //= Eb.
have [x [P H]] := smooth_body_ok (pred := e_ahead self U k) He Hs Hk Ep Eb.
by exists a, x, P; case: H.
Qed.

(** Everything known of a successful smooth. *)
Lemma smooth_ok (self : kf N) Z U g g' xs Ps :
  kf_smooth self Z U g = (g', Ok (xs, Ps)) ->
  exists st er T, [/\ kf_filter self Z U g = (g', Ok (st, er)), nrows Z = T.+1,
    outshape T.+1 (kf_size self) (xs, Ps), pairrow (xs, Ps) T = pairrow (st, er) T &
    forall k, k < T -> exists x P,
      [/\ rts_by_hand (kf_ahead self (control Z U) k) (row (kf_A self) k.+1)
                      (pairrow (st, er) k) (pairrow (xs, Ps) k.+1) = Ok (x, P),
          storable (kf_size self) (x, P) &
          pairrow (xs, Ps) k = (fit [:: kf_size self] x, fit [:: kf_size self; kf_size self] P)]].
Proof.
rewrite /kf_smooth {1}/mbind; case Ef: (kf_filter self Z U g) => [g1 [[st er]|e]] //.
have Hit := filter_iterable Ef.
have HZ : sized Z by case/andP: Hit.
rewrite /mbind /mlift (len_sized HZ).
have [Ho _ _ _] := filter_ok Ef.
case ET: (nrows Z) Ho => [|T] Ho; first by rewrite (smooth_init_empty Ho).
have [sm -> [Hs Hl]] := smooth_init_ok Ho.
rewrite subn1 /=; case El: (smooth_loop _ _ _) => [r|] // [Eg Er]; rewrite Er in El.
have Hst := @kf_smooth_step_ok self (control Z U) T.+1 (kf_size self) (st, er).
have [B1 B2 B3] := smooth_loop_ok (fun k sm r => Hst k sm r Ho) Hs (ltnSn T) El.
exists st, er, T; split=> //; first by rewrite Eg.
  by rewrite B2 ?leqnn ?ltnSn.
move=> k /B3 [a [x [P [[<-] C1 C2 C3]]]]; by exists x, P.
Qed.

Lemma e_smooth_ok (self : ekf N) Z U g g' xs Ps :
  ekf_smooth self Z U g = (g', Ok (xs, Ps)) ->
  exists st er T, [/\ ekf_filter self Z U g = (g', Ok (st, er)), nrows Z = T.+1,
    outshape T.+1 (e_size self) (xs, Ps), pairrow (xs, Ps) T = pairrow (st, er) T &
    forall k, k < T -> exists a x P,
      [/\ e_jA self (row st k) (Some (row (control Z U) k.+1)) = Ok a,
          rts_by_hand (e_ahead self (control Z U) k) a
                      (pairrow (st, er) k) (pairrow (xs, Ps) k.+1) = Ok (x, P),
          storable (e_size self) (x, P) &
          pairrow (xs, Ps) k = (fit [:: e_size self] x, fit [:: e_size self; e_size self] P)]].
Proof.
rewrite /ekf_smooth {1}/mbind; case Ef: (ekf_filter self Z U g) => [g1 [[st er]|e]] //.
have Hit := e_filter_iterable Ef.
have HZ : sized Z by case/andP: Hit.
rewrite /mbind /mlift (len_sized HZ).
have [Ho _ _ _] := e_filter_ok Ef.
case ET: (nrows Z) Ho => [|T] Ho; first by rewrite (smooth_init_empty Ho).
have [sm -> [Hs Hl]] := smooth_init_ok Ho.
rewrite subn1 /=; case El: (smooth_loop _ _ _) => [r|] // [Eg Er]; rewrite Er in El.
have Hst := @ekf_smooth_step_ok self (control Z U) T.+1 (e_size self) (st, er).
have [B1 B2 B3] := smooth_loop_ok (fun k sm r => Hst k sm r Ho) Hs (ltnSn T) El.
exists st, er, T; split=> //; first by rewrite Eg.
by rewrite B2 ?leqnn ?ltnSn.
Qed.

(** The smoother logs what the filter logs. *)
Lemma smooth_gains (self : kf N) Z U g : (kf_smooth self Z U g).1 = (kf_filter self Z U g).1.
Proof.
rewrite /kf_smooth /mbind /mlift; case: (kf_filter self Z U g) => [g1 [o|e]] //.
by case: (np_len Z) => // T; case: (smooth_init _ _ _).
Qed.

Lemma e_smooth_gains (self : ekf N) Z U g : (ekf_smooth self Z U g).1 = (ekf_filter self Z U g).1.
Proof.
rewrite /ekf_smooth /mbind /mlift; case: (ekf_filter self Z U g) => [g1 [o|e]] //.
by case: (np_len Z) => // T; case: (smooth_init _ _ _).
Qed.

Lemma pairrow_eq (o1 o2 : arr * arr) k : pairrow o1 k = pairrow o2 k ->
  row o1.1 k = row o2.1 k /\ row o1.2 k = row o2.2 k.
Proof. by move=> H; split; [exact: (f_equal fst H)|exact: (f_equal snd H)]. Qed.

(** C15 *)
Lemma smooth_last (self : kf N) Z U g g' xs Ps :
  kf_smooth self Z U g = (g', Ok (xs, Ps)) ->
  exists st er, [/\ kf_filter self Z U g = (g', Ok (st, er)),
    row xs (nrows Z).-1 = row st (nrows Z).-1, row Ps (nrows Z).-1 = row er (nrows Z).-1 &
    nrows Z = 1 -> (xs, Ps) = (st, er)].
Proof.
case/smooth_ok=> st [er [T [Ef HT Ho /pairrow_eq [H1 H2] _]]]; exists st, er; rewrite HT.
split=> // -[E]; have [Ho' _ _ _] := filter_ok Ef; rewrite HT E in Ho'; rewrite E in Ho H1 H2.
by apply: (outshape_ext Ho Ho') => -[|i].
Qed.

Lemma e_smooth_last (self : ekf N) Z U g g' xs Ps :
  ekf_smooth self Z U g = (g', Ok (xs, Ps)) ->
  exists st er, [/\ ekf_filter self Z U g = (g', Ok (st, er)),
    row xs (nrows Z).-1 = row st (nrows Z).-1, row Ps (nrows Z).-1 = row er (nrows Z).-1 &
    nrows Z = 1 -> (xs, Ps) = (st, er)].
Proof.
case/e_smooth_ok=> st [er [T [Ef HT Ho /pairrow_eq [H1 H2] _]]]; exists st, er; rewrite HT.
split=> // -[E]; have [Ho' _ _ _] := e_filter_ok Ef; rewrite HT E in Ho'; rewrite E in Ho H1 H2.
by apply: (outshape_ext Ho Ho') => -[|i].
Qed.

(** One observation: smooth cannot fail where filter does not. *)
Lemma smooth_one (self : kf N) Z U g g' st er : nrows Z = 1 ->
  kf_filter self Z U g = (g', Ok (st, er)) -> kf_smooth self Z U g = (g', Ok (st, er)).
Proof.
move=> HT Ef; have [Ho _ _ _] := filter_ok Ef.
have HZ : sized Z by case/andP: (filter_iterable Ef).
rewrite /kf_smooth /mbind Ef /mlift (len_sized HZ) HT; rewrite HT in Ho.
have [sm -> [Hs /pairrow_eq [H1 H2]]] := smooth_init_ok Ho; congr (_, Ok _).
by apply: (outshape_ext Hs Ho) => -[|i].
Qed.

Lemma e_smooth_one (self : ekf N) Z U g g' st er : nrows Z = 1 ->
  ekf_filter self Z U g = (g', Ok (st, er)) -> ekf_smooth self Z U g = (g', Ok (st, er)).
Proof.
move=> HT Ef; have [Ho _ _ _] := e_filter_ok Ef.
have HZ : sized Z by case/andP: (e_filter_iterable Ef).
rewrite /ekf_smooth /mbind Ef /mlift (len_sized HZ) HT; rewrite HT in Ho.
have [sm -> [Hs /pairrow_eq [H1 H2]]] := smooth_init_ok Ho; congr (_, Ok _).
by apply: (outshape_ext Hs Ho) => -[|i].
Qed.

Lemma smooth_shapes (self : kf N) Z U g g' xs Ps :
  kf_smooth self Z U g = (g', Ok (xs, Ps)) ->
  float_shaped [:: nrows Z; kf_size self] xs /\
  float_shaped [:: nrows Z; kf_size self; kf_size self] Ps.
Proof. by case/smooth_ok => st [er [T [_ -> /outshape_float [] //]]]. Qed.

Lemma e_smooth_shapes (self : ekf N) Z U g g' xs Ps :
  ekf_smooth self Z U g = (g', Ok (xs, Ps)) ->
  float_shaped [:: nrows Z; e_size self] xs /\
  float_shaped [:: nrows Z; e_size self; e_size self] Ps.
Proof. by case/e_smooth_ok => st [er [T [_ -> /outshape_float [] //]]]. Qed.

(** ** C16: what smooth refuses *)
Lemma smooth_empty (self : kf N) Z U g g' st er : nrows Z = 0 ->
  kf_filter self Z U g = (g', Ok (st, er)) -> kf_smooth self Z U g = (g', Raise IndexError).
Proof.
move=> HT Ef; have [Ho _ _ _] := filter_ok Ef.
have HZ : sized Z by case/andP: (filter_iterable Ef).
rewrite /kf_smooth /mbind Ef /mlift (len_sized HZ) HT; rewrite HT in Ho.
by rewrite (smooth_init_empty Ho).
Qed.

Lemma e_smooth_empty (self : ekf N) Z U g g' st er : nrows Z = 0 ->
  ekf_filter self Z U g = (g', Ok (st, er)) -> ekf_smooth self Z U g = (g', Raise IndexError).
Proof.
move=> HT Ef; have [Ho _ _ _] := e_filter_ok Ef.
have HZ : sized Z by case/andP: (e_filter_iterable Ef).
rewrite /ekf_smooth /mbind Ef /mlift (len_sized HZ) HT; rewrite HT in Ho.
by rewrite (smooth_init_empty Ho).
Qed.

Lemma getitem_raise (a : arr) k : nrows a <= k -> np_getitem a (Z.of_nat k) = Raise IndexError.
Proof.
rewrite /np_getitem /nrows; case E: (shp a) => [|d sh] /= H; first by rewrite /np_pos E.
by rewrite (np_pos_big E H).
Qed.

Lemma getitem_cases (a : arr) k :
  np_getitem a (Z.of_nat k) = if k < nrows a then Ok (row a k) else Raise IndexError.
Proof.
case: ltnP => H; last exact: getitem_raise.
move: H; rewrite /nrows; case E: (shp a) => [|d sh] //= H; exact: (getitem_row E H).
Qed.

Lemma smooth_short (self : kf N) Z U g g' st er : 1 < nrows Z ->
  [|| nrows (kf_A self) < nrows Z, nrows (kf_Q self) < nrows Z, nrows (kf_B self) < nrows Z
    | nrows (control Z U) < nrows Z] ->
  kf_filter self Z U g = (g', Ok (st, er)) -> kf_smooth self Z U g = (g', Raise IndexError).
Proof.
move=> HT Hshort Ef; have [Ho _ _ _] := filter_ok Ef.
have HZ : sized Z by case/andP: (filter_iterable Ef).
rewrite /kf_smooth /mbind Ef /mlift (len_sized HZ).
case ET: (nrows Z) HT Hshort Ho => [|[|T]] // _ Hshort Ho.
have [sm -> [Hs _]] := smooth_init_ok Ho.
rewrite subn1 [_.+2.-1]/= [smooth_loop _ _ _]/=; congr pair.
rewrite /kf_smooth_step !getitem_cases !ltnNge.
move: Hshort; rewrite !ltnS -/(control Z U).
by case: (nrows _ <= T.+1) => //=; case: (nrows _ <= T.+1) => //=; case: (nrows _ <= T.+1) => //= ->.
Qed.

Lemma e_smooth_short (self : ekf N) Z U g g' st er : 1 < nrows Z ->
  (nrows (e_Q self) < nrows Z) || (nrows (control Z U) < nrows Z) ->
  ekf_filter self Z U g = (g', Ok (st, er)) -> ekf_smooth self Z U g = (g', Raise IndexError).
Proof.
move=> HT Hshort Ef; have [Ho _ _ _] := e_filter_ok Ef.
have HZ : sized Z by case/andP: (e_filter_iterable Ef).
rewrite /ekf_smooth /mbind Ef /mlift (len_sized HZ).
case ET: (nrows Z) HT Hshort Ho => [|[|T]] // _ Hshort Ho.
have [sm -> [Hs _]] := smooth_init_ok Ho.
rewrite subn1 [_.+2.-1]/= [smooth_loop _ _ _]/=; congr pair.
rewrite /ekf_smooth_step !getitem_cases !ltnNge.
move: Hshort; rewrite !ltnS -/(control Z U).
by case: (nrows _ <= T.+1) => //= ->.
Qed.

End Smooth.
