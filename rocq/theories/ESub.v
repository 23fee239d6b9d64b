(** * ESub: ExtendedKalmanFilter with overridden methods and with functions that have effects

    As in [Sub]: [S] is the state of the program -- an object of a subclass, counters,
    logs, random number generators that the user's functions use --, [attrs] reads from
    it the attributes xk, Pk, Q, R, state_size and __I (the callables in it are not used
    here).  Methods and functions are assumed not to write into existing arrays. *)
From Coq Require Import ZArith Lia.
From mathcomp Require Import ssreflect ssrfun ssrbool eqtype ssrnat seq.
From Verif Require Import Np NpLemmas Kf Ekf ApiSpec Loop Frame FilterLemmas FilterThms SmoothLemmas Sub.

Set Implicit Arguments.
Unset Strict Implicit.
Unset Printing Implicit Defensive.

Section Model.
Variables (N : num) (S : Type) (attrs : S -> ekf N).
Notation arr := (arr N).
Notation act := (act S).

(** What the inherited filter and smooth call: self.predict, self.update,
    self.jacobian_A. *)
Record ecls := ECls {
  ec_predict : arr -> option arr -> arr -> arr -> act (arr * arr);
  ec_update : arr -> arr -> arr -> arr -> act (arr * arr);
  ec_jA : arr -> option arr -> act arr
}.

(** The user's functions. *)
Record funs := Funs {
  fu_f : arr -> option arr -> act arr; fu_h : arr -> act arr;
  fu_jA : arr -> option arr -> act arr; fu_jH : arr -> act arr
}.

(** extended.py:144-187 *)
Definition eff_predict (k : funs) (xk : arr) (uk : option arr) (Pk Qk : arr) : act (arr * arr) :=
  ado Ak <- fu_jA k xk uk;
  ado x <- fu_f k xk uk;
  ado P <- alift (S := S) (project_cov Ak Pk Qk);
  aret (x, P).

(** extended.py:189-246; [log] is self.kalman_gains.append. *)
Definition eff_update (k : funs) (log : arr -> act unit) (xk Pk zk Rk : arr) : act (arr * arr) :=
  ado Hk <- fu_jH k xk;
  ado Sk <- alift (S := S) (innov_cov Hk Pk Rk);
  ado Kk <- alift (S := S) (gain Sk Hk Pk);
  ado _ <- log Kk;
  ado zhat <- fu_h k xk;
  ado x <- alift (S := S) (correct_state xk Kk zk zhat);
  ado P <- (fun o => (o, correct_cov (e_I (attrs o)) Kk Hk Pk));
  aret (x, P).

(** ExtendedKalmanFilter itself, with these functions. *)
Definition eff_cls (k : funs) (log : arr -> act unit) : ecls :=
  ECls (eff_predict k) (eff_update k log) (fu_jA k).

Variable c : ecls.

(** extended.py:290-295 *)
Definition esub_step (s : erow N) (xP : arr * arr) : act (arr * arr) :=
  ado pr <- ec_predict c xP.1 (Some (eU s)) xP.2 (eQ s);
  ec_update c pr.1 pr.2 (eZ s) (eR s).

(** extended.py:288-302 *)
Fixpoint esub_loop (rows : seq (erow N)) (k : nat) (xP out : arr * arr) : act (arr * arr) :=
  match rows with
  | [::] => aret out
  | s :: rows' =>
    ado xP' <- esub_step s xP;
    ado out' <- alift (S := S) (store out k xP');
    esub_loop rows' k.+1 xP' out'
  end.

(** extended.py:274-304 *)
Definition esub_filter (Z : arr) (U : option arr) : act (arr * arr) := fun o =>
  let self := attrs o in
  (ado T <- alift (S := S) (np_len Z);
   let U' := check_none_and_broadcast U Z in
   ado u <- alift (S := S) (np_iter U');
   ado z <- alift (S := S) (np_iter Z);
   ado q <- alift (S := S) (np_iter (e_Q self));
   ado r <- alift (S := S) (np_iter (e_R self));
   esub_loop (zip4 u z q r) 0 (e_xk self, e_Pk self) (alloc N T (e_size self))) o.

(** extended.py:361-377 *)
Definition esub_smooth_step (self : ekf N) (U : arr) (xP_est : arr * arr) (k : nat)
    (sm : arr * arr) : act (arr * arr) :=
  ado Qk <- alift (S := S) (np_getitem (e_Q self) (Z.of_nat k.+1));
  ado uk <- alift (S := S) (np_getitem U (Z.of_nat k.+1));
  ado Pk <- alift (S := S) (np_getitem xP_est.2 (Z.of_nat k));
  ado xk <- alift (S := S) (np_getitem xP_est.1 (Z.of_nat k));
  ado ahead <- ec_predict c xk (Some uk) Pk Qk;
  ado Ak <- ec_jA c xk (Some uk);
  alift (S := S) (smooth_body xP_est sm k ahead Ak).

(** extended.py:344-379; [filter] is self.filter. *)
Definition esub_smooth (filter : arr -> option arr -> act (arr * arr)) (Z : arr) (U : option arr)
    : act (arr * arr) :=
  ado xP_est <- filter Z U;
  ado T <- alift (S := S) (np_len Z);
  fun o => let self := attrs o in
  (ado sm <- alift (S := S) (smooth_init T (e_size self) xP_est);
   let U' := check_none_and_broadcast U Z in
   sub_smooth_loop (esub_smooth_step self U' xP_est) (T - 1) sm) o.

(** ** By hand *)
Fixpoint esub_by_hand (self : ekf N) (Z U : arr) (k : nat) : act (arr * arr) :=
  match k with
  | 0 => aret (e_xk self, e_Pk self)
  | j.+1 =>
    ado xP <- esub_by_hand self Z U j;
    ado pr <- ec_predict c xP.1 (Some (row U j)) xP.2 (row (e_Q self) j);
    ec_update c pr.1 pr.2 (row Z j) (row (e_R self) j)
  end.

(** ** The loop *)
Fixpoint esub_rows (rows : seq (erow N)) (xP : arr * arr) : act (arr * arr) :=
  match rows with
  | [::] => aret xP
  | s :: rows' => ado xP' <- esub_step s xP; esub_rows rows' xP'
  end.

Lemma esub_rows_rcons rows s xP o :
  esub_rows (rcons rows s) xP o = abind (esub_rows rows xP) (esub_step s) o.
Proof.
elim: rows xP o => [|s' rows IH] xP o /=.
  by rewrite /abind /aret; case: (esub_step s xP o) => o' [x|e].
rewrite abindA /abind; case: (esub_step s' xP o) => o' [x|e] //; exact: IH.
Qed.

Lemma esub_loop_spec n T rows k xP out o :
  outshape T n out -> k + size rows <= T ->
  match esub_loop rows k xP out o with
  | (o', Ok out') =>
    [/\ outshape T n out',
        (forall j, j < size rows -> exists oj y,
          [/\ esub_rows (take j.+1 rows) xP o = (oj, Ok y), storable n y,
              row out'.1 (k + j) = fit [:: n] y.1 & row out'.2 (k + j) = fit [:: n; n] y.2]),
        (forall i, i < T -> i < k \/ k + size rows <= i ->
          row out'.1 i = row out.1 i /\ row out'.2 i = row out.2 i) &
        exists y, esub_rows rows xP o = (o', Ok y)]
  | (o', Raise e) => exists j,
    [/\ j < size rows,
        (forall i, i < j -> exists oi y, esub_rows (take i.+1 rows) xP o = (oi, Ok y) /\ storable n y) &
        esub_rows (take j.+1 rows) xP o = (o', Raise e) \/
        (e = ValueError /\ exists y, esub_rows (take j.+1 rows) xP o = (o', Ok y) /\ ~~ storable n y)]
  end.
Proof.
elim: rows k xP out o => [|s rows IH] k xP out o Ho Hk /=.
  split=> //; by exists xP.
have Hk0 : k < T by apply: leq_trans Hk => /=; rewrite addnS ltnS leq_addr.
rewrite {1}/abind; case Es: (esub_step s xP o) => [o1 [y|e]]; last first.
  by exists 0; split=> //; left; rewrite /= take0 /= /abind Es.
rewrite {1}/abind {1}/alift (store_spec _ Ho Hk0); case: ifP => Hst; last first.
  exists 0; split=> //; right; split=> //; exists y; split; last by rewrite Hst.
  by rewrite /= take0 /= /abind Es.
have Ho' := setrow_outshape y Ho Hk0.
have Hk' : k.+1 + size rows <= T by rewrite addSnnS.
move: (IH k.+1 y _ o1 Ho' Hk').
case: (esub_loop _ _ _ _ _) => [o' [out'|e]].
- case=> Hout Hrows Hrest Hlast; split=> //.
  + case=> [|j] /= Hj.
      exists o1, y; split=> //; first by rewrite /= take0 /= /abind Es.
        rewrite addn0; have [|-> _] := Hrest k Hk0; first by left.
        case: Ho => -[Hw1 Hd1 Hs1] _ /=.
        by rewrite (row_setrow _ (wf_wfs Hw1) Hd1 Hs1 Hk0 Hk0) eqxx.
      rewrite addn0; have [|_ ->] := Hrest k Hk0; first by left.
      case: Ho => _ [Hw1 Hd1 Hs1] /=.
      by rewrite (row_setrow _ (wf_wfs Hw1) Hd1 Hs1 Hk0 Hk0) eqxx.
    have [gj [yj [H1 H2 H3 H4]]] := Hrows j Hj.
    exists gj, yj; split=> //; rewrite ?addnS //.
    by rewrite /= /abind Es.
  + move=> i Hi Hik; have [|-> ->] := Hrest i Hi.
      by case: Hik => H; [left; apply: leq_trans H _|right; rewrite addSnnS].
    have Hne : (i == k) = false.
      apply/eqP => E; case: Hik; rewrite E ?ltnn //.
      by rewrite addnS leqNgt ltnS leq_addr.
    case: Ho => -[Hw1 Hd1 Hs1] [Hw2 Hd2 Hs2] /=.
    by rewrite (row_setrow _ (wf_wfs Hw1) Hd1 Hs1 Hk0 Hi) (row_setrow _ (wf_wfs Hw2) Hd2 Hs2 Hk0 Hi) Hne.
  + by case: Hlast => yl Hl; exists yl; rewrite /= /abind Es.
- case=> j [Hj Hpre Hend]; exists j.+1; split=> //.
    case=> [|i] Hi; first by exists o1, y; split=> //; rewrite /= take0 /= /abind Es.
    have [gi [yi [H1 H2]]] := Hpre i Hi; exists gi, yi; split=> //.
    by rewrite /= /abind Es.
  case: Hend => [H|[He [yj [H1 H2]]]]; [left|right].
    by rewrite [take _ _]/= /= /abind Es.
  split=> //; exists yj; split=> //; by rewrite /= /abind Es.
Qed.

Lemma esub_filterE Z U o : e_iterable (attrs o) Z U ->
  esub_filter Z U o =
  esub_loop (e_rows_of (attrs o) Z U) 0 (e_xk (attrs o), e_Pk (attrs o)) (alloc N (nrows Z) (e_size (attrs o))) o.
Proof.
rewrite /e_iterable /= => /and5P [HZ HU HQ HR _].
rewrite /esub_filter /abind /alift len_sized // !iter_sized //.
by rewrite zip4_iota.
Qed.

Lemma esub_filter_unsized Z U o : ~~ e_iterable (attrs o) Z U -> esub_filter Z U o = (o, Raise TypeError).
Proof.
rewrite /e_iterable /esub_filter /abind /alift; set self := attrs o.
case HZ: (sized Z); last by rewrite len_unsized ?HZ.
rewrite len_sized //= -/(control Z U).
case HU: (sized (control Z U)); last by rewrite iter_unsized ?HU.
rewrite (iter_sized HU) (iter_sized HZ).
case HQ: (sized (e_Q self)); last by rewrite iter_unsized ?HQ.
rewrite (iter_sized HQ).
case HR: (sized (e_R self)); last by rewrite iter_unsized ?HR.
by rewrite HZ.
Qed.

Lemma esub_by_hand_rows self Z U k o : k <= e_steps self Z U ->
  esub_by_hand self Z (control Z U) k o =
  esub_rows (take k (e_rows_of self Z U)) (e_xk self, e_Pk self) o.
Proof.
elim: k o => [|k IH] o Hk; first by rewrite take0.
have Hs : k < size (e_rows_of self Z U) by rewrite size_e_rows_of.
have [s0 _] : exists s0 : erow N, True by case: (e_rows_of self Z U) Hs => // s0; exists s0.
rewrite (take_nth s0) // esub_rows_rcons /= /abind IH ?(ltnW Hk) //.
case: (esub_rows _ _ _) => [o' [xP|e]] //.
by rewrite /e_rows_of (nth_map 0) ?size_iota // nth_iota // add0n.
Qed.

Lemma e_steps_nrows (self : ekf N) Z U : 0 + size (e_rows_of self Z U) <= nrows Z.
Proof. by rewrite size_e_rows_of; case: (e_steps_le self Z U). Qed.

End Model.
