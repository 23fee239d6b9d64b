(** * Props33: C100, C101: subclasses of ExtendedKalmanFilter; functions with effects *)
From Coq Require Import ZArith Lia Floats.SpecFloat.
From mathcomp Require Import ssreflect ssrfun ssrbool eqtype ssrnat seq.
From Verif Require Import Np NpLemmas Kf Ekf ApiSpec Loop Frame FilterLemmas FilterThms SmoothLemmas Sub ESub Binary64 Cases.

Set Implicit Arguments.
Unset Strict Implicit.
Unset Printing Implicit Defensive.
Arguments Z.of_nat : simpl never.

Section C100.
Variable N : num.
Notation arr := (arr N).

(** ** Any subclass, any functions, any state *)
Section Any.
Variables (S : Type) (attrs : S -> ekf N) (c : ecls N S).

(** Row j of what filter returns is what calling predict and update by hand gives,
    with the attributes the object had when filter was called; the program is left
    in the state these calls leave. *)
Theorem C100_filter_calls_the_overridden o o' Z U st er :
  esub_filter attrs c Z U o = (o', Ok (st, er)) ->
  let self := attrs o in let n := e_size self in let T := e_steps self Z U in
  [/\ float_shaped [:: nrows Z; n] st /\ float_shaped [:: nrows Z; n; n] er,
      exists xP, esub_by_hand c self Z (control Z U) T o = (o', Ok xP) &
      forall j, j < T -> exists oj x P,
        [/\ esub_by_hand c self Z (control Z U) j.+1 o = (oj, Ok (x, P)),
            row st j = fit [:: n] x & row er j = fit [:: n; n] P]].
Proof.
move=> E self n T; have [Hit|] := boolP (e_iterable self Z U); last first.
  by move=> NIt; rewrite (esub_filter_unsized c NIt) in E.
rewrite esub_filterE // in E.
have := @esub_loop_spec _ _ c n (nrows Z) (e_rows_of self Z U) 0 (e_xk self, e_Pk self) _ o
   (alloc_outshape N _ _) (e_steps_nrows self Z U).
rewrite E => -[Ho Hr _ [y Hy]]; split.
- exact: (outshape_float Ho).
- by exists y; rewrite esub_by_hand_rows // take_oversize // size_e_rows_of.
move=> j Hj; have [|oj [[x P] [A1 A2 A3 A4]]] := Hr j; first by rewrite size_e_rows_of.
by exists oj, x, P; rewrite esub_by_hand_rows.
Qed.

(** It raises exactly when they do (or when what they return cannot be stored). *)
Theorem C100_filter_raises_as_the_overridden o o' Z U e : e_iterable (attrs o) Z U ->
  esub_filter attrs c Z U o = (o', Raise e) ->
  let self := attrs o in
  exists j, [/\ j < e_steps self Z U,
    (forall i, i < j -> exists oi xP,
       esub_by_hand c self Z (control Z U) i.+1 o = (oi, Ok xP) /\ storable (e_size self) xP) &
    esub_by_hand c self Z (control Z U) j.+1 o = (o', Raise e) \/
    (e = ValueError /\ exists xP,
       esub_by_hand c self Z (control Z U) j.+1 o = (o', Ok xP) /\ ~~ storable (e_size self) xP)].
Proof.
move=> Hit E self; rewrite esub_filterE // in E.
have := @esub_loop_spec _ _ c (e_size self) (nrows Z) (e_rows_of self Z U) 0 (e_xk self, e_Pk self) _ o
   (alloc_outshape N _ _) (e_steps_nrows self Z U).
rewrite E => -[j []]; rewrite size_e_rows_of => Hj Hpre Hend; exists j; split=> //.
  move=> i Hi; have [oi [y [A1 A2]]] := Hpre i Hi; exists oi, y; split=> //.
  by rewrite esub_by_hand_rows // (ltn_trans Hi).
by rewrite esub_by_hand_rows.
Qed.

(** smooth calls filter, then predict and jacobian_A once per step, from the last
    but one to the first, at the filtered state of that step and the control of the
    next.  [os k] is the state of the program after the calls for row k, [ms k] the
    one between them. *)
Theorem C100_smooth_calls_the_overridden filter o o' Z U xs Ps :
  (forall o1 st er, filter Z U o = (o1, Ok (st, er)) ->
     float_shaped [:: nrows Z; e_size (attrs o1)] st /\
     float_shaped [:: nrows Z; e_size (attrs o1); e_size (attrs o1)] er) ->
  esub_smooth attrs c filter Z U o = (o', Ok (xs, Ps)) ->
  exists o1 st er T (os ms : nat -> S), let self := attrs o1 in let n := e_size self in
  [/\ filter Z U o = (o1, Ok (st, er)), nrows Z = T.+1, os T = o1 /\ os 0 = o',
      row xs T = row st T /\ row Ps T = row er T &
      forall k, k < T -> exists ahead A x P,
      [/\ ec_predict c (row st k) (Some (row (control Z U) k.+1)) (row er k) (row (e_Q self) k.+1) (os k.+1) = (ms k, Ok ahead),
          ec_jA c (row st k) (Some (row (control Z U) k.+1)) (ms k) = (os k, Ok A),
          rts_by_hand (fun _ => Ok ahead) A (row st k, row er k) (row xs k.+1, row Ps k.+1) = Ok (x, P),
          row xs k = fit [:: n] x & row Ps k = fit [:: n; n] P]].
Proof.
move=> Hfil; rewrite /esub_smooth /abind.
case Ef : (filter Z U o) => [o1 [[st er]|e]] //; rewrite /alift.
case EZ : (np_len Z) => [T1|e] //.
have HT1 : T1 = nrows Z by move: EZ; rewrite /np_len /nrows; case: (shp Z) => // d sh [].
set self := attrs o1; set n := e_size self.
have [F1 F2] := Hfil _ _ _ Ef.
have Ho : outshape T1 n (st, er).
  move: F1 F2; rewrite -HT1 /float_shaped => /and3P [w1 d1 /eqP s1] /and3P [w2 d2 /eqP s2].
  by split; split=> //=; [move: d1; case: (dt st)|move: d2; case: (dt er)].
case: T1 {EZ} HT1 Ho => [|T] HT1 Ho; first by rewrite (smooth_init_empty Ho).
have [sm -> [Hs Hlast]] := smooth_init_ok Ho; rewrite subSS subn0 => E.
have HT : T < T.+1 by [].
suff gen j om om' (r : arr * arr) : j < T.+1 -> outshape T.+1 n om ->
    forall oj, sub_smooth_loop (esub_smooth_step c self (check_none_and_broadcast U Z) (st, er)) j om oj = (om', Ok r) ->
    exists os ms : nat -> S, [/\ os j = oj, os 0 = om', outshape T.+1 n r, (forall i, j <= i < T.+1 -> pairrow r i = pairrow om i) &
      forall k, k < j -> exists ahead A x P,
      [/\ ec_predict c (row st k) (Some (row (control Z U) k.+1)) (row er k) (row (e_Q self) k.+1) (os k.+1) = (ms k, Ok ahead),
          ec_jA c (row st k) (Some (row (control Z U) k.+1)) (ms k) = (os k, Ok A),
          rts_by_hand (fun _ => Ok ahead) A (row st k, row er k) (pairrow r k.+1) = Ok (x, P) &
          pairrow r k = (fit [:: n] x, fit [:: n; n] P)]].
  have [os [ms [O1 O2 _ O3 O4]]] := gen _ _ _ _ HT Hs _ E.
  exists o1, st, er, T, os, ms; split=> //.
    by apply: (@pairrow_eq _ (xs, Ps) (st, er)); rewrite -Hlast; apply: O3; rewrite leqnn ltnSn.
  move=> k /O4 [ahead [A [x [P [B0 B1 B2 B3]]]]]; exists ahead, A, x, P; split=> //.
    by move: (f_equal fst B3).
  by move: (f_equal snd B3).
elim: j om om' r => [|j IH] om om' r Hj Hom oj /=.
  by move=> [<- <-]; exists (fun _ => oj), (fun _ => oj); split.
rewrite /abind {1}/esub_smooth_step /abind /alift.
case G2 : (np_getitem (e_Q self) _) => [Qk|] //.
case G4 : (np_getitem (check_none_and_broadcast U Z) _) => [uk|] //.
case G5 : (np_getitem er _) => [Pk|] //; case G6 : (np_getitem st _) => [xk|] //.
have [_ ->] := getitem_ok G2.
have [_ ->] := getitem_ok G4; have [_ ->] := getitem_ok G5; have [_ ->] := getitem_ok G6.
rewrite -/(control Z U).
case Ep : (ec_predict c _ _ _ _ oj) => [o2 [ahead|e]] //.
case Ej : (ec_jA c _ _ o2) => [o3 [A|e]] //.
case Eb : (smooth_body _ _ _ _ _) => [om2|e] // El.
have [x [P [R1 R2 R3 R4]]] := @smooth_body_ok N T.+1 n (st, er) om j (fun _ => Ok ahead) _ ahead om2 Ho Hom Hj (erefl _) Eb.
have Hj' : j < T.+1 by exact: ltnW.
have [os [ms [O1 O2 O3 O4 O5]]] := IH _ _ _ Hj' R3 _ El.
exists (fun i => if i <= j then os i else oj), (fun i => if i < j then ms i else o2); split=> //.
- by rewrite ltnn.
- move=> i /andP [Hi Hi']; rewrite O4 ?(ltnW Hi) // R4 //.
  by case: eqP => // e; rewrite e ltnn in Hi.
move=> k; rewrite ltnS leq_eqVlt => /orP [/eqP ->|Hk]; last first.
  by cbn beta; rewrite Hk ?orbT; exact: O5.
exists ahead, A, x, P; cbn beta; rewrite !ltnn eqxx O1; split=> //.
  rewrite O4; last by rewrite leqnSn.
  by rewrite R4 //; have -> : (j.+1 == j) = false by apply/eqP => /esym /n_Sn.
by rewrite O4 ?leqnn ?Hj' // R4 // eqxx.
Qed.
End Any.

(** ** Nothing overridden, pure functions *)
Lemma e_with_gains2 (o : ekf N) g g' : e_with_gains (e_with_gains o g) g' = e_with_gains o g'. Proof. by []. Qed.

Definition ebase : ecls N (ekf N) := ECls
  (fun xk uk Pk Qk o => e_call o (EPredict xk uk Pk Qk))
  (fun xk Pk zk Rk o => e_call o (EUpdate xk Pk zk Rk))
  (fun xk uk o => (o, e_jA o xk uk)).

Lemma e_update_gains (o : ekf N) g1 : ekf_update (e_with_gains o g1) = ekf_update o.
Proof. by []. Qed.

Theorem C100_nothing_overridden (o : ekf N) Z U :
  esub_filter id ebase Z U o = e_call o (EFilter Z U) /\
  esub_smooth id ebase (esub_filter id ebase) Z U o = e_call o (ESmooth Z U).
Proof.
have L s k xP out g : esub_loop ebase s k xP out (e_with_gains o g) =
    (let: (g', x) := filter_loop (ekf_step o) s k xP out g in (e_with_gains o g', x)).
  elim: s k xP out g => [|r s IH] k xP out g //=.
  rewrite /abind /mbind /esub_step /ekf_step /abind /mbind /= /e_call /= /mlift.
  rewrite -[ekf_predict (e_with_gains o g)]/(ekf_predict o).
  case: (ekf_predict o _ _ _ _) => [[x P]|e] //=.
  rewrite e_with_gains2 e_update_gains.
  case: (ekf_update o _ _ _ _ g) => g1 [y|e] //=; rewrite /alift.
  by case: (store _ _ _) => [out1|e] //; rewrite e_with_gains2 IH.
have F : esub_filter id ebase Z U o = e_call o (EFilter Z U).
  rewrite /e_call /=; have [It|NIt] := boolP (e_iterable o Z U); last first.
    by rewrite esub_filter_unsized // ekf_filter_unsized //= e_with_gainsK.
  rewrite esub_filterE // ekf_filterE //.
  by have := L (e_rows_of o Z U) 0 (e_xk o, e_Pk o) (alloc N (nrows Z) (e_size o)) (e_gains o); rewrite e_with_gainsK.
split=> //; rewrite /esub_smooth /abind F /e_call /= /ekf_smooth /mbind.
case Ef : (ekf_filter _ _ _ _) => [g' [est|e]] //=; rewrite /alift /mlift.
case: (np_len Z) => [T|e] //=.
case: (smooth_init _ _ _) => [sm|e] //=.
rewrite -/(control Z U).
set o1 := e_with_gains o g'.
have step k s : esub_smooth_step ebase o1 (control Z U) est k s o1 = (o1, ekf_smooth_step o (control Z U) est k s).
  rewrite /esub_smooth_step /ekf_smooth_step /abind /alift /=.
  case: (np_getitem (e_Q o) _) => [Qk|] //=.
  case: (np_getitem (control Z U) _) => [uk|] //=.
  case: (np_getitem est.2 _) => [Pk|] //=; case: (np_getitem est.1 _) => [xk|] //=.
  rewrite /e_call /= /mlift -[ekf_predict (e_with_gains o g')]/(ekf_predict o).
  case: (ekf_predict o _ _ _ _) => [ah|e] //=.
  by rewrite -[e_with_gains o1 g']/o1; case: (e_jA o _ _).
move: (T - 1) => j; elim: j sm => [|j IH] sm //=.
by rewrite /abind step; case: (ekf_smooth_step _ _ _ _ _) => [sm'|e] //=; apply: IH.
Qed.
End C100.

(** * C101: the order in which the user's functions are called *)
Section C101.
Variable N : num.
Notation arr := (arr N).

(** A call of one of the functions, with its arguments. *)
Inductive event :=
| CalledF (x : arr) (u : option arr) | CalledH (x : arr)
| CalledJA (x : arr) (u : option arr) | CalledJH (x : arr).

(** The functions of [o], each noting its calls; the state of the program is the
    note book and the object. *)
Definition prog := (seq event * ekf N)%type.
Definition noting (o : ekf N) : funs N prog := Funs
  (fun x u s => ((rcons s.1 (CalledF x u), s.2), e_f o x u))
  (fun x s => ((rcons s.1 (CalledH x), s.2), e_h o x))
  (fun x u s => ((rcons s.1 (CalledJA x u), s.2), e_jA o x u))
  (fun x s => ((rcons s.1 (CalledJH x), s.2), e_jH o x)).
Definition append_to_gains (K : arr) : act prog unit := fun s =>
  ((s.1, e_with_gains s.2 (rcons (e_gains s.2) K)), Ok tt).
Definition noted (o : ekf N) : ecls N prog := eff_cls (@snd _ _) (noting o) append_to_gains.
Definition noted_filter (o : ekf N) := esub_filter (@snd _ _) (noted o).
Definition noted_smooth (o : ekf N) := esub_smooth (@snd _ _) (noted o) (noted_filter o).

(** The calls made by step k of filter: with x the estimate before the step (what
    the steps 0..k-1 give, by hand) and x' = f(x, u) the predicted one. *)
Definition step_calls (o : ekf N) (Z U : arr) (g : seq arr) (k : nat) : seq event :=
  if (e_by_hand o Z U k g).2 is Ok xP then
    let u := Some (row U k) in
    [:: CalledJA xP.1 u; CalledF xP.1 u] ++
    (if e_f o xP.1 u is Ok x' then [:: CalledJH x'; CalledH x'] else [::])
  else [::].

Section Runs.
Variable o : ekf N.

Lemma noted_predict l g x u P Q xP : ekf_predict o x u P Q = Ok xP ->
  eff_predict (noting o) x u P Q (l, e_with_gains o g) =
  ((l ++ [:: CalledJA x u; CalledF x u], e_with_gains o g), Ok xP) /\ e_f o x u = Ok xP.1.
Proof.
rewrite /ekf_predict /eff_predict /abind /=; case: (e_jA o x u) => //= A; case: (e_f o x u) => //= x'.
rewrite /alift; case: (project_cov A P Q) => //= P' [<-]; split=> //.
by rewrite /aret -!cats1 -catA.
Qed.

Lemma noted_update l g x P z R g' xP : ekf_update o x P z R g = (g', Ok xP) ->
  eff_update (@snd _ _) (noting o) append_to_gains x P z R (l, e_with_gains o g) =
  ((l ++ [:: CalledJH x; CalledH x], e_with_gains o g'), Ok xP).
Proof.
rewrite /ekf_update /eff_update /mbind /mlift /abind /alift /append_gain /=.
case: (e_jH o x) => //= H; case: (innov_cov H P R) => //= Sk; case: (gain Sk H P) => //= K.
case: (e_h o x) => //= y; case: (correct_state x K z y) => //= x'.
case: (correct_cov _ _ _ _) => //= P' [<- <-].
by rewrite /aret -!cats1 -catA.
Qed.

(** Whatever happens, the answer is the same. *)
Lemma noted_predict_any l g x u P Q : exists l',
  eff_predict (noting o) x u P Q (l, e_with_gains o g) = ((l', e_with_gains o g), ekf_predict o x u P Q).
Proof.
rewrite /ekf_predict /eff_predict /abind /=; case: (e_jA o x u) => [A|e] /=; last by eexists.
case: (e_f o x u) => [x'|e] /=; last by eexists.
by rewrite /alift; case: (project_cov A P Q) => [P'|e] /=; eexists.
Qed.

Lemma noted_update_any l g x P z R : exists l',
  eff_update (@snd _ _) (noting o) append_to_gains x P z R (l, e_with_gains o g) =
  ((l', e_with_gains o (ekf_update o x P z R g).1), (ekf_update o x P z R g).2).
Proof.
rewrite /ekf_update /eff_update /mbind /mlift /abind /alift /append_gain /=.
case: (e_jH o x) => [H|e] /=; last by eexists.
case: (innov_cov H P R) => [Sk|e] /=; last by eexists.
case: (gain Sk H P) => [K|e] /=; last by eexists.
case: (e_h o x) => [y|e] /=; last by eexists.
case: (correct_state x K z y) => [x'|e] /=; last by eexists.
by case: (correct_cov _ _ _ _) => [P'|e] /=; eexists.
Qed.

Lemma noted_loop l rows k xP out g : exists l',
  esub_loop (noted o) rows k xP out (l, e_with_gains o g) =
  (let: (g', r) := filter_loop (ekf_step o) rows k xP out g in ((l', e_with_gains o g'), r)).
Proof.
elim: rows l k xP out g => [|s rows IH] l k xP out g /=; first by exists l.
rewrite /abind /mbind /esub_step /ekf_step /abind /mbind /mlift /=.
have [l1 ->] := noted_predict_any l g xP.1 (Some (eU s)) xP.2 (eQ s).
case: (ekf_predict _ _ _ _ _) => [pr|e]; last by exists l1.
have [l2 ->] := noted_update_any l1 g pr.1 pr.2 (eZ s) (eR s).
case: (ekf_update _ _ _ _ _ g) => g1 [y|e] /=; last by exists l2.
rewrite /alift; case: (store _ _ _) => [out1|e]; last by exists l2.
have [l3 ->] := IH l2 k.+1 y out1 g1.
by exists l3.
Qed.

Lemma noted_filter_any l g Z U : exists l',
  noted_filter o Z U (l, e_with_gains o g) =
  (let: (g', r) := ekf_filter o Z U g in ((l', e_with_gains o g'), r)).
Proof.
rewrite /noted_filter; have [It|NIt] := boolP (e_iterable o Z U); last first.
  by exists l; rewrite esub_filter_unsized // ekf_filter_unsized.
rewrite esub_filterE // ekf_filterE //.
exact: (noted_loop l (e_rows_of o Z U) 0 (e_xk o, e_Pk o) (alloc N (nrows Z) (e_size o)) g).
Qed.

Lemma noted_by_hand l g Z U k gk xP : e_by_hand o Z U k g = (gk, Ok xP) ->
  esub_by_hand (noted o) o Z U k (l, e_with_gains o g) =
  ((l ++ flatten [seq step_calls o Z U g i | i <- iota 0 k], e_with_gains o gk), Ok xP).
Proof.
elim: k gk xP => [|k IH] gk xP; first by move=> [<- <-]; rewrite /= cats0.
rewrite -addn1 iotaD map_cat flatten_cat addn1.
rewrite [e_by_hand _ _ _ _]/= [esub_by_hand _ _ _ _ _]/= /mbind.
case E : (e_by_hand o Z U k g) => [g1 [[x P]|e]] //.
have IHk := IH _ _ E; rewrite /mlift.
case G1 : (np_getitem U _) => [u|] //; case G2 : (np_getitem Z _) => [z|] //.
case G3 : (np_getitem (e_Q o) _) => [q|] //; case G4 : (np_getitem (e_R o) _) => [r|] //.
have [_ Eu] := getitem_ok G1; have [_ Ez] := getitem_ok G2; have [_ Eq] := getitem_ok G3; have [_ Er] := getitem_ok G4.
subst u z q r; cbn [fst snd].
case Ep : (ekf_predict o _ _ _ _) => [[x' P']|] //= Eu.
rewrite /abind IHk /= (noted_predict _ _ Ep).1 (noted_update _ Eu) add0n /step_calls E /=.
by rewrite (noted_predict [::] [::] Ep).2 cats0 -!catA.
Qed.

(** filter calls, for k = 0, 1, 2, ...: jacobian_A, f, jacobian_H, h, each once, and
    nothing else; noting this changes nothing else. *)
Theorem C101_filter_calls l Z U o' st er : e_call o (EFilter Z U) = (o', Ok (st, er)) ->
  noted_filter o Z U (l, o) =
  ((l ++ flatten [seq step_calls o Z (control Z U) (e_gains o) k | k <- iota 0 (e_steps o Z U)], o'), Ok (st, er)).
Proof.
rewrite /e_call /=; case Ef : (ekf_filter o Z U (e_gains o)) => [g' r] [<- Er]; subst r.
have [l' El] := noted_filter_any l (e_gains o) Z U; rewrite Ef e_with_gainsK in El.
rewrite El; have [_ [xP Hb] _] := C100_filter_calls_the_overridden El.
have [_ Hs Hr _] := e_filter_ok Ef.
have [gk [xP' Ek]] : exists gk xP', e_by_hand o Z (control Z U) (e_steps o Z U) (e_gains o) = (gk, Ok xP').
  case ET : (e_steps o Z U) => [|T]; first by do 2 eexists.
  have [|x [P [E _ _ _]]] := Hr T; first by rewrite ET.
  by exists (take (size (e_gains o) + T.+1) g'), (x, P).
have := noted_by_hand l Ek; rewrite e_with_gainsK => Eb.
rewrite /= Eb in Hb; case: Hb => <- _ _.
by [].
Qed.

(** The calls made by smooth for row k, going back. *)
Definition back_calls (st U : arr) (k : nat) : seq event :=
  let x := row st k in let u := Some (row U k.+1) in [:: CalledJA x u; CalledF x u; CalledJA x u].

Lemma noted_smooth_step l g U est k sm r : ekf_smooth_step o U est k sm = Ok r ->
  esub_smooth_step (noted o) (e_with_gains o g) U est k sm (l, e_with_gains o g) =
  ((l ++ back_calls est.1 U k, e_with_gains o g), Ok r).
Proof.
rewrite /ekf_smooth_step /esub_smooth_step /abind /alift /=.
case G1 : (np_getitem (e_Q o) _) => [q|] //=; case G2 : (np_getitem U _) => [u|] //=.
case G3 : (np_getitem est.2 _) => [P|] //=; case G4 : (np_getitem est.1 _) => [x|] //=.
have [_ Eu] := getitem_ok G2; have [_ Ex] := getitem_ok G4; subst u x.
case Ep : (ekf_predict o _ _ _ _) => [ah|] //=; rewrite (noted_predict _ _ Ep).1 /=.
case: (e_jA o _ _) => //= A ->.
by rewrite -cats1 -catA.
Qed.

(** smooth makes the calls of filter and then, for k from the last row but one down
    to 0, jacobian_A, f (in predict) and once more jacobian_A, at the filtered state
    of row k and the control of row k+1. *)
Theorem C101_smooth_calls l Z U o' xs Ps : e_call o (ESmooth Z U) = (o', Ok (xs, Ps)) ->
  exists st er, e_call o (EFilter Z U) = (o', Ok (st, er)) /\
  noted_smooth o Z U (l, o) =
  (((l ++ flatten [seq step_calls o Z (control Z U) (e_gains o) k | k <- iota 0 (e_steps o Z U)])
      ++ flatten [seq back_calls st (control Z U) k | k <- rev (iota 0 (nrows Z - 1))], o'), Ok (xs, Ps)).
Proof.
move=> E; have : exists st er, e_call o (EFilter Z U) = (o', Ok (st, er)).
  move: E; rewrite /e_call /= /ekf_smooth /mbind.
  case: (ekf_filter o Z U _) => [g' [[st er]|e]] //= E; exists st, er; congr pair; move: E.
  rewrite /mlift; case: (np_len Z) => [T|e] //; case: (smooth_init _ _ _) => [sm|e] // [<- _].
  by [].
move=> [st [er Ef]]; exists st, er; split=> //.
rewrite /noted_smooth /esub_smooth /abind (C101_filter_calls l Ef).
move: Ef E; rewrite /e_call /= /ekf_smooth /mbind.
case: (ekf_filter o Z U _) => [g' r] [<- ->]; rewrite /mlift /alift.
case EZ : (np_len Z) => [T|] //=.
have -> : nrows Z = T by move: EZ; rewrite /np_len /nrows; case: (shp Z) => // d sh [].
case: (smooth_init _ _ _) => [sm|] //= [E]; rewrite -/(control Z U) in E *.
move: (l ++ _) => l1; move: (T - 1) l1 sm E => j; elim: j => [|j IH] l1 sm; first by move=> [->]; rewrite /= cats0.
have -> : flatten [seq back_calls st (control Z U) k | k <- rev (iota 0 j.+1)] =
    back_calls st (control Z U) j ++ flatten [seq back_calls st (control Z U) k | k <- rev (iota 0 j)].
  by rewrite -addn1 iotaD rev_cat.
rewrite [smooth_loop _ _ _]/= [sub_smooth_loop _ _ _]/= /abind.
case Es : (ekf_smooth_step _ _ _ _ _) => [sm'|] //= E.
rewrite (noted_smooth_step l1 g' Es) (IH _ _ E).
by rewrite -catA.
Qed.
End Runs.
End C101.

(** * Functions that count their calls: a time-varying system

    f, h, jacobian_A and jacobian_H that look up the matrices of the current step by
    counting how often they have been called.  With filter, from fresh counters, this
    is the standard filter with these matrices. *)
Section Counting.
Variable N : num.
Notation arr := (arr N).

Record counters := Counters { n_f : nat; n_h : nat; n_jA : nat; n_jH : nat }.
Definition counted := (counters * ekf N)%type.

Definition counting (A B H : arr) : funs N counted := Funs
  (fun x u s => ((Counters (n_f s.1).+1 (n_h s.1) (n_jA s.1) (n_jH s.1), s.2),
                 if u is Some u' then
                   if np_isnan_all (row B (n_f s.1)) || np_isnan_all u' then np_matmul (row A (n_f s.1)) x
                   else do Ax <- np_matmul (row A (n_f s.1)) x; do Bu <- np_matmul (row B (n_f s.1)) u'; np_add Ax Bu
                 else np_matmul (row A (n_f s.1)) x))
  (fun x s => ((Counters (n_f s.1) (n_h s.1).+1 (n_jA s.1) (n_jH s.1), s.2), np_matmul (row H (n_h s.1)) x))
  (fun x u s => ((Counters (n_f s.1) (n_h s.1) (n_jA s.1).+1 (n_jH s.1), s.2), Ok (row A (n_jA s.1))))
  (fun x s => ((Counters (n_f s.1) (n_h s.1) (n_jA s.1) (n_jH s.1).+1, s.2), Ok (row H (n_jH s.1)))).
Definition count_gains (K : arr) : act counted unit := fun s =>
  ((s.1, e_with_gains s.2 (rcons (e_gains s.2) K)), Ok tt).
Definition counting_cls A B H : ecls N counted := eff_cls (@snd _ _) (counting A B H) count_gains.

Variables (std : kf N) (ext : ekf N) (Z : arr) (U : option arr).
Notation A := (kf_A std). Notation B := (kf_B std). Notation H := (kf_H std).

Lemma counted_predict i j o x u P Q :
  eff_predict (counting A B H) x (Some u) P Q (Counters i j i j, o) =
  ((Counters i.+1 j i.+1 j, o), kf_predict (row A i) x (Some (row B i)) (Some u) P Q).
Proof.
rewrite /eff_predict /abind /= /kf_predict /project_state /=.
have E (b d : bool) : (do skip <- (if b then Ok true else Ok d); if skip then np_matmul (row A i) x
    else do Ax <- np_matmul (row A i) x; do Bu <- np_matmul (row B i) u; np_add Ax Bu) =
    if b || d then np_matmul (row A i) x else do Ax <- np_matmul (row A i) x; do Bu <- np_matmul (row B i) u; np_add Ax Bu.
  by case: b.
rewrite E; case: (if _ then _ else _) => [x'|e] //=.
by rewrite /alift; case: (project_cov _ _ _).
Qed.

Lemma counted_update i j g x P z R : kf_I std = e_I ext -> exists c,
  eff_update (@snd _ _) (counting A B H) count_gains x P z R (Counters i j i j, e_with_gains ext g) =
  ((c, e_with_gains ext (kf_update (kf_I std) (row H j) x P z R g).1), (kf_update (kf_I std) (row H j) x P z R g).2) /\
  (if (kf_update (kf_I std) (row H j) x P z R g).2 is Ok _ then c = Counters i j.+1 i j.+1 else True).
Proof.
move=> EI; rewrite /kf_update /eff_update /mbind /mlift /abind /alift /append_gain /= EI.
case: (innov_cov _ P R) => [Sk|e] /=; last by eexists.
case: (gain Sk _ P) => [K|e] /=; last by eexists.
case: (np_matmul _ x) => [y|e] /=; last by eexists.
case: (correct_state x K z y) => [x'|e] /=; last by eexists.
by case: (correct_cov _ _ _ _) => [P'|e] /=; eexists.
Qed.

Theorem C101_counting_functions s' r :
  constructed std -> e_constructed ext ->
  [/\ kf_xk std = e_xk ext, kf_Pk std = e_Pk ext, kf_Q std = e_Q ext, kf_R std = e_R ext & kf_size std = e_size ext] ->
  kf_gains std = e_gains ext ->
  [/\ sized A, sized B & sized H] ->
  [/\ nrows Z <= nrows A, nrows Z <= nrows B & nrows Z <= nrows H] ->
  esub_filter (@snd _ _) (counting_cls A B H) Z U (Counters 0 0 0 0, ext) = (s', r) ->
  r = (kf_call std (CFilter Z U)).2 /\ e_gains s'.2 = kf_gains (kf_call std (CFilter Z U)).1.
Proof.
move=> Cs Ce [E1 E2 E3 E4 E5] Eg [SA SB SH] [LA LB LH].
have EI : kf_I std = e_I ext by rewrite (constructed_I Cs) (e_constructed_I Ce) E5.
have Eit : iterable std Z U = e_iterable ext Z U.
  by rewrite /iterable /e_iterable /= E3 E4 SA SB SH.
have Est : steps std Z U = e_steps ext Z U.
  rewrite /steps /e_steps /= E3 E4.
  have [l1 l2 l3 _] : [/\ e_steps ext Z U <= nrows Z, e_steps ext Z U <= nrows Z, e_steps ext Z U <= nrows Z & True].
    by case: (e_steps_le ext Z U).
  rewrite -/(e_steps ext Z U) (minn_idPr (leq_trans l1 LB)) (minn_idPr (leq_trans l1 LH)).
  by rewrite (minn_idPr (leq_trans l1 LA)).
rewrite /kf_call /=.
have [It|NIt] := boolP (e_iterable ext Z U); last first.
  by rewrite esub_filter_unsized // kf_filter_unsized ?Eit //= => -[<- <-].
rewrite esub_filterE // kf_filterE ?Eit //= E1 E2 E5 /rows_of /e_rows_of Est.
set c := counting_cls _ _ _.
suff L n : forall k xP out g, exists k',
    esub_loop c [seq erow_at ext Z (control Z U) i | i <- iota k n] k xP out (Counters k k k k, e_with_gains ext g) =
    (let: (g', r) := filter_loop (kf_step (kf_I std)) [seq srow_at std Z (control Z U) i | i <- iota k n] k xP out g in
     ((k', e_with_gains ext g'), r)).
  have [k' Lk] := L (e_steps ext Z U) 0 (e_xk ext, e_Pk ext) (alloc N (nrows Z) (e_size ext)) (e_gains ext).
  rewrite e_with_gainsK -Eg in Lk; rewrite Lk.
  by case: (filter_loop _ _ _ _ _ _) => g' r' [<- <-].
elim: n => [|n IH] k xP out g /=; first by eexists.
rewrite /abind /mbind /esub_step /kf_step /abind /mbind /mlift /= counted_predict E3 E4.
case: (kf_predict _ _ _ _ _ _) => [[x P]|e] /=; last by eexists.
have [c' [-> Hc]] := counted_update k.+1 k g x P (row Z k) (row (e_R ext) k) EI.
move: Hc; case: (kf_update _ _ _ _ _ _ g) => g1 [y|e] /=; last by eexists.
move=> ->; rewrite /alift; case: (store _ _ _) => [out1|e]; last by eexists.
have [k' ->] := IH k.+1 y out1 g1.
by exists k'.
Qed.
End Counting.

(** ** Cases, in binary64 *)
Section Cases.
Notation B := binary64.

(** A subclass whose update counts the observations it was given and skips every
    second one. *)
Definition every_second : ecls B (nat * ekf B) := ECls
  (fun xk uk Pk Qk s => let: (o, r) := e_call s.2 (EPredict xk uk Pk Qk) in ((s.1, o), r))
  (fun xk Pk zk Rk s => if odd s.1 then ((s.1.+1, s.2), Ok (xk, Pk))
     else let: (o, r) := e_call s.2 (EUpdate xk Pk zk Rk) in ((s.1.+1, o), r))
  (fun xk uk s => (s, e_jA s.2 xk uk)).
Example C100_case :
  let run := esub_smooth (@snd nat (ekf B)) every_second (esub_filter (@snd nat (ekf B)) every_second) cart_Z None (0, osc) in
  isok run.2 /\ (run.1.1 == 3) && (size (e_gains run.1.2) == 2).
Proof. by split; vm_compute. Qed.

Example C101_case :
  [/\ isok (e_call osc (ESmooth cart_Z None)).2,
      e_steps osc cart_Z None = 3 & size (noted_smooth osc cart_Z None ([::], osc)).1.1 = 18].
Proof. by split; vm_compute. Qed.

Definition cart_ext : ekf B := e_built (ekf_init cart_x cart_P cart_Q cart_R osc_f osc_h osc_jA osc_jH).
Example C101_counting_case :
  [/\ e_constructed cart_ext,
      [/\ kf_xk cart = e_xk cart_ext, kf_Pk cart = e_Pk cart_ext, kf_Q cart = e_Q cart_ext, kf_R cart = e_R cart_ext &
          kf_size cart = e_size cart_ext],
      [/\ nrows cart_Z <= nrows (kf_A cart), nrows cart_Z <= nrows (kf_B cart) & nrows cart_Z <= nrows (kf_H cart)] &
      isok (esub_filter (@snd _ _) (counting_cls (kf_A cart) (kf_B cart) (kf_H cart)) cart_Z (Some cart_U) (Counters 0 0 0 0, cart_ext)).2].
Proof.
split; [|by split|by split|by vm_compute].
exists cart_x, cart_P, cart_Q, cart_R, osc_f, osc_h, osc_jA, osc_jH, cart_ext, [::].
by split.
Qed.
End Cases.
