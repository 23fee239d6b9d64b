(** * Props30: C97: subclasses that override predict and update *)
From Coq Require Import ZArith Lia Floats.SpecFloat.
From mathcomp Require Import ssreflect ssrfun ssrbool eqtype ssrnat seq.
From Verif Require Import Np NpLemmas Kf Ekf ApiSpec Loop Frame FilterLemmas FilterThms SmoothLemmas Sub Binary64 Cases.

Set Implicit Arguments.
Unset Strict Implicit.
Unset Printing Implicit Defensive.
Arguments Z.of_nat : simpl never.

Section C97.
Variable N : num.
Notation arr := (arr N).

(** ** Any subclass, any state *)
Section Any.
Variables (S : Type) (attrs : S -> kf N) (c : cls N S).

(** Row j of what filter returns is what calling the subclass's predict and update
    by hand gives, with the parameters the object had when filter was called; the
    object is left as these calls leave it. *)
Theorem C97_filter_calls_the_overridden o o' Z U st er :
  sub_filter attrs c Z U o = (o', Ok (st, er)) ->
  let self := attrs o in let n := kf_size self in let T := steps self Z U in
  [/\ float_shaped [:: nrows Z; n] st /\ float_shaped [:: nrows Z; n; n] er,
      exists xP, sub_by_hand c self Z (control Z U) T o = (o', Ok xP) &
      forall j, j < T -> exists oj x P,
        [/\ sub_by_hand c self Z (control Z U) j.+1 o = (oj, Ok (x, P)),
            row st j = fit [:: n] x & row er j = fit [:: n; n] P]].
Proof.
move=> E self n T; have [Hit|] := boolP (iterable self Z U); last first.
  by move=> NIt; rewrite (sub_filter_unsized c NIt) in E.
rewrite sub_filterE // in E.
have := @sub_loop_spec _ _ c n (nrows Z) (rows_of self Z U) 0 (kf_xk self, kf_Pk self) _ o
   (alloc_outshape N _ _) (size_rows_le self Z U).
rewrite E => -[Ho Hr _ [y Hy]]; split.
- exact: (outshape_float Ho).
- by exists y; rewrite sub_by_hand_rows // take_oversize // size_rows_of.
move=> j Hj; have [|oj [[x P] [A1 A2 A3 A4]]] := Hr j; first by rewrite size_rows_of.
by exists oj, x, P; rewrite sub_by_hand_rows.
Qed.

(** It raises exactly when they do (or when what they return cannot be stored). *)
Theorem C97_filter_raises_as_the_overridden o o' Z U e : iterable (attrs o) Z U ->
  sub_filter attrs c Z U o = (o', Raise e) ->
  let self := attrs o in
  exists j, [/\ j < steps self Z U,
    (forall i, i < j -> exists oi xP,
       sub_by_hand c self Z (control Z U) i.+1 o = (oi, Ok xP) /\ storable (kf_size self) xP) &
    sub_by_hand c self Z (control Z U) j.+1 o = (o', Raise e) \/
    (e = ValueError /\ exists xP,
       sub_by_hand c self Z (control Z U) j.+1 o = (o', Ok xP) /\ ~~ storable (kf_size self) xP)].
Proof.
move=> Hit E self; rewrite sub_filterE // in E.
have := @sub_loop_spec _ _ c (kf_size self) (nrows Z) (rows_of self Z U) 0 (kf_xk self, kf_Pk self) _ o
   (alloc_outshape N _ _) (size_rows_le self Z U).
rewrite E => -[j []]; rewrite size_rows_of => Hj Hpre Hend; exists j; split=> //.
  move=> i Hi; have [oi [y [A1 A2]]] := Hpre i Hi; exists oi, y; split=> //.
  by rewrite sub_by_hand_rows // (ltn_trans Hi).
by rewrite sub_by_hand_rows.
Qed.

(** smooth calls the subclass's filter, then its predict once per step, from the
    last but one to the first; the smoothing gain uses A itself, whatever predict
    does with it.  [os k] is the object before the call for row k. *)
Theorem C97_smooth_calls_the_overridden filter o o' Z U xs Ps :
  (forall o1 st er, filter Z U o = (o1, Ok (st, er)) ->
     float_shaped [:: nrows Z; kf_size (attrs o1)] st /\
     float_shaped [:: nrows Z; kf_size (attrs o1); kf_size (attrs o1)] er) ->
  sub_smooth attrs c filter Z U o = (o', Ok (xs, Ps)) ->
  exists o1 st er T (os : nat -> S), let self := attrs o1 in let n := kf_size self in
  [/\ filter Z U o = (o1, Ok (st, er)), nrows Z = T.+1, os T = o1 /\ os 0 = o',
      row xs T = row st T /\ row Ps T = row er T &
      forall k, k < T -> exists ahead x P,
      [/\ c_predict c (row (kf_A self) k.+1) (row st k) (Some (row (kf_B self) k.+1))
            (Some (row (control Z U) k.+1)) (row er k) (row (kf_Q self) k.+1) (os k.+1) = (os k, Ok ahead),
          rts_by_hand (fun _ => Ok ahead) (row (kf_A self) k.+1) (row st k, row er k)
            (row xs k.+1, row Ps k.+1) = Ok (x, P),
          row xs k = fit [:: n] x & row Ps k = fit [:: n; n] P]].
Proof.
move=> Hfil; rewrite /sub_smooth /abind.
case Ef : (filter Z U o) => [o1 [[st er]|e]] //; rewrite /alift.
case EZ : (np_len Z) => [T1|e] //.
have HT1 : T1 = nrows Z by move: EZ; rewrite /np_len /nrows; case: (shp Z) => // d sh [].
set self := attrs o1; set n := kf_size self.
have [F1 F2] := Hfil _ _ _ Ef.
have Ho : outshape T1 n (st, er).
  move: F1 F2; rewrite -HT1 /float_shaped => /and3P [w1 d1 /eqP s1] /and3P [w2 d2 /eqP s2].
  by split; split=> //=; [move: d1; case: (dt st)|move: d2; case: (dt er)].
case: T1 {EZ} HT1 Ho => [|T] HT1 Ho; first by rewrite (smooth_init_empty Ho).
have [sm -> [Hs Hlast]] := smooth_init_ok Ho; rewrite subSS subn0 => E.
have HT : T < T.+1 by [].
suff gen j om om' (r : arr * arr) : j < T.+1 -> outshape T.+1 n om ->
    forall oj, sub_smooth_loop (sub_smooth_step c self (check_none_and_broadcast U Z) (st, er)) j om oj = (om', Ok r) ->
    exists os : nat -> S, [/\ os j = oj, os 0 = om', outshape T.+1 n r, (forall i, j <= i < T.+1 -> pairrow r i = pairrow om i) &
      forall k, k < j -> exists ahead x P,
      [/\ c_predict c (row (kf_A self) k.+1) (row st k) (Some (row (kf_B self) k.+1))
            (Some (row (control Z U) k.+1)) (row er k) (row (kf_Q self) k.+1) (os k.+1) = (os k, Ok ahead),
          rts_by_hand (fun _ => Ok ahead) (row (kf_A self) k.+1) (row st k, row er k) (pairrow r k.+1) = Ok (x, P) &
          pairrow r k = (fit [:: n] x, fit [:: n; n] P)]].
  have [os [O1 O2 _ O3 O4]] := gen _ _ _ _ HT Hs _ E.
  exists o1, st, er, T, os; split=> //.
    by apply: (@pairrow_eq _ (xs, Ps) (st, er)); rewrite -Hlast; apply: O3; rewrite leqnn ltnSn.
  move=> k /O4 [ahead [x [P [B1 B2 B3]]]]; exists ahead, x, P; split=> //.
    by move: (f_equal fst B3).
  by move: (f_equal snd B3).
elim: j om om' r => [|j IH] om om' r Hj Hom oj /=.
  by move=> [<- <-]; exists (fun _ => oj); split.
rewrite /abind {1}/sub_smooth_step /abind /alift.
case G1 : (np_getitem (kf_A self) _) => [Ak|] //; case G2 : (np_getitem (kf_Q self) _) => [Qk|] //.
case G3 : (np_getitem (kf_B self) _) => [Bk|] //; case G4 : (np_getitem (check_none_and_broadcast U Z) _) => [uk|] //.
case G5 : (np_getitem er _) => [Pk|] //; case G6 : (np_getitem st _) => [xk|] //.
have [_ ->] := getitem_ok G1; have [_ ->] := getitem_ok G2; have [_ ->] := getitem_ok G3.
have [_ ->] := getitem_ok G4; have [_ ->] := getitem_ok G5; have [_ ->] := getitem_ok G6.
rewrite -/(control Z U).
case Ep : (c_predict c _ _ _ _ _ _ oj) => [o2 [ahead|e]] //.
case Eb : (smooth_body _ _ _ _ _) => [om2|e] // El.
have [x [P [R1 R2 R3 R4]]] := @smooth_body_ok N T.+1 n (st, er) om j (fun _ => Ok ahead) _ ahead om2 Ho Hom Hj (erefl _) Eb.
have Hj' : j < T.+1 by exact: ltnW.
have [os [O1 O2 O3 O4 O5]] := IH _ _ _ Hj' R3 _ El.
exists (fun i => if i <= j then os i else oj); split=> //.
- by rewrite ltnn.
- move=> i /andP [Hi Hi']; rewrite O4 ?(ltnW Hi) // R4 //.
  by case: eqP => // e; rewrite e ltnn in Hi.
move=> k; rewrite ltnS leq_eqVlt => /orP [/eqP ->|Hk]; last first.
  by cbn beta; rewrite Hk orbT; exact: O5.
exists ahead, x, P; cbn beta; rewrite ltnn eqxx O1; split=> //.
  rewrite O4; last by rewrite leqnSn.

  by rewrite R4 //; have -> : (j.+1 == j) = false by apply/eqP => /esym /n_Sn.
by rewrite O4 ?leqnn ?Hj' // R4 // eqxx.
Qed.
End Any.

(** ** Nothing overridden *)
Definition base : cls N (kf N) := Cls
  (fun Ak xk Bk uk Pk Qk o => kf_call o (CPredict Ak xk Bk uk Pk Qk))
  (fun Hk xk Pk zk Rk o => kf_call o (CUpdate Hk xk Pk zk Rk)).

(** ** Overrides that call the inherited method on changed arguments:

      def predict(self, Ak, xk, Bk, uk, Pk, Qk):
          return super().predict(Ak, xk, Bk, uk, Pk, noise(Qk))
      def update(self, Hk, xk, Pk, zk, Rk):
          return super().update(observe(Hk), xk, Pk, clean(zk), tune(Rk)) *)
Definition adjusting (noise observe clean tune : arr -> arr) : cls N (kf N) := Cls
  (fun Ak xk Bk uk Pk Qk o => kf_call o (CPredict Ak xk Bk uk Pk (noise Qk)))
  (fun Hk xk Pk zk Rk o => kf_call o (CUpdate (observe Hk) xk Pk (clean zk) (tune Rk))).

(** [b] is [a] with [phi] applied to every row. *)
Definition mapped (phi : arr -> arr) (a b : arr) : Prop :=
  [/\ sized a = sized b, nrows b = nrows a & forall k, k < nrows a -> row b k = phi (row a k)].

Lemma with_gains_id (o : kf N) : with_gains o (kf_gains o) = o. Proof. by case: o. Qed.
Lemma with_gains2 (o : kf N) g g' : with_gains (with_gains o g) g' = with_gains o g'. Proof. by []. Qed.

Lemma adjusted_loop noise observe clean tune (s : seq nat) (r r' : nat -> srow N) o k xP out g :
  (forall i, i \in s -> r' i = SRow (rA (r i)) (observe (rH (r i))) (rB (r i)) (rU (r i)) (clean (rZ (r i)))
     (noise (rQ (r i))) (tune (rR (r i)))) ->
  sub_loop (adjusting noise observe clean tune) (map r s) k xP out (with_gains o g) =
  (let: (g', x) := filter_loop (kf_step (kf_I o)) (map r' s) k xP out g in (with_gains o g', x)).
Proof.
elim: s k xP out g => [|i s IH] k xP out g H //=.
rewrite /abind /mbind /sub_step /kf_step /abind /mbind /= (H i) ?mem_head //= /kf_call /= /mlift.
case: (kf_predict _ _ _ _ _ _) => [[x P]|e] //=.
case: (kf_update _ _ _ _ _ _ g) => g1 [y|e] //=; rewrite /alift.
case: (store _ _ _) => [out1|e] //; rewrite with_gains2 IH // => j Hj.
by apply: H; rewrite inE Hj orbT.
Qed.

Lemma mapped_getitem phi a b k : mapped phi a b ->
  np_getitem b (Z.of_nat k) = (do r <- np_getitem a (Z.of_nat k); Ok (phi r)).
Proof.
move=> [Hsz Hq Hr]; move: Hsz Hq Hr; rewrite /np_getitem /sized /nrows.
case E : (shp a) => [|d sh]; case E' : (shp b) => [|d' sh'] //=; first by rewrite /np_pos E E'.
move=> _ Hd Hr; rewrite Hd in E'; case: (ltnP k d) => Hk.
  by rewrite (np_pos_nat E Hk) (np_pos_nat E' Hk) /= Hr.
by rewrite (np_pos_big E Hk) (np_pos_big E' Hk).
Qed.

Lemma adjusted_smooth_loop noise observe clean tune (o o' : kf N) U est j sm x :
  kf_A o' = kf_A o -> kf_B o' = kf_B o -> mapped noise (kf_Q o) (kf_Q o') ->
  sub_smooth_loop (sub_smooth_step (adjusting noise observe clean tune) o U est) j sm x =
  (x, smooth_loop (kf_smooth_step o' U est) j sm).
Proof.
move=> HA HB HM.
have step k s :
    sub_smooth_step (adjusting noise observe clean tune) o U est k s x = (x, kf_smooth_step o' U est k s).
  rewrite /sub_smooth_step /kf_smooth_step /abind /alift HA HB.
  case: (np_getitem (kf_A o) _) => [Ak|] //=.
  rewrite (mapped_getitem _ HM); case: (np_getitem (kf_Q o) _) => [Qk|] //=.
  case: (np_getitem (kf_B o) _) => [Bk|] //=; case: (np_getitem U _) => [uk|] //=.
  case: (np_getitem est.2 _) => [Pk|] //=; case: (np_getitem est.1 _) => [xk|] //=.
  by rewrite /kf_call /= /mlift with_gains_id; case: (kf_predict _ _ _ _ _ _) => [ah|e] //=.
elim: j sm => [|j IH] sm //=.
by rewrite /abind step; case: (kf_smooth_step _ _ _ _ _) => [sm'|e] //=; apply: IH.
Qed.

Theorem C97_adjusting_is_preprocessing noise observe clean tune (o o' : kf N) Z Z' U U' :
  [/\ kf_A o' = kf_A o, kf_B o' = kf_B o, kf_xk o' = kf_xk o, kf_Pk o' = kf_Pk o & kf_size o' = kf_size o] ->
  kf_I o' = kf_I o -> kf_gains o' = kf_gains o ->
  [/\ mapped noise (kf_Q o) (kf_Q o'), mapped observe (kf_H o) (kf_H o'), mapped tune (kf_R o) (kf_R o'),
      mapped clean Z Z' & control Z' U' = control Z U] ->
  let c := adjusting noise observe clean tune in
  let object_and_outcome r := (kf_gains r.1, r.2) in
  object_and_outcome (sub_filter id c Z U o) = object_and_outcome (kf_call o' (CFilter Z' U')) /\
  object_and_outcome (sub_smooth id c (sub_filter id c) Z U o) = object_and_outcome (kf_call o' (CSmooth Z' U')).
Proof.
move=> [HA HB Hx HP Hn] HI Hg [MQ MH MR MZ HU] c obs.
have Hst : steps o' Z' U' = steps o Z U.
  case: MQ MH MR MZ => _ q1 _ [_ h1 _] [_ r1 _] [_ z1 _].
  by rewrite /steps /= HA HB HU q1 h1 r1 z1.
have Hit : iterable o' Z' U' = iterable o Z U.
  case: MQ MH MR MZ => q1 _ _ [h1 _ _] [r1 _ _] [z1 _ _].
  by rewrite /iterable /= HA HB HU q1 h1 r1 z1.
have F : sub_filter id c Z U o =
    (let: (g', x) := kf_filter o' Z' U' (kf_gains o') in (with_gains o g', x)).
  have [It|NIt] := boolP (iterable o Z U); last first.
    by rewrite sub_filter_unsized // kf_filter_unsized ?Hit //= Hg with_gains_id.
  rewrite sub_filterE // kf_filterE ?Hit // /rows_of Hst HI Hx HP Hn Hg.
  have -> : nrows Z' = nrows Z by case: MZ.
  have := @adjusted_loop noise observe clean tune (iota 0 (steps o Z U)) (srow_at o Z (control Z U))
    (srow_at o' Z' (control Z' U')) o 0 (kf_xk o, kf_Pk o) (alloc N (nrows Z) (kf_size o)) (kf_gains o).
  rewrite with_gains_id; apply=> i; rewrite mem_iota add0n => /andP [_ Hi].
  have [[lZ lA lH lB] [lU lQ lR]] := steps_le o Z U.
  case: MQ MH MR MZ => _ q1 q2 [_ h1 h2] [_ r1 r2] [_ z1 z2].
  by rewrite /srow_at HA HB HU q2 ?h2 ?r2 ?z2 //; apply: leq_trans Hi _.
split.
  by rewrite F /obs /kf_call /=; case: (kf_filter _ _ _ _) => g' x.
rewrite /sub_smooth /obs /kf_call /= /kf_smooth /abind /mbind F.
case Ef : (kf_filter _ _ _ _) => [g' [est|e]] //=; rewrite /alift /mlift.
have -> : np_len Z' = np_len Z.
  case: MZ => z0 z1 _; move: z0 z1; rewrite /np_len /sized /nrows.
  by case: (shp Z) => [|d sh]; case: (shp Z') => [|d' sh'] //= _ ->.
case EZ : (np_len Z) => [T|e] //=; rewrite Hn.
case: (smooth_init _ _ _) => [sm|e] //=.
by rewrite -/(control Z' U') HU (@adjusted_smooth_loop noise observe clean tune (with_gains o g') o').
Qed.

Theorem C97_nothing_overridden (o : kf N) Z U :
  sub_filter id base Z U o = kf_call o (CFilter Z U) /\
  sub_smooth id base (sub_filter id base) Z U o = kf_call o (CSmooth Z U).
Proof.
have L s k xP out g : sub_loop base s k xP out (with_gains o g) =
    (let: (g', x) := filter_loop (kf_step (kf_I o)) s k xP out g in (with_gains o g', x)).
  elim: s k xP out g => [|r s IH] k xP out g //=.
  rewrite /abind /mbind /sub_step /kf_step /abind /mbind /= /kf_call /= /mlift.
  case: (kf_predict _ _ _ _ _ _) => [[x P]|e] //=.
  case: (kf_update _ _ _ _ _ _ g) => g1 [y|e] //=; rewrite /alift.
  by case: (store _ _ _) => [out1|e] //; rewrite with_gains2 IH.
have F : sub_filter id base Z U o = kf_call o (CFilter Z U).
  rewrite /kf_call /=; have [It|NIt] := boolP (iterable o Z U); last first.
    by rewrite sub_filter_unsized // kf_filter_unsized //= with_gains_id.
  rewrite sub_filterE // kf_filterE //.
  by have := L (rows_of o Z U) 0 (kf_xk o, kf_Pk o) (alloc N (nrows Z) (kf_size o)) (kf_gains o); rewrite with_gains_id.
split=> //; rewrite /sub_smooth /abind F /kf_call /= /kf_smooth /mbind.
case Ef : (kf_filter _ _ _ _) => [g' [est|e]] //=; rewrite /alift /mlift.
case: (np_len Z) => [T|e] //=.
case: (smooth_init _ _ _) => [sm|e] //=.
rewrite -/(control Z U).
set o1 := with_gains o g'.
have step k s : sub_smooth_step base o1 (control Z U) est k s o1 = (o1, kf_smooth_step o (control Z U) est k s).
  rewrite /sub_smooth_step /kf_smooth_step /abind /alift /=.
  case: (np_getitem (kf_A o) _) => [Ak|] //=.
  case: (np_getitem (kf_Q o) _) => [Qk|] //=.
  case: (np_getitem (kf_B o) _) => [Bk|] //=; case: (np_getitem (control Z U) _) => [uk|] //=.
  case: (np_getitem est.2 _) => [Pk|] //=; case: (np_getitem est.1 _) => [xk|] //=.
  by rewrite /kf_call /= /mlift; case: (kf_predict _ _ _ _ _ _) => [ah|e].
move: (T - 1) => j; elim: j sm => [|j IH] sm //=.
by rewrite /abind step; case: (kf_smooth_step _ _ _ _ _) => [sm'|e] //=; apply: IH.
Qed.
End C97.

(** ** A case in binary64: a subclass that doubles R and the readings *)
Section Case.
Notation B := binary64.
Definition twice (a : arr B) : arr B := if np_add a a is Ok b then b else a.
Definition tuned : kf B :=
  Kf (kf_A cart) (kf_xk cart) (kf_B cart) (kf_Pk cart) (kf_H cart) (kf_Q cart) (twice cart_R) (kf_size cart) (kf_I cart) [::].
Lemma mapped_id (a : arr B) : mapped (fun x => x) a a. Proof. by split. Qed.

Example C97_case : let c := adjusting (fun x => x) (fun x => x) twice twice in
  [/\ mapped twice (kf_R cart) (kf_R tuned) /\ mapped twice cart_Z (twice cart_Z),
      [/\ kf_A tuned = kf_A cart, kf_B tuned = kf_B cart, kf_xk tuned = kf_xk cart, kf_Pk tuned = kf_Pk cart &
          kf_size tuned = kf_size cart] /\ kf_gains tuned = kf_gains cart,
      control (twice cart_Z) (Some cart_U) = control cart_Z (Some cart_U),
      isok (sub_filter id c cart_Z (Some cart_U) cart).2 &
      isok (sub_smooth id c (sub_filter id c) cart_Z (Some cart_U) cart).2].
Proof.
have M a : nrows a = 3 -> sized a = sized (twice a) -> nrows (twice a) = 3 ->
    row (twice a) 0 = twice (row a 0) -> row (twice a) 1 = twice (row a 1) -> row (twice a) 2 = twice (row a 2) ->
    mapped twice a (twice a).
  move=> h0 h1 h2 h3 h4 h5; split=> //; rewrite h0 //; by case=> [|[|[|k]]].
split.
- split; [apply: (M cart_R)|apply: (M cart_Z)]; exact: erefl.
- by split; [split|]; exact: erefl.
- exact: erefl.
- by vm_compute.
by vm_compute.
Qed.

(** What filter_calls_the_overridden is about: a subclass with a counter of its
    own, whose update ignores every second reading. *)
Definition counting : cls B (kf B * nat) := Cls
  (fun Ak xk Bk uk Pk Qk s => let: (o, r) := kf_call s.1 (CPredict Ak xk Bk uk Pk Qk) in ((o, s.2.+1), r))
  (fun Hk xk Pk zk Rk s => if odd s.2 then let: (o, r) := kf_call s.1 (CUpdate Hk xk Pk zk Rk) in ((o, s.2), r)
                           else (s, Ok (xk, Pk))).
Example C97_counting_case :
  let r := sub_filter fst counting cart_Z (Some cart_U) (cart, 0) in
  [/\ isok r.2, r.1.2 = 3 & size (kf_gains r.1.1) = 2].
Proof. by vm_compute. Qed.
End Case.
