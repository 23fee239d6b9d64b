(** * ConcLemmas: programs of small steps *)
From Coq Require Import ZArith.
From mathcomp Require Import ssreflect ssrfun ssrbool eqtype ssrnat seq.
From Verif Require Import Np Kf Conc.

Set Implicit Arguments.
Unset Strict Implicit.
Unset Printing Implicit Defensive.

Section Generic.
Variable N : num.
Notation arr := (arr N).
Variable O : Type.
Variables (gains : O -> seq arr) (put : O -> seq arr -> O).
Hypothesis gains_put : forall o g, gains (put o g) = g.
Hypothesis put_put : forall o g g', put (put o g) g' = put o g'.
Hypothesis put_gains : forall o, put o (gains o) = o.
Notation prog := (prog N O).
Definition add (K : arr) (o : O) : O := put o (rcons (gains o) K).

Section P.
Variable T : Type.
Implicit Types (p : prog T) (o : O).

(** What a program does alone on the (never changing) object o. *)
Fixpoint appended p o : seq arr :=
  match p with
  | Ret _ => [::]
  | Read k => appended (k o) o
  | Append K p' => K :: appended p' o
  end.
Fixpoint answer p o : res T :=
  match p with
  | Ret r => r
  | Read k => answer (k o) o
  | Append _ p' => answer p' o
  end.
Fixpoint rank p o : nat :=
  match p with
  | Ret _ => 0
  | Read k => (rank (k o) o).+1
  | Append _ p' => (rank p' o).+1
  end.
(** What it does alone on the object it changes. *)
Fixpoint alone p o : O * res T :=
  match p with
  | Ret r => (o, r)
  | Read k => alone (k o) o
  | Append K p' => alone p' (add K o)
  end.

(** p reads of the object only what R keeps. *)
Variable R : O -> O -> Prop.
Fixpoint blind p : Prop :=
  match p with
  | Ret _ => True
  | Read k => (forall o, blind (k o)) /\ forall o o', R o o' -> k o = k o'
  | Append _ p' => blind p'
  end.

Lemma blind_same p : blind p -> forall o o', R o o' ->
  [/\ appended p o = appended p o', answer p o = answer p o' & rank p o = rank p o'].
Proof.
elim: p => [r|k IH|K p IH] //=.
  by move=> [b e] o o' r; have [-> -> ->] := IH o (b o) _ _ r; rewrite (e _ _ r).
by move=> b o o' r; have [-> -> ->] := IH b _ _ r.
Qed.
End P.

Definition same (o o' : O) : Prop := exists g, o' = put o g.
Lemma same_put o g : same o (put o g). Proof. by exists g. Qed.

Section Alone.
Variable T : Type.
Implicit Types (p : prog T) (o : O).

Lemma aloneE p : blind same p -> forall o, alone p o = (put o (gains o ++ appended p o), answer p o).
Proof.
elim: p => [r|k IH|K p IH] /=.
- by move=> _ o; rewrite cats0 put_gains.
- by move=> [b _] o; rewrite IH.
move=> b o; rewrite IH // /add gains_put put_put -cats1 -catA.
by have [-> -> _] := blind_same b (same_put o (gains o ++ [:: K])).
Qed.
End Alone.

Section Schedule.
Variable T : Type.
Notation nth' := (nth (nothing N O T)).
Implicit Types (ps : seq (prog T)) (o : O).

Definition mine (i : nat) (tags : seq nat) (log : seq arr) : seq arr := mask [seq t == i | t <- tags] log.

Lemma mine_rcons i tags log t K : size tags = size log ->
  mine i (rcons tags t) (rcons log K) = if t == i then rcons (mine i tags log) K else mine i tags log.
Proof.
move=> h; rewrite /mine -!cats1 map_cat mask_cat ?size_map //=.
by case: ifP => _; rewrite ?cats0 // cats1.
Qed.

Definition inv o0 (ps0 : seq (prog T)) (n : nat -> nat) (w : world N O T) : Prop :=
  size w.2 = size ps0 /\ exists tags log,
  [/\ size tags = size log, all (fun t => t < size ps0) tags, w.1 = put o0 (gains o0 ++ log) &
   forall i, i < size ps0 ->
   [/\ blind same (nth' w.2 i), appended (nth' ps0 i) o0 = mine i tags log ++ appended (nth' w.2 i) o0,
       answer (nth' ps0 i) o0 = answer (nth' w.2 i) o0 &
       rank (nth' w.2 i) o0 = rank (nth' ps0 i) o0 - n i]].

Lemma inv_step o0 ps0 n w j : inv o0 ps0 n w -> inv o0 ps0 (fun i => n i + (j == i)) (go add w j).
Proof.
case: w => o ps [/= sz [tags [log [st ht eo H]]]]; rewrite /go /=; case: ifP => Hj; last first.
  split=> //; exists tags, log; split=> // i Hi; have [? ? ? ?] := H i Hi; split=> //.
  by case: eqP Hi => [<-|_ _]; rewrite ?addn0 // -sz Hj.
have Hj0 : j < size ps0 by rewrite -sz.
have [bj aj rj nj] := H j Hj0.
have [o' [p' [tags' [log' [Es st' ht' eo' [K1 K2]]]]]] : exists o' p' tags' log',
  [/\ pstep add (nth' ps j) o = (o', p'), size tags' = size log', all (fun t => t < size ps0) tags',
      o' = put o0 (gains o0 ++ log') &
      [/\ blind same p', appended (nth' ps0 j) o0 = mine j tags' log' ++ appended p' o0,
          answer (nth' ps0 j) o0 = answer p' o0 & rank p' o0 = rank (nth' ps0 j) o0 - (n j).+1] /\
      forall i, i != j -> mine i tags' log' = mine i tags log].
  case: (nth' ps j) bj aj rj nj => [r|k|K p] /= bj aj rj nj.
  - exists o, (Ret N O r), tags, log; split=> //; split=> //; split=> //=.
    by rewrite subnS -nj.
  - case: bj => b e; have ek : k o = k o0 by symmetry; apply: e; rewrite eo; exact: same_put.
    exists o, (k o), tags, log; split=> //; split=> //; split=> //; rewrite ?ek //.
    by rewrite subnS -nj.
  - exists (add K o), p, (rcons tags j), (rcons log K); split=> //.
    + by rewrite !size_rcons st.
    + by rewrite all_rcons Hj0.
    + by rewrite eo /add gains_put put_put rcons_cat.
    split; last by move=> i ni; rewrite mine_rcons // eq_sym (negbTE ni).
    split=> //; last by rewrite subnS -nj.
    by rewrite mine_rcons // eqxx cat_rcons.
rewrite Es /=; split; first by rewrite size_set_nth (maxn_idPr Hj) -sz.
exists tags', log'; split=> // i Hi; rewrite nth_set_nth /=; case: eqP => [->|/eqP ni].
  by rewrite eqxx addn1.
by have [? ? ? ?] := H i Hi; rewrite eq_sym (negbTE ni) addn0 (K2 _ ni).
Qed.

Lemma inv_run o0 ps0 sched n w : inv o0 ps0 n w ->
  inv o0 ps0 (fun i => n i + count_mem i sched) (run_schedule add w sched).
Proof.
elim: sched n w => [|j s IH] n w H /=.
  case: H => sz [tags [log [a b c d]]]; split=> //; exists tags, log; split=> // i Hi.
  by rewrite addn0; exact: d.
have := IH _ _ (inv_step j H); case=> sz [tags [log [a b c d]]]; split=> //; exists tags, log; split=> // i Hi.
by rewrite addnA; exact: d.
Qed.

(** Every schedule. *)
Lemma any_schedule o (ps : seq (prog T)) sched : (forall i, i < size ps -> blind same (nth' ps i)) ->
  let w := run_schedule add (o, ps) sched in
  size w.2 = size ps /\ exists tags log,
  [/\ size tags = size log, all (fun t => t < size ps) tags, w.1 = put o (gains o ++ log) &
   forall i, i < size ps ->
   [/\ exists rest, appended (nth' ps i) o = mine i tags log ++ rest /\ (outcome (nth' w.2 i) <> None -> rest = [::]),
       (forall r, outcome (nth' w.2 i) = Some r -> r = answer (nth' ps i) o) &
       rank (nth' ps i) o <= count_mem i sched -> outcome (nth' w.2 i) = Some (answer (nth' ps i) o)]].
Proof.
move=> B w; have I0 : inv o ps (fun=> 0) (o, ps).
  split=> //; exists [::], [::]; split=> //=; first by rewrite cats0 put_gains.
  by move=> i Hi; split; rewrite ?subn0 //; exact: B.
have := inv_run sched I0; rewrite -/w => -[sz [tags [log [h1 h2 h3 h4]]]]; split=> //.
exists tags, log; split=> // i Hi; have [b a e r] := h4 i Hi; split.
- by exists (appended (nth' w.2 i) o); split=> //; case: (nth' w.2 i).
- by move=> r0; rewrite e; case: (nth' w.2 i) => //= r1 [->].
rewrite add0n in r; move=> le; move: r; rewrite (eqP le) e.
by case: (nth' w.2 i).
Qed.
End Schedule.

(** ** Refinement *)
Section Impl.
Definition impl T (p : prog T) o (m : meth N T) : Prop :=
  forall g, alone p (put o g) = (put o (m g).1, (m g).2).

Lemma impl_lift T (r : res T) o : impl (plift N O r) o (mlift r).
Proof. by []. Qed.

Lemma alone_bind S T (p : prog S) (f : S -> prog T) o :
  alone (pbind p f) o = match alone p o with (o', Ok x) => alone (f x) o' | (o', Raise e) => (o', Raise e) end.
Proof. by elim: p o => [[x|e]|k IH|K p IH] o //=; rewrite IH. Qed.

Lemma impl_bind S T (p : prog S) (f : S -> prog T) o m h :
  impl p o m -> (forall x, impl (f x) o (h x)) -> impl (pbind p f) o (mbind m h).
Proof.
move=> H1 H2 g; rewrite alone_bind H1 /mbind; case: (m g) => g' [x|e] //=.
by rewrite H2.
Qed.

Lemma impl_append K o : impl (pappend O K) o (append_gain K).
Proof. by move=> g; rewrite /= /add gains_put put_put. Qed.

Lemma impl_get S T (a : O -> S) (f : S -> prog T) o m :
  (forall g, a (put o g) = a o) -> impl (f (a o)) o m -> impl (pbind (pget N a) f) o m.
Proof. by move=> h H g; rewrite /= h H. Qed.

Lemma impl_alone T (p : prog T) o m : impl p o m -> alone p o = (put o (m (gains o)).1, (m (gains o)).2).
Proof. by move=> H; have := H (gains o); rewrite put_gains. Qed.

Lemma impl_filter_loop S (st : S -> arr * arr -> prog (arr * arr)) mst o :
  (forall s xP, impl (st s xP) o (mst s xP)) ->
  forall rows k xP out, impl (p_filter_loop st rows k xP out) o (filter_loop mst rows k xP out).
Proof.
move=> H; elim=> [|s rows IH] k xP out; cbn [p_filter_loop filter_loop]; first exact: impl_lift.
apply: impl_bind => [|xP']; first exact: H.
apply: impl_bind; first exact: impl_lift.
by move=> out'; exact: IH.
Qed.

Lemma impl_smooth_loop (st : nat -> arr * arr -> prog (arr * arr)) mst o :
  (forall k sm, impl (st k sm) o (mlift (mst k sm))) ->
  forall j sm, impl (p_smooth_loop st j sm) o (mlift (smooth_loop mst j sm)).
Proof.
move=> H; elim=> [|j IH] sm //= g; rewrite alone_bind H /=.
by case: (mst j sm) => [sm'|e] //=; rewrite IH.
Qed.

Lemma impl_alloc T (sz : O -> nat) (f : arr * arr -> prog T) o m t :
  (forall g, sz (put o g) = sz o) -> impl (f (alloc N t (sz o))) o m -> impl (pbind (p_alloc N sz t) f) o m.
Proof. by move=> h H g; rewrite /= !h H. Qed.

(** What a program may still read. *)
Section Blind.
Variable R : O -> O -> Prop.

Lemma blind_bind S T (p : prog S) (f : S -> prog T) : blind R p -> (forall x, blind R (f x)) -> blind R (pbind p f).
Proof.
move=> H1 H2; elim: p H1 => [[x|e]|k IH|K p IH] //=.
by move=> [b e]; split=> [o|o o' r]; [exact: IH|rewrite (e _ _ r)].
Qed.

Lemma blind_get S (a : O -> S) : (forall o o', R o o' -> a o = a o') -> blind R (pget N a).
Proof. by move=> h; split=> // o o' r; rewrite (h _ _ r). Qed.

Lemma blind_filter_loop S (st : S -> arr * arr -> prog (arr * arr)) : (forall s xP, blind R (st s xP)) ->
  forall rows k xP out, blind R (p_filter_loop st rows k xP out).
Proof.
move=> H; elim=> [|s rows IH] k xP out //; cbn [p_filter_loop].
apply: blind_bind => [|xP']; first exact: H.
by apply: blind_bind => // out'; exact: IH.
Qed.

Lemma blind_smooth_loop (st : nat -> arr * arr -> prog (arr * arr)) : (forall k sm, blind R (st k sm)) ->
  forall j sm, blind R (p_smooth_loop st j sm).
Proof. by move=> H; elim=> [|j IH] sm //=; apply: blind_bind. Qed.

Lemma blind_alloc (sz : O -> nat) t : (forall o o', R o o' -> sz o = sz o') -> blind R (p_alloc N sz t).
Proof. by move=> h; do 3 (apply: blind_bind; [exact: blind_get|move=> ?]). Qed.

(** Nothing but what R keeps is read after the first gain. *)
Fixpoint late T (p : prog T) : Prop :=
  match p with
  | Ret _ => True
  | Read k => forall o, late (k o)
  | Append _ p' => blind R p'
  end.
Lemma late_blind T (p : prog T) : blind R p -> late p.
Proof. by elim: p => //= k IH [b _] o; apply: IH. Qed.
Lemma late_bind_read S T (a : O -> S) (f : S -> prog T) : (forall x, late (f x)) -> late (pbind (pget N a) f).
Proof. by move=> H o; exact: H. Qed.
Lemma late_bind_lift S T (r : res S) (f : S -> prog T) : (forall x, late (f x)) -> late (pbind (plift N O r) f).
Proof. by case: r => [x|e] H //=; exact: H. Qed.
Lemma late_bind S T (p : prog S) (f : S -> prog T) : late p -> (forall x, blind R (f x)) -> late (pbind p f).
Proof.
move=> H1 H2; elim: p H1 => [[x|e]|k IH|K p IH] //=; first by move=> _; exact: late_blind.
  by move=> H o; exact: IH.
by move=> H; exact: blind_bind.
Qed.
Lemma late_alloc T (sz : O -> nat) t (f : arr * arr -> prog T) : (forall x, late (f x)) -> late (pbind (p_alloc N sz t) f).
Proof. by move=> H /=. Qed.

Lemma blind_step T (p : prog T) o : blind R p -> blind R (pstep add p o).2.
Proof. by case: p => [r|k|K p] //= [b _]. Qed.
Lemma blind_run T (p : prog T) o es : blind R p -> blind R (run_events add (o, p) es).2.
Proof.
rewrite /run_events; elim: es p o => [|[|f] es IH] p o B //=; last exact: IH.
by have := blind_step o B; case: (pstep add p o) => o' p' /= B'; exact: IH.
Qed.

(** What the user does and what the program answers. *)
Definition polite (es : seq (event O)) : Prop := forall f, List.In (User f) es -> forall o, R o (f o).
Definition turns (es : seq (event O)) : nat := count (fun e => if e is Turn then true else false) es.

Hypothesis Rrefl : forall o, R o o.
Hypothesis Rtrans : forall o1 o2 o3, R o1 o2 -> R o2 o3 -> R o1 o3.
Hypothesis Radd : forall K o, R o (add K o).

Lemma polite_run T (p : prog T) o o0 es : blind R p -> R o0 o -> polite es ->
  let w := run_events add (o, p) es in
  [/\ R o0 w.1, answer w.2 o0 = answer p o0 & rank w.2 o0 = rank p o0 - turns es].
Proof.
rewrite /run_events /turns; elim: es p o => [|[|f] es IH] p o B r P /=.
- by rewrite subn0.
- have P' : polite es by move=> f Hf; apply: P; right.
  case: p B => [r0|k|K p] /= B; rewrite ?subnDA ?subn1.
  + by have := IH (Ret N O r0) o B r P'; rewrite /= !sub0n.
  + by case: B => b e; rewrite (e _ _ r) /=; exact: IH.
  + by apply: IH => //; exact: Rtrans r (Radd K o).
have P' : polite es by move=> f' Hf; apply: P; right.
by rewrite add0n; apply: IH => //; apply: Rtrans r _; apply: P; left.
Qed.

Lemma polite_gains T (p : prog T) o o0 es : blind R p -> R o0 o -> polite es ->
  (forall f, List.In (User f) es -> forall o, gains (f o) = gains o) ->
  let w := run_events add (o, p) es in gains w.1 ++ appended w.2 o0 = gains o ++ appended p o0.
Proof.
rewrite /run_events; elim: es p o => [|[|f] es IH] p o B r P G //=.
- have P' : polite es by move=> f Hf; apply: P; right.
  have G' f : List.In (User f) es -> forall o, gains (f o) = gains o by move=> Hf; apply: G; right.
  case: p B => [r0|k|K p] /= B.
  + exact: (IH (Ret N O r0) o B r P' G').
  + by case: B => b e; rewrite (e _ _ r) /=; exact: IH.
  + rewrite IH // /add ?gains_put ?cat_rcons //; exact: Rtrans r (Radd K o).
have P' : polite es by move=> f' Hf; apply: P; right.
have G' f' : List.In (User f') es -> forall o, gains (f' o) = gains o by move=> Hf; apply: G; right.
rewrite IH //; first by rewrite G //; left.
by apply: Rtrans r _; apply: P; left.
Qed.

(** Steps alone, then steps between which the user does what R allows. *)
Lemma late_run T (p : prog T) o j :
  late p -> blind same p ->
  let w := run_events add (o, p) (nseq j Turn) in
  let d := size (gains w.1) - size (gains o) in
  [/\ w.1 = put o (gains o ++ take d (appended p o)),
      appended w.2 o = drop d (appended p o), answer w.2 o = answer p o, blind same w.2 &
      0 < d -> blind R w.2].
Proof.
elim: j p o => [|j IH] p o L B /=.
  by rewrite subnn take0 drop0 cats0 put_gains.
case: p L B => [r|k|K p] /= L B.
- have -> : run_events add (o, Ret N O r) (nseq j Turn) = (o, Ret N O r) by elim: j {IH}.
  by rewrite subnn /= cats0 put_gains.
- by case: B => b _; exact: IH.
have := IH p (add K o) (late_blind L) B; rewrite /run_events /=; set w := foldl _ _ _ => -[h1 h2 h3 h4 h5].
have sm : same o (add K o) by exact: same_put.
have [a1 a2 _] := blind_same B sm; have [b1 b2 _] := blind_same h4 sm.
have hs : size (gains w.1) - size (gains o) = (size (gains w.1) - size (gains (add K o))).+1.
  have le : size (gains (add K o)) <= size (gains w.1).
    by rewrite h1 gains_put size_cat leq_addr.
  rewrite -subSn // /add gains_put size_rcons subSS //.
rewrite hs /= b1 b2 a1 a2 h2 h3; split=> //.
  by rewrite {1}h1 /add gains_put !put_put cat_rcons.
by move=> _; exact: blind_run.
Qed.
End Blind.

Lemma same_refl o : same o o. Proof. by exists (gains o); rewrite put_gains. Qed.
Lemma same_trans o1 o2 o3 : same o1 o2 -> same o2 o3 -> same o1 o3.
Proof. by move=> [g ->] [g' ->]; exists g'; rewrite put_put. Qed.

Lemma late_then T (R : O -> O -> Prop) (p : prog T) o j es :
  (forall o g, R o (put o g)) -> (forall o1 o2 o3, R o1 o2 -> R o2 o3 -> R o1 o3) ->
  late R p -> blind same p -> polite R es ->
  let w1 := run_events add (o, p) (nseq j Turn) in
  let w := run_events add w1 es in
  size (gains o) < size (gains w1.1) ->
  [/\ forall r, outcome w.2 = Some r -> r = answer p o,
      rank p o <= turns es -> outcome w.2 <> None &
      (forall f, List.In (User f) es -> forall o, gains (f o) = gains o) ->
      outcome w.2 <> None -> gains w.1 = gains o ++ appended p o].
Proof.
move=> Rput Rtr L B P w1 w lt.
have [h1 h2 h3 h4 h5] := late_run o j L B; rewrite -/w1 in h1 h2 h3 h4 h5.
have B1 : blind R w1.2 by apply: h5; rewrite subn_gt0.
have R1 : R o w1.1 by rewrite h1; exact: Rput.
have Ra K o' : R o' (add K o') by exact: Rput.
have Ew : w = run_events add (w1.1, w1.2) es by rewrite /w; case: (w1).
have [k1 k2 k3] := polite_run Rtr Ra B1 R1 P; rewrite -Ew in k1 k2 k3.
have [_ _ rk] : [/\ same o w1.1, answer w1.2 o = answer p o & rank w1.2 o = rank p o - turns (nseq j Turn)].
  apply: (polite_run same_trans _ B (same_refl o)); first by move=> K o'; exact: same_put.
  by move=> f; elim: (j) => //= j' IH [].
split.
- by move=> r; rewrite -h3 -k2; case: (w.2) => //= r0 [->].
- move=> le; have : rank w.2 o = 0.
    by rewrite k3; apply/eqP; rewrite subn_eq0; apply: leq_trans le; rewrite rk leq_subr.
  by case: (w.2).
move=> G nn.
have : gains w.1 ++ appended w.2 o = gains w1.1 ++ appended w1.2 o by rewrite Ew; exact: (polite_gains Rtr Ra B1 R1 P G).
have -> : appended w.2 o = [::] by case: (w.2) nn.
by rewrite cats0 => ->; rewrite {1}h1 gains_put h2 -catA cat_take_drop.
Qed.
End Impl.
End Generic.
