(** * LaxOps: if the checked solver solves, the solver on related scalars takes
    the same path *)
From Coq Require Import ZArith Reals Floats.SpecFloat.
From Flocq Require Import Core.Core.
From mathcomp Require Import ssreflect ssrfun ssrbool eqtype ssrnat seq.
From Verif Require Import Np NpLemmas Binary64 Lu Param Zeros Graded GradedOps Ieee Round64 Wide Checked.

Set Implicit Arguments.
Unset Strict Implicit.
Unset Printing Implicit Defensive.

Notation C := checked_ops.

Section LaxOps.
Variables (S : ops) (e : f64 -> O S).
(** Lost numbers are related to everything, the others to what e makes of them. *)
Definition lax (x : option f64) (y : O S) : Prop :=
  match x with Some v => good v /\ y = e v | None => True end.
Notation Q := (lax : O C -> O S -> Prop).
Hypothesis e0 : e fzero = o0 S.
Hypothesis eadd : forall a b v, good a -> good b -> keep true (fadd a b) = Some v -> good v /\ oadd (e a) (e b) = e v.
Hypothesis esub : forall a b v, good a -> good b -> keep true (fsub a b) = Some v -> good v /\ osub (e a) (e b) = e v.
Hypothesis emul : forall a b v, good a -> good b ->
  keep (is_zero a || is_zero b || fltb minn (fabs (fmul a b))) (fmul a b) = Some v -> good v /\ omul (e a) (e b) = e v.
Hypothesis ediv : forall a b v, good a -> good b -> is_zero b = false ->
  keep (is_zero a || fltb minn (fabs (fdiv a b))) (fdiv a b) = Some v -> good v /\ odiv (e a) (e b) = e v.
Hypothesis eltb : forall a b, good a -> good b -> oltb (oabs (e a)) (oabs (e b)) = fltb (fabs a) (fabs b).
Hypothesis eis0 : forall a, good a -> ois0 (e a) = is_zero a.

Lemma l0 : Q (o0 C) (o0 S). Proof. by rewrite -e0; split. Qed.
Lemma ladd (x y : O C) x' y' : Q x x' -> Q y y' -> Q (oadd x y) (oadd x' y').
Proof.
case: x y => [a|] [b|] //= [Ga ->] [Gb ->].
by case E : (keep _ _) => [v|] //; have [Gv ->] := eadd Ga Gb E.
Qed.
Lemma lsub (x y : O C) x' y' : Q x x' -> Q y y' -> Q (osub x y) (osub x' y').
Proof.
case: x y => [a|] [b|] //= [Ga ->] [Gb ->].
by case E : (keep _ _) => [v|] //; have [Gv ->] := esub Ga Gb E.
Qed.
Lemma lmul (x y : O C) x' y' : Q x x' -> Q y y' -> Q (omul x y) (omul x' y').
Proof.
case: x y => [a|] [b|] //= [Ga ->] [Gb ->].
by case E : (keep _ _) => [v|] //; have [Gv ->] := emul Ga Gb E.
Qed.
Lemma ldiv (x y : O C) x' y' : Q x x' -> Q y y' -> ois0 y = false -> Q (odiv x y) (odiv x' y').
Proof.
case: x y => [a|] [b|] //= [Ga ->] [Gb ->] Nb.
by case E : (keep _ _) => [v|] //; have [Gv ->] := ediv Ga Gb Nb E.
Qed.

Definition is_kept (x : O C) : bool := if (x : option f64) is Some _ then true else false.

(** ** Every coefficient of a solved system is kept *)
Lemma sub_kept (x y : O C) : is_kept (osub x y) -> is_kept x && is_kept y.
Proof. by case: x y => [a|] [b|]. Qed.
Lemma mul_kept (x y : O C) : is_kept (omul x y) -> is_kept x && is_kept y.
Proof. by case: x y => [a|] [b|]. Qed.
Lemma div_kept (x y : O C) : is_kept (odiv x y) -> is_kept x && is_kept y.
Proof. by case: x y => [a|] [b|]. Qed.

Local Arguments O : simpl never.
Local Arguments oadd : simpl never.
Local Arguments osub : simpl never.
Local Arguments omul : simpl never.
Local Arguments odiv : simpl never.
Local Arguments oabs : simpl never.
Local Arguments oltb : simpl never.
Local Arguments ois0 : simpl never.
Local Arguments o0 : simpl never.

Definition coefs_kept (n : nat) (r : seq (O C)) : bool := all is_kept (take n r).

Lemma upd_kept n (l : O C) r p : n < size r -> n < size p ->
  coefs_kept n [seq osub q.1 (omul l q.2) | q <- zip (behead r) (behead p)] ->
  (0 < n -> is_kept l && coefs_kept n (behead p)) /\ coefs_kept n (behead r).
Proof.
case: r p => [|x r] [|y p] //=; rewrite !ltnS /coefs_kept.
elim: n r p => [|n IH] [|u r] [|v p] //= Hr Hp.
move=> /andP [/sub_kept /andP [Hu /mul_kept /andP [Hl Hv]] /(IH _ _ Hr Hp) [H1 H2]].
rewrite Hu Hv Hl H2; split=> // _; case: n {IH Hr Hp} H1 {H2} => [|n] H1; first by rewrite take0.
by have /andP [_ ->] := H1 isT.
Qed.

Definition wide_rows (n : nat) (rows : seq (seq (O C))) : bool := all (fun r => n <= size r) rows.

Lemma set_mem (T : Type) (P : pred T) d (rows : seq T) p :
  p < size rows -> all P (behead (set_nth d rows p (head d rows))) -> P (nth d rows p) -> all P rows.
Proof.
case: rows p => [|r rows] [|p] //= Hp; first by move=> -> ->.
elim: rows p Hp => [|s rows IH] [|p] //= Hp; first by move=> /andP [-> ->] ->.
move=> /andP [-> Hs] Hn /=; exact: IH Hs Hn.
Qed.

Lemma set_all (T : Type) (P : pred T) d (rows : seq T) p v :
  p < size rows -> P v -> all P rows -> all P (set_nth d rows p v).
Proof.
move=> Hp Hv; elim: rows p Hp => [|s rows IH] [|p] //= Hp; first by rewrite Hv => /andP [_ ->].
by move=> /andP [-> /(IH _ Hp)].
Qed.

Lemma amax_lt best (bv : O C) k rows : best < k + size rows -> g_amax best bv k rows < k + size rows.
Proof.
elim: rows best bv k => [|r rows IH] best bv k //=; rewrite addnS -addSn => H.
by case: ifP => _; apply: IH => //; rewrite addSn ltnS leq_addr.
Qed.

Lemma wide_rest n (rows : seq (seq (O C))) p : p < size rows -> wide_rows n.+1 rows ->
  wide_rows n.+1 (behead (set_nth [::] rows p (head [::] rows))).
Proof.
move=> Hp Hw; have : wide_rows n.+1 (set_nth [::] rows p (head [::] rows)).
  by apply: set_all => //; case: (rows) Hp Hw => [|r0 rs] //= _ /andP [].
by case: (set_nth _ _ _ _) => //= ? ? /andP [].
Qed.

Lemma elim_kept n (rows ps : seq (seq (O C))) : size rows = n -> wide_rows n rows ->
  g_elim n rows = Some ps -> all (coefs_kept n) rows.
Proof.
elim: n rows ps => [|n IH] rows ps Es Hw /=; first by move/size0nil: Es => ->.
set p := g_amax _ _ _ _; set prow := nth [::] rows p; set rest := behead (set_nth _ _ _ _).
have Hp : p < size rows by have := @amax_lt 0 (oabs (head (o0 C) (head [::] rows))) 0 rows; rewrite Es; apply.
case E0 : (ois0 (head (o0 C) prow)) => //.
set up := [seq _ | r <- rest]; case E : (@g_elim C n up) => [qs|] // _.
have Wp : n < size prow by exact: (all_nthP [::] Hw).
have Wr : wide_rows n.+1 rest by exact: wide_rest.
have Sr : size rest = n by rewrite /rest size_behead size_set_nth Es (maxn_idPr _) // -Es.
have Ku : all (coefs_kept n) up.
  apply: IH E; first by rewrite size_map.
  rewrite /wide_rows all_map; apply: sub_all Wr => r /= Hr; rewrite size_map size_zip !size_behead leq_min.
  by case: (size r) Hr => //= k; rewrite ltnS => ->; case: (size prow) Wp.
have Kh : is_kept (head (o0 C) prow) by move: E0; rewrite -/prow; case: (head _ _).
rewrite all_map in Ku.
have Kr i (r := nth [::] rest i) : i < size rest -> (0 < n -> is_kept (head (o0 C) r) && coefs_kept n (behead prow)) /\ coefs_kept n (behead r).
  move=> Hi; have Wi : n < size r by exact: (all_nthP [::] Wr).
  have Hu : coefs_kept n [seq osub q.1 (omul (odiv (head (o0 C) r) (head (o0 C) prow)) q.2) | q <- zip (behead r) (behead prow)].
    by have := all_nthP [::] Ku i Hi.
  have [h1 h2] := upd_kept Wi Wp Hu; split=> // Hn.
  by have /andP [/div_kept /andP [-> _] ->] := h1 Hn.
have K1 r : 0 < size r -> is_kept (head (o0 C) r) -> coefs_kept n (behead r) -> coefs_kept n.+1 r.
  by case: r => //= x r _ Hx Hr; rewrite /coefs_kept /= Hx.
apply: (@set_mem _ _ [::] _ p Hp).
- apply/(all_nthP [::]) => i Hi; have [h1 h2] := Kr i Hi; have Wr' := all_nthP [::] Wr i Hi.
  case: (posnP n) => Hn; first by move: Hi; rewrite Sr Hn.
  by apply: K1 => //; [case: (size _) Wr'|have /andP [] := h1 Hn].
- rewrite -/prow; case: (posnP n) => Hn.
    by rewrite Hn /coefs_kept; case: (prow) Wp Kh => //= x r _ ->; rewrite take0.
  have H0 : 0 < size rest by rewrite Sr.
  by have [/(_ Hn) /andP [_ h] _] := Kr 0 H0; apply: K1 => //; case: (size prow) Wp.
Qed.

(** ** The same pivots *)
Lemma lax_amax best bv bv' k rows rows' : is_kept bv -> Q bv bv' -> rel_seq (rel_seq Q) rows rows' ->
  wide_rows 1 rows -> all (coefs_kept 1) rows ->
  g_amax best (oabs bv) k rows = g_amax best (oabs bv') k rows'.
Proof.
elim: rows rows' best bv bv' k => [|r rows IH] [|r' rows'] best bv bv' k //= Kb Hb [Hr Hrows] /andP [Wr Ws] /andP [Kr Ks].
have Kh : is_kept (head (o0 C) r) by case: r Wr Kr {Hr} => //= x r _; rewrite /coefs_kept /= take0 /= andbT.
have Hh := q_head l0 Hr.
have -> : oltb (oabs bv) (oabs (head (o0 C) r)) = oltb (oabs bv') (oabs (head (o0 S) r')).
  move: (head _ r) (head _ r') Hh Kh => [v|] // v' [Gv ->] _.
  by case: (bv) Kb Hb => [u|] // _ [Gu ->]; rewrite eltb.
by case: ifP => _; apply: IH.
Qed.

Lemma kept1 n r : coefs_kept n.+1 r -> coefs_kept 1 r.
Proof. by case: r => //= x r; rewrite /coefs_kept /= take0 /= andbT => /andP []. Qed.

Lemma lax_elim n rows rows' ps : size rows = n -> wide_rows n rows -> rel_seq (rel_seq Q) rows rows' ->
  g_elim n rows = Some ps ->
  exists2 ps', g_elim n rows' = Some ps' & rel_seq (rel_seq Q) ps ps' /\ pivots ps.
Proof.
elim: n rows rows' ps => [|n IH] rows rows' ps Es Hw Hr E; first by case: E => <-; exists [::].
have Hk := elim_kept Es Hw E; move: E => /=.
have Hh := q_heads Hr.
have W1 : wide_rows 1 rows by apply: sub_all Hw => r; case: (size r).
have K1 : all (coefs_kept 1) rows by apply: sub_all Hk => r /kept1.
have Kb : is_kept (head (o0 C) (head [::] rows)).
  case: (rows) Es W1 K1 => [|r rs] //= _ /andP [Wr _] /andP [Kr _].
  by case: r Wr Kr => //= x r _; rewrite /coefs_kept /= take0 /= andbT.
rewrite -(lax_amax 0 0 Kb (q_head l0 Hh) Hr W1 K1).
set p := g_amax _ _ _ _; have Hp := q_nths p Hr.
have Lp : p < size rows by have := @amax_lt 0 (oabs (head (o0 C) (head [::] rows))) 0 rows; rewrite Es; apply.
case E0 : (ois0 (head (o0 C) _)) => //.
have E0' : ois0 (head (o0 S) (nth [::] rows' p)) = false.
  have := q_head l0 Hp; move: E0; case: (head (o0 C) _) => [v|] // E0 [Gv ->].
  by rewrite eis0.
rewrite E0'.
set up := [seq _ | r <- behead _]; set up' := [seq _ | r <- behead _].
have Hup : rel_seq (rel_seq Q) up up'.
  rewrite /up /up'; have := q_behead (q_set p Hr Hh).
  elim: (behead _) (behead _) => [|r s IHs] [|r' s'] //= [H1 /IHs H2]; split=> //.
  apply: (q_upd lsub lmul); [|exact: q_behead|exact: q_behead].
  by apply: ldiv => //; apply: (q_head l0).
case E : (@g_elim C n up) => [qs|] //= [<-].
have Wp : n < size (nth [::] rows p) by exact: (all_nthP [::] Hw).
have Su : size up = n by rewrite size_map size_behead size_set_nth Es (maxn_idPr _) // -Es.
have Wr : wide_rows n.+1 (behead (set_nth [::] rows p (head [::] rows))).
  exact: wide_rest.
have Wu : wide_rows n up.
  rewrite /wide_rows all_map; apply: sub_all Wr => r /= Hr'; rewrite size_map size_zip !size_behead leq_min.
  by case: (size r) Hr' => //= k; rewrite ltnS => ->; case: (size (nth [::] rows p)) Wp.
have [qs' -> [Hqs Hpv]] := IH _ _ _ Su Wu Hup E.
by exists (nth [::] rows' p :: qs') => //; split=> //=; rewrite E0.
Qed.

Theorem lax_solve n r a b a' b' f : size a = n * n -> rel_seq Q a a' -> rel_seq Q b b' ->
  g_solve n r a b = Some f ->
  exists2 f', g_solve n r a' b' = Some f' & forall i j, Q (f i j) (f' i j).
Proof.
move=> Sa Ha Hb; rewrite /g_solve.
set rows := [seq p.1 ++ p.2 | p <- zip (chunk n n a) (chunk r n b)].
set rows' := [seq p.1 ++ p.2 | p <- zip (chunk n n a') (chunk r n b')].
have Hrows : rel_seq (rel_seq Q) rows rows'.
  rewrite /rows /rows'; have := q_chunk r n Hb; have := q_chunk n n Ha.
  elim: (chunk n n a) (chunk n n a') (chunk r n b) (chunk r n b') => [|x s IH] [|x' s'] [|y t] [|y' t'] //= [Hx Hs] [Hy Ht].
  by split; [apply: q_cat|apply: IH].
have Sz (T : Type) w (s : seq T) : size (chunk w n s) = n.
  by elim: (n) s => //= m IH s; rewrite IH.
have Sr : size rows = n by rewrite size_map size_zip !Sz minnn.
have Wr : wide_rows n rows.
  have Wc := chunk_sizes Sa.
  rewrite /rows; elim: (chunk n n a) (chunk r n b) Wc => [|x s IH] [|y t] //= /andP [/eqP Ex Es].
  by rewrite size_cat Ex leq_addr IH.
case E : (@g_elim C n rows) => [ps|] // [<-].
have [ps' -> [Hps Hp]] := lax_elim Sr Wr Hrows E.
eexists; first by [].
move=> i j; apply: (q_nth l0); apply: q_nths; elim: (iota 0 r) => //= c s IH; split=> //.
exact: (q_backsub l0 lsub lmul ldiv).
Qed.
End LaxOps.
