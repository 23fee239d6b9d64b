(** * GradedOps: the matrix product and the solver respect grades; doubles and
    negation, exact numbers and scaling *)
From Coq Require Import ZArith Lia Floats.SpecFloat.
From mathcomp Require Import ssreflect ssrfun ssrbool eqtype ssrnat seq.
From Verif Require Import Np NpLemmas Kf Binary64 Lu Param Zeros Graded.

Set Implicit Arguments.
Unset Strict Implicit.
Unset Printing Implicit Defensive.

Section GradedOps.
Variables (S S' : ops) (Q : Z -> O S -> O S' -> Prop).
Hypothesis q0 : forall g, Q g (o0 S) (o0 S').
Hypothesis qadd : forall g x y x' y', Q g x x' -> Q g y y' -> Q g (oadd x y) (oadd x' y').
Hypothesis qsub : forall g x y x' y', Q g x x' -> Q g y y' -> Q g (osub x y) (osub x' y').
Hypothesis qmul : forall g h x y x' y', Q g x x' -> Q h y y' -> Q (g + h) (omul x y) (omul x' y').
Hypothesis qdiv : forall g h x y x' y', Q g x x' -> Q h y y' -> ois0 y = false -> Q (g - h) (odiv x y) (odiv x' y').
Hypothesis qltb : forall g x y x' y', Q g x x' -> Q g y y' -> oltb (oabs x) (oabs y) = oltb (oabs x') (oabs y').
Hypothesis qis0 : forall g x x', Q g x x' -> ois0 x = ois0 x'.

Lemma qeq g h x x' : g = h -> Q g x x' -> Q h x x'. Proof. by move=> ->. Qed.

Lemma gq_nth g s s' i : rel_seq (Q g) s s' -> Q g (nth (o0 S) s i) (nth (o0 S') s' i).
Proof. by elim: s s' i => [|x s IH] [|x' s'] [|i] //= [Hx Hs] //; apply: IH. Qed.
Lemma gq_head g s s' : rel_seq (Q g) s s' -> Q g (head (o0 S) s) (head (o0 S') s').
Proof. by case: s s' => [|x s] [|x' s'] //= []. Qed.

Lemma gq_mm g h kd m k n a b a' b' i j : rel_seq (Q g) a a' -> rel_seq (Q h) b b' ->
  Q (g + h) (g_mm kd m k n a b i j) (g_mm (S := S') kd m k n a' b' i j).
Proof.
move=> Ha Hb; rewrite /g_mm; case: k => [|k] //.
have Ht l : Q (g + h) (omul (nth (o0 S) a (i * k.+1 + l)) (nth (o0 S) b (l * n + j)))
              (omul (nth (o0 S') a' (i * k.+1 + l)) (nth (o0 S') b' (l * n + j))).
  by apply: qmul; apply: gq_nth.
move: (Ht 0); move: (omul _ _) (omul _ _) => x x'.
by elim: (iota 1 k) x x' => [|l s IH] x x' Hx //=; apply: IH; apply: qadd.
Qed.

(** A row of an augmented matrix: w coefficients of grade g, then right-hand
    sides of grade h. *)
Variables g h : Z.
Fixpoint grow (w : nat) (r : seq (O S)) (r' : seq (O S')) : Prop :=
  if w is w'.+1 then
    match r, r' with
    | [::], [::] => True
    | x :: s, x' :: s' => Q g x x' /\ grow w' s s'
    | _, _ => False
    end
  else rel_seq (Q h) r r'.

Lemma grow_nil w : grow w [::] [::]. Proof. by case: w. Qed.
Lemma grow_cat w s s' t t' : size s = w -> rel_seq (Q g) s s' -> rel_seq (Q h) t t' -> grow w (s ++ t) (s' ++ t').
Proof. by elim: w s s' => [|w IH] [|x s] [|x' s'] //= [Es] [Hx Hs] Ht; split=> //; apply: IH. Qed.
Lemma grow_head w r r' : grow w.+1 r r' -> Q g (head (o0 S) r) (head (o0 S') r').
Proof. by case: r r' => [|x r] [|x' r'] //= []. Qed.
Lemma grow_behead w r r' : grow w.+1 r r' -> grow w (behead r) (behead r').
Proof. by case: r r' => [|x r] [|x' r'] //=; [move=> _; exact: grow_nil|case]. Qed.
Lemma grow_take w r r' : grow w r r' -> rel_seq (Q g) (take w r) (take w r').
Proof. by elim: w r r' => [|w IH] [|x r] [|x' r'] //= [Hx /IH]. Qed.
Lemma grow_rhs w r r' c : grow w r r' -> Q h (nth (o0 S) r (w + c)) (nth (o0 S') r' (w + c)).
Proof.
elim: w r r' => [|w IH] r r'; first exact: gq_nth.
by case: r r' => [|x r] [|x' r'] //= [_ /IH].
Qed.

Lemma grow_nth w s s' i : rel_seq (grow w) s s' -> grow w (nth [::] s i) (nth [::] s' i).
Proof. by elim: s s' i => [|x s IH] [|x' s'] [|i] //=; try (by move=> *; exact: grow_nil); move=> [Hx Hs] //; apply: IH. Qed.
Lemma grow_heads w s s' : rel_seq (grow w) s s' -> grow w (head [::] s) (head [::] s').
Proof. by case: s s' => [|x s] [|x' s'] //=; [move=> _; exact: grow_nil|case]. Qed.
Lemma grow_set w s s' i v v' : rel_seq (grow w) s s' -> grow w v v' ->
  rel_seq (grow w) (set_nth [::] s i v) (set_nth [::] s' i v').
Proof.
elim: s s' i => [|x s IH] [|x' s'] [|i] //= Hs Hv.
- by split; [exact: grow_nil|elim: i => //= i; split; first exact: grow_nil].
- by case: Hs.
- by case: Hs => Hx Hs; split=> //; apply: IH.
Qed.

Lemma gq_amax w best x x' k rows rows' : Q g x x' -> rel_seq (grow w.+1) rows rows' ->
  g_amax best (oabs x) k rows = g_amax (S := S') best (oabs x') k rows'.
Proof.
elim: rows rows' best x x' k => [|r rows IH] [|r' rows'] best x x' k //= Hb [Hr Hrows].
have Hv := grow_head Hr; rewrite (qltb Hb Hv).
by case: ifP => _; apply: IH.
Qed.

Lemma gq_upd w l l' r r' p p' : Q 0 l l' -> grow w r r' -> grow w p p' ->
  grow w [seq osub q.1 (omul l q.2) | q <- zip r p] [seq osub q.1 (omul l' q.2) | q <- zip r' p'].
Proof.
move=> Hl; elim: w r r' p p' => [|w IH].
  elim=> [|x r IH] [|x' r'] [|y p] [|y' p'] //= [Hx Hr] [Hy Hp].
  by split; [apply: qsub => //; apply: (qmul Hl Hy)|apply: IH].
case=> [|x r] [|x' r'] [|y p] [|y' p'] //= [Hx Hr] [Hy Hp].
by split; [apply: qsub => //; apply: (qmul Hl Hy)|apply: IH].
Qed.

Fixpoint gps (w : nat) (ps : seq (seq (O S))) (ps' : seq (seq (O S'))) : Prop :=
  match w, ps, ps' with
  | 0, [::], [::] => True
  | w'.+1, r :: s, r' :: s' => grow w r r' /\ gps w' s s'
  | _, _, _ => False
  end.

Lemma gq_elim n rows rows' : rel_seq (grow n) rows rows' ->
  match g_elim n rows, g_elim (S := S') n rows' with
  | Some ps, Some ps' => gps n ps ps' /\ pivots ps
  | None, None => True
  | _, _ => False
  end.
Proof.
elim: n rows rows' => [|n IH] rows rows' Hr //.
cbn [g_elim]; have Hh := grow_heads Hr; rewrite -(gq_amax 0 0 (grow_head Hh) Hr).
set p := g_amax _ _ _ _; have Hp := grow_nth p Hr.
rewrite -(qis0 (grow_head Hp)); case: ifP => // E0.
set up := [seq _ | r <- behead _]; set up' := [seq _ | r <- behead _].
have Hup : rel_seq (grow n) up up'.
  rewrite /up /up'; have := q_behead (grow_set p Hr Hh).
  elim: (behead _) (behead _) => [|r s IHs] [|r' s'] // [H1 /IHs H2]; split=> //.
  apply: gq_upd; [|exact: grow_behead H1|exact: grow_behead Hp].
  by apply: (@qeq (g - g)%Z); [lia|apply: qdiv; [exact: grow_head H1|exact: grow_head Hp|]].
have := IH _ _ Hup; case: (g_elim n _) => [ps|]; case: (g_elim n _) => [ps'|] // [H1 H2].
by split; [split|rewrite /= E0].
Qed.

Lemma gq_backsub c n ps ps' : gps n ps ps' -> pivots ps ->
  size (g_backsub c ps) = n /\ rel_seq (Q (h - g)) (g_backsub c ps) (g_backsub (S := S') c ps').
Proof.
elim: n ps ps' => [|n IH] [|r ps] [|r' ps'] // [Hr Hps] /andP [E0 Ep].
have [Es Ht] := IH _ _ Hps Ep; cbn [g_backsub]; split; first by rewrite /= Es.
split=> //; rewrite -(q_size Ht) Es.
apply: qdiv; [|exact: grow_head Hr|exact: negbTE].
have := grow_take (grow_behead Hr); have := grow_rhs c Hr; rewrite add1n.
move: (nth _ _ _) (nth _ _ _) (take _ _) (take _ _) Ht {Hr Hps E0 Es IH Ep}.
move: (g_backsub _ _) (g_backsub _ _) => t t' x x' s s' Ht Hx.
elim: s s' t t' x x' Ht Hx => [|y s IHs] [|y' s'] // [|z t] [|z' t'] x x' //= [Hz Ht] Hx [Hy Hs].
apply: IHs => //; apply: qsub => //; apply: (@qeq (g + (h - g))%Z); [lia|exact: qmul].
Qed.

Lemma gq_chunk (P : O S -> O S' -> Prop) w n s s' : rel_seq P s s' -> rel_seq (rel_seq P) (chunk w n s) (chunk w n s').
Proof. by elim: n s s' => [|n IH] s s' //= Hs; split; [apply: q_take|apply: IH; apply: q_drop]. Qed.

Lemma chunk_sizes (T : Type) w n (s : seq T) : size s = n * w -> all (fun r => size r == w) (chunk w n s).
Proof.
elim: n s => [|n IH] s //= Es; rewrite size_take IH ?size_drop ?Es ?mulSn ?addKn // andbT.
by case: ltnP => // Hl; rewrite eqn_leq leq_addr Hl.
Qed.

Lemma gq_solve n r a b a' b' : size a = n * n -> rel_seq (Q g) a a' -> rel_seq (Q h) b b' ->
  rel_opt (fun f f' => forall i j, Q (h - g) (f i j) (f' i j)) (g_solve n r a b) (g_solve (S := S') n r a' b').
Proof.
move=> Sa Ha Hb; rewrite /g_solve.
have Hrows : rel_seq (grow n) [seq p.1 ++ p.2 | p <- zip (chunk n n a) (chunk r n b)]
                                 [seq p.1 ++ p.2 | p <- zip (chunk n n a') (chunk r n b')].
  have := gq_chunk r n Hb; have := gq_chunk n n Ha; have := chunk_sizes Sa.
  elim: (chunk n n a) (chunk n n a') (chunk r n b) (chunk r n b') => [|x s IH] [|x' s'] [|y t] [|y' t'] //=.
  move=> /andP [/eqP Ex Es] [Hx Hs] [Hy Ht].
  by split; [apply: grow_cat|apply: IH].
have := gq_elim Hrows; case: (g_elim n _) => [ps|]; case: (g_elim n _) => [ps'|] //= [Hps Hp] i j.
apply: gq_nth; elim: (iota 0 r) j => [|c s IH] [|j] //=.
by have [] := gq_backsub c Hps Hp.
Qed.
End GradedOps.
