(** * Zeros: the product and the solver do not see the sign of a zero *)
From Coq Require Import ZArith Floats.SpecFloat.
From mathcomp Require Import ssreflect ssrfun ssrbool eqtype ssrnat seq.
From Verif Require Import Np NpLemmas Kf Binary64 Exact Lu Param.

Set Implicit Arguments.
Unset Strict Implicit.
Unset Printing Implicit Defensive.

(** ** Related scalars, with a division that only has to be respected for nonzero divisors *)
Section RelOps.
Variables (S S' : ops) (Q : O S -> O S' -> Prop).
Hypothesis q0 : Q (o0 S) (o0 S').
Hypothesis qadd : forall x y x' y', Q x x' -> Q y y' -> Q (oadd x y) (oadd x' y').
Hypothesis qsub : forall x y x' y', Q x x' -> Q y y' -> Q (osub x y) (osub x' y').
Hypothesis qmul : forall x y x' y', Q x x' -> Q y y' -> Q (omul x y) (omul x' y').
Hypothesis qdiv : forall x y x' y', Q x x' -> Q y y' -> ois0 y = false -> Q (odiv x y) (odiv x' y').
Hypothesis qabs : forall x x', Q x x' -> Q (oabs x) (oabs x').
Hypothesis qltb : forall x y x' y', Q x x' -> Q y y' -> oltb x y = oltb x' y'.
Hypothesis qis0 : forall x x', Q x x' -> ois0 x = ois0 x'.

Lemma q_nth s s' i : rel_seq Q s s' -> Q (nth (o0 S) s i) (nth (o0 S') s' i).
Proof. by elim: s s' i => [|x s IH] [|x' s'] [|i] //= [Hx Hs] //; apply: IH. Qed.
Lemma q_head s s' : rel_seq Q s s' -> Q (head (o0 S) s) (head (o0 S') s').
Proof. by case: s s' => [|x s] [|x' s'] //= []. Qed.
Lemma q_behead (T T' : Type) (P : T -> T' -> Prop) s s' : rel_seq P s s' -> rel_seq P (behead s) (behead s').
Proof. by case: s s' => [|x s] [|x' s'] //= []. Qed.
Lemma q_nths s s' i : rel_seq (rel_seq Q) s s' -> rel_seq Q (nth [::] s i) (nth [::] s' i).
Proof. by elim: s s' i => [|x s IH] [|x' s'] [|i] //= [Hx Hs] //; apply: IH. Qed.
Lemma q_heads s s' : rel_seq (rel_seq Q) s s' -> rel_seq Q (head [::] s) (head [::] s').
Proof. by case: s s' => [|x s] [|x' s'] //= []. Qed.
Lemma q_size (T T' : Type) (P : T -> T' -> Prop) s s' : rel_seq P s s' -> size s = size s'.
Proof. by elim: s s' => [|x s IH] [|x' s'] //= [_ /IH ->]. Qed.
Lemma q_take (T T' : Type) (P : T -> T' -> Prop) n s s' : rel_seq P s s' -> rel_seq P (take n s) (take n s').
Proof. by elim: n s s' => [|n IH] [|x s] [|x' s'] //= [Hx /IH]. Qed.
Lemma q_drop (T T' : Type) (P : T -> T' -> Prop) n s s' : rel_seq P s s' -> rel_seq P (drop n s) (drop n s').
Proof. by elim: n s s' => [|n IH] [|x s] [|x' s'] //= [Hx /IH]. Qed.
Lemma q_cat (T T' : Type) (P : T -> T' -> Prop) s s' t t' : rel_seq P s s' -> rel_seq P t t' -> rel_seq P (s ++ t) (s' ++ t').
Proof. by elim: s s' => [|x s IH] [|x' s'] //= [Hx /IH Hs] /Hs. Qed.
Lemma q_set s s' i v v' : rel_seq (rel_seq Q) s s' -> rel_seq Q v v' ->
  rel_seq (rel_seq Q) (set_nth [::] s i v) (set_nth [::] s' i v').
Proof.
elim: s s' i => [|x s IH] [|x' s'] [|i] //= Hs Hv.
- by split=> //; elim: i => //= i; split.
- by case: Hs.
- by case: Hs => Hx Hs; split=> //; apply: IH.
Qed.

Lemma q_mm kd m k n a b a' b' i j : rel_seq Q a a' -> rel_seq Q b b' ->
  Q (g_mm kd m k n a b i j) (g_mm (S := S') kd m k n a' b' i j).
Proof.
move=> Ha Hb; rewrite /g_mm; case: k => [|k] //.
have Ht l : Q (omul (nth (o0 S) a (i * k.+1 + l)) (nth (o0 S) b (l * n + j)))
              (omul (nth (o0 S') a' (i * k.+1 + l)) (nth (o0 S') b' (l * n + j))).
  by apply: qmul; apply: q_nth.
move: (Ht 0); move: (omul _ _) (omul _ _) => x x'.
by elim: (iota 1 k) x x' => [|l s IH] x x' Hx //=; apply: IH; apply: qadd.
Qed.

Lemma q_amax best bv bv' k rows rows' : Q bv bv' -> rel_seq (rel_seq Q) rows rows' ->
  g_amax best bv k rows = g_amax (S := S') best bv' k rows'.
Proof.
elim: rows rows' best bv bv' k => [|r rows IH] [|r' rows'] best bv bv' k //= Hb [Hr Hrows].
have Hv := qabs (q_head Hr); rewrite (qltb Hb Hv).
by case: ifP => _; apply: IH.
Qed.

Lemma q_upd l l' r r' p p' : Q l l' -> rel_seq Q r r' -> rel_seq Q p p' ->
  rel_seq Q [seq osub q.1 (omul l q.2) | q <- zip r p] [seq osub q.1 (omul l' q.2) | q <- zip r' p'].
Proof.
move=> Hl; elim: r r' p p' => [|x r IH] [|x' r'] [|y p] [|y' p'] //= [Hx Hr] [Hy Hp].
by split; [apply: qsub => //; apply: qmul|apply: IH].
Qed.

Definition pivots (ps : seq (seq (O S))) : bool := all (fun r => ~~ ois0 (head (o0 S) r)) ps.

Lemma q_elim n rows rows' : rel_seq (rel_seq Q) rows rows' ->
  match g_elim n rows, g_elim (S := S') n rows' with
  | Some ps, Some ps' => rel_seq (rel_seq Q) ps ps' /\ pivots ps
  | None, None => True
  | _, _ => False
  end.
Proof.
elim: n rows rows' => [|n IH] rows rows' Hr //=.
have Hh := q_heads Hr; rewrite -(q_amax 0 0 (qabs (q_head Hh)) Hr).
set p := g_amax _ _ _ _; have Hp := q_nths p Hr.
rewrite -(qis0 (q_head Hp)); case: ifP => // E0.
set up := [seq _ | r <- behead _]; set up' := [seq _ | r <- behead _].
have Hup : rel_seq (rel_seq Q) up up'.
  rewrite /up /up'; have := q_behead (q_set p Hr Hh).
  elim: (behead _) (behead _) => [|r s IHs] [|r' s'] //= [H1 /IHs H2]; split=> //.
  apply: q_upd; [|exact: q_behead|exact: q_behead].
  by apply: qdiv => //; apply: q_head.
have := IH _ _ Hup; case: (g_elim n _) => [ps|]; case: (g_elim n _) => [ps'|] //= [H1 H2].
by rewrite E0.
Qed.

Lemma q_backsub c ps ps' : rel_seq (rel_seq Q) ps ps' -> pivots ps -> rel_seq Q (g_backsub c ps) (g_backsub (S := S') c ps').
Proof.
elim: ps ps' => [|r ps IH] [|r' ps'] //= [Hr Hps] /andP [E0 /(IH _ Hps) Ht]; split=> //.
apply: qdiv; [|exact: q_head|exact: negbTE].
rewrite -(q_size Ht); set n := size _.
have := q_take n (q_behead Hr); have := q_nth (1 + n + c) Hr.
move: (nth _ _ _) (nth _ _ _) (take _ _) (take _ _) Ht {IH}; rewrite {}/n.
move: (g_backsub _ _) (g_backsub _ _) => t t' x x' s s' Ht Hx.
elim: s s' t t' x x' Ht Hx => [|y s IHs] [|y' s'] // [|z t] [|z' t'] x x' //= [Hz Ht] Hx [Hy Hs].
by apply: IHs => //; apply: qsub => //; apply: qmul.
Qed.

Lemma q_chunk w n s s' : rel_seq Q s s' -> rel_seq (rel_seq Q) (chunk w n s) (chunk w n s').
Proof. by elim: n s s' => [|n IH] s s' //= Hs; split; [apply: q_take|apply: IH; apply: q_drop]. Qed.

Lemma q_solve n r a b a' b' : rel_seq Q a a' -> rel_seq Q b b' ->
  rel_opt (fun g g' => forall i j, Q (g i j) (g' i j)) (g_solve n r a b) (g_solve (S := S') n r a' b').
Proof.
move=> Ha Hb; rewrite /g_solve.
have Hrows : rel_seq (rel_seq Q) [seq p.1 ++ p.2 | p <- zip (chunk n n a) (chunk r n b)]
                                 [seq p.1 ++ p.2 | p <- zip (chunk n n a') (chunk r n b')].
  have := q_chunk r n Hb; have := q_chunk n n Ha.
  elim: (chunk n n a) (chunk n n a') (chunk r n b) (chunk r n b') => [|x s IH] [|x' s'] [|y t] [|y' t'] //= [Hx Hs] [Hy Ht].
  by split; [apply: q_cat|apply: IH].
have := q_elim n Hrows; case: (g_elim n _) => [ps|]; case: (g_elim n _) => [ps'|] //= [Hps Hp] i j.
apply: q_nth; apply: q_nths; elim: (iota 0 r) => //= c s IH; split=> //.
exact: q_backsub.
Qed.
End RelOps.

Lemma rel_list_seq (N1 N2 : num) (R : K N1 -> K N2 -> Prop) a b : rel_list R a b -> rel_seq R a b.
Proof.
case; elim: a b => [|x a IH] [|y b] //= [Es] Hn; split; first exact: (Hn 0).
by apply: IH => // i Hi; apply: (Hn i.+1).
Qed.

(** ** Doubles that differ at most in the sign of a zero *)
Inductive zsame : f64 -> f64 -> Prop :=
| ZEq x : zsame x x
| ZZero s s' : zsame (S754_zero s) (S754_zero s').

Lemma zsame_add x y x' y' : zsame x x' -> zsame y y' -> zsame (fadd x y) (fadd x' y').
Proof.
case=> [{x'} x|s s']; case=> [{y'} y|t t'].
- exact: ZEq.
- by case: x => [u|u| |u m e]; try (by exact: ZEq); case: u; case: t; case: t'; constructor.
- by case: y => [u|u| |u m e]; try (by exact: ZEq); case: u; case: s; case: s'; constructor.
- by case: s; case: s'; case: t; case: t'; constructor.
Qed.

Lemma zsame_sub x y x' y' : zsame x x' -> zsame y y' -> zsame (fsub x y) (fsub x' y').
Proof.
case=> [{x'} x|s s']; case=> [{y'} y|t t'].
- exact: ZEq.
- by case: x => [u|u| |u m e]; try (by exact: ZEq); case: u; case: t; case: t'; constructor.
- by case: y => [u|u| |u m e]; try (by exact: ZEq); case: u; case: s; case: s'; constructor.
- by case: s; case: s'; case: t; case: t'; constructor.
Qed.

Lemma zsame_mul x y x' y' : zsame x x' -> zsame y y' -> zsame (fmul x y) (fmul x' y').
Proof.
case=> [{x'} x|s s']; case=> [{y'} y|t t'].
- exact: ZEq.
- by case: x => [u|u| |u m e]; constructor.
- by case: y => [u|u| |u m e]; constructor.
- by constructor.
Qed.

Lemma zsame_div x y x' y' : zsame x x' -> zsame y y' -> (if y is S754_zero _ then true else false) = false ->
  zsame (fdiv x y) (fdiv x' y').
Proof.
case=> [{x'} x|s s']; case=> [{y'} y|t t'] //; first by move=> _; exact: ZEq.
by case: y => [u|u| |u m e] // _; constructor.
Qed.

Lemma zsame_abs x x' : zsame x x' -> zsame (fabs x) (fabs x').
Proof. by case=> [{x'} x|s s']; constructor. Qed.

Lemma zsame_ltb x y x' y' : zsame x x' -> zsame y y' -> fltb x y = fltb x' y'.
Proof.
by case=> [{x'} x|s s']; case=> [{y'} y|t t'].
Qed.

(** Doubles on a platform where the cast of NaN to int64 gives z. *)
Definition doubles (z : Z) : num := @Num f64 fofZ S754_nan fisnan fadd fsub f_mm f_solve z.

Theorem zeros_agree z : agree (N1 := doubles z) (N2 := doubles z) zsame.
Proof.
split=> //.
- by move=> ?; exact: ZEq.
- exact: ZEq.
- by move=> x y [].
- exact: zsame_add.
- exact: zsame_sub.
- move=> kd m k n a b a' b' i j _ _ /rel_list_seq Ha /rel_list_seq Hb _ _.
  exact: (@q_mm double_ops double_ops zsame (ZEq _) zsame_add zsame_mul kd m k n a b a' b' i j Ha Hb).
- move=> n r a b a' b' _ _ /rel_list_seq Ha /rel_list_seq Hb.
  have H0 : forall x x', zsame x x' -> ois0 (o := double_ops) x = ois0 (o := double_ops) x' by move=> x x' [].
  have := @q_solve double_ops double_ops zsame (ZEq _) zsame_sub zsame_mul zsame_div zsame_abs zsame_ltb H0 n r a b a' b' Ha Hb.
  rewrite -double_solver /=; case: (f_solve _ _ _ _) => [g|]; case: (f_solve _ _ _ _) => [g'|] //=.
Qed.
