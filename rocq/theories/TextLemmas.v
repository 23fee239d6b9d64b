(** * TextLemmas: facts about the text functions of Text.v *)
From Coq Require Import ZArith String Ascii Lia.
From Coq Require DecimalNat PeanoNat.
From mathcomp Require Import ssreflect ssrfun ssrbool eqtype ssrnat seq path.
From Verif Require Import Text.

Set Warnings "-abstract-large-number".
Set Implicit Arguments.
Unset Strict Implicit.
Unset Printing Implicit Defensive.

(** ** Stripping *)
Lemma lstrip_cons (p : pred nat) c s : lstrip p (c :: s) = if p c then lstrip p s else c :: s.
Proof. by rewrite /lstrip /=; case: (p c). Qed.

Lemma lstrip_all (p : pred nat) s t : all p s -> lstrip p (s ++ t) = lstrip p t.
Proof. by elim: s => //= c s IH /andP[pc /IH <-]; rewrite lstrip_cons pc. Qed.

Lemma lstrip_split (p : pred nat) s : exists a, s = a ++ lstrip p s /\ all p a.
Proof.
elim: s => [|c s [a [e h]]]; first by exists [::].
rewrite lstrip_cons; case pc: (p c); last by exists [::].
by exists (c :: a); rewrite /= pc h {1}e.
Qed.

Lemma lstrip_subset (p q : pred nat) s : subpred q p -> lstrip p (lstrip q s) = lstrip p s.
Proof.
move=> sub; have [a [e h]] := lstrip_split q s.
by rewrite [in RHS]e lstrip_all //; apply: sub_all h.
Qed.

Lemma lstrip_nil (p : pred nat) s : (lstrip p s == [::]) = all p s.
Proof. by elim: s => //= c s IH; rewrite lstrip_cons; case: (p c). Qed.

Lemma lstrip_id (p : pred nat) s : (if s is c :: _ then ~~ p c else true) -> lstrip p s = s.
Proof. by case: s => // c s /negbTE e; rewrite lstrip_cons e. Qed.

Lemma lstrip_head (p : pred nat) s : if lstrip p s is c :: _ then ~~ p c else true.
Proof. by elim: s => //= c s IH; rewrite lstrip_cons; case e: (p c); rewrite ?e. Qed.

Lemma lstrip_rcons (p : pred nat) s c : ~~ p c -> lstrip p (rcons s c) = rcons (lstrip p s) c.
Proof.
move=> /negbTE e; elim: s => [|d s IH]; first by rewrite /= lstrip_cons e.
by rewrite rcons_cons !lstrip_cons; case: (p d).
Qed.

Lemma lstrip_cat (p : pred nat) s t :
  lstrip p (s ++ t) = if all p s then lstrip p t else lstrip p s ++ t.
Proof. by elim: s => //= c s IH; rewrite !lstrip_cons; case: (p c). Qed.

(** the two ends do not interfere *)
Lemma lstrip_rstrip (p q : pred nat) s : subpred q p ->
  rstrip p (lstrip p (rstrip q s)) = rstrip p (lstrip p s).
Proof.
move=> sub; have [a [e h]] := lstrip_split q (rev s).
have es: s = rstrip q s ++ rev a by rewrite -[LHS]revK e rev_cat /rstrip.
rewrite [in RHS]es lstrip_cat.
have ha : all p (rev a) by rewrite all_rev; apply: sub_all h.
case hr: (all p (rstrip q s)).
  have/eqP -> : lstrip p (rstrip q s) == [::] by rewrite lstrip_nil.
  by have/eqP -> : lstrip p (rev a) == [::] by rewrite lstrip_nil.
by rewrite /rstrip rev_cat lstrip_all // revK; apply: sub_all h.
Qed.

Lemma strip_of_subset (p q : pred nat) s : subpred q p ->
  strip_of p (strip_of q s) = strip_of p s.
Proof. by move=> sub; rewrite /strip_of lstrip_rstrip // lstrip_subset. Qed.

Lemma bspace_space : subpred is_bspace is_space.
Proof.
move=> c; rewrite /is_bspace /is_space => /orP[-> //|/eqP ->]; by rewrite !orbT.
Qed.

Lemma strip_bstrip s : strip (bstrip s) = strip s.
Proof. exact: strip_of_subset bspace_space. Qed.

Lemma strip_idem s : strip (strip s) = strip s.
Proof. exact: strip_of_subset. Qed.

Lemma strip_of_nil (p : pred nat) s : (strip_of p s == [::]) = all p s.
Proof.
rewrite /strip_of /rstrip; have [a [e h]] := lstrip_split p s.
rewrite -(inj_eq (can_inj revK)) revK lstrip_nil all_rev.
by rewrite [in RHS]e all_cat h.
Qed.

Lemma strip_of_id (p : pred nat) s :
  (if s is c :: _ then ~~ p c else true) -> ~~ p (last (head 0 s) s) || (s == [::]) -> strip_of p s = s.
Proof.
move=> h1 h2; rewrite /strip_of lstrip_id // /rstrip lstrip_id ?revK //.
case/lastP: s h1 h2 => // s c _; rewrite last_rcons rev_rcons.
by rewrite -size_eq0 size_rcons orbF.
Qed.

(** ** str.split *)
Fixpoint join (c : nat) (ps : seq text) : text :=
  match ps with [::] => [::] | [:: p] => p | p :: qs => p ++ c :: join c qs end.

Lemma split_nonnil c s : split c s <> [::].
Proof. by case: s => //= d s; case: eqP => // _; case: (split c s). Qed.

(** split(c) is the only way to write s as pieces without c, with c between *)
Lemma split_join c s : join c (split c s) = s.
Proof.
elim: s => //= d s IH; case: eqP => [->|_].
  by case e: (split c s) IH (@split_nonnil c s) => [|p ps] //= ->.
by case e: (split c s) IH (@split_nonnil c s) => [|p [|q ps]] //= ->.
Qed.

Lemma split_free c s p : p \in split c s -> c \notin p.
Proof.
elim: s p => [|d s IH] p /=; first by rewrite inE => /eqP ->.
case: eqP => [_|ne].
  by rewrite inE => /orP[/eqP ->|/IH].
case e: (split c s) IH (@split_nonnil c s) => [|q qs] // IH _.
rewrite inE => /orP[/eqP ->|h]; last by apply: IH; rewrite inE h orbT.
rewrite inE negb_or IH ?inE ?eqxx // andbT.
by apply/eqP => h; apply: ne.
Qed.

Lemma split_unique c ps : ps <> [::] -> all (fun p : text => c \notin p) ps -> split c (join c ps) = ps.
Proof.
elim: ps => // p ps IH _ /=.
have aux (q : text) t : c \notin q -> split c (q ++ t) =
    if split c t is r :: rs then (q ++ r) :: rs else [::].
  elim: q => [|d q IHq] /=; first by case e: (split c t) (@split_nonnil c t).
  rewrite inE negb_or => /andP[/negbTE ne /IHq ->]; rewrite eq_sym ne.
  by case e: (split c t) (@split_nonnil c t).
case/andP=> hp hps; case: ps IH hps => [|q qs] IH hps.
  by have := aux p [::] hp; rewrite cats0 => ->; rewrite /= cats0.
by rewrite aux //= eqxx (IH _ hps) // cats0.
Qed.

(** ** splitlines *)
Lemma lines_nil cur s : lines_from cur s = [::] <-> cur = [::] /\ s = [::].
Proof.
elim: s cur => [|c s IH] cur /=; first by case: cur => [|a b]; split=> // -[].
split=> [|[_ //]].
case: ifP => _; first by case: s {IH} => [|d t] //; do 11 (case: d => [|d] //).
by case: ifP => _ //; case/IH.
Qed.

Lemma splitlines_nil s : splitlines s = [::] <-> s = [::].
Proof. by rewrite /splitlines lines_nil; split=> [[]|->]. Qed.

(** a text without line breaks is one line *)
Lemma lines_one cur s : ~~ has is_break s -> rev cur ++ s <> [::] ->
  lines_from cur s = [:: rev cur ++ s].
Proof.
elim: s cur => [|c s IH] cur /=; first by rewrite cats0; case: cur.
rewrite negb_or => /andP[hc hs] _.
case: eqP => [e|_]; first by move: hc; rewrite e.
rewrite (negbTE hc) IH //; rewrite rev_cons cat_rcons //.
by case: (rev cur).
Qed.

Lemma splitlines_one s : ~~ has is_break s -> s <> [::] -> splitlines s = [:: s].
Proof. by move=> h ne; rewrite /splitlines lines_one. Qed.

(** ** Decimal numerals *)
Lemma digits_value_acc u n :
  foldl (fun n c => n * 10 + (c - 48)) n (uint_text u) = Nat.of_uint_acc u n.
Proof.
elim: u n => //= u IH n; rewrite IH PeanoNat.Nat.tail_mul_spec; congr (Nat.of_uint_acc _ _);
 rewrite -!plusE -!multE -minusE; lia.
Qed.

Lemma digits_value_dec n : digits_value (dec n) = n.
Proof. by rewrite /digits_value digits_value_acc; apply: DecimalNat.Unsigned.of_to. Qed.

Lemma dec_inj : injective dec.
Proof. exact: can_inj digits_value_dec. Qed.

Lemma dec_digits n : all is_digit (dec n).
Proof. by rewrite /dec; elim: (Nat.to_uint n). Qed.

Lemma dec_nonnil n : dec n <> [::].
Proof.
move=> h; have e := digits_value_dec n; rewrite h /digits_value /= in e.
by rewrite -e in h.
Qed.

(** ** The order on texts *)
Lemma text_le_refl : reflexive text_le.
Proof. by elim=> //= c s IH; rewrite eqxx IH orbT. Qed.
Lemma text_le_anti : antisymmetric text_le.
Proof.
elim=> [|c s IH] [|d t] //= /andP[].
case/orP=> [h1|/andP[/eqP -> h1]]; case/orP=> [h2|/andP[/eqP e h2]].
- by have := ltn_trans h1 h2; rewrite ltnn.
- by move: h1; rewrite e ltnn.
- by move: h2; rewrite ltnn.
by congr (_ :: _); apply: IH; rewrite h1.
Qed.
Lemma text_le_trans : transitive text_le.
Proof.
move=> t s u; elim: t s u => [|d t IH] [|c s] [|e u] //=.
case/orP=> [h1|/andP[/eqP -> h1]]; case/orP=> [h2|/andP[/eqP <- h2]].
- by rewrite (ltn_trans h1 h2).
- by rewrite h1.
- by rewrite h2.
by rewrite eqxx (IH _ _ h1 h2) orbT.
Qed.
Lemma text_le_total : total text_le.
Proof. by elim=> [|c s IH] [|d t] //=; case: ltngtP => //= ->; apply: IH. Qed.
Lemma text_le_prefix s t : text_le s (s ++ t).
Proof. by elim: s => //= c s IH; rewrite eqxx IH orbT. Qed.
Lemma text_le_cat2l p s t : text_le (p ++ s) (p ++ t) = text_le s t.
Proof. by elim: p => //= c p ->; rewrite ltnn eqxx. Qed.

(** ** Cutting at the first or the last occurrence of a character *)
Lemma cut_first (c : nat) (a a' b b' : text) : c \notin a -> c \notin a' ->
  a ++ c :: b = a' ++ c :: b' -> a = a' /\ b = b'.
Proof.
elim: a a' => [|d a IH] [|d' a'] //=.
- by move=> _ _ [->].
- by rewrite inE negb_or => _ /andP[/eqP h _] [].
- by rewrite inE negb_or => /andP[/eqP h _] _ [] e; case: h.
rewrite !inE !negb_or => /andP[_ h1] /andP[_ h2] [-> /IH] h.
by have [-> ->] := h h1 h2.
Qed.

Lemma cut_last (c : nat) (a a' b b' : text) : c \notin b -> c \notin b' ->
  a ++ c :: b = a' ++ c :: b' -> a = a' /\ b = b'.
Proof.
move=> h h' e.
have := @cut_first c (rev b) (rev b') (rev a) (rev a').
rewrite !mem_rev => /(_ h h') []; first by rewrite -!cat_rcons -!rev_cons -!rev_cat e.
by move=> /(can_inj revK) -> /(can_inj revK) ->.
Qed.

Lemma digit_not (c : nat) s : ~~ is_digit c -> all is_digit s -> c \notin s.
Proof. by move=> h /allP a; apply/negP => /a; apply/negP. Qed.
Lemma hex_not (c : nat) s : ~~ is_hex c -> all is_hex s -> c \notin s.
Proof. by move=> h /allP a; apply/negP => /a; apply/negP. Qed.

(** ** Prefixes and suffixes *)
Lemma prefixE (p s : text) : prefix p s = (s == p ++ drop (size p) s).
Proof.
elim: p s => [|c p IH] [|d s] //=; first by rewrite ?eqxx.
by rewrite IH eqseq_cons eq_sym.
Qed.
Lemma drop_prefix (p s : text) : drop (size p) (p ++ s) = s.
Proof. by rewrite drop_cat ltnn subnn drop0. Qed.
Lemma prefix_catl (p s : text) : prefix p (p ++ s).
Proof. by rewrite prefixE drop_prefix. Qed.
Lemma prefixW (p s : text) : prefix p s -> exists t, s = p ++ t.
Proof. by rewrite prefixE => /eqP ->; exists (drop (size p) s). Qed.
Lemma suffixW (p s : text) : suffix p s -> exists t, s = t ++ p.
Proof. by rewrite /suffix => /prefixW[t e]; exists (rev t); rewrite -[s]revK e rev_cat revK. Qed.
Lemma suffix_catr (p s : text) : suffix p (s ++ p).
Proof. by rewrite /suffix rev_cat prefix_catl. Qed.
