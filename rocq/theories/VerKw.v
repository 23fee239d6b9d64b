(** * VerKw: git_get_keywords of src/kalmankit/_version.py

    Simplified: an OSError while reading is one at opening (what was read before
    it would count too, in the code); bytes that are not text (UnicodeDecodeError)
    are not modelled. *)
From Coq Require Import ZArith String Ascii.
From mathcomp Require Import ssreflect ssrfun ssrbool eqtype ssrnat seq path.
From Verif Require Import Text Ver VerLemmas.

Set Implicit Arguments.
Unset Strict Implicit.
Unset Printing Implicit Defensive.

(** ** Model *)
(** open(..., "r"): universal newlines *)
Fixpoint universal (s : text) : text :=
  match s with
  | [::] => [::]
  | c :: s' =>
    if c == 13 then 10 :: (if s' is 10 :: s'' then universal s'' else universal s') else c :: universal s'
  end.
(** for line in fobj: lines with their newline *)
Fixpoint lines_keep (s : text) : seq text :=
  match s with
  | [::] => [::]
  | c :: s' =>
    if c == 10 then [:: c] :: lines_keep s'
    else if lines_keep s' is l :: ls then (c :: l) :: ls else [:: [:: c]]
  end.

(** Matching the regular expression of :178 (an equals sign, white space, a double
    quote, the group, a double quote) here, and re.search for it: the leftmost
    match, the group as long as possible and without newlines.  The declarative
    reading is [C92_regular_expression]. *)
Definition quoted_here (s : text) : option text :=
  if s is c :: s' then
    if c == chr "=" then
      if lstrip is_space s' is d :: t then
        if d == 34 then omap fst (rsplit1 34 (take (index 10 t) t)) else None
      else None
    else None
  else None.
Fixpoint quoted (s : text) : option text :=
  match quoted_here s with
  | Some g => Some g
  | None => if s is _ :: s' then quoted s' else None
  end.

(** _version.py:166-192 git_get_keywords; [None]: OSError *)
Definition read_line (kw : keywords) (line : text) : keywords :=
  let starts k := prefix k (strip line) in
  let set (b : bool) (old : option text) :=
    if b then (if quoted line is Some g then Some g else old) else old in
  Keywords (set (starts (txt "git_refnames =")) (refnames kw))
           (set (starts (txt "git_full =")) (full kw))
           (set (starts (txt "git_date =")) (date kw)).
Definition git_get_keywords (file : option text) : keywords :=
  let none := Keywords None None None in
  if file is Some t then foldl read_line none (lines_keep (universal t)) else none.

(** ** Specification *)
(** The lines of a file, and the one that assigns a string to a name. *)
Definition file_lines (t : text) : seq text := lines_keep (universal t).
Definition starts_line (name line : text) : Prop :=
  exists ind rest, line = ind ++ name ++ txt " =" ++ rest /\ all is_space ind.
Definition assigns (name value line : text) : Prop :=
  exists ind sp rest, [/\ line = ind ++ name ++ txt " =" ++ sp ++ [:: 34] ++ value ++ [:: 34] ++ rest,
    all is_space ind, all is_space sp, 10 \notin value & 34 \notin rest].

(** ** Lemmas *)
Lemma lstripE (s : text) : exists2 w, all is_space w & s = w ++ lstrip is_space s.
Proof.
rewrite /lstrip; elim: s => [|c s [w Hw E]]; first by exists [::].
rewrite /=; case Hc : (is_space c) => /=; last by exists [::].
by exists (c :: w); rewrite /= ?Hc // -E.
Qed.

Lemma strip_start (k line : text) : k <> [::] -> ~~ has is_space k ->
  (prefix (k ++ txt " =") (strip line) <-> starts_line k line).
Proof.
move=> k0 /hasPn kn; set kk := k ++ txt " ="; split.
  case/prefixP => r E.
  have [a [b [Ha El]]] : exists a b, all is_space a /\ line = a ++ strip line ++ b.
    have [a Ha Ea] := lstripE line; set l := lstrip is_space line in Ea.
    have [b _ Eb] := lstripE (rev l); exists a, (rev b); split=> //.
    by rewrite [LHS]Ea /strip /strip_of /rstrip -/l; congr (_ ++ _); rewrite -rev_cat -Eb revK.
  exists a, (r ++ b); split=> //; by rewrite El E /kk -!catA.
case=> ind [rest [-> Ha]]; rewrite /strip /strip_of.
have -> : lstrip is_space (ind ++ k ++ txt " =" ++ rest) = kk ++ rest.
  rewrite /lstrip /kk find_cat (_ : has (predC is_space) ind = false); last by rewrite has_predC Ha.
  rewrite drop_cat ltnNge leq_addr /= addKn.
  case: k k0 kn {kk} => // c k _ kn; by rewrite /= (kn c) ?mem_head //= -catA.
rewrite /rstrip /lstrip; set s := kk ++ rest.
have Hk : rev kk = 61 :: 32 :: rev k by rewrite /kk rev_cat.
have -> : drop (find (predC is_space) (rev s)) (rev s) =
  drop (find (predC is_space) (rev rest)) (rev rest) ++ rev kk.
  rewrite /s rev_cat find_cat; case: ifP => Hh.
    by rewrite drop_cat -has_find Hh.
  rewrite Hk /= addn0 drop_size_cat //.
  by rewrite drop_oversize //; move/negbT: Hh; rewrite has_find -leqNgt.
by rewrite rev_cat revK prefix_prefix.
Qed.

Lemma take_index (c : nat) (s : text) : c \notin take (index c s) s.
Proof.
elim: s => [|d s IH] //=; case: eqVneq => [//|Hd].
by rewrite inE negb_or eq_sym Hd.
Qed.

Lemma lstrip_spaces (w s : text) : all is_space w -> ~~ is_space (head 32 s) -> lstrip is_space (w ++ s) = s.
Proof.
move=> Hw Hs; rewrite /lstrip find_cat has_predC Hw /= drop_cat ltnNge leq_addr /= addKn.
by case: s Hs => //= c s ->.
Qed.
(** A match at the start. *)
Definition match_here (s g : text) : Prop := exists w b,
  [/\ s = 61 :: w ++ 34 :: g ++ 34 :: b, all is_space w, 10 \notin g & 34 \notin take (index 10 b) b].

Lemma quoted_hereP s g : quoted_here s = Some g <-> match_here s g.
Proof.
split.
  rewrite /quoted_here; case: s => // c s; case: eqP => // ->.
  have [w Hw Es] := lstripE s; case El : (lstrip is_space s) Es => [//|d t] Es.
  case: eqP Es => // -> Es.
  case Er : rsplit1 => [[l r]|] // -[<-]; have [E N] := (rsplit1P 34 _ l r).1 Er.
  exists w, (r ++ drop (index 10 t) t); split=> //.
  - by rewrite Es -[t in LHS](cat_take_drop (index 10 t)) E -!catA.
  - by have := take_index 10 t; rewrite E mem_cat negb_or => /andP [].
  have Nr : 10 \notin r by have := take_index 10 t; rewrite E mem_cat inE !negb_or => /and3P [].
  set e := drop _ _; have -> : take (index 10 (r ++ e)) (r ++ e) = r; last by [].
  rewrite index_cat (negPf Nr) take_cat ltnNge leq_addr /= addKn.
  have -> : index 10 e = 0.
    rewrite /e; case: (boolP (10 \in t)) => Ht; last by rewrite drop_oversize // leqNgt index_mem.
    by rewrite (drop_nth 0) ?index_mem // nth_index //= eqxx.
  by rewrite take0 cats0.
case=> w [b [-> Hw Ng Nb]]; rewrite /quoted_here lstrip_spaces //.
suff -> : rsplit1 34 (take (index 10 (g ++ 34 :: b)) (g ++ 34 :: b)) = Some (g, take (index 10 b) b) by [].
apply/rsplit1P; split=> //.
by rewrite index_cat (negPf Ng) /= take_cat ltnNge leq_addr /= addKn.
Qed.

Lemma quoted_here_none s : quoted_here s = None <-> forall g, ~ match_here s g.
Proof.
split=> [E g M|H]; first by have := (quoted_hereP s g).2 M; rewrite E.
by case E : (quoted_here s) => [g|//]; case: (H g); exact/quoted_hereP.
Qed.

Lemma quotedS c s : quoted (c :: s) = if quoted_here (c :: s) is Some g then Some g else quoted s.
Proof. by []. Qed.

Lemma quotedP s g : quoted s = Some g <->
  exists a t, [/\ s = a ++ t, match_here t g & forall a' t' g', size a' < size a -> s = a' ++ t' -> ~ match_here t' g'].
Proof.
elim: s => [|c s IH]; last rewrite quotedS.
  split=> // -[a [t [E [w [b [Et _ _ _]]]] _]].
  by move/(congr1 size): E; rewrite Et size_cat /= addnS.
case Eh : (quoted_here (c :: s)) => [h|].
  split=> [[<-]|[a [t [E M L]]]].
    by exists [::], (c :: s); split=> //; exact/quoted_hereP.
  case: a E L => [|d a] E L; first by rewrite -Eh E; exact/quoted_hereP.
  by case: (L [::] (c :: s) h) => //; exact/quoted_hereP.
have N := (quoted_here_none _).1 Eh.
split.
  case/IH => a [t [E M L]]; exists (c :: a), t; split=> //; first by rewrite E.
  move=> [|d a'] t' g' //= Hs; first by move=> <-; exact: N.
  by case=> _; exact: L.
case=> -[|d a] [t [E M L]]; first by case: (N g); rewrite E.
case: E => _ E; apply/IH; exists a, t; split=> // a' t' g' Hs Es; apply: (L (c :: a')) => //.
by rewrite Es.
Qed.

Lemma quoted_assigns k v line : 61 \notin k -> ~~ has is_space k -> assigns k v line -> quoted line = Some v.
Proof.
move=> k61 _ [ind [sp [rest [-> Hi Hs Nv Nr]]]]; apply/quotedP.
exists (ind ++ k ++ [:: 32]), (61 :: sp ++ 34 :: v ++ 34 :: rest); split.
- by rewrite -!catA.
- exists sp, rest; split=> //; apply: contra Nr; exact: mem_take.
move=> a' t' g' Hs' E [w [b [Et _ _ _]]].
have : 61 \in ind ++ k ++ [:: 32].
  have /(congr1 (take (size (ind ++ k ++ [:: 32])))) := E.
  rewrite [txt " ="]/= (_ : ind ++ k ++ [:: 32; 61] ++ _ = (ind ++ k ++ [:: 32]) ++ (61 :: sp ++ 34 :: v ++ 34 :: rest)); last by rewrite -!catA.
  rewrite take_size_cat // => ->; rewrite Et take_cat ltnNge (ltnW Hs') /= mem_cat.
  by rewrite -(subnSK Hs') /= inE eqxx orbT.
rewrite !mem_cat (negPf k61) (_ : 61 \in [:: 32] = false) // !orbF => H.
by move/allP: Hi => /(_ _ H).
Qed.

Section Field.
Variables (k : text) (get : keywords -> option text).
Hypothesis getE : forall kw line, get (read_line kw line) =
  if prefix (k ++ txt " =") (strip line) then (if quoted line is Some g then Some g else get kw) else get kw.
Hypothesis k0 : k <> [::].
Hypothesis ks : ~~ has is_space k.
Hypothesis k61 : 61 \notin k.

Lemma field_skip kw ls : (forall l, l \in ls -> ~ starts_line k l) -> get (foldl read_line kw ls) = get kw.
Proof.
elim: ls kw => [|l ls IH] kw H //=; rewrite IH => [|l' Hl]; last by apply: H; rewrite inE Hl orbT.
rewrite getE; case: ifP => // /(strip_start l k0 ks); by case/(H l _); rewrite ?mem_head.
Qed.

Lemma field_last kw l1 l v l2 : assigns k v l -> (forall l', l' \in l2 -> ~ starts_line k l') ->
  get (foldl read_line kw (l1 ++ l :: l2)) = Some v.
Proof.
move=> A H; rewrite foldl_cat /= field_skip // getE (quoted_assigns k61 ks A).
have -> // : prefix (k ++ txt " =") (strip l).
apply/(strip_start l k0 ks); have [ind [sp [rest [-> Hi _ _ _]]]] := A.
by exists ind, (sp ++ [:: 34] ++ v ++ [:: 34] ++ rest).
Qed.
End Field.
