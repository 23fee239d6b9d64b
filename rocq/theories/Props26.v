(** * Props26: C92: the keywords read without importing the file *)
From Coq Require Import ZArith String Ascii.
From mathcomp Require Import ssreflect ssrfun ssrbool eqtype ssrnat seq path.
From Verif Require Import Text Ver VerSpec VerLemmas VerKw.

Set Implicit Arguments.
Unset Strict Implicit.
Unset Printing Implicit Defensive.

(** [file_lines] cuts the text (newlines made universal) into its lines. *)
Theorem C92_lines_of_a_file t :
  flatten (file_lines t) = universal t /\
  (forall l, l \in file_lines t -> exists c, 10 \notin c /\ (l = c ++ [:: 10] \/ l = c /\ c <> [::])).
Proof.
rewrite /file_lines; elim: (universal t) => [|c s [IH1 IH2]] //=.
case: eqVneq => [->|Hc].
  split; first by rewrite /= IH1.
  by move=> l; rewrite inE => /orP [/eqP ->|/IH2 //]; exists [::]; split=> //; left.
have Hc' : 10 != c by rewrite eq_sym.
case E : (lines_keep s) IH1 IH2 => [|l0 ls] IH1 IH2.
  split; first by rewrite /= -IH1.
  by move=> l; rewrite inE => /eqP ->; exists [:: c]; rewrite inE; split=> //; right.
split; first by rewrite /= -IH1.
move=> l; rewrite inE => /orP [/eqP ->|Hl]; last by apply: IH2; rewrite inE Hl orbT.
have [d [Hd D]] := IH2 l0 (mem_head _ _); exists (c :: d); rewrite inE negb_or Hc' Hd; split=> //.
by case: D => [->|[-> _]]; [left|right].
Qed.

(** The lines of a file whose line ends are LF, CR or CR LF (a CR just before an LF
    is one end with it): each end becomes LF, and whatever follows the last end is a
    line if it is not empty.  Every text is of this form. *)
Definition ended (t : text) (ls : seq (text * text)) (r : text) : Prop :=
  [/\ t = flatten [seq l.1 ++ l.2 | l <- ls] ++ r,
      forall l, l \in ls -> [/\ 10 \notin l.1, 13 \notin l.1 & l.2 \in [:: [:: 10]; [:: 13]; [:: 13; 10]]],
      10 \notin r, 13 \notin r &
      forall l1 c l2, ls = l1 ++ (c, [:: 13]) :: l2 -> head 0 (flatten [seq l.1 ++ l.2 | l <- l2] ++ r) <> 10].

Lemma universal_plain c s : 10 \notin c -> 13 \notin c -> universal (c ++ s) = c ++ universal s.
Proof.
elim: c => [|x c IH] //=; rewrite !inE !negb_or => /andP [_ H1] /andP [H2 H3].
by rewrite eq_sym (negPf H2) IH.
Qed.
Lemma lines_keep_plain c s : 10 \notin c -> lines_keep (c ++ 10 :: s) = (c ++ [:: 10]) :: lines_keep s.
Proof. by elim: c => [|x c IH] //=; rewrite inE negb_or eq_sym => /andP [/negPf -> /IH ->]. Qed.
Lemma lines_keep_rest r : 10 \notin r -> lines_keep r = if r is [::] then [::] else [:: r].
Proof. elim: r => [|x r IH] //=; rewrite inE negb_or eq_sym => /andP [/negPf -> /IH ->]; by case: r {IH}. Qed.


Lemma ended_cons t ls r c e : ended t ls r -> 10 \notin c -> 13 \notin c ->
  e \in [:: [:: 10]; [:: 13]; [:: 13; 10]] -> (e = [:: 13] -> head 0 t <> 10) -> ended (c ++ e ++ t) ((c, e) :: ls) r.
Proof.
case=> E L R1 R2 C Hc1 Hc2 He Hh; split=> //; first by rewrite E /= !catA.
- by move=> l; rewrite inE => /orP [/eqP -> //|/L].
case=> [|x l1] c' l2 /= [] e1 e2; last exact: (C l1 c').
by move=> <-; rewrite -E; apply: Hh.
Qed.

Theorem C92_line_ends t :
  (exists ls r, ended t ls r) /\
  (forall ls r, ended t ls r -> file_lines t = [seq l.1 ++ [:: 10] | l <- ls] ++ (if r is [::] then [::] else [:: r])).
Proof.
split.
  elim: t => [|x t [ls [r H]]]; first by exists [::], [::]; split=> // -[].
  have [e|H10] := eqVneq x 10.
    by exists (([::], [:: 10]) :: ls), r; rewrite e; apply: (@ended_cons _ _ _ [::] [:: 10] H).
  have [e|H13] := eqVneq x 13.
    have [h|h] := eqVneq (head 0 t) 10; last first.
      by exists (([::], [:: 13]) :: ls), r; rewrite e; apply: (@ended_cons _ _ _ [::] [:: 13] H) => // _; apply/eqP.
    case: ls H => [|[c f] ls] [E L R1 R2 C].
      by move: h R1; rewrite E /=; case: (r) => [|y r'] //= ->; rewrite inE eqxx.
    have /= [L1 L2 L3] := L _ (mem_head _ _).
    have c0 : c = [::].
      by move: h L1; rewrite E /=; case: (c) => [|y c'] //= ->; rewrite inE eqxx.
    have f0 : f = [:: 10].
      by move: L3 h; rewrite E /= c0 !inE /= => /or3P [] /eqP ->.
    have H' : ended (flatten [seq l.1 ++ l.2 | l <- ls] ++ r) ls r.
      split=> //; first by move=> l Hl; apply: L; rewrite inE Hl orbT.
      by move=> l1 c' l2 e'; apply: (C ((c, f) :: l1) c'); rewrite e'.
    exists (([::], [:: 13; 10]) :: ls), r.
    have -> : x :: t = [::] ++ [:: 13; 10] ++ (flatten [seq l.1 ++ l.2 | l <- ls] ++ r) by rewrite e E c0 f0.
    exact: (ended_cons H').
  case: ls H => [|[c f] ls] [E L R1 R2 C].
    exists [::], (x :: r); split=> //; rewrite ?inE ?negb_or.
    - by rewrite E.
    - by rewrite eq_sym H10.
    - by rewrite eq_sym H13.
    by case.
  have /= [L1 L2 L3] := L _ (mem_head _ _).
  exists ((x :: c, f) :: ls), r; split=> //; first by rewrite E.
    move=> l; rewrite inE => /orP [/eqP ->|Hl]; last by apply: L; rewrite inE Hl orbT.
    by split=> /=; [rewrite inE negb_or L1 eq_sym H10|rewrite inE negb_or L2 eq_sym H13|exact: L3].
  case=> [|y l1] c' l2 /= [] e1 e2.
    by move=> e3; apply: (C [::] c); rewrite e2 e3.
  by apply: (C ((c, f) :: l1) c'); rewrite e2.
move=> ls r; elim: ls t => [|[c f] ls IH] t [E L R1 R2 C].
  by rewrite /file_lines E /= -[r in universal r]cats0 universal_plain // cats0 lines_keep_rest.
have /= [L1 L2 L3] := L _ (mem_head _ _).
set t' := flatten [seq l.1 ++ l.2 | l <- ls] ++ r.
have Et : t = c ++ f ++ t' by rewrite E /= -!catA.
have H' : ended t' ls r.
  split=> //; first by move=> l Hl; apply: L; rewrite inE Hl orbT.
  by move=> l1 c' l2 e'; apply: (C ((c, f) :: l1) c'); rewrite e'.
have U : universal (f ++ t') = 10 :: universal t'.
  move: L3; rewrite !inE => /or3P [] /eqP ef; rewrite ef //=.
  have := C [::] c ls; rewrite ef => /(_ erefl); rewrite -/t'.
  by case: (t') => [|y s'] //=; do 11?[case: y => [|y] //].
by rewrite /file_lines Et universal_plain // U lines_keep_plain // -/(file_lines t') (IH t' H').
Qed.

(** What re.search finds in a line: the leftmost place with an equals sign, white
    space and a quote that is followed by another quote on the same line; the
    group goes to the last such quote. *)
Theorem C92_regular_expression line g : quoted line = Some g <->
  exists a w b, [/\ line = a ++ txt "=" ++ w ++ [:: 34] ++ g ++ [:: 34] ++ b, all is_space w, 10 \notin g,
    34 \notin take (index 10 b) b &
    forall a' w' g' b', size a' < size a -> all is_space w' -> 10 \notin g' ->
      line <> a' ++ txt "=" ++ w' ++ [:: 34] ++ g' ++ [:: 34] ++ b'].
Proof.
(* a match with any group extends to the longest group *)
have ext w g' b : all is_space w -> 10 \notin g' -> exists g2, match_here (61 :: w ++ 34 :: g' ++ 34 :: b) g2.
  move=> Hw Hg.
  have H34 : 34 \in take (index 10 (g' ++ 34 :: b)) (g' ++ 34 :: b).
    by rewrite index_cat (negPf Hg) /= take_cat ltnNge leq_addr /= addKn /= mem_cat inE eqxx orbT.
  have [l [r [E N]]] := last_occ H34; exists l.
  set t := g' ++ 34 :: b in E H34 *; exists w, (r ++ drop (index 10 t) t); split=> //.
  - by rewrite -[t in LHS](cat_take_drop (index 10 t)) E -!catA.
  - by have := take_index 10 t; rewrite E mem_cat negb_or => /andP [].
  have Nr : 10 \notin r by have := take_index 10 t; rewrite E mem_cat inE !negb_or => /and3P [].
  set e := drop _ _; have -> : take (index 10 (r ++ e)) (r ++ e) = r; last by [].
  rewrite index_cat (negPf Nr) take_cat ltnNge leq_addr /= addKn.
  have -> : index 10 e = 0.
    rewrite /e; case: (boolP (10 \in t)) => Ht; last by rewrite drop_oversize // leqNgt index_mem.
    by rewrite (drop_nth 0) ?index_mem // nth_index //= eqxx.
  by rewrite take0 cats0.
split.
  case/quotedP => a [t [E [w [b [Et Hw Ng Nb]]] L]].
  exists a, w, b; split=> //; first by rewrite E Et.
  move=> a' w' g' b' Hs Hw' Hg' E'; have [g2 M] := ext w' g' b' Hw' Hg'.
  exact: (L a' (61 :: w' ++ 34 :: g' ++ 34 :: b') g2 Hs E' M).
case=> a [w [b [E Hw Ng Nb L]]]; apply/quotedP.
exists a, (61 :: w ++ 34 :: g ++ 34 :: b); split=> //; first by exists w, b.
move=> a' t' g' Hs E' [w' [b' [Et' Hw' Ng' Nb']]].
by apply: (L a' w' g' b' Hs Hw' Ng'); rewrite E' Et'.
Qed.

Lemma refnamesE kw line : refnames (read_line kw line) =
  if prefix (txt "git_refnames" ++ txt " =") (strip line) then (if quoted line is Some g then Some g else refnames kw) else refnames kw.
Proof. by []. Qed.
Lemma fullE kw line : full (read_line kw line) =
  if prefix (txt "git_full" ++ txt " =") (strip line) then (if quoted line is Some g then Some g else full kw) else full kw.
Proof. by []. Qed.
Lemma dateE kw line : date (read_line kw line) =
  if prefix (txt "git_date" ++ txt " =") (strip line) then (if quoted line is Some g then Some g else date kw) else date kw.
Proof. by []. Qed.

(** [name] is given [value] in the file, and no later line starts with it. *)
Definition assigned (t name value : text) : Prop :=
  exists l1 l l2, [/\ file_lines t = l1 ++ l :: l2, assigns name value l &
    forall l', l' \in l2 -> ~ starts_line name l'].
Definition never_assigned (t name : text) : Prop := forall l, l \in file_lines t -> ~ starts_line name l.

Theorem C92_keywords_found t v :
  [/\ assigned t (txt "git_refnames") v -> refnames (git_get_keywords (Some t)) = Some v,
      assigned t (txt "git_full") v -> full (git_get_keywords (Some t)) = Some v &
      assigned t (txt "git_date") v -> date (git_get_keywords (Some t)) = Some v].
Proof.
split=> -[l1 [l [l2 [E A H]]]]; rewrite /git_get_keywords -/(file_lines t) E.
- by apply: (field_last refnamesE).
- by apply: (field_last fullE).
by apply: (field_last dateE).
Qed.

Theorem C92_keywords_missing t :
  [/\ never_assigned t (txt "git_refnames") -> refnames (git_get_keywords (Some t)) = None,
      never_assigned t (txt "git_full") -> full (git_get_keywords (Some t)) = None,
      never_assigned t (txt "git_date") -> date (git_get_keywords (Some t)) = None &
      git_get_keywords None = Keywords None None None].
Proof.
split=> // H; rewrite /git_get_keywords -/(file_lines t).
- by rewrite (field_skip refnamesE).
- by rewrite (field_skip fullE).
by rewrite (field_skip dateE).
Qed.

(** For a file that assigns the three strings importing it would see, reading and
    importing give the same keywords, hence the same version. *)
Theorem C92_reading_is_importing (w : world) t :
  assigned t (txt "git_refnames") (kw_refnames w) -> assigned t (txt "git_full") (kw_full w) ->
  assigned t (txt "git_date") (kw_date w) ->
  git_get_keywords (Some t) = get_keywords w /\
  git_versions_from_keywords (git_get_keywords (Some t)) tag_prefix = git_versions_from_keywords (get_keywords w) tag_prefix.
Proof.
move=> A1 A2 A3.
have [/(_ A1) e1 _ _] := C92_keywords_found t (kw_refnames w).
have [_ /(_ A2) e2 _] := C92_keywords_found t (kw_full w).
have [_ _ /(_ A3) e3] := C92_keywords_found t (kw_date w).
have -> : git_get_keywords (Some t) = get_keywords w; last by [].
by case: (git_get_keywords (Some t)) e1 e2 e3 => r f d /= -> -> ->.
Qed.

(** The lines of _version.py that matter, from a git archive, with the line ends
    of Windows, and the lines of git_get_keywords itself. *)
Definition line (s : string) : text := txt s ++ [:: 13; 10].
Definition assignment (name value : string) : text :=
  txt "    " ++ txt name ++ txt " = " ++ [:: 34] ++ txt value ++ [:: 34] ++ [:: 13; 10].
Definition archive_text : text :=
  line "def get_keywords() -> Dict[str, str]:" ++
  line "    # setup.py/versioneer.py will grep for the variable names" ++
  assignment "git_refnames" " (HEAD -> main, tag: v1.1.3)" ++
  assignment "git_full" "0123456789abcdef0123456789abcdef01234567" ++
  assignment "git_date" "2024-01-01 12:00:00 +0100" ++
  txt "    keywords = {" ++ [:: 34] ++ txt "refnames" ++ [:: 34] ++ line ": git_refnames}" ++
  txt "                if line.strip().startswith(" ++ [:: 34] ++ txt "git_refnames =" ++ [:: 34] ++ line "):" ++
  txt "__version__".

Definition archive_world : world :=
  World (txt " (HEAD -> main, tag: v1.1.3)") (txt "0123456789abcdef0123456789abcdef01234567")
    (txt "2024-01-01 12:00:00 +0100") None false (fun _ _ => NoEntry).

Lemma assigned_at t i name value : name <> [::] -> ~~ has is_space name ->
  assigns name value (nth [::] (file_lines t) i) -> i < size (file_lines t) ->
  all (fun l => ~~ prefix (name ++ txt " =") (strip l)) (drop i.+1 (file_lines t)) -> assigned t name value.
Proof.
move=> n0 ns A Hi /allP H; exists (take i (file_lines t)), (nth [::] (file_lines t) i), (drop i.+1 (file_lines t)); split=> //.
  by rewrite -drop_nth // cat_take_drop.
by move=> l /H Hl /(strip_start l n0 ns) Hp; rewrite Hp in Hl.
Qed.

Example C92_case :
  [/\ assigned archive_text (txt "git_refnames") (kw_refnames archive_world),
      assigned archive_text (txt "git_full") (kw_full archive_world),
      assigned archive_text (txt "git_date") (kw_date archive_world) &
      package_version archive_world = VOk (txt "1.1.3")].
Proof.
split; last by vm_compute.
- apply: (@assigned_at _ 2); [by []|by []| |by vm_compute|by vm_compute].
  by exists (txt "    "), (txt " "), [:: 10]; split; vm_compute.
- apply: (@assigned_at _ 3); [by []|by []| |by vm_compute|by vm_compute].
  by exists (txt "    "), (txt " "), [:: 10]; split; vm_compute.
apply: (@assigned_at _ 4); [by []|by []| |by vm_compute|by vm_compute].
by exists (txt "    "), (txt " "), [:: 10]; split; vm_compute.
Qed.
