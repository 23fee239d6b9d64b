(** * VerLemmas *)
From Coq Require Import ZArith String Ascii Lia.
From mathcomp Require Import ssreflect ssrfun ssrbool eqtype ssrnat seq path.
From Verif Require Import Text TextLemmas Ver VerSpec.

Set Warnings "-abstract-large-number".
Set Implicit Arguments.
Unset Strict Implicit.
Unset Printing Implicit Defensive.

(** ** The regular expression of git_pieces_from_vcs *)
Lemma rsplit1_cat (c : nat) l r : c \notin r -> rsplit1 c (l ++ c :: r) = Some (l, r).
Proof.
move=> h; rewrite /rsplit1.
have -> : index c (rev (l ++ c :: r)) = size r.
  by rewrite rev_cat rev_cons cat_rcons index_cat mem_rev (negbTE h) size_rev /= eqxx addn0.
rewrite size_cat /= addnS ltnS leq_addl subSS addnK subSn ?leq_addl // addnK.
rewrite take_size_cat // -cat_rcons drop_size_cat ?size_rcons //.
Qed.

(** [rsplit1] finds the last occurrence, if there is one. *)
Lemma last_occ (c : nat) (s : text) : c \in s -> exists l r, s = l ++ c :: r /\ c \notin r.
Proof.
elim: s => // d s IH; rewrite inE; case hs: (c \in s).
  by have [l [r [-> h]]] := IH hs; exists (d :: l), r.
by rewrite orbF => /eqP ed; exists [::], s; rewrite hs ed.
Qed.

Lemma rsplit1P (c : nat) s l r : rsplit1 c s = Some (l, r) <-> s = l ++ c :: r /\ c \notin r.
Proof.
split; last by case=> -> /rsplit1_cat ->.
move=> e; have hin : c \in s.
  by rewrite -mem_rev -index_mem size_rev; move: e; rewrite /rsplit1; case: ifP.
have [l' [r' [es h]]] := last_occ hin.
by move: e; rewrite es rsplit1_cat // => -[<- <-].
Qed.

Lemma rsplit1_none (c : nat) s : c \notin s -> rsplit1 c s = None.
Proof. by move=> h; rewrite /rsplit1 -mem_rev -index_mem size_rev in h *; rewrite (negbTE h). Qed.

(** The groups found are the only way to read the text as TAG-N-gHEX. *)
Lemma describe_groupsP s t n h :
  describe_groups s = Some (t, n, h) <-> [/\ s = described_as t n h, one_line t, number n & abbrev h].
Proof.
split.
  rewrite /describe_groups; case e1: (rsplit1 _ s) => [[l [|g h']]|] //.
  case: ifP => // /and3P[/eqP eg hh1 hh2].
  case e2: (rsplit1 _ l) => [[t' n']|] //.
  case: ifP => // /and4P[hn1 hn2 ht1 ht2] [<- <- <-].
  have [-> _] := proj1 (rsplit1P _ _ _ _) e1; have [-> _] := proj1 (rsplit1P _ _ _ _) e2.
  rewrite eg /one_line /number /abbrev hh1 hh2 hn1 hn2 ht1 ht2; split=> //.
  by rewrite /described_as -!catA.
case=> -> /andP[ht1 ht2] /andP[hn1 hn2] /andP[hh1 hh2].
have -> : described_as t n h = (t ++ chr "-" :: n) ++ chr "-" :: (chr "g" :: h).
  by rewrite /described_as -catA.
rewrite /describe_groups rsplit1_cat; last by rewrite inE negb_or hex_not.
rewrite eqxx hh1 hh2 rsplit1_cat; last by rewrite digit_not.
by rewrite hn1 hn2 ht1 ht2.
Qed.

(** re.search with the pattern matches exactly the texts TAG-N-gHEX, possibly
    followed by a newline; TAG, N and HEX are then unique. *)
Lemma describe_matchP s t n h :
  describe_match s = Some (t, n, h) <->
  [/\ s = described_as t n h \/ s = described_as t n h ++ [:: 10], one_line t, number n & abbrev h].
Proof.
have nl t' n' h' : abbrev h' -> describe_groups (described_as t' n' h' ++ [:: 10]) = None.
  move=> ah; case e: (describe_groups _) => [[[a b] c]|] //.
  have [es _ _ /andP[hc1 hc2]] := proj1 (describe_groupsP _ _ _ _) e.
  have : last 0 (described_as a b c) = 10 by rewrite -es last_cat.
  rewrite /described_as !last_cat /=; move: hc1 hc2.
  case/lastP: (c) => // c' z _; rewrite all_rcons last_rcons => /andP[hz _] ez.
  by move: hz; rewrite ez.
split.
  rewrite /describe_match; case e: (describe_groups s) => [m|].
    by case=> em; move: e; rewrite em => /describe_groupsP[-> ? ? ?]; split=> //; left.
  case er: (rev s) => [|z s'] //; do 11 (case: z er => [|z] er //).
  move/describe_groupsP => [es ? ? ?]; split=> //; right.
  by rewrite -[s]revK er rev_cons es cats1.
case=> -[->|->] ht hn hh; rewrite /describe_match.
  by have/describe_groupsP -> : [/\ described_as t n h = described_as t n h, one_line t, number n & abbrev h].
rewrite nl // rev_cat /= revK.
exact/describe_groupsP.
Qed.

(** ** Running git *)
Lemma gits_run w root args :
  (forall out, git_prints w root args out ->
     run_command (popen w root) (gits w) args = (Some (bstrip out), Some 0%Z)) /\
  (git_fails w root args ->
     exists rc, run_command (popen w root) (gits w) args = (None, rc) /\ rc <> Some 0%Z).
Proof.
rewrite /git_fails /git_prints /gits; case: (win32 w) => /=.
  split.
    by move=> out [->|[-> ->]].
  move=> h; case e: (popen w root (txt "git.cmd" :: args)) => [||out rc].
  - case e': (popen w root (txt "git.exe" :: args)) => [||out' rc'].
    + by exists None. 
    + by exists None.
    + case: Z.eqb_spec => [e0|]; last by move=> hn; exists (Some rc'); split=> // -[].
      by case: (h out'); right; rewrite e' e0.
  - by exists None.
  - case: Z.eqb_spec => [e0|]; last by move=> hn; exists (Some rc); split=> // -[].
    by case: (h out); left; rewrite e e0.
split; first by move=> out ->.
move=> h; case e: (popen w root (txt "git" :: args)) => [||out rc].
- by exists None.
- by exists None.
case: Z.eqb_spec => [e0|]; last by move=> hn; exists (Some rc); split=> // -[].
by case: (h out); rewrite e e0.
Qed.

Lemma git_cases w root args :
  (exists2 out, git_prints w root args out &
     run_command (popen w root) (gits w) args = (Some (bstrip out), Some 0%Z)) \/
  (git_fails w root args /\
     exists2 rc, run_command (popen w root) (gits w) args = (None, rc) & rc <> Some 0%Z).
Proof.
have [h1 h2] := gits_run w root args.
case er: (run_command (popen w root) (gits w) args) => [[o|] rc].
  left; move: er; rewrite /gits /git_prints; case: (win32 w) => /=.
    case e: (popen w root (txt "git.cmd" :: args)) => [||out rc'] //.
      case e': (popen w root (txt "git.exe" :: args)) => [||out' rc''] //.
      case: Z.eqb_spec => // -> [<- <-]; exists out' => //; by right.
    case: Z.eqb_spec => // -> [<- <-]; exists out => //; by left.
  case e: (popen w root (txt "git" :: args)) => [||out rc'] //.
  by case: Z.eqb_spec => // -> [<- <-]; exists out.
have f : git_fails w root args by move=> out /h1; rewrite er.
by right; split=> //; have [rc' [e hn]] := h2 f; exists rc'; rewrite -?er.
Qed.

Lemma git_prints_fun w root args o o' :
  git_prints w root args o -> git_prints w root args o' -> o = o'.
Proof.
rewrite /git_prints; case: (win32 w) => [|-> [] //].
by case=> [->|[-> ->]] [|[]] => // [[]|_ []].
Qed.

(** ** The dirty mark *)
Lemma marked_cases d : exists dirty plain,
  [/\ d = marked dirty plain, suffix (txt "-dirty") d = dirty
    & (if dirty then take (size d - 6) d else d) = plain].
Proof.
case e: (suffix (txt "-dirty") d).
  have [t ->] := suffixW e; exists true, t; split=> //.
  by rewrite size_cat addnK take_size_cat.
by exists false, d.
Qed.

Lemma marked_suffix dirty plain : dirty || ~~ suffix (txt "-dirty") plain ->
  suffix (txt "-dirty") (marked dirty plain) = dirty.
Proof. by case: dirty => /= [_|/negbTE //]; rewrite suffix_catr. Qed.

Lemma marked_strip dirty plain :
  (if dirty then take (size (marked dirty plain) - 6) (marked dirty plain) else marked dirty plain) = plain.
Proof. by case: dirty => //=; rewrite size_cat addnK take_size_cat. Qed.

Lemma no_hyphen_no_dirty (plain : text) : chr "-" \notin plain -> ~~ suffix (txt "-dirty") plain.
Proof. by apply: contra => /suffixW[t ->]; rewrite mem_cat orbT. Qed.

Lemma hex_no_dirty t n h : abbrev h -> ~~ suffix (txt "-dirty") (described_as t n h).
Proof.
case/andP; case/lastP: h => // h z _; rewrite all_rcons => /andP[hz _].
apply/negP => /suffixW[u e]; have := congr1 (last 0) e.
rewrite /described_as !last_cat /= last_rcons => ez.
by move: hz; rewrite ez.
Qed.
Lemma nl_no_dirty t : ~~ suffix (txt "-dirty") (t ++ [:: 10]).
Proof.
apply/negP => /suffixW[u e]; have := congr1 (last 0) e.
by rewrite !last_cat.
Qed.

Lemma reads_as_plain d dirty tag num hex : reads_as d dirty tag num hex ->
  exists plain, [/\ d = marked dirty plain, suffix (txt "-dirty") d = dirty, chr "-" \in plain
    & describe_match plain = Some (tag, num, hex)].
Proof.
have hy s : chr "-" \in described_as tag num hex ++ s.
  by rewrite /described_as !mem_cat !inE eqxx !orbT.
case=> -[] -> [h1 h2 h3].
  exists (described_as tag num hex); split=> //.
  - by apply: marked_suffix; rewrite hex_no_dirty ?orbT.
  - by have := hy [::]; rewrite cats0.
  - by apply/describe_matchP; split=> //; left.
exists (described_as tag num hex ++ [:: 10]); split=> //.
- by apply: marked_suffix; rewrite nl_no_dirty ?orbT.
- by apply/describe_matchP; split=> //; right.
Qed.

(** The reading is unique. *)
Lemma reads_as_unique d dirty tag num hex dirty' tag' num' hex' :
  reads_as d dirty tag num hex -> reads_as d dirty' tag' num' hex' ->
  [/\ dirty = dirty', tag = tag', num = num' & hex = hex'].
Proof.
move=> /reads_as_plain[p [e1 e2 _ e3]] /reads_as_plain[p' [e1' e2' _ e3']].
have ed : dirty = dirty' by rewrite -e2 -e2'.
have ep : p = p' by rewrite -(marked_strip dirty p) -(marked_strip dirty' p') -e1 -e1' ed.
by move: e3'; rewrite -ep e3 => -[-> -> ->].
Qed.

(** ** git_pieces_from_vcs *)
Section Pieces.
Variables (w : world) (root : text).
Let git := run_command (popen w root) (gits w).

Lemma pieces_no_checkout : (forall d h, ~ checkout w root d h) ->
  git_pieces_from_vcs tag_prefix git = VRaise NotThisMethod.
Proof.
move=> nc; rewrite /git_pieces_from_vcs.
rewrite -/ask_gitdir -/ask_head -/ask_branch -/ask_branches -/ask_date -/ask_commits.
rewrite -[_ :: _ :: _ :: _ :: _ :: _ :: [:: tag_prefix ++ _]]/ask_describe.
rewrite /git.
case: (git_cases w root ask_gitdir) => [[o1 p1 ->]|[_ [rc -> hrc]]]; last first.
  by case: rc hrc => //= z hz; case: Z.eqb_spec => // ez; case: hz; rewrite ez.
lazy beta iota zeta delta [fst snd negb]; rewrite Z.eqb_refl.
case: (git_cases w root ask_describe) => [[o2 p2 ->]|[_ [rc -> hrc]]] //.
case: (git_cases w root ask_head) => [[o3 p3 ->]|[_ [rc -> hrc]]] //.
case: (git_cases w root ask_branch) => [[o4 p4 ->]|[_ [rc -> hrc]]] //.
rewrite Z.eqb_refl !strip_bstrip.
case: eqP => [eh|nh]; last first.
  by case: (nc (strip o2) (strip o3)); split; [exists o1|exists o2|exists o3|exists o4].
case: (git_cases w root ask_branches) => [[o5 p5 ->]|[_ [rc -> hrc]]] //.
by case: (nc (strip o2) (strip o3)); split;
  [exists o1|exists o2|exists o3|exists o4=> // _; exists o5].
Qed.

Lemma pieces_checkout d head dirty plain :
  checkout w root d head -> d = marked dirty plain -> suffix (txt "-dirty") d = dirty ->
  exists branch, git_pieces_from_vcs tag_prefix git =
    vdo p <- (if chr "-" \in plain then
                match describe_match plain with
                | None => VOk (None, txt "unable to parse git-describe output: '" ++ d ++ txt "'")
                | Some (tag, num, hex) =>
                  if ~~ prefix (txt "v") tag then
                    VOk (None, txt "tag '" ++ tag ++ txt "' doesn't start with prefix '" ++ txt "v" ++ txt "'")
                  else VOk (Some (Some (drop 1 tag), digits_value num, hex), [::])
                end
              else
                match (git ask_commits).1 with
                | None => VRaise VAttributeError
                | Some out => VOk (Some (None, words out, take 7 head), [::])
                end);
    match p with
    | (None, err) => VOk (Failed head err)
    | (Some (tag, dist, short), _) =>
      match (git ask_date).1 with
      | None => VRaise VAttributeError
      | Some dt => vdo l <- last_line (strip dt);
                   VOk (Pieces head short branch dirty tag dist (iso_date l))
      end
    end.
Proof.
case=> -[o1 p1] [o2 p2 e2] [o3 p3 e3] [o4 p4 h4] ed hd.
rewrite /git_pieces_from_vcs.
rewrite -/ask_gitdir -/ask_head -/ask_branch -/ask_branches -/ask_date -/ask_commits.
rewrite -[_ :: _ :: _ :: _ :: _ :: _ :: [:: tag_prefix ++ _]]/ask_describe.
have run args o : git_prints w root args o -> git args = (Some (bstrip o), Some 0%Z).
  exact: (proj1 (gits_run w root args)).
rewrite (run _ _ p1) (run _ _ p2) (run _ _ p3) (run _ _ p4).
lazy beta iota zeta delta [fst snd negb]; rewrite Z.eqb_refl !strip_bstrip e2 e3.
set b := vbind (if _ == _ then _ else _) _.
suff [br hb] : exists br, (if strip o4 == txt "HEAD" then
      match (git ask_branches).1 with
      | Some bs => if ~~ (if (git ask_branches).2 is Some z then (z =? 0)%Z else false) then VRaise NotThisMethod else VOk (pick_branch bs)
      | None => VRaise NotThisMethod end else VOk (Some (strip o4))) = VOk br.
  exists br; rewrite /b hb /vbind; rewrite hd -[take _ _]/(take _ _).
  by rewrite ed marked_strip.
case: eqP => [eh|_]; last by exists (Some (strip o4)).
have [o5 p5] := h4 eh.
by rewrite (run _ _ p5) /=; exists (pick_branch (bstrip o5)).
Qed.

End Pieces.

Lemma checkoutP w root :
  (forall d h, ~ checkout w root d h) \/ exists d h, checkout w root d h.
Proof.
rewrite /checkout.
have dec_works args : {o | git_prints w root args o} + {git_fails w root args}.
  rewrite /git_fails /git_prints; case: (win32 w).
    case e1: (popen w root (txt "git.cmd" :: args)) => [||o rc].
    - case e2: (popen w root (txt "git.exe" :: args)) => [||o rc].
      + by right=> o; case=> [|[]].
      + by right=> o; case=> [|[]].
      + case: (Z.eq_dec rc 0) => [->|ne]; first by left; exists o; right.
        by right=> o'; case=> [|[_ []]].
    - by right=> o; case=> [|[]].
    - case: (Z.eq_dec rc 0) => [->|ne]; first by left; exists o; left.
      by right=> o'; case=> [[]|[]].
  case e1: (popen w root (txt "git" :: args)) => [||o rc]; [by right|by right|].
  case: (Z.eq_dec rc 0) => [->|ne]; first by left; exists o.
  by right=> o' [].
case: (dec_works ask_gitdir) => [[o1 p1]|f]; last by left=> d h [[o /f]].
case: (dec_works ask_describe) => [[o2 p2]|f]; last by left=> d h [_ [o /f]].
case: (dec_works ask_head) => [[o3 p3]|f]; last by left=> d h [_ _ [o /f]].
case: (dec_works ask_branch) => [[o4 p4]|f]; last by left=> d h [_ _ _ [o /f]].
case: (dec_works ask_branches) => [[o5 p5]|f].
  right; exists (strip o2), (strip o3); split; [by exists o1|by exists o2|by exists o3|].
  by exists o4 => // _; exists o5.
case: (strip o4 =P txt "HEAD") => eh.
  left=> d h [_ _ _ [o p /(_ _) hb]].
  by case: hb => [|o' /f //]; rewrite (git_prints_fun p p4).
right; exists (strip o2), (strip o3); split; [by exists o1|by exists o2|by exists o3|].
by exists o4.
Qed.

(** ** get_versions *)
Lemma last_line_ok s : s <> [::] -> exists l, last_line s = VOk l.
Proof.
rewrite /last_line; case e: (splitlines s) => [|l ls]; last by exists (last l ls).
by move/splitlines_nil: e => ->.
Qed.

Lemma keywords_no_date w : kw_date w = [::] -> get_versions w = VRaise VIndexError.
Proof.
move=> e; rewrite /get_versions /git_versions_from_keywords /get_keywords.
by lazy beta iota zeta delta [refnames full date]; rewrite e.
Qed.

Lemma keywords_unexpanded w : kw_date w <> [::] -> ~~ expanded w ->
  git_versions_from_keywords (get_keywords w) tag_prefix = VRaise NotThisMethod.
Proof.
move=> hd; rewrite /expanded negbK => hx.
rewrite /git_versions_from_keywords /get_keywords; lazy beta iota zeta delta [refnames full date].
by have [l ->] := last_line_ok hd; rewrite /vbind hx.
Qed.

Definition fallback (root : text) : vres versions :=
  or_else (versions_from_parentdir parentdir_prefix root)
    (VOk (Versions (txt "0+unknown") None None (Some (txt "unable to compute version")) None)).

Lemma get_versions_git w root : source_root w root -> kw_date w <> [::] -> ~~ expanded w ->
  get_versions w =
  or_else (vdo p <- git_pieces_from_vcs tag_prefix (run_command (popen w root) (gits w)); render p style)
    (fallback root).
Proof.
by case=> f [ef er] hd hx; rewrite /get_versions keywords_unexpanded // ef er.
Qed.

Lemma get_versions_nofile w : realfile w = None -> kw_date w <> [::] -> ~~ expanded w ->
  get_versions w = VOk (Versions (txt "0+unknown") None None
                     (Some (txt "unable to find root of source tree")) None).
Proof. by move=> ef hd hx; rewrite /get_versions keywords_unexpanded // ef. Qed.

Lemma source_rootP w : realfile w = None \/ exists root, source_root w root.
Proof.
case e: (realfile w) => [f|]; [right|by left].
by exists (dirname (dirname (dirname f))), f.
Qed.

Lemma fallback_ok root : exists v, fallback root = VOk v.
Proof.
rewrite /fallback /versions_from_parentdir /or_else.
have : forall n r, (exists v, parentdir_from n parentdir_prefix r = VOk v) \/
    parentdir_from n parentdir_prefix r = VRaise NotThisMethod.
  elim=> [|n IH] r; first by right.
  rewrite [parentdir_from _ _ _]/=; case: ifP => _; last exact: IH.
  by left; eexists.
by move=> /(_ 3 root) [[v ->]|->]; eexists.
Qed.

Lemma keywords_ok w : kw_date w <> [::] -> expanded w -> exists v, get_versions w = VOk v.
Proof.
move=> hd hx; rewrite /get_versions /git_versions_from_keywords /get_keywords.
lazy beta iota zeta delta [refnames full date].
have [l ->] := last_line_ok hd; rewrite /vbind (negbTE hx).
by case: (pick_tag _ _) => [t|]; eexists.
Qed.

Lemma render_pep440_ok p : exists v, render p style = VOk v.
Proof. by case: p => [l e|l s b d t n dt]; eexists. Qed.

(** ** The two readings of a checkout *)
Lemma pep440_version tag n hex dirty : tag <> [::] ->
  render_pep440 hex dirty (Some tag) n = version_of tag n hex dirty.
Proof.
case: tag => [//|c t] _; rewrite /render_pep440 /version_of /real_tag /when /plus_or_dot /local_part.
by case: n => [|n]; case: dirty; rewrite //= ?cats0.
Qed.

Lemma pep440_untagged n hex dirty tag : real_tag tag = None ->
  render_pep440 hex dirty tag n = untagged_version n hex dirty.
Proof. by rewrite /render_pep440 => ->; case: dirty. Qed.

Lemma version_prefix (t : text) : prefix (txt "v") t -> exists u, t = txt "v" ++ u.
Proof. exact: prefixW. Qed.

(** What happens to the date, and how the last question can fail *)
Lemma ask_date_cases w root :
  [\/ git_fails w root ask_date /\ (run_command (popen w root) (gits w) ask_date).1 = None,
      exists2 o, git_prints w root ask_date o &
        strip o = [::] /\ (run_command (popen w root) (gits w) ask_date).1 = Some (bstrip o)
    | exists o l, [/\ git_prints w root ask_date o, strip o <> [::], last_line (strip o) = VOk l &
        (run_command (popen w root) (gits w) ask_date).1 = Some (bstrip o)]].
Proof.
case: (git_cases w root ask_date) => [[o p e]|[f [rc e _]]]; rewrite e; last by constructor 1.
case: (strip o =P [::]) => h; first by constructor 2; exists o.
by constructor 3; have [l hl] := last_line_ok h; exists o, l.
Qed.

(** ** Tags in a git archive *)
Lemma refs_listed w r :
  r \in undup [seq strip r | r <- split (chr ",") (strip_of (mem (txt "()")) (strip (kw_refnames w)))]
  <-> listed w r.
Proof.
rewrite mem_undup; split=> [/mapP[p h ->]|[p h ->]]; first by exists p.
exact: map_f.
Qed.

Lemma keyword_tagsP w refs t : (forall r, r \in refs <-> listed w r) ->
  t \in keyword_tags refs <-> taken_as_tag w t.
Proof.
move=> hr; rewrite /keyword_tags.
have mem_tagged u : u \in undup [seq drop 5 r | r <- refs & prefix (txt "tag: ") r] <->
    listed w (txt "tag: " ++ u).
  rewrite mem_undup; split.
    case/mapP=> r; rewrite mem_filter => /andP[/prefixW[v ev] /hr hl] ->.
    by rewrite ev in hl *; rewrite -[5]/(size (txt "tag: ")) drop_prefix.
  move=> /hr h; apply/mapP; exists (txt "tag: " ++ u).
    by rewrite mem_filter prefix_catl h.
  by rewrite -[5]/(size (txt "tag: ")) drop_prefix.
case e: (undup _) mem_tagged => [|x xs] mem_tagged.
  have none u : ~ listed w (txt "tag: " ++ u) by move/mem_tagged.
  rewrite mem_filter; split=> [/andP[hd /hr hl]|[/none //|[_ [/hr -> ->]]]]; last by [].
  by right.
split=> [/mem_tagged h|[/mem_tagged //|[none _]]]; first by left.
have /mem_tagged h : x \in x :: xs by rewrite inE eqxx.
by case: (none _ h).
Qed.

Lemma pick_tagP (p : text) (tags : seq text) :
  (forall v, pick_tag (p) (sort text_le tags) = Some v ->
     [/\ (p ++ v) \in tags, starts_with_digit v &
         forall u, (p ++ u) \in tags -> starts_with_digit u -> text_le v u]) /\
  (pick_tag (p) (sort text_le tags) = None ->
     forall u, (p ++ u) \in tags -> starts_with_digit u -> False).
Proof.
have ss : sorted text_le (sort text_le tags) := sort_sorted text_le_total _.
have ms : sort text_le tags =i tags by move=> x; rewrite mem_sort.
move: (sort text_le tags) ss ms => l; elim: l tags => [|t ts IH] tags ss ms.
  split=> // _ u; by rewrite -ms.
rewrite [pick_tag _ _]/=.
have ss' : sorted text_le ts by apply: path_sorted ss.
have [IH1 IH2] := IH ts ss' (fun x => erefl).
case hp: (prefix _ t) => /=; last first.
  have tne u : p ++ u <> t by move=> e; move: hp; rewrite -e prefix_catl.
  split.
    move=> v /IH1[h1 h2 h3]; split=> //; first by rewrite -ms inE h1 orbT.
    by move=> u; rewrite -ms inE => /orP[/eqP /tne //|]; apply: h3.
  by move=> /IH2 h u; rewrite -ms inE => /orP[/eqP /tne //|]; apply: h.
have [v ev] := prefixW hp.
have -> : drop (size p) t = v by rewrite ev drop_prefix.
case hd: (starts_with_digit v).
  split=> // _ [<-]; split=> //; first by rewrite -ms -ev inE eqxx.
  move=> u; rewrite -ms => hu _; rewrite -(text_le_cat2l (p)) -ev.
  move: hu; rewrite inE => /orP[/eqP ->|hu]; first exact: text_le_refl.
  by have /allP := order_path_min text_le_trans ss; apply.
have tne u : starts_with_digit u -> p ++ u <> t.
  move=> hu e; have e' : u = v by rewrite -(drop_prefix p u) e ev drop_prefix.
  by move: hu; rewrite e' hd.
split.
  move=> v' /IH1[h1 h2 h3]; split=> //; first by rewrite -ms inE h1 orbT.
  by move=> u; rewrite -ms inE => /orP[/eqP h /tne //|]; apply: h3.
by move=> /IH2 h u; rewrite -ms inE => /orP[/eqP h' /tne //|]; apply: h.
Qed.

Lemma source_root_fun w root root' : source_root w root -> source_root w root' -> root' = root.
Proof. by case=> f [ef ->] [f' [ef' ->]]; move: ef'; rewrite ef => -[->]. Qed.

(** ** A tagged and an untagged checkout *)
Lemma git_prints_run w root args o : git_prints w root args o ->
  run_command (popen w root) (gits w) args = (Some (bstrip o), Some 0%Z).
Proof. exact: (proj1 (gits_run w root args)). Qed.

Lemma tagged_pieces w root d head dirty tag num hex o l :
  checkout w root d head -> reads_as d dirty (txt "v" ++ tag) num hex ->
  git_prints w root ask_date o -> last_line (strip o) = VOk l ->
  exists br, git_pieces_from_vcs tag_prefix (run_command (popen w root) (gits w)) =
    VOk (Pieces head hex br dirty (Some tag) (digits_value num) (iso_date l)).
Proof.
move=> ck ra po hl; have [plain [e1 hs hy em]] := reads_as_plain ra.
have [br ->] := pieces_checkout ck e1 hs; exists br.
rewrite hy em prefix_catl /negb (git_prints_run po) [vbind (VOk _) _]/vbind [fst _]/fst strip_bstrip hl.
have -> : drop 1 (txt "v" ++ tag) = tag by exact: (drop_prefix (txt "v")).
by [].
Qed.

Lemma no_tag_dirty d dirty plain : d = marked dirty plain -> chr "-" \notin plain ->
  suffix (txt "-dirty") d = dirty.
Proof. by move=> -> hy; rewrite marked_suffix // no_hyphen_no_dirty ?orbT. Qed.

Lemma untagged_pieces w root d head dirty plain c o l :
  checkout w root d head -> d = marked dirty plain -> chr "-" \notin plain ->
  git_prints w root ask_commits c ->
  git_prints w root ask_date o -> last_line (strip o) = VOk l ->
  exists br, git_pieces_from_vcs tag_prefix (run_command (popen w root) (gits w)) =
    VOk (Pieces head (take 7 head) br dirty None (words (bstrip c)) (iso_date l)).
Proof.
move=> ck e1 hy pc po hl.
have [br ->] := pieces_checkout ck e1 (no_tag_dirty e1 hy); exists br.
rewrite (negbTE hy) (git_prints_run pc) [fst _]/fst [vbind (VOk _) _]/vbind.
by rewrite (git_prints_run po) [fst _]/fst strip_bstrip hl.
Qed.

(** counting words *)
Lemma words_lstrip (p : pred nat) s : subpred p is_space -> words_from false (lstrip p s) = words_from false s.
Proof.
move=> sub; elim: s => // c s IH; rewrite lstrip_cons; case pc: (p c) => //.
by rewrite IH /= sub.
Qed.
Lemma words_spaces b s t : all is_space t -> words_from b (s ++ t) = words_from b s.
Proof.
move=> ht; elim: s b => [|c s IH] b /=; last by case: ifP => _; rewrite IH.
by elim: t b ht => //= c t IH b /andP[-> /IH].
Qed.
Lemma words_bstrip s : words (bstrip s) = words s.
Proof.
rewrite /words /bstrip /strip_of.
have [a [e h]] := lstrip_split is_bspace (rev (lstrip is_bspace s)).
have es : lstrip is_bspace s = rstrip is_bspace (lstrip is_bspace s) ++ rev a.
  by rewrite -[LHS]revK e rev_cat.
rewrite -[RHS](words_lstrip (p := is_bspace)); last exact: bspace_space.
rewrite [in RHS]es words_spaces // all_rev; apply: sub_all h; exact: bspace_space.
Qed.

(** the date: "D T Z" becomes DTTZ *)
Lemma replace1_cat c new (a b : text) : c \notin a -> replace1 c new (a ++ c :: b) = a ++ new ++ b.
Proof.
elim: a => [|d a IH] /=; first by rewrite eqxx.
by rewrite inE negb_or eq_sym => /andP[/negbTE -> /IH ->].
Qed.

Lemma lines_last_line n : forall cur b x, size b <= n -> x <> [::] -> ~~ has is_break x ->
  exists ls, lines_from cur (rcons b 10 ++ x) = rcons ls x.
Proof.
elim: n => [|n IH] cur b x.
  rewrite leqn0 size_eq0 => /eqP -> nx hx; exists [:: rev cur].
  by rewrite /= lines_one.
case: b => [|c b] hb nx hx.
  by exists [:: rev cur]; rewrite /= lines_one.
rewrite rcons_cons cat_cons [lines_from _ _]/=; case: eqP => [e|_].
  case eb: (rcons b 10 ++ x) => [|d t]; first by case: (b) eb.
  case: (d =P 10) => [ed|nd].
    case: b hb eb => [|b0 b] hb eb.
      by exists [:: rev cur]; case: eb => <- <-; rewrite lines_one.
    move: eb; rewrite rcons_cons cat_cons => -[e1 e2].
    have hb' : size b <= n by apply: ltnW.
    have [ls hls] := IH [::] b x hb' nx hx.
    by exists (rev cur :: ls); rewrite ed -e2 hls.
  have [ls hls] := IH [::] b x hb nx hx.
  exists (rev cur :: ls); rewrite rcons_cons -hls eb.
  by do 11 (case: d eb nd => [|d] eb nd //).
case: ifP => _.
  have [ls hls] := IH [::] b x hb nx hx.
  by exists (rev cur :: ls); rewrite hls.
exact: IH.
Qed.

Lemma strip_around (b x : text) : x <> [::] -> ~~ is_space (head 0 x) -> ~~ is_space (last 0 x) ->
  strip (b ++ x ++ [:: 10]) = (if all is_space b then [::] else lstrip is_space b) ++ x.
Proof.
move=> nx hx lx; rewrite /strip /strip_of lstrip_cat.
have hxx : lstrip is_space (x ++ [:: 10]) = x ++ [:: 10].
  by apply: lstrip_id; case: (x) nx hx.
have er u : rstrip is_space (u ++ x ++ [:: 10]) = u ++ x.
  rewrite /rstrip catA rev_cat lstrip_all // lstrip_id ?revK //.
  by case/lastP: (x) nx lx => // y c _; rewrite last_rcons -rcons_cat rev_rcons.
by case: ifP => _; rewrite ?hxx ?er //; have := er [::].
Qed.

Lemma last_line_around (b x : text) : x <> [::] -> ~~ is_space (head 0 x) -> ~~ is_space (last 0 x) ->
  ~~ has is_break x -> b = [::] \/ last 0 b = 10 -> last_line (strip (b ++ x ++ [:: 10])) = VOk x.
Proof.
move=> nx hx lx hbr hb; rewrite strip_around //; set b' := if _ then _ else _.
have : b' = [::] \/ exists c, b' = rcons c 10.
  rewrite /b'; case: ifP => hall; first by left.
  right; case: hb hall => [-> //|]; case/lastP: (b) => // c z; rewrite last_rcons => -> hall.
  have [a [e ha]] := lstrip_split is_space (rcons c 10).
  case/lastP: (lstrip _ _) e => [|u z'] e.
    by rewrite cats0 in e; rewrite e ha in hall.
  exists u; congr (rcons _ _).
  by have := congr1 (last 0) e; rewrite last_rcons last_cat last_rcons.
rewrite /last_line; case=> [->|[c ->]].
  by rewrite splitlines_one.
have [ls hls] := lines_last_line [::] (leqnn (size c)) nx hbr.
rewrite /splitlines hls; case: ls {hls} => // l ls /=.
by rewrite last_rcons.
Qed.

Lemma word_no (c : nat) s : is_space c -> word s -> c \notin s.
Proof.
move=> hc /andP[_ h]; apply: contra h => h; apply/hasP; exists c => //.
by rewrite hc.
Qed.

Lemma iso_date_words (d t z : text) : word d -> word t -> word z ->
  iso_date (d ++ txt " " ++ t ++ txt " " ++ z) = d ++ txt "T" ++ t ++ z.
Proof.
move=> hd ht hz; rewrite /iso_date /strip strip_of_id.
- rewrite replace1_cat; last exact: word_no.
  have -> : d ++ txt "T" ++ t ++ txt " " ++ z = (d ++ txt "T" ++ t) ++ chr " " :: z by rewrite -!catA.
  rewrite replace1_cat; first by rewrite -!catA.
  by rewrite !mem_cat (negbTE (word_no _ hd)) // (negbTE (word_no _ ht)).
- case/andP: hd; case: (d) => //= c s _; rewrite negb_or => /andP[+ _].
  by rewrite negb_or => /andP[].
apply/orP; left; rewrite !last_cat; case/andP: hz; case/lastP: (z) => // s c _.
by rewrite last_rcons has_rcons negb_or => /andP[+ _]; rewrite negb_or => /andP[].
Qed.

(** ** Counting plus signs *)
Section Plus.
Let P := chr "+".
Notation pluses := (count_mem P).
Lemma plus_dec n : pluses (dec n) = 0.
Proof. by apply/count_memPn; apply: digit_not (dec_digits n). Qed.
Lemma plus_decZ z : pluses (decZ z) = 0.
Proof. by rewrite /decZ; case: ifP => _; rewrite /= plus_dec. Qed.
Lemma plus_when b s : pluses s = 0 -> pluses (when b s) = 0.
Proof. by case: b. Qed.
Lemma plus_sep t : pluses t + pluses (plus_or_dot t) <= maxn 1 (pluses t).
Proof.
rewrite /plus_or_dot; case h: (chr "+" \in t); first by rewrite addn0 leq_maxr.
by have -> : pluses t = 0 by apply/count_memPn; rewrite h.
Qed.
Lemma plus_split sep skip cur s :
  pluses (head [::] (split_sub_from sep skip cur s)) <= pluses cur + pluses s.
Proof.
elim: s skip cur => [|d s IH] skip cur; first by rewrite /= count_rev addn0.
lazy beta iota zeta delta [split_sub_from]; rewrite -/split_sub_from; case: skip => [|k]; last first.
  by apply: leq_trans (IH _ _) _; rewrite /= leq_add2l leq_addl.
case: ifP => _; first by rewrite [head _ _]/= count_rev leq_addr.
by apply: leq_trans (IH _ _) _; rewrite /= -addnA addnCA.
Qed.
Lemma plus_post t a p : pep440_split_post t = VOk (a, p) -> pluses a <= pluses t.
Proof.
rewrite /pep440_split_post; have h := plus_split (txt ".post") 0 [::] t.
rewrite add0n -/(split_sub _ _) in h.
case e: (split_sub _ t) h => [|x [|y [|z r]]] /= h.
- by case=> <- _.
- by case=> <- _.
- by case: y {e} => [|c y]; [case=> <- _|case: (int_of _) => // z [<- _]].
- by case=> <- _.
Qed.
Variable short : text.
Hypothesis hs : pluses short = 0.
Lemma plus_tail t a b : pluses a = 0 -> pluses b = 0 ->
  pluses (t ++ a ++ plus_or_dot t ++ b) <= maxn 1 (pluses t).
Proof. by move=> ha hb; rewrite !count_cat ha hb add0n addn0; apply: plus_sep. Qed.

Let low n m : n <= m -> n <= maxn 1 m := fun h => leq_trans h (leq_maxr 1 m).

Lemma plus_real tag : if real_tag (Some tag) is Some t then t = tag else tag = [::].
Proof. by case: tag. Qed.

Ltac pl := rewrite ?count_cat ?plus_when ?plus_dec ?hs ?count_cat ?plus_when ?plus_dec ?hs //.

Lemma one_plus_pep440 dirty tag n : pluses (render_pep440 short dirty (Some tag) n) <= maxn 1 (pluses tag).
Proof.
rewrite /render_pep440; case: (real_tag _) (plus_real tag) => [t ->|->]; last by pl.
case: (_ || _); last by rewrite /when cats0 leq_maxr.
by rewrite /when; apply: (@plus_tail _ [::]) => //; pl.
Qed.
Lemma one_plus_branch branch dirty tag n :
  pluses (render_pep440_branch short branch dirty (Some tag) n) <= maxn 1 (pluses tag).
Proof.
rewrite /render_pep440_branch; case: (real_tag _) (plus_real tag) => [t ->|->]; last by pl.
case: (_ || _); last by rewrite /when cats0 leq_maxr.
by rewrite [when true _]/when; apply: plus_tail => //; pl.
Qed.
Lemma one_plus_post dirty tag n :
  pluses (render_pep440_post short dirty (Some tag) n) <= maxn 1 (pluses tag).
Proof.
rewrite /render_pep440_post; case: (real_tag _) (plus_real tag) => [t ->|->]; last by pl.
case: (_ || _); last by rewrite /when cats0 leq_maxr.
rewrite [when true _]/when; have := @plus_tail tag (txt ".post" ++ dec n ++ when dirty (txt ".dev0")) (txt "g" ++ short).
by rewrite -!catA; apply; pl.
Qed.
Lemma one_plus_post_branch branch dirty tag n :
  pluses (render_pep440_post_branch short branch dirty (Some tag) n) <= maxn 1 (pluses tag).
Proof.
rewrite /render_pep440_post_branch; case: (real_tag _) (plus_real tag) => [t ->|->]; last by pl.
case: (_ || _); last by rewrite /when cats0 leq_maxr.
rewrite [when true _]/when; have := @plus_tail tag (txt ".post" ++ dec n ++ when (not_master branch) (txt ".dev0"))
   (txt "g" ++ short ++ when dirty (txt ".dirty")).
by rewrite -!catA; apply; pl.
Qed.
Lemma one_plus_old dirty tag n : pluses (render_pep440_old dirty (Some tag) n) <= maxn 1 (pluses tag).
Proof.
rewrite /render_pep440_old; case: (real_tag _) (plus_real tag) => [t ->|->]; last by pl.
by pl; rewrite addn0 leq_maxr.
Qed.
Lemma vok_inj (T : Type) (x y : T) : VOk x = VOk y -> x = y.
Proof. by case. Qed.
Lemma one_plus_pre tag (n : nat) (v : text) : render_pep440_pre (Some tag) n = VOk v -> pluses v <= maxn 1 (pluses tag).
Proof.
rewrite /render_pep440_pre; case: (real_tag _) (plus_real tag) => [t ->|->]; last first.
  move=> h; have -> : v = txt "0.post0.dev" ++ dec n by case: h.
  by rewrite count_cat plus_dec.
case: (n != 0); last by case=> <-; apply: leq_maxr.
case e: (pep440_split_post tag) => [[a p]|] /=; last by [].
move=> h; have {h} <- := vok_inj h.
apply: low; apply: leq_trans (plus_post e); rewrite count_cat -[X in _ <= X]addn0 leq_add2l.
by case: p {e} => [z|]; rewrite /= ?count_cat /= ?plus_decZ ?plus_dec.
Qed.
Lemma one_plus_describe dirty tag n : pluses (render_git_describe short dirty (Some tag) n) <= maxn 1 (pluses tag).
Proof.
rewrite /render_git_describe; case: (real_tag _) (plus_real tag) => [t ->|->]; last by pl.
by pl; rewrite !addn0 leq_maxr.
Qed.
Lemma one_plus_long dirty tag n : pluses (render_git_describe_long short dirty (Some tag) n) <= maxn 1 (pluses tag).
Proof.
rewrite /render_git_describe_long; case: (real_tag _) (plus_real tag) => [t ->|->]; last by pl.
by pl; rewrite !addn0 leq_maxr.
Qed.
End Plus.

(** ** Splitting at .post *)
Definition post : text := [:: 46; 112; 111; 115; 116].
Lemma postE : txt ".post" = post. Proof. by []. Qed.

Lemma post_straddle u t : u <> [::] -> prefix post (u ++ post ++ t) -> prefix post u.
Proof.
case: u => [//|a [|b [|c [|d [|e u]]]]] _ //=; rewrite ?andbF //.
by rewrite !prefix0s.
Qed.

Lemma split_none cur t : 46 \notin t -> split_sub_from post 0 cur t = [:: rev cur ++ t].
Proof.
elim: t cur => [|c t IH] cur; first by rewrite cats0.
rewrite inE negb_or => /andP[/negbTE nc /IH h].
lazy beta iota zeta delta [split_sub_from]; rewrite -/split_sub_from.
have -> : prefix post (c :: t) = false by rewrite /post /= nc.
by rewrite h rev_cons cat_rcons.
Qed.

Lemma split_post cur a t : ~~ infix post a -> 46 \notin t ->
  split_sub_from post 0 cur (a ++ post ++ t) = [:: rev cur ++ a; t].
Proof.
move=> ha ht; elim: a cur ha => [|c a IH] cur ha.
  rewrite cats0 cat0s /post cat_cons.
  lazy beta iota zeta delta [split_sub_from]; rewrite -/split_sub_from.
  have -> : prefix [:: 46; 112; 111; 115; 116] (46 :: [:: 112; 111; 115; 116] ++ t) by rewrite /= prefix0s.
  by congr (_ :: _); rewrite [LHS]/= split_none.
rewrite cat_cons; lazy beta iota zeta delta [split_sub_from]; rewrite -/split_sub_from.
case hp: (prefix post (c :: a ++ post ++ t)).
  have h5 : prefix post (c :: a) by apply: (@post_straddle (c :: a) t).
  by move: ha; rewrite -[infix _ _]/(prefix post (c :: a) || infix post a) h5.
rewrite IH; first by rewrite rev_cons cat_rcons.
by move: ha; rewrite -[infix _ _]/(prefix post (c :: a) || infix post a) negb_or => /andP[].
Qed.

Lemma split_one (c : nat) s : c \notin s -> split c s = [:: s].
Proof. by move=> h; have := @split_unique c [:: s]; rewrite /= h; apply. Qed.

Lemma int_of_dec k : int_of (dec k) = Some (Z.of_nat k).
Proof.
have hd := dec_digits k; have hn := @dec_nonnil k.
have dsp c : is_digit c -> ~~ is_space c.
  rewrite /is_digit /is_space => /andP[h1 h2].
  by do 58 (case: c h1 h2 => [|c] h1 h2 //).
rewrite /int_of.
have -> : strip (dec k) = dec k.
  rewrite /strip strip_of_id //.
    by case: (dec k) hd => //= c s /andP[/dsp].
  apply/orP; left; case/lastP: (dec k) hn hd => // s c _.
  by rewrite all_rcons last_rcons => /andP[/dsp].
have hu : chr "_" \notin dec k by apply: digit_not hd.
have -> : (match dec k with 45 :: u => (true, u) | 43 :: u => (false, u) | _ => (false, dec k) end) = (false, dec k).
  case: (dec k) hd => // c s /= /andP[hc _].
  by do 58 (case: c hc => [|c] hc //).
rewrite split_one // /= hd andbT; case: eqP => // _.
by rewrite cats0 digits_value_dec.
Qed.

(** The local part determines distance, revision and dirtiness. *)
Lemma local_part_inj n hex dirty n' hex' dirty' : abbrev hex -> abbrev hex' ->
  local_part n hex dirty = local_part n' hex' dirty' -> [/\ n = n', hex = hex' & dirty = dirty'].
Proof.
move=> /andP[_ hh] /andP[_ hh'] e.
have dd m : chr "." \notin dec m by apply: digit_not (dec_digits m).
have [/dec_inj -> {}e] := cut_first (dd n) (dd n') e.
have nh h : all is_hex h -> chr "." \notin h by apply: hex_not.
case: e; case: dirty; case: dirty'; rewrite ?cats0 //.
- by case/(cut_first (nh _ hh) (nh _ hh')) => ->.
- by move=> e; move: (nh _ hh'); rewrite -e mem_cat inE eqxx orbT.
- by move=> e; move: (nh _ hh); rewrite e mem_cat inE eqxx orbT.
Qed.
