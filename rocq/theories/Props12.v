(** * Props12: the version of the package (C59-C65) *)
From Coq Require Import ZArith String Ascii Lia.
From mathcomp Require Import ssreflect ssrfun ssrbool eqtype ssrnat seq path.
From Verif Require Import Text TextLemmas Ver VerSpec VerLemmas.

Set Warnings "-abstract-large-number".
Set Implicit Arguments.
Unset Strict Implicit.
Unset Printing Implicit Defensive.

(** ** C59: when importing the package fails *)
Theorem C59_import_raises (w : world) (e : vexn) :
  package_version w = VRaise e <->
  (kw_date w = [::] /\ e = VIndexError) \/
  [/\ kw_date w <> [::], ~~ expanded w &
    exists root described head, [/\ source_root w root, checkout w root described head &
      (names_no_tag described /\ git_fails w root ask_commits /\ e = VAttributeError) \/
      ((names_no_tag described /\ git_works w root ask_commits \/ names_v_tag described) /\
       ((git_fails w root ask_date /\ e = VAttributeError) \/
        (exists2 o, git_prints w root ask_date o & strip o = [::] /\ e = VIndexError)))]].
Proof.
have pv : package_version w = VRaise e <-> get_versions w = VRaise e.
  rewrite /package_version; case: (get_versions w) => [v|e'] /=; first by split.
  by split=> -[->].
rewrite pv; case: (kw_date w =P [::]) => hd.
  rewrite keywords_no_date //; split; first by case=> <-; left.
  by case=> [[_ ->]|[ne]].
case hx: (expanded w).
  have [v ->] := keywords_ok hd hx; split=> //.
  by case=> [[/hd]|[_ /negP]].
case: (source_rootP w) => [nf|[root sr]].
  rewrite get_versions_nofile ?hx //; split=> //.
  by case=> [[/hd]|[_ _ [root [d [h [[f [ef _]] _ _]]]]]] //; rewrite nf in ef.
rewrite (get_versions_git sr hd) ?hx //.
have sru root' : source_root w root' -> root' = root.
  by case: sr => f [ef ->] [f' [ef' ->]]; move: ef'; rewrite ef => -[->].
set git := run_command (popen w root) (gits w).
have [vf ef] := fallback_ok root.
split.
  (* the error comes from git_pieces_from_vcs *)
  move=> he; right; split=> //.
  case: (checkoutP w root) => [nc|[d [h ck]]].
    by move: he; rewrite pieces_no_checkout // /= ef.
  exists root, d, h; split=> //.
  have [dirty [plain [ed hs hp]]] := marked_cases d.
  have [br eg] := pieces_checkout ck ed hs.
  move: he; rewrite -/git eg.
  have dates tag dist short : or_else (vdo p <-
      match (git ask_date).1 with
      | Some dt => vdo l <- last_line (strip dt);
                   VOk (Pieces h short br dirty tag dist (iso_date l))
      | None => VRaise VAttributeError end; render p style) (fallback root) = VRaise e ->
      (git_fails w root ask_date /\ e = VAttributeError) \/
      (exists2 o, git_prints w root ask_date o & strip o = [::] /\ e = VIndexError).
    rewrite /git; case: (ask_date_cases w root) => [[f ->]|[o po [so ->]]|[o [l [po so hl ->]]]].
    - by case=> <-; left.
    - rewrite strip_bstrip so; case=> <-; right; by exists o.
    - by rewrite strip_bstrip hl /vbind; case: (render_pep440_ok (Pieces h short br dirty tag dist (iso_date l))) => v ->.
  case hy: (chr "-" \in plain).
    case em: (describe_match plain) => [[[tag num] hex]|] //.
    case hv: (prefix (txt "v") tag); last first.
      rewrite /negb /vbind.
      by set p := Failed _ _; have [v ->] := render_pep440_ok p.
    have [tg et] := version_prefix hv.
    rewrite /negb [vbind (VOk _) _]/vbind => /dates hdt.
    right; split=> //; right; exists dirty, tg, num, hex.
    have [hor h1 h2 h3] := proj1 (describe_matchP _ _ _ _) em.
    by rewrite -et; split=> //; case: hor => <-; [left|right].
  have nt : names_no_tag d by exists dirty, plain; rewrite hy.
  case: (git_cases w root ask_commits) => [[o po ->]|[f [rc -> _]]]; last first.
    by case=> <-; left.
  rewrite [fst _]/fst [vbind (VOk _) _]/vbind => /dates hdt.
  by right; split=> //; left; split=> //; exists o.
(* conversely *)
case=> [[/hd //]|[_ _ [root' [d [h [/sru -> ck hc]]]]]].
have vt_no dirty tag num hex : reads_as d dirty tag num hex -> names_no_tag d -> False.
  move=> /reads_as_plain[p [e1 e2 e3 _]] [dirty' [plain [e1' hy]]].
  have ed : dirty' = dirty.
    by rewrite -e2 e1' marked_suffix // no_hyphen_no_dirty ?orbT.
  have ep : p = plain by rewrite -(marked_strip dirty p) -e1 e1' ed marked_strip.
  by move: hy; rewrite -ep e3.
have fin p0 short tag dist dirty br (eg : git_pieces_from_vcs tag_prefix git = vdo p <- p0;
    match p with
    | (None, err) => VOk (Failed h err)
    | (Some (tag, dist, short), _) =>
      match (git ask_date).1 with
      | None => VRaise VAttributeError
      | Some dt => vdo l <- last_line (strip dt);
                   VOk (Pieces h short br dirty tag dist (iso_date l))
      end
    end) : p0 = VOk (Some (tag, dist, short), [::]) ->
    ((git_fails w root ask_date /\ e = VAttributeError) \/
     (exists2 o, git_prints w root ask_date o & strip o = [::] /\ e = VIndexError)) ->
    or_else (vdo p <- git_pieces_from_vcs tag_prefix git; render p style) (fallback root) = VRaise e.
  move=> ep0 hdt; rewrite eg ep0 [vbind (VOk _) _]/vbind.
  rewrite /git; case: (ask_date_cases w root) => [[f ->]|[o po [so ->]]|[o [l [po so hl ->]]]].
  - by case: hdt => [[_ ->] //|[o /f]].
  - rewrite strip_bstrip so; case: hdt => [[f _]|[o' _ [_ ->]] //]; by case: (f o).
  - case: hdt => [[f _]|[o' po' [so' _]]]; first by case: (f o).
    by case: so; rewrite (git_prints_fun po po').
case: hc => [[nt [fc ee]]|[[[nt [oc pc]]|[dirty [tag [num [hex ra]]]]] hdt]].
- have [dirty [plain [e1 hy]]] := nt.
  have hs : suffix (txt "-dirty") d = dirty by rewrite e1 marked_suffix // no_hyphen_no_dirty ?orbT.
  have [br eg] := pieces_checkout ck e1 hs.
  rewrite eg (negbTE hy).
  by case: (git_cases w root ask_commits) => [[o /fc]|[_ [rc -> _]]] //; rewrite ee.
- have [dirty [plain [e1 hy]]] := nt.
  have hs : suffix (txt "-dirty") d = dirty by rewrite e1 marked_suffix // no_hyphen_no_dirty ?orbT.
  have [br eg] := pieces_checkout ck e1 hs.
  apply: (fin _ (take 7 h) None (words (bstrip oc)) _ _ eg) => //.
  rewrite (negbTE hy); have [hrun _] := gits_run w root ask_commits.
  by rewrite (hrun _ pc).
- have [plain [e1 hs hy em]] := reads_as_plain ra.
  have [br eg] := pieces_checkout ck e1 hs.
  apply: (fin _ hex (Some tag) (digits_value num) _ _ eg) => //.
  by rewrite hy em prefix_catl /negb; congr (VOk (Some (Some _, _, _), _)); rewrite -[RHS](drop_prefix (txt "v")).
Qed.

(** With a date keyword and without a usable git, importing always works. *)
Corollary C59_import_without_git (w : world) :
  kw_date w <> [::] -> (forall root, git_fails w root ask_gitdir) ->
  exists v, package_version w = VOk v.
Proof.
move=> hd hf; case e: (package_version w) => [v|x]; first by exists v.
case/C59_import_raises: e => [[/hd]|[_ _ [root [d [h [_ [[o /hf]] ]]]]]] //.
Qed.

(** ** C60: neither keywords nor a checkout *)
Theorem C60_parent_directory (w : world) (root : text) :
  source_root w root -> kw_date w <> [::] -> ~~ expanded w ->
  (forall described head, ~ checkout w root described head) ->
  let names := [:: basename root; basename (dirname root); basename (dirname (dirname root))] in
  (forall i v, i < 3 -> nth [::] names i = txt "kalmankit-" ++ v ->
     (forall j u, j < i -> nth [::] names j <> txt "kalmankit-" ++ u) -> package_version w = VOk v) /\
  ((forall j u, j < 3 -> nth [::] names j <> txt "kalmankit-" ++ u) ->
     package_version w = VOk (txt "0+unknown")).
Proof.
move=> sr hd hx nc names.
have -> : package_version w = vdo v <- fallback root; VOk (version v).
  by rewrite /package_version (get_versions_git sr hd hx) pieces_no_checkout.
have yes v d : d = parentdir_prefix ++ v -> prefix parentdir_prefix d /\ drop (size parentdir_prefix) d = v.
  by move=> ->; rewrite prefix_catl drop_prefix.
have no d : (forall u, d <> parentdir_prefix ++ u) -> prefix parentdir_prefix d = false.
  by move=> h; apply/negP => /prefixW[t /h].
rewrite /fallback /versions_from_parentdir /parentdir_from; split.
  move=> i v; case: i => [|[|[|i]]] // _ /yes[hp ev] hn.
  - by rewrite hp ev.
  - by rewrite (no (basename root)) ?hp ?ev // => u; apply: (hn 0 u).
  - rewrite (no (basename root)); last by move=> u; apply: (hn 0 u).
    by rewrite (no (basename (dirname root))) ?hp ?ev // => u; apply: (hn 1 u).
move=> hn; rewrite (no (basename root)); last by move=> u; apply: (hn 0 u).
rewrite (no (basename (dirname root))); last by move=> u; apply: (hn 1 u).
by rewrite (no (basename (dirname (dirname root)))) // => u; apply: (hn 2 u).
Qed.

(** The same, directory by directory: /dirs.../src/kalmankit/_version.py. *)
Definition component (d : text) : bool := (d != [::]) && (chr "/" \notin d).
Definition path (dirs : seq text) : text :=
  if dirs is [::] then txt "/" else flatten [seq chr "/" :: d | d <- dirs].

Lemma path_rcons dirs d : path (rcons dirs d) = flatten [seq chr "/" :: d | d <- dirs] ++ chr "/" :: d.
Proof.
have -> : path (rcons dirs d) = flatten [seq chr "/" :: d | d <- rcons dirs d] by case: dirs.
by rewrite map_rcons flatten_rcons.
Qed.

Lemma basename_slash p d : chr "/" \notin d -> basename (p ++ chr "/" :: d) = d.
Proof.
move=> hd; rewrite /basename.
have -> : p ++ chr "/" :: d = join (chr "/") (rcons (split (chr "/") p) d).
  rewrite -{1}(split_join (chr "/") p); case: (split (chr "/") p) (@split_nonnil (chr "/") p) => // q qs _.
  elim: qs q => [|r rs IH] q //.
  have -> : join (chr "/") [:: q, r & rs] = q ++ chr "/" :: join (chr "/") (r :: rs) by [].
  have -> : join (chr "/") (rcons [:: q, r & rs] d) = q ++ chr "/" :: join (chr "/") (rcons (r :: rs) d) by [].
  by rewrite -IH -catA.
rewrite split_unique; [by rewrite last_rcons|by case: (split _ _)|].
by rewrite all_rcons hd; apply/allP => q /split_free.
Qed.

Lemma basename_path dirs d : component d -> basename (path (rcons dirs d)) = d.
Proof. by case/andP => _ hd; rewrite path_rcons basename_slash. Qed.

Lemma dirname_path dirs d : all component (rcons dirs d) -> dirname (path (rcons dirs d)) = path dirs.
Proof.
rewrite all_rcons => /andP [hd hs]; have := hd => /andP [_ hd'].
rewrite /dirname basename_path // path_rcons.
set p := flatten _; have -> : take (size (p ++ chr "/" :: d) - size d) (p ++ chr "/" :: d) = p ++ txt "/".
  by rewrite size_cat /= addnS -addSn addnK -cat1s catA take_size_cat // size_cat addn1.
rewrite {}/p; case/lastP: dirs hs => [|dirs e]; first by [].
rewrite all_rcons => /andP [/andP [he he'] _].
have E : flatten [seq chr "/" :: d | d <- rcons dirs e] = path (rcons dirs e) by case: dirs.
rewrite E path_rcons.
case/lastP: e he he' {E} => // e c _; rewrite mem_rcons inE negb_or => /andP [hc _].
have hc' : (c == chr "/") = false by rewrite eq_sym; apply/negbTE.
have -> : flatten [seq chr "/" :: d | d <- dirs] ++ chr "/" :: rcons e c =
    rcons (flatten [seq chr "/" :: d | d <- dirs] ++ chr "/" :: e) c by rewrite rcons_cat.
set X := flatten _ ++ _ => {hc}.
have -> : all (pred1 (chr "/")) (rcons X c ++ txt "/") = false by rewrite all_cat all_rcons [pred1 _ c]hc'.
have -> : rcons X c ++ txt "/" = rcons (rcons X c) (chr "/") by rewrite -[RHS]cats1.
by rewrite /rstrip !rev_rcons !lstrip_cons [pred1 _ _]eqxx [pred1 _ c]hc' rev_cons revK.
Qed.

Theorem C60_source_root (w : world) (dirs : seq text) : all component dirs ->
  realfile w = Some (path (dirs ++ [:: txt "src"; txt "kalmankit"; txt "_version.py"])) ->
  source_root w (path dirs).
Proof.
move=> hs hf; eexists; split; first exact: hf.
rewrite -2!cat_rcons cats1.
by rewrite dirname_path ?dirname_path ?dirname_path // !all_rcons hs.
Qed.

Theorem C60_directories (w : world) (dirs : seq text) : all component dirs ->
  realfile w = Some (path (dirs ++ [:: txt "src"; txt "kalmankit"; txt "_version.py"])) ->
  kw_date w <> [::] -> ~~ expanded w -> (forall described head, ~ checkout w (path dirs) described head) ->
  let names := take 3 (rev dirs) in
  (forall before v after, names = before ++ (txt "kalmankit-" ++ v) :: after ->
     (forall u, txt "kalmankit-" ++ u \notin before) -> package_version w = VOk v) /\
  ((forall u, txt "kalmankit-" ++ u \notin names) -> package_version w = VOk (txt "0+unknown")).
Proof.
move=> hs hf hd hx nc names.
have sr := C60_source_root hs hf.
have [h1 h2] := C60_parent_directory sr hd hx nc.
pose ns := [:: basename (path dirs); basename (dirname (path dirs)); basename (dirname (dirname (path dirs)))].
have E i : i < 3 -> nth [::] ns i = nth [::] names i.
  rewrite /ns /names; case/lastP: dirs hs {hf nc sr h1 h2 names ns} => [|ds a] hs; first by case: i => [|[|[]]].
  have ha : component a by move: hs; rewrite all_rcons => /andP [].
  rewrite rev_rcons basename_path // dirname_path //; case: i => [|i] //=.
  have {hs ha}hs : all component ds by move: hs; rewrite all_rcons => /andP [].
  case/lastP: ds hs => [|ds b] hs; first by case: i => [|[]].
  have hb : component b by move: hs; rewrite all_rcons => /andP [].
  rewrite rev_rcons basename_path // dirname_path //; case: i => [|i] //=.
  have {hs hb}hs : all component ds by move: hs; rewrite all_rcons => /andP [].
  case/lastP: ds hs => [|ds c] hs; first by case: i.
  have hc : component c by move: hs; rewrite all_rcons => /andP [].
  by rewrite rev_rcons basename_path //; case: i.
have sz : size names <= 3 by rewrite size_take; case: ltnP.
split.
  move=> before v after en hb.
  have hi : size before < 3.
    by apply: leq_trans sz; rewrite en size_cat /= addnS ltnS leq_addr.
  apply: (h1 (size before)) => //; first by rewrite -/ns E // en nth_cat ltnn subnn.
  move=> j u hj; rewrite -/ns E ?(ltn_trans hj) // en nth_cat hj => ej.
  by have := hb u; rewrite -ej mem_nth.
move=> hn; apply: h2 => j u hj; rewrite -/ns E // => ej.
have := hn u; rewrite -ej; case: (ltnP j (size names)) => hj'; first by rewrite mem_nth.
by move: ej; rewrite nth_default.
Qed.

(** ** C61: the version in a checkout *)
Theorem C61_tagged (w : world) (root head : text) (dirty : bool) (tag num hex o : text) :
  source_root w root -> kw_date w <> [::] -> ~~ expanded w ->
  tag <> [::] -> one_line tag -> number num -> abbrev hex ->
  checkout w root (marked dirty (described_as (txt "v" ++ tag) num hex)) head ->
  git_prints w root ask_date o -> strip o <> [::] ->
  exists d, get_versions w =
    VOk (Versions (version_of tag (digits_value num) hex dirty) (Some head) (Some dirty) None (Some d)).
Proof.
move=> sr hd hx ne ol hn hh ck po so.
have ra : reads_as (marked dirty (described_as (txt "v" ++ tag) num hex)) dirty (txt "v" ++ tag) num hex.
  split; first by left.
  by split=> //; case/andP: ol => _ h; rewrite /one_line mem_cat h.
have [l hl] := last_line_ok so.
rewrite (get_versions_git sr hd hx).
have [br ->] := tagged_pieces ck ra po hl.
by exists (iso_date l); rewrite -pep440_version.
Qed.

Theorem C61_untagged (w : world) (root head plain : text) (dirty : bool) (o c : text) :
  source_root w root -> kw_date w <> [::] -> ~~ expanded w ->
  chr "-" \notin plain -> checkout w root (marked dirty plain) head ->
  git_prints w root ask_commits c -> git_prints w root ask_date o -> strip o <> [::] ->
  exists d, get_versions w =
    VOk (Versions (untagged_version (words c) (take 7 head) dirty) (Some head) (Some dirty) None (Some d)).
Proof.
move=> sr hd hx hy ck pc po so; have [l hl] := last_line_ok so.
rewrite (get_versions_git sr hd hx).
have [br ->] := untagged_pieces ck erefl hy pc po hl.
by exists (iso_date l); rewrite words_bstrip -(@pep440_untagged _ _ _ None).
Qed.

(** git lists one commit per line. *)
Theorem C61_commits_counted (w : world) (root head plain : text) (dirty : bool) (o : text) (commits : seq text) :
  source_root w root -> kw_date w <> [::] -> ~~ expanded w ->
  chr "-" \notin plain -> checkout w root (marked dirty plain) head ->
  all word commits -> git_prints w root ask_commits (flatten [seq c ++ [:: 10] | c <- commits]) ->
  git_prints w root ask_date o -> strip o <> [::] ->
  exists d, get_versions w =
    VOk (Versions (txt "0+untagged." ++ dec (size commits) ++ txt ".g" ++ take 7 head ++
                   (if dirty then txt ".dirty" else [::])) (Some head) (Some dirty) None (Some d)).
Proof.
move=> sr hd hx hy ck hw pc po so; have [d ->] := C61_untagged sr hd hx hy ck pc po so; exists d.
rewrite /untagged_version /local_part; suff -> : words (flatten [seq c ++ [:: 10] | c <- commits]) = size commits by [].
rewrite /words {pc}; elim: commits hw => [|c cs IH] //= /andP [/andP [hc hs] /IH {IH}IH].
have hs' : ~~ has is_space c by apply: contra hs; apply: sub_has => x ->.
rewrite -catA; case: c hc {hs} hs' => [|x c] //= _; rewrite negb_or => /andP [/negbTE -> hc].
rewrite add1n; congr S; elim: c hc => [|y c IHc] /=; first by rewrite IH.
by rewrite negb_or => /andP [/negbTE -> /IHc ->]; rewrite add0n.
Qed.

(** A description that is neither: the version is "unknown", with the revision and an error. *)
Theorem C61_unreadable (w : world) (root d head : text) :
  source_root w root -> kw_date w <> [::] -> ~~ expanded w ->
  checkout w root d head -> ~ names_no_tag d -> ~ names_v_tag d ->
  exists err, get_versions w = VOk (Versions (txt "unknown") (Some head) None (Some err) None).
Proof.
move=> sr hd hx ck hn hv; rewrite (get_versions_git sr hd hx).
have [dirty [plain [ed hs hp]]] := marked_cases d.
have [br ->] := pieces_checkout ck ed hs.
case hy: (chr "-" \in plain); last by case: hn; exists dirty, plain; rewrite hy.
case em: (describe_match plain) => [[[tag num] hex]|]; last by eexists.
case hpre: (prefix (txt "v") tag); last by eexists.
have [tg et] := version_prefix hpre; case: hv; exists dirty, tg, num, hex.
have [hor h1 h2 h3] := proj1 (describe_matchP _ _ _ _) em.
by rewrite -et; split=> //; case: hor => <-; [left|right].
Qed.

(** The date D T Z, as git prints it on the last line, becomes DTTZ. *)
Theorem C61_date (w : world) (root d head before day time zone : text) (v : versions) :
  source_root w root -> kw_date w <> [::] -> ~~ expanded w ->
  checkout w root d head -> names_no_tag d \/ names_v_tag d ->
  word day -> word time -> word zone ->
  before = [::] \/ last 0 before = 10 ->
  git_prints w root ask_date (before ++ day ++ txt " " ++ time ++ txt " " ++ zone ++ [:: 10]) ->
  get_versions w = VOk v -> vdate v = Some (day ++ txt "T" ++ time ++ zone).
Proof.
move=> sr hd hx ck hdesc wd wt wz hb po.
set x := day ++ txt " " ++ time ++ txt " " ++ zone.
have po' : git_prints w root ask_date (before ++ x ++ [:: 10]) by rewrite /x -!catA; exact: po.
have ww s : word s -> s <> [::] /\ (forall c, c \in s -> ~~ is_space c /\ ~~ is_break c).
  move=> /andP[/eqP ne h]; split=> // c hc; apply/andP; rewrite -negb_or.
  by apply: contra h => h; apply/hasP; exists c.
have hl : last_line (strip (before ++ x ++ [:: 10])) = VOk x.
  have [nd cd] := ww _ wd; have [nz cz] := ww _ wz; have [nt ct] := ww _ wt.
  apply: last_line_around => //.
  - by rewrite /x; case: (day) nd.
  - rewrite /x; case: (day) nd cd => // c s _ /(_ c); rewrite inE eqxx => /(_ isT) [] //.
  - rewrite /x !last_cat; case/lastP: (zone) nz cz => // s c _ /(_ c).
    by rewrite last_rcons mem_rcons inE eqxx => /(_ isT) [].
  - apply/hasPn => c; rewrite /x !mem_cat => /or4P[/cd[]|hc|/ct[]|/orP[hc|/cz[]]] //.
      by move: hc; rewrite inE => /eqP ->.
    by move: hc; rewrite inE => /eqP ->.
rewrite (get_versions_git sr hd hx); case: hdesc => [[dirty [plain [ed hy]]]|[dirty [tag [num [hex ra]]]]].
  have [br eg] := pieces_checkout ck ed (no_tag_dirty ed hy).
  case: (git_cases w root ask_commits) => [[c pc ec]|[_ [rc ec _]]]; last first.
    by rewrite eg (negbTE hy) ec.
  have [br' ->] := untagged_pieces ck ed hy pc po' hl.
  by case=> <-; rewrite -iso_date_words.
have [br ->] := tagged_pieces ck ra po' hl.
by case=> <-; rewrite -iso_date_words.
Qed.

(** ** C62: the version in a git archive *)
Lemma archive_version w : kw_date w <> [::] -> expanded w ->
  let refs := undup [seq strip r | r <- split (chr ",") (strip_of (mem (txt "()")) (strip (kw_refnames w)))] in
  exists d, get_versions w = VOk
    (if pick_tag (txt "v") (sort text_le (keyword_tags refs)) is Some r
     then Versions r (Some (strip (kw_full w))) (Some false) None d
     else Versions (txt "0+unknown") (Some (strip (kw_full w))) (Some false)
            (Some (txt "no suitable tags")) None).
Proof.
move=> hd hx refs; rewrite /get_versions /git_versions_from_keywords /get_keywords.
lazy beta iota zeta delta [Ver.refnames Ver.full Ver.date]; have [l ->] := last_line_ok hd.
exists (Some (iso_date l)); rewrite /vbind (negbTE hx) -/refs.
rewrite /tag_prefix.
by case: (pick_tag _ _).
Qed.

Theorem C62_smallest_tag (w : world) :
  kw_date w <> [::] -> expanded w ->
  (forall v, version_tag w v -> (forall u, version_tag w u -> text_le v u) ->
     exists d, get_versions w = VOk (Versions v (Some (strip (kw_full w))) (Some false) None d)) /\
  ((forall v, ~ version_tag w v) ->
     get_versions w = VOk (Versions (txt "0+unknown") (Some (strip (kw_full w))) (Some false)
                            (Some (txt "no suitable tags")) None)) /\
  ((exists v, version_tag w v) -> exists v, version_tag w v /\ forall u, version_tag w u -> text_le v u).
Proof.
move=> hd hx; have [d] := archive_version hd hx; set refs := undup _ => ->.
have [h1 h2] := pick_tagP (txt "v") (keyword_tags refs).
have kt t : t \in keyword_tags refs <-> taken_as_tag w t.
  by apply: keyword_tagsP => r; apply: refs_listed.
case e: (pick_tag _ _) h1 h2 => [r|] h1 h2.
  have [g1 g2 g3] := h1 _ erefl.
  have vr : version_tag w r by split=> //; apply/kt.
  have mr u : version_tag w u -> text_le r u by case=> /kt a b; apply: g3.
  split; last by split=> [/(_ r)//|_]; exists r.
  move=> v hv mv; exists d; congr (VOk (Versions _ _ _ _ _)).
  by apply: text_le_anti; rewrite mv // mr.
have none v : ~ version_tag w v by case=> /kt a b; apply: h2 a b.
by split=> [v /none //|]; split=> // -[v /none].
Qed.

(** The order and the repetition of the refs do not matter. *)
Theorem C62_order_irrelevant (w w' : world) :
  kw_date w' = kw_date w -> kw_full w' = kw_full w ->
  expanded w -> expanded w' -> (forall r, listed w r <-> listed w' r) ->
  get_versions w = get_versions w'.
Proof.
move=> ed ef hx hx' hl.
case: (kw_date w =P [::]) => hd; first by rewrite !keywords_no_date // ed.
have hd' : kw_date w' <> [::] by rewrite ed.
rewrite /get_versions /git_versions_from_keywords /get_keywords.
lazy beta iota zeta delta [Ver.refnames Ver.full Ver.date].
rewrite ed ef; have [l ->] := last_line_ok hd.
rewrite [vbind (VOk l) _]/vbind [vbind (VOk (Some _)) _]/vbind [vbind (VOk (Some _)) _]/vbind.
rewrite (negbTE hx) (negbTE hx').
set r1 := undup _; set r2 := undup [seq strip r | r <- split _ (strip_of _ (strip (kw_refnames w')))].
suff -> : pick_tag tag_prefix (sort text_le (keyword_tags r1)) = pick_tag tag_prefix (sort text_le (keyword_tags r2)).
  by case: (pick_tag _ _).
have [h1 h2] := pick_tagP (txt "v") (keyword_tags r1).
have [k1 k2] := pick_tagP (txt "v") (keyword_tags r2).
have same t : t \in keyword_tags r1 <-> t \in keyword_tags r2.
  have a : t \in keyword_tags r1 <-> taken_as_tag w t by apply: keyword_tagsP => r; apply: refs_listed.
  have b : t \in keyword_tags r2 <-> taken_as_tag w t.
    by apply: keyword_tagsP => r; apply: iff_trans (refs_listed _ _) _; split=> /hl.
  by split=> [/a /b|/b /a].
rewrite /tag_prefix.
case: (pick_tag (txt "v") (sort text_le (keyword_tags r1))) h1 h2 => [u|] h1 h2;
  case: (pick_tag (txt "v") (sort text_le (keyword_tags r2))) k1 k2 => [v|] k1 k2 //.
- have [a1 a2 a3] := h1 _ erefl; have [b1 b2 b3] := k1 _ erefl; congr Some.
  by apply: text_le_anti; rewrite a3 ?b3 //; apply/same.
- by have [a1 a2 a3] := h1 _ erefl; case: (k2 erefl u) => //; apply/same.
- by have [b1 b2 b3] := k1 _ erefl; case: (h2 erefl v) => //; apply/same.
Qed.

(** ** C63: reading the description back *)
Theorem C63_description_unique (d : text) dirty tag num hex dirty' tag' num' hex' :
  reads_as d dirty tag num hex -> reads_as d dirty' tag' num' hex' ->
  [/\ dirty = dirty', tag = tag', num = num' & hex = hex'].
Proof. exact: reads_as_unique. Qed.

Theorem C63_describe_long (w : world) (root head : text) (dirty : bool) (tag hex o : text) (n : nat) :
  tag <> [::] -> one_line tag -> abbrev hex ->
  checkout w root (marked dirty (described_as (txt "v" ++ tag) (dec n) hex)) head ->
  git_prints w root ask_date o -> strip o <> [::] ->
  exists p v, [/\ git_pieces_from_vcs tag_prefix (run_command (popen w root) (gits w)) = VOk p,
    render p (txt "git-describe-long") = VOk v &
    txt "v" ++ version v = marked dirty (described_as (txt "v" ++ tag) (dec n) hex)].
Proof.
move=> ne ol hh ck po so; have [l hl] := last_line_ok so.
have ra : reads_as (marked dirty (described_as (txt "v" ++ tag) (dec n) hex)) dirty (txt "v" ++ tag) (dec n) hex.
  split; first by left.
  split=> //; first by case/andP: ol => _ h; rewrite /one_line mem_cat h.
  by rewrite /number dec_digits andbT; apply/eqP; apply: dec_nonnil.
have [br e] := tagged_pieces ck ra po hl.
exists (Pieces head hex br dirty (Some tag) (digits_value (dec n)) (iso_date l)).
eexists; split; [exact: e|by []|].
rewrite digits_value_dec [version _]/(render_git_describe_long hex dirty (Some tag) n).
rewrite /render_git_describe_long /described_as; case: tag ne {ol ck ra e} => // c t _.
by case: dirty; rewrite /marked /when /real_tag -!catA ?cats0.
Qed.

(** ** C64: the styles *)
Theorem C64_unknown_style long short branch dirty tag dist d sty :
  sty \notin styles -> render (Pieces long short branch dirty tag dist d) sty = VRaise VValueError.
Proof.
rewrite /styles !inE !negb_or => /andP[/negbTE n1] /andP[/negbTE n2] /andP[/negbTE n3] /andP[/negbTE n4].
case/andP=> /negbTE n5 /andP[/negbTE n6] /andP[/negbTE n7] /andP[/negbTE n8] /andP[/negbTE n9] /negbTE n10.
by rewrite /render n1 n2 n3 n4 n5 n6 n7 n8 n9 n10.
Qed.

Theorem C64_known_style p sty : sty \in styles -> sty <> txt "pep440-pre" -> exists v, render p sty = VOk v.
Proof.
case: p => [l e|l s b dirty tag dist d]; first by move=> _ _; eexists.
rewrite /styles !inE.
do 4 (case/orP=> [/eqP -> _|]; first by eexists).
case/orP=> [/eqP -> //|].
by do 4 (case/orP=> [/eqP -> _|]; first by eexists); move/eqP=> -> _; eexists.
Qed.

(** On a tag and clean, the version is the tag, in every style but the long description. *)
Theorem C64_release long short branch tag d sty :
  tag <> [::] -> sty \in styles -> sty <> txt "git-describe-long" ->
  render (Pieces long short branch false (Some tag) 0 d) sty =
    VOk (Versions tag (Some long) (Some false) None (Some d)).
Proof.
case: tag => // c t _; rewrite /styles !inE.
have e u : u = c :: t -> VOk (Versions u (Some long) (Some false) None (Some d)) =
    VOk (Versions (c :: t) (Some long) (Some false) None (Some d)) by move=> ->.
do 9 (case/orP=> [/eqP -> _|]; first by
  apply: e; rewrite /render_pep440 /render_pep440_branch /render_pep440_post
    /render_pep440_post_branch /render_pep440_old /render_git_describe /real_tag /when ?cats0).
by move/eqP ->.
Qed.

(** Only the two branch styles look at the branch. *)
Theorem C64_branch long short branch branch' dirty tag dist d sty :
  sty <> txt "pep440-branch" -> sty <> txt "pep440-post-branch" ->
  render (Pieces long short branch dirty tag dist d) sty =
  render (Pieces long short branch' dirty tag dist d) sty.
Proof. by move=> /eqP/negbTE n1 /eqP/negbTE n2; rewrite /render n1 n2. Qed.

(** The branch these styles look at: the one HEAD is on; on a detached HEAD, master
    if it contains the commit, else the first branch git lists, if any.  [names] are
    the branches git lists, two blanks before each, after a line about HEAD. *)
Definition listing (about : text) (names : seq text) : text :=
  txt "* (" ++ about ++ flatten [seq 10 :: txt "  " ++ b | b <- names].

Lemma split_listing c a (ls : seq text) : c \notin a -> all (fun l => c \notin l) ls ->
  split c (a ++ flatten [seq c :: l | l <- ls]) = a :: ls.
Proof.
elim: ls a => [|l ls IH] a Ha /=.
  by move=> _; rewrite cats0; elim: a Ha => [|x a IHa] //=; rewrite inE negb_or eq_sym => /andP [/negbTE -> /IHa ->].
case/andP => Hl Hls; elim: a Ha => [|x a IHa] /=; first by rewrite eqxx IH.
by rewrite inE negb_or eq_sym => /andP [/negbTE -> /IHa ->].
Qed.

Theorem C64_which_branch prefix git raw long short branch dirty tag dist d :
  git_pieces_from_vcs prefix git = VOk (Pieces long short branch dirty tag dist d) ->
  (git [:: txt "rev-parse"; txt "--abbrev-ref"; txt "HEAD"]).1 = Some raw ->
  (strip raw <> txt "HEAD" -> branch = Some (strip raw)) /\
  (strip raw = txt "HEAD" -> forall about names,
     (git [:: txt "branch"; txt "--contains"]).1 = Some (listing about names) ->
     10 \notin about -> all (fun b => 10 \notin b) names ->
     [/\ txt "master" \in names -> branch = Some (txt "master"),
         txt "master" \notin names -> forall b bs, names = b :: bs -> branch = Some b &
         names = [::] -> branch = None]).
Proof.
rewrite /git_pieces_from_vcs; case: ifP => // _.
case: (git _).1 => // o1; case: (git [:: txt "rev-parse"; txt "HEAD"]).1 => // o2 H E; move: H; rewrite E.
case: ifP => // _; rewrite /vbind; case Eb: (if _ == _ then _ else _) => [br|] //.
case: (if _ \in _ then _ else _) => [[[[[t n] h]|] e]|] //.
case: (git _).1 => // dd; case: (last_line _) => // l [_ _ <- _ _ _ _]; split=> H.
  by move: Eb; case: eqP => // _ [].
move=> about names E5 Ha Hn; move: Eb; rewrite H eqxx E5; case: ifP => // _ [<-].
have -> : pick_branch (listing about names) =
    if txt "master" \in names then Some (txt "master") else ohead names.
  rewrite /pick_branch /listing catA [flatten _](_ : _ = flatten [seq 10 :: l | l <- [seq txt "  " ++ b | b <- names]]); last first.
    by rewrite -map_comp.
  rewrite split_listing.
  - have -> : chr "(" \in head [::] ((txt "* (" ++ about) :: [seq txt "  " ++ b | b <- names]) by [].
    rewrite [behead _]/= -map_comp (eq_map (f2 := id)) ?map_id // => b /=; by rewrite drop0.
  - by rewrite mem_cat negb_or Ha andbT.
  by rewrite all_map; apply: sub_all Hn => b /= Hb; rewrite !inE.
split=> [->|/negbTE -> b bs ->|->] //.
Qed.

(** In the pep440 styles a version has one plus more than its tag only if the tag has none. *)
Theorem C64_one_plus long short branch dirty tag dist d sty v :
  sty \in styles -> chr "+" \notin short ->
  render (Pieces long short branch dirty (Some tag) dist d) sty = VOk v ->
  count_mem (chr "+") (version v) <= maxn 1 (count_mem (chr "+") tag).
Proof.
move=> hst hsh.
have hs : count_mem (chr "+") short = 0 by apply/count_memPn.
have ok r : VOk (Versions r (Some long) (Some dirty) None (Some d)) = VOk v -> version v = r.
  by case=> <-.
move: hst; rewrite /styles !inE.
do 3 (case/orP=> [/eqP ->|]; first by move/ok=> ->; apply: one_plus_pep440).
case/orP=> [/eqP ->|]; first by move/ok=> ->; apply: one_plus_branch.
case/orP=> [/eqP ->|].
  have -> : render (Pieces long short branch dirty (Some tag) dist d) (txt "pep440-pre") =
    vdo r <- render_pep440_pre (Some tag) dist;
    VOk (Versions r (Some long) (Some dirty) None (Some d)) by [].
  by case e: (render_pep440_pre _ _) => [r|//] /ok ->; apply: one_plus_pre e.
case/orP=> [/eqP ->|]; first by move/ok=> ->; apply: one_plus_post.
case/orP=> [/eqP ->|]; first by move/ok=> ->; apply: one_plus_post_branch.
case/orP=> [/eqP ->|]; first by move/ok=> ->; apply: one_plus_old.
case/orP=> [/eqP ->|]; first by move/ok=> ->; apply: one_plus_describe.
by move/eqP=> -> /ok ->; apply: one_plus_long.
Qed.

(** After TAG.postK, the next development release is TAG.post(K+1).devN. *)
Theorem C64_pre_post long short branch dirty a k dist d :
  ~~ infix (txt ".post") a -> dist <> 0 ->
  render (Pieces long short branch dirty (Some (a ++ txt ".post" ++ dec k)) dist d) (txt "pep440-pre") =
    VOk (Versions (a ++ txt ".post" ++ dec k.+1 ++ txt ".dev" ++ dec dist) (Some long) (Some dirty) None (Some d)).
Proof.
move=> ha /eqP hd.
have -> : render (Pieces long short branch dirty (Some (a ++ txt ".post" ++ dec k)) dist d) (txt "pep440-pre") =
    vdo r <- render_pep440_pre (Some (a ++ txt ".post" ++ dec k)) dist;
    VOk (Versions r (Some long) (Some dirty) None (Some d)) by [].
suff -> : render_pep440_pre (Some (a ++ txt ".post" ++ dec k)) dist =
    VOk (a ++ txt ".post" ++ dec k.+1 ++ txt ".dev" ++ dec dist) by [].
rewrite /render_pep440_pre.
have -> : real_tag (Some (a ++ txt ".post" ++ dec k)) = Some (a ++ txt ".post" ++ dec k) by case: (a).
rewrite hd /pep440_split_post.
have -> : split_sub (txt ".post") (a ++ txt ".post" ++ dec k) = [:: a; dec k].
  by rewrite postE /split_sub split_post //; apply: digit_not (dec_digits k).
rewrite int_of_dec; case e: (dec k) (@dec_nonnil k) => [//|c s] _.
lazy beta iota zeta delta [vbind decZ fst snd].
have -> : (Z.of_nat k + 1 <? 0)%Z = false by apply/Z.ltb_ge; lia.
by have -> : Z.to_nat (Z.of_nat k + 1) = k.+1 by lia.
Qed.

(** int() takes a sign: after TAG.post-K comes TAG.post(1-K).devN. *)
Theorem C64_pre_post_negative long short branch dirty a k dist d :
  ~~ infix (txt ".post") a -> dist <> 0 ->
  render (Pieces long short branch dirty (Some (a ++ txt ".post" ++ txt "-" ++ dec k)) dist d) (txt "pep440-pre") =
    VOk (Versions (a ++ txt ".post" ++
      (match k with 0 => txt "1" | 1 => txt "0" | j.+1 => txt "-" ++ dec j end) ++
      txt ".dev" ++ dec dist) (Some long) (Some dirty) None (Some d)).
Proof.
move=> ha /eqP hd; set b := txt "-" ++ dec k.
have -> : render (Pieces long short branch dirty (Some (a ++ txt ".post" ++ b)) dist d) (txt "pep440-pre") =
    vdo r <- render_pep440_pre (Some (a ++ txt ".post" ++ b)) dist;
    VOk (Versions r (Some long) (Some dirty) None (Some d)) by [].
suff -> : render_pep440_pre (Some (a ++ txt ".post" ++ b)) dist =
    VOk (a ++ txt ".post" ++ (match k with 0 => txt "1" | 1 => txt "0" | j.+1 => txt "-" ++ dec j end) ++ txt ".dev" ++ dec dist) by [].
rewrite /render_pep440_pre.
have -> : real_tag (Some (a ++ txt ".post" ++ b)) = Some (a ++ txt ".post" ++ b) by case: (a).
rewrite hd /pep440_split_post.
have -> : split_sub (txt ".post") (a ++ txt ".post" ++ b) = [:: a; b].
  rewrite postE /split_sub split_post // /b mem_cat negb_or /=; apply: digit_not (dec_digits k).
  by [].
have -> : int_of b = Some (- Z.of_nat k)%Z.
  have nsp c : is_digit c -> ~~ is_space c.
    rewrite /is_digit /is_space => /andP[h1 h2].
    by do 58 (case: c h1 h2 => [|c] h1 h2 //).
  have hl x : ~~ is_space (last x (dec k)).
    case/lastP: (dec k) (@dec_nonnil k) (dec_digits k) => // t c _.
    by rewrite all_rcons last_rcons => /andP [/nsp].
  rewrite /int_of.
  have -> : strip b = chr "-" :: dec k.
    by rewrite /strip strip_of_id //; apply/orP; left; exact: hl.
  have -> : (match chr "-" :: dec k with 45 :: u => (true, u) | 43 :: u => (false, u) | _ => (false, chr "-" :: dec k) end) = (true, dec k) by [].
  have hu : chr "_" \notin dec k by apply: digit_not (dec_digits k).
  rewrite split_one //= dec_digits andbT; case: eqP => [/dec_nonnil|_] //.
  by rewrite cats0 digits_value_dec.
have -> : b = chr "-" :: dec k by []; lazy beta iota zeta delta [vbind fst snd].
case: k {b} => [|[|k]] //; rewrite /decZ.
have -> : (- Z.of_nat k.+2 + 1 <? 0)%Z by apply/Z.ltb_lt; lia.
by have -> : Z.to_nat (- (- Z.of_nat k.+2 + 1)) = k.+1 by lia.
Qed.

(** ** C65: different builds have different versions *)
Lemma version_of_inj tag n hex dirty n' hex' dirty' :
  abbrev hex -> abbrev hex' ->
  version_of tag n hex dirty = version_of tag n' hex' dirty' ->
  [/\ n = n', dirty = dirty' & (n != 0) || dirty -> hex = hex'].
Proof.
move=> hh hh'; rewrite /version_of.
case h1: ((n == 0) && ~~ dirty); case h2: ((n' == 0) && ~~ dirty').
- by case/andP: h1 => /eqP -> /negbTE ->; case/andP: h2 => /eqP -> /negbTE ->.
- by move/(congr1 size)/eqP; rewrite !size_cat /local_part; case: ifP => _;
    rewrite -[X in X == _]addn0 eqn_add2l.
- by move/(congr1 size)/eqP; rewrite !size_cat /local_part; case: ifP => _;
    rewrite -[X in _ == X]addn0 eqn_add2l.
move=> e; have {e} := congr1 (drop (size (tag ++ (if chr "+" \in tag then txt "." else txt "+")))) e.
by rewrite ![tag ++ _ ++ _]catA !drop_prefix => /(local_part_inj hh hh') [-> -> ->].
Qed.

Lemma version_of_tags tag n hex dirty tag' n' hex' dirty' :
  chr "+" \notin tag -> chr "+" \notin tag' -> abbrev hex -> abbrev hex' ->
  version_of tag n hex dirty = version_of tag' n' hex' dirty' ->
  [/\ tag = tag', n = n', dirty = dirty' & (n != 0) || dirty -> hex = hex'].
Proof.
move=> ht ht' hh hh' e.
suff et : tag = tag'.
  have e' : version_of tag n hex dirty = version_of tag n' hex' dirty' by rewrite e et.
  by have [? ? ?] := version_of_inj hh hh' e'; split.
move: e; rewrite /version_of (negbTE ht) (negbTE ht').
case: ifP => _; case: ifP => _ //.
- by move=> e; move: ht; rewrite e mem_cat inE eqxx orbT.
- by move=> e; move: ht'; rewrite -e mem_cat inE eqxx orbT.
by case/(cut_first ht ht').
Qed.

(** A tagged checkout with nothing in the way, as in C61. *)
Definition tagged_checkout (w : world) (tag num hex : text) (dirty : bool) : Prop :=
  exists root head o,
    [/\ source_root w root, kw_date w <> [::], ~~ expanded w,
        [/\ tag <> [::], one_line tag, number num & abbrev hex] &
        [/\ checkout w root (marked dirty (described_as (txt "v" ++ tag) num hex)) head,
            git_prints w root ask_date o & strip o <> [::]]].

Lemma tagged_version w tag num hex dirty v : tagged_checkout w tag num hex dirty -> get_versions w = VOk v ->
  version v = version_of tag (digits_value num) hex dirty.
Proof.
move=> [root [head [o [sr hd hx [ne ol hn hh] [ck po so]]]]].
have [d E] := C61_tagged sr hd hx ne ol hn hh ck po so.
by rewrite E => h; have <- := vok_inj h.
Qed.

Theorem C65_builds_differ (w w' : world) tag num hex dirty num' hex' dirty' v v' :
  tagged_checkout w tag num hex dirty -> tagged_checkout w' tag num' hex' dirty' ->
  get_versions w = VOk v -> get_versions w' = VOk v' -> version v = version v' ->
  [/\ digits_value num = digits_value num', dirty = dirty' & (digits_value num != 0) || dirty -> hex = hex'].
Proof.
move=> h h' e e'; rewrite (tagged_version h e) (tagged_version h' e').
case: h h' => [root [head [o [_ _ _ [_ _ _ hh] _]]]] [root' [head' [o' [_ _ _ [_ _ _ hh'] _]]]].
exact: version_of_inj.
Qed.

Theorem C65_tags_differ (w w' : world) tag num hex dirty tag' num' hex' dirty' v v' :
  chr "+" \notin tag -> chr "+" \notin tag' ->
  tagged_checkout w tag num hex dirty -> tagged_checkout w' tag' num' hex' dirty' ->
  get_versions w = VOk v -> get_versions w' = VOk v' -> version v = version v' ->
  [/\ tag = tag', digits_value num = digits_value num', dirty = dirty' &
      (digits_value num != 0) || dirty -> hex = hex'].
Proof.
move=> ht ht' h h' e e'; rewrite (tagged_version h e) (tagged_version h' e').
case: h h' => [root [head [o [_ _ _ [_ _ _ hh] _]]]] [root' [head' [o' [_ _ _ [_ _ _ hh'] _]]]].
exact: version_of_tags.
Qed.
