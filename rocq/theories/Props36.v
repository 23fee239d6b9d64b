(** * Props36: C104, C105: releases carry the version they were made from *)
From Coq Require Import ZArith String Ascii Lia.
From mathcomp Require Import ssreflect ssrfun ssrbool eqtype ssrnat seq path div.
From Verif Require Import Text TextLemmas Ver VerSpec VerLemmas VerCases VerKw Props26 Release ReleaseLemmas ReleaseLemmas2 ReleaseLemmas3 ReleaseLemmas4.

Set Implicit Arguments.
Unset Strict Implicit.
Unset Printing Implicit Defensive.

(** ** Specification *)
(** The dictionary holds these values under their keys, and no other keys. *)
Definition says (d : dict) (v : versions) : Prop :=
  let value (o : option text) := if o is Some s then JStr s else JNull in
  [/\ get d (txt "version") = Some (JStr (version v)),
      get d (txt "full-revisionid") = Some (value (revision v)) /\ get d (txt "date") = Some (value (vdate v)),
      get d (txt "dirty") = Some (if vdirty v is Some b then JBool b else JNull),
      get d (txt "error") = Some (value (verror v)) &
      forall k, k \notin [:: txt "version"; txt "full-revisionid"; txt "dirty"; txt "error"; txt "date"] -> get d k = None].
(** Something holds of every text in a version dictionary. *)
Definition every_text (P : text -> Prop) (v : versions) : Prop :=
  P (version v) /\ forall s, revision v = Some s \/ verror v = Some s \/ vdate v = Some s -> P s.
(** Unicode: code points below 0x110000 except the surrogates 0xd800-0xdfff. *)
Definition unicode (c : nat) : bool := (c < 17 * 64 * 1024) && ~~ (54 * 1024 <= c < 56 * 1024).
(** Texts that a Python literal between triple apostrophes carries unharmed in
    JSON: no control character, quotation mark (34) or backslash (92), nothing
    beyond U+FFFF, no three apostrophes in a row. *)
Definition carried (s : text) : Prop :=
  all (fun c => [&& 32 <= c, c < 64 * 1024, c != 34 & c != 92]) s /\ (forall a b, s <> a ++ txt "'''" ++ b).

(** _version.py as generated from the version dictionary v. *)
Definition generated (v : versions) (t : tree) : Prop :=
  exists2 stored, t_file t = Some stored & universal stored = version_file (dict_of v).

(** ** Lemmas *)
Definition sorted_of (v : versions) : dict :=
  [:: (txt "date", jopt (vdate v)); (txt "dirty", if vdirty v is Some b then JBool b else JNull);
      (txt "error", jopt (verror v)); (txt "full-revisionid", jopt (revision v)); (txt "version", JStr (version v))].
Lemma sort_dict v : sort byk (dict_of v) = sorted_of v. Proof. by vm_compute. Qed.
Lemma sort_sorted v : sort byk (sorted_of v) = sorted_of v. Proof. by vm_compute. Qed.

Lemma says_sorted v : says (sorted_of v) v.
Proof.
split; [exact: erefl|by split|exact: erefl|exact: erefl|].
move=> k; rewrite !inE !negb_or => /and5P [H1 H2 H3 H4 H5]; rewrite /get /sorted_of; cbn [foldl fst snd].
by rewrite !(eq_sym _ k) (negbTE H1) (negbTE H2) (negbTE H3) (negbTE H4) (negbTE H5).
Qed.
Lemma says_dict v : says (dict_of v) v.
Proof.
split; [exact: erefl|by split|exact: erefl|exact: erefl|].
move=> k; rewrite !inE !negb_or => /and5P [H1 H2 H3 H4 H5]; rewrite /get /dict_of; cbn [foldl fst snd].
by rewrite !(eq_sym _ k) (negbTE H1) (negbTE H2) (negbTE H3) (negbTE H4) (negbTE H5).
Qed.
Lemma version_sorted v : version_in (sorted_of v) = VOk (version v). Proof. exact: erefl. Qed.

Lemma unicode_ok c : unicode c -> charok c.
Proof.
rewrite /unicode /charok => /andP [H1 H2]; have e : 17 * 64 = 64 + 1024 by vm_compute.
have N a : 54 <= a < 56 -> c %/ 1024 <> a.
  move=> /andP [Ha1 Ha2] E; move/negP: H2; apply; have := divn_eq c 1024; have := lt1024 c; rewrite E.
  move: (c %% 1024) => r; move: 1024 => K Hr ->; apply/andP; split.
    by apply: leq_trans (leq_addr _ _); rewrite leq_mul2r Ha1 orbT.
  apply: (@leq_trans (a.+1 * K)); first by rewrite mulSn addnC ltn_add2r.
  by rewrite leq_mul2r Ha2 orbT.
by rewrite ltn_divLR // -e H1 /=; apply/andP; split; apply/eqP; apply: N.
Qed.


Lemma every_ok v : every_text (fun s => all unicode s) v -> okdict charok (sorted_of v).
Proof.
have A s : all unicode s -> all charok s by apply: sub_all => c; exact: unicode_ok.
have O o : (forall s, o = Some s -> all unicode s) -> okval charok (jopt o) by case: o => [s|] //= /(_ s erefl) /A.
case=> H1 H2; rewrite /okdict /sorted_of; cbn [all fst snd].
rewrite (_ : okval charok (JStr (version v)) = true); last exact: A.
rewrite (O (vdate v)); last by move=> s E; apply: H2; right; right.
rewrite (O (verror v)); last by move=> s E; apply: H2; right; left.
rewrite (O (revision v)); last by move=> s E; apply: H2; left.
rewrite (_ : okval _ _ = true); last by case: (vdirty v) => [].
by vm_compute.
Qed.

Lemma carried_safe s : carried s -> safe_text s.
Proof.
case=> H N; split=> //; apply: sub_all H => c /and4P [h1 h2 h3 h4]; apply/and4P; split=> //.
by rewrite ltn_divLR.
Qed.
Lemma every_safe v : every_text carried v -> safe_dict (sorted_of v).
Proof.
have O o : (forall s, o = Some s -> carried s) -> safe_val (jopt o) by case: o => [s|] //= /(_ s erefl) /carried_safe.
have K k : all safec k -> 39 \notin k -> safe_text k.
  by move=> H N; split=> // a b E; move: N; rewrite E !mem_cat (_ : 39 \in txt _ = true) ?orbT.
have Kc k : all safec k && (39 \notin k) -> safe_text k by case/andP => *; exact: K.
case=> H1 H2; apply: And3; [by apply: Kc; vm_compute|by apply: O => s E; apply: H2; right; right|].
apply: And3; [by apply: Kc; vm_compute|by case: (vdirty v)|].
apply: And3; [by apply: Kc; vm_compute|by apply: O => s E; apply: H2; right; left|].
apply: And3; [by apply: Kc; vm_compute|by apply: O => s E; apply: H2; left|].
by apply: And3; [by apply: Kc; vm_compute|exact: carried_safe|].
Qed.
Lemma carried_unicode v : every_text carried v -> okdict rawok (sorted_of v).
Proof. by move=> /every_safe; exact: safe_okdict. Qed.

Lemma dict0 v : dict_of v <> [::]. Proof. by []. Qed.
Lemma dict_ok v : every_text (fun s => all unicode s) v -> okdict charok (dict_of v).
Proof. by move=> /every_ok; rewrite -sort_dict okdict_sort. Qed.
Lemma file_sorted v : version_file (sorted_of v) = version_file (dict_of v).
Proof. by rewrite /version_file /json_dumps -sort_dict; congr (_ ++ _ ++ (_ ++ json_items _ ++ _) ++ _); rewrite sort_dict sort_sorted. Qed.

Lemma find_firstP p s r : find_first p s = Some r <->
  exists2 a, s = a ++ p ++ r & forall a' b', size a' < size a -> s <> a' ++ p ++ b'.
Proof.
elim: s r => [|c s IH] r.
  case: p => [|x p]; last by split=> // -[a E _]; case: a E.
  split=> [[<-]|[a E _]]; first by exists [::].
  by case: a r E => [|y a] [|z r].
rewrite (_ : find_first p (c :: s) = if prefix p (c :: s) then Some (drop (size p) (c :: s)) else find_first p s); last by [].
case: ifP => [/prefixP [q E]|N].
  rewrite E drop_size_cat //; split=> [[<-]|[a Ea M]]; first by exists [::].
  case: a Ea M => [|x a] Ea M; last by case: (M [::] q).
  by move/(congr1 (drop (size p))): Ea; rewrite cat0s !drop_size_cat // => ->.
rewrite IH; split=> -[a Ea M].
  exists (c :: a); first by rewrite Ea.
  move=> [|x a'] b' /= Ha; last by case=> _; exact: M.
  by move=> E; rewrite E prefix_prefix in N.
case: a Ea M => [|x a] Ea M; first by rewrite Ea cat0s prefix_prefix in N.
case: Ea => _ Ea; exists a => // a' b' Ha E; apply: (M (c :: a') b') => //.
by rewrite E.
Qed.

Lemma find_lastP p s g : p <> [::] -> find_last p s = Some g <->
  exists2 b, s = g ++ p ++ b & forall g' b', size g < size g' -> s <> g' ++ p ++ b'.
Proof.
move=> p0; elim: s g => [|c s IH] g.
  split=> [|[b E _]]; first by case: (p) p0.
  by move/(congr1 size): E; rewrite !size_cat; case: (p) p0 => //= x y _; rewrite addSn addnS.
rewrite (_ : find_last p (c :: s) = if find_last p s is Some h then Some (c :: h) else if prefix p (c :: s) then Some [::] else None); last by [].
case F : (find_last p s) => [h|].
  have [b Eb M] := (IH h).1 F; split=> [[<-]|[b' E' M']].
    exists b; first by rewrite Eb.
    by move=> [|x g'] b' //=; rewrite ltnS => Hg [_]; exact: M.
  case: g E' M' => [|x g] E' M'; first by case: (M' (c :: h) b) => //; rewrite Eb.
  case: E' => -> E'; suff -> : h = g by [].
  have [k|k|k] := ltngtP (size h) (size g).
  - by case: (M g b').
  - by case: (M' (c :: h) b) => //=; rewrite Eb.
  by move/(congr1 (take (size h))): Eb; rewrite E' {1}k !take_size_cat.
have N h b' : s <> h ++ p ++ b'.
  move=> E; have [n] := ubnP (size s - size h); elim: n h b' E => // n IHn h b' E Hn.
  have := (IH h).2; rewrite F => X.
  have : ~ (forall g' b'', size h < size g' -> s <> g' ++ p ++ b'') by move=> Y; have := X (ex_intro2 _ _ b' E Y).
  apply=> g' b'' Hg E'; apply: (IHn g' b'' E'); rewrite ltnS in Hn; apply: leq_trans Hn.
  by apply: ltn_sub2l => //; rewrite E' size_cat ltn_addr.
case: ifP => [/prefixP [q E]|NP].
  split=> [[<-]|[b Eb M]]; last by case: g Eb M => [|x g] // [_ /N].
  exists q; first by rewrite E.
  by move=> [|x g'] b' //= _ [_]; exact: N.
split=> // -[b Eb M]; case: g Eb M => [|x g] Eb M; last by case: Eb => _ /N.
by rewrite Eb cat0s prefix_prefix in NP.
Qed.

(** ** C104 *)
(** The regular expression of versions_from_file: the first opening, the last
    closing after it. *)
Theorem C104_regular_expression open_ t g : open_ <> [::] -> version_search open_ t = Some g <->
  exists a b, [/\ t = a ++ open_ ++ g ++ txt "'''  # END VERSION_JSON" ++ b,
    forall a' b', size a' < size a -> t <> a' ++ open_ ++ b' &
    forall g' b', size g < size g' -> t <> a ++ open_ ++ g' ++ txt "'''  # END VERSION_JSON" ++ b'].
Proof.
move=> o0; rewrite /version_search; have c0 : closing <> [::] by [].
split.
  case F : (find_first open_ t) => [r|] // /(find_lastP _ _ c0) [b Er M2].
  have [a Et M1] := (find_firstP _ _ _).1 F; exists a, b; split=> //; first by rewrite Et Er.
  move=> g' b' Hg E; apply: (M2 g' b' Hg); move: E; rewrite Et.
  by move/(congr1 (drop (size a))); rewrite !drop_size_cat // => /(congr1 (drop (size open_))); rewrite !drop_size_cat.
case=> a [b [Et M1 M2]].
have -> : find_first open_ t = Some (g ++ closing ++ b) by apply/find_firstP; exists a.
apply/find_lastP => //; exists b => // g' b' Hg E; apply: (M2 g' b' Hg).
by rewrite Et E.
Qed.

Lemma run_head X : iter 8 statement (Some (Namespace false None false, short_head ++ X)) = Some (Namespace true None false, X).
Proof. by vm_compute. Qed.
Lemma run_assign m J r X : literal (drop (size assign_json) (assign_json ++ X)) = Some (J, txt "  # END VERSION_JSON" ++ r) ->
  statement (Some (m, assign_json ++ X)) = Some (Namespace (n_json m) (Some J) (n_get m), after_line r).
Proof.
move=> L; rewrite /statement; set s := assign_json ++ X in L *.
have -> : s = 118 :: behead s by [].
rewrite -[118 :: behead s]/s L (_ : prefix import_json s = false) // (_ : prefix assign_json s = true); last exact: prefix_prefix.
by [].
Qed.
Lemma run_tail m : iter 3 statement (Some (m, after_line short_tail)) = Some (Namespace (n_json m) (n_text m) true, [::]).
Proof. by vm_compute. Qed.
Lemma iter1 (T : Type) (f : T -> T) x : iter 1 f x = f x. Proof. by []. Qed.
Lemma iter_done n m : iter n statement (Some (m, [::])) = Some (m, [::]).
Proof. by elim: n => //= n ->. Qed.
Lemma from_raw stored d : universal stored = version_file d -> okdict charok d -> d <> [::] ->
  versions_from_file (Some stored) = versions_from_file (Some (version_file d)) /\
  git_get_keywords (Some stored) = git_get_keywords (Some (version_file d)).
Proof. by move=> U H d0; rewrite /versions_from_file /git_get_keywords U file_universal. Qed.

(** What setup.py reads from a generated file is what was written into it. *)
Theorem C104_read_back v stored : universal stored = version_file (dict_of v) -> every_text (fun s => all unicode s) v ->
  exists2 d, versions_from_file (Some stored) = VOk d & says d v.
Proof.
move=> U H; rewrite (from_raw U (dict_ok H) (@dict0 v)).1.
exists (sorted_of v); last exact: says_sorted.
by rewrite read_file ?sort_dict //; exact: dict_ok.
Qed.

(** Importing the generated file gives what was written into it. *)
Theorem C104_imported v stored : universal stored = version_file (dict_of v) -> every_text carried v ->
  exists2 d, import_short stored = Defines d & says d v.
Proof.
move=> U H; exists (sorted_of v); last exact: says_sorted.
rewrite /import_short U; set rest := txt "  # END VERSION_JSON" ++ short_tail.
have E : version_file (dict_of v) = short_head ++ assign_json ++ [:: 10] ++ txt "{" ++ items_with json_char (sorted_of v) ++ [:: 10] ++ txt "}" ++ [:: 10] ++ txt "'''" ++ rest.
  rewrite /version_file dumpsE // sort_dict /rest /opening /nline /closing /assign_json.
  by rewrite (_ : txt "'''  # END VERSION_JSON" = txt "'''" ++ txt "  # END VERSION_JSON") // -!catA.
rewrite E; set X := _ ++ [:: 10] ++ txt "{" ++ _.
have L : literal (drop (size assign_json) X) = Some ([:: 10] ++ txt "{" ++ items_with raw (sorted_of v) ++ [:: 10] ++ txt "}" ++ [:: 10], rest).
  rewrite /X drop_size_cat //.
  rewrite literal_txt // literal_txt // literal_items; last exact: every_safe.
  rewrite (@literal_txt [:: 10]) // (@literal_txt (txt "}")) // (@literal_txt [:: 10]) // literal_end.
have Hs : 12 <= size (short_head ++ X) by rewrite size_cat (leq_trans _ (leq_addr _ _)).
rewrite -(subnK Hs) iterD (iterD 4 8) run_head.
rewrite (iterD 3 1) iter1 (run_assign _ L) run_tail iter_done; cbv beta iota.
by cbn [n_json n_text n_get]; rewrite (loads_with raw_reads) //; exact: carried_unicode.
Qed.

(** Whatever git and the directories say: a tree with a generated _version.py (an
    unpacked sdist) has the version it was made from, and packing it again gives
    the same file. *)
Theorem C104_rebuilt t v : generated v t -> every_text (fun s => all unicode s) v ->
  [/\ setup_version t = VOk (version v), packed_file t = VOk (version_file (dict_of v)) &
      exists2 d, setup_versions t = VOk d & says d v].
Proof.
case=> stored Ef U H; have [Ev Ek] := from_raw U (dict_ok H) (@dict0 v).
have E : setup_versions t = VOk (sorted_of v).
  rewrite /setup_versions Ef Ev Ek file_keywords //; last exact: dict_ok.
  by rewrite read_file ?sort_dict //; exact: dict_ok.
by rewrite /setup_version /packed_file E /= file_sorted; split=> //; exists (sorted_of v) => //; exact: says_sorted.
Qed.

(** Any number of times, on any machines. *)
Theorem C104_any_number_of_times v (ts : seq tree) : every_text (fun s => all unicode s) v ->
  let f := version_file (dict_of v) in
  let repack (r : vres text) (t : tree) := vdo g <- r; packed_file (Tree (t_root t) (Some g) (t_win32 t) (t_popen t)) in
  foldl repack (VOk f) ts = VOk f.
Proof.
move=> H f repack; elim: ts => [|t ts IH] //.
rewrite [foldl _ _ _]/= /repack /=.
have G : generated v (Tree (t_root t) (Some f) (t_win32 t) (t_popen t)).
  by exists f => //; rewrite /f file_universal //; exact: dict_ok.
by have [_ -> _] := C104_rebuilt G H.
Qed.

(** ** C105: in a source tree setup.py and the package agree *)
(** A source tree and the package imported from it: same programs, same file. *)
Definition in_place (t : tree) (w : world) (file : text) : Prop :=
  [/\ source_root w (t_root t), t_file t = Some file, t_win32 t = win32 w, t_popen t = popen w &
      [/\ assigned file (txt "git_refnames") (kw_refnames w), assigned file (txt "git_full") (kw_full w) &
          assigned file (txt "git_date") (kw_date w)]].
(** The file was not generated by a build. *)
Definition not_generated (file : text) : Prop := forall a b, universal file <> a ++ txt "version_json = '''" ++ [:: 10] ++ b.

Lemma universal_no13 s : 13 \notin universal s.
Proof.
have [n] := ubnP (size s); elim: n s => // n IH [|c s] //= Hn.
case: eqP => [_|/eqP Hc]; last by rewrite inE negb_or eq_sym Hc /= IH.
rewrite inE /=; case: s Hn => [|d s] //= Hn.
have [->|Hd] := eqVneq d 10; first by rewrite IH // ltnW.
suff -> : (match d with 10 => universal s | _ => if d == 13 then 10 :: match s with | 10 :: s'' => universal s'' | _ => universal s end else d :: universal s end) = universal (d :: s) by apply: IH.
by move: d Hd {Hn}; do 11! [case=> //].
Qed.

Lemma search_none o t : (forall a b, t <> a ++ o ++ b) -> version_search o t = None.
Proof.
move=> H; rewrite /version_search; case F : (find_first o t) => [r|] //.
by have [a E _] := (find_firstP _ _ _).1 F; case: (H a r).
Qed.

Lemma file_not_generated file : not_generated file -> versions_from_file (Some file) = VRaise NotThisMethod.
Proof.
move=> H; rewrite /versions_from_file search_none; last by move=> a b E; apply: (H a b); rewrite E /opening /nline -!catA.
rewrite search_none // => a b E; have := universal_no13 file; rewrite E !mem_cat.
by rewrite (_ : 13 \in [:: 13; 10] = true) ?orbT.
Qed.

Lemma setup_is_import t w file : in_place t w file -> not_generated file ->
  setup_versions t = (match get_versions w with VOk v => VOk (dict_of v) | VRaise e => VRaise e end) /\
  setup_version t = package_version w.
Proof.
case=> [[f [Ef Er]] Et Ew Ep [A1 A2 A3]] Hn.
have E : setup_versions t = (match get_versions w with VOk v => VOk (dict_of v) | VRaise e => VRaise e end).
  rewrite /setup_versions /get_versions Et (C92_reading_is_importing A1 A2 A3).1 file_not_generated // Ef Ew Ep /gits.
  rewrite (_ : iter (size (split (chr "/") versionfile_source)) dirname f = t_root t); last by rewrite Er.
  case: (git_versions_from_keywords _ _) => [v|[]] //=.
  case: (git_pieces_from_vcs _ _) => [p|[]] //=.
    by case: (render p style) => [v|[]] //=; case: (versions_from_parentdir _ _) => [v|[]].
  by case: (versions_from_parentdir _ _) => [v|[]].
by split=> //; rewrite /setup_version /package_version E; case: (get_versions w).
Qed.

Theorem C105_setup_is_import t w file : in_place t w file -> not_generated file ->
  (match get_versions w with
   | VOk v => exists2 d, setup_versions t = VOk d & says d v
   | VRaise e => setup_versions t = VRaise e
   end) /\
  setup_version t = package_version w.
Proof.
move=> H1 H2; have [E ->] := setup_is_import H1 H2; split=> //; rewrite E.
by case: (get_versions w) => // v; exists (dict_of v) => //; exact: says_dict.
Qed.


(** What is built from a source tree, once installed anywhere, reports the version
    that the source tree reports when imported in place; so does the metadata. *)
Theorem C105_installed t w file v : in_place t w file -> not_generated file -> get_versions w = VOk v ->
  every_text (fun s => all unicode s) v -> every_text carried v ->
  exists f d, [/\ packed_file t = VOk f, import_short f = Defines d, says d v,
                  version_in d = VOk (version v) & setup_version t = VOk (version v)].
Proof.
move=> H1 H2 Ev U Hv; have [E Es] := setup_is_import H1 H2; rewrite Ev in E.
have [d Ed Sd] := C104_imported (file_universal (@dict0 v) (dict_ok U)) Hv; exists (version_file (dict_of v)), d; split=> //.
- by rewrite /packed_file E.
- by case: Sd => S1 _ _ _ _; rewrite /version_in S1.
by rewrite Es /package_version Ev.
Qed.

(** ** Cases *)
(** A checkout three commits after v0.5.1 with changes (VerCases): the lines of
    _version.py that matter, what is packed, and what the installed package says. *)
Definition source_file : text :=
  nline "def get_keywords() -> Dict[str, str]:" ++
  txt "    git_refnames = " ++ [:: 34] ++ txt "$Format:%d$" ++ [:: 34; 10] ++
  txt "    git_full = " ++ [:: 34] ++ txt "$Format:%H$" ++ [:: 34; 10] ++
  txt "    git_date = " ++ [:: 34] ++ txt "$Format:%ci$" ++ [:: 34; 10] ++
  nline "    return keywords".
Definition a_tree (w : world) : tree := Tree (txt "/home/u/kalmankit") (Some source_file) false (popen w).

Lemma a_tree_in_place d b date c : in_place (a_tree (a_checkout d b date c)) (a_checkout d b date c) source_file.
Proof.
split; [by exists the_file|exact: erefl|exact: erefl|exact: erefl|split].
- apply: (@assigned_at _ 1); [by []|by []| |by vm_compute|by vm_compute].
  by exists (txt "    "), (txt " "), [:: 10]; split; vm_compute.
- apply: (@assigned_at _ 2); [by []|by []| |by vm_compute|by vm_compute].
  by exists (txt "    "), (txt " "), [:: 10]; split; vm_compute.
apply: (@assigned_at _ 3); [by []|by []| |by vm_compute|by vm_compute].
by exists (txt "    "), (txt " "), [:: 10]; split; vm_compute.
Qed.
Lemma source_not_generated : not_generated source_file.
Proof.
move=> a b E; have : find_first (txt "version_json = '''" ++ [:: 10]) (universal source_file) = None by vm_compute.
rewrite E; elim: a {E} => [|c a IH]; last by rewrite cat_cons /=; case: ifP.
by rewrite cat0s catA; move: (_ ++ [:: 10]) => p; case: (p ++ b) (prefix_prefix p b) => [|x y] /= ->.
Qed.

Definition installed (t : tree) : vres imported := vdo f <- packed_file t; VOk (import_short f).
Definition reported (r : vres imported) : option text :=
  if r is VOk (Defines d) then if version_in d is VOk s then Some s else None else None.
Example C105_case :
  [/\ in_place (a_tree w_dirty) w_dirty source_file, not_generated source_file,
      package_version w_dirty = VOk (txt "0.5.1+3.g9a3b1c7.dirty") &
      reported (installed (a_tree w_dirty)) = Some (txt "0.5.1+3.g9a3b1c7.dirty")].
Proof. by split; [exact: a_tree_in_place|exact: source_not_generated|vm_compute|vm_compute]. Qed.

(** Packing that again inside another repository: C104_rebuilt, on a tree it is about. *)
Definition v_dirty : versions :=
  Versions (txt "0.5.1+3.g9a3b1c7.dirty") (Some (txt head_rev)) (Some true) None (Some (txt "2024-01-02T03:04:05+0100")).
Definition sdist_elsewhere : tree :=
  Tree (txt "/tmp/kalmankit-9.9") (Some (version_file (dict_of v_dirty))) false (popen (a_checkout "v7.0-0-gabc" "main" some_date (Ran [::] 1))).
Example C104_case :
  [/\ generated v_dirty sdist_elsewhere, every_text (fun s => all unicode s) v_dirty, every_text carried v_dirty,
      setup_version (Tree (txt "/tmp/kalmankit-9.9") None false (t_popen sdist_elsewhere)) = VOk (txt "7.0") &
      setup_version sdist_elsewhere = VOk (txt "0.5.1+3.g9a3b1c7.dirty")].
Proof.
have N s : all (fun c => [&& 32 <= c, c != 34, c != 92 & c < 127]) s && (39 \notin s) -> carried s /\ all unicode s.
  case/andP => H N; have L c : c < 127 -> c < 64 * 1024.
    by move=> Hc; apply: (leq_trans Hc); rewrite -[64]/(1 + 63) mulnDl mul1n; apply: leq_trans (leq_addr _ _).
  split; last first.
    apply: sub_all H => c /and4P [_ _ _ Hc]; apply/andP; split.
      apply: (leq_trans (L c Hc)); rewrite -mulnA; exact: leq_pmull.
    rewrite negb_and -ltnNge (leq_trans Hc) //; rewrite -[54]/(1 + 53) mulnDl mul1n; exact: leq_trans (leq_addr _ _).
  split; first by apply: sub_all H => c /and4P [? ? ? /L ?]; apply/and4P.
  by move=> a b E; move: N; rewrite E !mem_cat (_ : 39 \in txt _ = true) ?orbT.
have T (P : text -> Prop) : (forall s, carried s /\ all unicode s -> P s) -> every_text P v_dirty.
  move=> H; split; first by apply: H; apply: N; vm_compute.
  by move=> s [[<-]|[//|[<-]]]; apply: H; apply: N; vm_compute.
have U : every_text (fun s => all unicode s) v_dirty by apply: T => s [].
split; [|exact: U|by apply: T => s []|by vm_compute|by vm_compute].
by exists (version_file (dict_of v_dirty)); [exact: erefl|exact: file_universal (@dict0 v_dirty) (dict_ok U)].
Qed.

(** The limits are real: a tag with a quotation mark (git allows it) gives a
    version that setup.py can build and read back, but the installed package
    cannot be imported; a character beyond U+FFFF does not come back either. *)
Definition quoted_tag : world :=
  World (txt "$Format:%d$") (txt "$Format:%H$") (txt "$Format:%ci$") (Some the_file) false
    (fun d args => if args == txt "git" :: ask_describe then Ran (txt "v1" ++ [:: 34] ++ txt "0-0-g9a3b1c7") 0
                   else some_git "" "main" some_date NoEntry d args).
Example C104_quotation_mark_breaks_the_package :
  [/\ package_version quoted_tag = VOk (txt "1" ++ [:: 34] ++ txt "0"),
      setup_version (a_tree quoted_tag) = VOk (txt "1" ++ [:: 34] ++ txt "0") &
      installed (a_tree quoted_tag) = VOk NotJson].
Proof. by split; vm_compute. Qed.

(** The file as text mode writes it on Windows: lines end with CR LF. *)
Definition crlf (t : text) : text := flatten [seq if c == 10 then [:: 13; 10] else [:: c] | c <- t].
Example C104_case_crlf :
  [/\ universal (crlf (version_file (dict_of v_dirty))) = version_file (dict_of v_dirty),
      crlf (version_file (dict_of v_dirty)) <> version_file (dict_of v_dirty) &
      setup_version (Tree (txt "/tmp/kalmankit-9.9") (Some (crlf (version_file (dict_of v_dirty)))) true (t_popen sdist_elsewhere)) =
      VOk (txt "0.5.1+3.g9a3b1c7.dirty")].
Proof. by split; [vm_compute|move/(congr1 size); vm_compute|vm_compute]. Qed.
