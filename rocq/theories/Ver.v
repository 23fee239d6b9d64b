(** * Ver: src/kalmankit/_version.py and the version in src/kalmankit/__init__.py

    git_get_keywords (:166-192) is in VerKw.v.  Not modelled: messages printed
    when cfg.verbose is set (it is not), UnicodeDecodeError
    for output that is not UTF-8 (a process's output is text here), the win32
    start-up options.  __init__.py calls get_versions twice; the world is the
    same both times here. *)
From Coq Require Import ZArith String Ascii.
From mathcomp Require Import ssreflect ssrfun ssrbool eqtype ssrnat seq path.
From Verif Require Import Text.

Set Implicit Arguments.
Unset Strict Implicit.
Unset Printing Implicit Defensive.

Inductive vexn := NotThisMethod | VValueError | VAttributeError | VIndexError | VKeyError.
Inductive vres (T : Type) := VOk (x : T) | VRaise (e : vexn).
Arguments VRaise {T}.
Definition vbind S T (m : vres S) (f : S -> vres T) : vres T :=
  match m with VOk x => f x | VRaise e => VRaise e end.
Notation "'vdo' x <- m ; f" := (vbind m (fun x => f))
  (at level 200, x name, m at level 100, f at level 200).

(** What subprocess.Popen and communicate do: OSError with errno ENOENT, another
    OSError, or output and return code. *)
Inductive started := NoEntry | OtherError | Ran (stdout : text) (rc : Z).

(** The dictionary of get_keywords: a key may be missing in general. *)
Record keywords := Keywords { refnames : option text; full : option text; date : option text }.

(** What get_versions sees: the keyword strings in the file (:28-30), the real
    path of __file__ if there is one, the platform, and the programs that can
    be run in a directory (with GIT_DIR removed from the environment, :284-289). *)
Record world := World {
  kw_refnames : text; kw_full : text; kw_date : text;
  realfile : option text;
  win32 : bool;
  popen : text -> seq text -> started
}.

(** The dictionary returned (version, full-revisionid, dirty, error, date). *)
Record versions := Versions {
  version : text; revision : option text; vdirty : option bool;
  verror : option text; vdate : option text
}.

(** _version.py:46-57 *)
Definition tag_prefix := txt "v".
Definition parentdir_prefix := txt "kalmankit-".
Definition style := txt "pep440".
Definition versionfile_source := txt "src/kalmankit/_version.py".

(** _version.py:22-32 *)
Definition get_keywords (w : world) : keywords :=
  Keywords (Some (kw_refnames w)) (Some (kw_full w)) (Some (kw_date w)).

(** _version.py:81-130 run_command: (stdout or None, return code or None) *)
Fixpoint run_command (start : seq text -> started) (commands args : seq text)
    : option text * option Z :=
  match commands with
  | [::] => (None, None)
  | c :: cs =>
    match start (c :: args) with
    | NoEntry => run_command start cs args
    | OtherError => (None, None)
    | Ran out rc => if (rc =? 0)%Z then (Some (bstrip out), Some rc) else (None, Some rc)
    end
  end.

(** _version.py:133-164 versions_from_parentdir *)
Fixpoint parentdir_from (n : nat) (prefix_ root : text) : vres versions :=
  match n with
  | 0 => VRaise NotThisMethod
  | k.+1 =>
    let d := basename root in
    if prefix prefix_ d then VOk (Versions (drop (size prefix_) d) None (Some false) None None)
    else parentdir_from k prefix_ (dirname root)
  end.
Definition versions_from_parentdir (prefix_ root : text) := parentdir_from 3 prefix_ root.

(** _version.py:204-216, 409-416: last line, first blank to T, second removed *)
Definition iso_date (d : text) : text :=
  replace1 (chr " ") [::] (replace1 (chr " ") (txt "T") (strip d)).
Definition last_line (d : text) : vres text :=
  if splitlines d is l :: ls then VOk (last l ls) else VRaise VIndexError.

(** _version.py:195-267 git_versions_from_keywords *)
Definition keyword_tags (refs : seq text) : seq text :=
  let tagged := undup [seq drop 5 r | r <- refs & prefix (txt "tag: ") r] in
  if tagged is [::] then [seq r <- refs | has is_digit r] else tagged.
Definition starts_with_digit (r : text) : bool := if r is c :: _ then is_digit c else false.
Fixpoint pick_tag (prefix_ : text) (tags : seq text) : option text :=
  match tags with
  | [::] => None
  | t :: ts =>
    if prefix prefix_ t && starts_with_digit (drop (size prefix_) t) then Some (drop (size prefix_) t)
    else pick_tag prefix_ ts
  end.
Definition git_versions_from_keywords (kw : keywords) (prefix_ : text) : vres versions :=
  match refnames kw with
  | None => VRaise NotThisMethod
  | Some rn =>
    vdo d <- (match date kw with
              | None => VOk None
              | Some d => vdo l <- last_line d; VOk (Some (iso_date l))
              end);
    let rn' := strip rn in
    if prefix (txt "$Format") rn' then VRaise NotThisMethod
    else
      let refs := undup [seq strip r | r <- split (chr ",") (strip_of (mem (txt "()")) rn')] in
      let tags := sort text_le (keyword_tags refs) in
      match pick_tag prefix_ tags, full kw with
      | _, None => VRaise VKeyError
      | Some r, Some f => VOk (Versions r (Some (strip f)) (Some false) None d)
      | None, Some f =>
        VOk (Versions (txt "0+unknown") (Some (strip f)) (Some false) (Some (txt "no suitable tags")) None)
      end
  end.

(** re.search(r"^(.+)-(\d+)-g([0-9a-f]+)$", s).groups(), see [describe_matchP]
    in VerLemmas for the declarative reading.  [rsplit1 c s] splits at the last
    occurrence of [c]. *)
Definition rsplit1 (c : nat) (s : text) : option (text * text) :=
  let i := index c (rev s) in
  if i < size s then Some (take (size s - i.+1) s, drop (size s - i) s) else None.
Definition describe_groups (s : text) : option (text * text * text) :=
  if rsplit1 (chr "-") s is Some (l, r) then
    if r is g :: h then
      if [&& g == chr "g", h != [::] & all is_hex h] then
        if rsplit1 (chr "-") l is Some (t, n) then
          if [&& n != [::], all is_digit n, t != [::] & 10 \notin t] then Some (t, n, h) else None
        else None
      else None
    else None
  else None.
(** $ also matches before a newline at the end *)
Definition describe_match (s : text) : option (text * text * text) :=
  if describe_groups s is Some m then Some m
  else if rev s is 10 :: s' then describe_groups (rev s') else None.

(** The dictionary pieces (:323-418).  With an error only long, short, branch,
    dirty and error are there, of which render reads error and long. *)
Inductive pieces :=
| Failed (long error : text)
| Pieces (long short : text) (branch : option text) (dirty : bool) (closest_tag : option text)
         (distance : nat) (date : text).

(** _version.py:344-358: the branch when HEAD is detached *)
Definition pick_branch (out : text) : option text :=
  let bs := split 10 out in
  let bs := if chr "(" \in head [::] bs then behead bs else bs in
  let bs := [seq drop 2 b | b <- bs] in
  if txt "master" \in bs then Some (txt "master") else ohead bs.

(** _version.py:270-418 git_pieces_from_vcs.  [git args] is runner(GITS, args, cwd=root). *)
Definition git_pieces_from_vcs (prefix_ : text) (git : seq text -> option text * option Z)
    : vres pieces :=
  let rc0 (r : option text * option Z) := if r.2 is Some z then (z =? 0)%Z else false in
  if ~~ rc0 (git [:: txt "rev-parse"; txt "--git-dir"]) then VRaise NotThisMethod        (* :291-297 *)
  else
  match (git [:: txt "describe"; txt "--tags"; txt "--dirty"; txt "--always"; txt "--long";
                 txt "--match"; prefix_ ++ txt "[[:digit:]]*"]).1 with
  | None => VRaise NotThisMethod                                                          (* :315-316 *)
  | Some describe_raw =>
    let describe_out := strip describe_raw in
    match (git [:: txt "rev-parse"; txt "HEAD"]).1 with
    | None => VRaise NotThisMethod                                                        (* :319-320 *)
    | Some full_raw =>
      let full_out := strip full_raw in
      let rb := git [:: txt "rev-parse"; txt "--abbrev-ref"; txt "HEAD"] in
      match rb.1 with
      | None => VRaise NotThisMethod
      | Some b_raw =>
        if ~~ rc0 rb then VRaise NotThisMethod                                            (* :332-333 *)
        else
        vdo branch <- (if strip b_raw == txt "HEAD" then
                         let rbs := git [:: txt "branch"; txt "--contains"] in
                         match rbs.1 with
                         | None => VRaise NotThisMethod
                         | Some bs => if ~~ rc0 rbs then VRaise NotThisMethod
                                      else VOk (pick_branch bs)
                         end
                       else VOk (Some (strip b_raw)));                                    (* :336-360 *)
        let dirty := suffix (txt "-dirty") describe_out in
        (* rindex finds the suffix itself *)
        let git_describe := if dirty then take (size describe_out - 6) describe_out else describe_out in
        let parsed : vres (option (option text * nat * text) * text) :=
          if chr "-" \in git_describe then
            match describe_match git_describe with
            | None => VOk (None, txt "unable to parse git-describe output: '" ++ describe_out ++ txt "'")
            | Some (tag, num, hex) =>
              if ~~ prefix prefix_ tag then
                VOk (None, txt "tag '" ++ tag ++ txt "' doesn't start with prefix '" ++ prefix_ ++ txt "'")
              else VOk (Some (Some (drop (size prefix_) tag), digits_value num, hex), [::])
            end
          else
            match (git [:: txt "rev-list"; txt "HEAD"; txt "--left-right"]).1 with
            | None => VRaise VAttributeError                                              (* :406-407 *)
            | Some out => VOk (Some (None, words out, take 7 full_out), [::])
            end in
        vdo p <- parsed;
        match p with
        | (None, err) => VOk (Failed full_out err)
        | (Some (tag, dist, short), _) =>
          match (git [:: txt "show"; txt "-s"; txt "--format=%ci"; txt "HEAD"]).1 with
          | None => VRaise VAttributeError                                                (* :410-412 *)
          | Some d =>
            vdo l <- last_line (strip d);
            VOk (Pieces full_out short branch dirty tag dist (iso_date l))
          end
        end
      end
    end
  end.

(** _version.py:421-425 *)
Definition plus_or_dot (tag : text) : text := if chr "+" \in tag then txt "." else txt "+".

(** [Some tag] if closest-tag is true in Python's sense. *)
Definition real_tag (t : option text) : option text :=
  match t with Some [::] | None => None | Some t => Some t end.
Definition when (b : bool) (s : text) : text := if b then s else [::].
Definition not_master (b : option text) : bool := b != Some (txt "master").

(** _version.py:428-449 *)
Definition render_pep440 short dirty tag dist : text :=
  match real_tag tag with
  | Some t =>
    t ++ when ((dist != 0) || dirty)
           (plus_or_dot t ++ dec dist ++ txt ".g" ++ short ++ when dirty (txt ".dirty"))
  | None => txt "0+untagged." ++ dec dist ++ txt ".g" ++ short ++ when dirty (txt ".dirty")
  end.

(** _version.py:452-478 *)
Definition render_pep440_branch short branch dirty tag dist : text :=
  match real_tag tag with
  | Some t =>
    t ++ when ((dist != 0) || dirty)
           (when (not_master branch) (txt ".dev0") ++ plus_or_dot t ++ dec dist ++ txt ".g" ++ short ++
            when dirty (txt ".dirty"))
  | None => txt "0" ++ when (not_master branch) (txt ".dev0") ++ txt "+untagged." ++ dec dist ++
            txt ".g" ++ short ++ when dirty (txt ".dirty")
  end.

(** _version.py:481-488 *)
Definition pep440_split_post (ver : text) : vres (text * option Z) :=
  match split_sub (txt ".post") ver with
  | [:: a; b] =>
    if b is [::] then VOk (a, Some 0%Z)
    else match int_of b with Some z => VOk (a, Some z) | None => VRaise VValueError end
  | vc => VOk (head [::] vc, None)
  end.

(** _version.py:491-517 *)
Definition render_pep440_pre tag dist : vres text :=
  match real_tag tag with
  | Some t =>
    if dist != 0 then
      vdo sp <- pep440_split_post t;
      VOk (sp.1 ++ match sp.2 with
                   | Some p => txt ".post" ++ decZ (p + 1) ++ txt ".dev" ++ dec dist
                   | None => txt ".post0.dev" ++ dec dist
                   end)
    else VOk t
  | None => VOk (txt "0.post0.dev" ++ dec dist)
  end.

(** _version.py:520-544 *)
Definition render_pep440_post short dirty tag dist : text :=
  match real_tag tag with
  | Some t =>
    t ++ when ((dist != 0) || dirty)
           (txt ".post" ++ dec dist ++ when dirty (txt ".dev0") ++ plus_or_dot t ++ txt "g" ++ short)
  | None => txt "0.post" ++ dec dist ++ when dirty (txt ".dev0") ++ txt "+g" ++ short
  end.

(** _version.py:547-573 *)
Definition render_pep440_post_branch short branch dirty tag dist : text :=
  match real_tag tag with
  | Some t =>
    t ++ when ((dist != 0) || dirty)
           (txt ".post" ++ dec dist ++ when (not_master branch) (txt ".dev0") ++ plus_or_dot t ++
            txt "g" ++ short ++ when dirty (txt ".dirty"))
  | None => txt "0.post" ++ dec dist ++ when (not_master branch) (txt ".dev0") ++ txt "+g" ++ short ++
            when dirty (txt ".dirty")
  end.

(** _version.py:576-595 *)
Definition render_pep440_old dirty tag dist : text :=
  match real_tag tag with
  | Some t => t ++ when ((dist != 0) || dirty) (txt ".post" ++ dec dist ++ when dirty (txt ".dev0"))
  | None => txt "0.post" ++ dec dist ++ when dirty (txt ".dev0")
  end.

(** _version.py:598-615 *)
Definition render_git_describe short dirty tag dist : text :=
  match real_tag tag with
  | Some t => t ++ when (dist != 0) (txt "-" ++ dec dist ++ txt "-g" ++ short)
  | None => short
  end ++ when dirty (txt "-dirty").

(** _version.py:618-635 *)
Definition render_git_describe_long short dirty tag dist : text :=
  match real_tag tag with
  | Some t => t ++ txt "-" ++ dec dist ++ txt "-g" ++ short
  | None => short
  end ++ when dirty (txt "-dirty").

(** _version.py:638-677 render *)
Definition render (p : pieces) (sty : text) : vres versions :=
  match p with
  | Failed long err => VOk (Versions (txt "unknown") (Some long) None (Some err) None)
  | Pieces long short branch dirty tag dist d =>
    vdo r <- (if [|| sty == [::], sty == txt "default" | sty == txt "pep440"] then
                VOk (render_pep440 short dirty tag dist)
              else if sty == txt "pep440-branch" then VOk (render_pep440_branch short branch dirty tag dist)
              else if sty == txt "pep440-pre" then render_pep440_pre tag dist
              else if sty == txt "pep440-post" then VOk (render_pep440_post short dirty tag dist)
              else if sty == txt "pep440-post-branch" then
                VOk (render_pep440_post_branch short branch dirty tag dist)
              else if sty == txt "pep440-old" then VOk (render_pep440_old dirty tag dist)
              else if sty == txt "git-describe" then VOk (render_git_describe short dirty tag dist)
              else if sty == txt "git-describe-long" then VOk (render_git_describe_long short dirty tag dist)
              else VRaise VValueError);
    VOk (Versions r (Some long) (Some dirty) None (Some d))
  end.

(** _version.py:280-282 *)
Definition gits (w : world) : seq text :=
  if win32 w then [:: txt "git.cmd"; txt "git.exe"] else [:: txt "git"].

(** try: ... except NotThisMethod: pass *)
Definition or_else T (m : vres T) (k : vres T) : vres T :=
  match m with VRaise NotThisMethod => k | _ => m end.

(** _version.py:680-731 get_versions *)
Definition get_versions (w : world) : vres versions :=
  or_else (git_versions_from_keywords (get_keywords w) tag_prefix)
    match realfile w with
    | None => VOk (Versions (txt "0+unknown") None None
                     (Some (txt "unable to find root of source tree")) None)
    | Some f =>
      let root := iter (size (split (chr "/") versionfile_source)) dirname f in
      let git args := run_command (popen w root) (gits w) args in
      or_else (vdo p <- git_pieces_from_vcs tag_prefix git; render p style)
        (or_else (versions_from_parentdir parentdir_prefix root)
           (VOk (Versions (txt "0+unknown") None None (Some (txt "unable to compute version")) None)))
    end.

(** __init__.py:10-13: kalmankit.__version__ *)
Definition package_version (w : world) : vres text :=
  vdo v <- get_versions w; VOk (version v).
