(** * VerSpec: the vocabulary of the statements about the package version

    Nothing here is used by the model (Ver.v). *)
From Coq Require Import ZArith String Ascii.
From mathcomp Require Import ssreflect ssrfun ssrbool eqtype ssrnat seq path.
From Verif Require Import Text Ver.

Set Implicit Arguments.
Unset Strict Implicit.
Unset Printing Implicit Defensive.

(** The directory three levels above the file: where src/kalmankit/_version.py starts. *)
Definition source_root (w : world) (root : text) : Prop :=
  exists f, realfile w = Some f /\ root = dirname (dirname (dirname f)).

(** Running git with these arguments in [root] prints [out] and succeeds.  On
    Windows git.exe is tried when there is no git.cmd. *)
Definition git_prints (w : world) (root : text) (args : seq text) (out : text) : Prop :=
  if win32 w then
    popen w root (txt "git.cmd" :: args) = Ran out 0 \/
    (popen w root (txt "git.cmd" :: args) = NoEntry /\ popen w root (txt "git.exe" :: args) = Ran out 0)
  else popen w root (txt "git" :: args) = Ran out 0.
Definition git_fails w root args : Prop := forall out, ~ git_prints w root args out.
Definition git_works w root args : Prop := exists out, git_prints w root args out.

(** The questions asked. *)
Definition ask_gitdir := [:: txt "rev-parse"; txt "--git-dir"].
Definition ask_describe := [:: txt "describe"; txt "--tags"; txt "--dirty"; txt "--always";
                               txt "--long"; txt "--match"; txt "v[[:digit:]]*"].
Definition ask_head := [:: txt "rev-parse"; txt "HEAD"].
Definition ask_branch := [:: txt "rev-parse"; txt "--abbrev-ref"; txt "HEAD"].
Definition ask_branches := [:: txt "branch"; txt "--contains"].
Definition ask_commits := [:: txt "rev-list"; txt "HEAD"; txt "--left-right"].
Definition ask_date := [:: txt "show"; txt "-s"; txt "--format=%ci"; txt "HEAD"].

(** The keywords in the file have been filled in by git archive. *)
Definition expanded (w : world) : bool := ~~ prefix (txt "$Format") (strip (kw_refnames w)).

(** git answers what a checkout must answer: where it is, describe, HEAD, the
    branch (and the branches if HEAD is detached). *)
Definition checkout (w : world) (root described head : text) : Prop :=
  [/\ git_works w root ask_gitdir,
      exists2 o, git_prints w root ask_describe o & strip o = described,
      exists2 o, git_prints w root ask_head o & strip o = head
    & exists2 o, git_prints w root ask_branch o &
        (strip o = txt "HEAD" -> git_works w root ask_branches)].

(** What git describe prints: TAG-N-gHEX, with -dirty after it if so. *)
Definition marked (dirty : bool) (s : text) : text := if dirty then s ++ txt "-dirty" else s.
Definition abbrev (h : text) : bool := (h != [::]) && all is_hex h.
Definition number (n : text) : bool := (n != [::]) && all is_digit n.
Definition one_line (s : text) : bool := (s != [::]) && (10 \notin s).
Definition described_as (tag num hex : text) : text := tag ++ txt "-" ++ num ++ txt "-g" ++ hex.

(** The refs listed in a git archive: comma-separated, possibly in parentheses. *)
Definition listed (w : world) (r : text) : Prop :=
  exists2 p, p \in split (chr ",") (strip_of (mem (txt "()")) (strip (kw_refnames w))) & r = strip p.
(** The names taken to be tags: those marked "tag: ", or, if none is, those with a digit. *)
Definition taken_as_tag (w : world) (t : text) : Prop :=
  listed w (txt "tag: " ++ t) \/
  ((forall t', ~ listed w (txt "tag: " ++ t')) /\ listed w t /\ has is_digit t).
(** A version tag: v, then a digit. *)
Definition version_tag (w : world) (v : text) : Prop :=
  taken_as_tag w (txt "v" ++ v) /\ starts_with_digit v.

(** How a description is read.  (git's own output never has the newline.) *)
Definition reads_as (described : text) (dirty : bool) (tag num hex : text) : Prop :=
  (described = marked dirty (described_as tag num hex) \/
   described = marked dirty (described_as tag num hex ++ [:: 10])) /\
  [/\ one_line tag, number num & abbrev hex].
Definition names_v_tag (described : text) : Prop :=
  exists dirty tag num hex, reads_as described dirty (txt "v" ++ tag) num hex.
Definition names_no_tag (described : text) : Prop :=
  exists dirty plain, described = marked dirty plain /\ chr "-" \notin plain.

(** pep440: TAG[+N.gHEX[.dirty]], with a dot for the plus if TAG has one *)
Definition local_part (n : nat) (hex : text) (dirty : bool) : text :=
  dec n ++ txt ".g" ++ hex ++ (if dirty then txt ".dirty" else [::]).
Definition version_of (tag : text) (n : nat) (hex : text) (dirty : bool) : text :=
  if (n == 0) && ~~ dirty then tag
  else tag ++ (if chr "+" \in tag then txt "." else txt "+") ++ local_part n hex dirty.
Definition untagged_version (n : nat) (hex : text) (dirty : bool) : text :=
  txt "0+untagged." ++ local_part n hex dirty.

(** A non-empty text without white space or line breaks. *)
Definition word (s : text) : bool := (s != [::]) && ~~ has (fun c => is_space c || is_break c) s.

(** The styles of the documentation; the empty one is the default. *)
Definition styles : seq text :=
  [:: [::]; txt "default"; txt "pep440"; txt "pep440-branch"; txt "pep440-pre"; txt "pep440-post";
      txt "pep440-post-branch"; txt "pep440-old"; txt "git-describe"; txt "git-describe-long"].
