(** * VerCases: concrete worlds that meet the hypotheses of C59-C65, and what the model computes for them *)
From Coq Require Import ZArith String Ascii.
From mathcomp Require Import ssreflect ssrfun ssrbool eqtype ssrnat seq path.
From Verif Require Import Text TextLemmas Ver VerSpec VerLemmas Props12.

Set Implicit Arguments.
Unset Strict Implicit.
Unset Printing Implicit Defensive.

Local Open Scope string_scope.
Definition nl (s : string) : text := (txt s ++ [:: 10])%SEQ.
Definition the_file := txt "/home/u/kalmankit/src/kalmankit/_version.py".
Definition head_rev := "9a3b1c7d5e8f00112233445566778899aabbccdd".

(** git in a repository; [describe], [date] and [branch] are what it prints *)
Definition some_git (describe branch : string) (date commits : started) (_ : text) (args : seq text) : started :=
  if args == txt "git" :: ask_gitdir then Ran (nl ".git") 0
  else if args == txt "git" :: ask_describe then Ran (nl describe) 0
  else if args == txt "git" :: ask_head then Ran (nl head_rev) 0
  else if args == txt "git" :: ask_branch then Ran (nl branch) 0
  else if args == txt "git" :: ask_branches then Ran (nl "* (HEAD detached at 9a3b1c7)") 0
  else if args == txt "git" :: ask_commits then commits
  else if args == txt "git" :: ask_date then date
  else Ran [::] 128.
Definition some_date := Ran (nl "2024-01-02 03:04:05 +0100") 0.
Definition a_checkout describe branch date commits :=
  World (txt "$Format:%d$") (txt "$Format:%H$") (txt "$Format:%ci$") (Some the_file) false
    (some_git describe branch date commits).
Definition an_archive refs :=
  World (txt refs) (txt head_rev) (txt "2024-01-02 03:04:05 +0100") (Some the_file) false
    (fun _ _ => NoEntry).
Definition no_git file :=
  World (txt "$Format:%d$") (txt "$Format:%H$") (txt "$Format:%ci$") (Some (txt file)) false
    (fun _ _ => NoEntry).

Example case_root : source_root (a_checkout "" "" NoEntry NoEntry) (txt "/home/u/kalmankit").
Proof. by exists the_file. Qed.

Lemma case_checkout describe branch date commits d : strip (nl describe) = d ->
  checkout (a_checkout describe branch date commits) (txt "/home/u/kalmankit") d (txt head_rev).
Proof.
move=> hd; split.
- exists (nl ".git"); exact: erefl.
- exists (nl describe); [exact: erefl|exact: hd].
- exists (nl head_rev); [exact: erefl|by vm_compute].
- exists (nl branch); first exact: erefl.
  by move=> _; exists (nl "* (HEAD detached at 9a3b1c7)"); exact: erefl.
Qed.

(** C61: three commits after v0.5.1, with changes *)
Definition w_dirty := a_checkout "v0.5.1-3-g9a3b1c7-dirty" "main" some_date (Ran [::] 1).
Example case_tagged :
  exists d, get_versions w_dirty =
    VOk (Versions (txt "0.5.1+3.g9a3b1c7.dirty") (Some (txt head_rev)) (Some true) None (Some d)).
Proof.
have -> : txt "0.5.1+3.g9a3b1c7.dirty" =
    version_of (txt "0.5.1") (digits_value (txt "3")) (txt "9a3b1c7") true by vm_compute.
have sr : source_root w_dirty (txt "/home/u/kalmankit") by exists the_file.
have ck : checkout w_dirty (txt "/home/u/kalmankit")
    (marked true (described_as (txt "v" ++ txt "0.5.1")%SEQ (txt "3") (txt "9a3b1c7"))) (txt head_rev).
  by apply: case_checkout; vm_compute.
have pd : git_prints w_dirty (txt "/home/u/kalmankit") ask_date (nl "2024-01-02 03:04:05 +0100").
  exact: erefl.
by apply: (C61_tagged sr _ _ _ _ _ _ ck pd); vm_compute.
Qed.
Example case_tagged_date : (* the model, evaluated *)
  get_versions w_dirty =
    VOk (Versions (txt "0.5.1+3.g9a3b1c7.dirty") (Some (txt head_rev)) (Some true) None
          (Some (txt "2024-01-02T03:04:05+0100"))).
Proof. by vm_compute. Qed.
Example case_date_words : word (txt "2024-01-02") && word (txt "03:04:05") && word (txt "+0100").
Proof. by vm_compute. Qed.

Definition w_clean := a_checkout "v0.5.1-0-g9a3b1c7" "HEAD" some_date (Ran [::] 1).
Example case_clean : package_version w_clean = VOk (txt "0.5.1").
Proof. by vm_compute. Qed.

Definition w_untagged := a_checkout "9a3b1c7" "main" some_date (Ran (nl ">aa >bb >cc") 0).
Example case_untagged : package_version w_untagged = VOk (txt "0+untagged.3.g9a3b1c7").
Proof. by vm_compute. Qed.

Definition w_odd := a_checkout "v0.5.1-x" "main" some_date (Ran [::] 1).
Example case_odd : package_version w_odd = VOk (txt "unknown").
Proof. by vm_compute. Qed.

(** C59: git show fails, prints nothing; no tags and git rev-list fails; an empty date keyword *)
Example case_no_date :
  package_version (a_checkout "v0.5.1-0-g9a3b1c7" "main" (Ran [::] 128) (Ran [::] 0)) = VRaise VAttributeError.
Proof. by vm_compute. Qed.
Example case_blank_date :
  package_version (a_checkout "v0.5.1-0-g9a3b1c7" "main" (Ran (nl " ") 0) (Ran [::] 0)) = VRaise VIndexError.
Proof. by vm_compute. Qed.
Example case_no_commits :
  package_version (a_checkout "9a3b1c7" "main" some_date (Ran [::] 128)) = VRaise VAttributeError.
Proof. by vm_compute. Qed.
Example case_empty_date :
  package_version (World (txt "$Format:%d$") [::] [::] None false (fun _ _ => NoEntry)) = VRaise VIndexError.
Proof. by vm_compute. Qed.

(** C60 *)
Example case_parent :
  package_version (no_git "/tmp/kalmankit-0.5.1/src/kalmankit/_version.py") = VOk (txt "0.5.1").
Proof. by vm_compute. Qed.
Example case_grandparent :
  package_version (no_git "/tmp/kalmankit-0.5.0/x/y/src/kalmankit/_version.py") = VOk (txt "0.5.0").
Proof. by vm_compute. Qed.
Example case_nowhere :
  package_version (no_git "/usr/lib/python3/site-packages/kalmankit/_version.py") = VOk (txt "0+unknown").
Proof. by vm_compute. Qed.
Example case_no_checkout : forall described head,
  ~ checkout (no_git "/tmp/kalmankit-0.5.1/src/kalmankit/_version.py") (txt "/tmp/kalmankit-0.5.1") described head.
Proof. by move=> d h [[o]]. Qed.

(** C62: 0.5.1 < 0.5.1rc1 < 0.5.2 *)
Definition w_archive := an_archive " (HEAD -> main, tag: v0.5.2, tag: v0.5.1rc1, tag: v0.5.1, tag: old) ".
Example case_archive_expanded : expanded w_archive. Proof. by vm_compute. Qed.
Example case_archive : package_version w_archive = VOk (txt "0.5.1").
Proof. by vm_compute. Qed.
Example case_archive_tag : version_tag w_archive (txt "0.5.1rc1").
Proof. by split=> //; left; exists (txt " tag: v0.5.1rc1"). Qed.
Example case_archive_order :
  get_versions w_archive = get_versions (an_archive "tag: v0.5.1, HEAD -> main, tag: old, tag: v0.5.1rc1, tag: v0.5.2, tag: old").
Proof. by vm_compute. Qed.
Example case_archive_none : package_version (an_archive "HEAD -> main") = VOk (txt "0+unknown").
Proof. by vm_compute. Qed.
Example case_archive_old_git : package_version (an_archive "HEAD, v1.2, main") = VOk (txt "1.2").
Proof. by vm_compute. Qed.

(** C60, directory by directory; C61, a listing of commits *)
Example case_directories : let dirs := [:: txt "home"; txt "u"; txt "kalmankit"] in
  all component dirs /\ path (dirs ++ [:: txt "src"; txt "kalmankit"; txt "_version.py"])%SEQ = the_file.
Proof. by vm_compute. Qed.
Example case_directories_found :
  package_version (no_git "/tmp/kalmankit-1.4/x/src/kalmankit/_version.py") = VOk (txt "1.4").
Proof. by vm_compute. Qed.
Example case_commits : let commits := [:: txt "9a3b1c7d"; txt "00ff00"] in
  all word commits /\ flatten [seq (c ++ [:: 10])%SEQ | c <- commits] = (nl "9a3b1c7d" ++ nl "00ff00")%SEQ.
Proof. by vm_compute. Qed.
Example case_pre_negative :
  (vdo v <- render (Pieces (txt head_rev) (txt "9a") None false (Some (txt "1.0.post-3")) 2 (txt "d")) (txt "pep440-pre");
   VOk (version v)) = VOk (txt "1.0.post-2.dev2").
Proof. by vm_compute. Qed.

(** C63 *)
Example case_reads : reads_as (txt "vrelease-1-2-g0f-dirty") true (txt "vrelease-1") (txt "2") (txt "0f").
Proof. by split; [left|split]. Qed.

(** C64, C65 *)
Definition some_pieces tag n :=
  Pieces (txt head_rev) (txt "9a3b1c7") (Some (txt "main")) true (Some (txt tag)) n (txt "d").
Definition rendered p sty := vdo v <- render p (txt sty); VOk (version v).
Example case_branch : rendered (some_pieces "1.0" 2) "pep440-branch" = VOk (txt "1.0.dev0+2.g9a3b1c7.dirty").
Proof. by vm_compute. Qed.
Definition detached (names : seq text) : seq text -> option text * option Z := fun args =>
  if args == ask_describe then (Some (txt "v1.0-2-g9a3b1c7"), Some 0%Z)
  else if args == ask_branches then (Some (listing (txt "HEAD detached at 9a3b1c7)") names), Some 0%Z)
  else if args == ask_date then (Some (txt "2024-01-02 03:04:05 +0100"), Some 0%Z)
  else (Some (txt "HEAD"), Some 0%Z).
Definition detached_branch names := vdo p <- git_pieces_from_vcs (txt "v") (detached names);
  VOk (if p is Pieces _ _ b _ _ _ _ then b else Some (txt "?")).
Example case_detached : [/\ detached_branch [:: txt "dev"; txt "master"] = VOk (Some (txt "master")),
  detached_branch [:: txt "dev"; txt "main"] = VOk (Some (txt "dev")) & detached_branch [::] = VOk None].
Proof. by split; vm_compute. Qed.
Example case_pre : rendered (some_pieces "1.0.post3" 2) "pep440-pre" = VOk (txt "1.0.post4.dev2").
Proof. by vm_compute. Qed.
Example case_pre_bad : rendered (some_pieces "1.0.postx" 2) "pep440-pre" = VRaise VValueError.
Proof. by vm_compute. Qed.
Example case_post : rendered (some_pieces "1.0+k" 2) "pep440-post" = VOk (txt "1.0+k.post2.dev0.g9a3b1c7").
Proof. by vm_compute. Qed.
Example case_style : (txt "semver" \notin styles) && (txt "pep440" \in styles). Proof. by vm_compute. Qed.
Example case_infix : ~~ infix (txt ".post") (txt "1.0.pos"). Proof. by vm_compute. Qed.
Example case_builds : version_of (txt "1.0") 2 (txt "9a") false = txt "1.0+2.g9a". Proof. by vm_compute. Qed.
Example case_tagged_checkout : tagged_checkout w_dirty (txt "0.5.1") (txt "3") (txt "9a3b1c7") true.
Proof.
have sr : source_root w_dirty (txt "/home/u/kalmankit") by apply: case_root; vm_compute.
exists (txt "/home/u/kalmankit"), (txt head_rev), (nl "2024-01-02 03:04:05 +0100").
split; [by []|by vm_compute|by vm_compute|by split; vm_compute|split; [|exact: erefl|by vm_compute]].
by apply: case_checkout; vm_compute.
Qed.
