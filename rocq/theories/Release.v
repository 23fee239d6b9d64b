(** * Release: versioneer.py, as run by setup.py: from a source tree to an installed package

    The functions that versioneer.py shares with _version.py (run_command,
    versions_from_parentdir, git_get_keywords, git_versions_from_keywords,
    git_pieces_from_vcs, the renderers; versioneer.py:460-526, 1195-1427,
    1466-1491, 1539-1786) are the same code but for line breaks: Ver.v, VerKw.v.
    Not modelled: finding the root and reading pyproject.toml (:345-439; the
    values are those of pyproject.toml, the ones written in _version.py),
    do_setup, build_ext, py2exe, cx_Freeze, messages. *)
From Coq Require Import ZArith String Ascii.
From mathcomp Require Import ssreflect ssrfun ssrbool eqtype ssrnat seq path div.
From Verif Require Import Text Ver VerKw.

Set Implicit Arguments.
Unset Strict Implicit.
Unset Printing Implicit Defensive.

(** ** Python's json, for dictionaries of strings, booleans and None *)
Inductive jval := JStr (s : text) | JBool (b : bool) | JNull.
Definition dict := seq (text * jval).

(** The value of a key: the last one given. *)
Definition get (d : dict) (k : text) : option jval := foldl (fun r kv => if kv.1 == k then Some kv.2 else r) None d.

(** '{0:04x}'.format(n) for n < 16^4, and its inverse *)
Definition hexdigit (n : nat) : nat := if n < 10 then 48 + n else 87 + n.
Definition hex4 (n : nat) : text :=
  [:: hexdigit (n %/ 16 %/ 16 %/ 16); hexdigit (n %/ 16 %/ 16 %% 16); hexdigit (n %/ 16 %% 16); hexdigit (n %% 16)].
Definition hexvalue (c : nat) : option nat :=
  if is_digit c then Some (c - 48)
  else if 97 <= c <= 102 then Some (c - 87) else if 65 <= c <= 70 then Some (c - 55) else None.
Definition unhex4 (a b c d : nat) : option nat :=
  match hexvalue a, hexvalue b, hexvalue c, hexvalue d with
  | Some a, Some b, Some c, Some d => Some (((a * 16 + b) * 16 + c) * 16 + d)
  | _, _, _, _ => None
  end.

(** json.encoder.py_encode_basestring_ascii: code points from 64 * 1024 on as two
    surrogates (54 * 1024 is 0xd800, 55 * 1024 is 0xdc00) *)
Definition u_escape (n : nat) : text := 92 :: chr "u" :: hex4 n.
Definition json_char (c : nat) : text :=
  if (c == 92) || (c == 34) then [:: 92; c]
  else if 32 <= c <= 126 then [:: c]
  else if c == 8 then txt "\b" else if c == 9 then txt "\t" else if c == 10 then txt "\n"
  else if c == 12 then txt "\f" else if c == 13 then txt "\r"
  else if c %/ 1024 < 64 then u_escape c
  else u_escape (54 * 1024 + (c %/ 1024 - 64)) ++ u_escape (55 * 1024 + c %% 1024).
Definition json_string (s : text) : text := 34 :: flatten [seq json_char c | c <- s] ++ [:: 34].
Definition json_value (v : jval) : text :=
  match v with
  | JStr s => json_string s
  | JBool b => if b then txt "true" else txt "false"
  | JNull => txt "null"
  end.
(** json.dumps(d, sort_keys=True, indent=1, separators=(",", ": ")) *)
Definition json_item (kv : text * jval) : text := json_string kv.1 ++ txt ": " ++ json_value kv.2.
Fixpoint json_items (d : dict) : text :=
  match d with
  | [::] => [::]
  | [:: kv] => [:: 10; 32] ++ json_item kv
  | kv :: d' => [:: 10; 32] ++ json_item kv ++ txt "," ++ json_items d'
  end.
Definition json_dumps (d : dict) : text :=
  if d is [::] then txt "{}"
  else txt "{" ++ json_items (sort (fun p q : text * jval => text_le p.1 q.1) d) ++ [:: 10] ++ txt "}".

(** json.decoder.py_scanstring (strict): the text after the opening quote; the
    string and what follows the closing quote.  An escaped pair of surrogates is
    one character. *)
Definition json_escape (c : nat) : option nat :=
  if (c == 34) || (c == 92) || (c == 47) then Some c
  else if c == chr "b" then Some 8 else if c == chr "f" then Some 12 else if c == chr "n" then Some 10
  else if c == chr "r" then Some 13 else if c == chr "t" then Some 9 else None.
Definition second_half (s : text) : option (nat * text) :=
  match s with
  | x :: y :: a :: b :: c :: d :: r =>
    if (x == 92) && (y == chr "u") then
      if unhex4 a b c d is Some u then if u %/ 1024 == 55 then Some (u, r) else None else None
    else None
  | _ => None
  end.
Fixpoint scan_from (n : nat) (s : text) : option (text * text) :=
  if n is n'.+1 then
    match s with
    | [::] => None
    | c :: r =>
      if c == 34 then Some ([::], r)
      else if c == 92 then
        match r with
        | e :: r' =>
          if e == chr "u" then
            match r' with
            | a :: b :: c :: d :: r'' =>
              if unhex4 a b c d is Some u then
                match (if u %/ 1024 == 54 then second_half r'' else None) with
                | Some (l, r3) =>
                  omap (fun p => (64 * 1024 + ((u %% 1024) * 1024 + l %% 1024) :: p.1, p.2)) (scan_from n' r3)
                | None => omap (fun p => (u :: p.1, p.2)) (scan_from n' r'')
                end
              else None
            | _ => None
            end
          else if json_escape e is Some x then omap (fun p => (x :: p.1, p.2)) (scan_from n' r') else None
        | [::] => None
        end
      else if c < 32 then None
      else omap (fun p => (c :: p.1, p.2)) (scan_from n' r)
    end
  else None.
Definition scan_string (s : text) : option (text * text) := scan_from (size s) s.

(** Values.  Numbers, lists, NaN and nested dictionaries are not read here: [None],
    as for a text that is not JSON. *)
Definition json_read (s : text) : option (jval * text) :=
  if prefix (txt "null") s then Some (JNull, drop 4 s)
  else if prefix (txt "true") s then Some (JBool true, drop 4 s)
  else if prefix (txt "false") s then Some (JBool false, drop 5 s)
  else if s is c :: r then
    if c == 34 then omap (fun p => (JStr p.1, p.2)) (scan_string r) else None
  else None.
Definition is_jspace (c : nat) : bool := [|| c == 32, c == 9, c == 10 | c == 13].
Definition skip (s : text) : text := lstrip is_jspace s.
(** The members of a dictionary: [s] starts with the quote of a key. *)
Fixpoint members (n : nat) (s : text) : option (dict * text) :=
  if n is n'.+1 then
    match s with
    | q :: r =>
      if q == 34 then
        if scan_string r is Some (k, r1) then
          match skip r1 with
          | c :: r2 =>
            if c == chr ":" then
              if json_read (skip r2) is Some (v, r3) then
                match skip r3 with
                | e :: r4 =>
                  if e == chr "}" then Some ([:: (k, v)], r4)
                  else if e == chr "," then omap (fun p => ((k, v) :: p.1, p.2)) (members n' (skip r4))
                  else None
                | [::] => None
                end
              else None
            else None
          | [::] => None
          end
        else None
      else None
    | [::] => None
    end
  else None.
(** json.loads *)
Definition json_loads (s : text) : option dict :=
  match skip s with
  | c :: r =>
    if c == chr "{" then
      match skip r with
      | d :: r' =>
        let m := if d == chr "}" then Some ([::], r') else members (size r) (d :: r') in
        if m is Some (o, rest) then if skip rest is [::] then Some o else None else None
      | [::] => None
      end
    else None
  | [::] => None
  end.

(** ** The generated _version.py *)
(** versioneer.py:1494-1509 SHORT_VERSION_PY, up to and after %s *)
Definition nline (s : string) : text := txt s ++ [:: 10].
Definition opening : text := nline "version_json = '''".
Definition closing : text := txt "'''  # END VERSION_JSON".
Definition short_head : text :=
  [:: 10] ++ nline "# This file was generated by 'versioneer.py' (0.29) from" ++
  nline "# revision-control system data, or from the parent directory name of an" ++
  nline "# unpacked source archive. Distribution tarballs contain a pre-generated copy" ++
  nline "# of this file." ++ [:: 10] ++ nline "import json" ++ [:: 10].
Definition short_tail : text :=
  [:: 10; 10; 10] ++ nline "def get_versions():" ++ nline "    return json.loads(version_json)".
(** versioneer.py:1529-1536 write_to_version_file: what the file holds after it.
    (Lines end with a newline here; text mode translates it on Windows, and back
    on reading.) *)
Definition version_file (d : dict) : text :=
  short_head ++ opening ++ json_dumps d ++ [:: 10] ++ closing ++ short_tail.

(** re.search of opening, any text, closing with re.S: the first opening, the last
    closing after it; see [C104_regular_expression]. *)
Fixpoint find_first (p s : text) : option text :=
  if prefix p s then Some (drop (size p) s) else if s is _ :: s' then find_first p s' else None.
Fixpoint find_last (p s : text) : option text :=
  if s is c :: s' then
    if find_last p s' is Some g then Some (c :: g) else if prefix p s then Some [::] else None
  else if p is [::] then Some [::] else None.
Definition version_search (open_ s : text) : option text :=
  if find_first open_ s is Some r then find_last closing r else None.

(** versioneer.py:1512-1526 versions_from_file; [None]: OSError.  json.loads
    raises a ValueError. *)
Definition versions_from_file (file : option text) : vres dict :=
  if file is Some raw then
    let t := universal raw in
    let mo := if version_search opening t is Some g then Some g
              else version_search (txt "version_json = '''" ++ [:: 13; 10]) t in
    match mo with
    | Some g => if json_loads g is Some d then VOk d else VRaise VValueError
    | None => VRaise NotThisMethod
    end
  else VRaise NotThisMethod.

(** ** versioneer.get_versions *)
(** The dictionaries of the shared functions. *)
Definition jopt (o : option text) : jval := if o is Some s then JStr s else JNull.
Definition dict_of (v : versions) : dict :=
  [:: (txt "version", JStr (version v)); (txt "full-revisionid", jopt (revision v));
      (txt "dirty", if vdirty v is Some b then JBool b else JNull);
      (txt "error", jopt (verror v)); (txt "date", jopt (vdate v))].

(** A source tree: the directory of setup.py, what is in src/kalmankit/_version.py
    below it ([None]: cannot be read), the platform and the programs. *)
Record tree := Tree { t_root : text; t_file : option text; t_win32 : bool; t_popen : text -> seq text -> started }.

(** versioneer.py:1793-1866 get_versions *)
Definition setup_versions (t : tree) : vres dict :=
  let dictionary (r : vres versions) := vdo v <- r; VOk (dict_of v) in
  or_else (dictionary (git_versions_from_keywords (git_get_keywords (t_file t)) tag_prefix))      (* :1827-1838 *)
  (or_else (versions_from_file (t_file t))                                                        (* :1840-1846 *)
  (let git args := run_command (t_popen t (t_root t))
                     (if t_win32 t then [:: txt "git.cmd"; txt "git.exe"] else [:: txt "git"]) args in
   or_else (dictionary (vdo p <- git_pieces_from_vcs tag_prefix git; render p style))             (* :1848-1857 *)
  (or_else (dictionary (versions_from_parentdir parentdir_prefix (t_root t)))                     (* :1859-1866 *)
     (dictionary (VOk (Versions (txt "0+unknown") None None (Some (txt "unable to compute version")) None)))))).

(** d["version"], when it is a string *)
Definition version_in (d : dict) : vres text := if get d (txt "version") is Some (JStr s) then VOk s else VRaise VKeyError.
(** versioneer.py:1869-1871 get_version: setup(version=...) *)
Definition setup_version (t : tree) : vres text := vdo d <- setup_versions t; version_in d.

(** versioneer.py:2099-2121 sdist and :1945-1965 build_py (not in editable mode):
    the _version.py that is packed. *)
Definition packed_file (t : tree) : vres text := vdo d <- setup_versions t; VOk (version_file d).

(** ** Importing the generated file *)
(** A literal between triple apostrophes, from after the opening ones: its value
    and what follows the closing ones.  Octal, \x, \U and \N escapes are not read
    ([None]); json.dumps writes none of them. *)
Definition py_escape (c : nat) : option nat :=
  if (c == 92) || (c == 39) || (c == 34) then Some c
  else if c == chr "a" then Some 7 else if c == chr "b" then Some 8 else if c == chr "f" then Some 12
  else if c == chr "n" then Some 10 else if c == chr "r" then Some 13 else if c == chr "t" then Some 9
  else if c == chr "v" then Some 11 else None.
Fixpoint literal_from (n : nat) (s : text) : option (text * text) :=
  if n is n'.+1 then
    let cons c := omap (fun p : text * text => (c :: p.1, p.2)) in
    match s with
    | [::] => None
    | c :: r =>
      if c == 92 then
        match r with
        | e :: r' =>
          if e == 10 then literal_from n' r'
          else if py_escape e is Some x then cons x (literal_from n' r')
          else if e == chr "u" then
            match r' with
            | a :: b :: c :: d :: r'' => if unhex4 a b c d is Some u then cons u (literal_from n' r'') else None
            | _ => None
            end
          else if [|| 48 <= e <= 55, e == chr "x", e == chr "U" | e == chr "N"] then None
          else cons 92 (cons e (literal_from n' r'))
        | [::] => None
        end
      else if prefix (txt "'''") s then Some ([::], drop 3 s)
      else cons c (literal_from n' r)
    end
  else None.
Definition literal (s : text) : option (text * text) := literal_from (size s) s.

(** Running a file statement by statement, for files made of empty lines,
    comments, import json, version_json = a literal between triple apostrophes,
    and a get_versions that returns json.loads(version_json); anything else is
    not understood ([None]). *)
Record namespace := Namespace { n_json : bool; n_text : option text; n_get : bool }.
Fixpoint after_line (s : text) : text := if s is c :: s' then if c == 10 then s' else after_line s' else [::].
Definition import_json : text := nline "import json".
Definition assign_json : text := txt "version_json = '''".
Definition define_get : text := nline "def get_versions():" ++ nline "    return json.loads(version_json)".
Definition statement (p : option (namespace * text)) : option (namespace * text) :=
  if p is Some (m, s) then
    match s with
    | [::] => p
    | c :: r =>
      if c == 10 then Some (m, r)
      else if c == 35 then Some (m, after_line r)
      else if prefix import_json s then Some (Namespace true (n_text m) (n_get m), drop (size import_json) s)
      else if prefix assign_json s then
        if literal (drop (size assign_json) s) is Some (j, rest) then
          let m' := Namespace (n_json m) (Some j) (n_get m) in
          match lstrip (fun c => c == 32) rest with
          | [::] => Some (m', [::])
          | c :: r => if c == 10 then Some (m', r) else if c == 35 then Some (m', after_line r) else None
          end
        else None
      else if prefix define_get s then Some (Namespace (n_json m) (n_text m) true, drop (size define_get) s)
      else None
    end
  else None.
(** Importing the file (Python reads source with universal newlines) and calling
    its get_versions. *)
Inductive imported := Defines (d : dict) | NotJson | NameError | NotUnderstood.
Definition import_short (raw : text) : imported :=
  let t := universal raw in
  if iter (size t) statement (Some (Namespace false None false, t)) is Some (m, _) then
    match n_json m, n_text m, n_get m with
    | true, Some j, true => if json_loads j is Some d then Defines d else NotJson
    | _, _, _ => NameError
    end
  else NotUnderstood.
