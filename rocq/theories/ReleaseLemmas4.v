(** * ReleaseLemmas4: the generated file as text *)
From Coq Require Import ZArith String Ascii Lia.
From mathcomp Require Import ssreflect ssrfun ssrbool eqtype ssrnat seq path div.
From Verif Require Import Text TextLemmas Ver VerSpec VerLemmas VerKw Props26 Release ReleaseLemmas ReleaseLemmas2 ReleaseLemmas3.

Set Implicit Arguments.
Unset Strict Implicit.
Unset Printing Implicit Defensive.

Definition printable (c : nat) : bool := 32 <= c <= 126.

Lemma hexdigit_printable n : n < 16 -> printable (hexdigit n).
Proof. by do 16! [case: n => [//|n]]. Qed.
Lemma hex4_printable n : n %/ 1024 < 64 -> all printable (hex4 n).
Proof.
move=> /small_hex Hn; rewrite /hex4 /= !hexdigit_printable ?ltn_mod //; by rewrite !ltn_divLR.
Qed.
Lemma u_printable n : n %/ 1024 < 64 -> all printable (u_escape n).
Proof. by move=> H; apply/andP; split=> //; apply/andP; split=> //; exact: hex4_printable. Qed.
Lemma json_char_printable c : charok c -> all printable (json_char c).
Proof.
case/andP => /andP [H1 H2] H3; rewrite /json_char; case: ifP => [/orP [] /eqP -> //|_].
case: ifP => [H|_]; first by rewrite /= /printable H.
do 5! [case: ifP => // _]; case: ifP => [H|/negbT].
  exact: u_printable.
rewrite -leqNgt => H64.
have q : c %/ 1024 - 64 < 1024 by rewrite ltn_subLR.
have r1024 := lt1024 c.
rewrite all_cat; apply/andP; split; apply: u_printable.
  by rewrite (sur_div 54 q).
by rewrite (sur_div 55 r1024).
Qed.
Lemma str_printable s : all charok s -> all printable (str_with json_char s).
Proof.
move=> Hs; rewrite /str_with [all _ _]/= all_cat [all _ [:: 34]]/= andbT.
by elim: s Hs => [|c s IH] //= /andP [Hc Hs]; rewrite all_cat json_char_printable // IH.
Qed.
Lemma item_printable kv : all charok kv.1 -> okval charok kv.2 -> all printable (item_with json_char kv).
Proof.
move=> H1 H2; rewrite /item_with all_cat str_printable // all_cat [all _ (txt _)]/= /=.
by case: (kv.2) H2 => [s|[]|] //=; exact: str_printable.
Qed.
Lemma plain_no c t : all printable t -> ~~ printable c -> c \notin t.
Proof. by move=> /allP H N; apply/negP => /H; exact/negP. Qed.

(** ** Lines *)
Lemma lines_items d r : okdict charok d -> d <> [::] ->
  exists2 ls : seq text, lines_keep (txt "{" ++ items_with json_char d ++ 10 :: r) = ls ++ lines_keep r &
    all (fun l => (head 0 l == 123) || (take 2 l == [:: 32; 34])) ls.
Proof.
have G (c0 : text) : okdict charok d -> d <> [::] -> 10 \notin c0 ->
  exists2 ls : seq text, lines_keep (c0 ++ items_with json_char d ++ 10 :: r) = (c0 ++ [:: 10]) :: ls ++ lines_keep r &
    all (fun l => (head 0 l == 123) || (take 2 l == [:: 32; 34])) ls; last first.
  move=> Hd d0; have [ls -> H] := G (txt "{") Hd d0 isT; exists ((txt "{" ++ [:: 10]) :: ls) => //.
elim: d c0 => [|kv d IH] c0; first by [].
rewrite /okdict [all _ _]/= -/(okdict charok d) => /andP [/andP [H1 H2] Hd] _ Hc0.
have P := item_printable H1 H2.
have N10 : 10 \notin [:: 32] ++ item_with json_char kv by rewrite mem_cat negb_or (plain_no P).
have T2 x : take 2 (([:: 32] ++ item_with json_char kv) ++ x) = [:: 32; 34] by rewrite -catA /= take0.
case: d IH Hd => [|kv' d] IH Hd.
  exists [:: ([:: 32] ++ item_with json_char kv) ++ [:: 10]]; last by apply/andP; split=> //; rewrite T2 eqxx orbT.
  rewrite (_ : items_with json_char [:: kv] = 10 :: [:: 32] ++ item_with json_char kv) // cat_cons.
  by rewrite lines_keep_plain // lines_keep_plain.
have [||| ls E HL] := IH (([:: 32] ++ item_with json_char kv) ++ txt ",") => //.
  by rewrite mem_cat negb_or N10.
exists (((([:: 32] ++ item_with json_char kv) ++ txt ",") ++ [:: 10]) :: ls); last by apply/andP; split=> //; rewrite -(catA _ (txt ",")) T2 eqxx orbT.
rewrite (_ : items_with json_char [:: kv, kv' & d] = 10 :: (([:: 32] ++ item_with json_char kv) ++ txt ",") ++ items_with json_char (kv' :: d)).
  by rewrite cat_cons lines_keep_plain // -catA E.
by rewrite -(catA _ (txt ",")) -(catA [:: 32]).
Qed.

Lemma lines_cat a b : last 10 a = 10 -> lines_keep (a ++ b) = lines_keep a ++ lines_keep b.
Proof.
elim: a => [|c a IH] //= H; case: eqVneq => [->|Hc].
  case: a IH H => [|c' a] IH H; first by [].
  by rewrite IH.
have [c' [a' Ea]] : exists c' a', a = c' :: a' by case: a {IH} H Hc => [|c' a'] /= H Hc; [rewrite H eqxx in Hc|exists c', a'].
rewrite IH; last by rewrite Ea in H *.
case E : (lines_keep a) => [|l ls] //.
by move: E; rewrite Ea /=; case: eqP => //; case: (lines_keep a').
Qed.

Definition not_git (l : text) : bool := ~~ prefix (txt "git_") (strip l).
Lemma first_not_git l c r : lstrip is_space l = c :: r -> c != 103 -> not_git l.
Proof.
move=> E Hc; rewrite /not_git /strip /strip_of E; apply/negP => /prefixP [t].
have [a [Ea Ha]] := lstrip_split is_space (rev (c :: r)).
rewrite /rstrip; move: (congr1 rev Ea); rewrite revK rev_cat; set x := rev (lstrip _ _) => E1 E2.
move: E1; rewrite E2 => -[E3 _]; by rewrite E3 in Hc.
Qed.
Lemma json_line_not_git l : (head 0 l == 123) || (take 2 l == [:: 32; 34]) -> not_git l.
Proof.
case/orP.
  by case: l => [|c l] //= /eqP ->; apply: (@first_not_git _ 123 l).
case: l => [|c [|c' l]]; [by []|by rewrite /= => /eqP|].
rewrite (_ : take 2 _ = [:: c; c']) => [/eqP [-> ->]|]; last by rewrite /= take0.
exact: (@first_not_git _ 34 l).
Qed.
Lemma git_name_not l name : prefix (txt "git_") name -> name <> [::] -> ~~ has is_space name ->
  not_git l -> ~ starts_line name l.
Proof.
move=> /prefixP [q Eq] n0 ns Hl /(strip_start l n0 ns) /prefixP [x Ex].
by move/negP: Hl; apply; rewrite Ex Eq -!catA prefix_prefix.
Qed.

(** ** The search *)
Fixpoint clear_of (p a : text) : bool := if a is _ :: a' then ~~ prefix p (a ++ p) && clear_of p a' else true.
Lemma prefix_long (p y X : text) : size p <= size y -> prefix p (y ++ X) = prefix p y.
Proof.
elim: p y => [|c p IH] [|c' y] //=; first by move=> _; case: X.
by rewrite ltnS => /IH ->.
Qed.
Lemma find_first_at p a X : clear_of p a -> find_first p (a ++ p ++ X) = Some X.
Proof.
elim: a => [|c a IH].
  have U s : find_first p s = if prefix p s then Some (drop (size p) s) else if s is _ :: s' then find_first p s' else None by case: s.
  by move=> _; rewrite cat0s U prefix_prefix drop_size_cat.
case/andP => N /IH E; rewrite cat_cons in N; rewrite cat_cons.
rewrite (_ : find_first p (c :: a ++ p ++ X) = if prefix p (c :: a ++ p ++ X) then Some (drop (size p) (c :: a ++ p ++ X)) else find_first p (a ++ p ++ X)); last by [].
have -> : prefix p (c :: a ++ p ++ X) = prefix p (c :: a ++ p).
  by rewrite -(prefix_long (y := c :: a ++ p) X) ?cat_cons -?catA //= size_cat leqW // leq_addl.
by rewrite (negPf N).
Qed.
Lemma find_first_open X : find_first opening (short_head ++ opening ++ X) = Some X.
Proof. by apply: find_first_at; vm_compute. Qed.
Lemma find_last_at p g b : p <> [::] -> find_last p (behead (p ++ b)) = None -> find_last p (g ++ p ++ b) = Some g.
Proof.
move=> p0 H; elim: g => [|c g IH]; last by rewrite /= IH.
rewrite cat0s; case: p p0 H => [|c p] // _ H; rewrite [behead _]/= in H.
by rewrite [LHS]/= H eqxx prefix_prefix.
Qed.
Lemma find_last_close g : find_last closing (g ++ closing ++ short_tail) = Some g.
Proof. by apply: find_last_at; vm_compute. Qed.

Lemma universal_id t : 13 \notin t -> universal t = t.
Proof. by elim: t => [|c t IH] //=; rewrite inE negb_or eq_sym => /andP [/negPf -> /IH ->]. Qed.

Section File.
Variable d : dict.
Hypothesis d0 : d <> [::].
Hypothesis Hd : okdict charok d.
Notation sd := (sort byk d).

Lemma sd0 : sd <> [::]. Proof. by move/(congr1 size); rewrite size_sort; case: (d) d0. Qed.
Lemma sdok : okdict charok sd. Proof. by rewrite okdict_sort. Qed.
Lemma dumpsE : json_dumps d = txt "{" ++ items_with json_char sd ++ [:: 10] ++ txt "}".
Proof. by rewrite /json_dumps -json_items_with; case: (d) d0. Qed.

Lemma items_chars x : okdict charok x -> all (fun c => printable c || (c == 10)) (items_with json_char x).
Proof.
elim: x => [|kv x IH] //; rewrite /okdict [all _ _]/= -/(okdict charok x) => /andP [/andP [H1 H2] Hx].
have P : all (fun c => printable c || (c == 10)) (item_with json_char kv).
  by apply: sub_all (item_printable H1 H2) => c ->.
case: x IH Hx => [|kv' x] IH Hx.
  by rewrite (_ : items_with _ _ = [:: 10; 32] ++ item_with json_char kv) // all_cat P.
rewrite (_ : items_with json_char _ = [:: 10; 32] ++ item_with json_char kv ++ txt "," ++ items_with json_char (kv' :: x)) //.
by move: (item_with _ kv) P (items_with _ _) (IH Hx) => I P J HJ; rewrite !all_cat P HJ.
Qed.
Lemma file_chars : all (fun c => printable c || (c == 10)) (version_file d).
Proof.
by rewrite /version_file dumpsE !all_cat (items_chars sdok); vm_compute.
Qed.
Lemma file_universal : universal (version_file d) = version_file d.
Proof. by apply: universal_id; apply/negP => /(allP file_chars). Qed.

Lemma read_file : versions_from_file (Some (version_file d)) = VOk sd.
Proof.
rewrite /versions_from_file file_universal /version_search.
have -> : version_file d = short_head ++ opening ++ (json_dumps d ++ [:: 10]) ++ closing ++ short_tail.
  by rewrite /version_file !catA.
rewrite find_first_open find_last_close.
by rewrite -[json_dumps d ++ _]cat0s loads_dumps.
Qed.

Lemma file_keywords : git_get_keywords (Some (version_file d)) = Keywords None None None.
Proof.
have N : forall l, l \in file_lines (version_file d) -> not_git l.
  rewrite /file_lines file_universal /version_file dumpsE.
  set A := short_head ++ opening.
  have -> : short_head ++ opening ++ (txt "{" ++ items_with json_char sd ++ [:: 10] ++ txt "}") ++ [:: 10] ++ closing ++ short_tail
          = A ++ (txt "{" ++ items_with json_char sd ++ 10 :: (txt "}" ++ [:: 10] ++ closing ++ short_tail)).
    by rewrite /A -!catA.
  rewrite lines_cat //; have [ls -> HL] := lines_items (txt "}" ++ [:: 10] ++ closing ++ short_tail) sdok sd0.
  move=> l; rewrite !mem_cat => /or3P [Hl|Hl|Hl].
  - by apply: (allP (a := not_git)) Hl; vm_compute.
  - by apply: json_line_not_git; exact: (allP HL).
  by apply: (allP (a := not_git)) Hl; vm_compute.
have M name : prefix (txt "git_") name -> name <> [::] -> ~~ has is_space name -> never_assigned (version_file d) name.
  by move=> H1 H2 H3 l /N Hl; exact: git_name_not.
have [K1 K2 K3 _] := C92_keywords_missing (version_file d).
case E : (git_get_keywords _) K1 K2 K3 => [x y z] K1 K2 K3.
by congr Keywords; [apply: K1|apply: K2|apply: K3]; apply: M.
Qed.
End File.
