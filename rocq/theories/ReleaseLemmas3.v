(** * ReleaseLemmas3: the generated file, read as text and imported *)
From Coq Require Import ZArith String Ascii Lia.
From mathcomp Require Import ssreflect ssrfun ssrbool eqtype ssrnat seq path div.
From Verif Require Import Text TextLemmas Ver VerLemmas VerKw Release ReleaseLemmas ReleaseLemmas2.

Set Implicit Arguments.
Unset Strict Implicit.
Unset Printing Implicit Defensive.

(** ** Literals *)
Lemma literal_fuel n m s : size s <= n -> size s <= m -> literal_from n s = literal_from m s.
Proof.
elim: n m s => [|n IH] m s; first by case: s m => [|c s] // [].
case: m => [|m]; first by case: s.
case: s => [|c r] //=; rewrite !ltnS => Hn Hm.
have E r' : size r' <= size r -> literal_from n r' = literal_from m r'.
  by move=> Hr; apply: IH; [exact: leq_trans Hr Hn|exact: leq_trans Hr Hm].
case: ifP => _; last by case: ifP => // _; rewrite E.
case: r Hn Hm E => [|x r] //= _ _ E.
case: ifP => _; first by rewrite E // ltnW.
case: (py_escape x) => [y|]; first by rewrite E // ltnW.
case: ifP => _; last by case: ifP => // _; rewrite E // ltnW.
case: r E => [|x1 [|x2 [|x3 [|x4 r]]]] //= E.
by case: (unhex4 _ _ _ _) => // u; rewrite E // !leqW.
Qed.
Lemma literalF n s : size s <= n -> literal_from n s = literal s.
Proof. by move=> H; exact: literal_fuel. Qed.

Definition lcons c := omap (fun p : text * text => (c :: p.1, p.2)).
Lemma literal_plain c r : c != 92 -> ~~ prefix (txt "'''") (c :: r) -> literal (c :: r) = lcons c (literal r).
Proof.
move=> /negPf H1 /negPf H2; rewrite {1}/literal [size _]/=.
by rewrite [LHS]/= H1; rewrite [prefix _ _]/= in H2; rewrite [X in if X then _ else _]H2.
Qed.
Lemma literal_u a b c d u r : unhex4 a b c d = Some u -> literal (92 :: chr "u" :: a :: b :: c :: d :: r) = lcons u (literal r).
Proof.
move=> Hu; have H n : size r <= n -> literal_from n.+1 (92 :: chr "u" :: a :: b :: c :: d :: r) = lcons u (literal r).
  by move=> Hn; rewrite [LHS]/= Hu literalF.
by rewrite {1}/literal [size _]/=; apply: H; rewrite !leqW.
Qed.
Lemma literal_end r : literal (txt "'''" ++ r) = Some ([::], r).
Proof. by rewrite /literal /= drop0; case: r. Qed.

Definition lcat (t : text) := omap (fun p : text * text => (t ++ p.1, p.2)).
Lemma lcat_cat t t' o : lcat (t ++ t') o = lcat t (lcat t' o).
Proof. by case: o => [[x y]|] //=; rewrite catA. Qed.
Lemma lcat1 c o : lcons c o = lcat [:: c] o. Proof. by []. Qed.

(** Characters a literal leaves alone. *)
Definition litok (c : nat) : bool := (c != 92) && (c != 39).
Lemma literal_txt t r : all litok t -> literal (t ++ r) = lcat t (literal r).
Proof.
elim: t => [|c t IH]; first by move=> _; rewrite cat0s; case: (literal r) => [[]|].
rewrite [all _ _]/= => /andP [/andP [H1 H2] Ht]; rewrite cat_cons literal_plain //; last by rewrite /= eq_sym (negPf H2).
by rewrite IH // lcat1 -lcat_cat.
Qed.

(** Characters of a version that survive: from the blank to U+FFFF, no quotation
    mark, no backslash. *)
Definition safec (c : nat) : bool := [&& 32 <= c, c != 34, c != 92 & c %/ 1024 < 64].
Definition no3 (s : text) : Prop := forall a b, s <> a ++ txt "'''" ++ b.

Lemma json_char_safe c : safec c -> c <= 126 -> json_char c = [:: c].
Proof. by case/and4P => H1 /negPf H2 /negPf H3 _ H4; rewrite /json_char H2 H3 H1 H4. Qed.
Lemma json_char_u c : safec c -> 126 < c -> json_char c = u_escape c.
Proof.
case/and4P => H1 /negPf H2 /negPf H3 H4 H5; rewrite /json_char H2 H3 H4 (leqNgt c) H5 andbF /=.
by rewrite !gtn_eqF //; apply: leq_trans H5.
Qed.

Lemma literal_enc s r : all safec s -> no3 s ->
  literal (flatten [seq json_char c | c <- s] ++ 34 :: r) = lcat s (literal (34 :: r)).
Proof.
elim: s => [|c s IH]; first by move=> _ _; rewrite cat0s; case: (literal _) => [[]|].
rewrite [all _ _]/= => /andP [Hc Hs] Hn.
have {}IH := IH Hs (fun a b E => Hn (c :: a) b (congr1 (cons c) E)).
rewrite [flatten _]/= -catA (lcat_cat [:: c] s) -IH -lcat1.
case: (leqP c 126) => H126; last first.
  rewrite (json_char_u Hc H126) /u_escape /hex4 !cat_cons cat0s; apply: literal_u.
  by apply: unhex4K; case/and4P: Hc.
rewrite (json_char_safe Hc H126) cat1s literal_plain //; first by case/and4P: Hc.
apply/negP => /prefixP [q]; case: s Hs Hn {IH} => [|c1 s] Hs Hn.
  by [].
rewrite [flatten _]/= -catA; case/andP: (Hs) => Hc1 Hs1; case=> E0.
case: (leqP c1 126) => H1; last by rewrite (json_char_u Hc1 H1).
rewrite (json_char_safe Hc1 H1) cat1s => -[E1].
case: s Hs Hs1 Hn => [|c2 s] Hs Hs1 Hn; first by [].
rewrite [flatten _]/= -catA; case/andP: (Hs1) => Hc2 _.
case: (leqP c2 126) => H2; last by rewrite (json_char_u Hc2 H2).
rewrite (json_char_safe Hc2 H2) cat1s => -[E2 _].
by apply: (Hn [::] s); rewrite E0 E1 E2.
Qed.

Definition safe_text (s : text) : Prop := all safec s /\ no3 s.
Definition safe_val (v : jval) : Prop := if v is JStr s then safe_text s else True.
Fixpoint safe_dict (d : dict) : Prop := if d is kv :: d' then [/\ safe_text kv.1, safe_val kv.2 & safe_dict d'] else True.

Notation raw := (fun c : nat => [:: c]).
Lemma flatten_raw s : flatten [seq [:: c] | c <- s] = s :> text.
Proof. by elim: s => [|c s IH] //=; rewrite IH. Qed.
Lemma literal_str s r : safe_text s -> literal (str_with json_char s ++ r) = lcat (str_with raw s) (literal r).
Proof.
case=> H1 H2; rewrite /str_with cat_cons literal_plain //.
rewrite -catA cat1s literal_enc // literal_plain //.
by rewrite flatten_raw; case: (literal r) => [[x y]|] //=; rewrite -catA.
Qed.
Lemma literal_val v r : safe_val v -> literal (val_with json_char v ++ r) = lcat (val_with raw v) (literal r).
Proof. by case: v => [s|[]|] H; [exact: literal_str|apply: literal_txt|apply: literal_txt|apply: literal_txt]. Qed.
Lemma literal_item kv r : safe_text kv.1 -> safe_val kv.2 ->
  literal (item_with json_char kv ++ r) = lcat (item_with raw kv) (literal r).
Proof.
move=> H1 H2; rewrite /item_with -!catA literal_str // (@literal_txt (txt ": ")) // literal_val //.
by rewrite !lcat_cat.
Qed.
Lemma literal_items d r : safe_dict d -> literal (items_with json_char d ++ r) = lcat (items_with raw d) (literal r).
Proof.
elim: d => [|kv d IH]; first by move=> _; rewrite cat0s; case: (literal r) => [[]|].
case=> H1 H2 Hd; case: d Hd IH => [|kv' d] Hd IH.
  rewrite (_ : items_with _ _ = [:: 10; 32] ++ item_with json_char kv) // -catA literal_txt // literal_item //.
  by rewrite -lcat_cat.
rewrite (_ : items_with json_char _ = [:: 10; 32] ++ item_with json_char kv ++ txt "," ++ items_with json_char (kv' :: d)) //.
rewrite -(catA [:: 10; 32]) -(catA (item_with json_char kv)) -(catA (txt ",")).
rewrite literal_txt // literal_item // (@literal_txt (txt ",")) // IH //.
by rewrite (_ : items_with raw [:: kv, kv' & d] = [:: 10; 32] ++ item_with raw kv ++ txt "," ++ items_with raw (kv' :: d)) // !lcat_cat.
Qed.

Lemma safe_charok s : safe_text s -> all rawok s.
Proof. by case=> /allP H _; apply/allP => c /H /and4P [? ? ? _]; apply/and3P. Qed.
Lemma safe_okdict d : safe_dict d -> okdict rawok d.
Proof.
elim: d => [|kv d IH] //= [H1 H2 /IH ->]; rewrite safe_charok // andbT /=.
by case: kv.2 H2 => //= s; exact: safe_charok.
Qed.
