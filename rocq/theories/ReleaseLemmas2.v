(** * ReleaseLemmas2: json.loads reads what json.dumps writes *)
From Coq Require Import ZArith String Ascii Lia.
From mathcomp Require Import ssreflect ssrfun ssrbool eqtype ssrnat seq path div.
From Verif Require Import Text TextLemmas Ver VerLemmas VerKw Release ReleaseLemmas.

Set Implicit Arguments.
Unset Strict Implicit.
Unset Printing Implicit Defensive.

Definition rawok (c : nat) : bool := [&& 32 <= c, c != 34 & c != 92].
Lemma raw_reads : reads_back (fun c => [:: c]) rawok.
Proof.
move=> c r /and3P [H1 /negPf H2 /negPf H3].
by rewrite cat1s scanE H2 H3 ltnNge H1.
Qed.

Section Dumps.
Variables (e : nat -> text) (ok : pred nat).
Hypothesis He : reads_back e ok.

Definition str_with (s : text) : text := 34 :: flatten [seq e c | c <- s] ++ [:: 34].
Definition val_with (v : jval) : text :=
  match v with
  | JStr s => str_with s
  | JBool b => if b then txt "true" else txt "false"
  | JNull => txt "null"
  end.
Definition item_with (kv : text * jval) : text := str_with kv.1 ++ txt ": " ++ val_with kv.2.
Fixpoint items_with (d : dict) : text :=
  match d with
  | [::] => [::]
  | [:: kv] => [:: 10; 32] ++ item_with kv
  | kv :: d' => [:: 10; 32] ++ item_with kv ++ txt "," ++ items_with d'
  end.
Definition okval (v : jval) : bool := if v is JStr s then all ok s else true.
Definition okdict (d : dict) : bool := all (fun kv => all ok kv.1 && okval kv.2) d.

Lemma scan_str s r : all ok s -> scan (flatten [seq e c | c <- s] ++ 34 :: r) = Some (s, r).
Proof.
elim: s => [|c s IH]; first by move=> _; rewrite cat0s scanE eqxx.
rewrite [all _ _]/= => /andP [Hc Hs]; rewrite [flatten _]/= -catA (He _ Hc) IH //.
Qed.

Lemma skip_id c r : ~~ is_jspace c -> skip (c :: r) = c :: r.
Proof. by move=> H; rewrite /skip lstrip_cons (negPf H). Qed.
Lemma skip_sp c r : is_jspace c -> skip (c :: r) = skip r.
Proof. by move=> H; rewrite /skip lstrip_cons H. Qed.
Lemma skip_all w r : all is_jspace w -> skip (w ++ r) = skip r.
Proof. by elim: w => [|c w IH] //= /andP [Hc Hw]; rewrite skip_sp // IH. Qed.

Lemma read_val v r : okval v -> json_read (val_with v ++ r) = Some (v, r).
Proof.
case: v => [s|[]|] Hs; rewrite /json_read.
- rewrite /val_with /str_with cat_cons -catA cat1s; set x := flatten _ ++ _.
  rewrite [prefix _ _]/= [prefix _ _]/= [prefix _ _]/= eqxx /scan_string -/(scan x) /x scan_str //.
- by rewrite /= drop0; case: (r).
- by rewrite /= drop0; case: (r).
- by rewrite /= drop0; case: (r).
Qed.

(** A dictionary without the white space before its first member. *)
Definition body (d : dict) : text :=
  match d with [::] => [::] | [:: kv] => item_with kv | kv :: d' => item_with kv ++ txt "," ++ items_with d' end.
Lemma items_body d : d <> [::] -> items_with d = [:: 10; 32] ++ body d.
Proof. by case: d => [|kv [|kv' d]]. Qed.

Lemma members_ok d n r : d <> [::] -> okdict d -> size d <= n ->
  members n (body d ++ 10 :: chr "}" :: r) = Some (d, r).
Proof.
elim: d n => [|[k v] d IH] n; first by [].
rewrite /okdict [all _ _]/= -/(okdict d) => _ /andP [/andP [Hk Hv] Hd]; case: n => [|n]; first by [].
rewrite [size _]/= ltnS => Hn.
set Z := 10 :: chr "}" :: r.
have step X : members n.+1 (item_with (k, v) ++ X) =
    match skip X with
    | e :: r4 => if e == chr "}" then Some ([:: (k, v)], r4)
                 else if e == chr "," then omap (fun p => ((k, v) :: p.1, p.2)) (members n (skip r4)) else None
    | [::] => None
    end.
  rewrite /item_with /str_with [(k, v).1]/= [(k, v).2]/= !cat_cons -!catA cat1s.
  rewrite [LHS]/= /scan_string -/(scan _) scan_str // skip_id // eqxx skip_sp // .
  have -> : skip (val_with v ++ X) = val_with v ++ X by case: (v) => [s|[]|].
  by rewrite read_val.
case: d IH Hd Hn => [|kv d] IH Hd Hn.
  by rewrite step /Z skip_sp // skip_id // eqxx.
rewrite (_ : body [:: (k, v), kv & d] = item_with (k, v) ++ txt "," ++ items_with (kv :: d)); last by [].
rewrite -catA step -catA [txt ","]/= cat_cons cat0s skip_id // (_ : (44 == chr "}") = false) // (_ : (44 == chr ",") = true) //.
by rewrite items_body // -catA skip_all // (_ : skip (body (kv :: d) ++ Z) = body (kv :: d) ++ Z) ?IH //; case: d {IH Hd Hn}.
Qed.

Lemma size_items d : size d <= size (items_with d).
Proof.
elim: d => [|kv d IH]; first by [].
rewrite [size _]/=; case: d IH => [|kv' d] IH; first by [].
rewrite (_ : items_with _ = [:: 10; 32] ++ item_with kv ++ txt "," ++ items_with (kv' :: d)); last by [].
rewrite !size_cat; apply: leq_ltn_trans IH _; rewrite (_ : size [:: 10; 32] = 2) //.
rewrite addSn ltnS addSn leqW // add0n; apply: leq_trans (leq_addl _ _); exact: leq_addl.
Qed.

Lemma loads_with w1 w2 d : all is_jspace w1 -> all is_jspace w2 -> okdict d -> d <> [::] ->
  json_loads (w1 ++ txt "{" ++ items_with d ++ [:: 10] ++ txt "}" ++ w2) = Some d.
Proof.
move=> H1 H2 Hd d0; rewrite /json_loads skip_all // [txt "{"]/= cat_cons cat0s skip_id // (_ : (123 == chr "{") = true) //.
rewrite {1}items_body // -catA skip_all //.
have Hs : size d <= size (items_with d ++ [:: 10] ++ txt "}" ++ w2).
  by rewrite size_cat; apply: leq_trans (leq_addr _ _); exact: size_items.
have E : body d ++ [:: 10] ++ txt "}" ++ w2 = body d ++ 10 :: chr "}" :: w2 by [].
have Hq : exists q, body d = 34 :: q by case: (d) d0 => [|[k v] [|kv' d']] // _; eexists.
rewrite E; case: Hq => q Eq; rewrite Eq cat_cons skip_id // (_ : (34 == chr "}") = false) // -cat_cons -Eq.
by rewrite members_ok // -[w2]cats0 skip_all.
Qed.
End Dumps.

Lemma json_items_with d : json_items d = items_with json_char d.
Proof. by elim: d => [|kv [|kv' d] IH] //=; rewrite -/(json_items (kv' :: d)) IH. Qed.

(** json.loads after json.dumps *)
Notation byk := (fun p q : text * jval => text_le p.1 q.1).
Lemma okdict_sort ok d : okdict ok (sort byk d) = okdict ok d.
Proof. exact: all_sort. Qed.
Lemma loads_dumps w1 w2 d : all is_jspace w1 -> all is_jspace w2 -> okdict charok d -> d <> [::] ->
  json_loads (w1 ++ json_dumps d ++ w2) = Some (sort byk d).
Proof.
move=> H1 H2 Hd d0; rewrite /json_dumps; case: d d0 Hd => [//|kv d] _ Hd.
rewrite -!catA json_items_with; apply: (loads_with json_char_reads) => //; first by rewrite okdict_sort.
by move/(congr1 size); rewrite size_sort.
Qed.
