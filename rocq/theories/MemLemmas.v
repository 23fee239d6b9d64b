(** * MemLemmas: simulation of the value model by the memory model *)
From Coq Require Import ZArith List.
From Coq Require Import Lia.
From mathcomp Require Import ssreflect ssrfun ssrbool eqtype ssrnat seq path.
From Verif Require Import Np NpLemmas Kf Ekf ApiSpec Loop NpShapes FilterLemmas Mem MemKf.

Set Implicit Arguments.
Unset Strict Implicit.
Unset Printing Implicit Defensive.

Section Sim.
Variable N : num.
Notation arr := (arr N).
Notation heap := (heap N).
Implicit Types h : heap.

(** Buffers outside [W] are kept. *)
Definition pres (W : seq nat) (h h' : heap) : Prop :=
  size h <= size h' /\ forall l, l < size h -> l \notin W -> nth [::] h' l = nth [::] h l.

Lemma pres_refl W h : pres W h h. Proof. by split. Qed.
Lemma pres_trans W h1 h2 h3 : pres W h1 h2 -> pres W h2 h3 -> pres W h1 h3.
Proof.
move=> [S1 E1] [S2 E2]; split; first exact: leq_trans S1 S2.
by move=> l Hl Hw; rewrite E2 ?E1 //; apply: leq_trans S1.
Qed.
Lemma pres_sub (W W' : seq nat) h h' : {subset W <= W'} -> pres W h h' -> pres W' h h'.
Proof. by move=> Hs [S E]; split=> // l Hl Hw; apply: E => //; apply: contra Hw; apply: Hs. Qed.
Lemma pres0 W h h' : pres [::] h h' -> pres W h h'. Proof. exact: pres_sub. Qed.
Lemma pres_new (W : seq nat) h h' : (forall l, l \in W -> size h <= l) -> pres W h h' -> pres [::] h h'.
Proof.
move=> Hw [S E]; split=> // l Hl _; apply: E => //.
by apply/negP => /Hw; rewrite leqNgt Hl.
Qed.

(** [r] is an array of memory [h] with value [a]. *)
Definition hv (h : heap) (r : ref) (a : arr) : Prop :=
  [/\ rloc r < size h, size (rpos r) = nelem (rshp r) & val h r = a].

Lemma hv_pres W h h' r a : pres W h h' -> rloc r \notin W -> hv h r a -> hv h' r a.
Proof.
move=> [S E] Hw [L Z V]; split=> //; first exact: leq_trans S.
by rewrite -V /val E.
Qed.
Lemma hv_ext h h' r a : pres [::] h h' -> hv h r a -> hv h' r a.
Proof. by move/hv_pres; apply. Qed.

Lemma hv_shp h r a : hv h r a -> rshp r = shp a. Proof. by case=> _ _ <-. Qed.
Lemma hv_dt h r a : hv h r a -> rdt r = dt a. Proof. by case=> _ _ <-. Qed.
Lemma hv_wfs h r a : hv h r a -> wfs a.
Proof. by case=> _ Z <-; rewrite /wfs /= size_map Z. Qed.
Lemma hv_fun h r a b : hv h r a -> hv h r b -> a = b. Proof. by case=> _ _ <- [_ _ <-]. Qed.

(** Outcomes agree. *)
Definition agrees A B (R : A -> B -> Prop) (x : res A) (y : res B) : Prop :=
  match x, y with Ok a, Ok b => R a b | Raise e, Raise e' => e = e' | _, _ => False end.

Lemma agrees_impl A B (R R' : A -> B -> Prop) x y : (forall a b, R a b -> R' a b) ->
  agrees R x y -> agrees R' x y.
Proof. by case: x => [a|e]; case: y => [b|e'] //= H /H. Qed.

Definition sim W h A B (m : hres N A) (p : res B) (R : heap -> A -> B -> Prop) : Prop :=
  pres W h (m h).1 /\ agrees (R (m h).1) (m h).2 p.

Lemma sim_ret W h A B (a : A) (b : B) (R : heap -> A -> B -> Prop) : R h a b ->
  sim W h (hret a) (Ok b) R.
Proof. by move=> H; split=> //; apply: pres_refl. Qed.
Lemma sim_raise W h A B e (R : heap -> A -> B -> Prop) : sim W h (@hraise N A e) (Raise e) R.
Proof. by split=> //; apply: pres_refl. Qed.

Lemma sim_bind W h A B A' B' (m : hres N A) (p : res B) f q R (R' : heap -> A' -> B' -> Prop) :
  sim W h m p R ->
  (forall h' a b, pres W h h' -> R h' a b -> sim W h' (f a) (q b) R') ->
  sim W h (hbind m f) (rbind p q) R'.
Proof.
move=> [P1 A1] H; rewrite /sim /hbind.
case Em: (m h) P1 A1 => [h1 [a|e]] /= P1; case: p => [b|e'] //= A1.
have [P2 A2] := H _ _ _ P1 A1; split=> //; exact: pres_trans P1 P2.
Qed.

Lemma sim_impl W h A B (m : hres N A) (p : res B) (R R' : heap -> A -> B -> Prop) :
  (forall h' a b, pres W h h' -> R h' a b -> R' h' a b) -> sim W h m p R -> sim W h m p R'.
Proof. by move=> HR [P A1]; split=> //; apply: agrees_impl A1 => a b; apply: HR. Qed.

Lemma sim0 W h A B (m : hres N A) (p : res B) (R : heap -> A -> B -> Prop) :
  sim [::] h m p R -> sim W h m p R.
Proof. by case=> /pres0 P H; split. Qed.

(** ** New arrays *)
Definition fr (n : nat) (h : heap) (r : ref) (a : arr) : Prop := hv h r a /\ n <= rloc r.

Lemma fr_hv n h r a : fr n h r a -> hv h r a. Proof. by case. Qed.
Lemma fr_le n m h r a : m <= n -> fr n h r a -> fr m h r a.
Proof. by move=> Hm [? H]; split=> //; apply: leq_trans H. Qed.
Lemma fr_ext n h h' r a : pres [::] h h' -> fr n h r a -> fr n h' r a.
Proof. by move=> E [/(hv_ext E) ? ?]. Qed.

Lemma pres_rcons W h b : pres W h (rcons h b).
Proof. by split; rewrite ?size_rcons // => l Hl _; rewrite nth_rcons Hl. Qed.

Lemma new_val h (a : arr) : wfs a ->
  fr (size h) (rcons h (dat a)) (Ref (size h) (dt a) (shp a) (iota 0 (size (dat a)))) a.
Proof.
move=> Hw; split=> //; split=> /=; first by rewrite size_rcons.
  by rewrite size_iota; apply/eqP.
rewrite /val /= nth_rcons ltnn eqxx.
by rewrite map_nth_iota0 ?take_size //; case: a {Hw}.
Qed.

Lemma sim_new h (a : arr) : wfs a -> sim [::] h (h_new a) (Ok a) (fr (size h)).
Proof. by move=> Hw; split; [apply: pres_rcons | apply: new_val]. Qed.

Lemma sim_op2 (op : arr -> arr -> res arr) h ra rb a b :
  (forall a b c, wfs a -> wfs b -> op a b = Ok c -> wfs c) -> hv h ra a -> hv h rb b ->
  sim [::] h (h_op2 op ra rb) (op a b) (fr (size h)).
Proof.
move=> Hop Ha Hb; have Wa := hv_wfs Ha; have Wb := hv_wfs Hb.
case: Ha => _ _ Ea; case: Hb => _ _ Eb; rewrite /sim /h_op2 Ea Eb.
case E: (op a b) => [c|e] /=; first by apply: sim_new; apply: Hop E.
by split=> //; apply: pres_refl.
Qed.

Lemma matmul_wfs (a b c : arr) : np_matmul a b = Ok c -> wfs c.
Proof.
rewrite /np_matmul; case Ea: (shp a) => [|d sa] //; case Eb: (shp b) => [|e sb] //.
case: ifP => // _; case Eb': (bshape _ _) => [bs|] // [<-].
apply: wfs_reshape; first exact: wfs_mk.
rewrite /= !nelem_cat /=; congr muln.
by case: sa {Ea Eb'} => [|? ?] /=; case: sb {Eb} => [|? ?] //=; rewrite ?muln1 ?mul1n.
Qed.

Lemma bin_wfs fz fk (a b c : arr) : np_bin fz fk a b = Ok c -> wfs c.
Proof. by rewrite /np_bin; case: (bshape _ _) => // sh [<-]; apply: wfs_mk. Qed.

Lemma solve_wfs (a b c : arr) : np_solve a b = Ok c -> wfs c.
Proof. by move/np_solve_float/isfloatP => [/wf_wfs]. Qed.

Lemma sim_matmul h ra rb a b : hv h ra a -> hv h rb b ->
  sim [::] h (h_matmul ra rb) (np_matmul a b) (fr (size h)).
Proof. by apply: sim_op2 => ? ? ? _ _; apply: matmul_wfs. Qed.
Lemma sim_add h ra rb a b : hv h ra a -> hv h rb b ->
  sim [::] h (h_add ra rb) (np_add a b) (fr (size h)).
Proof. by apply: sim_op2 => ? ? ? _ _; apply: bin_wfs. Qed.
Lemma sim_sub h ra rb a b : hv h ra a -> hv h rb b ->
  sim [::] h (h_sub ra rb) (np_sub a b) (fr (size h)).
Proof. by apply: sim_op2 => ? ? ? _ _; apply: bin_wfs. Qed.
Lemma sim_solve h ra rb a b : hv h ra a -> hv h rb b ->
  sim [::] h (h_solve ra rb) (np_solve a b) (fr (size h)).
Proof. by apply: sim_op2 => ? ? ? _ _; apply: solve_wfs. Qed.

Lemma full_like_wfs (a : arr) : wfs (np_full_like_nan a).
Proof. by rewrite /wfs /= size_nseq. Qed.

(** ** Views *)
Lemma val_T h r : size (rpos r) = nelem (rshp r) -> val h (h_T r) = np_T (val h r).
Proof.
move=> Hs; rewrite /val /np_T /h_T /mk /=; congr Arr.
rewrite -map_comp; apply/eq_in_map => ix; rewrite mem_indices => Hix /=.
have Ho : offset (rshp r) (rev ix) < size (rpos r).
  by rewrite Hs; apply: offset_lt; rewrite -[rshp r]revK; apply: valid_rev.
by rewrite /get /= (nth_map 0).
Qed.

Lemma hv_T h r a : hv h r a -> hv h (h_T r) (np_T a).
Proof.
move=> [L Z V]; split=> //; last by rewrite -V val_T.
by rewrite /= size_map size_indices.
Qed.

Lemma hv_atleast h r a : hv h r a -> hv h (h_atleast_1d r) (np_atleast_1d a).
Proof.
move=> [L Z V]; rewrite /h_atleast_1d /np_atleast_1d -V /=.
by case E: (rshp r) Z => [|d sh] Z; split=> //; rewrite ?Z /= ?E.
Qed.

Lemma val_view h r k : val h (view_row r k) = row (val h r) k.
Proof. by rewrite /val /view_row /row /= map_take map_drop. Qed.

Lemma hv_view h r a k d sh : hv h r a -> shp a = d :: sh -> k < d ->
  hv h (view_row r k) (row a k).
Proof.
move=> H E Hk; have Hw := wfs_row (hv_wfs H) E Hk; case: H => L Z V.
rewrite -V -val_view in Hw *; split=> //.
by move: Hw; rewrite /wfs /= size_map => /eqP.
Qed.

(** a[k]: the result is a view of [a] or a new scalar. *)
Lemma sim_row h r a k d sh : hv h r a -> shp a = d :: sh -> k < d ->
  sim [::] h (h_row r k) (Ok (row a k)) (fun h' r' a' => hv h' r' a' /\ (rloc r' = rloc r \/ size h <= rloc r')).
Proof.
move=> H E Hk; have [_ _ V] := H.
rewrite /sim /h_row V (hv_shp H) E; case: sh E => [|e sh] E; cbn [size eq_op]; last first.
  by split; [apply: pres_refl | split; [apply: hv_view E Hk | left]].
have Hw := wfs_row (hv_wfs H) E Hk.
have [P [A1 A2]] := sim_new h Hw.
by split=> //; split=> //; right.
Qed.

Lemma sim_getitem h r a k : hv h r a ->
  sim [::] h (h_getitem r k) (np_getitem a k) (fun h' r' a' => hv h' r' a' /\ (rloc r' = rloc r \/ size h <= rloc r')).
Proof.
move=> H; have [_ _ V] := H; rewrite /h_getitem /np_getitem /sim V.
case E: (np_pos a k) => [i|e] /=; last by split=> //; apply: pres_refl.
case Es: (shp a) E => [|d sh]; rewrite /np_pos Es //.
case: ifP => // /andP [H1 H2] [Ei].
apply: (sim_row H Es).
move: H1 H2; rewrite -Ei; move: (if _ then _ else _) => z /Z.leb_le H1 /Z.ltb_lt H2; apply/ltP; lia.
Qed.

Lemma sim_len h r a : hv h r a -> sim [::] h (h_len r) (np_len a) (fun _ n m => n = m).
Proof.
move=> [_ _ V]; rewrite /sim /h_len /= V; split; first exact: pres_refl.
by case: (np_len a).
Qed.

(** ** Writing *)
Lemma nth_write_out (b : seq (scal N)) ps vs p : p \notin ps ->
  nth (VI 0) (write b ps vs) p = nth (VI 0) b p.
Proof.
elim: ps vs b => [|q ps IH] [|v vs] b //; rewrite inE negb_or => /andP [Hq Hp].
by rewrite /write /= -/(write _ _ _) IH // nth_set_nth /= (negbTE Hq).
Qed.

Lemma map_write (b : seq (scal N)) ps vs : uniq ps -> size vs = size ps ->
  [seq nth (VI 0) (write b ps vs) p | p <- ps] = vs.
Proof.
elim: ps vs b => [|q ps IH] [|v vs] b //= /andP [Hq Hu] [Hs].
rewrite /write /= -/(write _ _ _) IH //; congr cons.
by rewrite nth_write_out // nth_set_nth /= eqxx.
Qed.

Lemma map_write_out (b : seq (scal N)) ps vs s : (forall p, p \in s -> p \notin ps) ->
  [seq nth (VI 0) (write b ps vs) p | p <- s] = [seq nth (VI 0) b p | p <- s].
Proof. by move=> H; apply/eq_in_map => p /H; apply: nth_write_out. Qed.

Lemma uniq_split3 (s : seq nat) i j : uniq s ->
  [/\ uniq (take j (drop i s)), (forall p, p \in take i s -> p \notin take j (drop i s)) &
      (forall p, p \in drop (i + j) s -> p \notin take j (drop i s))].
Proof.
move=> Hu; have: uniq (take i s ++ take j (drop i s) ++ drop (i + j) s).
  by rewrite addnC -drop_drop cat_take_drop cat_take_drop.
rewrite !cat_uniq has_cat negb_or => /and3P [_ /andP [H1 _] /and3P [H2 H3 _]]; split=> // p Hp.
  by apply/negP => Hq; case/hasP: H1; exists p.
by apply/negP => Hq; case/hasP: H3; exists p.
Qed.

Lemma np_pos_lt (a : arr) k i : np_pos a k = Ok i -> exists d sh, shp a = d :: sh /\ i < d.
Proof.
rewrite /np_pos; case: (shp a) => [|d sh] //; case: ifP => // /andP [H1 H2] [<-].
exists d, sh; split=> //.
move: H1 H2; move: (if _ then _ else _) => z /Z.leb_le H1 /Z.ltb_lt H2; apply/ltP; lia.
Qed.

Lemma sim_setitem h ra a k rv v : hv h ra a -> uniq (rpos ra) -> hv h rv v ->
  sim [:: rloc ra] h (h_setitem ra k rv) (np_setitem a k v) (fun h' _ a' => hv h' ra a').
Proof.
move=> Ha Hu Hr; have Wa := hv_wfs Ha; have [_ _ Va] := Ha; have [_ _ Vv] := Hr.
rewrite /sim /h_setitem /np_setitem Va Vv (hv_shp Ha) (hv_shp Hr).
case E: (np_pos a k) => [i|e] /=; last by split=> //; apply: pres_refl.
case: ifP => _ /=; last by split=> //; apply: pres_refl.
have [d [sh [Es Hi]]] := np_pos_lt E.
have Hdst : behead (shp a) = sh by rewrite Es.
rewrite Hdst; set new := map _ (indices sh).
have Hnew : size new = nelem sh by rewrite size_map size_indices.
set ps := take _ _; set b := nth [::] h _.
have [L Z _] := Ha.
have Zp : size (rpos ra) = d * nelem sh by rewrite Z (hv_shp Ha) Es.
have Hps : size ps = nelem sh.
  rewrite size_takel // size_drop Zp -mulnBl -{1}[nelem sh]mul1n leq_mul2r.
  by rewrite subn_gt0 Hi orbT.
split.
  split; first by rewrite size_set_nth leq_maxr.
  by move=> l Hl; rewrite inE => Hne; rewrite nth_set_nth /= (negbTE Hne).
split=> //; first by rewrite size_set_nth leq_maxr orbT || (rewrite size_set_nth; apply: leq_trans (leq_maxl _ _)).
have [U1 U2 U3] := uniq_split3 (i * nelem sh) (nelem sh) Hu.
rewrite -Va /val /= nth_set_nth /= eqxx; congr Arr.
have -> : i.+1 * nelem sh = i * nelem sh + nelem sh by rewrite mulSn addnC.
rewrite -map_take -map_drop.
rewrite -(map_write_out b new U2) -(map_write_out b new U3).
rewrite -/ps; have Em := map_write b U1 (etrans Hnew (esym Hps)).
rewrite -/ps in Em; rewrite -[X in _ = _ ++ X ++ _]Em -!map_cat; congr map.
by rewrite addnC -drop_drop cat_take_drop cat_take_drop.
Qed.

(** Ranges of h_new are duplicate free. *)
Lemma uniq_new n m : uniq (iota n m). Proof. exact: iota_uniq. Qed.

End Sim.
