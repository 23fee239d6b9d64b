(** * MemSim: the methods on arrays in memory compute what the value model does *)
From Coq Require Import ZArith List Lia.
From mathcomp Require Import ssreflect ssrfun ssrbool eqtype ssrnat seq path.
From Verif Require Import Np NpLemmas Kf Ekf ApiSpec Loop NpShapes FilterLemmas Mem MemKf MemLemmas.

Set Implicit Arguments.
Unset Strict Implicit.
Unset Printing Implicit Defensive.

Ltac hup E :=
  repeat match type of E with
  | pres [::] ?h ?h' =>
    match goal with
    | H : hv h _ _ |- _ => apply (hv_ext E) in H
    | H : fr _ h _ _ |- _ => apply (fr_ext E) in H
    | H : is_true (_ <= size h) |- _ => apply (fun K => leq_trans K (proj1 E)) in H
    end
  end.
Tactic Notation "hstep" uconstr(lem) "as" ident(h') ident(r) ident(v) simple_intropattern(H) :=
  let E := fresh "E" in
  refine (sim_bind lem _); intros h' r v E H; hup E; clear E.

Section Sim.
Variable N : num.
Notation arr := (arr N).
Notation heap := (heap N).
Implicit Types h : heap.

(** A pair of arrays in two different new buffers. *)
Definition fr2 (n : nat) h (r : ref * ref) (a : arr * arr) : Prop :=
  [/\ fr n h r.1 a.1, fr n h r.2 a.2 & rloc r.1 <> rloc r.2].

Lemma sim_fr m h (x : hres N ref) (p : res arr) : m <= size h ->
  sim [::] h x p (fr (size h)) -> sim [::] h x p (fr m).
Proof. by move=> Hm; apply: sim_impl => h' a b _; apply: fr_le. Qed.

Lemma sim_project_cov h n rA rP rQ A P Q : n <= size h -> hv h rA A -> hv h rP P -> hv h rQ Q ->
  sim [::] h (h_project_cov rA rP rQ) (project_cov A P Q) (fr n).
Proof.
move=> Hn HA HP HQ; rewrite /h_project_cov /project_cov.
hstep (sim_matmul HP (hv_T HA)) as h1 r1 v1 [H1 _].
hstep (sim_matmul HA H1) as h2 r2 v2 [H2 _].
exact: sim_fr Hn (sim_add H2 HQ).
Qed.

(** None, or an array. *)
Definition hvo h (r : option ref) (a : option arr) : Prop :=
  match r, a with Some r, Some a => hv h r a | None, None => True | _, _ => False end.

Lemma hvo_ext h h' r a : pres [::] h h' -> hvo h r a -> hvo h' r a.
Proof. by case: r => [r|]; case: a => [a|] //=; apply: hv_ext. Qed.

Lemma sim_is_nan h r a : hvo h r a -> sim [::] h (h_is_nan_all r) (is_nan_all a) (fun _ b c => b = c).
Proof.
case: r => [r|]; case: a => [a|] //= H.
by case: H => _ _ V; split; [apply: pres_refl | rewrite /= V].
Qed.

Lemma sim_project_state h n rA rx rB ru A x B u : n <= size h -> hv h rA A -> hv h rx x ->
  hvo h rB B -> hvo h ru u ->
  sim [::] h (h_project_state rA rx rB ru) (project_state A x B u) (fr n).
Proof.
move=> Hn HA Hx HB Hu; rewrite /h_project_state /project_state.
apply: (sim_bind (sim_is_nan HB)) => h1 c c' E1 ->.
hup E1; move/(hvo_ext E1): HB => HB; move/(hvo_ext E1): Hu => Hu.
apply: (@sim_bind _ _ _ _ _ _ _ _ _ _ _ (fun _ b c => b = c)).
  by case: c'; [apply: sim_ret | apply: sim_is_nan].
move=> h2 d d' E2 ->.
hup E2; move/(hvo_ext E2): HB => HB; move/(hvo_ext E2): Hu => Hu.
case: d'; first exact: sim_fr Hn (sim_matmul HA Hx).
apply: (sim_bind (sim_matmul HA Hx)) => h3 r3 v3 E3 [H3 _].
hup E3; move/(hvo_ext E3): HB => HB; move/(hvo_ext E3): Hu => Hu.
case: rB B HB ru u Hu {E1 E2 E3} => [rB|] [B|] //= HB [ru|] [u|] //= Hu; try (by split=> //; apply: pres_refl).
hstep (sim_matmul HB Hu) as h4 r4 v4 [H4 _].
exact: sim_fr Hn (sim_add H3 H4).
Qed.

(** A new pair, made one after the other. *)
Lemma sim_pair h n (mx mP : hres N ref) (px pP : res arr) : n <= size h ->
  sim [::] h mx px (fr n) ->
  (forall h', pres [::] h h' -> sim [::] h' mP pP (fr (size h'))) ->
  sim [::] h (hbind mx (fun x => hbind mP (fun P => hret (x, P))))
      (rbind px (fun x => rbind pP (fun P => Ok (x, P)))) (fr2 n).
Proof.
move=> Hn H1 H2; apply: (sim_bind H1) => h1 rx x E1 Fx.
apply: (sim_bind (H2 _ E1)) => h2 rP P E2 [HP LP].
apply: sim_ret; have [Hx Lx] := Fx; split=> /=.
- exact: fr_ext E2 Fx.
- by split=> //; apply: leq_trans (leq_trans Hn (proj1 E1)) LP.
- by case: Hx => L _ _ E; rewrite E in L; rewrite leqNgt L in LP.
Qed.

Lemma sim_predict h n rA rx rB ru rP rQ A x B u P Q : n <= size h ->
  hv h rA A -> hv h rx x -> hvo h rB B -> hvo h ru u -> hv h rP P -> hv h rQ Q ->
  sim [::] h (hkf_predict rA rx rB ru rP rQ) (kf_predict A x B u P Q) (fr2 n).
Proof.
move=> Hn HA Hx HB Hu HP HQ; apply: sim_pair => //; first exact: sim_project_state.
by move=> h' E; hup E; apply: sim_project_cov.
Qed.

Lemma sim_innov h n rH rP rR H P R : n <= size h -> hv h rH H -> hv h rP P -> hv h rR R ->
  sim [::] h (h_innov_cov rH rP rR) (innov_cov H P R) (fr n).
Proof.
move=> Hn HH HP HR; rewrite /h_innov_cov /innov_cov.
hstep (sim_matmul HP (hv_T HH)) as h1 r1 v1 [H1 _].
hstep (sim_matmul HH H1) as h2 r2 v2 [H2 _].
exact: sim_fr Hn (sim_add H2 HR).
Qed.

Lemma sim_solve_T h n ra rb a b : n <= size h -> hv h ra a -> hv h rb b ->
  sim [::] h (hbind (h_solve ra rb) (fun X => hret (h_T X)))
      (rbind (np_solve a b) (fun X => Ok (np_T X))) (fr n).
Proof.
move=> Hn Ha Hb; apply: (sim_bind (sim_solve Ha Hb)) => h1 r1 v1 E1 [H1 L1].
apply: sim_ret; split; first exact: hv_T.
exact: leq_trans Hn L1.
Qed.

Lemma sim_gain h n rS rH rP S H P : n <= size h -> hv h rS S -> hv h rH H -> hv h rP P ->
  sim [::] h (h_gain rS rH rP) (gain S H P) (fr n).
Proof.
move=> Hn HS HH HP; rewrite /h_gain /gain.
hstep (sim_matmul HH (hv_T HP)) as h1 r1 v1 [H1 _].
exact: sim_solve_T Hn (hv_T HS) H1.
Qed.

Lemma sim_correct_state h n rx rK rz rh x K z zh : n <= size h ->
  hv h rx x -> hv h rK K -> hv h rz z -> hv h rh zh ->
  sim [::] h (h_correct_state rx rK rz rh) (correct_state x K z zh) (fr n).
Proof.
move=> Hn Hx HK Hz Hh; rewrite /h_correct_state /correct_state.
hstep (sim_sub Hz Hh) as h1 r1 v1 [H1 _].
hstep (sim_matmul HK (hv_atleast H1)) as h2 r2 v2 [H2 _].
exact: sim_fr Hn (sim_add Hx H2).
Qed.

Lemma sim_correct_cov h n rI rK rH rP I K H P : n <= size h ->
  hv h rI I -> hv h rK K -> hv h rH H -> hv h rP P ->
  sim [::] h (h_correct_cov rI rK rH rP) (correct_cov I K H P) (fr n).
Proof.
move=> Hn HI HK HH HP; rewrite /h_correct_cov /correct_cov.
hstep (sim_matmul HK HH) as h1 r1 v1 [H1 _].
hstep (sim_sub HI H1) as h2 r2 v2 [H2 _].
exact: sim_fr Hn (sim_matmul H2 HP).
Qed.

(** ** Methods *)

(** References to pairwise different buffers numbered [n] or more. *)
Definition newlist (n : nat) (d : seq ref) : bool :=
  all (leq n) [seq rloc r | r <- d] && sorted ltn [seq rloc r | r <- d].

Definition msim W h (g : seq ref) (pg : seq arr) A B (m : hmeth N A) (p : meth N B)
    (R : heap -> A -> B -> Prop) : Prop :=
  [/\ pres W h (m g h).2.1,
      exists2 d, (m g h).1 = g ++ d & newlist (size h) d,
      Forall2 (hv (m g h).2.1) (m g h).1 (p pg).1 &
      agrees (R (m g h).2.1) (m g h).2.2 (p pg).2].

(** [g] avoids the buffers [W]. *)
Definition avoids (W : seq nat) (g : seq ref) : bool := all (fun l => l \notin W) [seq rloc r | r <- g].

Lemma avoids0 g : avoids [::] g. Proof. exact/allP. Qed.

Lemma hvs_pres W h h' g pg : pres W h h' -> avoids W g -> Forall2 (hv h) g pg ->
  Forall2 (hv h') g pg.
Proof.
move=> E Hw H; elim: H Hw => [|r a g' pg' Hr _ IH] /=; first by constructor.
by case/andP=> Hw /IH; constructor=> //; apply: hv_pres E Hw Hr.
Qed.

Lemma hvs_live h g pg : Forall2 (hv h) g pg -> all (fun l => l < size h) [seq rloc r | r <- g].
Proof. by elim=> //= r a g' pg' [-> _ _] _ ->. Qed.

Lemma newlist_cat n m d1 d2 : n <= m -> newlist n d1 -> all (fun l => l < m) [seq rloc r | r <- d1] ->
  newlist m d2 -> newlist n (d1 ++ d2).
Proof.
move=> Hnm /andP [A1 S1] L1 /andP [A2 S2]; apply/andP; split.
  by rewrite map_cat all_cat A1 /=; apply: sub_all A2 => r; apply: leq_trans.
rewrite map_cat sorted_pairwise; last exact: ltn_trans.
rewrite pairwise_cat -!sorted_pairwise ?S1 ?S2 ?andbT //; try exact: ltn_trans.
apply/allrelP => l1 l2 Hr Hs.
exact: leq_trans (allP L1 _ Hr) (allP A2 _ Hs).
Qed.

Lemma msim_ret W h g pg A B (a : A) (b : B) (R : heap -> A -> B -> Prop) :
  Forall2 (hv h) g pg -> R h a b -> msim W h g pg (hmret a) (mret b) R.
Proof.
by move=> Hg HR; split=> //; exists [::]; rewrite ?cats0.
Qed.

Lemma msim_lift W h g pg A B (m : hres N A) (p : res B) R :
  avoids W g -> Forall2 (hv h) g pg -> sim W h m p R ->
  msim W h g pg (hmlift m) (mlift p) R.
Proof.
move=> Hw Hg [P HA]; split=> //=; first by exists [::]; rewrite ?cats0.
exact: hvs_pres P Hw Hg.
Qed.

(** [W] only has buffers of [h], so new gains avoid it. *)
Lemma msim_bind W h g pg A B A' B' (m : hmeth N A) (p : meth N B) f q R
    (R' : heap -> A' -> B' -> Prop) :
  {in W, forall l, l < size h} -> avoids W g -> msim W h g pg m p R ->
  (forall h' g' pg' a b, pres W h h' -> avoids W g' -> Forall2 (hv h') g' pg' -> R h' a b ->
     msim W h' g' pg' (f a) (q b) R') ->
  msim W h g pg (hmbind m f) (mbind p q) R'.
Proof.
move=> HW Hw [P1 [d1 G1 N1] V1 A1] H; rewrite /msim /hmbind /mbind.
case Em: (m g h) P1 G1 V1 A1 => [g1 [h1 [a|e]]] /= P1 G1;
  case Ep: (p pg) => [pg1 [b|e']] //= V1 A1; last by split=> //; exists d1.
have Hw1 : avoids W g1.
  rewrite G1 /avoids map_cat all_cat -/(avoids W g) Hw /=; case/andP: N1 => A1' _; apply: sub_all A1' => r Hr.
  by apply/negP => /HW; rewrite ltnNge Hr.
have [P2 [d2 G2 N2] V2 A2] := H _ _ _ _ _ P1 Hw1 V1 A1; split=> //.
- exact: pres_trans P1 P2.
- exists (d1 ++ d2); first by rewrite G2 G1 catA.
  apply: newlist_cat (proj1 P1) N1 _ N2.
  by have := hvs_live V1; rewrite G1 map_cat all_cat => /andP [].
Qed.

Lemma msim_impl W h g pg A B (m : hmeth N A) (p : meth N B) (R R' : heap -> A -> B -> Prop) :
  (forall h' a b, pres W h h' -> R h' a b -> R' h' a b) ->
  msim W h g pg m p R -> msim W h g pg m p R'.
Proof. by move=> HR [P G V HA]; split=> //; apply: agrees_impl HA => a b; apply: HR. Qed.

Lemma msim0 W h g pg A B (m : hmeth N A) (p : meth N B) R :
  msim [::] h g pg m p R -> msim W h g pg m p R.
Proof. by case=> /pres0 P G V HA; split. Qed.

(** Computing a gain and appending it. *)
Lemma msim_gain h g pg A' B' (m : hres N ref) (p : res arr) f q (R' : heap -> A' -> B' -> Prop) :
  Forall2 (hv h) g pg -> sim [::] h m p (fr (size h)) ->
  (forall h' g' pg' r a, pres [::] h h' -> Forall2 (hv h') g' pg' -> hv h' r a ->
     msim [::] h' g' pg' (f r) (q a) R') ->
  msim [::] h g pg (hmbind (hmlift m) (fun r => hmbind (h_append_gain r) (fun _ => f r)))
       (mbind (mlift p) (fun a => mbind (append_gain a) (fun _ => q a))) R'.
Proof.
move=> Hg [P1 A1] H; rewrite /msim /hmbind /mbind /hmlift /mlift /h_append_gain /append_gain.
case Em: (m h) P1 A1 => [h1 [r|e]] /= P1; case: p => [a|e'] //= A1; last first.
  split=> //; first by exists [::]; rewrite ?cats0.
  exact: hvs_pres P1 (avoids0 _) Hg.
have [Hr Lr] := A1.
have Hg1 : Forall2 (hv h1) (rcons g r) (rcons pg a).
  rewrite -!cats1; apply: Forall2_app; first exact: hvs_pres P1 (avoids0 _) Hg.
  by constructor=> //; constructor.
have [P2 [d2 G2 N2] V2 A2] := H _ _ _ _ _ P1 Hg1 Hr; split=> //.
- exact: pres_trans P1 P2.
- exists (r :: d2); first by rewrite G2 cat_rcons.
  rewrite -cat1s; apply: newlist_cat (proj1 P1) _ _ N2; first by rewrite /newlist /= Lr.
  by case: Hr => L _ _; rewrite /= L.
Qed.

Ltac msplit := split=> //; try exact: avoids0.

Lemma msim_pair h g pg n (mx mP : hres N ref) (px pP : res arr) : n <= size h ->
  Forall2 (hv h) g pg -> sim [::] h mx px (fr n) ->
  (forall h', pres [::] h h' -> sim [::] h' mP pP (fr (size h'))) ->
  msim [::] h g pg (hmbind (hmlift mx) (fun x => hmbind (hmlift mP) (fun P => hmret (x, P))))
       (mbind (mlift px) (fun x => mbind (mlift pP) (fun P => mret (x, P)))) (fr2 n).
Proof.
move=> Hn Hg H1 H2.
have [P HA] := sim_pair Hn H1 H2.
have -> : mbind (mlift px) (fun x => mbind (mlift pP) (fun P => mret (x, P))) =
          mlift (rbind px (fun x => rbind pP (fun P => Ok (x, P)))) :> meth N _.
  by rewrite /mbind /mlift /mret /rbind; case: px {H1 HA} => [?|?] //; case: pP {H2} => [?|?].
have E (g' : seq ref) (h' : heap) : hmbind (hmlift mx) (fun x => hmbind (hmlift mP) (fun P => hmret (x, P))) g' h' =
  hmlift (hbind mx (fun x => hbind mP (fun P => hret (x, P)))) g' h'.
  rewrite /hmbind /hmlift /hmret /hbind /hret.
  by case: (mx h') => [? [?|?]] //; case: (mP _) => [? [?|?]].
rewrite /msim !E; apply: (msim_lift _ Hg); first exact: avoids0.
exact: sim_pair.
Qed.

Lemma msim_update h g pg n rI rH rx rP rz rR I H x P z R : n <= size h -> Forall2 (hv h) g pg ->
  hv h rI I -> hv h rH H -> hv h rx x -> hv h rP P -> hv h rz z -> hv h rR R ->
  msim [::] h g pg (hkf_update rI rH rx rP rz rR) (kf_update I H x P z R) (fr2 n).
Proof.
move=> Hn Hg HI HH Hx HP Hz HR; rewrite /hkf_update /kf_update.
apply: msim_bind => //; first exact: avoids0.
  by apply: (msim_lift _ Hg); [apply: avoids0 | apply: sim_innov (leqnn _) HH HP HR].
move=> h1 g1 pg1 rS S E _ Hg1 [HS _]; hup E; clear E g pg Hg.
apply: msim_gain Hg1 _ _; first exact: sim_gain.
move=> h2 g2 pg2 rK K E Hg2 HK; hup E; clear E g1 pg1.
apply: msim_bind => //; first exact: avoids0.
  by apply: (msim_lift _ Hg2); [apply: avoids0 | apply: sim_matmul HH Hx].
move=> h3 g3 pg3 rh zh E _ Hg3 [Hh _]; hup E; clear E g2 pg2 Hg2.
apply: (msim_pair Hn Hg3 (sim_correct_state Hn Hx HK Hz Hh)).
by move=> h4 E; hup E; apply: sim_correct_cov.
Qed.

End Sim.
