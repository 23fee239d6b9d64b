(** * MemSim4: the extended filter on arrays in memory *)
From Coq Require Import ZArith List Lia.
From mathcomp Require Import ssreflect ssrfun ssrbool eqtype ssrnat seq path.
From Verif Require Import Np NpLemmas Kf Ekf ApiSpec Loop NpShapes FilterLemmas.
From Verif Require Import Mem MemKf MemLemmas MemSim MemSim2 MemSim3.

Set Implicit Arguments.
Unset Strict Implicit.
Unset Printing Implicit Defensive.

Section Sim.
Variable N : num.
Notation arr := (arr N).
Notation heap := (heap N).
Implicit Types h : heap.

(** The buffers the user callables may read besides their arguments, and what
    they held. *)
Variables (L : seq nat) (h0 : heap).
Definition based h : Prop :=
  size h0 <= size h /\ forall l, l \in L -> l < size h0 /\ nth [::] h l = nth [::] h0 l.

Lemma based_pres W h h' : pres W h h' -> all (fun l => l \notin W) L -> based h -> based h'.
Proof.
move=> [S E] /allP HW [S0 B]; split=> [|l Hl]; first exact: leq_trans S0 S.
have [L0 E0] := B l Hl; split=> //; rewrite E ?HW //.
exact: leq_trans L0 S0.
Qed.

Lemma based_ext h h' : pres [::] h h' -> based h -> based h'.
Proof. by move=> E; apply: based_pres E _; apply/allP. Qed.

(** A user callable that leaves memory as it was and computes [f]. *)
Definition calls2 (hf : ref -> option ref -> hres N ref) (f : arr -> option arr -> res arr) : Prop :=
  forall h rx x ru u, based h -> hv h rx x -> hvo h ru u -> sim [::] h (hf rx ru) (f x u) (@hv N).
Definition calls1 (hf : ref -> hres N ref) (f : arr -> res arr) : Prop :=
  forall h rx x, based h -> hv h rx x -> sim [::] h (hf rx) (f x) (@hv N).

Definition hv_ekf h (o : hekf N) (self : ekf N) : Prop :=
  [/\ based h, [/\ calls2 (he_f o) (e_f self), calls1 (he_h o) (e_h self), calls2 (he_jA o) (e_jA self) &
          calls1 (he_jH o) (e_jH self)],
      [/\ hv h (he_xk o) (e_xk self), hv h (he_Pk o) (e_Pk self), hv h (he_Q o) (e_Q self) &
          hv h (he_R o) (e_R self)] &
      hv h (he_I o) (e_I self) /\ he_size o = e_size self].

Definition ekf_refs (o : hekf N) : seq ref := [:: he_xk o; he_Pk o; he_Q o; he_R o; he_I o].
Definition eavoids (W : seq nat) (o : hekf N) : bool :=
  all (fun l => l \notin W) L && avoids W (ekf_refs o).
Lemma eavoids0 o : eavoids [::] o.
Proof. by rewrite /eavoids avoids0 andbT; apply/allP. Qed.

Lemma hv_ekf_pres W h h' o self : pres W h h' -> eavoids W o -> hv_ekf h o self ->
  hv_ekf h' o self.
Proof.
move=> E /andP [WL]; rewrite /avoids /ekf_refs /= => /and5P [W1 W2 W3 W4 /andP [W5 _]].
move=> [Bs [? ? ? ?] [? ? ? ?] [? ?]].
split=> //; [exact: based_pres E WL Bs | by split; apply: hv_pres E _ _ |].
by split=> //; apply: hv_pres E _ _.
Qed.

Lemma hv_ekf_live h o self : hv_ekf h o self ->
  all (fun l => l < size h) [seq rloc r | r <- ekf_refs o].
Proof. by move=> [_ _ [[H1 _ _] [H2 _ _] [H3 _ _] [H4 _ _]] [[H5 _ _] _]]; rewrite /= H1 H2 H3 H4 H5. Qed.

Lemma hv_ekf_avoids h o self W : hv_ekf h o self -> {in W, forall l, size h <= l} -> eavoids W o.
Proof.
move=> Ho HW; rewrite /eavoids (live_avoids (hv_ekf_live Ho) HW) andbT.
have [[S0 B] _ _ _] := Ho; apply/allP => l Hl; apply/negP => /HW; rewrite leqNgt.
by rewrite (leq_trans (proj1 (B l Hl)) S0).
Qed.

(** The prior covariance is new; the prior mean is what f returned. *)
Lemma sim_epredict h o self n rx ru rP rQ x u P Q : n <= size h -> hv_ekf h o self ->
  hv h rx x -> hvo h ru u -> hv h rP P -> hv h rQ Q ->
  sim [::] h (hekf_predict o rx ru rP rQ) (ekf_predict self x u P Q)
      (fun h' r v => hv h' r.1 v.1 /\ fr n h' r.2 v.2).
Proof.
move=> Hn [Bs [Cf _ CA _] _ _] Hx Hu HP HQ; rewrite /hekf_predict /ekf_predict.
apply: (sim_bind (CA _ _ _ _ _ Bs Hx Hu)) => h1 rA A E1 HA.
apply (based_ext E1) in Bs.
hup E1; move/(hvo_ext E1): Hu => Hu.
apply: (sim_bind (Cf _ _ _ _ _ Bs Hx Hu)) => h2 ry y E2 Hy; hup E2.
apply: (sim_bind (sim_project_cov Hn HA HP HQ)) => h3 rP' P' E3 HP'; hup E3.
exact: sim_ret.
Qed.

Lemma msim_eupdate h g pg o self n rx rP rz rR x P z R : n <= size h -> Forall2 (hv h) g pg ->
  hv_ekf h o self -> hv h rx x -> hv h rP P -> hv h rz z -> hv h rR R ->
  msim [::] h g pg (hekf_update o rx rP rz rR) (ekf_update self x P z R) (fr2 n).
Proof.
move=> Hn Hg Ho Hx HP Hz HR; rewrite /hekf_update /ekf_update.
have [Bs [_ Ch _ CH] _ [HI _]] := Ho.
apply: msim_bind => //; first exact: avoids0.
  exact: (msim_lift (avoids0 _) Hg (CH _ _ _ Bs Hx)).
move=> h00 g0 pg0 rH H E _ Hg0 HH; hup E; apply (based_ext E) in Bs; clear E g pg Hg.
apply: msim_bind => //; first exact: avoids0.
  by apply: (msim_lift _ Hg0); [apply: avoids0 | apply: sim_innov (leqnn _) HH HP HR].
move=> h1 g1 pg1 rS S E _ Hg1 [HS _]; hup E; apply (based_ext E) in Bs; clear E g0 pg0 Hg0.
apply: (msim_gain Hg1 (sim_gain (leqnn _) HS HH HP)).
move=> h2 g2 pg2 rK K E Hg2 HK; hup E; apply (based_ext E) in Bs; clear E g1 pg1 Hg1.
apply: msim_bind => //; first exact: avoids0.
  exact: (msim_lift (avoids0 _) Hg2 (Ch _ _ _ Bs Hx)).
move=> h3 g3 pg3 rh zh E _ Hg3 Hh; hup E; clear E g2 pg2 Hg2.
apply: (msim_pair Hn Hg3 (sim_correct_state Hn Hx HK Hz Hh)).
by move=> h4 E; hup E; apply: sim_correct_cov.
Qed.

Tactic Notation "mrow" constr(H) constr(K) "as" ident(h') ident(r) ident(Hr) :=
  let E := fresh "E" in let Hg := fresh "Hg" in
  match goal with Hgg : Forall2 _ _ _, Ho : hv_ekf _ _ _ |- _ =>
    refine (msim_bindl Hgg (sim_row_lt H K) _); intros h' r E Hg Hr; hup E;
    apply (hv_ekf_pres E (eavoids0 _)) in Ho; clear E; clear Hgg end.

Lemma msim_ekf_step h g pg o self rU U rZ Z k xP vxP :
  hv_ekf h o self -> hv h rU U -> hv h rZ Z -> hv2 h xP vxP -> Forall2 (hv h) g pg ->
  [/\ k < nrows U, k < nrows Z, k < nrows (e_Q self) & k < nrows (e_R self)] ->
  msim [::] h g pg (hekf_step o rU rZ k xP) (ekf_step self (erow_at self Z U k) vxP) (fr2 (size h)).
Proof.
move=> Ho HU HZ [HxP1 HxP2] Hg [K4 K5 K6 K7].
have [_ _ [_ _ HQ HR] _] := Ho.
have Hn := leqnn (size h); move: {1 3}(size h) Hn => n Hn.
rewrite /hekf_step /ekf_step.
mrow HU K4 as h4 ru Hu; mrow HZ K5 as h5 rz Hz; mrow HQ K6 as h6 rq Hq.
mrow HR K7 as h7 rr Hr.
apply: msim_bind => //; first exact: avoids0.
  apply: msim_lift; [exact: avoids0 | eassumption |].
  exact: (@sim_epredict _ _ _ _ _ (Some ru) _ _ _ (Some _) _ _ Hn Ho HxP1 Hu HxP2 Hq).
move=> h8 g8 pg8 pr vpr E _ Hg8 [F1 [F2 _]]; hup E.
exact: msim_eupdate (hv_ekf_pres E (eavoids0 _) Ho) _ _ _ _.
Qed.

Lemma e_filter_core h g o self rZ Z rU U :
  hv_ekf h o self -> hv h rZ Z -> hvo h rU U -> e_iterable self Z U ->
  exists h1 out rU',
    [/\ pres [::] h h1, fr2 (size h) h1 out (alloc N (nrows Z) (e_size self)), outs2 out,
        hv h1 rU' (control Z U) /\ rloc rU' \notin outW out &
        hekf_filter o rZ rU g h =
        h_filter_loop (hekf_step o rU' rZ) (e_steps self Z U) 0 (he_xk o, he_Pk o) out g h1].
Proof.
move=> Ho HZ HU; rewrite /e_iterable /= => /and5P [SZ SU SQ SR _].
rewrite /hekf_filter /hmbind /hmlift (h_lenE HZ) (len_sized SZ).
have [_ _ _ [_ Hsz]] := Ho; rewrite Hsz.
have := sim_alloc h (nrows Z) (e_size self); rewrite /sim.
case: (h_alloc _ _ h) => [h1 [out|e]] /= [P1] // [F1 O1].
have := sim_check (hvo_ext P1 HU) (hv_ext P1 HZ); rewrite /sim.
case: (h_check_none _ _ h1) => [h2 [rU'|e]] /= [P2] // [HU2 LU2].
have P12 := pres_trans P1 P2.
have Ho2 := hv_ekf_pres P12 (eavoids0 _) Ho.
have [_ _ [_ _ HQ HR] _] := Ho2.
rewrite (lenV HU2) (len_sized SU) (lenV (hv_ext P12 HZ)) (len_sized SZ).
rewrite (lenV HQ) (len_sized SQ) (lenV HR) (len_sized SR).
exists h2, out, rU'; split=> //.
- by case: F1 => F11 F12 F13; split=> //; apply: fr_ext P2 _.
- split=> //; apply/negP => Hin.
  have Hl : size h <= rloc rU'.
    by move: Hin; case: F1 => [[_ L1] [_ L2] _]; rewrite /outW !inE => /orP [/eqP -> | /eqP ->].
  have Hlt : rloc rU' < size h1.
    by move: Hin; case: F1 => [[[L1 _ _] _] [[L2 _ _] _] _]; rewrite /outW !inE => /orP [/eqP -> | /eqP ->].
  move: HU (LU2 Hlt); case: rU {LU2} => [r0|] // HU [E0]; case: U HU {SU HU2} => [U0|] //= [Lu _ _].
  by rewrite E0 leqNgt Lu in Hl.
Qed.

Lemma e_filter_unsized h g o self rZ Z rU U :
  hv_ekf h o self -> hv h rZ Z -> hvo h rU U -> ~~ e_iterable self Z U ->
  exists2 h1, pres [::] h h1 & hekf_filter o rZ rU g h = (g, (h1, Raise TypeError)).
Proof.
move=> Ho HZ HU; rewrite /e_iterable => Hit.
rewrite /hekf_filter /hmbind /hmlift (h_lenE HZ).
case SZ: (sized Z) Hit; last first.
  by exists h; [apply: pres_refl | rewrite len_unsized ?SZ].
rewrite len_sized //.
have := sim_alloc h (nrows Z) (he_size o); rewrite /sim.
case: (h_alloc _ _ h) => [h1 [out|e]] /= [P1] // _.
have := sim_check (hvo_ext P1 HU) (hv_ext P1 HZ); rewrite /sim.
case: (h_check_none _ _ h1) => [h2 [rU'|e]] /= [P2] // [HU2 LU2].
have P12 := pres_trans P1 P2.
have Ho2 := hv_ekf_pres P12 (eavoids0 _) Ho.
have [_ _ [_ _ HQ HR] _] := Ho2 => Hit.
exists h2 => //; rewrite (lenV HU2).
case SU: (sized (control Z U)) Hit; last by rewrite len_unsized ?SU.
rewrite (len_sized SU) (lenV (hv_ext P12 HZ)) (len_sized SZ) (lenV HQ).
case SQ: (sized (e_Q self)); last by rewrite len_unsized ?SQ.
rewrite (len_sized SQ) (lenV HR).
by case SR: (sized (e_R self)); [rewrite SZ | rewrite len_unsized ?SR].
Qed.

Lemma call_efilter h g pg o self rZ Z rU U :
  hv_ekf h o self -> hv h rZ Z -> hvo h rU U -> Forall2 (hv h) g pg ->
  call_ok h g pg (hekf_filter o rZ rU) (ekf_filter self Z U).
Proof.
move=> Ho HZ HU Hg; case Hit: (e_iterable self Z U); last first.
  have [h1 P1 E1] := e_filter_unsized g Ho HZ HU (negbT Hit).
  rewrite /call_ok /msim E1 (ekf_filter_unsized _ (negbT Hit)) /=; split=> //; split=> //.
    by exists [::]; rewrite ?cats0.
  exact: hvs_pres P1 (avoids0 _) Hg.
have [h1 [out [rU' [P1 F1 O1 [HU1 WU] E1]]]] := e_filter_core g Ho HZ HU Hit.
have HW : {in outW out, forall l, size h <= l}.
  by case: F1 => [[_ L1] [_ L2] _] l; rewrite /outW !inE => /orP [/eqP -> | /eqP ->].
have HW1 : {in outW out, forall l, l < size h1}.
  by case: F1 => [[[L1 _ _] _] [[L2 _ _] _] _] l; rewrite /outW !inE => /orP [/eqP -> | /eqP ->].
have Hwo := hv_ekf_avoids Ho HW.
have Hwg : avoids (outW out) g by apply: live_avoids (hvs_live Hg) HW.
have HwZ : rloc rZ \notin outW out.
  by case: HZ => Lz _ _; apply/negP => /HW; rewrite leqNgt Lz.
pose Inv (h' : heap) := [/\ hv_ekf h' o self, hv h' rU' (control Z U) & hv h' rZ Z].
have Hinv h2 h3 : pres (outW out) h2 h3 -> Inv h2 -> Inv h3.
  move=> E [K1 K2 K3]; split; first exact: hv_ekf_pres E Hwo K1.
    exact: hv_pres E WU K2.
  exact: hv_pres E HwZ K3.
have [K1 K2 K3 K4] := e_steps_le self Z U.
have Hstep h' g' pg' k xP vxP : k < e_steps self Z U -> Inv h' -> hv2 h' xP vxP ->
    Forall2 (hv h') g' pg' ->
    msim [::] h' g' pg' (hekf_step o rU' rZ k xP)
         (ekf_step self (erow_at self Z (control Z U) k) vxP) (fr2 (size h')).
  move=> Hk [I1 I2 I3] HxP Hg'; apply: msim_ekf_step => //.
  by split; apply: leq_trans Hk _.
have I1 : Inv h1 by split=> //; [apply: hv_ekf_pres P1 (eavoids0 _) Ho | apply: hv_ext P1 HZ].
have Hg1 := hvs_pres P1 (avoids0 _) Hg.
have Hout1 : hv2 h1 out (alloc N (nrows Z) (e_size self)) by case: F1 => [[? _] [? _] _].
have HxP1 : hv2 h1 (he_xk o, he_Pk o) (e_xk self, e_Pk self).
  by case: I1 => [[_ _ [? ? _ _] _] _ _].
have M := @msim_loop N (erow N) Inv out (hekf_step o rU' rZ) (ekf_step self)
  (erow_at self Z (control Z U)) (e_steps self Z U) O1 Hinv Hstep (e_steps self Z U) 0
  _ _ _ h1 g pg (leqnn _) I1 Hwg Hout1 HxP1 Hg1.
rewrite -/(e_rows_of self Z U) in M.
move: M; rewrite /call_ok /msim E1 (ekf_filterE _ Hit).
case: (h_filter_loop _ _ _ _ _ _ _) => [g2 [h2 r]]; case: (filter_loop _ _ _ _ _ _) => [pg2 pr] /=.
move=> [Pl [d Gd Nd] Vl Al].
split.
  split=> //.
  - exact: pres_new HW (pres_trans (pres0 _ P1) Pl).
  - by exists d => //; apply: newlist_le Nd; apply: (proj1 P1).
  - apply: agrees_impl Al => r' v [-> [V1 V2]]; case: F1 => [[_ L1] [_ L2] L3].
    by split=> //; split.
move=> h' g' out' [Eg _ Er]; move: Al; rewrite Er -Eg Gd.
case: pr => // v [-> _].
rewrite /avoids map_cat all_cat -/(avoids _ g) Hwg /=; case/andP: Nd => A _.
by apply: sub_all A => l Hl; apply/negP => /HW1; rewrite ltnNge Hl.
Qed.

Tactic Notation "gstep" uconstr(lem) "as" ident(h') ident(r) ident(v) simple_intropattern(H) :=
  let E := fresh "E" in
  refine (sim_bindW (@sub0 _) lem _); intros h' r v E H; hup E;
  repeat match goal with K : hv2 _ _ _ |- _ => apply (hv2_pres E isT isT) in K end;
  repeat match goal with K : hv_ekf _ _ _ |- _ => apply (hv_ekf_pres E (eavoids0 _)) in K end; clear E.
Tactic Notation "gstepE" uconstr(lem) "as" ident(h') ident(r) ident(v) ident(Q) simple_intropattern(H) :=
  let E := fresh "E" in
  refine (sim_bindE (@sub0 _) lem _); intros h' r v E Q H; hup E;
  repeat match goal with K : hv2 _ _ _ |- _ => apply (hv2_pres E isT isT) in K end;
  repeat match goal with K : hv_ekf _ _ _ |- _ => apply (hv_ekf_pres E (eavoids0 _)) in K end; clear E.

Lemma sim_ekf_smooth_step h o self rU U est vest sm vsm k :
  outs2 sm -> hv_ekf h o self -> hv h rU U -> hv2 h sm vsm -> hv2 h est vest ->
  rloc est.1 \notin outW sm -> rloc est.2 \notin outW sm ->
  sim (outW sm) h (hekf_smooth_step o rU est sm k) (ekf_smooth_step self U vest k vsm)
      (fun h' _ v => hv2 h' sm v).
Proof.
move=> Hout Ho HU Hsm He W1 W2; have [_ _ [_ _ HQ _] _] := Ho.
have Hlive : {in outW sm, forall l, l < size h}.
  by case: Hsm => [[L1 _ _] [L2 _ _]] l; rewrite /outW !inE => /orP [/eqP -> | /eqP ->].
have {Hlive} [n Hn Hlive] : exists2 n, n <= size h & {in outW sm, forall l, l < n} by exists (size h).
have Hav l : n <= l -> l \notin outW sm.
  by move=> Hl; apply/negP => /Hlive; rewrite ltnNge Hl.
rewrite /hekf_smooth_step /ekf_smooth_step.
gstep (sim_get (Z.of_nat k.+1) HQ) as h2 rQ Q Hq.
gstep (sim_get (Z.of_nat k.+1) HU) as h4 ru u Hu.
gstepE (sim_get (Z.of_nat k) (proj2 He)) as h5 rP P EP HP.
gstepE (sim_get (Z.of_nat k) (proj1 He)) as h6 rx x Ex Hx.
gstep (@sim_epredict _ _ _ n _ (Some ru) _ _ _ (Some _) _ _ Hn Ho Hx Hu HP Hq) as h7 ah vah [F1 [F2 L2]].
have [Bs [_ _ CA _] _ _] := Ho.
gstep (CA _ _ _ (Some ru) (Some _) Bs Hx Hu) as h8 rA A HA.
apply: sim_smooth_body EP Ex => //.
exact: Hav.
Qed.

Lemma call_esmooth h g pg o self rZ Z rU U :
  hv_ekf h o self -> hv h rZ Z -> hvo h rU U -> Forall2 (hv h) g pg ->
  call_ok h g pg (hekf_smooth o rZ rU) (ekf_smooth self Z U).
Proof.
move=> Ho HZ HU Hg; have Cf := call_efilter Ho HZ HU Hg.
have Eq1 : hekf_smooth o rZ rU g h = hmbind (hekf_filter o rZ rU) (fun est => hmlift
  (h_rest_smooth (h_len rZ) (he_size o) (fun sm => h_smooth_last sm est) (h_check_none rU rZ)
    (fun sm U' T => h_smooth_loop (fun k => hekf_smooth_step o U' est sm k) (T - 1)))) g h.
  rewrite /hekf_smooth /hmbind; case: (hekf_filter o rZ rU g h) => [g1 [h1 [est|e]]] //.
  rewrite /h_rest_smooth /hmlift /hbind /hmret /hret.
  case: (h_len rZ h1) => [h2 [T|e]] //; case: (h_alloc T _ h2) => [h3 [sm|e]] //.
  case: (h_smooth_last sm est h3) => [h4 [[]|e]] //; case: (h_check_none rU rZ h4) => [h5 [U'|e]] //.
  by case: (h_smooth_loop _ _ h5) => [h6 [[]|e]].
have Eq2 : ekf_smooth self Z U pg = mbind (ekf_filter self Z U) (fun vest => mlift
  (do T <- np_len Z; do sm <- smooth_init T (e_size self) vest;
   smooth_loop (ekf_smooth_step self (control Z U) vest) (T - 1) sm)) pg.
  rewrite /ekf_smooth /mbind; case: (ekf_filter self Z U pg) => [pg1 [vest|e]] //.
  rewrite /mlift /rbind; case: (np_len Z) => [T|e] //.
  by case: (smooth_init T (e_size self) vest).
rewrite /call_ok /msim Eq1 Eq2; apply: (call_after_filter (leqnn _) Cf).
move=> h1 est vest P1 [[He1 _] [He2 _] _].
have Hsz : he_size o = e_size self by case: Ho => _ _ _ [].
rewrite Hsz; have Ho1 := hv_ekf_pres P1 (eavoids0 _) Ho.
apply: (@sim_rest_smooth N (fun h' => hv_ekf h' o self) _ _ _ _ _ _ _ U) => //.
- by move=> W ha hb HW E; apply: hv_ekf_pres E (hv_ekf_avoids Ho1 HW).
- by move=> h' sm rU' k vsm Osm Hi HU' Hsm He W1 W2; apply: sim_ekf_smooth_step.
- exact: hv_ext P1 HZ.
- exact: hvo_ext P1 HU.
Qed.

End Sim.
