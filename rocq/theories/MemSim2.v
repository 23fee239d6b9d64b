(** * MemSim2: filter and smooth on arrays in memory *)
From Coq Require Import ZArith List Lia.
From mathcomp Require Import ssreflect ssrfun ssrbool eqtype ssrnat seq path.
From Verif Require Import Np NpLemmas Kf Ekf ApiSpec Loop NpShapes FilterLemmas Mem MemKf MemLemmas MemSim.

Set Implicit Arguments.
Unset Strict Implicit.
Unset Printing Implicit Defensive.

Section Sim.
Variable N : num.
Notation arr := (arr N).
Notation heap := (heap N).
Implicit Types h : heap.

Lemma sim_rmap W h A B C (m : hres N A) (p : res B) (f : B -> C) R (R' : heap -> A -> C -> Prop) :
  sim W h m p R -> (forall h' a b, pres W h h' -> R h' a b -> R' h' a (f b)) ->
  sim W h m (rbind p (fun b => Ok (f b))) R'.
Proof.
move=> [P H1] H2; split=> //; case: (m h).2 H1 => [a|e]; case: p => [b|e'] //= H1.
exact: H2 P H1.
Qed.

(** Two output arrays in different buffers. *)
Definition outs2 (out : ref * ref) : Prop :=
  [/\ rloc out.1 <> rloc out.2, uniq (rpos out.1) & uniq (rpos out.2)].
Definition outW (out : ref * ref) : seq nat := [:: rloc out.1; rloc out.2].
Definition hv2 h (r : ref * ref) (a : arr * arr) : Prop := hv h r.1 a.1 /\ hv h r.2 a.2.

Lemma hv2_pres W h h' r a : pres W h h' -> rloc r.1 \notin W -> rloc r.2 \notin W -> hv2 h r a ->
  hv2 h' r a.
Proof. by move=> E H1 H2 [K1 K2]; split; apply: hv_pres E _ _. Qed.

(** a[k] = x; b[l] = y with [a], [b] the output arrays. *)
Lemma sim_set2 h out vout k xP vxP : outs2 out -> hv2 h out vout -> hv2 h xP vxP ->
  rloc xP.2 \notin outW out ->
  sim (outW out) h (h_store out k xP) (store vout k vxP) (fun h' _ v => hv2 h' out v).
Proof.
move=> [Hne U1 U2] [Ho1 Ho2] [Hx HP] HxP; rewrite /h_store /store.
have Hin1 : {subset [:: rloc out.1] <= outW out} by move=> l; rewrite /outW !inE => ->.
have Hin2 : {subset [:: rloc out.2] <= outW out} by move=> l; rewrite /outW !inE => ->; rewrite orbT.
have [P1 A1] := sim_setitem (Z.of_nat k) Ho1 U1 Hx.
apply: (@sim_bind _ _ _ _ _ _ _ _ _ _ _ (fun h' _ v => hv h' out.1 v /\ (hv h' out.2 vout.2 /\ hv h' xP.2 vxP.2))).
  split; first exact: pres_sub Hin1 P1.
  apply: agrees_impl A1 => _ v Hv; split=> //; split; apply: hv_pres P1 _ _ => //.
    by rewrite inE eq_sym; apply/eqP.
  by apply: contra HxP; apply: Hin1.
move=> h1 _ v1 _ [Hv1 [Hv2 HvP]].
have [P2 A2] := sim_setitem (Z.of_nat k) Hv2 U2 HvP.
have Hs : sim (outW out) h1 (h_setitem out.2 (Z.of_nat k) xP.2) (np_setitem vout.2 (Z.of_nat k) vxP.2)
   (fun h' _ w => hv2 h' out (v1, w)).
  split; first exact: pres_sub Hin2 P2.
  apply: agrees_impl A2 => _ w Hw; split=> //=; apply: hv_pres P2 _ Hv1.
  by rewrite inE; apply/eqP.
by apply: (sim_rmap Hs) => h' a b _.
Qed.

(** What a step needs is kept, and a step simulates. *)
Lemma msim_loop (S : Type) (Inv : heap -> Prop) out step (pstep : S -> arr * arr -> meth N (arr * arr))
    (rowf : nat -> S) K :
  outs2 out ->
  (forall h h', pres (outW out) h h' -> Inv h -> Inv h') ->
  (forall h g pg k xP vxP, k < K -> Inv h -> hv2 h xP vxP -> Forall2 (hv h) g pg ->
     msim [::] h g pg (step k xP) (pstep (rowf k) vxP) (fr2 (size h))) ->
  forall todo k xP vxP vout h g pg, k + todo <= K -> Inv h -> avoids (outW out) g ->
    hv2 h out vout -> hv2 h xP vxP -> Forall2 (hv h) g pg ->
    msim (outW out) h g pg (h_filter_loop step todo k xP out)
         (filter_loop pstep [seq rowf i | i <- iota k todo] k vxP vout)
         (fun h' r v => r = out /\ hv2 h' out v).
Proof.
move=> Ho Hinv Hstep; elim=> [|todo IH] k xP vxP vout h g pg Hk Hi Hw Hout HxP Hg.
  by apply: msim_ret.
have Hlive h' v : hv2 h' out v -> {in outW out, forall l, l < size h'}.
  by move=> [[L1 _ _] [L2 _ _]] l; rewrite /outW !inE => /orP [/eqP -> | /eqP ->].
rewrite [map _ _]/= /h_filter_loop -/h_filter_loop /filter_loop -/filter_loop.
have HkK : k < K by rewrite -addSnnS in Hk; apply: leq_trans Hk; apply: leq_addr.
apply: (msim_bind (Hlive _ _ Hout) Hw (R := fun h' r v => fr2 (size h) h' r v /\ hv2 h' out vout)).
  apply: msim0; apply: msim_impl (Hstep h g pg k xP vxP HkK Hi HxP Hg) => h' r v E F; split=> //.
  exact: hv2_pres E _ _ Hout.
move=> h1 g1 pg1 xP1 v1 E1 Hw1 Hg1 [[[Fx Lx] [FP LP] _] Hout1].
have Hi1 := Hinv _ _ E1 Hi.
have Hav l : size h <= l -> l \notin outW out.
  by move=> Hl; apply/negP => /(Hlive _ _ Hout); rewrite ltnNge Hl.
have HxP1 : hv2 h1 xP1 v1 by [].
apply: (msim_bind (Hlive _ _ Hout1) Hw1 (R := fun h' _ v => hv2 h' out v /\ hv2 h' xP1 v1)).
  apply: (msim_lift Hw1 Hg1); apply: sim_impl (sim_set2 k Ho Hout1 HxP1 (Hav _ LP)) => h' a b E F.
  by split=> //; apply: hv2_pres E _ _ HxP1; apply: Hav.
move=> h2 g2 pg2 _ vout2 E2 Hw2 Hg2 [Hout2 HxP2].
apply: IH => //; first by rewrite addSnnS.
exact: Hinv E2 Hi1.
Qed.

(** ** Allocation *)
Lemma sim_alloc h T n : sim [::] h (h_alloc T n) (Ok (alloc N T n))
  (fun h' r v => fr2 (size h) h' r v /\ outs2 r).
Proof.
rewrite /sim /h_alloc /hbind /h_new /hret /=; split.
  exact: pres_trans (pres_rcons _ _ _) (pres_rcons _ _ _).
have F1 := new_val h (wf_wfs (wf_zeros N [:: T; n])).
have F2 := new_val (rcons h (dat (np_zeros N [:: T; n]))) (wf_wfs (wf_zeros N [:: T; n; n])).
split; last by split=> /=; rewrite ?iota_uniq // size_rcons; apply/eqP; rewrite neq_ltn ltnSn.
split=> /=.
- exact: fr_ext (pres_rcons _ _ _) F1.
- by apply: fr_le F2; rewrite size_rcons.
- by rewrite size_rcons; apply/eqP; rewrite neq_ltn ltnSn.
Qed.

(** ** The control array: the one passed or a new one *)
Lemma sim_check h rU U rZ Z : hvo h rU U -> hv h rZ Z ->
  sim [::] h (h_check_none rU rZ) (Ok (control Z U))
      (fun h' r v => hv h' r v /\ (rloc r < size h -> Some r = rU)).
Proof.
case: rU => [rU|]; case: U => [U|] //= HU HZ.
case: HZ => _ _ V; rewrite /sim /h_full_like_nan V.
have [P [A1 A2]] := sim_new h (full_like_wfs Z); split=> //; split=> //.
by rewrite ltnNge A2.
Qed.

(** ** filter *)
Definition hv_kf h (o : hkf) (self : kf N) : Prop :=
  [/\ [/\ hv h (h_A o) (kf_A self), hv h (h_xk o) (kf_xk self), hv h (h_B o) (kf_B self) &
          hv h (h_Pk o) (kf_Pk self)],
      [/\ hv h (h_H o) (kf_H self), hv h (h_Q o) (kf_Q self), hv h (h_R o) (kf_R self) &
          hv h (h_I o) (kf_I self)] & h_size o = kf_size self].

(** The arrays a call reads. *)
Definition kf_refs (o : hkf) : seq ref :=
  [:: h_A o; h_xk o; h_B o; h_Pk o; h_H o; h_Q o; h_R o; h_I o].

Lemma hv_kf_pres W h h' o self : pres W h h' -> avoids W (kf_refs o) -> hv_kf h o self ->
  hv_kf h' o self.
Proof.
move=> E; rewrite /avoids /kf_refs /= => /and5P [W1 W2 W3 W4 /and5P [W5 W6 W7 W8 _]].
move=> [[? ? ? ?] [? ? ? ?] ?].
by split=> //; split; apply: hv_pres E _ _.
Qed.

Lemma hv_kf_live h o self : hv_kf h o self -> all (fun l => l < size h) [seq rloc r | r <- kf_refs o].
Proof. by move=> [[[H1 _ _] [H2 _ _] [H3 _ _] [H4 _ _]] [[H5 _ _] [H6 _ _] [H7 _ _] [H8 _ _]] _]; rewrite /= H1 H2 H3 H4 H5 H6 H7 H8. Qed.

Lemma live_avoids (W : seq nat) n g : all (fun l => l < n) [seq rloc r | r <- g] ->
  {in W, forall l, n <= l} -> avoids W g.
Proof.
move=> Hl HW; apply: sub_all Hl => l Hl; apply/negP => /HW.
by rewrite leqNgt Hl.
Qed.

Lemma sim_row_lt h r a k : hv h r a -> k < nrows a ->
  sim [::] h (h_row r k) (Ok (row a k)) (fun h' r' a' => hv h' r' a').
Proof.
rewrite /nrows; case E: (shp a) => [|d sh] // H Hk.
by apply: sim_impl (sim_row H E Hk) => h' r' a' _ [].
Qed.

(** A bind with a value already known on the other side. *)
Lemma msim_bindl h g pg A B A' B' (m : hres N A) (b : B) f (q : meth N B') R
    (R' : heap -> A' -> B' -> Prop) :
  Forall2 (hv h) g pg -> sim [::] h m (Ok b) R ->
  (forall h' a, pres [::] h h' -> Forall2 (hv h') g pg -> R h' a b -> msim [::] h' g pg (f a) q R') ->
  msim [::] h g pg (hmbind (hmlift m) f) q R'.
Proof.
move=> Hg [P HA] H; rewrite /msim /hmbind /hmlift.
case Em: (m h) P HA => [h1 [a|e]] //= P HA.
have Hg1 := hvs_pres P (avoids0 g) Hg.
have [P2 [d2 G2 N2] V2 A2] := H _ _ P Hg1 HA; split=> //.
- exact: pres_trans P P2.
- exists d2 => //; case/andP: N2 => A1 S1; apply/andP; split=> //.
  by apply: sub_all A1 => l; apply: leq_trans (proj1 P).
Qed.

Tactic Notation "mrow" constr(H) constr(K) "as" ident(h') ident(r) ident(Hr) :=
  let E := fresh "E" in let Hg := fresh "Hg" in
  match goal with Hgg : Forall2 _ _ _ |- _ =>
    refine (msim_bindl Hgg (sim_row_lt H K) _); intros h' r E Hg Hr; hup E; clear E; clear Hgg end.

Lemma msim_kf_step h g pg o self rU U rZ Z k xP vxP :
  hv_kf h o self -> hv h rU U -> hv h rZ Z -> hv2 h xP vxP -> Forall2 (hv h) g pg ->
  [/\ k < nrows (kf_A self), k < nrows (kf_H self), k < nrows (kf_B self) & k < nrows U] ->
  [/\ k < nrows Z, k < nrows (kf_Q self) & k < nrows (kf_R self)] ->
  msim [::] h g pg (hkf_step o rU rZ k xP) (kf_step (kf_I self) (srow_at self Z U k) vxP) (fr2 (size h)).
Proof.
move=> [[HA Hx HB HP] [HH HQ HR HI] _] HU HZ [HxP1 HxP2] Hg [K1 K2 K3 K4] [K5 K6 K7].
have Hn := leqnn (size h); move: {1 3}(size h) Hn => n Hn.
rewrite /hkf_step /kf_step.
mrow HA K1 as h1 rA Ha; mrow HH K2 as h2 rH Hh; mrow HB K3 as h3 rB Hb.
mrow HU K4 as h4 ru Hu; mrow HZ K5 as h5 rz Hz; mrow HQ K6 as h6 rq Hq.
mrow HR K7 as h7 rr Hr.
apply: msim_bind => //; first exact: avoids0.
  apply: msim_lift; [exact: avoids0 | eassumption |].
  exact: (@sim_predict _ _ _ _ _ (Some rB) (Some ru) _ _ _ _ (Some _) (Some _) _ _ Hn Ha HxP1 Hb Hu HxP2 Hq).
move=> h8 g8 pg8 pr vpr E _ Hg8 [[F1 _] [F2 _] _]; hup E.
exact: msim_update.
Qed.

(** ** filter: from the allocations to the loop *)
Lemma h_lenE h r a : hv h r a -> h_len r h = (h, np_len a).
Proof. by move=> [_ _ V]; rewrite /h_len V. Qed.

Lemma lenV h r a : hv h r a -> np_len (val h r) = np_len a.
Proof. by case=> _ _ ->. Qed.

Lemma hvo_pres h h' r a : pres [::] h h' -> hvo h r a -> hvo h' r a.
Proof. exact: hvo_ext. Qed.

Lemma filter_core h g o self rZ Z rU U :
  hv_kf h o self -> hv h rZ Z -> hvo h rU U -> iterable self Z U ->
  exists h1 out rU',
    [/\ pres [::] h h1, fr2 (size h) h1 out (alloc N (nrows Z) (kf_size self)), outs2 out,
        hv h1 rU' (control Z U) /\ rloc rU' \notin outW out &
        hkf_filter o rZ rU g h =
        h_filter_loop (hkf_step o rU' rZ) (steps self Z U) 0 (h_xk o, h_Pk o) out g h1].
Proof.
move=> Ho HZ HU; rewrite /iterable /= => /and5P [SZ SA SH SB /and4P [SU SQ SR _]].
rewrite /hkf_filter /hmbind /hmlift (h_lenE HZ) (len_sized SZ).
have [[_ _ _ _] [_ _ _ _] Hsz] := Ho; rewrite Hsz.
have := sim_alloc h (nrows Z) (kf_size self); rewrite /sim.
case: (h_alloc _ _ h) => [h1 [out|e]] /= [P1] // [F1 O1].
have := sim_check (hvo_ext P1 HU) (hv_ext P1 HZ); rewrite /sim.
case: (h_check_none _ _ h1) => [h2 [rU'|e]] /= [P2] // [HU2 LU2].
have P12 := pres_trans P1 P2.
have Ho2 := hv_kf_pres P12 (avoids0 _) Ho.
have [[HA _ HB _] [HH HQ HR _] _] := Ho2.
rewrite ?/h_iter (lenV HA) (len_sized SA) (lenV HH) (len_sized SH) (lenV HB) (len_sized SB).
rewrite (lenV HU2) (len_sized SU) (lenV (hv_ext P12 HZ)) (len_sized SZ).
rewrite (lenV HQ) (len_sized SQ) (lenV HR) (len_sized SR).
exists h2, out, rU'; split=> //.
- by case: F1 => F11 F12 F13; split=> //; apply: fr_ext P2 _.
- split=> //; apply/negP => Hin.
  have Hl : size h <= rloc rU'.
    by move: Hin; case: F1 => [[_ L1] [_ L2] _]; rewrite /outW !inE => /orP [/eqP -> | /eqP ->].
  have Hlt : rloc rU' < size h1.
    by move: Hin; case: F1 => [[[L1 _ _] _] [[L2 _ _] _] _]; rewrite /outW !inE => /orP [/eqP -> | /eqP ->].
  move: HU (LU2 Hlt); case: rU {LU2} => [r0|] // HU [E0]; case: U HU {SU HU2} => [U0|] //= [L _ _].
  by rewrite E0 leqNgt L in Hl.
Qed.

Lemma filter_unsized h g o self rZ Z rU U :
  hv_kf h o self -> hv h rZ Z -> hvo h rU U -> ~~ iterable self Z U ->
  exists2 h1, pres [::] h h1 & hkf_filter o rZ rU g h = (g, (h1, Raise TypeError)).
Proof.
move=> Ho HZ HU; rewrite /iterable => Hit.
rewrite /hkf_filter /hmbind /hmlift (h_lenE HZ).
case SZ: (sized Z) Hit; last first.
  by exists h; [apply: pres_refl | rewrite len_unsized ?SZ].
rewrite len_sized //.
have := sim_alloc h (nrows Z) (h_size o); rewrite /sim.
case: (h_alloc _ _ h) => [h1 [out|e]] /= [P1] // _.
have := sim_check (hvo_ext P1 HU) (hv_ext P1 HZ); rewrite /sim.
case: (h_check_none _ _ h1) => [h2 [rU'|e]] /= [P2] // [HU2 LU2].
have P12 := pres_trans P1 P2.
have Ho2 := hv_kf_pres P12 (avoids0 _) Ho.
have [[HA _ HB _] [HH HQ HR _] _] := Ho2 => Hit.
exists h2 => //; rewrite ?/h_iter (lenV HA).
case SA: (sized (kf_A self)) Hit; last by rewrite len_unsized ?SA.
rewrite (len_sized SA) (lenV HH).
case SH: (sized (kf_H self)); last by rewrite len_unsized ?SH.
rewrite (len_sized SH) (lenV HB).
case SB: (sized (kf_B self)); last by rewrite len_unsized ?SB.
rewrite (len_sized SB) (lenV HU2).
case SU: (sized (control Z U)); last by rewrite len_unsized ?SU.
rewrite (len_sized SU) (lenV (hv_ext P12 HZ)) (len_sized SZ) (lenV HQ).
case SQ: (sized (kf_Q self)); last by rewrite len_unsized ?SQ.
rewrite (len_sized SQ) (lenV HR).
by case SR: (sized (kf_R self)); [rewrite SZ | rewrite len_unsized ?SR].
Qed.

(** What a call gives: nothing written, the gains appended are new, the results
    are new, the values are those of the value model, and no gain shares its
    buffer with a result. *)
Definition call_ok h (g : seq ref) (pg : seq arr) (m : hmeth N (ref * ref))
    (p : meth N (arr * arr)) : Prop :=
  msim [::] h g pg m p (fr2 (size h)) /\
  forall h' g' out, m g h = (g', (h', Ok out)) -> avoids (outW out) g'.

Lemma newlist_le n m d : n <= m -> newlist m d -> newlist n d.
Proof.
move=> Hn /andP [A S]; apply/andP; split=> //.
by apply: sub_all A => l; apply: leq_trans.
Qed.

Lemma call_filter h g pg o self rZ Z rU U :
  hv_kf h o self -> hv h rZ Z -> hvo h rU U -> Forall2 (hv h) g pg ->
  call_ok h g pg (hkf_filter o rZ rU) (kf_filter self Z U) /\
  forall h' g' out, hkf_filter o rZ rU g h = (g', (h', Ok out)) -> outs2 out.
Proof.
move=> Ho HZ HU Hg; case Hit: (iterable self Z U); last first.
  have [h1 P1 E1] := filter_unsized g Ho HZ HU (negbT Hit).
  rewrite /call_ok /msim E1 (kf_filter_unsized _ (negbT Hit)) /=; split=> //; split=> //.
  split=> //; first by exists [::]; rewrite ?cats0.
  exact: hvs_pres P1 (avoids0 _) Hg.
have [h1 [out [rU' [P1 F1 O1 [HU1 WU] E1]]]] := filter_core g Ho HZ HU Hit.
have HW : {in outW out, forall l, size h <= l}.
  by case: F1 => [[_ L1] [_ L2] _] l; rewrite /outW !inE => /orP [/eqP -> | /eqP ->].
have HW1 : {in outW out, forall l, l < size h1}.
  by case: F1 => [[[L1 _ _] _] [[L2 _ _] _] _] l; rewrite /outW !inE => /orP [/eqP -> | /eqP ->].
have Hwo : avoids (outW out) (kf_refs o) by apply: live_avoids (hv_kf_live Ho) HW.
have Hwg : avoids (outW out) g by apply: live_avoids (hvs_live Hg) HW.
have HwZ : rloc rZ \notin outW out.
  by case: HZ => L _ _; apply/negP => /HW; rewrite leqNgt L.
pose Inv (h' : heap) := [/\ hv_kf h' o self, hv h' rU' (control Z U) & hv h' rZ Z].
have Hinv h2 h3 : pres (outW out) h2 h3 -> Inv h2 -> Inv h3.
  move=> E [K1 K2 K3]; split; first exact: hv_kf_pres E Hwo K1.
    exact: hv_pres E WU K2.
  exact: hv_pres E HwZ K3.
have [[K1 K2 K3 K4] [K5 K6 K7]] := steps_le self Z U.
have Hstep h' g' pg' k xP vxP : k < steps self Z U -> Inv h' -> hv2 h' xP vxP ->
    Forall2 (hv h') g' pg' ->
    msim [::] h' g' pg' (hkf_step o rU' rZ k xP)
         (kf_step (kf_I self) (srow_at self Z (control Z U) k) vxP) (fr2 (size h')).
  move=> Hk [I1 I2 I3] HxP Hg'; apply: msim_kf_step => //.
    by split; apply: leq_trans Hk _.
  by split; apply: leq_trans Hk _.
have I1 : Inv h1 by split=> //; [apply: hv_kf_pres P1 (avoids0 _) Ho | apply: hv_ext P1 HZ].
have Hg1 := hvs_pres P1 (avoids0 _) Hg.
have Hout1 : hv2 h1 out (alloc N (nrows Z) (kf_size self)) by case: F1 => [[? _] [? _] _].
have HxP1 : hv2 h1 (h_xk o, h_Pk o) (kf_xk self, kf_Pk self).
  by case: I1 => [[[_ ? _ ?] _ _] _ _].
have M := @msim_loop (srow N) Inv out (hkf_step o rU' rZ) (kf_step (kf_I self))
  (srow_at self Z (control Z U)) (steps self Z U) O1 Hinv Hstep (steps self Z U) 0
  _ _ _ h1 g pg (leqnn _) I1 Hwg Hout1 HxP1 Hg1.
rewrite -/(rows_of self Z U) in M.
move: M; rewrite /call_ok /msim E1 (kf_filterE _ Hit).
case: (h_filter_loop _ _ _ _ _ _ _) => [g2 [h2 r]]; case: (filter_loop _ _ _ _ _ _) => [pg2 pr] /=.
move=> [Pl [d Gd Nd] Vl Al].
split; last first.
  by move=> h' g' out' [_ _ E]; move: Al; rewrite E; case: pr => // v [-> _].
split.
  split=> //.
  - exact: pres_new HW (pres_trans (pres0 _ P1) Pl).
  - by exists d => //; apply: newlist_le Nd; apply: (proj1 P1).
  - apply: agrees_impl Al => r' v [-> [V1 V2]]; case: F1 => [[_ L1] [_ L2] L3].
    by split=> //; split.
move=> h' g' out' [Eg _ Er]; move: Al; rewrite Er -Eg Gd.
case: pr => // v [-> _].
rewrite /avoids map_cat all_cat -/(avoids _ g) Hwg /=; case/andP: Nd => A _.
by apply: sub_all A => l Hl; apply/negP => /HW1; rewrite ltnNge Hl.
Qed.

End Sim.
