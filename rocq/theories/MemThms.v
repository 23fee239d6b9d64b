(** * MemThms: the properties about memory, from the simulations *)
From Coq Require Import ZArith List Lia.
From mathcomp Require Import ssreflect ssrfun ssrbool eqtype ssrnat seq path.
From Verif Require Import Np NpLemmas Kf Ekf ApiSpec Loop Frame NpShapes FilterLemmas.
From Verif Require Import Mem MemKf MemLemmas MemSim MemSim2 MemSim3 MemSim4 MemSpec.

Set Implicit Arguments.
Unset Strict Implicit.
Unset Printing Implicit Defensive.

Section Thms.
Variable N : num.
Notation arr := (arr N).
Notation heap := (heap N).
Implicit Types h : heap.

Lemma unchangedP h h' : unchanged h h' <-> pres [::] h h'.
Proof.
split.
  move=> [new ->]; split; first by rewrite size_cat leq_addr.
  by move=> l Hl _; rewrite nth_cat Hl.
move=> [S E]; exists (drop (size h) h'); rewrite -{1}(cat_take_drop (size h) h'); congr cat.
apply: (@eq_from_nth _ [::]); first by rewrite size_takel.
by rewrite size_takel // => i Hi; rewrite nth_take // E.
Qed.

Lemma unchanged_trans h1 h2 h3 : unchanged h1 h2 -> unchanged h2 h3 -> unchanged h1 h3.
Proof. by move=> [a ->] [b ->]; exists (a ++ b); rewrite catA. Qed.

Lemma array_hv h r : array_in h r -> hv h r (val h r).
Proof. by case/andP=> L /eqP Z; split. Qed.
Lemma hv_array h r a : hv h r a -> array_in h r.
Proof. by case=> L Z _; rewrite /array_in L Z eqxx. Qed.
Lemma opt_hvo h r : opt_in h r -> hvo h r (omap (val h) r).
Proof. by case: r => //= r; apply: array_hv. Qed.
Lemma arrays_hv h g : all (array_in h) g -> Forall2 (hv h) g [seq val h r | r <- g].
Proof. by elim: g => [|r g IH] /=; [constructor | case/andP=> H /IH; constructor=> //; apply: array_hv]. Qed.
Lemma hvs_arrays h g pg : Forall2 (hv h) g pg -> all (array_in h) g /\ pg = [seq val h r | r <- g].
Proof.
elim=> [|r a g' pg' H _ [IH1 IH2]] //=; rewrite IH1 -IH2 (hv_array H); split=> //.
by case: H => _ _ ->.
Qed.

Lemma array_in_unchanged h h' r : unchanged h h' -> array_in h r -> array_in h' r /\ val h' r = val h r.
Proof.
move/unchangedP => E /array_hv /(hv_ext E) H; split; first exact: hv_array H.
by case: H.
Qed.

Lemma object_hv h o : object_in h o ->
  hv_kf h o (kf_of h o) /\ Forall2 (hv h) (h_gains o) [seq val h r | r <- h_gains o].
Proof.
rewrite /object_in all_cat => /andP [] /= /and5P [H1 H2 H3 H4 /and5P [H5 H6 H7 H8 _]] Hg.
by split; [split; [split; apply: array_hv | split; apply: array_hv | ] | apply: arrays_hv].
Qed.

(** update on its own *)
Lemma call_update h g pg rI rH rx rP rz rR I H x P z R : Forall2 (hv h) g pg ->
  hv h rI I -> hv h rH H -> hv h rx x -> hv h rP P -> hv h rz z -> hv h rR R ->
  call_ok h g pg (hkf_update rI rH rx rP rz rR) (kf_update I H x P z R).
Proof.
move=> Hg HI HH Hx HP Hz HR; split; first exact: msim_update.
move=> h' g' out; rewrite /hkf_update /hmbind /hmlift.
have [P1 A1] := sim_innov (leqnn _) HH HP HR.
case: (h_innov_cov _ _ _ _) P1 A1 => [h1 [rS|e]] //= P1; case: (innov_cov _ _ _) => // S [HS _].
hup P1; have Hg1 := hvs_pres P1 (avoids0 _) Hg.
have [P2 A2] := sim_gain (leqnn _) HS HH HP.
case: (h_gain _ _ _ _) P2 A2 => [h2 [rK|e]] //= P2; case: (gain _ _ _) => // K [HK _].
hup P2; have Hg2 := hvs_pres P2 (avoids0 _) Hg1.
rewrite /h_append_gain.
have [P3 A3] := sim_matmul HH Hx.
case: (h_matmul _ _ _) P3 A3 => [h3 [rh|e]] //= P3; case: (np_matmul _ _) => // zh [Hh _].
hup P3; have Hg3 := hvs_pres P3 (avoids0 _) Hg2.
have HLK : all (fun l => l < size h3) [seq rloc r | r <- rcons g rK].
  by have [LK _ _] := HK; rewrite map_rcons all_rcons LK; apply: hvs_live Hg3.
have [P4 A4] := sim_correct_state (leqnn _) Hx HK Hz Hh.
case: (h_correct_state _ _ _ _ _) P4 A4 => [h4 [rx'|e]] //= P4; case: (correct_state _ _ _ _) => // x' [Hx' L4].
hup P4; have [P5 A5] := sim_correct_cov (leqnn _) HI HK HH HP.
case: (h_correct_cov _ _ _ _ _) P5 A5 => [h5 [rP'|e]] //= P5; case: (correct_cov _ _ _ _) => // P' [HP' L5].
move=> [<- _ <-] /=.
apply: (live_avoids HLK).
move=> l; rewrite /outW !inE => /orP [/eqP -> //| /eqP ->] /=.
exact: leq_trans (proj1 P4) L5.
Qed.

Lemma call_eupdate L h0 h g pg o self rx rP rz rR x P z R : Forall2 (hv h) g pg ->
  hv_ekf L h0 h o self -> hv h rx x -> hv h rP P -> hv h rz z -> hv h rR R ->
  call_ok h g pg (hekf_update o rx rP rz rR) (ekf_update self x P z R).
Proof.
move=> Hg Ho Hx HP Hz HR; split; first exact: msim_eupdate Ho _ _ _ _.
have [Bs [_ Ch _ CH] _ [HI _]] := Ho.
move=> h' g' out; rewrite /hekf_update /hmbind /hmlift.
have [P0 A0] := CH _ _ _ Bs Hx.
case: (he_jH _ _ _) P0 A0 => [h00 [rH|e]] //= P0; case: (e_jH _ _) => // H HH.
apply (based_ext P0) in Bs; hup P0; have Hg0 := hvs_pres P0 (avoids0 _) Hg.
have [P1 A1] := sim_innov (leqnn _) HH HP HR.
case: (h_innov_cov _ _ _ _) P1 A1 => [h1 [rS|e]] //= P1; case: (innov_cov _ _ _) => // S [HS _].
apply (based_ext P1) in Bs; hup P1; have Hg1 := hvs_pres P1 (avoids0 _) Hg0.
have [P2 A2] := sim_gain (leqnn _) HS HH HP.
case: (h_gain _ _ _ _) P2 A2 => [h2 [rK|e]] //= P2; case: (gain _ _ _) => // K [HK _].
apply (based_ext P2) in Bs; hup P2; have Hg2 := hvs_pres P2 (avoids0 _) Hg1.
rewrite /h_append_gain.
have [P3 A3] := Ch _ _ _ Bs Hx.
case: (he_h _ _ _) P3 A3 => [h3 [rh|e]] //= P3; case: (e_h _ _) => // zh Hh.
hup P3; have Hg3 := hvs_pres P3 (avoids0 _) Hg2.
have HLK : all (fun l => l < size h3) [seq rloc r | r <- rcons g rK].
  by have [LK _ _] := HK; rewrite map_rcons all_rcons LK; apply: hvs_live Hg3.
have [P4 A4] := sim_correct_state (leqnn _) Hx HK Hz Hh.
case: (h_correct_state _ _ _ _ _) P4 A4 => [h4 [rx'|e]] //= P4; case: (correct_state _ _ _ _) => // x' [Hx' L4].
hup P4; have [P5 A5] := sim_correct_cov (leqnn _) HI HK HH HP.
case: (h_correct_cov _ _ _ _ _) P5 A5 => [h5 [rP'|e]] //= P5; case: (correct_cov _ _ _ _) => // P' [HP' L5].
move=> [<- _ <-] /=.
apply: (live_avoids HLK).
move=> l; rewrite /outW !inE => /orP [/eqP -> //| /eqP ->] /=.
exact: leq_trans (proj1 P4) L5.
Qed.

(** Every call of the standard filter. *)
Lemma call_std h o c : object_in h o -> call_in h c ->
  call_ok h (h_gains o) [seq val h r | r <- h_gains o] (@run_hmeth N c o)
          (run_meth (call_of h c) (kf_of h o)).
Proof.
move=> /object_hv [Ho Hg]; case: c => /=.
- move=> Ak xk Bk uk Pk Qk /and5P [H1 H2 H3 H4 /andP [H5 H6]].
  have Hs := sim_predict (leqnn _) (array_hv H1) (array_hv H2) (opt_hvo H3) (opt_hvo H4) (array_hv H5) (array_hv H6).
  split; first by apply: (msim_lift (avoids0 _) Hg).
  move=> h' g' out; rewrite /hmlift => [[<- E]]; case: Hs => _; rewrite E /=.
  case: (kf_predict _ _ _ _ _ _) => // v [[_ L1] [_ L2] _].
  apply: live_avoids (hvs_live Hg) _ => l.
  by rewrite /outW !inE => /orP [/eqP -> | /eqP ->].
- move=> Hk xk Pk zk Rk /and5P [H1 H2 H3 H4 /andP [H5 _]].
  by apply: call_update => //; try exact: array_hv; case: Ho => [_ []].
- by move=> Z U /andP [H1 H2]; have [] := call_filter Ho (array_hv H1) (opt_hvo H2) Hg.
- by move=> Z U /andP [H1 H2]; apply: call_smooth Ho (array_hv H1) (opt_hvo H2) Hg.
Qed.

Lemma wb2_calls L h0 hf f : well_behaved2 L h0 hf f -> @calls2 N L h0 hf f.
Proof.
move=> H h rx x ru u Bs Hx Hu.
have Hi := hv_array Hx; have Hu' : opt_in h ru by case: ru Hu => [r|] //; case: u => // u; apply: hv_array.
have := H h rx ru Bs Hi Hu'; rewrite /sim.
have -> : x = val h rx by case: Hx.
have -> : u = omap (val h) ru by case: ru u Hu {Hu'} => [r|] [u|] //= [_ _ ->].
case: (hf rx ru h) => [h' [y|e]] /= [/unchangedP P]; last by move=> ->.
by move=> [A ->]; split=> //; apply: array_hv.
Qed.

Lemma wb1_calls L h0 hf f : well_behaved1 L h0 hf f -> @calls1 N L h0 hf f.
Proof.
move=> H h rx x Bs Hx; have Hi := hv_array Hx.
have := H h rx Bs Hi; rewrite /sim.
have -> : x = val h rx by case: Hx.
case: (hf rx h) => [h' [y|e]] /= [/unchangedP P]; last by move=> ->.
by move=> [A ->]; split=> //; apply: array_hv.
Qed.

Lemma e_object_hv L h0 h o f g jA jH : same_on L h0 h -> e_object_in h o ->
  well_behaved L h0 o f g jA jH ->
  hv_ekf L h0 h o (ekf_of f g jA jH h o) /\ Forall2 (hv h) (he_gains o) [seq val h r | r <- he_gains o].
Proof.
rewrite /e_object_in all_cat => Bs /andP [] /= /and5P [H1 H2 H3 H4 /andP [H5 _]] Hg [W1 W2 W3 W4].
split; last exact: arrays_hv.
split=> //; last by split=> //; apply: array_hv.
  by split=> /=; [apply: wb2_calls | apply: wb1_calls | apply: wb2_calls | apply: wb1_calls].
by split; apply: array_hv.
Qed.

(** Every call of the extended filter but predict, whose mean is not new. *)
Definition epredict_ok h (g : seq ref) (pg : seq arr) (m : hmeth N (ref * ref))
    (p : meth N (arr * arr)) : Prop :=
  msim [::] h g pg m p (fun h' r v => hv h' r.1 v.1 /\ fr (size h) h' r.2 v.2).

Lemma call_ext L h0 h o f g jA jH c : same_on L h0 h -> e_object_in h o ->
  well_behaved L h0 o f g jA jH -> ecall_in h c ->
  let m := run_hemeth c o in let p := e_run (ecall_of h c) (ekf_of f g jA jH h o) in
  let pg := [seq val h r | r <- he_gains o] in
  if c is HEPredict _ _ _ _ then epredict_ok h (he_gains o) pg m p else call_ok h (he_gains o) pg m p.
Proof.
move=> Bs Hob Hwb; have [Ho Hg] := e_object_hv Bs Hob Hwb; case: c => /=.
- move=> xk uk Pk Qk /and4P [H1 H2 H3 H4].
  apply: (msim_lift (avoids0 _) Hg).
  exact: sim_epredict (leqnn _) Ho (array_hv H1) (opt_hvo H2) (array_hv H3) (array_hv H4).
- move=> xk Pk zk Rk /and5P [H1 H2 H3 H4 _].
  exact: call_eupdate Hg Ho (array_hv H1) (array_hv H2) (array_hv H3) (array_hv H4).
- by move=> Z U /andP [H1 H2]; apply: call_efilter Ho (array_hv H1) (opt_hvo H2) Hg.
- by move=> Z U /andP [H1 H2]; apply: call_esmooth Ho (array_hv H1) (opt_hvo H2) Hg.
Qed.

End Thms.
