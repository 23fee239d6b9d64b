(** * MemThms2: one call, and histories of calls, on arrays in memory *)
From Coq Require Import ZArith List Lia.
From mathcomp Require Import ssreflect ssrfun ssrbool eqtype ssrnat seq path.
From Verif Require Import Np NpLemmas Kf Ekf ApiSpec Loop Frame NpShapes FilterLemmas.
From Verif Require Import Mem MemKf MemLemmas MemSim MemSim2 MemSim3 MemSim4 MemSpec MemThms.

Set Implicit Arguments.
Unset Strict Implicit.
Unset Printing Implicit Defensive.

Section Thms.
Variable N : num.
Notation arr := (arr N).
Notation heap := (heap N).
Implicit Types h : heap.

Lemma val_pres W h h' r : pres W h h' -> rloc r \notin W -> array_in h r ->
  array_in h' r /\ val h' r = val h r.
Proof. by move=> E HW /array_hv /(hv_pres E HW) H; split; [apply: hv_array H | case: H]. Qed.

Lemma newlist_new h d : newlist (size h) d -> all (new_since h) d /\ uniq (buffers d).
Proof.
case/andP=> A S; split; first by move: A; rewrite all_map.
by move: S; apply: sorted_uniq; [apply: ltn_trans | apply: ltnn].
Qed.

Lemma avoids_out (x P : ref) g : avoids (outW (x, P)) g ->
  rloc x \notin buffers g /\ rloc P \notin buffers g.
Proof.
move=> /allP H; split; apply/negP => /H; rewrite /outW !inE !negb_or => /andP [/eqP A /eqP B] //.
Qed.

Lemma outcome_agrees h' n (r : res (ref * ref)) (p : res (arr * arr)) :
  agrees (fr2 n h') r p -> p = outcome h' r.
Proof.
case: r p => [[x P]|e] [[vx vP]|e'] //=; last by move=> ->.
by move=> [[[_ _ ->] _] [[_ _ ->] _] _].
Qed.

Lemma call_okE h g m p : @call_ok N h g [seq val h r | r <- g] m p -> all (array_in h) g ->
  let: (g', (h', r)) := m g h in
  [/\ unchanged h h', gains_new h g g' /\ results_new h g' r, all (array_in h') g',
      p [seq val h r | r <- g] = ([seq val h' r | r <- g'], outcome h' r) &
      forall x P, r = Ok (x, P) -> array_in h' x && array_in h' P].
Proof.
move=> [[H1 [d H2 H3] H4 H5] H6] Hg; move: H1 H2 H4 H5 H6.
case: (m g h) => [g' [h' r]] /=; case E: (p _) => [pg' pr] /= H1 H2 H4 H5 H6.
have [A1 A2] := newlist_new H3; have [B1 B2] := hvs_arrays H4.
split=> //; first exact/unchangedP.
- split; first by exists d.
  case: r H5 H6 => [[x P]|e] //=; case: pr E => // v E [[_ L1] [_ L2] L3] H6.
  by have [] := avoids_out (H6 _ _ _ erefl); split.
- by rewrite B2 (outcome_agrees H5).
- move=> x P Er; move: H5; rewrite Er; case: pr E => // v E [[K1 _] [K2 _] _].
  by rewrite (hv_array K1) (hv_array K2).
Qed.

Lemma gains_in h (o : hkf) : object_in h o -> all (array_in h) (h_gains o).
Proof. by rewrite /object_in all_cat => /andP []. Qed.
Lemma e_gains_in h (o : hekf N) : e_object_in h o -> all (array_in h) (he_gains o).
Proof. by rewrite /e_object_in all_cat => /andP []. Qed.

Lemma arrays_unchanged h h' g : unchanged h h' -> all (array_in h) g ->
  all (array_in h') g /\ [seq val h' r | r <- g] = [seq val h r | r <- g].
Proof.
move=> E; elim: g => //= r g IH /andP [/(array_in_unchanged E) [A V] /IH [B W]].
by rewrite A B V W.
Qed.

Lemma kf_of_unchanged h h' o g : unchanged h h' -> object_in h o -> all (array_in h') g ->
  object_in h' (h_with_gains o g) /\
  kf_of h' (h_with_gains o g) = with_gains (kf_of h o) [seq val h' r | r <- g].
Proof.
move=> E; rewrite /object_in !all_cat => /andP [H _] Hg; have [H' V] := arrays_unchanged E H.
split; first by rewrite Hg andbT.
have VV r : array_in h r -> val h' r = val h r by move=> /(array_in_unchanged E) [].
move: H; rewrite /= => /and5P [K1 K2 K3 K4 /and5P [K5 K6 K7 K8 _]].
by rewrite /kf_of /with_gains [h_A _]/= (VV _ K1) (VV _ K2) (VV _ K3) (VV _ K4) (VV _ K5) (VV _ K6) (VV _ K7) (VV _ K8).
Qed.

Lemma ekf_of_unchanged f g jA jH h h' o gs : unchanged h h' -> e_object_in h o ->
  all (array_in h') gs ->
  e_object_in h' (he_with_gains o gs) /\
  ekf_of f g jA jH h' (he_with_gains o gs) =
    e_with_gains (ekf_of f g jA jH h o) [seq val h' r | r <- gs].
Proof.
move=> E; rewrite /e_object_in !all_cat => /andP [H _] Hg; have [H' V] := arrays_unchanged E H.
split; first by rewrite Hg andbT.
have VV r : array_in h r -> val h' r = val h r by move=> /(array_in_unchanged E) [].
move: H; rewrite /= => /and5P [K1 K2 K3 K4 /andP [K5 _]].
by rewrite /ekf_of /e_with_gains [he_xk _]/= (VV _ K1) (VV _ K2) (VV _ K3) (VV _ K4) (VV _ K5).
Qed.

(** One call of the standard filter. *)
Lemma one_call h o c : object_in h o -> call_in h c ->
  let: (o', h', r) := hkf_call o h c in
  [/\ unchanged h h', gains_new h (h_gains o) (h_gains o') /\ results_new h (h_gains o') r,
      object_in h' o' /\ held o' = held o,
      kf_call (kf_of h o) (call_of h c) = (kf_of h' o', outcome h' r) &
      forall x P, r = Ok (x, P) -> array_in h' x && array_in h' P].
Proof.
move=> Ho Hc; have := call_okE (call_std Ho Hc) (gains_in Ho); rewrite /hkf_call /kf_call /=.
case: (run_hmeth _ _ _ _) => [g' [h' r]] [U [G R] Ag -> Ar].
by have [O V] := kf_of_unchanged U Ho Ag; rewrite V; split.
Qed.

Definition e_is_predict (c : hecall) : bool := if c is HEPredict _ _ _ _ then true else false.

Lemma one_ecall L h0 f g jA jH h o c : same_on L h0 h -> e_object_in h o ->
  well_behaved L h0 o f g jA jH -> ecall_in h c ->
  let: (o', h', r) := hekf_call o h c in
  [/\ unchanged h h',
      gains_new h (he_gains o) (he_gains o') /\ (~~ e_is_predict c -> results_new h (he_gains o') r),
      [/\ e_object_in h' o', e_held o' = e_held o & well_behaved L h0 o' f g jA jH],
      e_call (ekf_of f g jA jH h o) (ecall_of h c) = (ekf_of f g jA jH h' o', outcome h' r) &
      forall x P, r = Ok (x, P) -> [/\ array_in h' x, array_in h' P & new_since h P]].
Proof.
move=> Bs Ho Hw Hc.
case Ep: (e_is_predict c); last first.
  have := call_okE (g := he_gains o) (m := run_hemeth c o) (p := e_run (ecall_of h c) (ekf_of f g jA jH h o)).
  have Hok := call_ext Bs Ho Hw Hc.
  have Hok' : call_ok h (he_gains o) [seq val h r | r <- he_gains o] (run_hemeth c o)
       (e_run (ecall_of h c) (ekf_of f g jA jH h o)) by case: c Ep Hok {Hc}.
  move=> /(_ h Hok' (e_gains_in Ho)); rewrite /hekf_call /e_call /=.
  case: (run_hemeth _ _ _ _) => [g' [h' r]] [U [G R] Ag -> Ar].
  have [O V] := ekf_of_unchanged f g jA jH U Ho Ag; rewrite V; split=> //.
  move=> x P Er; move: R; rewrite Er /= => [[_ NP _ _ _]].
  by have /andP [-> ->] := Ar _ _ Er.
have Hok := call_ext Bs Ho Hw Hc.
have Hok1 : epredict_ok h (he_gains o) [seq val h r | r <- he_gains o] (run_hemeth c o)
     (e_run (ecall_of h c) (ekf_of f g jA jH h o)) by case: c Ep Hok {Hc}.
case: Hok1; rewrite /hekf_call /e_call /=.
case: (run_hemeth _ _ _ _) => [g' [h' r]]; case: (e_run _ _ _) => [pg' pr] /= H1 [d H2 H3] H4 H5.
have [A1 A2] := newlist_new H3; have [B1 B2] := hvs_arrays H4.
have U : unchanged h h' by apply/unchangedP.
have [O V] := ekf_of_unchanged f g jA jH U Ho B1; rewrite V; split=> //.
- by split=> //; exists d.
- rewrite B2; congr (_, _); case: r H5 => [[x P]|e]; case: pr => [[vx vP]|e'] //=; last by move=> ->.
  by move=> [[_ _ ->] [[_ _ ->] _]].
- move=> x P Er; move: H5; rewrite Er; case: pr => // v [K1 [K2 K3]].
  by rewrite (hv_array K1) (hv_array K2).
Qed.

(** ** Histories *)
Lemma unchanged_refl h : unchanged h h. Proof. by exists [::]; rewrite cats0. Qed.


(** Calls only. *)
Lemma calls_history L es h o : object_in h o -> history_in L o h es -> all (@is_call N) es ->
  let: (o', h', l) := history o h es in
  [/\ unchanged h h', object_in h' o', held o' = held o, gains_new h (h_gains o) (h_gains o') &
      kf_calls (kf_of h o) [seq x.1 | x <- l] = (kf_of h' o', [seq x.2 | x <- l])].
Proof.
elim: es h o => [|[c|f] es IH] h o //= Ho.
  move=> _ _; split=> //; first exact: unchanged_refl.
  by exists [::]; rewrite cats0.
move=> [Hc Hin] Hall; have := one_call Ho Hc; case: (hkf_call _ _ _) Hin => [[o1 h1] r] Hin.
move=> [U1 [G1 _] [O1 E1] C1 _]; have := IH h1 o1 O1 Hin Hall.
case: (history _ _ _) => [[o2 h2] l] [U2 O2 E2 G2 C2] /=; rewrite C1 C2; split=> //.
- exact: unchanged_trans U1 U2.
- by rewrite E2 E1.
- case: G1 => d1 [D1 N1 Q1]; case: G2 => d2 [D2 N2 Q2]; exists (d1 ++ d2); split.
  + by rewrite D2 D1 catA.
  + rewrite all_cat N1 /=; apply: sub_all N2 => r' Hr'.
    by case: U1 => new U1; apply: leq_trans Hr'; rewrite U1 size_cat leq_addr.
  + rewrite /buffers map_cat cat_uniq Q1 Q2 andbT /=.
    have Hlt : all (fun l => l < size h1) (buffers d1).
      have := gains_in O1; rewrite D1 all_cat => /andP [_ Hd]; rewrite all_map.
      by apply: sub_all Hd => r1 /andP [].
    apply/hasPn => l0 Hl0; apply/negP => /(allP Hlt); move: Hl0; rewrite ltnNge.
    by move: N2; rewrite -(all_map _ (leq (size h1))) => /allP N2 /N2 ->.
Qed.
Lemma e_calls_history L0 h0 f g jA jH L es h o : same_on L0 h0 h -> e_object_in h o ->
  well_behaved L0 h0 o f g jA jH -> e_history_in L o h es -> all (@e_is_call N) es ->
  let: (o', h', l) := e_history o h es in
  [/\ unchanged h h', e_object_in h' o' /\ e_held o' = e_held o,
      gains_new h (he_gains o) (he_gains o') &
      e_calls (ekf_of f g jA jH h o) [seq x.1 | x <- l] =
        (ekf_of f g jA jH h' o', [seq x.2 | x <- l])].
Proof.
elim: es h o => [|[c|w] es IH] h o //= Bs Ho Hw.
  move=> _ _; split=> //; first exact: unchanged_refl.
  by exists [::]; rewrite cats0.
move=> [Hc Hin] Hall; have := one_ecall Bs Ho Hw Hc; case: (hekf_call _ _ _) Hin => [[o1 h1] r] Hin.
move=> [U1 [G1 _] [O1 E1 W1] C1 _].
have Bs1 : same_on L0 h0 h1 by apply: (based_ext (proj1 (unchangedP _ _) U1)) Bs.
have := IH h1 o1 Bs1 O1 W1 Hin Hall.
case: (e_history _ _ _) => [[o2 h2] l] [U2 [O2 E2] G2 C2] /=; rewrite C1 C2; split=> //.
- exact: unchanged_trans U1 U2.
- by rewrite E2 E1.
- case: G1 => d1 [D1 N1 Q1]; case: G2 => d2 [D2 N2 Q2]; exists (d1 ++ d2); split.
  + by rewrite D2 D1 catA.
  + rewrite all_cat N1 /=; apply: sub_all N2 => r' Hr'.
    by case: U1 => new U1; apply: leq_trans Hr'; rewrite U1 size_cat leq_addr.
  + rewrite /buffers map_cat cat_uniq Q1 Q2 andbT /=.
    have Hlt : all (fun l => l < size h1) (buffers d1).
      have := e_gains_in O1; rewrite D1 all_cat => /andP [_ Hd]; rewrite all_map.
      by apply: sub_all Hd => r1 /andP [].
    apply/hasPn => l0 Hl0; apply/negP => /(allP Hlt); move: Hl0; rewrite ltnNge.
    by move: N2; rewrite -(all_map _ (leq (size h1))) => /allP N2 /N2 ->.
Qed.

(** ** A user who writes to memory between calls *)
Lemma kept_array L h h' r : kept L h h' -> array_in h r ->
  array_in h' r /\ (rloc r \in L -> val h' r = val h r).
Proof.
move=> [S E] /andP [A B]; split; first by rewrite /array_in B (leq_trans A S).
by move=> HL; rewrite /val E.
Qed.

Lemma kept_arrays L h h' g : kept L h h' -> all (array_in h) g -> all (array_in h') g.
Proof. by move=> K; apply: sub_all => r /(kept_array K) []. Qed.

Lemma kf_of_kept L h h' o : kept L h h' -> {subset buffers (held o) <= L} -> object_in h o ->
  object_in h' o /\ kf_of h' o = with_gains (kf_of h o) [seq val h' r | r <- h_gains o].
Proof.
move=> K HL Ho; split; first exact: kept_arrays K Ho.
have VV r : rloc r \in buffers (held o) -> array_in h r -> val h' r = val h r.
  by move=> /HL Hr /(kept_array K) [_ ->].
move: Ho; rewrite /object_in all_cat => /andP [] /= /and5P [K1 K2 K3 K4 /and5P [K5 K6 K7 K8 _]] _.
by rewrite /kf_of /with_gains [kf_A _]/= (VV (h_A o)) ?(VV (h_xk o)) ?(VV (h_B o)) ?(VV (h_Pk o))
  ?(VV (h_H o)) ?(VV (h_Q o)) ?(VV (h_R o)) ?(VV (h_I o)) // /buffers /held /= !inE eqxx ?orbT.
Qed.

Lemma ekf_of_kept f g jA jH L h h' o : kept L h h' -> {subset buffers (e_held o) <= L} ->
  e_object_in h o ->
  e_object_in h' o /\
  ekf_of f g jA jH h' o = e_with_gains (ekf_of f g jA jH h o) [seq val h' r | r <- he_gains o].
Proof.
move=> K HL Ho; split; first exact: kept_arrays K Ho.
have VV r : rloc r \in buffers (e_held o) -> array_in h r -> val h' r = val h r.
  by move=> /HL Hr /(kept_array K) [_ ->].
move: Ho; rewrite /e_object_in all_cat => /andP [] /= /and5P [K1 K2 K3 K4 /andP [K5 _]] _.
by rewrite /ekf_of /e_with_gains [e_xk _]/= (VV (he_xk o)) ?(VV (he_Pk o)) ?(VV (he_Q o))
  ?(VV (he_R o)) ?(VV (he_I o)) // /buffers /e_held /= !inE eqxx ?orbT.
Qed.

Lemma user_history L es h o : object_in h o -> {subset buffers (held o) <= L} ->
  history_in L o h es ->
  let: (o', h', l) := history o h es in
  [/\ object_in h' o', held o' = held o,
      exists g, kf_of h' o' = with_gains (kf_of h o) g &
      [seq x.2 | x <- l] = [seq (run_meth x.1 (kf_of h o) [::]).2 | x <- l]].
Proof.
elim: es h o => [|[c|w] es IH] h o /= Ho HL.
- by move=> _; split=> //; exists (kf_gains (kf_of h o)); rewrite with_gainsK.
- move=> [Hc Hin]; have := one_call Ho Hc; case: (hkf_call _ _ _) Hin => [[o1 h1] r] Hin.
  move=> [U1 _ [O1 E1]]; rewrite kf_callE => /(pair_equal_spec _ _ _ _) [C1 C2] _.
  have HL1 : {subset buffers (held o1) <= L} by rewrite E1.
  have := IH h1 o1 O1 HL1 Hin; case: (history _ _ _) => [[o2 h2] l] [O2 E2 [g2 G2] X2].
  split=> //; first by rewrite E2 E1.
    by exists g2; rewrite G2 -C1.
  by rewrite /= C2 X2; congr cons; apply: eq_map => x; rewrite -C1 run_with_gains.
- move=> [Hw Hin]; have K : kept L h (w h) := Hw h.
  have [O1 V1] := kf_of_kept K HL Ho.
  have := IH (w h) o O1 HL Hin; case: (history _ _ _) => [[o2 h2] l] [O2 E2 [g2 G2] X2].
  split=> //; first by exists g2; rewrite G2 V1.
  by rewrite X2; apply: eq_map => x; rewrite V1 run_with_gains.
Qed.

Lemma same_on_kept L0 h0 L h h' : kept L h h' -> {subset L0 <= L} -> same_on L0 h0 h ->
  same_on L0 h0 h'.
Proof.
move=> [S E] HL [S0 B]; split=> [|l Hl]; first exact: leq_trans S0 S.
have [A1 A2] := B l Hl; split=> //; rewrite E ?HL //.
exact: leq_trans A1 S0.
Qed.

Lemma e_user_history L0 h0 f g jA jH L es h o : same_on L0 h0 h -> e_object_in h o ->
  well_behaved L0 h0 o f g jA jH -> {subset buffers (e_held o) <= L} -> {subset L0 <= L} ->
  e_history_in L o h es ->
  let: (o', h', l) := e_history o h es in
  [/\ e_object_in h' o', e_held o' = e_held o,
      exists gs, ekf_of f g jA jH h' o' = e_with_gains (ekf_of f g jA jH h o) gs &
      [seq x.2 | x <- l] = [seq (e_run x.1 (ekf_of f g jA jH h o) [::]).2 | x <- l]].
Proof.
move=> Bs Ho Hw HL HL0.
elim: es h o Bs Ho Hw HL => [|[c|w] es IH] h o /= Bs Ho Hwb HL.
- by move=> _; split=> //; exists (e_gains (ekf_of f g jA jH h o)); rewrite e_with_gainsK.
- move=> [Hc Hin]; have := one_ecall Bs Ho Hwb Hc; case: (hekf_call _ _ _) Hin => [[o1 h1] r] Hin.
  move=> [U1 _ [O1 E1 W1]]; rewrite e_callE => /(pair_equal_spec _ _ _ _) [C1 C2] _.
  have Bs1 : same_on L0 h0 h1 by apply: (based_ext (proj1 (unchangedP _ _) U1)) Bs.
  have HL1 : {subset buffers (e_held o1) <= L} by rewrite E1.
  have := IH h1 o1 Bs1 O1 W1 HL1 Hin; case: (e_history _ _ _) => [[o2 h2] l] [O2 E2 [g2 G2] X2].
  split=> //; first by rewrite E2 E1.
    by exists g2; rewrite G2 -C1.
  by rewrite /= C2 X2; congr cons; apply: eq_map => x; rewrite -C1 e_run_with_gains.
- move=> [Hw Hin]; have K : kept L h (w h) := Hw h.
  have [O1 V1] := ekf_of_kept f g jA jH K HL Ho.
  have := IH (w h) o (same_on_kept K HL0 Bs) O1 Hwb HL Hin.
  case: (e_history _ _ _) => [[o2 h2] l] [O2 E2 [g2 G2] X2].
  split=> //; first by exists g2; rewrite G2 V1.
  by rewrite X2; apply: eq_map => x; rewrite V1 e_run_with_gains.
Qed.
(** ** The constructors *)
Lemma new_kept L h h1 h2 (a : arr) r : fr (size h) h1 r a -> rloc r \in L -> kept L h1 h2 ->
  hv h2 r a.
Proof.
move=> [[A B C] _] HL [S E]; split=> //; first exact: leq_trans A S.
by rewrite -C /val E.
Qed.

Lemma identity_wfs n : wfs (np_identity N n).
Proof. exact: (wf_wfs (proj1 (elimT (isfloatP _) (isfloat_identity N n)))). Qed.

Definition size_for h xk ss : res nat :=
  match ss with
  | Some z => if (z =? 0)%Z then shape0 (val h xk)
              else if (z <? 0)%Z then Raise ValueError else Ok (Z.to_nat z)
  | None => shape0 (val h xk)
  end.

Lemma ctor_std h A xk B Pk H Q R ss :
  all (array_in h) [:: A; xk; Pk; H; Q; R] -> opt_in h B ->
  let: (h1, r) := hkf_init A xk B Pk H Q R ss h in
  unchanged h h1 /\
  match r with
  | Raise e => kf_init (val h A) (val h xk) (omap (val h) B) (val h Pk) (val h H) (val h Q) (val h R) ss
               = Raise e
  | Ok o => [/\ [/\ h_A o = A, h_xk o = xk, h_Pk o = Pk & h_H o = H],
               [/\ h_Q o = Q, h_R o = R & h_gains o = [::]],
               (if B is Some b then h_B o = b else new_since h (h_B o)), new_since h (h_I o) &
               forall h2, kept (own h o) h1 h2 ->
                 object_in h2 o /\
                 kf_init (val h2 A) (val h2 xk) (omap (val h2) B) (val h2 Pk) (val h2 H) (val h2 Q)
                         (val h2 R) ss = Ok (kf_of h2 o)]
  end.
Proof.
rewrite /= => /and5P [HA Hx HP HH /and3P [HQ HR _]] HB; rewrite /hkf_init /hbind.
have [h1 [rB [-> U1 HB1 LB]]] : exists h1 rB, [/\ h_check_none B A h = (h1, Ok rB), unchanged h h1,
    hv h1 rB (check_none_and_broadcast (omap (val h) B) (val h A)) &
    (if B is Some b then rB = b else new_since h rB)].
  case: B HB => [b|] HB /=.
    by exists h, b; split=> //; [exact: unchanged_refl | apply: array_hv].
  have := sim_new h (full_like_wfs (val h A)); rewrite /sim /h_full_like_nan.
  by case: (h_new _ h) => [h1 [rB|e]] /= [/unchangedP P] // [F1 F2]; exists h1, rB.
rewrite (_ : (match ss with
                | Some z => if (z =? 0)%Z then h_shape0 xk
                            else if (z <? 0)%Z then hraise nat ValueError else hret (Z.to_nat z)
                | None => h_shape0 xk end) h1 = (h1, size_for h xk ss)); last first.
  by rewrite /size_for; case: ss => [z|] //; case: ifP => // _; case: ifP.
rewrite /kf_init -/(size_for h xk ss); case Epn: (size_for h xk ss) => [n|e]; last by split.
lazy beta iota zeta.
have := sim_new h1 (identity_wfs n); rewrite /sim.
case: (h_new _ h1) => [h3 [rI|e]] [/unchangedP P] // FI; rewrite [agrees _ _ _]/= in FI; have [FI1 FI2] := FI.
have U3 := unchanged_trans U1 P.
have LI : new_since h rI by case: U1 => w U1; apply: leq_trans FI2; rewrite U1 size_cat leq_addr.
split=> //; split=> // h2 K.
set o := HKf _ _ _ _ _ _ _ _ _ _ in K *.
have arr2 r : array_in h r -> array_in h2 r.
  by move=> /(array_in_unchanged U3) [A3 _]; exact: (proj1 (kept_array K A3)).
have HI2 : hv h2 rI (np_identity N n).
  apply: new_kept FI _ K.
  by rewrite /own /buffers mem_filter -/(new_since h rI) LI /= !inE eqxx !orbT.
have HB2 : hv h2 rB (check_none_and_broadcast (omap (val h2) B) (val h2 A)).
  case: B @o K HB HB1 LB => [b|] o K HB HB1 LB /=; first by rewrite LB; apply/array_hv/arr2.
  have FB : fr (size h) h3 rB (np_full_like_nan (val h2 A)).
    by split=> //; apply: hv_ext (proj1 (unchangedP _ _) P) HB1.
  apply: new_kept FB _ K; rewrite /own /buffers mem_filter -/(new_since h rB) LB /= !inE eqxx.
  by rewrite !orbT.
split.
  by rewrite /object_in /= (hv_array HB2) (hv_array HI2) !arr2.
rewrite /rbind /kf_of; case: HI2 => _ _ EI; case: HB2 => _ _ EB.
by rewrite -EI -EB.
Qed.

Lemma ctor_ext h xk Pk Q R hf hh hjA hjH :
  all (array_in h) [:: xk; Pk; Q; R] ->
  let: (h1, r) := hekf_init (N := N) xk Pk Q R hf hh hjA hjH h in
  unchanged h h1 /\
  match r with
  | Raise e => forall f g jA jH,
      ekf_init (val h xk) (val h Pk) (val h Q) (val h R) f g jA jH = Raise e
  | Ok o => [/\ [/\ he_xk o = xk, he_Pk o = Pk, he_Q o = Q & he_R o = R],
               [/\ he_f o = hf, he_h o = hh, he_jA o = hjA & he_jH o = hjH],
               he_gains o = [::], new_since h (he_I o) &
               forall h2, kept (e_own h o) h1 h2 ->
                 e_object_in h2 o /\ forall f g jA jH,
                 ekf_init (val h2 xk) (val h2 Pk) (val h2 Q) (val h2 R) f g jA jH =
                   Ok (ekf_of f g jA jH h2 o)]
  end.
Proof.
rewrite /= => /and5P [Hx HP HQ HR _]; rewrite /hekf_init /hbind /h_shape0 /ekf_init.
rewrite (_ : shape0 (val h xk) = shape0 (Arr (N := N) (rdt xk) (rshp xk) [::])) //.
case Epn: (shape0 _) => [n|e]; last by split=> //; apply: unchanged_refl.
lazy beta iota zeta.
have := sim_new h (identity_wfs n); rewrite /sim.
case: (h_new _ h) => [h1 [rI|e]] [/unchangedP U1] // FI; rewrite [agrees _ _ _]/= in FI; have [FI1 FI2] := FI.
split=> //; split=> // h2 K; set o := HEkf _ _ _ _ _ _ _ _ _ _ _ in K *.
have arr2 r : array_in h r -> array_in h2 r.
  by move=> /(array_in_unchanged U1) [A3 _]; exact: (proj1 (kept_array K A3)).
have HI2 : hv h2 rI (np_identity N n).
  apply: new_kept FI _ K.
  by rewrite /e_own /buffers mem_filter FI2 /= !inE eqxx !orbT.
split; first by rewrite /e_object_in /= (hv_array HI2) !arr2.
move=> f g jA jH; rewrite (_ : shape0 (val h2 xk) = Ok n) // /rbind /ekf_of.
by case: HI2 => _ _ EI; rewrite -EI.
Qed.
End Thms.
