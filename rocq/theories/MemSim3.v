(** * MemSim3: smooth on arrays in memory *)
From Coq Require Import ZArith List Lia.
From mathcomp Require Import ssreflect ssrfun ssrbool eqtype ssrnat seq path.
From Verif Require Import Np NpLemmas Kf Ekf ApiSpec Loop NpShapes FilterLemmas.
From Verif Require Import Mem MemKf MemLemmas MemSim MemSim2.

Set Implicit Arguments.
Unset Strict Implicit.
Unset Printing Implicit Defensive.

Section Sim.
Variable N : num.
Notation arr := (arr N).
Notation heap := (heap N).
Implicit Types h : heap.

Lemma sim_bindW W W1 h A B A' B' (m : hres N A) (p : res B) f q R (R' : heap -> A' -> B' -> Prop) :
  {subset W1 <= W} -> sim W1 h m p R ->
  (forall h' a b, pres W1 h h' -> R h' a b -> sim W h' (f a) (q b) R') ->
  sim W h (hbind m f) (rbind p q) R'.
Proof.
move=> Hs [P1 A1] H; rewrite /sim /hbind; have P1' := pres_sub Hs P1.
case Em: (m h) P1 P1' A1 => [h1 [a|e]] /= P1 P1'; case: p => [b|e'] //= A1.
have [P2 A2] := H _ _ _ P1 A1; split=> //; exact: pres_trans P1' P2.
Qed.

Lemma sim_bindE W W1 h A B A' B' (m : hres N A) (p : res B) f q R (R' : heap -> A' -> B' -> Prop) :
  {subset W1 <= W} -> sim W1 h m p R ->
  (forall h' a b, pres W1 h h' -> p = Ok b -> R h' a b -> sim W h' (f a) (q b) R') ->
  sim W h (hbind m f) (rbind p q) R'.
Proof.
move=> Hs [P1 A1] H; rewrite /sim /hbind; have P1' := pres_sub Hs P1.
case Em: (m h) P1 P1' A1 => [h1 [a|e]] /= P1 P1'; case Ep: p => [b|e'] //= A1.
have [P2 A2] := H _ _ _ P1 Ep A1; split=> //; exact: pres_trans P1' P2.
Qed.

Lemma sim_bindlW W W1 h A B A' B' (m : hres N A) (b : B) f (q : res B') R (R' : heap -> A' -> B' -> Prop) :
  {subset W1 <= W} -> sim W1 h m (Ok b) R ->
  (forall h' a, pres W1 h h' -> R h' a b -> sim W h' (f a) q R') ->
  sim W h (hbind m f) q R'.
Proof.
move=> Hs [P1 A1] H; rewrite /sim /hbind; have P1' := pres_sub Hs P1.
case Em: (m h) P1 P1' A1 => [h1 [a|e]] //= P1 P1' A1.
have [P2 A2] := H _ _ P1 A1; split=> //; exact: pres_trans P1' P2.
Qed.

Lemma hbindE A B (m : hres N A) (f : A -> hres N B) h h1 a : m h = (h1, Ok a) -> hbind m f h = f a h1.
Proof. by rewrite /hbind => ->. Qed.

Lemma sub0 (W : seq nat) : {subset [::] <= W}. Proof. by []. Qed.

Lemma sim_smooth_gain h n rPa rP rA Pa P A : n <= size h -> hv h rPa Pa -> hv h rP P -> hv h rA A ->
  sim [::] h (h_smooth_gain rPa rP rA) (smooth_gain Pa P A) (fr n).
Proof.
move=> Hn HPa HP HA; rewrite /h_smooth_gain /smooth_gain.
hstep (sim_matmul HP (hv_T HA)) as h1 r1 v1 [H1 _].
exact: sim_solve_T Hn (hv_T HPa) (hv_T H1).
Qed.

Lemma sim_smooth_state h n rx rG rs ra x G s a : n <= size h -> hv h rx x -> hv h rG G ->
  hv h rs s -> hv h ra a ->
  sim [::] h (h_smooth_state rx rG rs ra) (smooth_state x G s a) (fr n).
Proof.
move=> Hn Hx HG Hs Ha; rewrite /h_smooth_state /smooth_state.
hstep (sim_sub Hs Ha) as h1 r1 v1 [H1 _].
hstep (sim_matmul HG H1) as h2 r2 v2 [H2 _].
exact: sim_fr Hn (sim_add Hx H2).
Qed.

Lemma sim_smooth_cov h n rP rG rs ra P G s a : n <= size h -> hv h rP P -> hv h rG G ->
  hv h rs s -> hv h ra a ->
  sim [::] h (h_smooth_cov rP rG rs ra) (smooth_cov P G s a) (fr n).
Proof.
move=> Hn Hx HG Hs Ha; rewrite /h_smooth_cov /smooth_cov.
hstep (sim_sub Hs Ha) as h1 r1 v1 [H1 _].
hstep (sim_matmul H1 (hv_T HG)) as h2 r2 v2 [H2 _].
hstep (sim_matmul HG H2) as h3 r3 v3 [H3 _].
exact: sim_fr Hn (sim_add Hx H3).
Qed.

Lemma sim_get h r a k : hv h r a ->
  sim [::] h (h_getitem r k) (np_getitem a k) (fun h' r' a' => hv h' r' a').
Proof. by move=> H; apply: sim_impl (sim_getitem k H) => h' r' a' _ []. Qed.

Lemma sim_get_ok h r a k b : np_getitem a k = Ok b -> hv h r a ->
  sim [::] h (h_getitem r k) (Ok b) (fun h' r' a' => hv h' r' a').
Proof. by move=> <-; apply: sim_get. Qed.

Tactic Notation "gstep" uconstr(lem) "as" ident(h') ident(r) ident(v) simple_intropattern(H) :=
  let E := fresh "E" in
  refine (sim_bindW (@sub0 _) lem _); intros h' r v E H; hup E;
  repeat match goal with K : hv2 _ _ _ |- _ => apply (hv2_pres E isT isT) in K end; clear E.
Tactic Notation "gstepE" uconstr(lem) "as" ident(h') ident(r) ident(v) ident(Q) simple_intropattern(H) :=
  let E := fresh "E" in
  refine (sim_bindE (@sub0 _) lem _); intros h' r v E Q H; hup E;
  repeat match goal with K : hv2 _ _ _ |- _ => apply (hv2_pres E isT isT) in K end; clear E.
Tactic Notation "gstepl" uconstr(lem) "as" ident(h') ident(r) simple_intropattern(H) :=
  let E := fresh "E" in
  refine (sim_bindlW (@sub0 _) lem _); intros h' r E H; hup E;
  repeat match goal with K : hv2 _ _ _ |- _ => apply (hv2_pres E isT isT) in K end; clear E.

Lemma sim_smooth_body h est vest sm vsm k ahead vahead rA A rP P x :
  outs2 sm -> hv2 h sm vsm -> hv2 h est vest -> rloc est.1 \notin outW sm -> rloc est.2 \notin outW sm ->
  hv2 h ahead vahead -> rloc ahead.2 \notin outW sm -> hv h rA A -> hv h rP P ->
  np_getitem vest.2 (Z.of_nat k) = Ok P -> np_getitem vest.1 (Z.of_nat k) = Ok x ->
  sim (outW sm) h (h_smooth_body est sm k ahead rA rP)
      (smooth_body vest vsm k vahead A) (fun h' _ v => hv2 h' sm v).
Proof.
move=> Ho Hsm He W1 W2 Ha W3 HA HP EP Ex; rewrite /h_smooth_body /smooth_body EP Ex [rbind _ _]/=.
have Hlive : {in outW sm, forall l, l < size h}.
  by case: Hsm => [[L1 _ _] [L2 _ _]] l; rewrite /outW !inE => /orP [/eqP -> | /eqP ->].
have {Hlive} [n Hn Hlive] : exists2 n, n <= size h & {in outW sm, forall l, l < n} by exists (size h).
have Hav l : n <= l -> l \notin outW sm.
  by move=> Hl; apply/negP => /Hlive; rewrite ltnNge Hl.
have [Hne U1 U2] := Ho.
have Hin1 : {subset [:: rloc sm.1] <= outW sm} by move=> l; rewrite /outW !inE => ->.
have Hin2 : {subset [:: rloc sm.2] <= outW sm} by move=> l; rewrite /outW !inE => ->; rewrite orbT.
gstep (sim_smooth_gain Hn (proj2 Ha) HP HA) as h1 rG G [HG LG].
gstepl (sim_get_ok Ex (proj1 He)) as h2 rx Hx.
gstep (sim_get (Z.of_nat k.+1) (proj1 Hsm)) as h3 rs1 xs1 Hs1.
gstep (sim_smooth_state Hn Hx HG Hs1 (proj1 Ha)) as h4 rxs xs [Hxs Lxs].
apply: (sim_bindW Hin1 (sim_setitem (Z.of_nat k) (proj1 Hsm) U1 Hxs)) => h5 _ smx E5 Hsm1.
have HG5 : hv h5 rG G by apply: hv_pres (pres_sub Hin1 E5) (Hav _ LG) HG.
have He5 := hv2_pres (pres_sub Hin1 E5) W1 W2 He.
have Ha5 : hv h5 ahead.2 vahead.2 := hv_pres (pres_sub Hin1 E5) W3 (proj2 Ha).
have Hsm2 : hv h5 sm.2 vsm.2.
  by apply: hv_pres E5 _ (proj2 Hsm); rewrite inE eq_sym; apply/eqP.
have Hn5 : n <= size h5 by apply: leq_trans Hn (proj1 E5).
clear Hx Hs1 Hxs HA HP HG He Ha Hsm E5 Hn.
gstepl (sim_get_ok EP (proj2 He5)) as h6 rP' HP'.
gstep (sim_get (Z.of_nat k.+1) Hsm2) as h7 rs2 Ps1 Hs2.
gstep (sim_smooth_cov Hn5 HP' HG5 Hs2 Ha5) as h8 rPs Ps [HPs LPs].
have [P9 A9] := sim_setitem (Z.of_nat k) Hsm2 U2 HPs.
have Hs : sim (outW sm) h8 (h_setitem sm.2 (Z.of_nat k) rPs) (np_setitem vsm.2 (Z.of_nat k) Ps)
   (fun h' _ w => hv2 h' sm (smx, w)).
  split; first exact: pres_sub Hin2 P9.
  apply: agrees_impl A9 => _ w Hw; split=> //=; apply: hv_pres P9 _ Hsm1.
  by rewrite inE; apply/eqP.
by apply: (sim_rmap Hs).
Qed.

Lemma sim_kf_smooth_step h o self rU U est vest sm vsm k :
  outs2 sm -> hv_kf h o self -> hv h rU U -> hv2 h sm vsm -> hv2 h est vest ->
  rloc est.1 \notin outW sm -> rloc est.2 \notin outW sm ->
  sim (outW sm) h (hkf_smooth_step o rU est sm k) (kf_smooth_step self U vest k vsm)
      (fun h' _ v => hv2 h' sm v).
Proof.
move=> Hout [[HA Hx0 HB HP0] [HH HQ HR HI] _] HU Hsm He W1 W2.
have Hlive : {in outW sm, forall l, l < size h}.
  by case: Hsm => [[L1 _ _] [L2 _ _]] l; rewrite /outW !inE => /orP [/eqP -> | /eqP ->].
have {Hlive} [n Hn Hlive] : exists2 n, n <= size h & {in outW sm, forall l, l < n} by exists (size h).
have Hav l : n <= l -> l \notin outW sm.
  by move=> Hl; apply/negP => /Hlive; rewrite ltnNge Hl.
rewrite /hkf_smooth_step /kf_smooth_step.
gstep (sim_get (Z.of_nat k.+1) HA) as h1 rA A Ha.
gstep (sim_get (Z.of_nat k.+1) HQ) as h2 rQ Q Hq.
gstep (sim_get (Z.of_nat k.+1) HB) as h3 rB B Hb.
gstep (sim_get (Z.of_nat k.+1) HU) as h4 ru u Hu.
gstepE (sim_get (Z.of_nat k) (proj2 He)) as h5 rP P EP HP.
gstepE (sim_get (Z.of_nat k) (proj1 He)) as h6 rx x Ex Hx.
gstep (@sim_predict _ _ n _ _ (Some rB) (Some ru) _ _ _ _ (Some _) (Some _) _ _ Hn Ha Hx Hb Hu HP Hq)
  as h7 ah vah [[F1 L1] [F2 L2] _].
apply: sim_smooth_body EP Ex => //.
exact: Hav.
Qed.

(** ** The loop *)
Lemma sim_smooth_loop (Inv : heap -> Prop) sm step pstep :
  (forall h h', pres (outW sm) h h' -> Inv h -> Inv h') ->
  (forall h k vsm, Inv h -> hv2 h sm vsm ->
     sim (outW sm) h (step k) (pstep k vsm) (fun h' _ v => hv2 h' sm v)) ->
  forall j h vsm, Inv h -> hv2 h sm vsm ->
    sim (outW sm) h (h_smooth_loop step j) (smooth_loop pstep j vsm) (fun h' _ v => hv2 h' sm v).
Proof.
move=> Hinv Hstep; elim=> [|k IH] h vsm Hi Hsm; first exact: sim_ret.
apply: (sim_bind (Hstep h k vsm Hi Hsm)) => h1 _ v1 E1 Hsm1.
by apply: IH => //; apply: Hinv E1 Hi.
Qed.

(** smooth_init is alloc followed by the last row *)
Lemma sim_smooth_last h est vest sm vsm : outs2 sm -> hv2 h sm vsm -> hv2 h est vest ->
  rloc est.1 \notin outW sm -> rloc est.2 \notin outW sm ->
  sim (outW sm) h (h_smooth_last sm est)
    (do xl <- np_getitem vest.1 (-1); do smx <- np_setitem vsm.1 (-1) xl;
     do Pl <- np_getitem vest.2 (-1); do smP <- np_setitem vsm.2 (-1) Pl; Ok (smx, smP))
    (fun h' _ v => hv2 h' sm v).
Proof.
move=> [Hne U1 U2] Hsm He W1 W2; rewrite /h_smooth_last.
have Hin1 : {subset [:: rloc sm.1] <= outW sm} by move=> l; rewrite /outW !inE => ->.
have Hin2 : {subset [:: rloc sm.2] <= outW sm} by move=> l; rewrite /outW !inE => ->; rewrite orbT.
gstep (sim_get (-1) (proj1 He)) as h1 rx x Hx.
apply: (sim_bindW Hin1 (sim_setitem (-1) (proj1 Hsm) U1 Hx)) => h2 _ smx E2 Hsm1.
have He2 := hv2_pres (pres_sub Hin1 E2) W1 W2 He.
have Hsm2 : hv h2 sm.2 vsm.2.
  by apply: hv_pres E2 _ (proj2 Hsm); rewrite inE eq_sym; apply/eqP.
clear Hx E2.
gstep (sim_get (-1) (proj2 He2)) as h3 rP P HP.
have [P9 A9] := sim_setitem (-1) Hsm2 U2 HP.
have Hs : sim (outW sm) h3 (h_setitem sm.2 (-1) rP) (np_setitem vsm.2 (-1) P)
   (fun h' _ w => hv2 h' sm (smx, w)).
  split; first exact: pres_sub Hin2 P9.
  apply: agrees_impl A9 => _ w Hw; split=> //=; apply: hv_pres P9 _ Hsm1.
  by rewrite inE; apply/eqP.
by apply: (sim_rmap Hs).
Qed.

(** After the filter: nothing is appended any more. *)
Lemma call_after_filter h g pg n (m : hmeth N (ref * ref)) (p : meth N (arr * arr))
    (rest : ref * ref -> hres N (ref * ref)) (prest : arr * arr -> res (arr * arr)) :
  n <= size h -> call_ok h g pg m p ->
  (forall h1 est vest, pres [::] h h1 -> fr2 (size h) h1 est vest ->
     sim [::] h1 (rest est) (prest vest) (fr2 (size h1))) ->
  call_ok h g pg (hmbind m (fun est => hmlift (rest est))) (mbind p (fun vest => mlift (prest vest))).
Proof.
move=> Hn [[P1 [d Gd Nd] V1 A1] H1] H2; rewrite /call_ok /msim /hmbind /mbind.
case Em: (m g h) P1 Gd V1 A1 => [g1 [h1 [est|e]]] /= P1 Gd;
  case Ep: (p pg) => [pg1 [vest|e']] //= V1 A1; last by split=> //; split=> //; exists d.
rewrite /hmlift /mlift; have [P2 A2] := H2 _ _ _ P1 A1.
case Er: (rest est h1) P2 A2 => [h2 r] /= P2 A2; split.
  split=> //.
  - exact: pres_trans P1 P2.
  - by exists d.
  - exact: hvs_pres P2 (avoids0 _) V1.
  - apply: agrees_impl A2 => a b [F1 F2 F3]; split=> //; first exact: fr_le (proj1 P1) F1.
    exact: fr_le (proj1 P1) F2.
move=> h' g' out [<- _ Eo]; move: A2; rewrite Eo; case: (prest vest) => //= v [[_ L1] [_ L2] _].
apply: live_avoids (hvs_live V1) _ => l.
by rewrite /outW !inE => /orP [/eqP -> | /eqP ->].
Qed.

(** smooth with the filter's results given. *)
Definition h_rest_smooth (len : hres N nat) (n : nat) (last : ref * ref -> hres N unit)
    (chk : hres N ref) (loop : ref * ref -> ref -> nat -> hres N unit) : hres N (ref * ref) :=
  hdo T <- len; hdo sm <- h_alloc T n; hdo _ <- last sm; hdo U' <- chk;
  hdo _ <- loop sm U' T; hret sm.

Lemma sim_rest_smooth (Inv : heap -> Prop) h n est vest rZ Z rU U
    (step : ref -> ref * ref -> nat -> hres N unit) pstep :
  (forall W h1 h2, {in W, forall l, size h <= l} -> pres W h1 h2 -> Inv h1 -> Inv h2) ->
  (forall h' sm rU' k vsm, outs2 sm -> Inv h' -> hv h' rU' (control Z U) -> hv2 h' sm vsm ->
     hv2 h' est vest -> rloc est.1 \notin outW sm -> rloc est.2 \notin outW sm ->
     sim (outW sm) h' (step rU' sm k) (pstep k vsm) (fun h'' _ v => hv2 h'' sm v)) ->
  Inv h -> hv2 h est vest -> hv h rZ Z -> hvo h rU U ->
  sim [::] h
    (h_rest_smooth (h_len rZ) n (fun sm => h_smooth_last sm est) (h_check_none rU rZ)
                   (fun sm U' T => h_smooth_loop (step U' sm) (T - 1)))
    (do T <- np_len Z; do sm <- smooth_init T n vest; smooth_loop pstep (T - 1) sm)
    (fr2 (size h)).
Proof.
move=> Hinv Hstep Hi He HZ HU; rewrite /h_rest_smooth.
have [P0 A0] := sim_len HZ.
have S0 : sim [::] h (h_len rZ) (np_len Z) (fun h' n m => h' = h /\ n = m).
  by split=> //; apply: agrees_impl A0 => a b.
apply: (sim_bind S0) => h0 T T' _ [-> ->] {S0 P0 A0 h0 T}.
case: (sim_alloc h T' n) => PA; case EA: (h_alloc T' n h) PA => [h1 [sm|e]] P1 //.
rewrite /agrees; cbn [fst snd] in P1 |- *; case=> F1 O1.
have HWn : {in outW sm, forall l, size h <= l}.
  by case: F1 => [[_ L1] [_ L2] _] l; rewrite /outW !inE => /orP [/eqP -> | /eqP ->].
have Hlt l : l < size h -> l \notin outW sm by move=> Hl; apply/negP => /HWn; rewrite leqNgt Hl.
have W1 : rloc est.1 \notin outW sm by apply: Hlt; case: He => [[]].
have W2 : rloc est.2 \notin outW sm by apply: Hlt; case: He => [_ []].
have He1 := hv2_pres P1 isT isT He.
have Hsm1 : hv2 h1 sm (alloc N T' n) by case: F1 => [[? _] [? _] _].
have S1 := sim_smooth_last O1 Hsm1 He1 W1 W2.
have -> : smooth_init T' n vest =
  (do xl <- np_getitem vest.1 (-1); do smx <- np_setitem (alloc N T' n).1 (-1) xl;
   do Pl <- np_getitem vest.2 (-1); do smP <- np_setitem (alloc N T' n).2 (-1) Pl; Ok (smx, smP)) by [].
move: S1; set init := rbind (np_getitem _ _) _ => S1.
suff S2 : sim (outW sm) h1
    (hdo _ <- h_smooth_last sm est; hdo U' <- h_check_none rU rZ;
     hdo _ <- h_smooth_loop (step U' sm) (T' - 1); hret sm)
    (do sm0 <- init; smooth_loop pstep (T' - 1) sm0) (fun h' r v => r = sm /\ hv2 h' sm v).
  rewrite /sim !(hbindE _ EA); case: S2 => P2 A2; split.
    exact: pres_new HWn (pres_trans (pres0 _ P1) P2).
  apply: agrees_impl A2 => r v [-> [V1 V2]]; case: F1 => [[_ L1] [_ L2] L3].
  by split=> //; split.
apply: (sim_bind S1) => h2 _ v2 E2 Hsm2.
have P12 : pres (outW sm) h h2 := pres_trans (pres0 _ P1) E2.
have I2 : Inv h2 by apply: Hinv HWn P12 Hi.
have He2 := hv2_pres P12 W1 W2 He.
have HZ2 : hv h2 rZ Z by have [LZ _ _] := HZ; apply: hv_pres P12 (Hlt _ LZ) HZ.
have HU2 : hvo h2 rU U.
  by move: HU; case: rU => [r|]; case: U {Hstep} => [u|] //= HU; have [LU _ _] := HU; apply: hv_pres P12 (Hlt _ LU) HU.
have Hlive2 : {in outW sm, forall l, l < size h2}.
  by case: Hsm2 => [[L1 _ _] [L2 _ _]] l; rewrite /outW !inE => /orP [/eqP -> | /eqP ->].
apply: (sim_bindlW (@sub0 _) (sim_check HU2 HZ2)) => h3 rU' E3 [HU3 LU3].
have Wu : rloc rU' \notin outW sm.
  case Hl: (rloc rU' < size h2).
    have := LU3 Hl; case: rU HU {LU3 HU2} => [r|] // HU [E]; rewrite -E in HU.
    by case: U HU {Hstep HU3} => [u|] //= [L _ _]; apply: Hlt.
  by apply/negP => /Hlive2; rewrite Hl.
pose Inv3 (h' : heap) := [/\ Inv h', hv h' rU' (control Z U) & hv2 h' est vest].
have P13 : pres (outW sm) h h3 := pres_trans P12 (pres0 _ E3).
have I3 : Inv3 h3 by split=> //; [apply: Hinv HWn P13 Hi | apply: hv2_pres E3 isT isT He2].
have Hsm3 : hv2 h3 sm v2 by apply: hv2_pres E3 isT isT Hsm2.
have [P4 A4] : sim (outW sm) h3 (h_smooth_loop (step rU' sm) (T' - 1)) (smooth_loop pstep (T' - 1) v2)
   (fun h' _ v => hv2 h' sm v).
  apply: (@sim_smooth_loop Inv3) => //.
    move=> ha hb E [K1 K2 K3]; split; first exact: Hinv HWn E K1.
      exact: hv_pres E Wu K2.
    exact: hv2_pres E W1 W2 K3.
  by move=> ha k vsm [K1 K2 K3] Hv; apply: Hstep.
rewrite /sim /hbind; case: (h_smooth_loop _ _ h3) P4 A4 => [h4 [a|e]] //= P4 A4.
by split=> //; case: (smooth_loop _ _ _) A4.
Qed.

Lemma call_smooth h g pg o self rZ Z rU U :
  hv_kf h o self -> hv h rZ Z -> hvo h rU U -> Forall2 (hv h) g pg ->
  call_ok h g pg (hkf_smooth o rZ rU) (kf_smooth self Z U).
Proof.
move=> Ho HZ HU Hg; have [Cf _] := call_filter Ho HZ HU Hg.
have Eq1 : hkf_smooth o rZ rU g h = hmbind (hkf_filter o rZ rU) (fun est => hmlift
  (h_rest_smooth (h_len rZ) (h_size o) (fun sm => h_smooth_last sm est) (h_check_none rU rZ)
    (fun sm U' T => h_smooth_loop (fun k => hkf_smooth_step o U' est sm k) (T - 1)))) g h.
  rewrite /hkf_smooth /hmbind; case: (hkf_filter o rZ rU g h) => [g1 [h1 [est|e]]] //.
  rewrite /h_rest_smooth /hmlift /hbind /hmret /hret.
  case: (h_len rZ h1) => [h2 [T|e]] //; case: (h_alloc T _ h2) => [h3 [sm|e]] //.
  case: (h_smooth_last sm est h3) => [h4 [[]|e]] //; case: (h_check_none rU rZ h4) => [h5 [U'|e]] //.
  by case: (h_smooth_loop _ _ h5) => [h6 [[]|e]].
have Eq2 : kf_smooth self Z U pg = mbind (kf_filter self Z U) (fun vest => mlift
  (do T <- np_len Z; do sm <- smooth_init T (kf_size self) vest;
   smooth_loop (kf_smooth_step self (control Z U) vest) (T - 1) sm)) pg.
  rewrite /kf_smooth /mbind; case: (kf_filter self Z U pg) => [pg1 [vest|e]] //.
  rewrite /mlift /rbind; case: (np_len Z) => [T|e] //.
  by case: (smooth_init T (kf_size self) vest).
rewrite /call_ok /msim Eq1 Eq2; apply: (call_after_filter (leqnn _) Cf).
move=> h1 est vest P1 [[He1 _] [He2 _] _].
have Hsz : h_size o = kf_size self by case: Ho.
rewrite Hsz; have Ho1 := hv_kf_pres P1 (avoids0 _) Ho.
have Hlive1 := hv_kf_live Ho1.
apply: (@sim_rest_smooth (fun h' => hv_kf h' o self) _ _ _ _ _ _ _ U) => //.
- by move=> W ha hb HW E; apply: hv_kf_pres E (live_avoids Hlive1 HW).
- by move=> h' sm rU' k vsm Osm Hi HU' Hsm He W1 W2; apply: sim_kf_smooth_step.
- exact: hv_ext P1 HZ.
- exact: hvo_ext P1 HU.
Qed.

End Sim.
