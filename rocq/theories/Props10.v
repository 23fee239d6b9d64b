(** * Props10: C47 - C52: the extended filter in exact arithmetic

    The specification ([e_exact_run], [linearised], [e_x_before],
    [e_P_before], [value], [good_vec], [good_mat]) is at the top of EkfRun.v. *)
From Coq Require Import ZArith.
From mathcomp Require Import all_ssreflect all_algebra.
From Verif Require Import Np NpLemmas Kf Ekf ApiSpec Loop Frame FilterLemmas FilterThms SmoothLemmas DataIndep
  Exact Repr Textbook RunSpec Refine Refine2 Build Outputs
  Loewner KalmanAlg TextbookThms EkfRun EkfRun2 EkfBuild.

Set Implicit Arguments.
Unset Strict Implicit.
Unset Printing Implicit Defensive.
Import GRing.Theory Num.Theory Order.Theory.
Local Open Scope ring_scope.

Section Props.
Variable F : realFieldType.
Variable oracle : oracle_type F.
Variable n2i : Z.
Notation N := (exact oracle n2i).
Notation arr := (arr N).

Section OneRun.
Variables (n m : nat) (self : ekf N) (Z : arr) (U : option arr) (g g' : seq arr) (st er : arr).
Notation T := (e_steps self Z U).
Notation u k := (Some (row (control Z U) k)).

(** ** C47: the extended filter computes the textbook recursion *)
Theorem C47_filter_computes_the_textbook_step :
  e_exact_run n m self Z U -> ekf_filter self Z U g = (g', Ok (st, er)) ->
  size g' = (size g + T)%N /\
  forall k, (k < T)%N ->
  let x := e_x_before self st k in
  let P := mx n n (e_P_before self er k) in
  exists y A zh H,
  [/\ e_f self x (u k) = Ok y /\ e_jA self x (u k) = Ok A,
      e_h self y = Ok zh /\ e_jH self y = Ok H &
  let MA := mx n n A in let MH := mx m n H in
  let Pm := MA *m P *m MA^T + cov n (row (e_Q self) k) in
  let S := MH *m Pm *m MH^T + cov m (row (e_R self) k) in
  let K := Pm *m MH^T *m invmx S in
  [/\ S \in unitmx,
      mx n 1 (row st k) = mx n 1 y + K *m (mx m 1 (row Z k) - mx m 1 zh),
      mx n n (row er k) = (1%:M - K *m MH) *m Pm,
      mx n m (nth (np_zeros N [::]) g' (size g + k)) = K &
      [/\ clean (row st k), clean (row er k), clean (nth (np_zeros N [::]) g' (size g + k)) &
          shp (nth (np_zeros N [::]) g' (size g + k)) = [:: n; m]]]].
Proof.
move=> Hrun E; split; first by case: (e_gains_out Hrun E).
move=> k Hk x P; have [_ _ _ _ [_ _ Hcal _ _]] := Hrun.
have [y [A [_ [_ [[Ey Gy] [EA GA] _ _]]]]] := Hcal k x Hk (e_before_good Hrun E (ltnW Hk)).
have [_ [_ [zh [H [_ _ [Ezh Gzh] [EH GH]]]]]] := Hcal k y Hk Gy.
exists y, A, zh, H; split=> // MA MH Pm S K.
have [Hu H1 H2 H3 [R1 R2 R3]] := e_filter_out Hrun E Hk.
have [E1 E2] := e_before_out Hrun E (ltnW Hk).
set s := linearised n m self Z U (e_x_before self st) in Hu H1 H2 H3 R1 R2 R3 E1 E2.
have EAk : mA s k = MA by rewrite /s /linearised /= -/x EA.
have EHk : mH s k = MH by rewrite /s /linearised /= -/x Ey /= EH.
have EP : pred_P s k = Pm by rewrite /pred_P /prior_P EAk -E2.
have Ex : pred_x s k = mx n 1 y by rewrite (e_prior_out Hrun E Hk) -/x Ey.
have ES : innov s k = S by rewrite /innov /innovation EP EHk.
have EK : gain_at s k = K by rewrite /gain_at /kgain -/(innov s k) ES EP EHk.
have Ez : mz s k - mH s k *m pred_x s k = mx m 1 (row Z k) - mx m 1 zh.
  by rewrite Ex EHk /s /linearised /= -/x Ey /= EH Ezh /= addrK.
split.
- by rewrite -ES.
- by rewrite H1 -EK -Ez -Ex.
- by rewrite H2 -EK -EP -EHk.
- by rewrite -EK -H3.
by case: R1 => [[_ _ _ C1 _] _]; case: R2 => [[_ _ _ C2 _] _]; case: R3 => [[_ S3 _ C3 _] D3].
Qed.

Theorem C47_smooth_computes_the_textbook_step L xs Ps :
  e_exact_run n m self Z U -> T = nrows Z -> nrows Z = L.+1 ->
  ekf_smooth self Z U g = (g', Ok (xs, Ps)) ->
  exists st er, ekf_filter self Z U g = (g', Ok (st, er)) /\
  [/\ mx n 1 (row xs L) = mx n 1 (row st L), mx n n (row Ps L) = mx n n (row er L) &
  forall k, (k < L)%N ->
  let x := row st k in
  let P := mx n n (row er k) in
  exists y A, [/\ e_f self x (u k.+1) = Ok y, e_jA self x (u k.+1) = Ok A &
  let MA := mx n n A in
  let Pa := MA *m P *m MA^T + cov n (row (e_Q self) k.+1) in
  let G := P *m MA^T *m invmx Pa in
  [/\ Pa \in unitmx,
      mx n 1 (row xs k) = mx n 1 x + G *m (mx n 1 (row xs k.+1) - mx n 1 y),
      mx n n (row Ps k) = P + G *m (mx n n (row Ps k.+1) - Pa) *m G^T,
      clean (row xs k) & clean (row Ps k)]]].
Proof.
move=> Hrun HT HL E.
have [st0 [er0 Ef]] : exists st er, ekf_filter self Z U g = (g', Ok (st, er)).
  move: E; rewrite /ekf_smooth /mbind; case: (ekf_filter self Z U g) => g1 [[st0 er0]|e] // H.
  exists st0, er0; congr (_, _); move: H; rewrite /mlift.
  by case: (np_len Z) => // T'; case: (smooth_init _ _ _) => // sm [].
exists st0, er0; split=> //.
case: (e_smooth_rp Hrun Ef HT HL) => [[xs1 [Ps1 [E1 Hp Hr]]]|[E1 _]]; last by rewrite E1 in E.
have [e1 e2] : (xs, Ps) = (xs1, Ps1) by move: E; rewrite E1 => -[-> ->].
subst xs1 Ps1; set s := linearised n m self Z U (e_x_before self st0) in Hp Hr.
have HLT : (L < T)%N by rewrite HT HL.
have [/rpf_mx a1 /rpf_mx a2] := Hr L (leqnn L); have [_ f1 f2 _ _] := e_filter_out Hrun Ef HLT.
split; first by rewrite a1 f1 smooth_xT.
  by rewrite a2 f2 smooth_PT.
move=> k Hk x P.
have HkT : (k.+1 < T)%N by rewrite HT HL ltnS.
have HkT' : (k < T)%N by exact: ltnW.
have [_ _ _ _ [_ _ Hcal _ _]] := Hrun.
have [y [A [_ [_ [[Ey Gy] [EA GA] _ _]]]]] := Hcal k.+1 x HkT (e_before_good Hrun Ef HkT').
exists y, A; split=> // MA Pa G.
have [b1 b2] := Hr k (ltnW Hk); have [c1 c2] := Hr k.+1 Hk.
have [_ d1 d2 _ _] := e_filter_out Hrun Ef HkT'; rewrite -/s in d1 d2.
have EAk : mA s k.+1 = MA by rewrite /s /linearised /= -/x EA.
have EP : pred_P s k.+1 = Pa by rewrite /pred_P /prior_P EAk -d2.
have Ex : pred_x s k.+1 = mx n 1 y by rewrite (e_prior_out Hrun Ef HkT) -/x Ey.
have EG : sgain s k = G by rewrite /sgain EP EAk -d2.
split; first by rewrite -EP; exact: Hp.
- by rewrite (rpf_mx b1) (rpf_mx c1) -EG -Ex /x d1 smooth_xS.
- by rewrite (rpf_mx b2) (rpf_mx c2) -EG -EP /P d2 -smooth_PS.
- by case: b1 => [[]].
by case: b2 => [[]].
Qed.

(** One update call. *)
Theorem C47_update_computes_the_textbook_correction (x P z R zh H : arr) :
  e_constructed self -> e_size self = n ->
  e_h self x = Ok zh -> good_obs m zh -> e_jH self x = Ok H -> good_mat m n H ->
  good_vec n x -> good_mat n n P -> dt P = DFloat ->
  good_obs m z ->
  dt z = DFloat \/ dt zh = DFloat -> cov_layout m R -> clean R ->
  let MH := mx m n H in let MP := mx n n P in
  let S := MH *m MP *m MH^T + cov m R in
  let K := MP *m MH^T *m invmx S in
  if S \in unitmx then
    exists Kk y C, [/\ ekf_update self x P z R g = (rcons g Kk, Ok (y, C)),
      mx n m Kk = K, mx n 1 y = mx n 1 x + K *m (mx m 1 z - mx m 1 zh),
      mx n n C = (1%:M - K *m MH) *m MP & [/\ clean Kk, clean y & clean C]]
  else ekf_update self x P z R g = (g, Raise LinAlgError).
Proof.
move=> Hc Hn Eh Gh EH GH Gx /andP [LP CP] DP Gz Hd HR CR MH MP S K.
have EI : e_I self = np_identity N n by rewrite (e_constructed_I Hc) Hn.
have Hp : promote (dt z) (dt zh) = DFloat by case: Hd => -> //; case: (dt z).
have RP : rpf [:: n; n] P (mx n n P) by split=> //; exact: rp_mat.
have := e_update_rp g EI EH GH Eh Gh Gx RP Gz Hp HR CR; cbv zeta; rewrite -/MH -/MP -/S -/K.
case: ifP => // _ [Kk [y [C [E RK Ry RC]]]]; exists Kk, y, C.
split=> //; [exact: rpf_mx RK|exact: rpf_mx Ry|exact: rpf_mx RC|].
by split; [case: RK => [[]]|case: Ry => [[]]|case: RC => [[]]].
Qed.

(** ** C48: the extended filter is the filter of its linearisation *)
Section Lin.
Hypothesis Hrun : e_exact_run n m self Z U.
Hypothesis E : ekf_filter self Z U g = (g', Ok (st, er)).
Let s := linearised n m self Z U (e_x_before self st).
Notation lself := (build oracle n2i s T).
Notation lZ := (build_Z oracle n2i s T).
Notation lU := (build_U oracle n2i s T).

Lemma lin_filter_same : exists st' er', kf_filter lself lZ lU g = (g', Ok (st', er')) /\
  forall k, (k < T)%N -> row st' k = row st k /\ row er' k = row er k.
Proof.
have Hb := build_run oracle n2i s T; have Hs := build_steps oracle n2i s T.
have [|g1 [st1 [er1 E1]]] := filter_returns g Hb.
  move=> k; rewrite Hs => Hk; have [_ _ _ _ ->] := build_post oracle n2i s (ltnW Hk) => //.
  by have [] := e_filter_out Hrun E Hk.
have Hg : g1 = g'.
  have [S1 S2] := e_gains_out Hrun E.
  have [S1' S2'] : size g1 = (size g + T)%N /\ take (size g) g1 = g.
    case: (filter_rp g Hb) => [[g2 [st2 [er2 [E2 _ _ [q1 q2] _]]]]|[j [g2 [_ _ _ E2 _]]]]; rewrite E2 in E1 => //.
    by case: E1 => <- _ _; split=> //; rewrite q1 Hs.
  rewrite -(cat_take_drop (size g) g1) -(cat_take_drop (size g) g') S2 S2'; congr cat.
  apply: (@eq_from_nth _ (np_zeros N [::])); rewrite !size_drop S1' ?S1 ?addKn // => k Hk.
  rewrite !nth_drop; have [_ _ _ _ [_ _ R3]] := e_filter_out Hrun E Hk.
  have HkT : (k < steps lself lZ lU)%N by rewrite Hs.
  have [_ _ _ _ [_ _ R3' _]] := filter_out Hb E1 HkT.
  apply: rpf_inj R3' _.
  have [p1 p2 _ p4 p5] := build_post oracle n2i s (ltnW Hk).
  have [A c H Q [R z]] := build_model oracle n2i s Hk; cbv zeta in A, c, H, Q, R, z.
  by rewrite /gain_at /kgain -/(innov _ k) p4 // p5 // H.
exists st1, er1; split; first by rewrite E1 Hg.
move=> k Hk; have HkT : (k < steps lself lZ lU)%N by rewrite Hs.
have [_ _ _ _ [R1 R2 _]] := e_filter_out Hrun E Hk.
have [_ _ _ _ [R1' R2' _ _]] := filter_out Hb E1 HkT.
have [p1 p2 _ _ _] := build_post oracle n2i s Hk.
by split; [apply: rpf_inj R1' _; rewrite p1|apply: rpf_inj R2' _; rewrite p2].
Qed.
End Lin.

End OneRun.

Section OneRun2.
Variables (n m : nat) (self : ekf N) (Z : arr) (U : option arr) (g g' : seq arr) (st er : arr).
Notation T := (e_steps self Z U).
Notation u k := (Some (row (control Z U) k)).

Theorem C48_filter_of_the_linearisation :
  e_exact_run n m self Z U -> ekf_filter self Z U g = (g', Ok (st, er)) ->
  let s := linearised n m self Z U (e_x_before self st) in
  exists st' er',
    kf_filter (build oracle n2i s T) (build_Z oracle n2i s T) (build_U oracle n2i s T) g = (g', Ok (st', er')) /\
    forall k, (k < T)%N -> row st' k = row st k /\ row er' k = row er k.
Proof. exact: lin_filter_same. Qed.

Theorem C48_smoother_of_the_linearisation L xs Ps :
  e_exact_run n m self Z U -> T = nrows Z -> nrows Z = L.+1 ->
  ekf_smooth self Z U g = (g', Ok (xs, Ps)) ->
  exists st er, ekf_filter self Z U g = (g', Ok (st, er)) /\
  let s := linearised n m self Z U (e_x_before self st) in
  exists xs' Ps',
    kf_smooth (build oracle n2i s T) (build_Z oracle n2i s T) (build_U oracle n2i s T) g = (g', Ok (xs', Ps')) /\
    forall k, (k <= L)%N -> row xs' k = row xs k /\ row Ps' k = row Ps k.
Proof.
move=> Hrun HT HL Es; have [st0 [er0 [Ef _]]] := C47_smooth_computes_the_textbook_step Hrun HT HL Es.
exists st0, er0; split=> // s.
case: (e_smooth_rp Hrun Ef HT HL) => [[xs1 [Ps1 [E1 Hp Hr]]]|[E1 _]]; last by rewrite E1 in Es.
have [e1 e2] : (xs, Ps) = (xs1, Ps1) by move: Es; rewrite E1 => -[-> ->].
subst xs1 Ps1; rewrite -/s in Hp Hr.
have Hb := build_run oracle n2i s T; have Hs := build_steps oracle n2i s T.
have HTL : T = L.+1 by rewrite HT.
have HnZ : nrows (build_Z oracle n2i s T) = L.+1 by rewrite /nrows /= HTL.
have Hst : steps (build oracle n2i s T) (build_Z oracle n2i s T) (build_U oracle n2i s T) = nrows (build_Z oracle n2i s T).
  by rewrite Hs HnZ.
have bp k : (k <= T)%N -> _ := @build_post F oracle n2i n m s T k.
have [|k|g1 [xs1 [Ps1 E2]]] := smooth_returns g Hb Hst HnZ.
- move=> k; rewrite -ltnS -HTL => Hk; have [_ _ _ _ ->] := bp k (ltnW Hk) => //.
  by have [] := e_filter_out Hrun Ef Hk.
- move=> Hk; have Hk1 : (k.+1 < T)%N by rewrite HTL.
  have [_ _ _ p _] := bp k.+1 (ltnW Hk1); rewrite p //; exact: Hp.
exists xs1, Ps1; split.
  rewrite E2; congr (_, _).
  have [st1 [er1 [E3 _]]] := lin_filter_same Hrun Ef.
  have [st2 [er2 E4]] := smooth_filter E2.
  by move: E4; rewrite E3 => -[].
have [_ _ Hr'] := smooth_out Hb Hst HnZ E2.
set s' := model_of n m n _ _ _ in Hr' bp.
have same k : (k <= L)%N -> smooth_x s' L k = smooth_x s L k /\ smooth_P s' L k = smooth_P s L k.
  move=> Hk; rewrite -(subKn Hk); move: (L - k)%N (leq_subr k L) => i {k Hk}.
  elim: i => [|i IH] Hi.
    have [p1 p2 _ _ _] := bp T (leqnn T).
    by rewrite subn0 !smooth_xT !smooth_PT -HTL p1 p2.
  have [h1 h2] := IH (ltnW Hi).
  have Hlt : (L - i.+1 < L)%N by rewrite ltn_subrL (leq_ltn_trans _ Hi).
  have Es1 : ((L - i.+1).+1 = L - i)%N by rewrite subnSK.
  have Hk1 : ((L - i.+1).+1 < T)%N by rewrite HTL ltnS.
  have [p1 p2 _ _ _] := bp _ (ltnW Hk1).
  have [_ _ p3 p4 _] := bp _ (ltnW Hk1).
  have [q1 q2 q3 q4 _] := bp _ (ltnW Hk1).
  have [A c H Q [R z]] := build_model oracle n2i s Hk1; cbv zeta in A, c, H, Q, R, z; rewrite -/s' in A.
  have Eg : sgain s' (L - i.+1) = sgain s (L - i.+1) by rewrite /sgain p2 A p4.
  rewrite -Es1 in h1 h2.
  rewrite (smooth_xS s' Hlt) (smooth_xS s Hlt) (smooth_PS s' Hlt) (smooth_PS s Hlt).
  by rewrite Eg h1 h2 p1 p2 p3 // p4.
move=> k Hk; have [_ _ R1 R2] := Hr' k Hk; have [R1' R2'] := Hr k Hk.
have [h1 h2] := same k Hk.
by split; [apply: rpf_inj R1 _; rewrite h1|apply: rpf_inj R2 _; rewrite h2].
Qed.

(** ** C49: guarantees on covariances carry over *)
Section Cov.
Hypothesis Hrun : e_exact_run n m self Z U.
Hypothesis h0 : psd (mx n n (e_Pk self)).
Hypothesis h : forall k, (k < T)%N -> psd (cov n (row (e_Q self) k)) /\ psd (cov m (row (e_R self) k)).
Hypothesis E : ekf_filter self Z U g = (g', Ok (st, er)).
Let s := linearised n m self Z U (e_x_before self st).

Lemma e_rows_psd :
  (forall k, (k <= T)%N -> psd (post_P s k)) /\ (forall k, (k < T)%N -> psd (pred_P s k)).
Proof.
split=> k Hk; [apply: (@post_psd _ _ _ s T)|apply: (@pred_psd _ _ _ s T)] => // i Hi;
  try by case: (h Hi).
  by have [] := e_filter_out Hrun E Hi.
by have [] := e_filter_out Hrun E Hi.
Qed.
End Cov.

(** The prior covariance of step k, from the Jacobian the user supplied. *)
Definition e_P_prior (er' st' : arr) (k : nat) : 'M[F]_n :=
  let A := mx n n (value (e_jA self (e_x_before self st' k) (u k))) in
  A *m mx n n (e_P_before self er' k) *m A^T + cov n (row (e_Q self) k).

Lemma e_P_priorE : e_exact_run n m self Z U -> ekf_filter self Z U g = (g', Ok (st, er)) ->
  forall k, (k < T)%N -> e_P_prior er st k = pred_P (linearised n m self Z U (e_x_before self st)) k.
Proof. by move=> Hrun E k Hk; have [_ E2] := e_before_out Hrun E (ltnW Hk); rewrite /e_P_prior E2. Qed.

Theorem C49_covariances_are_psd_and_never_increase :
  e_exact_run n m self Z U -> psd (mx n n (e_Pk self)) ->
  (forall k, (k < T)%N -> psd (cov n (row (e_Q self) k)) /\ psd (cov m (row (e_R self) k))) ->
  ekf_filter self Z U g = (g', Ok (st, er)) ->
  forall k, (k < T)%N ->
  let prior := e_P_prior er st k in
  let posterior := mx n n (row er k) in
  [/\ psd posterior, psd prior, loewner posterior prior, (forall i, posterior i i <= prior i i) &
      \tr posterior <= \tr prior].
Proof.
move=> Hrun h0 h E k Hk prior posterior; have [a b] := e_rows_psd Hrun h0 h E.
have [_ _ E1 _ _] := e_filter_out Hrun E Hk.
rewrite /posterior /prior E1 e_P_priorE //.
set s := linearised _ _ _ _ _ _.
have Hl : loewner (post_P s k.+1) (pred_P s k).
  apply: (@post_le_pred _ _ _ s T) => // i Hi; try by case: (h i Hi).
  by have [] := e_filter_out Hrun E Hi.
split=> //; [exact: a|exact: b|by move=> i; exact: loewner_diag|exact: loewner_trace].
Qed.

(** The gain minimises the covariance of the linearised error. *)
Theorem C49_gain_is_optimal :
  e_exact_run n m self Z U -> psd (mx n n (e_Pk self)) ->
  (forall k, (k < T)%N -> psd (cov n (row (e_Q self) k)) /\ psd (cov m (row (e_R self) k))) ->
  ekf_filter self Z U g = (g', Ok (st, er)) ->
  forall k, (k < T)%N ->
  let P := e_P_prior er st k in
  let H := mx m n (value (e_jH self (value (e_f self (e_x_before self st k) (u k))))) in
  let err (L : 'M[F]_(n, m)) := (1%:M - L *m H) *m P *m (1%:M - L *m H)^T + L *m cov m (row (e_R self) k) *m L^T in
  [/\ mx n n (row er k) = err (gain_of n m g g' k),
      forall L, loewner (mx n n (row er k)) (err L) &
      forall L, err L = mx n n (row er k) -> L = gain_of n m g g' k].
Proof.
move=> Hrun h0 h E k Hk; have [Hu _ E1 E3 _] := e_filter_out Hrun E Hk.
cbv zeta; rewrite E1 e_P_priorE // E3.
have [_ hP] := e_rows_psd Hrun h0 h E; have {}hP := hP k Hk.
have [_ hR] := h k Hk; have [sP _] := hP; have [sR _] := hR.
split; first exact: upost_joseph.
  by move=> L; apply: ugain_best.
by move=> L; apply: ugain_unique.
Qed.

Theorem C49_smoothing_never_increases_uncertainty xs Ps :
  e_exact_run n m self Z U -> psd (mx n n (e_Pk self)) ->
  (forall k, (k < T)%N -> psd (cov n (row (e_Q self) k)) /\ psd (cov m (row (e_R self) k))) ->
  T = nrows Z -> ekf_smooth self Z U g = (g', Ok (xs, Ps)) ->
  exists st er, ekf_filter self Z U g = (g', Ok (st, er)) /\
  forall k, (k < T)%N ->
    [/\ psd (mx n n (row Ps k)), loewner (mx n n (row Ps k)) (mx n n (row er k)),
        forall i, mx n n (row Ps k) i i <= mx n n (row er k) i i &
        \tr (mx n n (row Ps k)) <= \tr (mx n n (row er k))].
Proof.
move=> Hrun h0 h HT Es; case l : (nrows Z) => [|L].
  have [st0 [er0 Ef]] : exists st er, ekf_filter self Z U g = (g', Ok (st, er)).
    move: Es; rewrite /ekf_smooth /mbind; case: (ekf_filter self Z U g) => g1 [[st0 er0]|e] // H.
    exists st0, er0; congr (_, _); move: H; rewrite /mlift.
    by case: (np_len Z) => // T'; case: (smooth_init _ _ _) => // sm [].
  by exists st0, er0; split=> // k; rewrite HT l.
have [st0 [er0 [Ef _]]] := C47_smooth_computes_the_textbook_step Hrun HT l Es.
exists st0, er0; split=> // k Hk.
case: (e_smooth_rp Hrun Ef HT l) => [[xs1 [Ps1 [E1 Hp Hr]]]|[E1 _]]; last by rewrite E1 in Es.
have [e1 e2] : (xs, Ps) = (xs1, Ps1) by move: Es; rewrite E1 => -[-> ->].
subst xs1 Ps1; set s := linearised n m self Z U (e_x_before self st0) in Hp Hr.
have LT i : (i <= L)%N = (i < T)%N by rewrite HT l.
have HkL : (k <= L)%N by rewrite LT.
have [_ /rpf_mx ->] := Hr k HkL; have [_ _ -> _ _] := e_filter_out Hrun Ef Hk; rewrite -/s.
have [h1 h2] : psd (smooth_P s L k) /\ loewner (smooth_P s L k) (post_P s k.+1).
  have HLT : (L < T)%N by rewrite -LT.
  have uT i : (i < T)%N -> innov s i \in unitmx by move=> Hi; have [] := e_filter_out Hrun Ef Hi.
  exact: (@smooth_le _ _ _ s T h0 (fun i Hi => proj1 (h i Hi)) (fun i Hi => proj2 (h i Hi)) uT L k HLT HkL Hp).
by split=> //; [move=> i; exact: loewner_diag|exact: loewner_trace].
Qed.

(** ** C50: the only failure of filter is a singular innovation covariance *)
Theorem C50_filter_fails_only_on_a_singular_innovation gf e :
  e_exact_run n m self Z U -> ekf_filter self Z U g = (gf, Raise e) ->
  e = LinAlgError /\
  exists j x P y A H,
  [/\ (j < T)%N /\ size gf = (size g + j)%N,
      e_by_hand self Z (control Z U) j g = (gf, Ok (x, P)),
      e_jA self x (u j) = Ok A /\ e_f self x (u j) = Ok y, e_jH self y = Ok H &
      let MA := mx n n A in let MH := mx m n H in
      MH *m (MA *m mx n n P *m MA^T + cov n (row (e_Q self) j)) *m MH^T + cov m (row (e_R self) j) \notin unitmx].
Proof.
move=> Hrun E; have own := @own_ok _ _ _ self Z U g.
case: (e_filter_rp Hrun own) => [[g1 [st1 [er1 [E1 _ _ _ _]]]]|[j [g1 [Hj Hn Hb E1 [Hs1 Hs2]]]]]; rewrite E1 in E => //.
case: E => Eg Ee; subst g1 e; split=> //.
have [_ _ _ _ [_ _ Hcal _ _]] := Hrun.
have [[g2 [x [P [E2 [Rx RP _] _ [Hg1 Hg2] _]]]]|[i [g2 [Hi Hni _ _ _]]]] := e_iter_rp Hrun own (ltnW Hj); last first.
  by rewrite (Hb i Hi) in Hni.
have [y [A [_ [_ [[Ey Gy] [EA GA] _ _]]]]] := Hcal j x Hj (rp_good Rx).
have [_ [_ [_ [H [_ _ _ [EH GH]]]]]] := Hcal j y Hj Gy.
have Ex := own _ _ _ _ (ltnW Hj) E2.
have Hge : g2 = gf.
  have [[g3 [x3 [P3 [E3 _ Hu _ _]]]]|[i [g3 [Hi Hni _ E3 _]]]] := e_iter_rp Hrun own Hj.
    by rewrite Hu in Hn.
  have [Hc Hit Hnn _ _] := Hrun.
  have [j' [Hj' Hpre Hend]] := e_filter_raises Hit E1.
  have Eh : e_by_hand self Z (control Z U) j'.+1 g = (gf, Raise LinAlgError).
    by case: Hend => // -[].
  have Ejj : j' = j.
    apply/eqP; rewrite eqn_leq; apply/andP; split; rewrite leqNgt; apply/negP => Hlt.
      by have [gi [xP [Ei _]]] := Hpre j Hlt; rewrite E3 in Ei.
    have [[g4 [x4 [P4 [E4 _ _ _ _]]]]|[i4 [g4 [Hi4 Hni4 _ E4 _]]]] := e_iter_rp Hrun own Hj'.
      by rewrite E4 in Eh.
    by rewrite Hb ?(leq_trans Hi4) in Hni4.
  rewrite Ejj E3 in Eh; case: Eh => Eg; subst g3.
  move: E3; rewrite e_by_hand_rows // (take_nth (erow_at self Z (control Z U) 0)) ?size_e_rows_of // iter_rows_rcons.
  rewrite (nth_map 0%N) ?size_iota // nth_iota // add0n /mbind -e_by_hand_rows ?(ltnW Hj) // E2.
  rewrite framed_estep => -[Eg _].
  have := f_equal size Eg; rewrite size_cat Hs1 Hg1 -[RHS]addn0 => /eqP; rewrite eqn_add2l => /eqP/size0nil Hnil.
  by rewrite -Eg Hnil cats0.
exists j, x, P, y, A, H; split=> //.
  by rewrite E2 Hge.
move: Hn; rewrite /innov /innovation /pred_P /prior_P.
rewrite /linearised /= Ex EA Ey /= EH /=.
by rewrite -(_ : mx n n P = post_P (linearised n m self Z U (own_x self Z U g)) j) //; case: RP.
Qed.

Theorem C50_no_failure_with_noisy_sensors :
  e_exact_run n m self Z U -> psd (mx n n (e_Pk self)) ->
  (forall k, (k < T)%N -> psd (cov n (row (e_Q self) k)) /\ pd (cov m (row (e_R self) k))) ->
  exists gf st er, ekf_filter self Z U g = (gf, Ok (st, er)).
Proof.
move=> Hrun h0 h; have own := @own_ok _ _ _ self Z U g.
case: (e_filter_rp Hrun own) => [[g1 [st1 [er1 [E1 _ _ _ _]]]]|[j [g1 [Hj Hn Hb E1 [Hs1 Hs2]]]]].
  by exists g1, st1, er1.
case/negP: Hn; apply: (@innov_unit _ _ _ _ T) => //= i Hi; by case: (h i Hi).
Qed.

Theorem C50_no_smooth_failure_with_noisy_dynamics L :
  e_exact_run n m self Z U -> T = nrows Z -> nrows Z = L.+1 -> psd (mx n n (e_Pk self)) ->
  (forall k, (k < T)%N -> pd (cov n (row (e_Q self) k)) /\ pd (cov m (row (e_R self) k))) ->
  exists gf xs Ps, ekf_smooth self Z U g = (gf, Ok (xs, Ps)).
Proof.
move=> Hrun HT HL h0 h.
have [|gf [st0 [er0 Ef]]] := C50_no_failure_with_noisy_sensors Hrun h0.
  by move=> k /h [/pd_psd].
case: (e_smooth_rp Hrun Ef HT HL) => [[xs1 [Ps1 [E1 _ _]]]|[_ [k Hk]]]; first by exists gf, xs1, Ps1.
case/negP; apply: pd_unit; set s := linearised _ _ _ _ _ _.
have Hk1 : (k.+1 < T)%N by rewrite HT HL.
by have [] := @post_pd_Q _ _ _ s T h0 (fun i Hi => proj1 (h i Hi)) (fun i Hi => proj2 (h i Hi)) k.+1 Hk1.
Qed.

(** ** C52: a noise-free trajectory of the non-linear system is followed *)
Theorem C52_noise_free_trajectory_is_followed (t : nat -> arr) :
  e_exact_run n m self Z U -> ekf_filter self Z U g = (g', Ok (st, er)) ->
  t 0%N = e_xk self ->
  (forall k, (k < T)%N -> e_f self (t k) (u k) = Ok (t k.+1) /\ dt (t k.+1) = DFloat) ->
  (forall k, (k < T)%N -> exists2 zh, e_h self (t k.+1) = Ok zh & mx m 1 (row Z k) = mx m 1 zh) ->
  forall k, (k < T)%N -> row st k = t k.+1.
Proof.
move=> Hrun E Ht0 Ht Hz.
have [_ _ _ _ [_ _ Hcal _ _]] := Hrun.
have step k : (k < T)%N -> e_x_before self st k = t k -> row st k = t k.+1.
  move=> Hk Ex; have [Ey Dy] := Ht k Hk.
  have [_ /(_ k Hk)] := C47_filter_computes_the_textbook_step Hrun E.
  cbv zeta; rewrite Ex => -[y [A [zh [H [[Ey' EA] [Ezh EH] [Hu H1 _ _ _]]]]]].
  move: Ey'; rewrite Ey => -[Ey']; subst y; have [zh' Ezh' Ez] := Hz k Hk.
  move: Ezh'; rewrite Ezh => -[Ezh']; subst zh'.
  rewrite Ez subrr mulmx0 addr0 in H1.
  have [_ _ _ _ [R1 _ _]] := e_filter_out Hrun E Hk.
  apply: rpf_inj R1 _; have [_ H1' _ _ _] := e_filter_out Hrun E Hk.
  rewrite -H1' H1; split=> //; apply: good_rp.
  have Gt : good_vec n (t k) by rewrite -Ex; exact: (e_before_good Hrun E (ltnW Hk)).
  have [y [A' [_ [_ [[Ey2 Gy] _ _ _]]]]] := Hcal k _ Hk Gt.
  by move: Ey2; rewrite Ey => -[->].
elim=> [|k IH] Hk; first by apply: step.
by apply: step => //=; apply: IH; exact: ltnW.
Qed.
End OneRun2.
End Props.

(** ** C51: covariances and gains are those of the Jacobians, any arithmetic *)
Section AnyArithmetic.
Variable N : num.
Variables (self : ekf N) (Z : arr N) (U : option (arr N)) (kself : kf N) (kZ : arr N) (kU : option (arr N)).
Variable g : seq (arr N).
Notation T := (e_steps self Z U).
Notation u k := (Some (row (control Z U) k)).

(** The matrices of a standard filter are, row by row, the Jacobians of the
    extended filter at the states its run visits (x before step k, y predicted
    for step k), and everything that concerns uncertainty is the same. *)
Definition jacobians_along_the_run : Prop :=
  [/\ kf_Pk kself = e_Pk self, kf_size kself = e_size self, kf_I kself = e_I self,
      steps kself kZ kU = T & 
  [/\ nrows kZ = nrows Z, (forall k, (k < T)%N -> row (kf_Q kself) k = row (e_Q self) k),
      (forall k, (k < T)%N -> row (kf_R kself) k = row (e_R self) k) &
      forall k gk x P, (k < T)%N -> e_by_hand self Z (control Z U) k g = (gk, Ok (x, P)) ->
      exists y, [/\ e_f self x (u k) = Ok y, e_jA self x (u k) = Ok (row (kf_A kself) k) &
                    e_jH self y = Ok (row (kf_H kself) k)]]].

Hypothesis Hj : jacobians_along_the_run.
Hypothesis Hi : iterable kself kZ kU.
Hypothesis Hei : e_iterable self Z U.

Lemma jac_by_hand k g1 g2 r r' : (k <= T)%N ->
  e_by_hand self Z (control Z U) k g = (g1, Ok r) ->
  by_hand kself kZ (control kZ kU) k g = (g2, Ok r') -> r.2 = r'.2 /\ g1 = g2.
Proof.
have [HP Hn HI HT [HnZ HQ HR HJ]] := Hj.
elim: k g1 g2 r r' => [|k IH] g1 g2 r r' Hk.
  by rewrite /= /mret HP => -[<- <-] [<- <-].
rewrite e_by_hand_rows // (take_nth (erow_at self Z (control Z U) 0)) ?size_e_rows_of // iter_rows_rcons.
rewrite (nth_map 0%N) ?size_iota // nth_iota // add0n /mbind -e_by_hand_rows ?(ltnW Hk) //.
rewrite by_hand_rows ?HT // (take_nth (srow_at kself kZ (control kZ kU) 0)) ?size_rows_of ?HT // iter_rows_rcons.
rewrite (nth_map 0%N) ?size_iota ?HT // nth_iota ?HT // add0n /mbind -by_hand_rows ?HT ?(ltnW Hk) //.
case E1: (e_by_hand self Z (control Z U) k g) => [h1 [[x P]|e]] //.
case E2: (by_hand kself kZ (control kZ kU) k g) => [h2 [[x' P']|e]] //.
have [/= EP <-] := IH _ _ _ _ (ltnW Hk) E1 E2; subst P'.
have [y [Ey EA EH]] := HJ _ _ _ _ Hk E1.
rewrite /ekf_step /kf_step /erow_at /srow_at /mbind /mlift; cbn [rA rB rU rQ rH rZ rR eU eQ eZ eR fst snd].
rewrite /ekf_predict /kf_predict EA Ey HQ //; cbn [rbind].
case: (project_state _ _ _ _) => [y'|e] //; cbn [rbind].
case: (project_cov _ _ _) => // C; cbn [rbind fst snd].
rewrite /ekf_update /kf_update /mbind /mlift EH HR // HI.
case: (innov_cov _ _ _) => // S; case: (gain _ _ _) => //= Kk.
case: (e_h self y) => // zh; case: (np_matmul _ y') => // zh'.
case: (correct_state y _ _ _) => // v; case: (correct_state y' _ _ _) => // v'.
by case: (correct_cov _ _ _ _) => // D [<- <-] [<- <-].
Qed.
End AnyArithmetic.

Theorem C51_covariances_are_those_of_the_jacobians (N : num) (self : ekf N) Z U (kself : kf N) kZ kU
    g g1 st er g2 kst ker :
  jacobians_along_the_run self Z U kself kZ kU g ->
  ekf_filter self Z U g = (g1, Ok (st, er)) -> kf_filter kself kZ kU g = (g2, Ok (kst, ker)) ->
  er = ker /\ g1 = g2.
Proof.
move=> Hj E1 E2.
have [HP Hn HI HT [HnZ HQ HR HJ]] := Hj.
have Hei := e_filter_iterable E1; have Hi := filter_iterable E2.
have [O1 Hg1 Hr1 Hz1] := e_filter_ok E1; have [O2 Hg2 Hr2 Hz2] := filter_ok E2.
have [_ [Hw1 Hd1 Hs1]] := O1; have [_ [Hw2 Hd2 Hs2]] := O2.
rewrite HnZ in Hs2 Hz2; rewrite Hn in Hs2 Hz2 Hr2; rewrite HT in Hg2 Hr2 Hz2; split.
  apply: (rows_ext (wf_wfs Hw1) (wf_wfs Hw2) _ Hs1 Hs2); first by rewrite Hd1.
  move=> i Hii; case: (ltnP i (e_steps self Z U)) => His.
    have [x [P [A1 _ _ ->]]] := Hr1 i His; have [x' [P' [B1 _ _ ->]]] := Hr2 i His.
    by have [/= -> _] := jac_by_hand Hj Hi Hei His A1 B1.
  have Hb : (e_steps self Z U <= i < nrows Z)%N by rewrite His.
  by rewrite (Hz1 i Hb).2 (Hz2 i Hb).2.
have [xP1 A1] := e_filter_gains_at E1 (leqnn _).
have [|xP2 A2] := @filter_gains_at _ kself kZ kU g g2 kst ker (e_steps self Z U) E2; first by rewrite HT.
have [_] := jac_by_hand Hj Hi Hei (leqnn _) A1 A2.
by rewrite -{1}Hg1 -Hg2 !take_size.
Qed.

(** ** Cases: x0' = x0 + x1 + u0, x1' = x0 x1 + u1, observed through x0^2, three
    steps; every other system given by functions on vectors is one too
    ([EkfBuild.e_build_run]). *)
Section Case.
Variable F : realFieldType.
Variable oracle : oracle_type F.
Variable n2i : Z.
Notation N := (exact oracle n2i).

Definition ex_f (x u : 'cV[F]_2) : 'cV[F]_2 :=
  \col_i (if i == 0 then x 0 0 + x 1 0 else x 0 0 * x 1 0) + u.
Definition ex_h (x : 'cV[F]_2) : 'cV[F]_1 := (x 0 0 * x 0 0)%:M.
Definition ex_jf (x u : 'cV[F]_2) : 'M[F]_2 :=
  \matrix_(i, j) (if i == 0 then 1 else x (1 - j) 0).
Definition ex_jh (x : 'cV[F]_2) : 'M[F]_(1, 2) := \row_j (if j == 0 then 2%:R * x 0 0 else 0).
Definition ex_self (c : F) : ekf N :=
  e_build oracle n2i 3 ex_f ex_h ex_jf ex_jh (fun _ => c%:M) (fun _ => c%:M) (const_mx 1) c%:M.
Definition ex_Z (z : nat -> 'cV[F]_1) : arr N := e_build_Z oracle n2i 3 z.
Definition ex_U : option (arr N) := e_build_U oracle n2i 3 (fun k => const_mx k%:R : 'cV[F]_2).

Lemma ex_noise (c : F) k : (k < 3)%N ->
  [/\ cov 2 (row (e_Q (ex_self c)) k) = c%:M, cov 1 (row (e_R (ex_self c)) k) = c%:M &
      mx 2 2 (e_Pk (ex_self c)) = c%:M].
Proof.
by move=> Hk; rewrite /ex_self /e_build; cbn [e_Q e_R e_Pk]; rewrite !mxs_row // !cov_arr mx_arr_mx.
Qed.

Example C47_C50_case (c : F) (z : nat -> 'cV[F]_1) : 0 < c ->
  [/\ e_exact_run 2 1 (ex_self c) (ex_Z z) ex_U,
      e_steps (ex_self c) (ex_Z z) ex_U = 3%N /\ nrows (ex_Z z) = 3%N,
      psd (mx 2 2 (e_Pk (ex_self c))) /\
      (forall k, (k < 3)%N -> pd (cov 2 (row (e_Q (ex_self c)) k)) /\ pd (cov 1 (row (e_R (ex_self c)) k))),
      (exists g' st er, ekf_filter (ex_self c) (ex_Z z) ex_U [::] = (g', Ok (st, er))) &
      (exists g' xs Ps, ekf_smooth (ex_self c) (ex_Z z) ex_U [::] = (g', Ok (xs, Ps)))].
Proof.
move=> Hc; have Hr := e_build_run oracle n2i 3 ex_f ex_h ex_jf ex_jh (fun _ => c%:M) (fun _ => c%:M)
  (const_mx 1) c%:M z (fun k => const_mx k%:R : 'cV[F]_2).
have Hs : e_steps (ex_self c) (ex_Z z) ex_U = 3%N by exact: e_build_steps.
have pdc n : pd (c%:M : 'M[F]_n) by rewrite -scalemx1; apply: pd_scale => //; exact: pd_1.
have h0 : psd (mx 2 2 (e_Pk (ex_self c))) by have [_ _ ->] := ex_noise c (isT : (0 < 3)%N); exact: pd_psd.
have h k : (k < 3)%N -> pd (cov 2 (row (e_Q (ex_self c)) k)) /\ pd (cov 1 (row (e_R (ex_self c)) k)).
  by move=> Hk; have [-> -> _] := ex_noise c Hk; split; apply: pdc.
split=> //.
  by apply: (C50_no_failure_with_noisy_sensors _ Hr h0) => k; rewrite Hs => /h [/pd_psd].
by apply: (C50_no_smooth_failure_with_noisy_dynamics (L := 2) _ Hr) => // k; rewrite Hs => /h.
Qed.

(** A singular innovation: no noise and no uncertainty at all. *)
Example C50_case (z : nat -> 'cV[F]_1) :
  e_exact_run 2 1 (ex_self 0) (ex_Z z) ex_U /\
  exists gf, ekf_filter (ex_self 0) (ex_Z z) ex_U [::] = (gf, Raise LinAlgError).
Proof.
have Hr := e_build_run oracle n2i 3 ex_f ex_h ex_jf ex_jh (fun _ => 0%:M) (fun _ => 0%:M)
  (const_mx 1) 0%:M z (fun k => const_mx k%:R : 'cV[F]_2).
split=> //; have Hs : e_steps (ex_self 0) (ex_Z z) ex_U = 3%N by exact: e_build_steps.
case E: (ekf_filter (ex_self 0) (ex_Z z) ex_U [::]) => [g1 [[st er]|e]]; last first.
  by have [-> _] := C50_filter_fails_only_on_a_singular_innovation Hr E; exists g1.
have [_ /(_ 0%N)] := C47_filter_computes_the_textbook_step Hr E; rewrite Hs => /(_ isT).
have [e1 e2 e3] := ex_noise 0 (isT : (0 < 3)%N).
have {}e3 : mx 2 2 (e_P_before (ex_self 0) er 0) = 0%:M by exact: e3.
have z0 n : 0%:M = 0 :> 'M[F]_n by apply/matrixP => i j; rewrite !mxE mul0rn.
rewrite (z0 2%N) in e1 e3; rewrite (z0 1%N) in e2.
case=> y [A [zh [H [_ _ [HS _ _ _ _]]]]]; move: HS.
rewrite -/(ex_self 0) e3 e1 e2 => {e1 e2 e3}.
by rewrite !(mulmx0, mul0mx, addr0) unitmxE det0 unitr0.
Qed.

(** Observing the noise-free system. *)
Example C52_case (c : F) : 0 < c ->
  let t := orbit ex_f (const_mx 1) (fun k => const_mx k%:R) in
  exists ta : nat -> arr N,
  let Z := ex_Z (fun k => ex_h (t k.+1)) in
  [/\ ta 0%N = e_xk (ex_self c),
      (forall k, (k < 3)%N -> e_f (ex_self c) (ta k) (Some (row (control Z ex_U) k)) = Ok (ta k.+1) /\
                              dt (ta k.+1) = DFloat),
      (forall k, (k < 3)%N -> exists2 zh, e_h (ex_self c) (ta k.+1) = Ok zh & mx 1 1 (row Z k) = mx 1 1 zh) &
      forall k, mx 2 1 (ta k) = t k].
Proof.
move=> Hc t; exists (fun k => vec_arr oracle n2i (t k)) => Z.
have rows k : (k < 3)%N -> row Z k = vec_arr oracle n2i (ex_h (t k.+1)) /\
    row (control Z ex_U) k = vec_arr oracle n2i (const_mx k%:R : 'cV[F]_2).
  by move=> Hk; rewrite /Z /ex_Z /e_build_Z /control /ex_U /e_build_U /check_none_and_broadcast !vecs_row.
split=> //.
- move=> k Hk; have [_ ->] := rows k Hk; split=> //.
  by rewrite /ex_self /e_build; cbn [e_f]; rewrite /call_f /uval !vec_arr_mx.
- move=> k Hk; have [-> _] := rows k Hk; eexists; first by reflexivity.
  by rewrite !vec_arr_mx.
by move=> k; rewrite vec_arr_mx.
Qed.

(** The standard filter of C51. *)
Example C51_case (c : F) (z : nat -> 'cV[F]_1) : 0 < c ->
  exists kself kZ kU,
  [/\ jacobians_along_the_run (ex_self c) (ex_Z z) ex_U kself kZ kU [::],
      (exists g' st er, ekf_filter (ex_self c) (ex_Z z) ex_U [::] = (g', Ok (st, er))) &
      exists g' st er, kf_filter kself kZ kU [::] = (g', Ok (st, er))].
Proof.
move=> Hc; have [Hr [Hs HnZ] _ Hok _] := C47_C50_case z Hc.
pose s := linearised 2 1 (ex_self c) (ex_Z z) ex_U (own_x (ex_self c) (ex_Z z) ex_U [::]).
exists (build oracle n2i s 3), (build_Z oracle n2i s 3), (build_U oracle n2i s 3).
have [g' [st [er E]]] := Hok; split; [|exact: Hok|]; last first.
  have [st' [er' [H _]]] := C48_filter_of_the_linearisation Hr E.
  pose s' := linearised 2 1 (ex_self c) (ex_Z z) ex_U (e_x_before (ex_self c) st).
  apply: (filter_returns _ (build_run oracle n2i s 3)) => k; rewrite build_steps => Hk.
  have [_ _ _ _ ->] := build_post oracle n2i s (ltnW Hk); last exact: Hk.
  have [[g1 [st1 [er1 [E1 Hu _ _ _]]]]|[j [g1 [_ _ _ E1 _]]]] := e_filter_rp Hr (@own_ok _ _ _ (ex_self c) (ex_Z z) ex_U [::]); last by rewrite E1 in E.
  by apply: Hu; rewrite Hs.
split; [|reflexivity|reflexivity| |].
- by rewrite /build /s /linearised /ex_self /e_build; cbn [kf_Pk e_Pk mP0]; rewrite mx_arr_mx.
- by rewrite build_steps Hs.
split; [reflexivity| | |].
- move=> k; rewrite Hs => Hk; rewrite /build /s /linearised /ex_self /e_build; cbn [kf_Q e_Q mQ].
  rewrite !(mxs_row oracle n2i _ Hk) cov_arr; reflexivity.
- move=> k; rewrite Hs => Hk; rewrite /build /s /linearised /ex_self /e_build; cbn [kf_R e_R mR].
  rewrite !(mxs_row oracle n2i _ Hk) cov_arr; reflexivity.
move=> k gk x P; rewrite Hs => Hk Eh; have Ex := own_xP Eh.
eexists; split; first by reflexivity.
- rewrite /build; cbn [kf_A]; rewrite (mxs_row oracle n2i _ Hk) /s /linearised; cbn [mA]; rewrite Ex.
  by rewrite [in LHS]/ex_self [in RHS]/ex_self /e_build; cbn [e_jA]; rewrite /call_jA; cbn [value]; rewrite mx_arr_mx.
rewrite /build; cbn [kf_H]; rewrite (mxs_row oracle n2i _ Hk) /s /linearised; cbn [mH]; rewrite Ex.
by rewrite /ex_self /e_build; cbn [e_f e_jH]; rewrite /call_jH /call_f; cbn [value]; rewrite mx_arr_mx.
Qed.
End Case.
