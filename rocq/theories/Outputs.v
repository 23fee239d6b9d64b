(** * Outputs: rows returned by exact runs against the textbook recursion *)
From Coq Require Import ZArith.
From mathcomp Require Import all_ssreflect all_algebra.
From Verif Require Import Np NpLemmas Kf ApiSpec Loop Frame FilterLemmas FilterThms SmoothLemmas
  Exact Repr Textbook RunSpec Refine Refine2 Build RingTac Loewner KalmanAlg.

Set Implicit Arguments.
Unset Strict Implicit.
Unset Printing Implicit Defensive.
Import GRing.Theory Num.Theory.
Local Open Scope ring_scope.

Section Out.
Variable F : realFieldType.
Variable oracle : oracle_type F.
Variable n2i : Z.
Notation N := (exact oracle n2i).
Notation arr := (arr N).

Section Run.
Variables (n m p : nat) (self : kf N) (Z : arr) (U : option arr) (g : seq arr).
Hypothesis Hrun : exact_run n m p self Z U.
Let s := model_of n m p self Z U.
Notation T := (steps self Z U).

Lemma rpf_mx sh a b (x : arr) (M : 'M[F]_(a, b)) : rpf sh x M -> mx a b x = M.
Proof. by case=> [[]]. Qed.

Section Ok.
Variables (g' : seq arr) (st er : arr).
Hypothesis E : kf_filter self Z U g = (g', Ok (st, er)).

Lemma filter_out k : (k < T)%N ->
  [/\ innov s k \in unitmx, mx n 1 (row st k) = post_x s k.+1, mx n n (row er k) = post_P s k.+1,
      gain_of n m g g' k = gain_at s k &
   [/\ rpf [:: n] (row st k) (post_x s k.+1), rpf [:: n; n] (row er k) (post_P s k.+1),
       rpf [:: n; m] (nth (np_zeros N [::]) g' (size g + k)) (gain_at s k) & size g' = (size g + T)%N]].
Proof.
move=> Hk; case: (filter_rp g Hrun) => [[g1 [st1 [er1 [E1 Hu Hr Hs Hg]]]]|[j [g1 [_ _ _ E1 _]]]]; last first.
  by move: (E); rewrite E1.
have [E2 E3 E4] : (g1, Ok (st1, er1)) = (g', Ok (st, er)) by rewrite -E -E1.
subst g1 st1 er1.
have [R1 R2] := Hr k Hk; have R3 := Hg k Hk; split; rewrite ?(Hu k) //.
- exact: rpf_mx R1.
- exact: rpf_mx R2.
- exact: rpf_mx R3.
by split=> //; case: Hs.
Qed.

Lemma filter_units : forall k, (k < T)%N -> innov s k \in unitmx.
Proof. by move=> k /filter_out []. Qed.

Lemma before_out k : (k <= T)%N ->
  x_before n m p self Z U st k = post_x s k /\ P_before n m p self Z U er k = post_P s k.
Proof. by case: k => // k Hk; have [_ H1 H2 _ _] := filter_out Hk; rewrite /x_before /P_before. Qed.

Lemma prior_out k : (k < T)%N ->
  x_prior n m p self Z U st k = pred_x s k /\ P_prior n m p self Z U er k = pred_P s k.
Proof.
by move=> Hk; have [H1 H2] := before_out (ltnW Hk); rewrite /x_prior /P_prior H1 H2.
Qed.
End Ok.

Lemma filter_returns : (forall k, (k < T)%N -> innov s k \in unitmx) ->
  exists g' st er, kf_filter self Z U g = (g', Ok (st, er)).
Proof.
move=> H; case: (filter_rp g Hrun) => [[g1 [st1 [er1 [E1 Hu Hr Hs Hg]]]]|[j [g1 [Hj Hn _ E1 _]]]].
  by exists g1, st1, er1.
by rewrite H in Hn.
Qed.

Section SOk.
Variables (L : nat).
Hypotheses (HT : T = nrows Z) (HL : nrows Z = L.+1).

Lemma smooth_out g' xs Ps : kf_smooth self Z U g = (g', Ok (xs, Ps)) ->
  [/\ forall k, (k <= L)%N -> innov s k \in unitmx,
      forall k, (k < L)%N -> pred_P s k.+1 \in unitmx &
      forall k, (k <= L)%N -> [/\ mx n 1 (row xs k) = smooth_x s L k, mx n n (row Ps k) = smooth_P s L k,
        rpf [:: n] (row xs k) (smooth_x s L k) & rpf [:: n; n] (row Ps k) (smooth_P s L k)]].
Proof.
case: (smooth_rp g Hrun HT HL) => [[g1 [st1 [er1 [E1 Hu Hr Hs]]]]|[g1 [E1 _]]]; last by rewrite E1.
rewrite E1 => -[_ <- <-]; split=> // k Hk; have [R1 R2] := Hs k Hk.
by split=> //; [exact: rpf_mx R1|exact: rpf_mx R2].
Qed.

Lemma smooth_returns : (forall k, (k <= L)%N -> innov s k \in unitmx) ->
  (forall k, (k < L)%N -> pred_P s k.+1 \in unitmx) ->
  exists g' xs Ps, kf_smooth self Z U g = (g', Ok (xs, Ps)).
Proof.
move=> H1 H2; case: (smooth_rp g Hrun HT HL) => [[g1 [st1 [er1 [E1 _ _ _]]]]|[g1 [E1 [[k Hk Hn]|[k Hk Hn]]]]].
- by exists g1, st1, er1.
- by rewrite H1 in Hn.
by rewrite H2 in Hn.
Qed.

(** The filtered rows smooth started from. *)
Lemma smooth_filter g' xs Ps : kf_smooth self Z U g = (g', Ok (xs, Ps)) ->
  exists st er, kf_filter self Z U g = (g', Ok (st, er)).
Proof.
rewrite /kf_smooth /mbind; case: (kf_filter self Z U g) => g1 [[st er]|e] // H.
exists st, er; congr (_, _); move: H; rewrite /mlift.
by case: (np_len Z) => // T'; case: (smooth_init _ _ _) => // sm [].
Qed.
End SOk.
End Run.

(** An update call. *)
Lemma update_out n m (self : kf N) (H x P z R : arr) (g : seq arr) :
  constructed self -> kf_size self = n -> exact_update n m H x P z R ->
  let MH := mx m n H in let MP := mx n n P in let MR := cov m R in
  if ucov MP MH MR \in unitmx then
    exists Kk y C, [/\ kf_update (kf_I self) H x P z R g = (rcons g Kk, Ok (y, C)),
      mx n m Kk = ugain MP MH MR, mx n 1 y = ucorr MP MH MR (mx n 1 x) (mx m 1 z),
      mx n n C = upost MP MH MR & [/\ rpf [:: n; m] Kk (mx n m Kk), vrpf m y (mx n 1 y) & rpf [:: n; n] C (mx n n C)]]
  else kf_update (kf_I self) H x P z R g = (g, Raise LinAlgError).
Proof.
move=> Hc Hn [/andP [LH CH] /andP [Lx Cx] /andP [LP CP] /andP [Lz Cz] [/andP [LR CR] Dx DP]] MH MP MR.
have Rx : vrpf m x (mx n 1 x) by have [sh Hsh Hr] := vrp_vec Lx Cx; exists sh.
have RP : rpf [:: n; n] P (mx n n P) by split=> //; exact: rp_mat.
have := @update_rp F oracle n2i n m H x P z R MH MP (mx n 1 x) g (rp_mat LH CH) Rx RP Lz Cz LR CR.
rewrite (constructed_I Hc) Hn; cbv zeta; rewrite -/MR -/(ucov MP MH MR); case: ifP => // _.
case=> Kk [y [C [E RK Ry RC]]]; exists Kk, y, C.
have EK := rpf_mx RK; have EC := rpf_mx RC.
have Ey : mx n 1 y = mx n 1 x + MP *m MH^T *m invmx (ucov MP MH MR) *m (mx m 1 z - MH *m mx n 1 x).
  by case: Ry => sh _ /rpf_mx.
by split=> //; rewrite EK EC Ey.
Qed.

(** The call built from a textbook model computes what the model says. *)
Lemma build_post n m (s : model F n m) T k : (k <= T)%N ->
  let s' := model_of n m n (build oracle n2i s T) (build_Z oracle n2i s T) (build_U oracle n2i s T) in
  [/\ post_x s' k = post_x s k, post_P s' k = post_P s k,
      (k < T)%N -> pred_x s' k = pred_x s k, (k < T)%N -> pred_P s' k = pred_P s k &
      (k < T)%N -> innov s' k = innov s k].
Proof.
move=> + s'.
have H : forall k, (k <= T)%N -> post_x s' k = post_x s k /\ post_P s' k = post_P s k.
  have [E0 E1] := build_model0 oracle n2i s T.
  elim=> [|j IH] Hj; first by split; [exact: E0|exact: E1].
  have [H1 H2] := IH (ltnW Hj); have [A c H Q [R z]] := build_model oracle n2i s Hj; cbv zeta in A, c, H, Q, R, z.
  rewrite -/s' in A c H Q R z.
  by split; cbn [post_x post_P]; rewrite /corr_x /corr_P /kgain /innovation /prior_x /prior_P ?H1 H2 A ?c H Q R ?z.
move=> Hk; have [H1 H2] := H k Hk; split=> // Hk';
  have [A c HH Q [R z]] := build_model oracle n2i s Hk'; cbv zeta in A, c, HH, Q, R, z; rewrite -/s' in A c HH Q R z.
- by rewrite /pred_x /prior_x H1 A c.
- by rewrite /pred_P /prior_P H2 A Q.
by rewrite /innov /innovation /pred_P /prior_P H2 A Q HH R.
Qed.

End Out.
