(** * Props6: C22, C25 - C27 for direct calls of update; C38 - C42
    (vocabulary as in Props4.v; [exact_update] in RunSpec.v) *)
From Coq Require Import ZArith.
From mathcomp Require Import all_ssreflect all_algebra.
From Verif Require Import Np NpLemmas Kf ApiSpec Exact Repr Textbook RunSpec Refine Refine2 Build Outputs
  Loewner KalmanAlg TextbookThms TextbookThms2 ExCases Spread.

Set Implicit Arguments.
Unset Strict Implicit.
Unset Printing Implicit Defensive.
Import GRing.Theory Num.Theory Order.Theory.
Local Open Scope ring_scope.

(** ** C40: a number as Q or R row acts as the matrix full of that number, in
    every arithmetic, bit for bit *)
Theorem C40_number_acts_as_full_matrix (N : num) (n m p : nat) (self : kf N) (Z : arr N) (U : option (arr N))
    (Q R : arr N) (g : seq (arr N)) :
  let self' := with_noise self Q R in
  constructed self -> well_shaped n m p self Z U -> sized Q -> sized R ->
  steps self' Z U = steps self Z U ->
  (forall k, (k < steps self Z U)%N ->
     row Q k = spread n (row (kf_Q self) k) /\ row R k = spread m (row (kf_R self) k)) ->
  kf_filter self' Z U g = kf_filter self Z U g /\
  (steps self Z U = nrows Z -> kf_smooth self' Z U g = kf_smooth self Z U g).
Proof.
move=> self' Hc Hw HQ HR HT Hk; split; first exact: (filter_spread g Hc Hw HQ HR HT Hk).
exact: (smooth_spread g Hc Hw HQ HR HT Hk).
Qed.

Section Props.
Variable F : realFieldType.
Variable oracle : oracle_type F.
Variable n2i : Z.
Notation N := (exact oracle n2i).
Notation arr := (arr N).

Section Update.
Variables (n m : nat) (self : kf N) (H x P z R : arr) (g : seq arr).
Hypothesis Hc : constructed self.
Hypothesis Hn : kf_size self = n.
Hypothesis Hu : exact_update n m H x P z R.
Let MH := mx m n H.
Let MP := mx n n P.
Let MR := cov m R.
Let X := mx n 1 x.
Let ZZ := mx m 1 z.
Let S := MH *m MP *m MH^T + MR.

(** update returns the corrected mean and covariance and appends the gain, or
    raises LinAlgError and appends nothing. *)
Theorem C22_update_computes_the_textbook_correction :
  if S \in unitmx then
    exists Kk y C, let K := MP *m MH^T *m invmx S in
     [/\ kf_update (kf_I self) H x P z R g = (rcons g Kk, Ok (y, C)), mx n m Kk = K,
         mx n 1 y = X + K *m (ZZ - MH *m X) & mx n n C = (1%:M - K *m MH) *m MP]
  else kf_update (kf_I self) H x P z R g = (g, Raise LinAlgError).
Proof.
have := update_out g Hc Hn Hu; cbv zeta; rewrite -/MH -/MP -/MR -/(ucov MP MH MR) -/S; case: ifP => // _.
by case=> Kk [y [C [E EK Ey EC _]]]; exists Kk, y, C; split.
Qed.

Section Ok.
Variables (g' : seq arr) (y C : arr).
Hypothesis E : kf_update (kf_I self) H x P z R g = (g', Ok (y, C)).

Lemma update_ok : [/\ S \in unitmx, mx n 1 y = ucorr MP MH MR X ZZ, mx n n C = upost MP MH MR,
  mx n m (last (np_zeros N [::]) g') = ugain MP MH MR &
  vrpf m y (mx n 1 y) /\ rpf [:: n; n] C (mx n n C)].
Proof.
have := update_out g Hc Hn Hu; cbv zeta; rewrite -/MH -/MP -/MR -/(ucov MP MH MR) -/S.
case: ifP => [uS|_]; last by rewrite E.
case=> Kk [y0 [C0 [E0 EK Ey EC [_ R1 R2]]]]; move: E0; rewrite E => -[Eg E1 E2].
by subst y0 C0; rewrite Eg last_rcons; split.
Qed.

Theorem C25_update_does_not_increase_uncertainty : psd MP -> psd MR ->
  [/\ loewner (mx n n C) MP, forall i, mx n n C i i <= MP i i & \tr (mx n n C) <= \tr MP].
Proof.
move=> hP hR; have [uS _ -> _ _] := update_ok.
have L : loewner (upost MP MH MR) MP by exact: upost_le.
by split=> //; [move=> i; exact: loewner_diag|exact: loewner_trace].
Qed.

Theorem C26_update_gain_is_optimal : psd MP -> psd MR ->
  let err (L : 'M[F]_(n, m)) := (1%:M - L *m MH) *m MP *m (1%:M - L *m MH)^T + L *m MR *m L^T in
  let K := mx n m (last (np_zeros N [::]) g') in
  [/\ mx n n C = err K, forall L, loewner (mx n n C) (err L) & forall L, err L = mx n n C -> L = K].
Proof.
move=> hP hR err; have [uS _ -> -> _] := update_ok; have [sP _] := hP; have [sR _] := hR.
split; first exact: upost_joseph.
  by move=> L; apply: ugain_best.
by move=> L; apply: ugain_unique.
Qed.

Theorem C27_update_minimises_the_misfit : pd MP -> pd MR ->
  let cost (w : 'cV[F]_n) := quad (invmx MP) (w - X) + quad (invmx MR) (ZZ - MH *m w) in
  forall w, w != mx n 1 y -> cost (mx n 1 y) < cost w.
Proof. by move=> hP hR cost w; have [uS -> _ _ _] := update_ok; exact: ucorr_min. Qed.

(** ** C42: perfect sensors are believed *)
Theorem C42_post_fit_residual : 
  ZZ - MH *m mx n 1 y = MR *m invmx S *m (ZZ - MH *m X) /\
  MH *m mx n n C = MR *m invmx S *m MH *m MP.
Proof. by have [uS -> -> _ _] := update_ok; split; [exact: upostfit|exact: upost_HP]. Qed.

Theorem C42_perfect_sensors_are_believed : MR = 0 ->
  MH *m mx n 1 y = ZZ /\ MH *m mx n n C = 0.
Proof.
move=> R0; have [e1 e2] := C42_post_fit_residual; rewrite R0 !mul0mx in e1 e2; split=> //.
by apply/eqP; rewrite eq_sym -subr_eq0 e1.
Qed.
End Ok.
End Update.

(** ** C38: independent sensors jointly or one after the other *)
Section Two.
Variables (n m1 m2 : nat) (self : kf N).
Hypothesis Hc : constructed self.
Hypothesis Hn : kf_size self = n.
Variables (H1 H2 H x P z1 z2 z R1 R2 R : arr).
Hypothesis U1 : exact_update n m1 H1 x P z1 R1.
Hypothesis U2 : exact_update n m2 H2 x P z2 R2.

(** The result of one update as an argument of another. *)
Lemma update_next m m' (A y C w B : arr) g g' (A' x' P' w' B' : arr) :
  exact_update n m A' x' P' w' B' -> exact_update n m' A x P w B ->
  kf_update (kf_I self) A' x' P' w' B' g = (g', Ok (y, C)) -> shp y = [:: n] ->
  exact_update n m' A y C w B.
Proof.
move=> Ux [hA _ _ hw [hB _ _]] E Hy.
have [_ _ _ _ [[sh _ [[Wy Sy _ Cy _] Dy]] [[WC SC _ CC _] DC]]] := update_ok Hc Hn Ux E.
split=> //.
  by rewrite /vec_layout Wy Hy eqxx Cy.
by rewrite /mat_layout WC SC eqxx CC.
Qed.

Theorem C38_joint_equals_one_after_the_other g g1 g2 gj x1 P1 x2 P2 :
  exact_update n (m1 + m2) H x P z R ->
  mx (m1 + m2) n H = col_mx (mx m1 n H1) (mx m2 n H2) ->
  mx (m1 + m2) 1 z = col_mx (mx m1 1 z1) (mx m2 1 z2) ->
  cov (m1 + m2) R = block_mx (cov m1 R1) 0 0 (cov m2 R2) ->
  kf_update (kf_I self) H1 x P z1 R1 g = (g1, Ok (x1, P1)) -> shp x1 = [:: n] ->
  kf_update (kf_I self) H2 x1 P1 z2 R2 g1 = (g2, Ok (x2, P2)) ->
  exists gj' xj Pj, [/\ kf_update (kf_I self) H x P z R gj = (gj', Ok (xj, Pj)),
    mx n 1 xj = mx n 1 x2 & mx n n Pj = mx n n P2].
Proof.
move=> U EH Ez ER E1 Hs E2.
have V2 := update_next U1 U2 E1 Hs.
have [u1 ex1 eP1 _ _] := update_ok Hc Hn U1 E1; have [u2 ex2 eP2 _ _] := update_ok Hc Hn V2 E2.
rewrite ex1 eP1 in u2 ex2 eP2; rewrite ex2 eP2.
have := update_out gj Hc Hn U; cbv zeta; rewrite EH ER Ez (stack_unit u1 u2).
case=> Kk [y [C [E EK Ey EC _]]]; exists (rcons gj Kk), y, C; split=> //.
  by rewrite Ey; exact: stack_corr.
by rewrite EC; exact: stack_post.
Qed.

Theorem C38_either_order g g1 g12 h h2 h21 x1 P1 x12 P12 x2 P2 x21 P21 :
  kf_update (kf_I self) H1 x P z1 R1 g = (g1, Ok (x1, P1)) -> shp x1 = [:: n] ->
  kf_update (kf_I self) H2 x1 P1 z2 R2 g1 = (g12, Ok (x12, P12)) ->
  kf_update (kf_I self) H2 x P z2 R2 h = (h2, Ok (x2, P2)) -> shp x2 = [:: n] ->
  kf_update (kf_I self) H1 x2 P2 z1 R1 h2 = (h21, Ok (x21, P21)) ->
  mx n 1 x12 = mx n 1 x21 /\ mx n n P12 = mx n n P21.
Proof.
move=> E1 S1 E12 E2 S2 E21.
have V2 := update_next U1 U2 E1 S1; have V1 := update_next U2 U1 E2 S2.
have [u1 ex1 eP1 _ _] := update_ok Hc Hn U1 E1; have [u12 ex12 eP12 _ _] := update_ok Hc Hn V2 E12.
have [u2 ex2 eP2 _ _] := update_ok Hc Hn U2 E2; have [u21 ex21 eP21 _ _] := update_ok Hc Hn V1 E21.
rewrite ex1 eP1 in u12 ex12 eP12; rewrite ex2 eP2 in u21 ex21 eP21.
rewrite ex12 eP12 ex21 eP21.
by have [e1 e2] := stack_either (mx n 1 x) (mx m1 1 z1) (mx m2 1 z2) u1 u12 u2 u21; split.
Qed.
End Two.

Section OneRun.
Variables (n m p : nat) (self : kf N) (Z : arr) (U : option arr) (g g' : seq arr) (st er : arr).
Let s := model_of n m p self Z U.
Notation T := (steps self Z U).

(** ** C41: certain states ignore the data *)
Theorem C41_certain_states_ignore_the_data (t : nat -> 'cV[F]_n) :
  exact_run n m p self Z U -> kf_filter self Z U g = (g', Ok (st, er)) ->
  mP0 s = 0 -> (forall k, (k < T)%N -> mQ s k = 0) ->
  (forall k, (k < T)%N -> t k = mA s k *m (if k is j.+1 then t j else mx0 s) + mc s k) ->
  forall k, (k < T)%N ->
    [/\ mx n 1 (row st k) = t k, mx n n (row er k) = 0 & gain_of n m g g' k = 0].
Proof.
move=> Hrun E h0 hQ ht k Hk; have C := certain h0 hQ.
have [_ -> -> -> _] := filter_out Hrun E Hk; have [_ e2 e3 _] := C k Hk; split=> //.
have Ht : forall j, (j < T)%N -> post_x s j.+1 = t j.
  elim=> [|j IH] Hj; have [_ _ _ ->] := C _ Hj; rewrite pred_xE (ht _ Hj) //.
  by rewrite (IH (ltnW Hj)).
exact: Ht.
Qed.
End OneRun.

(** ** C39: constant level: the filter is a weighted average *)
Theorem C39_constant_level (p' : nat) (self : kf N) Z U (g g' : seq arr) st er (p r : F) :
  exact_run 1 1 p' self Z U -> kf_filter self Z U g = (g', Ok (st, er)) ->
  let s := model_of 1 1 p' self Z U in
  0 < p -> 0 < r -> mP0 s = p%:M ->
  (forall k, (k < steps self Z U)%N ->
    [/\ mA s k = 1%:M, mc s k = 0, mH s k = 1%:M, mQ s k = 0 & mR s k = r%:M]) ->
  forall k, (k < steps self Z U)%N ->
  let prec := p^-1 + k.+1%:R / r in
  [/\ mx 1 1 (row er k) = prec^-1%:M &
      mx 1 1 (row st k) = prec^-1 *: (p^-1 *: mx0 s + r^-1 *: \sum_(j < k.+1) mz s j)].
Proof.
move=> Hrun E s hp hr h0 h k Hk prec; have [_ -> -> _ _] := filter_out Hrun E Hk.
by have [e1 e2 _] := level hp hr h0 h Hk; split.
Qed.

(** ... which is not r times the identity: m sensors of the m states, one
    step, R given as the number r or as r times the identity. *)
Definition direct (m : nat) (r : F) : model F m m :=
  Model (fun _ => 1%:M) (fun _ => 0) (fun _ => 1%:M) (fun _ => 0) (fun _ => r%:M) (fun k => const_mx k%:R) 0 1%:M.

Lemma const_psd m (r : F) : 0 <= r -> psd (const_mx r : 'M[F]_m).
Proof.
move=> Hr; have -> : const_mx r = r *: ((const_mx 1 : 'M[F]_(m, 1)) *m 1%:M *m (const_mx 1 : 'M[F]_(m, 1))^T) :> 'M[F]_m.
  apply/matrixP => i j; rewrite mulmx1 !mxE (eq_bigr (fun _ : 'I_1 => 1 : F)).
    by rewrite big_ord1 mulr1.
  by move=> k _; rewrite !mxE mulr1.
by apply: psd_scale => //; apply: psd_conj; apply: pd_psd; exact: pd_1.
Qed.

Theorem C40_a_number_is_not_a_multiple_of_the_identity m r (g : seq arr) : (1 < m)%N -> 0 < r ->
  let Z := build_Z oracle n2i (direct m r) 1 in let U := build_U oracle n2i (direct m r) 1 in
  let full := build oracle n2i (direct m r) 1 in
  let num := build_num oracle n2i (direct m r) 1 (fun _ => r) in
  exists g1 st1 er1 g2 st2 er2,
    [/\ kf_filter full Z U g = (g1, Ok (st1, er1)), kf_filter num Z U g = (g2, Ok (st2, er2)),
        mx m m (row er1 0) != mx m m (row er2 0) & gain_of m m g g1 0 != gain_of m m g g2 0].
Proof.
move=> Hm Hr Z U full num.
have run1 : exact_run m m m full Z U by exact: build_run.
have run2 : exact_run m m m num Z U by exact: build_num_run.
pose s1 := model_of m m m full Z U; pose s2 := model_of m m m num Z U.
have t1 : steps full Z U = 1%N by exact: build_steps.
have t2 : steps num Z U = 1%N by exact: build_num_steps.
have e1 k : (k < 1)%N -> [/\ mA s1 k = 1%:M, mH s1 k = 1%:M, mQ s1 k = 0 & mR s1 k = r%:M].
  by move=> Hk; have [a _ b c [d _]] := build_model oracle n2i (direct m r) Hk; split.
have e2 k : (k < 1)%N -> [/\ mA s2 k = 1%:M, mH s2 k = 1%:M, mQ s2 k = 0 & mR s2 k = const_mx r].
  by move=> Hk; have [a _ b c [d _]] := build_num_model oracle n2i (direct m r) (fun _ => r) Hk; split.
have P1 : mP0 s1 = 1%:M by exact: (proj2 (build_model0 oracle n2i (direct m r) 1)).
have P2 : mP0 s2 = 1%:M by exact: (proj2 (build_model0 oracle n2i (direct m r) 1)).
have i1 : innov s1 0 = 1%:M + r%:M.
  have [a b c d] := e1 0%N isT; rewrite innovE /ucov pred_PE /ucov a b c d.
  by rewrite [post_P s1 0]P1 !mul1mx !trmx1 !mulmx1 addr0.
have i2 : innov s2 0 = 1%:M + const_mx r.
  have [a b c d] := e2 0%N isT; rewrite innovE /ucov pred_PE /ucov a b c d.
  by rewrite [post_P s2 0]P2 !mul1mx !trmx1 !mulmx1 addr0.
have u1 : innov s1 0 \in unitmx.
  rewrite i1; apply: pd_unit; apply: pd_addl; first exact: pd_1.
  by rewrite -scalemx1; apply: psd_scale; [exact: ltW|apply: pd_psd; exact: pd_1].
have u2 : innov s2 0 \in unitmx.
  by rewrite i2; apply: pd_unit; apply: pd_addl; [exact: pd_1|apply: const_psd; exact: ltW].
have [g1 [st1 [er1 E1]]] : exists g1 st1 er1, kf_filter full Z U g = (g1, Ok (st1, er1)).
  by apply: (filter_returns _ run1) => -[_|k]; [exact: u1|rewrite t1].
have [g2 [st2 [er2 E2]]] : exists g2 st2 er2, kf_filter num Z U g = (g2, Ok (st2, er2)).
  by apply: (filter_returns _ run2) => -[_|k]; [exact: u2|rewrite t2].
exists g1, st1, er1, g2, st2, er2.
have H1 : (0 < steps full Z U)%N by rewrite t1.
have H2 : (0 < steps num Z U)%N by rewrite t2.
have [_ _ -> -> _] := filter_out run1 E1 H1; have [_ _ -> -> _] := filter_out run2 E2 H2.
have k1 : gain_at s1 0 = invmx (innov s1 0).
  have [a b c d] := e1 0%N isT; rewrite gainE /ugain -innovE pred_PE /ucov a b c.
  by rewrite [post_P s1 0]P1 !mul1mx !trmx1 !mulmx1 addr0 mul1mx.
have k2 : gain_at s2 0 = invmx (innov s2 0).
  have [a b c d] := e2 0%N isT; rewrite gainE /ugain -innovE pred_PE /ucov a b c.
  by rewrite [post_P s2 0]P2 !mul1mx !trmx1 !mulmx1 addr0 mul1mx.
have p1 : post_P s1 1 = 1%:M - gain_at s1 0.
  have [a b c d] := e1 0%N isT; rewrite post_PS /upost -gainE pred_PE /ucov a b c.
  by rewrite [post_P s1 0]P1 !mul1mx !trmx1 !mulmx1 addr0 mulmx1.
have p2 : post_P s2 1 = 1%:M - gain_at s2 0.
  have [a b c d] := e2 0%N isT; rewrite post_PS /upost -gainE pred_PE /ucov a b c.
  by rewrite [post_P s2 0]P2 !mul1mx !trmx1 !mulmx1 addr0 mulmx1.
have neq : gain_at s1 0 != gain_at s2 0.
  rewrite k1 k2; apply/eqP => /(congr1 invmx); rewrite !invmxK i1 i2 => /addrI /matrixP H.
  have m0 : (0 < m)%N by exact: ltnW.
  by have := H (Ordinal m0) (Ordinal Hm); rewrite !mxE /= => /esym/eqP; rewrite gt_eqF.
split=> //; rewrite p1 p2; apply: contra neq => /eqP /addrI /oppr_inj H.
exact/eqP.
Qed.

(** ** Cases *)
Lemma exact_update_arr n m (H : 'M[F]_(m, n)) (x : 'cV[F]_n) (P : 'M[F]_n) (z : 'cV[F]_m) (R : 'M[F]_m) :
  exact_update n m (mx_arr oracle n2i H) (vec_arr oracle n2i x) (mx_arr oracle n2i P) (vec_arr oracle n2i z)
    (mx_arr oracle n2i R).
Proof.
have wm a b (M : 'M[F]_(a, b)) : wf (mx_arr oracle n2i M) by apply: FilterLemmas.wf_mkF.
have wv a (v : 'cV[F]_a) : wf (vec_arr oracle n2i v) by apply: FilterLemmas.wf_mkF.
have cm a b (M : 'M[F]_(a, b)) : clean (mx_arr oracle n2i M) by apply: clean_mkF.
have cv a (v : 'cV[F]_a) : clean (vec_arr oracle n2i v) by apply: clean_mkF.
split; rewrite ?/mat_layout ?/vec_layout ?/obs_layout ?wm ?wv ?eqxx ?cm ?cv //.
by split=> //; rewrite /cov_layout wm eqxx.
Qed.

(** Two sensors (position; position and velocity) of a two-state system: all
    updates of C38 return. *)
Example C38_case (c : F) (g : seq arr) : 0 < c ->
  let self := demo_kf oracle n2i c in
  let H1 := demo_H F in let H2 := const_mx 1 : 'M[F]_(1, 2) in
  let a m n (M : 'M[F]_(m, n)) := mx_arr oracle n2i M in
  let x := vec_arr oracle n2i (const_mx 3%:R : 'cV[F]_2) in let P := a _ _ (c%:M : 'M[F]_2) in
  let z1 := vec_arr oracle n2i (1 : 'cV[F]_1) in let z2 := vec_arr oracle n2i (2%:R : 'cV[F]_1) in
  let R := a _ _ (c%:M : 'M[F]_1) in
  [/\ constructed self, kf_size self = 2%N, exact_update 2 1 (a _ _ H1) x P z1 R, exact_update 2 1 (a _ _ H2) x P z2 R &
      exact_update 2 (1 + 1) (a _ _ (col_mx H1 H2)) x P (vec_arr oracle n2i (col_mx 1 2%:R : 'cV[F]_(1 + 1)))
        (a _ _ (block_mx c%:M 0 0 c%:M : 'M[F]_(1 + 1)))] /\
  exists g1 x1 P1 g2 x2 P2,
  [/\ kf_update (kf_I self) (a _ _ H1) x P z1 R g = (g1, Ok (x1, P1)), shp x1 = [:: 2%N] &
      kf_update (kf_I self) (a _ _ H2) x1 P1 z2 R g1 = (g2, Ok (x2, P2))].
Proof.
move=> Hc self H1 H2 a x P z1 z2 R.
have pc k : pd (c%:M : 'M[F]_k) by rewrite -scalemx1; apply: pd_scale => //; exact: pd_1.
have cs : constructed self by exact: build_constructed.
split.
  by split=> //; exact: exact_update_arr.
have U1 : exact_update 2 1 (a _ _ H1) x P z1 R by exact: exact_update_arr.
have U2 : exact_update 2 1 (a _ _ H2) x P z2 R by exact: exact_update_arr.
have := update_out g cs (erefl : kf_size self = 2%N) U1; cbv zeta.
rewrite /a /P /R !mx_arr_mx cov_arr -/P -/R.
have S1 : pd (ucov c%:M H1 c%:M) by apply: ucov_pd; [exact: pd_psd|].
rewrite (pd_unit S1) => -[K1 [x1 [P1 [E1 _ _ eP [_ Rx RP]]]]].
have Sx : shp x1 = [:: 2%N] by case: Rx => sh [-> |[]] // [[_ ->]].
have V2 := update_next cs (erefl : kf_size self = 2%N) U1 U2 E1 Sx.
have := update_out (rcons g K1) cs (erefl : kf_size self = 2%N) V2; cbv zeta.
rewrite eP /a /R mx_arr_mx cov_arr -/R.
have S2 : pd (ucov (upost c%:M H1 c%:M) H2 c%:M).
  by apply: ucov_pd => //; apply: pd_psd; apply: upost_pd.
rewrite (pd_unit S2) => -[K2 [x2 [P2 [E2 _ _ _ _]]]].
by exists (rcons g K1), x1, P1, (rcons (rcons g K1) K2), x2, P2.
Qed.

(** The constant level: T observations 1, 2, ..., T. *)
Example C39_case T (p r : F) (g : seq arr) : 0 < p -> 0 < r ->
  let s0 : model F 1 1 := Model (fun _ => 1%:M) (fun _ => 0) (fun _ => 1%:M) (fun _ => 0) (fun _ => r%:M)
             (fun k => (k.+1%:R)%:M) 0 p%:M in
  let self := build oracle n2i s0 T in let Z := build_Z oracle n2i s0 T in let U := build_U oracle n2i s0 T in
  let s := model_of 1 1 1 self Z U in
  [/\ exact_run 1 1 1 self Z U, steps self Z U = T, exists g' st er, kf_filter self Z U g = (g', Ok (st, er)),
      mP0 s = p%:M & forall k, (k < T)%N ->
        [/\ mA s k = 1%:M, mc s k = 0, mH s k = 1%:M, mQ s k = 0 & mR s k = r%:M]].
Proof.
move=> Hp Hr s0 self Z U s.
have run : exact_run 1 1 1 self Z U by exact: build_run.
have st : steps self Z U = T by exact: build_steps.
have P0 : mP0 s = p%:M by exact: (proj2 (build_model0 oracle n2i s0 T)).
have M k : (k < T)%N -> [/\ mA s k = 1%:M, mc s k = 0, mH s k = 1%:M, mQ s k = 0 & mR s k = r%:M].
  by move=> Hk; have [e1 e2 e3 e4 [e5 _]] := build_model oracle n2i s0 Hk; split.
split=> //; apply: (filter_returns _ run); rewrite st => k Hk.
by have [_ _ H] := level Hp Hr P0 M (ltnW Hk); exact: H.
Qed.

(** Certain states with noisy sensors. *)
Example C41_case (g : seq arr) :
  let s0 : model F 2 1 := Model (fun _ => demo_A F) (fun k => const_mx k%:R) (fun _ => demo_H F) (fun _ => 0)
     (fun _ => 1%:M) (fun k => (k.+1%:R)%:M) (const_mx 1) 0 in
  let self := build oracle n2i s0 3 in let Z := build_Z oracle n2i s0 3 in let U := build_U oracle n2i s0 3 in
  let s := model_of 2 1 2 self Z U in
  [/\ exact_run 2 1 2 self Z U, steps self Z U = 3%N, exists g' st er, kf_filter self Z U g = (g', Ok (st, er)),
      mP0 s = 0 & forall k, (k < 3)%N -> mQ s k = 0].
Proof.
move=> s0 self Z U s.
have run : exact_run 2 1 2 self Z U by exact: build_run.
have st : steps self Z U = 3%N by exact: build_steps.
have P0 : mP0 s = 0 by exact: (proj2 (build_model0 oracle n2i s0 3)).
have M k : (k < 3)%N -> mQ s k = 0 /\ mR s k = 1%:M.
  by move=> Hk; have [e1 e2 e3 e4 [e5 _]] := build_model oracle n2i s0 Hk; split.
split=> //; last by move=> k /M [].
apply: (filter_returns _ run); rewrite st => k Hk.
apply: (@innov_unit _ _ _ _ 3) => //; first by rewrite -/s P0; exact: psd0.
  by move=> i /M [-> _]; exact: psd0.
by move=> i /M [_ ->]; exact: pd_1.
Qed.

(** A perfect sensor. *)
Example C42_case (c : F) (g : seq arr) : 0 < c ->
  let self := demo_kf oracle n2i c in
  let H := mx_arr oracle n2i (demo_H F) in let P := mx_arr oracle n2i (c%:M : 'M[F]_2) in
  let x := vec_arr oracle n2i (const_mx 3%:R : 'cV[F]_2) in let z := vec_arr oracle n2i (1 : 'cV[F]_1) in
  let R := mx_arr oracle n2i (0 : 'M[F]_1) in
  [/\ constructed self, kf_size self = 2%N, exact_update 2 1 H x P z R, cov 1 R = 0 &
      exists g' y C, kf_update (kf_I self) H x P z R g = (g', Ok (y, C))].
Proof.
move=> Hc self H P x z R.
have cs : constructed self by exact: build_constructed.
have U1 : exact_update 2 1 H x P z R by exact: exact_update_arr.
split=> //; first exact: cov_arr.
have := update_out g cs (erefl : kf_size self = 2%N) U1; cbv zeta.
rewrite /H /P /R !mx_arr_mx cov_arr -/P -/R -/H.
have -> : ucov c%:M (demo_H F) 0 = c%:M.
  apply/matrixP => i j; rewrite /ucov addr0 !mxE !big_ord_recl big_ord0 !mxE !big_ord_recl !big_ord0 !mxE /=.
  by rewrite !ord1 ?mul0r ?mul1r ?mulr0 ?mulr1 ?addr0 ?mulr1 ?addr0.
rewrite unitmxE det_scalar1 unitfE gt_eqF // => -[K1 [x1 [P1 [E1 _ _ _ _]]]].
by exists (rcons g K1), x1, P1.
Qed.

(** R as numbers and as matrices full of these numbers, two sensors. *)
Example C40_case (r : F) :
  let self := build_num oracle n2i (direct 2 r) 3 (fun k => r *+ k.+1) in
  let Z := build_Z oracle n2i (direct 2 r) 3 in let U := build_U oracle n2i (direct 2 r) 3 in
  let R := mxs_arr oracle n2i 3 (fun k => const_mx (r *+ k.+1) : 'M[F]_2) in
  [/\ constructed self, well_shaped 2 2 2 self Z U, sized (kf_Q self) /\ sized R,
      steps (with_noise self (kf_Q self) R) Z U = steps self Z U /\ steps self Z U = 3%N &
      forall k, (k < 3)%N ->
        row (kf_Q self) k = spread 2 (row (kf_Q self) k) /\ row R k = spread 2 (row (kf_R self) k)].
Proof.
move=> self Z U R; have [c w _ _ _] := build_num_run oracle n2i (direct 2 r) 3 (fun k => r *+ k.+1).
split=> // k Hk; cbn [kf_Q kf_R self build_num]; rewrite !mxs_row // nums_row // /spread mx_arr_size; split=> //.
apply: NpLemmas.eq_mk => ix /NpLemmas.valid2 [i [j [Hi Hj ->]]]; cbn [nth].
by rewrite -[i]/(val (Ordinal Hi)) -[j]/(val (Ordinal Hj)) entryE mxE.
Qed.

End Props.
