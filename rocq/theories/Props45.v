(** * Props45: C111: with process noise of any rank, the filter and the smoother
    find the smallest disturbances that explain the data

    Specification: [path] and [effort] of LeastSqG.v.  The start is x0 + G0 a,
    step k adds G_k u_k; a and u_k weigh by the inverses of D0 and D_k, the
    misfit of the observations by the inverse of R_k.  P0 = G0 D0 G0^T and
    Q_k = G_k D_k G_k^T, so that neither P0 nor Q_k need be invertible. *)
From Coq Require Import ZArith.
From mathcomp Require Import all_ssreflect all_algebra.
From Verif Require Import Np NpLemmas Kf Ekf ApiSpec Loop Frame FilterLemmas FilterThms SmoothLemmas
  Exact Repr Textbook RunSpec Refine Refine2 Build Outputs RingTac Loewner KalmanAlg TextbookThms Factor LeastSqG
  EkfRun EkfRun2 EkfBuild Props2 Props3 Examples ExampleThms Props42 Props43.

Set Implicit Arguments.
Unset Strict Implicit.
Unset Printing Implicit Defensive.
Import GRing.Theory Num.Theory Order.Theory.
Local Open Scope ring_scope.
Delimit Scope Z_scope with Z. Delimit Scope nat_scope with N.

Section C111.
Variable F : realFieldType.

(** The disturbances (a, u_0 .. u_(k-1)) are the only ones of least effort. *)
Definition least_effort n m q0 q (s : model F n m) (G0 : 'M_(n, q0)) (D0 : 'M_q0) (G : nat -> 'M_(n, q)) (D : nat -> 'M_q)
    (k : nat) (a : 'cV[F]_q0) (u : nat -> 'cV[F]_q) : Prop :=
  forall a' u', effort s G0 D0 G D k a u <= effort s G0 D0 G D k a' u' /\
    (effort s G0 D0 G D k a' u' = effort s G0 D0 G D k a u -> a' = a /\ forall j, (j < k)%N -> u' j = u j).

(** Every covariance, singular or not, can be written G D G^T with D definite. *)
Theorem C111_every_covariance n (M : 'M[F]_n) : psd M ->
  exists (G D : 'M[F]_n), pd D /\ M = G *m D *m G^T.
Proof.
case/psd_factor=> d [v [d0 ->]].
exists (\matrix_(i, j) if d j == 0 then 0 else v j i 0), (diag_mx (\row_j if d j == 0 then 1 else d j)).
split.
  split=> [|x hx]; first by rewrite tr_diag_mx.
  have -> : quad (diag_mx (\row_j if d j == 0 then 1 else d j)) x = \sum_j (if d j == 0 then 1 else d j) * x j 0 ^+ 2.
    rewrite /quad -mulmxA mul_diag_mx mxE; apply: eq_bigr => j _; rewrite !mxE expr2 mulrCA.
    by [].
  have pos j : 0 < (if d j == 0 then 1 else d j).
    by case: eqP => [_|/eqP h]; [exact: ltr01|rewrite lt_neqAle eq_sym h d0].
  have [i hi] : exists i, x i 0 != 0.
    apply/existsP; apply: contraR hx; rewrite negb_exists => /forallP h.
    by apply/eqP/matrixP => i j; rewrite ord1 mxE; apply/eqP; have := h i; rewrite negbK.
  rewrite (bigD1 i) //=; apply: ltr_paddr.
    by apply: sumr_ge0 => j _; rewrite mulr_ge0 ?sqr_ge0 // ltW.
  by rewrite mulr_gt0 // exprn_even_gt0.
apply/matrixP => i j; rewrite mul_mx_diag summxE mxE; apply: eq_bigr => k _; rewrite !mxE big_ord1 !mxE.
by case: eqP => [->|_]; rewrite ?mul0r // [RHS]mulrAC mulrC mulrA.
Qed.

(** ... and so can any number of them. *)
Lemma every_covariances n (M : nat -> 'M[F]_n) T : (forall k, (k < T)%N -> psd (M k)) ->
  exists (G D : nat -> 'M[F]_n), forall k, (k < T)%N -> pd (D k) /\ M k = G k *m D k *m (G k)^T.
Proof.
elim: T => [|T IH] H; first by exists (fun _ => 0), (fun _ => 0).
have [|G [D HGD]] := IH; first by move=> k Hk; exact: H (leqW Hk).
have [G' [D' HGD']] := C111_every_covariance (H T (leqnn _)).
exists (fun k => if k == T then G' else G k), (fun k => if k == T then D' else D k) => k.
by rewrite ltnS leq_eqVlt; case: eqP => [-> _|_ /= Hk]; [|exact: HGD].
Qed.

Variable oracle : oracle_type F.
Variable n2i : Z.
Notation N := (exact oracle n2i).
Notation arr := (arr N).

Section Standard.
Variables (n m p : nat) (self : kf N) (Z : arr) (U : option arr) (g : seq arr).
Notation T := (steps self Z U).
Notation s := (model_of n m p self Z U).
Variables (q0 q : nat) (G0 : 'M[F]_(n, q0)) (D0 : 'M[F]_q0) (G : nat -> 'M[F]_(n, q)) (D : nat -> 'M[F]_q).
Hypothesis Hrun : exact_run n m p self Z U.
Hypothesis hP0 : mP0 s = G0 *m D0 *m G0^T.
Hypothesis hD0 : pd D0.
Hypothesis hQ : forall k, (k < T)%N -> mQ s k = G k *m D k *m (G k)^T.
Hypothesis hD : forall k, (k < T)%N -> pd (D k).
Hypothesis hR : forall k, (k < T)%N -> pd (mR s k).

Lemma is_least L (LT : (L <= T)%N) :
  least_effort s G0 D0 G D L (abest s G0 D0 L) (ubest s G D L).
Proof.
move=> a' u'; split; first exact: (best_is_best hP0 hD0 hQ hD hR LT).
exact: (best_only hP0 hD0 hQ hD hR LT).
Qed.

Theorem C111_filter : exists g' st er, kf_filter self Z U g = (g', Ok (st, er)) /\
  forall k, (k < T)%N -> exists a u, mx n 1 (row st k) = path s G0 G a u k.+1 /\ least_effort s G0 D0 G D k.+1 a u.
Proof.
have [|g' [st [er E]]] := filter_returns g Hrun; first by move=> k Hk; exact: (S_unit hP0 hD0 hQ hD hR).
exists g', st, er; split=> // k Hk; exists (abest s G0 D0 k.+1), (ubest s G D k.+1); split; last exact: is_least.
have [_ -> _ _ _] := filter_out Hrun E Hk.
by rewrite (path_best hP0 hD0 hQ hD hR Hk) // xbestL.
Qed.

Theorem C111_smooth g' xs Ps : T = nrows Z -> kf_smooth self Z U g = (g', Ok (xs, Ps)) ->
  exists a u, (forall k, (k < T)%N -> mx n 1 (row xs k) = path s G0 G a u k.+1) /\ least_effort s G0 D0 G D T a u.
Proof.
move=> HT Es; exists (abest s G0 D0 T), (ubest s G D T); split; last exact: is_least.
case HL : (nrows Z) => [|L] k Hk; first by move: Hk; rewrite HT HL.
have [_ hp /(_ k)] := smooth_out Hrun HT HL Es.
have LT : (L < T)%N by rewrite HT HL.
have HkL : (k <= L)%N by move: Hk; rewrite HT HL.
case=> // -> _ _ _; rewrite (path_best hP0 hD0 hQ hD hR (leqnn T)) // (smooth_xbest hP0 hD0 hQ hD hR LT) //.
by rewrite HT HL.
Qed.
End Standard.

(** Nothing more than covariances is needed: P0 and every Q positive
    semidefinite, every R positive definite. *)
Theorem C111_any_rank n m p (self : kf N) Z U g : exact_run n m p self Z U ->
  let s := model_of n m p self Z U in let T := steps self Z U in
  psd (mP0 s) -> (forall k, (k < T)%N -> psd (mQ s k)) -> (forall k, (k < T)%N -> pd (mR s k)) ->
  exists (G0 D0 : 'M[F]_n) (G D : nat -> 'M[F]_n),
  [/\ pd D0 /\ mP0 s = G0 *m D0 *m G0^T,
      forall k, (k < T)%N -> pd (D k) /\ mQ s k = G k *m D k *m (G k)^T,
      (exists g' st er, kf_filter self Z U g = (g', Ok (st, er)) /\
       forall k, (k < T)%N -> exists a u, mx n 1 (row st k) = path s G0 G a u k.+1 /\ least_effort s G0 D0 G D k.+1 a u) &
      forall g' xs Ps, T = nrows Z -> kf_smooth self Z U g = (g', Ok (xs, Ps)) ->
       exists a u, (forall k, (k < T)%N -> mx n 1 (row xs k) = path s G0 G a u k.+1) /\ least_effort s G0 D0 G D T a u].
Proof.
move=> Hrun s T hP hQ hR.
have [G0 [D0 [hD0 hP0]]] := C111_every_covariance hP.
have [G [D HGD]] := every_covariances hQ.
have hD k : (k < T)%N -> pd (D k) by move=> Hk; have [] := HGD k Hk.
have hQ' k : (k < T)%N -> mQ s k = G k *m D k *m (G k)^T by move=> Hk; have [] := HGD k Hk.
exists G0, D0, G, D; split=> //.
  exact: (C111_filter g Hrun hP0 hD0 hQ' hD hR).
by move=> g' xs Ps; exact: (C111_smooth Hrun hP0 hD0 hQ' hD hR).
Qed.

Section Extended.
Variables (n m : nat) (self : ekf N) (Z : arr) (U : option arr) (g : seq arr).
Notation T := (e_steps self Z U).
Variables (q0 q : nat) (G0 : 'M[F]_(n, q0)) (D0 : 'M[F]_q0) (G : nat -> 'M[F]_(n, q)) (D : nat -> 'M[F]_q).
Hypothesis Hrun : e_exact_run n m self Z U.
Hypothesis hP0 : mx n n (e_Pk self) = G0 *m D0 *m G0^T.
Hypothesis hD0 : pd D0.
Hypothesis hQ : forall k, (k < T)%N -> cov n (row (e_Q self) k) = G k *m D k *m (G k)^T.
Hypothesis hD : forall k, (k < T)%N -> pd (D k).
Hypothesis hR : forall k, (k < T)%N -> pd (cov m (row (e_R self) k)).

(** The system linearised along the filter's own states. *)
Notation lin st := (linearised n m self Z U (e_x_before self st)).

Lemma e_is_least st L (LT : (L <= T)%N) :
  least_effort (lin st) G0 D0 G D L (abest (lin st) G0 D0 L) (ubest (lin st) G D L).
Proof.
move=> a' u'; split; first exact: (@best_is_best _ _ _ _ _ (lin st) _ _ _ _ T hP0 hD0 hQ hD hR _ LT).
exact: (@best_only _ _ _ _ _ (lin st) _ _ _ _ T hP0 hD0 hQ hD hR _ LT).
Qed.

Theorem C111_filter_extended g' st er : ekf_filter self Z U g = (g', Ok (st, er)) ->
  forall k, (k < T)%N -> exists a u, mx n 1 (row st k) = path (lin st) G0 G a u k.+1 /\
    least_effort (lin st) G0 D0 G D k.+1 a u.
Proof.
move=> E k Hk; exists (abest (lin st) G0 D0 k.+1), (ubest (lin st) G D k.+1); split; last exact: e_is_least.
have [_ -> _ _ _] := e_filter_out Hrun E Hk.
by rewrite (@path_best _ _ _ _ _ (lin st) _ _ _ _ T hP0 hD0 hQ hD hR _ Hk) // xbestL.
Qed.

Theorem C111_smooth_extended g' xs Ps : T = nrows Z -> ekf_smooth self Z U g = (g', Ok (xs, Ps)) ->
  exists st er, ekf_filter self Z U g = (g', Ok (st, er)) /\
  exists a u, (forall k, (k < T)%N -> mx n 1 (row xs k) = path (lin st) G0 G a u k.+1) /\
    least_effort (lin st) G0 D0 G D T a u.
Proof.
move=> HT Es; have [st [er [E _ _ _]]] := C15_smooth_last_extended Es.
exists st, er; split=> //; exists (abest (lin st) G0 D0 T), (ubest (lin st) G D T); split; last exact: e_is_least.
case HL : (nrows Z) => [|L] k Hk; first by move: Hk; rewrite HT HL.
case: (e_smooth_rp Hrun E HT HL) => [[xs1 [Ps1 [E1 Hp Hr]]]|[E1 _]]; last by rewrite E1 in Es.
have [e1 e2] : xs = xs1 /\ Ps = Ps1 by move: Es; rewrite E1 => -[-> ->].
subst xs1 Ps1; have LT : (L < T)%N by rewrite HT HL.
have HkL : (k <= L)%N by move: Hk; rewrite HT HL.
have [/rpf_mx -> _] := Hr k HkL.
rewrite (@path_best _ _ _ _ _ (lin st) _ _ _ _ T hP0 hD0 hQ hD hR _ (leqnn T)) //.
rewrite (@smooth_xbest _ _ _ _ _ (lin st) _ _ _ _ T hP0 hD0 hQ hD hR _ _ LT) //.
by rewrite HT HL.
Qed.
End Extended.

(** ** The constant velocity example: the smoothest track

    A track starts anywhere with any velocity, stays for the first step, and
    then changes its velocity at rate acc_k during step k. *)
Section Track.
Variables (T : nat) (z : nat -> F) (dt v r p : F).
Fixpoint track (x0 v0 : F) (acc : nat -> F) (k : nat) : F * F :=
  if k is j.+1 then
    let xv := track x0 v0 acc j in
    if j is 0 then xv else (xv.1 + dt * xv.2 + dt ^+ 2 / 2%:R * acc j, xv.2 + dt * acc j)
  else (x0, v0).
(** Its distance from rest at 0, the squares of its accelerations, its
    distance from the observations. *)
Definition track_cost (x0 v0 : F) (acc : nat -> F) : F :=
  (x0 ^+ 2 + v0 ^+ 2) / p +
  \sum_(j < T) ((if nat_of_ord j is 0 then 0 else acc j ^+ 2 / v) + (z j - (track x0 v0 acc j.+1).1) ^+ 2 / r).

Lemma track_ext x0 v0 acc acc' k : (forall j, acc j.+1 = acc' j.+1) -> track x0 v0 acc k = track x0 v0 acc' k.
Proof.
move=> H; elim: k => [|k IH] //.
change ((let xv := track x0 v0 acc k in if k is 0 then xv else (xv.1 + dt * xv.2 + dt ^+ 2 / 2%:R * acc k, xv.2 + dt * acc k))
  = (let xv := track x0 v0 acc' k in if k is 0 then xv else (xv.1 + dt * xv.2 + dt ^+ 2 / 2%:R * acc' k, xv.2 + dt * acc' k))).
by rewrite IH; case: (k) => // j; rewrite H.
Qed.

Theorem C111_constant_velocity f xs Ps : 0 < v -> 0 < r -> 0 < p ->
  constant_velocity oracle n2i T z dt v r p = Ok (f, (xs, Ps)) ->
  exists x0 v0 acc,
  (forall k, (k < T)%N -> mx 2 1 (row xs k) = col2 (track x0 v0 acc k.+1).1 (track x0 v0 acc k.+1).2) /\
  forall x0' v0' acc', track_cost x0 v0 acc <= track_cost x0' v0' acc'.
Proof.
move=> hv hr hp; rewrite /constant_velocity.
pose A (k : nat) : 'M[F]_2 := if k is 0 then 1%:M else mat2 1 dt 0 1.
pose Hs (k : nat) : 'M[F]_(1, 2) := row2 1 0.
pose Qf (k : nat) : 'M[F]_2 := if k is 0 then 0 else transition_covariance dt v.
pose Q := mxs_arr oracle n2i T Qf; pose xk := vec_arr oracle n2i (0 : 'cV[F]_2).
have Hx : vec_layout 2 1 xk && clean xk by [].
have HP : mat_layout 2 2 (mx_arr oracle n2i (p%:M : 'M[F]_2)) && clean (mx_arr oracle n2i (p%:M : 'M[F]_2)).
  by rewrite mat_layout_arr clean_mkF.
have HQ : sized Q /\ nrows Q = T by [].
have HQr k : (k < T)%N -> cov_layout 2 (row Q k) && clean (row Q k).
  by move=> Hk; rewrite mxs_row // clean_mkF andbT /cov_layout eqxx andbT; exact: wf_mkF.
have Hx0 : shape0 xk = Ok 2%N by [].
rewrite (plain_init T A Hs (fun _ => r) _ _ Hx0); cbn [rbind].
set self := plain _ _ _ _ _ _ _; set Z := nums_arr oracle n2i T z.
have Hr : exact_run 2 1 2 self Z None by exact: plain_run.
have HsT : steps self Z None = T by exact: plain_steps.
case E : (kf_filter self Z None (kf_gains self)) => [g' [fr|e]]; cbn [rbind fst snd]; last by [].
case Es : (kf_smooth self Z None g') => [gf [[xs1 Ps1]|e]]; cbn [rbind fst snd]; last by [].
case=> _ e1 e2; subst xs1 Ps1.
set s := model_of 2 1 2 self Z None.
have Hm k : (k < T)%N -> [/\ mA s k = A k, mc s k = 0, mH s k = row2 1 0, mQ s k = Qf k & mR s k = r%:M /\ mz s k = (z k)%:M].
  move=> Hk; have [-> -> -> -> [-> ->]] := plain_model A Hs (fun _ => r) z xk (mx_arr oracle n2i (p%:M : 'M[F]_2)) Q Hk.
  by rewrite /Q mxs_row // cov_arr !const1.
have m0 : mx0 s = 0 by exact: vec_arr_mx.
have P0 : mP0 s = p%:M by exact: mx_arr_mx.
pose G0 : 'M[F]_2 := 1%:M; pose D0 : 'M[F]_2 := p%:M.
pose G (k : nat) : 'cV[F]_2 := if k is 0 then 0 else push dt.
pose D (k : nat) : 'M[F]_1 := if k is 0 then 1%:M else v%:M.
have hP0 : mP0 s = G0 *m D0 *m G0^T by rewrite P0 /G0 mul1mx trmx1 mulmx1.
have hD0 : pd D0 by exact: pd_sc.
have hQ k : (k < steps self Z None)%N -> mQ s k = G k *m D k *m (G k)^T.
  rewrite HsT => Hk; have [_ _ _ -> _] := Hm k Hk; case: (k) => [|j]; first by rewrite /Qf /G !mul0mx.
  by rewrite /Qf /G /D transition_push mul_mx_scalar scalemxAl.
have hD k : (k < steps self Z None)%N -> pd (D k).
  by move=> _; case: (k) => [|j]; [exact: pd_1|exact: pd_sc].
have hR k : (k < steps self Z None)%N -> pd (mR s k).
  by rewrite HsT => Hk; have [_ _ _ _ [-> _]] := Hm k Hk; exact: pd_sc.
have HT : steps self Z None = nrows Z by rewrite HsT.
have [a [u [Hx1 Hle]]] := C111_smooth Hr hP0 hD0 hQ hD hR HT Es; rewrite HsT in Hx1 Hle.
have Ep (a' : 'cV[F]_2) (u' : nat -> 'cV[F]_1) k : (k <= T)%N -> let t := track (a' 0 0) (a' 1 0) (fun j => u' j 0 0) k in
    path s G0 G a' u' k = col2 t.1 t.2.
  elim: k => [|k IH] Hk; cbv zeta.
    change (mx0 s + G0 *m a' = col2 (a' 0 0) (a' 1 0)); rewrite m0 add0r mul1mx; apply/matrixP => i j; rewrite ord1 mxE.
    by case: i => -[|[|]] //= h; congr (a' _ _); apply: val_inj.
  have [eA ec _ _ _] := Hm k Hk; change (mA s k *m path s G0 G a' u' k + mc s k + G k *m u' k =
    col2 (track (a' 0 0) (a' 1 0) (fun j => u' j 0 0) k.+1).1 (track (a' 0 0) (a' 1 0) (fun j => u' j 0 0) k.+1).2).
  rewrite (IH (ltnW Hk)) eA ec addr0; case: (k) => [|j].
    by rewrite /A /G mul1mx mul0mx addr0.
  set t := track _ _ _ j.+1; have -> : track (a' 0 0) (a' 1 0) (fun j => u' j 0 0) j.+2 =
    (t.1 + dt * t.2 + dt ^+ 2 / 2%:R * u' j.+1 0 0, t.2 + dt * u' j.+1 0 0) by [].
  cbn [fst snd]; apply/matrixP => i l; rewrite !mxE sum2 !mxE big_ord1 !mxE.
  have e10 : ((1 : 'I_2) == 0) = false by []. rewrite ord1; case: (i == 0); by rewrite eqxx e10 ?mul1r ?mul0r ?add0r.
have Ec (a' : 'cV[F]_2) (u' : nat -> 'cV[F]_1) : effort s G0 D0 G D T a' u' =
    track_cost (a' 0 0) (a' 1 0) (fun j => u' j 0 0) + \sum_(j < T) (if nat_of_ord j is 0 then (u' 0%N 0 0) ^+ 2 else 0).
  rewrite /effort /track_cost quad_sc sum2 -addrA -big_split; congr (_ + _).
  apply: eq_bigr => -[j Hj] _; cbn [nat_of_ord]; have [_ _ eh _ [eR ez]] := Hm j Hj.
  rewrite (Ep a' u' j.+1 Hj) eh eR ez quad_sc big_ord1.
  have -> : ((z j)%:M - row2 1 0 *m col2 (track (a' 0 0) (a' 1 0) (fun j => u' j 0 0) j.+1).1
      (track (a' 0 0) (a' 1 0) (fun j => u' j 0 0) j.+1).2) 0 0 = z j - (track (a' 0 0) (a' 1 0) (fun j => u' j 0 0) j.+1).1.
    by rewrite !mxE sum2 !mxE eqxx mulr1n /= mul1r mul0r addr0.
  case: (j) => [|i]; rewrite quad_sc big_ord1; first by rewrite divr1 add0r [RHS]addrC.
  by rewrite [RHS]addr0.
exists (a 0 0), (a 1 0), (fun j => u j 0 0); split; first by move=> k Hk; rewrite Hx1 // Ep.
move=> x0' v0' acc'; pose u' (j : nat) : 'cV[F]_1 := const_mx (if j is 0 then 0 else acc' j).
have [h _] := Hle (col2 x0' v0') u'; move: h; rewrite !Ec => h.
have -> : track_cost x0' v0' acc' =
  track_cost (col2 x0' v0' 0 0) (col2 x0' v0' 1 0) (fun j => u' j 0 0) + \sum_(j < T) (if nat_of_ord j is 0 then (u' 0%N 0 0) ^+ 2 else 0).
  rewrite big1 ?addr0 => [|[[|j] Hj] _]; [|by rewrite mxE expr0n|by []].
  rewrite !mxE; congr (_ + _); apply: eq_bigr => -[j Hj] _; cbn [nat_of_ord].
  rewrite (@track_ext _ _ acc' (fun j => u' j 0 0)); last by move=> i; rewrite mxE.
  by case: (j) => [|i] //; rewrite mxE.
apply: le_trans h; rewrite ler_addl; apply: sumr_ge0 => -[[|j] Hj] _ //; exact: sqr_ge0.
Qed.
End Track.
End C111.
