(** * Props25: C90: the extended filter as least squares; C91: more data and blind
    sensors for the extended filter (vocabulary as in Props10.v) *)
From Coq Require Import ZArith.
From mathcomp Require Import all_ssreflect all_algebra.
From Verif Require Import Np NpLemmas Kf Ekf ApiSpec Loop FilterLemmas FilterThms SliceThms UtilThms Exact Repr Textbook RunSpec Refine Refine2 Build
  Outputs EkfRun EkfRun2 EkfBuild RingTac Loewner KalmanAlg TextbookThms TextbookThms2 TextbookThms3 ExCases Prob RobustSpec BestLin Factor Robust
  Robust2 LeastSq Props5 Props7 Props10 Props22.

Set Implicit Arguments.
Unset Strict Implicit.
Unset Printing Implicit Defensive.
Import GRing.Theory Num.Theory Order.Theory.
Local Open Scope ring_scope.

Section Props.
Variable F : realFieldType.
Variable oracle : oracle_type F.
Variable n2i : Z.
Notation N := (exact oracle n2i).
Notation arr := (arr N).

Section Ext.
Variables (n m : nat) (self : ekf N) (Z : arr) (U : option arr) (g g' : seq arr).
Notation T := (e_steps self Z U).
Notation u k := (Some (row (control Z U) k)).

(** ** C90: least squares *)
(** [X] is the only trajectory for which f (of the value of X 0, ..., X k) is
    least. *)
Definition only_least (f : (nat -> 'cV[F]_n) -> F) (k : nat) (X : nat -> 'cV[F]_n) : Prop :=
  forall Y, f X <= f Y /\ (f Y = f X -> forall j, (j <= k)%N -> Y j = X j).

Lemma eq_e_departure st k (X Y : nat -> 'cV[F]_n) : (forall j, (j <= k)%N -> X j = Y j) ->
  e_departure m self Z U st k X = e_departure m self Z U st k Y.
Proof.
by move=> E; rewrite /e_departure E //; congr (_ + _); apply: eq_bigr => j _; cbv zeta; rewrite !E // ltnW.
Qed.

Section Pd.
Hypothesis H : e_exact_run n m self Z U.
Hypothesis p0 : pd (mx n n (e_Pk self)).
Hypothesis pk : forall k, (k < T)%N -> pd (cov n (row (e_Q self) k)) /\ pd (cov m (row (e_R self) k)).

Lemma e_best st k : (k <= T)%N ->
  only_least (e_departure m self Z U st k) k (best (linearised n m self Z U (e_x_before self st)) k).
Proof.
move=> Hk Y; rewrite -!e_departureE; set s := linearised _ _ _ _ _ _.
have hQ j (Hj : (j < T)%N) : pd (mQ s j) := proj1 (pk Hj).
have hR j (Hj : (j < T)%N) : pd (mR s j) := proj2 (pk Hj).
split; first exact: (@best_min _ _ _ s T p0 hQ hR k Y Hk).
exact: (@best_unique _ _ _ s T p0 hQ hR k Y Hk).
Qed.

Theorem C90_extended_filter_is_least_squares st er k : ekf_filter self Z U g = (g', Ok (st, er)) -> (k < T)%N ->
  exists X, only_least (e_departure m self Z U st k.+1) k.+1 X /\ mx n 1 (row st k) = X k.+1.
Proof.
move=> E Hk; exists (best (linearised n m self Z U (e_x_before self st)) k.+1); split; first exact: e_best.
by have [_ -> _ _ _] := e_filter_out H E Hk; rewrite best_T.
Qed.

Theorem C90_extended_smoother_is_least_squares L xs Ps : T = nrows Z -> nrows Z = L.+1 ->
  ekf_smooth self Z U g = (g', Ok (xs, Ps)) ->
  exists st er e, ekf_filter self Z U g = (g', Ok (st, er)) /\
    only_least (e_departure m self Z U st T) T (fun k => if k is j.+1 then mx n 1 (row xs j) else e).
Proof.
move=> t lz Es; have [st [er [Ef _]]] := C47_smooth_computes_the_textbook_step H t lz Es.
exists st, er, (best (linearised n m self Z U (e_x_before self st)) T 0%N); split=> //.
have HTL : T = L.+1 by rewrite t.
case: (e_smooth_rp H Ef t lz) => [[xs1 [Ps1 [E1 Hp Hr]]]|[E1 _]]; last by rewrite E1 in Es.
have [e1 e2] : (xs, Ps) = (xs1, Ps1) by move: Es; rewrite E1 => -[-> ->].
subst xs1 Ps1; set s := linearised _ _ _ _ _ _.
set X := (fun k : nat => _).
have EX j : (j <= T)%N -> best s T j = X j.
  rewrite /X; case: j => // j; rewrite HTL => Hj; have [/rpf_mx -> _] := Hr j Hj.
  exact: best_smooth.
move=> Y; have [h1 h2] := e_best st (leqnn T) Y; rewrite -(eq_e_departure _ EX); split=> // EY j Hj.
by rewrite -EX //; exact: h2.
Qed.

(** One update call is one Gauss-Newton step, started at the prediction x, for
    the problem: minimise (y-x)' P^-1 (y-x) + (z-h(y))' R^-1 (z-h(y)). *)
Theorem C90_update_is_a_gauss_newton_step (x P z R zh J : arr) :
  e_constructed self -> e_size self = n ->
  e_h self x = Ok zh -> good_obs m zh -> e_jH self x = Ok J -> good_mat m n J ->
  good_vec n x -> good_mat n n P -> dt P = DFloat ->
  good_obs m z ->
  dt z = DFloat \/ dt zh = DFloat -> cov_layout m R -> clean R ->
  pd (mx n n P) -> pd (cov m R) ->
  let model (y : 'cV[F]_n) := mx m 1 zh + mx m n J *m (y - mx n 1 x) in
  let cost (y : 'cV[F]_n) := length2 (mx n n P) (y - mx n 1 x) + length2 (cov m R) (mx m 1 z - model y) in
  exists K y C, ekf_update self x P z R g = (rcons g K, Ok (y, C)) /\
    forall y', cost (mx n 1 y) <= cost y' /\ (cost y' = cost (mx n 1 y) -> y' = mx n 1 y).
Proof.
move=> Hc Hn Eh Gh EJ GJ Gx GP DP Gz Hd HR CR pP pR model cost.
have := C47_update_computes_the_textbook_correction g Hc Hn Eh Gh EJ GJ Gx GP DP Gz Hd HR CR; cbv zeta.
have pS := ucov_pd (mx m n J) (pd_psd pP) pR; have uS := pd_unit pS; rewrite /ucov in uS.
rewrite uS => -[K [y [C [E _ Ey _ _]]]]; exists K, y, C; split=> //.
pose b := mx n 1 x; pose M := mx m n J.
pose w := mx m 1 z - mx m 1 zh + M *m b.
have costE y' : cost y' = quad (invmx (upost (mx n n P) M (cov m R))) (y' - mx n 1 y) + quad (invmx (ucov (mx n n P) M (cov m R))) (w - M *m b).
  have := complete_square M b y' w pP pR.
  have -> : ucorr (mx n n P) M (cov m R) b w = mx n 1 y.
    by rewrite Ey /ucorr /ugain /ucov /w addrK.
  have ew : mx m 1 z - model y' = w - M *m y'.
    by rewrite /model /w -/M -/b mulmxBr !opprD opprK !addrA [in RHS]addrAC.
  by move=> <-; rewrite /cost ew.
have pU : pd (upost (mx n n P) M (cov m R)) by exact: upost_pd.
have pI := pd_inv pU.
move=> y'; rewrite !costE subrr quadx0 add0r; split; first by rewrite ler_addr; exact: (pd_psd pI).2.
move=> /eqP; rewrite -subr_eq0 addrK => /eqP E0; apply/eqP; rewrite -subr_eq0; apply: contraT => /pI.2.
by rewrite E0 ltxx.
Qed.
End Pd.

End Ext.

(** ** C91: more data, blind sensors *)
Lemma e_run_upto n m (self : ekf N) (Z : arr) U k : e_exact_run n m self Z U ->
  e_exact_run n m self (upto_row k Z) (omap (upto_row k) U).
Proof.
move=> [hc hit hn gx [gP hl hcal hd1 hd2]].
have lt j : (j < e_steps self (upto_row k Z) (omap (upto_row k) U))%N ->
   [/\ (j < e_steps self Z U)%N, (j < k)%N & (j < nrows Z)%N].
  rewrite e_steps_upto leq_min => /andP [Hk Hj]; split=> //.
  by have [h _ _ _] := e_steps_le self Z U; exact: leq_trans Hj h.
split=> //; first exact: e_iterable_upto.
split=> //.
  by move=> j /lt [Hj Hk HZ]; rewrite row_upto //; exact: hl.
by move=> j x /lt [Hj Hk HZ] Gx; rewrite control_upto //; exact: hcal.
Qed.

Section Data.
Variables (n m : nat) (self : ekf N) (Z : arr) (U : option arr) (g g' : seq arr).
Notation T := (e_steps self Z U).
Notation u k := (Some (row (control Z U) k)).
Hypothesis H : e_exact_run n m self Z U.

Theorem C91_more_data_never_hurts_extended xs Ps k : T = nrows Z ->
  psd (mx n n (e_Pk self)) ->
  (forall j, (j < T)%N -> psd (cov n (row (e_Q self) j)) /\ psd (cov m (row (e_R self) j))) ->
  ekf_smooth self Z U g = (g', Ok (xs, Ps)) -> (0 < k)%N -> (k <= nrows Z)%N ->
  exists g1 xs1 Ps1, ekf_smooth self (upto_row k Z) (omap (upto_row k) U) g = (g1, Ok (xs1, Ps1)) /\
  forall j, (j < k)%N ->
    [/\ loewner (mx n n (row Ps j)) (mx n n (row Ps1 j)),
        forall i, mx n n (row Ps j) i i <= mx n n (row Ps1 j) i i &
        \tr (mx n n (row Ps j)) <= \tr (mx n n (row Ps1 j))].
Proof.
move=> HT h0 h Es; case: k => [|L1] // _ Hk.
case l : (nrows Z) Hk => [|L] // Hk.
have HL : (L1 <= L)%N by [].
have HTL : T = L.+1 by rewrite HT.
have [st [er [Ef _]]] := C47_smooth_computes_the_textbook_step H HT l Es.
case: (e_smooth_rp H Ef HT l) => [[xs0 [Ps0 [E0 Hp Hr]]]|[E0 _]]; last by rewrite E0 in Es.
have [e1 e2] : (xs, Ps) = (xs0, Ps0) by move: Es; rewrite E0 => -[-> ->].
subst xs0 Ps0; set s := linearised _ _ _ _ _ _ in Hp Hr.
have H1 := e_run_upto L1.+1 H; have Ef1 := e_filter_upto L1.+1 Ef.
have l1 : nrows (upto_row L1.+1 Z) = L1.+1 by rewrite nrows_upto l; apply/minn_idPl.
have t1 : e_steps self (upto_row L1.+1 Z) (omap (upto_row L1.+1) U) = nrows (upto_row L1.+1 Z).
  by rewrite e_steps_upto nrows_upto HT.
pose s1 := linearised n m self (upto_row L1.+1 Z) (omap (upto_row L1.+1) U) (e_x_before self (upto_row L1.+1 st)).
have ek j : (j < L1.+1)%N -> [/\ mA s1 j = mA s j, mH s1 j = mH s j, mQ s1 j = mQ s j & mR s1 j = mR s j].
  move=> Hj; rewrite /s1 /s; cbn [linearised mA mH mQ mR].
  have -> : e_x_before self (upto_row L1.+1 st) j = e_x_before self st j.
    by case: j Hj => // j Hj; rewrite /e_x_before row_upto // ltnW.
  by rewrite control_upto // l (leq_trans Hj).
have ep : mP0 s1 = mP0 s by [].
case: (e_smooth_rp H1 Ef1 t1 l1) => [[xs1 [Ps1 [E1 _ Hr1]]]|[_ [j Hj]]]; last first.
  by rewrite (@ext_pred _ _ _ s s1 L1.+1 ep ek j.+1) ?Hp //; exact: leq_trans Hj HL.
exists (take (size g + minn L1.+1 T) g'), xs1, Ps1; split=> // j Hj.
have [_ /rpf_mx ->] := Hr1 j Hj; have [_ /rpf_mx ->] := Hr j (leq_trans (Hj : (j <= L1)%N) HL); rewrite -/s1.
rewrite (@ext_smooth _ _ _ s s1 L1.+1 ep ek) //.
have lo : loewner (smooth_P s L j) (smooth_P s L1 j).
  have LT i : (i < L.+1)%N = (i < T)%N by rewrite HTL.
  apply: (@smooth_more _ _ _ s L.+1) => //.
  - by move=> i; rewrite LT => /h [].
  - by move=> i; rewrite LT => /h [].
  - by move=> i; rewrite LT => Hi; have [] := e_filter_out H Ef Hi.
by split=> //; [move=> i; exact: loewner_diag|exact: loewner_trace].
Qed.

(** The sensors see nothing to first order at the prediction of step k. *)
Definition blind_at (st : arr) (k : nat) : Prop :=
  mx m n (value (e_jH self (value (e_f self (e_x_before self st k) (u k))))) = 0.

Theorem C91_blind_step_extended st er k : ekf_filter self Z U g = (g', Ok (st, er)) -> (k < T)%N -> blind_at st k ->
  [/\ mx n 1 (row st k) = mx n 1 (value (e_f self (e_x_before self st k) (u k))),
      mx n n (row er k) = e_P_prior n self Z U er st k,
      gain_of n m g g' k = 0 & cov m (row (e_R self) k) \in unitmx].
Proof.
move=> E Hk H0; have [u0 -> -> -> _] := e_filter_out H E Hk.
rewrite (e_P_priorE H E Hk); set s := linearised _ _ _ _ _ _.
have B : mH s k = 0 := H0; have [e1 e2 e3 e4] := blind_step B.
by split=> //; [rewrite e3; exact: (e_prior_out H E Hk)|rewrite -[cov _ _]/(mR s k) -e1].
Qed.

(** Other readings at blind steps, anything else the same. *)
Theorem C91_blind_readings_do_not_matter_extended Z' g1 g1' st er st' er' :
  e_exact_run n m self Z' U -> e_steps self Z' U = T -> control Z' U = control Z U ->
  ekf_filter self Z U g = (g1, Ok (st, er)) -> ekf_filter self Z' U g' = (g1', Ok (st', er')) ->
  (forall k, (k < T)%N -> blind_at st k \/ mx m 1 (row Z' k) = mx m 1 (row Z k)) ->
  forall k, (k < T)%N -> [/\ row st' k = row st k, row er' k = row er k &
    nth (np_zeros N [::]) g1' (size g' + k) = nth (np_zeros N [::]) g1 (size g + k)].
Proof.
move=> H' HT HU E E' B k; set s := linearised n m self Z U (e_x_before self st).
set s' := linearised n m self Z' U (e_x_before self st').
have [i] := ubnP k; elim: i k => // i IH k /ltnSE ki Hk.
have ek j : (j < k.+1)%N -> [/\ mA s' j = mA s j, mc s' j = mc s j, mH s' j = mH s j, mQ s' j = mQ s j &
     mR s' j = mR s j /\ (mH s j != 0 -> mz s' j = mz s j)].
  move=> Hj; have HjT := leq_trans Hj Hk; rewrite /s /s'; cbn [linearised mA mc mH mQ mR mz].
  have -> : e_x_before self st' j = e_x_before self st j.
    case: j Hj HjT => // j Hj HjT; rewrite /e_x_before.
    by have [] := IH j (leq_trans (Hj : (j < k)%N) ki) (ltnW HjT).
  rewrite HU; split=> //; split=> // Hn.
  case: (B j HjT) => [H0|-> //].
  by rewrite /blind_at in H0; rewrite H0 eqxx in Hn.
have [c1 c2 _] := @blind_data _ _ _ s s' k.+1 (erefl _) (erefl _) ek.
have [_ _ cg] := c1 k (ltnSn k); have [cx cP] := c2 k.+1 (leqnn _).
have Hk' := Hk; rewrite -HT in Hk'.
have [_ _ _ _ [R1 R2 R3]] := e_filter_out H E Hk; have [_ _ _ _ [R1' R2' R3']] := e_filter_out H' E' Hk'.
rewrite -/s in R1 R2 R3; rewrite -/s' cx cP cg in R1' R2' R3'.
by split; [exact: rpf_inj R1' R1|exact: rpf_inj R2' R2|exact: rpf_inj R3' R3].
Qed.
End Data.

(** ** Cases *)
Example C90_case (c : F) (z : nat -> 'cV[F]_1) : 0 < c ->
  let self := ex_self oracle n2i c in let Z := ex_Z oracle n2i z in let U := ex_U oracle n2i in
  [/\ e_exact_run 2 1 self Z U, pd (mx 2 2 (e_Pk self)),
      (forall k, (k < e_steps self Z U)%N -> pd (cov 2 (row (e_Q self) k)) /\ pd (cov 1 (row (e_R self) k))),
      e_steps self Z U = nrows Z /\ nrows Z = 3%N &
      (exists g' st er, ekf_filter self Z U [::] = (g', Ok (st, er))) /\
      (exists g' xs Ps, ekf_smooth self Z U [::] = (g', Ok (xs, Ps)))].
Proof.
move=> Hc self Z U; have [r p0 pk [[Hs Hz] f sm]] := C86_case oracle n2i z Hc.
by split; [exact: r|exact: p0|exact: pk|split; [exact: Hs|exact: Hz]|split; [exact: f|exact: sm]].
Qed.

Example C90_update_case (c t : F) : 0 < c ->
  let self := ex_self oracle n2i c in
  let x : arr := vec_arr oracle n2i (const_mx 1 : 'cV[F]_2) in
  let P : arr := mx_arr oracle n2i (c%:M : 'M[F]_2) in
  let R : arr := mx_arr oracle n2i (c%:M : 'M[F]_1) in
  let z : arr := vec_arr oracle n2i (const_mx t : 'cV[F]_1) in
  exists zh J,
  [/\ e_constructed self /\ e_size self = 2%N, e_h self x = Ok zh /\ good_vec 1 zh, e_jH self x = Ok J /\ good_mat 1 2 J,
      [/\ good_vec 2 x, good_mat 2 2 P & dt P = DFloat] &
  [/\ [&& wf z, (shp z == [:: 1%N]) || ((1 == 1)%N && (shp z == [::])) & clean z], dt z = DFloat,
      cov_layout 1 R /\ clean R, pd (mx 2 2 P) & pd (cov 1 R)]].
Proof.
move=> Hc self x P R z; exists (vec_arr oracle n2i (ex_h (mx 2 1 x))), (mx_arr oracle n2i (ex_jh (mx 2 1 x))).
have pc k : pd (c%:M : 'M[F]_k) by rewrite -scalemx1; apply: pd_scale => //; exact: pd_1.
split.
- by split; [exact: e_build_constructed|reflexivity].
- by split; [reflexivity|exact: good_vec_arr].
- by split; [reflexivity|exact: good_mat_arr].
- by split; [exact: good_vec_arr|exact: good_mat_arr|reflexivity].
split.
- have /and3P [a1 a2 a3] := good_vec_arr oracle n2i (const_mx t : 'cV[F]_1).
  by apply/and3P; split; [exact: a1|rewrite a2|exact: a3].
- reflexivity.
- by split; [apply/andP; split; [exact: wf_mkF|rewrite eqxx]|exact: clean_mkF].
- by rewrite mx_arr_mx; exact: pc.
by rewrite cov_arr; exact: pc.
Qed.

(** A random walk observed through the square of its first component: no
    information to first order where the prediction is 0, as in the first step. *)
Definition sq_self (c : F) : ekf N :=
  e_build oracle n2i 3 (fun x u : 'cV[F]_2 => x + u) (@ex_h F) (fun _ _ => 1%:M) (@ex_jh F)
    (fun _ => c%:M) (fun _ => c%:M) 0 c%:M.

Example C91_case (c : F) (z z' : nat -> 'cV[F]_1) : 0 < c -> (forall k, (0 < k)%N -> z' k = z k) ->
  let self := sq_self c in let Z := ex_Z oracle n2i z in let Z' := ex_Z oracle n2i z' in let U := ex_U oracle n2i in
  [/\ e_exact_run 2 1 self Z U /\ e_exact_run 2 1 self Z' U,
      e_steps self Z U = nrows Z /\ nrows Z = 3%N /\ e_steps self Z' U = e_steps self Z U,
      psd (mx 2 2 (e_Pk self)) /\
      (forall k, (k < e_steps self Z U)%N -> psd (cov 2 (row (e_Q self) k)) /\ psd (cov 1 (row (e_R self) k))) &
  [/\ control Z' U = control Z U,
      (exists g' st er, ekf_filter self Z U [::] = (g', Ok (st, er)) /\
         forall k, (k < e_steps self Z U)%N -> blind_at 2 1 self Z U st k \/ mx 1 1 (row Z' k) = mx 1 1 (row Z k)),
      (exists g' st er, ekf_filter self Z' U [::] = (g', Ok (st, er))) &
      (exists g' xs Ps, ekf_smooth self Z U [::] = (g', Ok (xs, Ps)))]].
Proof.
move=> Hc Hz self Z Z' U.
have r w : e_exact_run 2 1 self (ex_Z oracle n2i w) U.
  exact: (e_build_run oracle n2i 3 (fun x u : 'cV[F]_2 => x + u) (@ex_h F) (fun _ _ => 1%:M) (@ex_jh F)
    (fun _ => c%:M) (fun _ => c%:M) 0 c%:M w (fun k => const_mx k%:R : 'cV[F]_2)).
have Hs w : e_steps self (ex_Z oracle n2i w) U = 3%N by exact: e_build_steps.
have pc k : pd (c%:M : 'M[F]_k) by rewrite -scalemx1; apply: pd_scale => //; exact: pd_1.
have [q0 qk] : mx 2 2 (e_Pk self) = c%:M /\ forall k, (k < 3)%N -> cov 2 (row (e_Q self) k) = c%:M /\ cov 1 (row (e_R self) k) = c%:M.
  split; first by rewrite /self /sq_self /e_build; cbn [e_Pk]; rewrite mx_arr_mx.
  by move=> k Hk; rewrite /self /sq_self /e_build; cbn [e_Q e_R]; rewrite !mxs_row // !cov_arr.
have h0 : psd (mx 2 2 (e_Pk self)) by rewrite q0; apply: pd_psd; exact: pc.
have hk w k : (k < e_steps self (ex_Z oracle n2i w) U)%N -> pd (cov 2 (row (e_Q self) k)) /\ pd (cov 1 (row (e_R self) k)).
  by rewrite Hs => /qk [-> ->]; split; exact: pc.
have ret w : exists g' st er, ekf_filter self (ex_Z oracle n2i w) U [::] = (g', Ok (st, er)).
  by apply: (C50_no_failure_with_noisy_sensors _ (r w) h0) => k /hk [/pd_psd ? ?]; split.
split.
- by split; exact: r.
- by split; [exact: Hs|split; [reflexivity|exact: etrans (Hs z') (esym (Hs z))]].
- by split; [exact: h0|move=> k /hk [/pd_psd ? /pd_psd ?]; split].
split.
- reflexivity.
- have [g' [st [er E]]] := ret z; exists g', st, er; split; first exact: E.
  have -> : e_steps self Z U = 3%N by exact: Hs.
  move=> [|k] Hk; [left|right].
    rewrite /blind_at.
    have -> : e_x_before self st 0 = vec_arr oracle n2i (0 : 'cV[F]_2) by reflexivity.
    have -> : row (control Z U) 0 = vec_arr oracle n2i (const_mx 0%:R : 'cV[F]_2).
      exact: (vecs_row oracle n2i (fun k => const_mx k%:R : 'cV[F]_2) Hk).
    rewrite /self /sq_self /e_build; cbn [e_jH e_f]; rewrite /call_jH /call_f; cbn [value uval].
    rewrite !vec_arr_mx mx_arr_mx add0r; apply/matrixP => i j; rewrite !mxE mulr0.
    by case: ifP.
  have -> : row Z' k.+1 = vec_arr oracle n2i (z' k.+1) by exact: (vecs_row oracle n2i z' Hk).
  have -> : row Z k.+1 = vec_arr oracle n2i (z k.+1) by exact: (vecs_row oracle n2i z Hk).
  by rewrite Hz.
- exact: ret.
by apply: (C50_no_smooth_failure_with_noisy_dynamics (L := 2) _ (r z)) => // k; exact: hk.
Qed.
End Props.
