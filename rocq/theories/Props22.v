(** * Props22: C85: sensitivity to the data; C86: error bars of the extended filter *)
From Coq Require Import ZArith.
From mathcomp Require Import all_ssreflect all_algebra.
From Verif Require Import Np NpLemmas Kf Ekf ApiSpec Loop FilterLemmas FilterThms UtilThms Exact Repr Textbook RunSpec Refine Refine2 Build
  Outputs EkfRun EkfRun2 RingTac Loewner KalmanAlg TextbookThms ExCases Prob RobustSpec BestLin Factor Robust Robust2 Energy Sensit
  Props5 Props10 Props20.

Set Implicit Arguments.
Unset Strict Implicit.
Unset Printing Implicit Defensive.
Import GRing.Theory Num.Theory Order.Theory.
Local Open Scope ring_scope.

Section Props.
Variable F : realFieldType.
Variable oracle : oracle_type F.
Variable n2i : Z.
Notation N := (exact oracle n2i).
Notation arr := (arr N).

(** ** C85: two runs of one system with different initial states, inputs and
    readings *)
Section Two.
Variables (n m p p' : nat).
Variables (self self' : kf N) (Z Z' : arr) (U U' : option arr) (g g' : seq arr).
Let s := model_of n m p self Z U.
Let s' := model_of n m p' self' Z' U'.
Notation T := (steps self Z U).
Hypothesis H : exact_run n m p self Z U.
Hypothesis H' : exact_run n m p' self' Z' U'.
Hypothesis HT : steps self' Z' U' = T.

(** The same matrices. *)
Definition same_matrices : Prop :=
  mP0 s' = mP0 s /\
  forall k, (k < T)%N -> [/\ mA s' k = mA s k, mH s' k = mH s k, mQ s' k = mQ s k & mR s' k = mR s k].

(** The data of the first k steps differ by P0 l, Q_j a_j and R_j b_j. *)
Definition data_differ (k : nat) l (a : nat -> 'cV[F]_n) (b : nat -> 'cV[F]_m) : Prop :=
  mx0 s' = mx0 s + mP0 s *m l /\
  forall j, (j < k)%N -> mc s' j = mc s j + mQ s j *m a j /\ mz s' j = mz s j + mR s j *m b j.

(** How much they differ, measured by the covariances. *)
Definition difference (k : nat) : F :=
  length2 (mP0 s) (mx0 s' - mx0 s) +
  \sum_(j < k) (length2 (mQ s j) (mc s' j - mc s j) + length2 (mR s j) (mz s' j - mz s j)).

Hypothesis Hm : same_matrices.

Section Psd.
Hypothesis h0 : psd (mP0 s).
Hypothesis hk : forall k, (k < T)%N -> psd (mQ s k) /\ psd (mR s k).

Theorem C85_filter_sensitivity g1 st er : kf_filter self Z U g = (g1, Ok (st, er)) ->
  exists g1' st' er', kf_filter self' Z' U' g' = (g1', Ok (st', er')) /\
  forall k, (k < T)%N -> mx n n (row er' k) = mx n n (row er k) /\
  forall l a b, data_differ k.+1 l a b ->
  let d := mx n 1 (row st' k) - mx n 1 (row st k) in
  (forall c : 'cV[F]_n, ((c^T *m d) 0 0) ^+ 2 <= (c^T *m mx n n (row er k) *m c) 0 0 * energy s k.+1 l a b) /\
  (forall i, d i 0 ^+ 2 <= mx n n (row er k) i i * energy s k.+1 l a b).
Proof.
move=> E; have [m0 mk] := Hm; have u := filter_units H E.
have [|g1' [st' [er' E']]] := filter_returns g' H'.
  by rewrite HT => j Hj; rewrite (ext_innov m0 mk Hj); exact: u.
exists g1', st', er'; split=> // k Hk; have Hk' := Hk; rewrite -HT in Hk'.
have [_ -> -> _ _] := filter_out H E Hk; have [_ -> -> _ _] := filter_out H' E' Hk'.
split; first exact: (ext_post m0 mk).
move=> l a b [d0 dk] d; have lt j : (j < k.+1)%N -> (j < T)%N by move=> Hj; exact: leq_trans Hj Hk.
have K c : dot c d ^+ 2 <= quad (post_P s k.+1) c * energy s k.+1 l a b.
  exact: (sens_bound m0 (fun j Hj => mk j (lt j Hj)) d0 dk h0 (fun j Hj => hk (lt j Hj)) (fun j Hj => u j (lt j Hj))).
by split=> [c|i]; [exact: K|rewrite -dot_delta -quad_delta; exact: K].
Qed.

Theorem C85_smooth_sensitivity L g1 xs Ps : T = nrows Z -> nrows Z = L.+1 -> nrows Z' = L.+1 ->
  kf_smooth self Z U g = (g1, Ok (xs, Ps)) ->
  exists g1' xs' Ps', kf_smooth self' Z' U' g' = (g1', Ok (xs', Ps')) /\
  forall k, (k <= L)%N -> mx n n (row Ps' k) = mx n n (row Ps k) /\
  forall l a b, data_differ T l a b ->
  let d := mx n 1 (row xs' k) - mx n 1 (row xs k) in
  (forall c : 'cV[F]_n, ((c^T *m d) 0 0) ^+ 2 <= (c^T *m mx n n (row Ps k) *m c) 0 0 * energy s T l a b) /\
  (forall i, d i 0 ^+ 2 <= mx n n (row Ps k) i i * energy s T l a b).
Proof.
move=> t lz lz' E; have [m0 mk] := Hm; have [u q r] := smooth_out H t lz E.
have HTL : T = L.+1 by rewrite t.
have t' : steps self' Z' U' = nrows Z' by rewrite HT t lz lz'.
have u1 j : (j < T)%N -> innov s j \in unitmx by rewrite HTL; exact: u.
have [j Hj|j Hj|g1' [xs' [Ps' E']]] := smooth_returns g' H' t' lz'.
- by rewrite (ext_innov m0 mk) ?u1 // HTL.
- by rewrite (ext_pred m0 mk) ?q // HTL.
exists g1', xs', Ps'; split=> // k Hk; have [_ _ r'] := smooth_out H' t' lz' E'.
have [-> -> _ _] := r k Hk; have [-> -> _ _] := r' k Hk.
have HL : (L < T)%N by rewrite HTL.
split; first exact: (ext_smooth m0 mk).
move=> l a b [d0 dk] d.
have K c : dot c d ^+ 2 <= quad (smooth_P s L k) c * energy s T l a b.
  exact: (sens_bound_smooth m0 mk d0 dk h0 hk u1).
by split=> [c|i]; [exact: K|rewrite -dot_delta -quad_delta; exact: K].
Qed.
End Psd.

(** With invertible covariances: any two runs. *)
Section Pd.
Hypothesis p0 : pd (mP0 s).
Hypothesis pk : forall k, (k < T)%N -> pd (mQ s k) /\ pd (mR s k).

Lemma difference_differ k : (k <= T)%N -> exists l a b, data_differ k l a b /\ energy s k l a b = difference k.
Proof.
move=> Hk.
exists (invmx (mP0 s) *m (mx0 s' - mx0 s)), (fun j => invmx (mQ s j) *m (mc s' j - mc s j)),
  (fun j => invmx (mR s j) *m (mz s' j - mz s j)).
have q d (M : 'M[F]_d) x : pd M -> M *m (invmx M *m x) = x /\ quad M (invmx M *m x) = length2 M x.
  move=> hM; have u := pd_unit hM; split; first by rewrite mulmxA mulmxV // mul1mx.
  by rewrite /quad /length2 trmx_mul (sym_inv hM.1) -!mulmxA; congr ((_ *m _) 0 0); rewrite mulKVmx.
split.
  split=> [|j Hj]; first by rewrite (q _ _ _ p0).1 addrC subrK.
  have [h1 h2] := pk (leq_trans Hj Hk); rewrite (q _ _ _ h1).1 (q _ _ _ h2).1.
  by split; rewrite [RHS]addrC subrK.
rewrite /energy /difference (q _ _ _ p0).2; congr (_ + _); apply: eq_bigr => j _.
by have [h1 h2] := pk (leq_trans (ltn_ord j) Hk); rewrite (q _ _ _ h1).2 (q _ _ _ h2).2.
Qed.

Theorem C85_filter_any_two_runs g1 st er g1' st' er' :
  kf_filter self Z U g = (g1, Ok (st, er)) -> kf_filter self' Z' U' g' = (g1', Ok (st', er')) ->
  forall k i, (k < T)%N ->
  (mx n 1 (row st' k) i 0 - mx n 1 (row st k) i 0) ^+ 2 <= mx n n (row er k) i i * difference k.+1.
Proof.
move=> E E' k i Hk.
have [l [a [b [h1 <-]]]] := difference_differ (Hk : (k.+1 <= T)%N).
have hk j : (j < T)%N -> psd (mQ s j) /\ psd (mR s j) by move=> /pk [/pd_psd ? /pd_psd ?].
have [g2 [st2 [er2 [E2 R]]]] := C85_filter_sensitivity (pd_psd p0) hk E.
have [e1 e2] : st2 = st' /\ er2 = er' by move: E2; rewrite E' => -[_ -> ->].
subst st2 er2.
have [_ /(_ l a b h1) [_ /(_ i)]] := R k Hk.
by rewrite [X in X ^+ 2 <= _](_ : _ = mx n 1 (row st' k) i 0 - mx n 1 (row st k) i 0) //; rewrite !mxE.
Qed.

Theorem C85_smooth_any_two_runs L g1 xs Ps g1' xs' Ps' : T = nrows Z -> nrows Z = L.+1 -> nrows Z' = L.+1 ->
  kf_smooth self Z U g = (g1, Ok (xs, Ps)) -> kf_smooth self' Z' U' g' = (g1', Ok (xs', Ps')) ->
  forall k i, (k <= L)%N ->
  (mx n 1 (row xs' k) i 0 - mx n 1 (row xs k) i 0) ^+ 2 <= mx n n (row Ps k) i i * difference T.
Proof.
move=> t lz lz' E E' k i Hk; have [l [a [b [h1 <-]]]] := difference_differ (leqnn T).
have hk j : (j < T)%N -> psd (mQ s j) /\ psd (mR s j) by move=> /pk [/pd_psd ? /pd_psd ?].
have [g2 [xs2 [Ps2 [E2 R]]]] := C85_smooth_sensitivity (pd_psd p0) hk t lz lz' E.
have [e1 e2] : xs2 = xs' /\ Ps2 = Ps' by move: E2; rewrite E' => -[_ -> ->].
subst xs2 Ps2.
have [_ /(_ l a b h1) [_ /(_ i)]] := R k Hk.
by rewrite [X in X ^+ 2 <= _](_ : _ = mx n 1 (row xs' k) i 0 - mx n 1 (row xs k) i 0) //; rewrite !mxE.
Qed.
End Pd.
End Two.

(** ** C86: the extended filter: linearisation errors count as disturbances *)
Section Ext.
Variables (n m : nat) (self : ekf N) (Z : arr) (U : option arr) (g g' : seq arr).
Notation T := (e_steps self Z U).
Notation u k := (Some (row (control Z U) k)).

(** The departures of the trajectory X and the readings from what the linear
    expansions say, when the filter returned the states [st]: step j is expanded at
    x = states[j-1] (xk for j = 0), the sensors at y = f(x, u_j). *)
Definition e_departure (st : arr) (k : nat) (X : nat -> 'cV[F]_n) : F :=
  length2 (mx n n (e_Pk self)) (X 0%N - mx n 1 (e_xk self)) +
  \sum_(j < k)
   (let x := e_x_before self st j in let y := value (e_f self x (u j)) in
    let A := mx n n (value (e_jA self x (u j))) in let H := mx m n (value (e_jH self y)) in
    length2 (cov n (row (e_Q self) j)) (X j.+1 - (mx n 1 y + A *m (X j - mx n 1 x))) +
    length2 (cov m (row (e_R self) j)) (mx m 1 (row Z j) - (mx m 1 (value (e_h self y)) + H *m (X j.+1 - mx n 1 y)))).

Lemma e_departureE st k X : departure (linearised n m self Z U (e_x_before self st)) k X = e_departure st k X.
Proof.
rewrite /departure /e_departure; congr (_ + _); apply: eq_bigr => j _.
cbn [linearised mA mc mH mQ mR mz]; cbv zeta; congr (_ + _); congr (length2 _ _).
  by congr (_ - _); rewrite mulmxBr addrCA addrC.
by rewrite mulmxBr !opprD opprK !addrA [in RHS]addrAC.
Qed.

Hypothesis H : e_exact_run n m self Z U.
Hypothesis p0 : pd (mx n n (e_Pk self)).
Hypothesis pk : forall k, (k < T)%N -> pd (cov n (row (e_Q self) k)) /\ pd (cov m (row (e_R self) k)).

Theorem C86_extended_error_bound st er : ekf_filter self Z U g = (g', Ok (st, er)) ->
  forall k (X : nat -> 'cV[F]_n) i, (k < T)%N ->
  (X k.+1 i 0 - mx n 1 (row st k) i 0) ^+ 2 <= mx n n (row er k) i i * e_departure st k.+1 X.
Proof.
move=> E k X i Hk; rewrite -e_departureE; set s := linearised _ _ _ _ _ _.
have lt j : (j < k.+1)%N -> (j < T)%N by move=> Hj; exact: leq_trans Hj Hk.
have [l [a [b [h1 <-]]]] := @departure_departs _ _ _ s k.+1 X p0 (fun j Hj => pk (lt j Hj)).
have [_ -> -> _ _] := e_filter_out H E Hk; rewrite -/s.
have hk j : (j < k.+1)%N -> psd (mQ s j) /\ psd (mR s j) by move=> /lt /pk [/pd_psd ? /pd_psd ?].
have hs j : (j < k.+1)%N -> innov s j \in unitmx by move=> /lt Hj; case: (e_filter_out H E Hj).
have := @energy_bound _ _ _ s k.+1 (pd_psd p0) hk hs X l a b (delta_mx i 0) h1.
by rewrite quad_delta dot_delta [X in X ^+ 2 <= _](_ : _ = X k.+1 i 0 - post_x s k.+1 i 0) // !mxE.
Qed.

Theorem C86_extended_smooth_error_bound L xs Ps : T = nrows Z -> nrows Z = L.+1 ->
  ekf_smooth self Z U g = (g', Ok (xs, Ps)) ->
  exists st er, ekf_filter self Z U g = (g', Ok (st, er)) /\
  forall k (X : nat -> 'cV[F]_n) i, (k <= L)%N ->
  (X k.+1 i 0 - mx n 1 (row xs k) i 0) ^+ 2 <= mx n n (row Ps k) i i * e_departure st T X.
Proof.
move=> t lz Es; have [st [er [Ef _]]] := C47_smooth_computes_the_textbook_step H t lz Es.
exists st, er; split=> // k X i Hk; rewrite -e_departureE; set s := linearised _ _ _ _ _ _.
have HTL : T = L.+1 by rewrite t.
case: (e_smooth_rp H Ef t lz) => [[xs1 [Ps1 [E1 Hp Hr]]]|[E1 _]]; last by rewrite E1 in Es.
have [e1 e2] : (xs, Ps) = (xs1, Ps1) by move: Es; rewrite E1 => -[-> ->].
subst xs1 Ps1; have [/rpf_mx -> /rpf_mx ->] := Hr k Hk; rewrite -/s in Hp *.
have [l [a [b [h1 <-]]]] := @departure_departs _ _ _ s T X p0 pk.
have hk j : (j < T)%N -> psd (mQ s j) /\ psd (mR s j) by move=> /pk [/pd_psd ? /pd_psd ?].
have hs j : (j < T)%N -> innov s j \in unitmx by move=> Hj; case: (e_filter_out H Ef Hj).
have := @energy_bound_smooth _ _ _ s T (pd_psd p0) hk hs L X l a b (delta_mx i 0) k HTL Hp Hk h1.
by rewrite quad_delta dot_delta [X in X ^+ 2 <= _](_ : _ = X k.+1 i 0 - smooth_x s L k i 0) // !mxE.
Qed.
End Ext.

(** ** Cases *)
(** Two runs of the demonstration system: the second has other readings, other
    controls and another initial state. *)
Definition demo2 (c : F) (x : 'cV[F]_2) (v : nat -> 'cV[F]_2) (z : nat -> 'cV[F]_1) : model F 2 1 :=
  Model (fun _ => demo_A F) v (fun _ => demo_H F) (fun _ => c%:M) (fun _ => c%:M) z x c%:M.

Example C85_case (c : F) x v z g : 0 < c ->
  let self := demo_kf oracle n2i c in let Z := demo_Z oracle n2i c in let U := demo_U oracle n2i c in
  let s2 := demo2 c x v z in
  let self' := build oracle n2i s2 3 in let Z' := build_Z oracle n2i s2 3 in let U' := build_U oracle n2i s2 3 in
  let s := model_of 2 1 2 self Z U in
  [/\ exact_run 2 1 2 self Z U, exact_run 2 1 2 self' Z' U', steps self' Z' U' = steps self Z U,
      same_matrices 2 1 2 2 self self' Z Z' U U' &
  [/\ pd (mP0 s), (forall k, (k < steps self Z U)%N -> pd (mQ s k) /\ pd (mR s k)),
      steps self Z U = nrows Z /\ nrows Z = 3%N /\ nrows Z' = 3%N,
      (exists g' st er, kf_filter self Z U g = (g', Ok (st, er))) &
      (exists g' xs Ps, kf_smooth self Z U g = (g', Ok (xs, Ps)))]].
Proof.
move=> Hc self Z U s2 self' Z' U' s; have [p0 pk] := demo_pd oracle n2i Hc.
have Hs : steps self Z U = 3%N by exact: (demo_steps oracle n2i c).
split; [exact: demo_run|exact: build_run|by rewrite Hs; exact: build_steps| |].
  split; first by rewrite [LHS](build_model0 oracle n2i s2 3).2 [RHS](build_model0 oracle n2i (demo c) 3).2.
  move=> k; rewrite Hs => Hk.
  have [a1 _ a2 a3 [a4 _]] := build_model oracle n2i (demo c) Hk.
  have [b1 _ b2 b3 [b4 _]] := build_model oracle n2i s2 Hk.
  by split; [exact: etrans b1 (esym a1)|exact: etrans b2 (esym a2)|exact: etrans b3 (esym a3)|exact: etrans b4 (esym a4)].
split; [exact: p0|by move=> k; rewrite Hs; exact: pk|by rewrite Hs|exact: demo_ok|exact: demo_smooth_ok].
Qed.

Example C86_case (c : F) (z : nat -> 'cV[F]_1) : 0 < c ->
  let self := ex_self oracle n2i c in let Z := ex_Z oracle n2i z in let U := ex_U oracle n2i in
  [/\ e_exact_run 2 1 self Z U, pd (mx 2 2 (e_Pk self)),
      (forall k, (k < e_steps self Z U)%N -> pd (cov 2 (row (e_Q self) k)) /\ pd (cov 1 (row (e_R self) k))) &
  [/\ e_steps self Z U = nrows Z /\ nrows Z = 3%N,
      (exists g' st er, ekf_filter self Z U [::] = (g', Ok (st, er))) &
      (exists g' xs Ps, ekf_smooth self Z U [::] = (g', Ok (xs, Ps)))]].
Proof.
move=> Hc self Z U; have [r [Hs Hz] [p0 pk] f sm] := C47_C50_case oracle n2i z Hc.
split; [exact: r| |by move=> k; rewrite Hs; exact: pk|by split; [rewrite Hs Hz|exact: f|exact: sm]].
have [_ _ ->] := ex_noise oracle n2i c (isT : (0 < 3)%N).
by rewrite -scalemx1; apply: pd_scale => //; exact: pd_1.
Qed.
End Props.
