(** * Props20: C80: error bounds that hold for any disturbances *)
From Coq Require Import ZArith.
From mathcomp Require Import all_ssreflect all_algebra.
From Verif Require Import Np NpLemmas Kf ApiSpec Loop FilterLemmas FilterThms UtilThms Exact Repr Textbook RunSpec Refine Refine2 Build
  Outputs EndToEnd RingTac Loewner KalmanAlg TextbookThms ExCases Prob RobustSpec BestLin Factor Robust Robust2 Energy.

Set Implicit Arguments.
Unset Strict Implicit.
Unset Printing Implicit Defensive.
Import GRing.Theory Num.Theory Order.Theory.
Local Open Scope ring_scope.

Section Props.
Variable F : realFieldType.
Variable oracle : oracle_type F.
Variable n2i : Z.
Notation N := (exact oracle n2i).
Notation arr := (arr N).

Lemma departure_departs n m (s : model F n m) T X :
  pd (mP0 s) -> (forall j, (j < T)%N -> pd (mQ s j) /\ pd (mR s j)) ->
  exists l a b, departs s T X l a b /\ energy s T l a b = departure s T X.
Proof.
move=> h0 h.
exists (invmx (mP0 s) *m (X 0%N - mx0 s)), (fun j => invmx (mQ s j) *m (X j.+1 - (mA s j *m X j + mc s j))),
  (fun j => invmx (mR s j) *m (mz s j - mH s j *m X j.+1)).
have q d (M : 'M[F]_d) x : pd M -> M *m (invmx M *m x) = x /\ quad M (invmx M *m x) = length2 M x.
  move=> hM; have u := pd_unit hM; split; first by rewrite mulmxA mulmxV // mul1mx.
  by rewrite /quad /length2 trmx_mul (sym_inv hM.1) -!mulmxA; congr ((_ *m _) 0 0); rewrite mulKVmx.
split.
  split=> [|k Hk]; first by rewrite (q _ _ _ h0).1 addrC subrK.
  have [h1 h2] := h k Hk; rewrite (q _ _ _ h1).1 (q _ _ _ h2).1.
  by split; rewrite [RHS]addrC subrK.
rewrite /energy /departure (q _ _ _ h0).2; congr (_ + _); apply: eq_bigr => j _.
by have [h1 h2] := h j (ltn_ord j); rewrite (q _ _ _ h1).2 (q _ _ _ h2).2.
Qed.

Section Run.
Variables (n m p : nat) (self : kf N) (Z : arr) (U : option arr) (g : seq arr).
Let s := model_of n m p self Z U.
Notation T := (steps self Z U).
Hypothesis H : exact_run n m p self Z U.
Hypothesis h0 : psd (mP0 s).
Hypothesis hk : forall k, (k < T)%N -> psd (mQ s k) /\ psd (mR s k).

Lemma dot_delta (i : 'I_n) (x : 'cV[F]_n) : dot (delta_mx i 0) x = x i 0.
Proof. by rewrite /dot trmx_delta -rowE mxE. Qed.

(** ** C80: whatever the disturbances are *)
Theorem C80_filter_error_bound g' st er : kf_filter self Z U g = (g', Ok (st, er)) ->
  forall k X l a b, (k < T)%N -> departs s k.+1 X l a b ->
  let err := X k.+1 - mx n 1 (row st k) in
  (forall c : 'cV[F]_n, ((c^T *m err) 0 0) ^+ 2 <= (c^T *m mx n n (row er k) *m c) 0 0 * energy s k.+1 l a b) /\
  (forall i, err i 0 ^+ 2 <= mx n n (row er k) i i * energy s k.+1 l a b).
Proof.
move=> E k X l a b Hk HX err.
have K c : dot c err ^+ 2 <= quad (mx n n (row er k)) c * energy s k.+1 l a b.
  rewrite /err; have [_ -> -> _ _] := filter_out H E Hk.
  have lt j : (j < k.+1)%N -> (j < T)%N by move=> Hj; exact: leq_trans Hj Hk.
  apply: energy_bound => // j /lt Hj; [exact: hk|exact: (filter_units H E)].
by split=> [c|i]; [exact: K|rewrite -dot_delta -quad_delta; exact: K].
Qed.

Theorem C80_smooth_error_bound L g' xs Ps : T = nrows Z -> nrows Z = L.+1 ->
  kf_smooth self Z U g = (g', Ok (xs, Ps)) ->
  forall k X l a b, (k <= L)%N -> departs s T X l a b ->
  let err := X k.+1 - mx n 1 (row xs k) in
  (forall c : 'cV[F]_n, ((c^T *m err) 0 0) ^+ 2 <= (c^T *m mx n n (row Ps k) *m c) 0 0 * energy s T l a b) /\
  (forall i, err i 0 ^+ 2 <= mx n n (row Ps k) i i * energy s T l a b).
Proof.
move=> t lz E k X l a b Hk HX err; have [u q r] := smooth_out H t lz E.
have K c : dot c err ^+ 2 <= quad (mx n n (row Ps k)) c * energy s T l a b.
  rewrite /err; have [-> -> _ _] := r k Hk; apply: energy_bound_smooth => //; last by rewrite t.
  by rewrite t lz; exact: u.
by split=> [c|i]; [exact: K|rewrite -dot_delta -quad_delta; exact: K].
Qed.

(** With invertible covariances: any trajectory at all. *)
Section Any.
Hypothesis p0 : pd (mP0 s).
Hypothesis pk : forall k, (k < T)%N -> pd (mQ s k) /\ pd (mR s k).

Theorem C80_filter_any_trajectory g' st er : kf_filter self Z U g = (g', Ok (st, er)) ->
  forall k (X : nat -> 'cV[F]_n) i, (k < T)%N ->
  (X k.+1 i 0 - mx n 1 (row st k) i 0) ^+ 2 <= mx n n (row er k) i i * departure s k.+1 X.
Proof.
move=> E k X i Hk; have lt j : (j < k.+1)%N -> (j < T)%N by move=> Hj; exact: leq_trans Hj Hk.
have [l [a [b [h1 <-]]]] := @departure_departs _ _ s k.+1 X p0 (fun j Hj => pk (lt j Hj)).
have [_ /(_ i)] := C80_filter_error_bound E Hk h1.
by rewrite [X in X ^+ 2 <= _](_ : _ = X k.+1 i 0 - mx n 1 (row st k) i 0) //; rewrite !mxE.
Qed.

Theorem C80_smooth_any_trajectory L g' xs Ps : T = nrows Z -> nrows Z = L.+1 ->
  kf_smooth self Z U g = (g', Ok (xs, Ps)) ->
  forall k (X : nat -> 'cV[F]_n) i, (k <= L)%N ->
  (X k.+1 i 0 - mx n 1 (row xs k) i 0) ^+ 2 <= mx n n (row Ps k) i i * departure s T X.
Proof.
move=> t lz E k X i Hk.
have [l [a [b [h1 <-]]]] := @departure_departs _ _ s T X p0 pk.
have [_ /(_ i)] := C80_smooth_error_bound t lz E Hk h1.
by rewrite [X in X ^+ 2 <= _](_ : _ = X k.+1 i 0 - mx n 1 (row xs k) i 0) //; rewrite !mxE.
Qed.
End Any.

(** ** The bound is attained: with other observations of the same system *)
Definition other_data (z : nat -> 'cV[F]_m) : arr := vecs_arr oracle n2i T z.

Lemma other_run z : (U = None -> dt Z = DFloat) ->
  let s' := model_of n m p self (other_data z) U in
  [/\ exact_run n m p self (other_data z) U, steps self (other_data z) U = T, nrows (other_data z) = T,
      mx0 s' = mx0 s /\ mP0 s' = mP0 s &
      forall k, (k < T)%N -> [/\ mA s' k = mA s k, mc s' k = mc s k, mH s' k = mH s k, mQ s' k = mQ s k &
        mR s' k = mR s k /\ mz s' k = z k]].
Proof.
move=> HU s'; case: (H) => hc [hit hn hx hP hl] cx cP [hr hu hA hB].
have nz : nrows (other_data z) = T by [].
have tz : steps self (other_data z) U = T.
  have [[l1 l2 l3 l4] [l5 l6 l7]] := steps_le self Z U.
  have lu : (T <= nrows (control (other_data z) U))%N by rewrite control_nrows nz; case: (U) l5 => [u|] //; rewrite control_nrows.
  have [[+ _ _ _] _] := steps_le self (other_data z) U; cbv zeta; rewrite nz => le.
  apply/eqP; rewrite eqn_leq le /= {2}/steps /= nz; move: l2 l3 l4 l6 l7 lu.
  move: (nrows (control (other_data z) U)) (steps self Z U) => a t h2 h3 h4 h6 h7 ha.
  by rewrite !leq_min h2 h3 h4 h6 h7 ha leqnn.
have rz k : (k < T)%N -> row (other_data z) k = vec_arr oracle n2i (z k) by move=> Hk; rewrite vecs_row.
have isn k : U = None -> (k < T)%N -> np_isnan_all (row (control (other_data z) U) k) /\ np_isnan_all (row (control Z U) k).
  move=> EU Hk; have [[l1 _ _ _] _] := steps_le self Z U; rewrite EU.
  by split; apply: control_none_nan => //; [exact: HU|exact: leq_trans Hk l1].
have ctl k : U <> None -> row (control (other_data z) U) k = row (control Z U) k by case: (U).
have UN : {U = None} + {U <> None} by case: (U); [right|left].
split=> //.
  split=> //.
    split=> //.
      move: hit; rewrite /iterable /= => /and5P [_ -> -> -> /and4P [hu' -> -> _]].
      by have -> : sized (control (other_data z) U) by case: (U) hu'.
    move=> k; rewrite tz => Hk; have [k1 k2 k3 [k4 k5 k6]] := hl k Hk; split=> //.
      case: UN => [EU|EU]; last by rewrite ctl.
      by rewrite /ctl_layout (isn k EU Hk).1 orbT.
    split=> //; rewrite rz // /obs_layout eqxx /= andbT; exact: wf_mkF.
  split=> //.
  - by move=> k; rewrite tz => Hk; have [k1 k2 k3 k4 k5] := hr k Hk; split=> //; rewrite rz //; exact: clean_mkF.
  - move=> k; rewrite tz => Hk; case: UN => [EU|EU]; last by rewrite ctl //; exact: hu.
    by rewrite (isn k EU Hk).1 orbT.
  by case: hB => hB; [left|right]; case: (U) hB.
move=> k Hk; split=> //.
  rewrite /s' /s; cbn [mc model_of]; case: UN => [EU|EU]; last by rewrite ctl.
  by have [-> ->] := isn k EU Hk; rewrite !orbT.
by split=> //; rewrite /s'; cbn [mz model_of]; rewrite rz // vec_arr_mx.
Qed.

Lemma other_same z t : (U = None -> dt Z = DFloat) -> (t <= T)%N ->
  same_model (model_of n m p self (other_data z) U) (data_of s z) t.
Proof.
move=> HU Ht; have [_ _ _ [e1 e2] e3] := other_run z HU.
by split=> // k Hk; have [? ? ? ? [? ?]] := e3 k (leq_trans Hk Ht); split.
Qed.

Lemma same_departs (s1 s2 : model F n m) t X l a b : same_model s1 s2 t -> departs s2 t X l a b ->
  departs s1 t X l a b.
Proof.
move=> [e1 e2 e3] [H0 Hd]; split=> [|k Hk]; first by rewrite e1 e2.
by have [-> -> -> -> [-> ->]] := e3 k Hk; exact: Hd.
Qed.
Lemma same_energy (s1 s2 : model F n m) t l a b : same_model s1 s2 t -> energy s1 t l a b = energy s2 t l a b.
Proof.
move=> [e1 e2 e3]; rewrite /energy e2; congr (_ + _); apply: eq_bigr => j _.
by have [_ _ _ -> [-> _]] := e3 j (ltn_ord j).
Qed.

Theorem C80_filter_bound_attained g' st er : (U = None -> dt Z = DFloat) ->
  kf_filter self Z U g = (g', Ok (st, er)) ->
  forall k (c : 'cV[F]_n), (k < T)%N -> exists z X l a b g1 st1 er1,
  let Z' := other_data z in
  [/\ exact_run n m p self Z' U, kf_filter self Z' U g = (g1, Ok (st1, er1)),
      departs (model_of n m p self Z' U) k.+1 X l a b,
      mx n n (row er1 k) = mx n n (row er k) &
      X k.+1 - mx n 1 (row st1 k) = mx n n (row er k) *m c /\
      energy (model_of n m p self Z' U) k.+1 l a b = (c^T *m mx n n (row er k) *m c) 0 0].
Proof.
move=> HU E k c Hk; have lt j : (j < k.+1)%N -> (j < T)%N by move=> Hj; exact: leq_trans Hj Hk.
have u := filter_units H E.
have [l [a [b [d1 d2]]]] := @energy_sharp _ _ _ s k.+1 h0 (fun j Hj => hk (lt j Hj)) (fun j Hj => u j (lt j Hj)) c.
pose z := shown s l a b; have [r1 t1 _ _ _] := other_run z HU.
have Hs := other_same z HU (leqnn T); have Hs1 := other_same z HU (Hk : k.+1 <= T)%N.
have [|g1 [st1 [er1 E1]]] := @filter_returns _ _ _ _ _ _ _ _ _ g r1.
  by rewrite t1 => j Hj; have [_ _ -> _] := same_pred Hs Hj; rewrite innovE; move: (u j Hj); rewrite innovE !pred_PE data_post_P.
exists z, (driven s l a), l, a, b, g1, st1, er1; cbv zeta.
have Hk1 := Hk; rewrite -t1 in Hk1; have [_ o1 o2 _ _] := filter_out r1 E1 Hk1.
have [_ _ o3 _ _] := filter_out H E Hk; have [p1 p2] := same_post Hs1 (leqnn k.+1).
split; [exact: r1|exact: E1| | |].
- exact: (same_departs Hs1 (driven_departs _ _ _ _ _)).
- by rewrite o2 o3 p2 data_post_P.
rewrite o1 p1 o3 (same_energy _ _ _ Hs1); split; [exact: d1|exact: d2].
Qed.

Theorem C80_smooth_bound_attained L g' xs Ps : (U = None -> dt Z = DFloat) -> T = nrows Z -> nrows Z = L.+1 ->
  kf_smooth self Z U g = (g', Ok (xs, Ps)) ->
  forall k (c : 'cV[F]_n), (k <= L)%N -> exists z X l a b g1 xs1 Ps1,
  let Z' := other_data z in
  [/\ exact_run n m p self Z' U, kf_smooth self Z' U g = (g1, Ok (xs1, Ps1)),
      departs (model_of n m p self Z' U) T X l a b,
      mx n n (row Ps1 k) = mx n n (row Ps k) &
      X k.+1 - mx n 1 (row xs1 k) = mx n n (row Ps k) *m c /\
      energy (model_of n m p self Z' U) T l a b = (c^T *m mx n n (row Ps k) *m c) 0 0].
Proof.
move=> HU t lz E k c Hk; have [u q r] := smooth_out H t lz E.
have HT : T = L.+1 by rewrite t.
have u' j : (j < T)%N -> innov s j \in unitmx by rewrite HT; exact: u.
have [l [a [b [d1 d2]]]] := @energy_sharp_smooth _ _ _ s T h0 hk u' L k c HT q Hk.
pose z := shown s l a b; have [r1 t1 n1 _ _] := other_run z HU.
have Hs := other_same z HU (leqnn T); have Hs1 := Hs; rewrite HT in Hs1.
have [|||j Hj|g1 [xs1 [Ps1 E1]]] := @smooth_returns _ _ _ _ _ _ _ _ _ g r1 L.
- by rewrite t1.
- by rewrite n1.
- move=> j Hj; have Hj' : (j < T)%N by rewrite HT.
  by have [_ _ -> _] := same_pred Hs Hj'; rewrite innovE; move: (u' j Hj'); rewrite innovE !pred_PE data_post_P.
- have Hj' : (j.+1 < T)%N by rewrite HT.
  by have [_ -> _ _] := same_pred Hs Hj'; move: (q j Hj); rewrite !pred_PE data_post_P.
exists z, (driven s l a), l, a, b, g1, xs1, Ps1; cbv zeta.
have t2 : steps self (other_data z) U = nrows (other_data z) by rewrite t1.
have n2 : nrows (other_data z) = L.+1 by rewrite n1.
have [_ _ r2] := smooth_out r1 t2 n2 E1; have [o1 o2 _ _] := r2 k Hk; have [_ o3 _ _] := r k Hk.
have [p1 p2] := same_smooth Hs1 Hk.
have p3 : smooth_P (data_of s z) L k = smooth_P s L k by apply: (@ext_smooth _ _ _ s (data_of s z) T) => //; rewrite HT.
split; [exact: r1|exact: E1| | |].
- exact: (same_departs Hs (driven_departs _ _ _ _ _)).
- by rewrite o2 o3 p2 p3.
rewrite o1 p1 o3 (same_energy _ _ _ Hs); split; [exact: d1|exact: d2].
Qed.
End Run.

(** The hypotheses are met by the system of ExCases.v. *)
Example C80_case (c : F) g : 0 < c ->
  let self := demo_kf oracle n2i c in let Z := demo_Z oracle n2i c in let U := demo_U oracle n2i c in
  let s := model_of 2 1 2 self Z U in
  [/\ exact_run 2 1 2 self Z U, pd (mP0 s), (forall k, (k < steps self Z U)%N -> pd (mQ s k) /\ pd (mR s k)),
      (exists g' st er, kf_filter self Z U g = (g', Ok (st, er))) &
      [/\ exists g' xs Ps, kf_smooth self Z U g = (g', Ok (xs, Ps)), steps self Z U = nrows Z &
       forall X : nat -> 'cV[F]_2, exists l a b, departs s 3 X l a b]].
Proof.
move=> Hc self Z U s; have [p0 pk] := demo_pd oracle n2i Hc.
split; [exact: demo_run|exact: p0|by move=> k Hk; apply: pk; rewrite -(demo_steps oracle n2i c)|exact: demo_ok|].
split; [exact: demo_smooth_ok|exact: (demo_steps oracle n2i c)|].
by move=> X; have [l [a [b [h _]]]] := departure_departs X p0 pk; exists l, a, b.
Qed.
End Props.
