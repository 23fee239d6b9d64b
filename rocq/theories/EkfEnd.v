(** * EkfEnd: the extended filter, from the constructor's arguments to the
    returned arrays *)
From Coq Require Import ZArith.
From mathcomp Require Import all_ssreflect all_algebra.
From Verif Require Import Np NpLemmas Kf Ekf ApiSpec Loop Frame FilterLemmas FilterThms SmoothLemmas NpShapes WellShaped
  WellShaped2 Exact Repr Textbook RunSpec Refine Refine2 Build Loewner KalmanAlg TextbookThms Outputs
  EkfRun EkfRun2 EkfBuild EndSpec UtilThms Props2 EndToEnd.

Set Implicit Arguments.
Unset Strict Implicit.
Unset Printing Implicit Defensive.
Import GRing.Theory Num.Theory.
Local Open Scope ring_scope.

Section EkfEnd.
Variable F : realFieldType.
Variable oracle : oracle_type F.
Variable n2i : Z.
Notation N := (exact oracle n2i).
Notation arr := (arr N).
Notation vec := (vec_arr oracle n2i).
Notation mat := (mx_arr oracle n2i).
Notation vecs := (vecs_arr oracle n2i).
Notation mats := (mxs_arr oracle n2i).

(** The linear model of a non-linear one, expanded along its own estimates. *)
Definition nl_lin n m q (s : nl_model F n m q) : model F n m :=
  Model (fun k => njf s (nl_x s k) (nu s k))
        (fun k => nl_xa s k - njf s (nl_x s k) (nu s k) *m nl_x s k)
        (fun k => njh s (nl_xa s k)) (nQ s) (nR s)
        (fun k => nz s k - nh s (nl_xa s k) + njh s (nl_xa s k) *m nl_xa s k)
        (nx0 s) (nP0 s).

Section Lin.
Variables (n m q : nat) (s : nl_model F n m q).
Lemma nl_postS k : nl_x s k.+1 = nl_corr_x s k (nl_xa s k) (nl_Pa s k) /\
                   nl_P s k.+1 = nl_corr_P s k (nl_xa s k) (nl_Pa s k).
Proof. by rewrite /nl_xa /nl_Pa /nl_x /nl_P; cbn [nl_post]; case: (nl_post s k). Qed.

Lemma nl_lin_post k : post_x (nl_lin s) k = nl_x s k /\ post_P (nl_lin s) k = nl_P s k.
Proof.
elim: k => [|k [Ex EP]] //; have [-> ->] := nl_postS k; cbn [post_x post_P]; rewrite Ex EP.
have Epx : prior_x (nl_lin s) k (nl_x s k) = nl_xa s k by rewrite /prior_x /nl_lin /= addrC subrK.
have EpP : prior_P (nl_lin s) k (nl_P s k) = nl_Pa s k by [].
by rewrite Epx EpP /corr_x /nl_lin /= addrK.
Qed.

Lemma nl_lin_pred k : [/\ pred_x (nl_lin s) k = nl_xa s k, pred_P (nl_lin s) k = nl_Pa s k,
  innov (nl_lin s) k = nl_S s k & gain_at (nl_lin s) k = nl_K s k].
Proof.
have [Ex EP] := nl_lin_post k.
have EpP : pred_P (nl_lin s) k = nl_Pa s k by rewrite /pred_P EP.
split=> //; first by rewrite /pred_x Ex /prior_x /nl_lin /= addrC subrK.
  by rewrite /innov EpP.
by rewrite /gain_at EpP.
Qed.

Lemma nl_lin_smooth L k : (k <= L)%N ->
  smooth_x (nl_lin s) L k = nl_back_x s L (L - k) /\ smooth_P (nl_lin s) L k = nl_back_P s L (L - k).
Proof.
move=> _; rewrite /smooth_x /smooth_P; elim: (L - k)%N => [|i [E1 E2]]; first exact: nl_lin_post.
have [p1 p2] := nl_lin_post (L - i.+1).+1; have [q1 q2 _ _] := nl_lin_pred (L - i.+1).+1.
have EG : sgain (nl_lin s) (L - i.+1) = nl_G s (L - i.+1) by rewrite /sgain p2 q2.
by cbn [back_x back_P nl_back_x nl_back_P]; cbv zeta; rewrite E1 E2 EG p1 p2 q1 q2.
Qed.

Lemma nl_filter_lin T len (g : seq arr) : kalman_filter_answer (nl_lin s) T len g = nl_filter_answer s T len g.
Proof.
apply: filter_answer_ext => k _; have [p1 p2] := nl_lin_post k.+1; by have [_ _ q3 q4] := nl_lin_pred k.
Qed.
Lemma nl_smooth_lin L (g : seq arr) : kalman_smooth_answer (nl_lin s) L g = nl_smooth_answer s L g.
Proof.
apply: smooth_answer_ext => k Hk; have [_ q2 q3 q4] := nl_lin_pred k => //.
by have [p1 p2] := nl_lin_smooth Hk.
Qed.
End Lin.

(** ** Any exact run: the answer of the linearisation along its own states *)
Section Run.
Variables (n m : nat) (self : ekf N) (Z : arr) (U : option arr) (g : seq arr).
Hypothesis Hrun : e_exact_run n m self Z U.
Let s := linearised n m self Z U (own_x self Z U g).
Notation T := (e_steps self Z U).

Lemma run_e_filter_answer : ekf_filter self Z U g = kalman_filter_answer s T (nrows Z) g.
Proof.
have Hn : e_size self = n by case: Hrun.
rewrite /kalman_filter_answer /filter_answer.
case: (e_filter_rp Hrun (@own_ok _ _ _ self Z U g)) =>
  [[g' [st [er [E Hu Hr [Hs Ht] Hg]]]]|[j [g' [Hj Hnu Hp E [Hs [Ht Hg]]]]]]; rewrite E.
  rewrite (until_all Hu) ltnn; congr (_, Ok (_, _)).
  - exact: gains_are.
  - have [_ _ _ Hz] := e_filter_ok E; have [Hsh _] := e_filter_shapes E; rewrite Hn in Hz Hsh.
    apply: is_vecs => // k Hk; case: ltnP => HkT; first by apply: rpf_is_vec; case: (Hr k HkT).
    by have [-> _] := Hz k (introT andP (conj HkT Hk)); exact: zeros_vec.
  - have [_ _ _ Hz] := e_filter_ok E; have [_ Hsh] := e_filter_shapes E; rewrite Hn in Hz Hsh.
    apply: is_mats => // k Hk; case: ltnP => HkT; first by apply: rpf_is_mat; case: (Hr k HkT).
    by have [_ ->] := Hz k (introT andP (conj HkT Hk)); exact: zeros_mat.
rewrite (until_first Hj Hnu Hp) Hj; congr (_, _); exact: gains_are.
Qed.

Lemma e_smooth_fst : (ekf_smooth self Z U g).1 = (ekf_filter self Z U g).1.
Proof.
rewrite /ekf_smooth /mbind /mlift; case: (ekf_filter self Z U g) => g1 [[st er]|e] //.
by case: (np_len Z) => // L; case: (smooth_init _ _ _).
Qed.

(** On a run that returns, the states stored are those computed. *)
Lemma own_stored g' st er k : ekf_filter self Z U g = (g', Ok (st, er)) -> (k <= T)%N ->
  own_x self Z U g k = e_x_before self st k.
Proof.
move=> E Hk; case: (e_iter_rp Hrun (@own_ok _ _ _ self Z U g) Hk) => [[g1 [x [P [E1 _ _ _ _]]]]|[j [g1 [Hj Hnu _ _ _]]]].
  by rewrite (own_xP E1) (st_xP Hrun E Hk E1).
case: (e_filter_rp Hrun (@own_ok _ _ _ self Z U g)) => [[g2 [st2 [er2 [E2 Hu _ _ _]]]]|[i [g2 [_ _ _ E2 _]]]].
  by rewrite (Hu j) ?(leq_trans Hj Hk) in Hnu.
by rewrite E2 in E.
Qed.

Lemma own_same g' st er : ekf_filter self Z U g = (g', Ok (st, er)) ->
  same_model (linearised n m self Z U (e_x_before self st)) s T.
Proof.
move=> E; split=> // k Hk; rewrite /s /linearised; cbn [mA mc mH mQ mR mz].
by rewrite (own_stored E (ltnW Hk)).
Qed.

Lemma run_e_smooth_answer L : T = nrows Z -> nrows Z = L.+1 ->
  ekf_smooth self Z U g = kalman_smooth_answer s L g.
Proof.
move=> HT HL; have HTL : T = L.+1 by rewrite HT.
have Hn : e_size self = n by case: Hrun.
rewrite /kalman_smooth_answer /smooth_answer [LHS]surjective_pairing e_smooth_fst run_e_filter_answer HTL; congr (_, _).
case E: (ekf_filter self Z U g) => [g' [[st er]|e]]; last first.
  have Es : ekf_smooth self Z U g = (g', Raise e) by rewrite /ekf_smooth /mbind E.
  move: E; rewrite run_e_filter_answer /kalman_filter_answer /filter_answer HTL Es; cbn [snd].
  by case: ifP => //= _ [_ <-].
have Hsm := own_same E; rewrite HTL in Hsm.
have Hu k : (k < L.+1)%N -> innov s k \in unitmx.
  move=> Hk; have [_ _ <- _] := same_pred Hsm Hk; rewrite -HTL in Hk.
  by have [] := e_filter_out Hrun E Hk.
rewrite (until_all Hu) ltnn orFb.
case: (e_smooth_rp Hrun E HT HL) => [[xs [Ps [E1 Hp Hr]]]|[E1 [k Hk Hnu]]]; rewrite E1; cbn [snd].
  rewrite (_ : seq.has _ _ = false) /=; last first.
    apply/negbTE/hasPn => -[|k]; rewrite mem_iota add1n ltnS //= => Hk; rewrite negbK.
    have [_ <- _ _] := same_pred Hsm (Hk : k.+1 < L.+1)%N; exact: Hp.
  have [S1 S2] := e_smooth_shapes E1; rewrite Hn HL in S1 S2.
  congr (Ok (_, _)).
    apply: is_vecs => // k; rewrite ltnS => Hk; have [<- _] := same_smooth Hsm Hk.
    by apply: rpf_is_vec; case: (Hr k Hk).
  apply: is_mats => // k; rewrite ltnS => Hk; have [_ <-] := same_smooth Hsm Hk.
  by apply: rpf_is_mat; case: (Hr k Hk).
rewrite (_ : seq.has _ _) //; apply/seq.hasP; exists k.+1.
  by rewrite mem_iota add1n !ltnS.
by have [_ <- _ _] := same_pred Hsm (Hk : k.+1 < L.+1)%N.
Qed.
End Run.

(** ** Agreement up to the first singular step is enough *)
Section Upto.
Variables (n m : nat) (s s' : model F n m) (T : nat).
Hypothesis Hag : forall k, (k <= T)%N -> (forall i, (i < k)%N -> innov s i \in unitmx) -> same_model s s' k.
Hypothesis Hag' : forall k, (k < T)%N -> (forall i, (i < k)%N -> innov s i \in unitmx) -> same_model s s' k.+1.

Lemma before_until k : (k < until_singular (innov s) T)%N -> innov s k \in unitmx.
Proof.
move=> Hk; have Hk' := leq_trans Hk (until_le _ _).
have := @before_find _ 0%N (fun k => innov s k \notin unitmx) (iota 0 T) k Hk.
by rewrite nth_iota // add0n => /negbFE.
Qed.

Lemma upto_cases : same_model s s' T \/
  [/\ (until_singular (innov s) T < T)%N, until_singular (innov s') T = until_singular (innov s) T &
      forall k, (k < until_singular (innov s) T)%N -> gain_at s k = gain_at s' k].
Proof.
have := until_le (innov s) T; rewrite leq_eqVlt => /orP [/eqP Ej|Hj].
  by left; apply: Hag => // i; rewrite -{1}Ej; exact: before_until.
right; split=> //.
  have Hs := Hag' Hj before_until.
  apply: until_first => //.
    have [_ _ <- _] := same_pred Hs (ltnSn _).
    have := @nth_find _ 0%N (fun k => innov s k \notin unitmx) (iota 0 T).
    by rewrite has_find size_iota => /(_ Hj); rewrite nth_iota // add0n.
  by move=> i Hi; have [_ _ <- _] := same_pred Hs (leqW Hi); exact: before_until.
move=> k Hk; have Hs := Hag' Hj before_until.
by have [_ _ _ ->] := same_pred Hs (leqW Hk).
Qed.

Lemma upto_filter_answer len (g : seq arr) : kalman_filter_answer s T len g = kalman_filter_answer s' T len g.
Proof.
case: upto_cases => [Hs|[Hj Ej Hg]]; first exact: same_filter_answer.
rewrite /kalman_filter_answer /filter_answer Ej Hj; congr (_ ++ _, _).
by apply/eq_in_map => k; rewrite mem_iota add0n => /Hg ->.
Qed.

Lemma upto_smooth_answer L (g : seq arr) : T = L.+1 -> kalman_smooth_answer s L g = kalman_smooth_answer s' L g.
Proof.
move=> HL; case: upto_cases => [Hs|[Hj Ej Hg]]; first by apply: same_smooth_answer; rewrite -HL.
rewrite /kalman_smooth_answer /smooth_answer -HL Ej Hj; congr (_ ++ _, _).
by apply/eq_in_map => k; rewrite mem_iota add0n => /Hg ->.
Qed.
End Upto.

(** ** The constructor's arguments *)
Section Args.
Variables (n m q : nat).
(** The callables a user writes for functions on vectors; a control that is
    entirely NaN counts as no control. *)
Definition ctl_val (u : option arr) : 'cV[F]_q :=
  if u is Some a then if np_isnan_all a then 0 else mx q 1 a else 0.
Variables (f : 'cV[F]_n -> 'cV[F]_q -> 'cV[F]_n) (h : 'cV[F]_n -> 'cV[F]_m).
Variables (jf : 'cV[F]_n -> 'cV[F]_q -> 'M[F]_n) (jh : 'cV[F]_n -> 'M[F]_(m, n)).
Definition py_f (x : arr) (u : option arr) : res arr := Ok (vec (f (mx n 1 x) (ctl_val u))).
Definition py_h (x : arr) : res arr := Ok (vec (h (mx n 1 x))).
Definition py_jf (x : arr) (u : option arr) : res arr := Ok (mat (jf (mx n 1 x) (ctl_val u))).
Definition py_jh (x : arr) : res arr := Ok (mat (jh (mx n 1 x))).

Variables (Q : nat -> 'M[F]_n) (R : nat -> 'M[F]_m) (x0 : 'cV[F]_n) (P0 : 'M[F]_n).
Variables (z : nat -> 'cV[F]_m) (Uo : option (nat * (nat -> 'cV[F]_q))).
Variables (tQ tR tz : nat).
Let Z := vecs tz z.
Let U := U_arr oracle n2i Uo.

Definition e_end_self : ekf N :=
  Ekf py_f py_h py_jf py_jh (vec x0) (mat P0) (mats tQ Q) (mats tR R) n (np_identity N n) [::].
Definition e_end_model : nl_model F n m q :=
  NlModel f h jf jh Q R z (fun k => if Uo is Some (_, u) then u k else 0) x0 P0.
Definition e_end_steps : nat := foldr minn tz [:: len_of Uo tz; tQ; tR].

Lemma e_end_init : ekf_init (vec x0) (mat P0) (mats tQ Q) (mats tR R) py_f py_h py_jf py_jh = Ok e_end_self.
Proof. by []. Qed.

Lemma e_end_nsteps : e_steps e_end_self Z U = e_end_steps.
Proof. by rewrite /e_steps /e_end_steps /e_end_self /U /Z /control; case: Uo => [[w fu]|]. Qed.

Lemma e_end_rows k : (k < e_end_steps)%N ->
  [/\ row (e_Q e_end_self) k = mat (Q k), row (e_R e_end_self) k = mat (R k), row Z k = vec (z k) &
      ctl_val (Some (row (control Z U) k)) = nu e_end_model k].
Proof.
rewrite /e_end_steps foldr_minn_lt => /andP [kz /and4P [ku kQ kR _]].
rewrite /e_end_self /Z; cbn [e_Q e_R]; rewrite !mxs_row // vecs_row //; split=> //.
rewrite /e_end_model; cbn [nu]; rewrite /ctl_val; case E: Uo ku => [[w fu]|] ku; last first.
  by rewrite isnan_row // /U E; exact: isnan_full_like.
rewrite /U E [control _ _]/(vecs w fu) vecs_row // vec_arr_mx; case: ifP => // /nan_arr_nil.
rewrite clean_mkF vec_arr_size => /(_ isT) q0; apply/matrixP => i j; by have := ltn_ord i; rewrite {2}q0.
Qed.

Lemma e_end_run : e_exact_run n m e_end_self Z U.
Proof.
split.
- by exists (vec x0), (mat P0), (mats tQ Q), (mats tR R), py_f, py_h, py_jf, py_jh, e_end_self, [::]; split.
- by rewrite /e_iterable /e_end_self /U /Z /control; case: Uo => [[w fu]|].
- by [].
- exact: good_vec_arr.
split; [exact: good_mat_arr| | |by left|by left].
  move=> k; rewrite e_end_nsteps => /e_end_rows [-> -> -> _].
  split; [apply/andP; split; [|exact: clean_mkF]..|exact: good_vec_obs (good_vec_arr _ _ _)].
    by apply/andP; split; [exact: wf_mkF|rewrite eqxx].
  by apply/andP; split; [exact: wf_mkF|rewrite eqxx].
move=> k x Hk Hx; do 4 eexists.
by split; split; try reflexivity; [exact: good_vec_arr|exact: good_mat_arr|exact: good_vec_obs (good_vec_arr _ _ _)|exact: good_mat_arr].
Qed.

Section Answer.
Variable g : seq arr.
Let s := linearised n m e_end_self Z U (own_x e_end_self Z U g).
Let s' := nl_lin e_end_model.

Lemma e_end_step k : (k < e_end_steps)%N -> (forall i, (i < k)%N -> innov s i \in unitmx) ->
  same_model s s' k -> same_model s s' k.+1.
Proof.
move=> Hk Hu Hs; have [E0 E1 H] := Hs; split=> // i; rewrite ltnS leq_eqVlt => /orP [/eqP ->|]; last exact: H.
have [p1 p2] := same_post Hs (leqnn k); have [l1 l2] := nl_lin_post e_end_model k.
have Ex : mx n 1 (own_x e_end_self Z U g k) = nl_x e_end_model k.
  rewrite -l1 -p1.
  have HkT : (k <= e_steps e_end_self Z U)%N by rewrite e_end_nsteps ltnW.
  case: (e_iter_rp e_end_run (@own_ok _ _ _ e_end_self Z U g) HkT) =>
    [[g1 [x [P [E2 [Rx _ _] _ _ _]]]]|[j [g1 [Hj Hnu _ _ _]]]]; last by rewrite (Hu j Hj) in Hnu.
  by rewrite (own_xP E2); case: Rx.
have [eQ eR ez eu] := e_end_rows Hk.
rewrite /s /s' /linearised /nl_lin; cbn [mA mc mH mQ mR mz].
rewrite eQ eR ez !cov_arr !vec_arr_mx.
rewrite /e_end_self; cbn [e_jA e_f e_h e_jH]; rewrite /py_f /py_h /py_jf /py_jh eu; cbn [value].
by rewrite !mx_arr_mx !vec_arr_mx Ex.
Qed.

Lemma e_end_same k : (k <= e_end_steps)%N -> (forall i, (i < k)%N -> innov s i \in unitmx) -> same_model s s' k.
Proof.
elim: k => [|k IH] Hk Hu; first by split=> //; rewrite /s /s' /=; [exact: vec_arr_mx|exact: mx_arr_mx].
have Hu' i : (i < k)%N -> innov s i \in unitmx by move=> Hi; apply: Hu; exact: leqW.
apply: e_end_step => //; apply: IH => //; exact: ltnW.
Qed.

Lemma e_end_same' k : (k < e_end_steps)%N -> (forall i, (i < k)%N -> innov s i \in unitmx) -> same_model s s' k.+1.
Proof. by move=> Hk Hu; apply: e_end_step => //; apply: e_end_same => //; exact: ltnW. Qed.

Lemma e_end_filter : ekf_filter e_end_self Z U g = nl_filter_answer e_end_model e_end_steps tz g.
Proof.
rewrite (run_e_filter_answer g e_end_run) e_end_nsteps -nl_filter_lin.
exact: (upto_filter_answer e_end_same e_end_same').
Qed.

Lemma e_end_smooth L : tz = L.+1 -> e_end_steps = tz ->
  ekf_smooth e_end_self Z U g = nl_smooth_answer e_end_model L g.
Proof.
move=> HL Hs; rewrite (@run_e_smooth_answer _ _ _ _ _ g e_end_run L) ?e_end_nsteps // -nl_smooth_lin.
apply: (upto_smooth_answer e_end_same e_end_same'); by rewrite Hs.
Qed.
End Answer.
End Args.
End EkfEnd.
