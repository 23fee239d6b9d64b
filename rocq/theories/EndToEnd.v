(** * EndToEnd: from the constructor's arguments to the returned arrays *)
From Coq Require Import ZArith.
From mathcomp Require Import all_ssreflect all_algebra.
From Verif Require Import Np NpLemmas Kf Ekf ApiSpec Loop Frame FilterLemmas FilterThms SmoothLemmas NpShapes WellShaped
  WellShaped2 Exact Repr Textbook RunSpec Refine Refine2 Build Loewner KalmanAlg TextbookThms Outputs
  EkfRun EkfRun2 EkfBuild EndSpec UtilThms Props2.

Set Implicit Arguments.
Unset Strict Implicit.
Unset Printing Implicit Defensive.
Import GRing.Theory Num.Theory.
Local Open Scope ring_scope.

(** ** The first singular step *)
Section Until.
Variables (F : realFieldType) (m : nat).
Implicit Type S : nat -> 'M[F]_m.

Lemma until_le S T : (until_singular S T <= T)%N.
Proof. by rewrite /until_singular -{2}(size_iota 0 T) find_size. Qed.

Lemma until_all S T : (forall k, (k < T)%N -> S k \in unitmx) -> until_singular S T = T.
Proof.
move=> H; rewrite /until_singular -{2}(size_iota 0 T); apply: hasNfind.
by apply/hasPn => k; rewrite mem_iota add0n => /H ->.
Qed.

Lemma until_first S T j : (j < T)%N -> S j \notin unitmx -> (forall i, (i < j)%N -> S i \in unitmx) ->
  until_singular S T = j.
Proof.
move=> Hj Hn Hp; apply/eqP; rewrite eqn_leq; apply/andP; split; rewrite leqNgt; apply/negP => Hlt.
  have := @before_find _ 0%N (fun k => S k \notin unitmx) (iota 0 T) j Hlt.
  by rewrite nth_iota // add0n Hn.
have Hu := ltn_trans Hlt Hj.
have := @nth_find _ 0%N (fun k => S k \notin unitmx) (iota 0 T).
rewrite has_find size_iota => /(_ Hu); rewrite nth_iota // add0n.
by rewrite (Hp _ Hlt).
Qed.
End Until.

Section EndToEnd.
Variable F : realFieldType.
Variable oracle : oracle_type F.
Variable n2i : Z.
Notation N := (exact oracle n2i).
Notation arr := (arr N).
Notation vec := (vec_arr oracle n2i).
Notation mat := (mx_arr oracle n2i).
Notation vecs := (vecs_arr oracle n2i).
Notation mats := (mxs_arr oracle n2i).

(** ** Arrays from their rows *)
Lemma rpf_vec k (v : 'cV[F]_k) : rpf [:: k] (vec v) v.
Proof. by split=> //; split=> //; [exact: wf_mkF|exact: clean_mkF|exact: vec_arr_mx]. Qed.
Lemma rpf_mat a b (M : 'M[F]_(a, b)) : rpf [:: a; b] (mat M) M.
Proof. by split=> //; split=> //; [exact: wf_mkF|rewrite /= ?muln1|exact: clean_mkF|exact: mx_arr_mx]. Qed.

Lemma rpf_is_vec k a (v : 'cV[F]_k) : rpf [:: k] a v -> a = vec v.
Proof. by move=> H; exact: rpf_inj H (rpf_vec v). Qed.
Lemma rpf_is_mat k l a (M : 'M[F]_(k, l)) : rpf [:: k; l] a M -> a = mat M.
Proof. by move=> H; exact: rpf_inj H (rpf_mat M). Qed.

Lemma is_vecs T n (a : arr) (v : nat -> 'cV[F]_n) : float_shaped [:: T; n] a ->
  (forall k, (k < T)%N -> row a k = vec (v k)) -> a = vecs T v.
Proof.
case/and3P=> W; case D: (dt a) => // _ /eqP E H.
apply: (rows_ext (d := T) (sh := [:: n]) (wf_wfs W) (wf_wfs (wf_mkF _ _))) => // k Hk.
by rewrite H // vecs_row.
Qed.
Lemma is_mats T n m (a : arr) (v : nat -> 'M[F]_(n, m)) : float_shaped [:: T; n; m] a ->
  (forall k, (k < T)%N -> row a k = mat (v k)) -> a = mats T v.
Proof.
case/and3P=> W; case D: (dt a) => // _ /eqP E H.
apply: (rows_ext (d := T) (sh := [:: n; m]) (wf_wfs W) (wf_wfs (wf_mkF _ _))) => // k Hk.
by rewrite H // mxs_row.
Qed.

Lemma entry0 a b i j : entry (0 : 'M[F]_(a, b)) i j = 0.
Proof. by rewrite /entry; case: insub => // i'; case: insub => // j'; rewrite mxE. Qed.

Lemma zeros_vec n : np_zeros N [:: n] = vec (0 : 'cV[F]_n).
Proof. by apply: eq_mk => ix _; rewrite entry0. Qed.
Lemma zeros_mat a b : np_zeros N [:: a; b] = mat (0 : 'M[F]_(a, b)).
Proof. by apply: eq_mk => ix _; rewrite entry0. Qed.

Lemma gains_are n m (g g' : seq arr) (K : nat -> 'M[F]_(n, m)) j :
  size g' = (size g + j)%N -> take (size g) g' = g ->
  (forall i, (i < j)%N -> rpf [:: n; m] (nth (np_zeros N [::]) g' (size g + i)) (K i)) ->
  g' = g ++ [seq mat (K k) | k <- iota 0 j].
Proof.
move=> Hs Ht H; rewrite -[LHS](cat_take_drop (size g)) Ht; congr (_ ++ _).
apply: (@eq_from_nth _ (np_zeros N [::])); first by rewrite size_drop Hs addKn size_map size_iota.
move=> i; rewrite size_drop Hs addKn => Hi.
rewrite nth_drop (nth_map 0%N) ?size_iota // nth_iota // add0n.
exact: rpf_is_mat (H i Hi).
Qed.

(** ** The standard filter *)
Section Run.
Variables (n m p : nat) (self : kf N) (Z : arr) (U : option arr) (g : seq arr).
Hypothesis Hrun : exact_run n m p self Z U.
Let s := model_of n m p self Z U.
Notation T := (steps self Z U).

Lemma run_filter_answer : kf_filter self Z U g = kalman_filter_answer s T (nrows Z) g.
Proof.
have Hn : kf_size self = n by case: Hrun => _ [].
rewrite /kalman_filter_answer /filter_answer.
case: (filter_rp g Hrun) => [[g' [st [er [E Hu Hr [Hs Ht] Hg]]]]|[j [g' [Hj Hnu Hp E [Hs [Ht Hg]]]]]]; rewrite E.
  rewrite (until_all Hu) ltnn; congr (_, Ok (_, _)).
  - exact: gains_are.
  - have [_ _ _ Hz] := filter_ok E; have [Hsh _] := filter_shapes E; rewrite Hn in Hz Hsh.
    apply: is_vecs => // k Hk; case: ltnP => HkT; first by apply: rpf_is_vec; case: (Hr k HkT).
    by have [-> _] := Hz k (introT andP (conj HkT Hk)); exact: zeros_vec.
  - have [_ _ _ Hz] := filter_ok E; have [_ Hsh] := filter_shapes E; rewrite Hn in Hz Hsh.
    apply: is_mats => // k Hk; case: ltnP => HkT; first by apply: rpf_is_mat; case: (Hr k HkT).
    by have [_ ->] := Hz k (introT andP (conj HkT Hk)); exact: zeros_mat.
rewrite (until_first Hj Hnu Hp) Hj; congr (_, _); exact: gains_are.
Qed.

Lemma smooth_fst : (kf_smooth self Z U g).1 = (kf_filter self Z U g).1.
Proof.
rewrite /kf_smooth /mbind /mlift; case: (kf_filter self Z U g) => g1 [[st er]|e] //.
by case: (np_len Z) => // L; case: (smooth_init _ _ _).
Qed.

Lemma run_smooth_answer L : T = nrows Z -> nrows Z = L.+1 ->
  kf_smooth self Z U g = kalman_smooth_answer s L g.
Proof.
move=> HT HL; have HTL : T = L.+1 by rewrite HT.
have Hn : kf_size self = n by case: Hrun => _ [].
rewrite /kalman_smooth_answer /smooth_answer [LHS]surjective_pairing smooth_fst run_filter_answer HTL; congr (_, _).
case: (smooth_rp g Hrun HT HL) => [[g' [xs [Ps [E Hu Hp Hr]]]]|[g' [E H]]]; rewrite E; cbn [snd].
  rewrite (until_all (T := L.+1) Hu) ltnn (_ : seq.has _ _ = false) /=; last first.
    by apply/negbTE/hasPn => -[|k]; rewrite mem_iota add1n ltnS //= => Hk; rewrite negbK; exact: Hp.
  have [S1 S2] := smooth_shapes E; rewrite Hn HL in S1 S2.
  congr (Ok (_, _)).
    by apply: is_vecs => // k; rewrite ltnS => Hk; apply: rpf_is_vec; case: (Hr k Hk).
  by apply: is_mats => // k; rewrite ltnS => Hk; apply: rpf_is_mat; case: (Hr k Hk).
case: H => [[k Hk Hnu]|[k Hk Hnu]].
  rewrite (_ : (until_singular (innov s) L.+1 < L.+1)%N) //.
  rewrite /until_singular -{2}(size_iota 0 L.+1) -has_find; apply/seq.hasP; exists k => //.
  by rewrite mem_iota add0n ltnS.
rewrite (_ : seq.has _ _) ?orbT //; apply/seq.hasP; exists k.+1 => //.
by rewrite mem_iota add1n !ltnS.
Qed.
End Run.

(** ** Answers of models that agree *)
Lemma vecs_ext n T (v w : nat -> 'cV[F]_n) : (forall k, (k < T)%N -> v k = w k) -> vecs T v = vecs T w.
Proof. by move=> H; apply: eq_mk => -[|i ix] //= /andP [Hi _]; rewrite H. Qed.
Lemma mats_ext a b T (v w : nat -> 'M[F]_(a, b)) : (forall k, (k < T)%N -> v k = w k) -> mats T v = mats T w.
Proof. by move=> H; apply: eq_mk => -[|i ix] //= /andP [Hi _]; rewrite H. Qed.

Lemma until_ext m (S S' : nat -> 'M[F]_m) T : (forall k, (k < T)%N -> S k = S' k) ->
  until_singular S T = until_singular S' T.
Proof. by move=> H; apply: eq_in_find => k; rewrite mem_iota add0n => /H ->. Qed.

Section Ext.
Variables (n m : nat).
Implicit Types (x xs : nat -> 'cV[F]_n) (P Ps Pa : nat -> 'M[F]_n) (K : nat -> 'M[F]_(n, m)) (S : nat -> 'M[F]_m).

Lemma filter_answer_ext x x' P P' K K' S S' T len (g : seq arr) :
  (forall k, (k < T)%N -> [/\ x k = x' k, P k = P' k, K k = K' k & S k = S' k]) ->
  filter_answer x P K S T len g = filter_answer x' P' K' S' T len g.
Proof.
move=> H; rewrite /filter_answer (@until_ext _ S S'); last by move=> k /H [].
congr (_, _).
  congr (_ ++ _); apply/eq_in_map => k; rewrite mem_iota add0n => Hk.
  by have [_ _ -> _] := H k (leq_trans Hk (until_le _ _)).
case: ifP => // _; congr (Ok (_, _)); first apply: vecs_ext; last apply: mats_ext.
  by move=> k _; case: ifP => // /H [].
by move=> k _; case: ifP => // /H [].
Qed.

Lemma smooth_answer_ext K K' S S' xs xs' Ps Ps' Pa Pa' L (g : seq arr) :
  (forall k, (k <= L)%N -> [/\ K k = K' k, S k = S' k, xs k = xs' k & Ps k = Ps' k]) ->
  (forall k, (k <= L)%N -> Pa k = Pa' k) ->
  smooth_answer K S xs Ps Pa L g = smooth_answer K' S' xs' Ps' Pa' L g.
Proof.
move=> H Ha; rewrite /smooth_answer (@until_ext _ S S'); last by move=> k; rewrite ltnS => /H [].
congr (_, _).
  congr (_ ++ _); apply/eq_in_map => k; rewrite mem_iota add0n => Hk.
  by have [-> _ _ _] := H k (leq_trans Hk (until_le _ _)).
have -> : seq.has (fun k => Pa k \notin unitmx) (iota 1 L) = seq.has (fun k => Pa' k \notin unitmx) (iota 1 L).
  by apply: eq_in_has => k; rewrite mem_iota add1n => /andP [_]; rewrite ltnS => /Ha ->.
case: ifP => // _; congr (Ok (_, _)); first apply: vecs_ext; last apply: mats_ext.
  by move=> k; rewrite ltnS => /H [].
by move=> k; rewrite ltnS => /H [].
Qed.

(** Two models with the same matrices and data for the first T steps. *)
Definition same_model (s s' : model F n m) T :=
  [/\ mx0 s = mx0 s', mP0 s = mP0 s' & forall k, (k < T)%N ->
   [/\ mA s k = mA s' k, mc s k = mc s' k, mH s k = mH s' k, mQ s k = mQ s' k &
       mR s k = mR s' k /\ mz s k = mz s' k]].

Lemma same_post s s' T k : same_model s s' T -> (k <= T)%N -> post_x s k = post_x s' k /\ post_P s k = post_P s' k.
Proof.
case=> E0 E1 H; elim: k => [|j IH] Hj //.
have [H1 H2] := IH (ltnW Hj); have [A c HH Q [R z]] := H j Hj.
by split; cbn [post_x post_P]; rewrite /corr_x /corr_P /kgain /innovation /prior_x /prior_P ?H1 H2 A ?c HH Q R ?z.
Qed.

Lemma same_pred s s' T k : same_model s s' T -> (k < T)%N ->
  [/\ pred_x s k = pred_x s' k, pred_P s k = pred_P s' k, innov s k = innov s' k & gain_at s k = gain_at s' k].
Proof.
move=> Hs Hk; have [H1 H2] := same_post Hs (ltnW Hk); have [_ _ /(_ k Hk) [A c HH Q [R z]]] := Hs.
have E1 : pred_P s k = pred_P s' k by rewrite /pred_P /prior_P H2 A Q.
have E2 : innov s k = innov s' k by rewrite /innov /innovation E1 HH R.
split=> //; first by rewrite /pred_x /prior_x H1 A c.
by rewrite /gain_at /kgain -/(innov s k) -/(innov s' k) E1 E2 HH.
Qed.

Lemma same_smooth s s' L k : same_model s s' L.+1 -> (k <= L)%N ->
  smooth_x s L k = smooth_x s' L k /\ smooth_P s L k = smooth_P s' L k.
Proof.
move=> Hs Hk; rewrite -(subKn Hk); elim: (L - k)%N (leq_subr k L) => [|i IH] Hi.
  by rewrite subn0 !smooth_xT !smooth_PT; exact: (same_post Hs (leqnn _)).
have [H1 H2] := IH (ltnW Hi); have Hl : (L - i.+1 < L)%N by rewrite ltn_subrL (leq_ltn_trans (leq0n i) Hi).
rewrite -(subnSK Hi) in H1 H2.
have [p1 p2] := same_post Hs (leqW Hl : (L - i.+1).+1 <= L.+1)%N.
have [q1 q2 _ _] := same_pred Hs (Hl : (L - i.+1).+1 < L.+1)%N.
have [_ _ /(_ (L - i.+1).+1 Hl) [A _ _ _ _]] := Hs.
have EG : sgain s (L - i.+1) = sgain s' (L - i.+1) by rewrite /sgain p2 A q2.
by rewrite (smooth_xS s Hl) (smooth_xS s' Hl) (smooth_PS s Hl) (smooth_PS s' Hl) H1 H2 p1 p2 q1 q2 EG.
Qed.

Lemma same_filter_answer s s' T len (g : seq arr) : same_model s s' T ->
  kalman_filter_answer s T len g = kalman_filter_answer s' T len g.
Proof.
move=> Hs; apply: filter_answer_ext => k Hk.
have [p1 p2] := same_post Hs Hk; by have [_ _ q1 q2] := same_pred Hs Hk.
Qed.

Lemma same_smooth_answer s s' L (g : seq arr) : same_model s s' L.+1 ->
  kalman_smooth_answer s L g = kalman_smooth_answer s' L g.
Proof.
move=> Hs; apply: smooth_answer_ext => k Hk; have [q1 q2 q3 q4] := same_pred Hs (Hk : k < L.+1)%N => //.
by have [p1 p2] := same_smooth Hs Hk.
Qed.
End Ext.

(** ** The constructor's arguments *)
Section Args.
Variables (n m p : nat).
(** B and U: None, or a length and the matrices (vectors) for each step. *)
Definition ctl_of (Bo : option (nat * (nat -> 'M[F]_(n, p)))) (Uo : option (nat * (nat -> 'cV[F]_p))) (k : nat)
    : 'cV[F]_n :=
  match Bo, Uo with Some (_, B), Some (_, u) => B k *m u k | _, _ => 0 end.
Definition len_of T (o : option (nat * T)) (d : nat) : nat := if o is Some (l, _) then l else d.
Definition B_arr (Bo : option (nat * (nat -> 'M[F]_(n, p)))) : option arr := omap (fun b => mats b.1 b.2) Bo.
Definition U_arr (Uo : option (nat * (nat -> 'cV[F]_p))) : option arr := omap (fun b => vecs b.1 b.2) Uo.

Variables (A : nat -> 'M[F]_n) (Bo : option (nat * (nat -> 'M[F]_(n, p)))) (H : nat -> 'M[F]_(m, n)).
Variables (Q : nat -> 'M[F]_n) (R : nat -> 'M[F]_m) (x0 : 'cV[F]_n) (P0 : 'M[F]_n).
Variables (z : nat -> 'cV[F]_m) (Uo : option (nat * (nat -> 'cV[F]_p))).
Variables (tA tH tQ tR tz : nat).

Let Z := vecs tz z.
Let U := U_arr Uo.
Let B := check_none_and_broadcast (B_arr Bo) (mats tA A).
Definition end_self : kf N :=
  Kf (mats tA A) (vec x0) B (mat P0) (mats tH H) (mats tQ Q) (mats tR R) n (np_identity N n) [::].
Definition end_model : model F n m := Model A (ctl_of Bo Uo) H Q R z x0 P0.
Definition end_steps : nat :=
  foldr minn tz [:: tA; tH; len_of Bo tA; len_of Uo tz; tQ; tR].

Lemma end_init ss : ss = None \/ ss = Some (Z.of_nat n) ->
  kf_init (mats tA A) (vec x0) (B_arr Bo) (mat P0) (mats tH H) (mats tQ Q) (mats tR R) ss = Ok end_self.
Proof.
have E0 : shape0 (vec x0) = Ok n by [].
have EZ (r : res nat) : r = Ok n -> (if Z.eqb (Z.of_nat n) Z0 then r else if Z.ltb (Z.of_nat n) Z0 then Raise ValueError
    else Ok (Z.to_nat (Z.of_nat n))) = Ok n.
  move=> ->; case: ifP => // _; case: Z.ltb_spec => [/Z.lt_nge []|_]; first exact: Nat2Z.is_nonneg.
  by rewrite Nat2Z.id.
case=> -> //; by rewrite /kf_init (EZ _ E0).
Qed.

Let s := model_of n m p end_self Z U.

Lemma end_B_nan (Hb : Bo = None) k : np_isnan_all (row (kf_B end_self) k).
Proof. by apply: isnan_row; rewrite /end_self /B /B_arr Hb; cbn [kf_B]; exact: isnan_full_like. Qed.
Lemma end_U_nan (Hu : Uo = None) k : np_isnan_all (row (control Z U) k).
Proof. by apply: isnan_row; rewrite /U /U_arr Hu; exact: isnan_full_like. Qed.

Lemma end_nsteps : steps end_self Z U = end_steps.
Proof.
rewrite /steps /end_steps /end_self /B /U /Z /control.
by case: Bo => [[b fb]|]; case: Uo => [[w fu]|].
Qed.

Lemma foldr_minn_lt k (d : nat) (l : seq nat) : (k < foldr minn d l)%N = (k < d)%N && all (fun x => k < x)%N l.
Proof. by elim: l => [|y l IH] /=; rewrite ?andbT // leq_min IH andbCA. Qed.

Lemma end_lt k : (k < end_steps)%N ->
  [/\ (k < tz)%N, (k < tA)%N, (k < tH)%N, (k < tQ)%N & [/\ (k < tR)%N, (k < len_of Bo tA)%N & (k < len_of Uo tz)%N]].
Proof. by rewrite /end_steps foldr_minn_lt => /and5P [? ? ? ? /and4P [? ? ? _]]. Qed.

Lemma end_rows k : (k < end_steps)%N ->
  [/\ row (kf_A end_self) k = mat (A k), row (kf_H end_self) k = mat (H k),
      row (kf_Q end_self) k = mat (Q k), row (kf_R end_self) k = mat (R k) & row Z k = vec (z k)].
Proof.
by case/end_lt=> a1 a2 a3 a4 [a5 _ _]; rewrite /end_self /Z; cbn [kf_A kf_H kf_Q kf_R]; rewrite !mxs_row // vecs_row.
Qed.

Lemma end_B k b fb : Bo = Some (b, fb) -> (k < end_steps)%N -> row (kf_B end_self) k = mat (fb k).
Proof.
by move=> E /end_lt [_ _ _ _ [_ + _]]; rewrite /end_self /B E; cbn [kf_B B_arr omap check_none_and_broadcast len_of] => Hb;
  rewrite mxs_row.
Qed.
Lemma end_U k b fu : Uo = Some (b, fu) -> (k < end_steps)%N -> row (control Z U) k = vec (fu k).
Proof.
by move=> E /end_lt [_ _ _ _ [_ _ +]]; rewrite /U /U_arr E; cbn [omap control check_none_and_broadcast len_of] => Hb;
  rewrite vecs_row.
Qed.

Lemma end_constructed : constructed end_self.
Proof.
exists (mats tA A), (vec x0), (B_arr Bo), (mat P0), (mats tH H), (mats tQ Q), (mats tR R), None, end_self, [::].
by split.
Qed.

Lemma end_run : exact_run n m p end_self Z U.
Proof.
have Hctl k : (k < end_steps)%N -> [\/ np_isnan_all (row (kf_B end_self) k), np_isnan_all (row (control Z U) k) |
    exists b u, row (kf_B end_self) k = mat (b : 'M[F]_(n, p)) /\ row (control Z U) k = vec (u : 'cV[F]_p)].
  move=> Hk; case EB: Bo => [[b fb]|]; last by apply: Or31; exact: end_B_nan.
  case EU: Uo => [[w fu]|]; last by apply: Or32; exact: end_U_nan.
  by apply: Or33; exists (fb k), (fu k); rewrite (end_B EB) // (end_U EU).
split; [exact: end_constructed| |exact: clean_mkF|exact: clean_mkF|].
  split.
  - rewrite /iterable /end_self /B /U /Z /control; by case: Bo => [[b fb]|]; case: Uo => [[w fu]|].
  - by [].
  - by rewrite /vec_layout eqxx /= andbT; exact: wf_mkF.
  - exact: mat_layout_arr.
  move=> k; rewrite end_nsteps => Hk; have [-> -> -> -> ->] := end_rows Hk; split; [exact: mat_layout_arr|exact: mat_layout_arr| |].
    rewrite /ctl_layout; case: (Hctl k Hk) => [->|->|[b [u [-> ->]]]] //; first by rewrite orbT.
    by rewrite mat_layout_arr eqxx andbT /= !orbA; apply/orP; right; exact: wf_mkF.
  by split; rewrite ?/obs_layout ?/cov_layout eqxx /= andbT; exact: wf_mkF.
split.
- by move=> k; rewrite end_nsteps => /end_rows [-> -> -> -> ->]; split; exact: clean_mkF.
- move=> k; rewrite end_nsteps => /Hctl [->|->|[b [u [-> ->]]]] //; first by rewrite orbT.
  by rewrite !clean_mkF !orbT.
- by left.
by left; rewrite /end_self /B; cbn [kf_B]; case: Bo => [[b fb]|].
Qed.

Lemma end_same : same_model s end_model end_steps.
Proof.
split; [by rewrite /s /model_of /= vec_arr_mx|by rewrite /s /model_of /= mx_arr_mx|].
move=> k Hk; have [eA eH eQ eR ez] := end_rows Hk.
rewrite /s /model_of /end_model; cbn [mA mc mH mQ mR mz].
rewrite eA eH eQ eR ez !mx_arr_mx !cov_arr !vec_arr_mx; split=> //.
rewrite /ctl_of; case EB: Bo => [[b fb]|]; last by rewrite end_B_nan.
case EU: Uo => [[w fu]|]; last by rewrite end_U_nan // orbT.
rewrite (end_B EB) // (end_U EU) // mx_arr_mx vec_arr_mx; case: ifP => // Hnan.
apply/matrixP => i j; rewrite !mxE big1 // => l _.
have Hi := ltn_ord i; have Hl := ltn_ord l.
case/orP: Hnan => /nan_arr_nil; rewrite ?mx_arr_size ?vec_arr_size ?clean_mkF => /(_ isT) Hz.
  by move/eqP: Hz; rewrite muln_eq0 => /orP [/eqP E|/eqP E]; [move: Hi|move: Hl]; rewrite {2}E.
by move: Hl; rewrite {2}Hz.
Qed.

Lemma end_filter (g : seq arr) : kf_filter end_self Z U g = kalman_filter_answer end_model end_steps tz g.
Proof. by rewrite (run_filter_answer g end_run) end_nsteps (same_filter_answer _ _ end_same). Qed.

Lemma end_smooth L (g : seq arr) : tz = L.+1 -> end_steps = tz ->
  kf_smooth end_self Z U g = kalman_smooth_answer end_model L g.
Proof.
move=> HL Hs; rewrite (@run_smooth_answer _ _ _ _ _ _ g end_run L) ?end_nsteps //.
by apply: same_smooth_answer; rewrite -HL -Hs; exact: end_same.
Qed.
End Args.
End EndToEnd.
