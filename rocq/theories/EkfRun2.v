(** * EkfRun2: outputs of the extended filter and smoother, and the standard
    filter of the linearisation *)
From Coq Require Import ZArith.
From mathcomp Require Import all_ssreflect all_algebra.
From Verif Require Import Np NpLemmas Kf Ekf ApiSpec Loop Frame FilterLemmas FilterThms SmoothLemmas NpShapes WellShaped
  WellShaped2 Exact Repr Textbook RunSpec Refine Refine2 Build RingTac Loewner KalmanAlg TextbookThms Outputs EkfRun.

Set Implicit Arguments.
Unset Strict Implicit.
Unset Printing Implicit Defensive.
Import GRing.Theory Num.Theory.
Local Open Scope ring_scope.

Arguments Z.of_nat : simpl never.

Section EkfRun.
Variable F : realFieldType.
Variable oracle : oracle_type F.
Variable n2i : Z.
Notation N := (exact oracle n2i).
Notation arr := (arr N).

(** A float64 array of known shape is determined by the matrix it holds. *)
Lemma rpf_inj sh m n (a b : arr) (M : 'M[F]_(m, n)) : rpf sh a M -> rpf sh b M -> a = b.
Proof.
move=> [Ra Da] [Rb Db]; have Sa := size_rp Ra; have Sb := size_rp Rb.
case: Ra => Wa Ea Ns Ca Ma; case: Rb => Wb Eb _ Cb Mb.
suff Ed : dat a = dat b by case: a b Da Db Ea Eb Ed {Wa Ca Sa Ma Wb Cb Sb Mb} => [d sh' t] [d' sh2 t'] /= -> -> -> -> ->.
apply: (@eq_from_nth _ (VI 0)) => [|i]; rewrite Sa ?Sb // => Hi.
have Hn : (0 < n)%N by move: Hi; case: (n); rewrite ?muln0.
have Hq : (i %/ n < m)%N by rewrite ltn_divLR.
have Hr : (i %% n < n)%N by rewrite ltn_mod.
have e1 : fval (nth (VI 0) (dat a) i) = fval (nth (VI 0) (dat b) i).
  have := f_equal (fun M : 'M_(m, n) => M (Ordinal Hq) (Ordinal Hr)) Ma.
  have := f_equal (fun M : 'M_(m, n) => M (Ordinal Hq) (Ordinal Hr)) Mb.
  by rewrite !mxE /= -divn_eq => -> ->.
have kind (c : arr) : wf c -> dt c = DFloat -> (i < size (dat c))%N -> exists v, nth (VI 0) (dat c) i = VF v.
  case/andP=> _ H D Hi'; have := all_nthP (VI 0) H i Hi'; rewrite D.
  by case: (nth _ _ _) => // v _; exists v.
have [v Ev] := kind a Wa Da (eq_ind_r (fun k => (i < k)%N) Hi Sa).
have [w Ew] := kind b Wb Db (eq_ind_r (fun k => (i < k)%N) Hi Sb).
have := clean_nth i Ca; have := clean_nth i Cb; move: e1; rewrite Ev Ew.
by case: v {Ev} => [v|] //; case: w {Ew} => [w|] //; rewrite /fval /= => ->.
Qed.

Section Run.
Variables (n m : nat) (self : ekf N) (Z : arr) (U : option arr) (g : seq arr).
Hypothesis Hrun : e_exact_run n m self Z U.
Notation T := (e_steps self Z U).

Lemma own_ok k g' x P : (k <= T)%N -> e_by_hand self Z (control Z U) k g = (g', Ok (x, P)) ->
  own_x self Z U g k = x.
Proof. by move=> _; exact: own_xP. Qed.

Section Ok.
Variables (g' : seq arr) (st er : arr).
Hypothesis E : ekf_filter self Z U g = (g', Ok (st, er)).
Let s := linearised n m self Z U (e_x_before self st).

Lemma st_ok k g1 x P : (k <= T)%N -> e_by_hand self Z (control Z U) k g = (g1, Ok (x, P)) ->
  e_x_before self st k = x.
Proof. by move=> Hk; exact: st_xP Hrun E Hk. Qed.

Lemma e_filter_out k : (k < T)%N ->
  [/\ innov s k \in unitmx, mx n 1 (row st k) = post_x s k.+1, mx n n (row er k) = post_P s k.+1,
      gain_of n m g g' k = gain_at s k &
   [/\ rpf [:: n] (row st k) (post_x s k.+1), rpf [:: n; n] (row er k) (post_P s k.+1) &
       rpf [:: n; m] (nth (np_zeros N [::]) g' (size g + k)) (gain_at s k)]].
Proof.
move=> Hk; case: (e_filter_rp Hrun st_ok) => [[g1 [st1 [er1 [E1 Hu Hr Hs Hg]]]]|[j [g1 [_ _ _ E1 _]]]]; last first.
  by move: (E); rewrite E1.
have [E2 E3 E4] : (g1, Ok (st1, er1)) = (g', Ok (st, er)) by rewrite -E -E1.
subst g1 st1 er1.
have [R1 R2] := Hr k Hk; have R3 := Hg k Hk; split; rewrite ?(Hu k) //.
- exact: rpf_mx R1.
- exact: rpf_mx R2.
- exact: rpf_mx R3.
Qed.

Lemma e_gains_out : size g' = (size g + T)%N /\ take (size g) g' = g.
Proof.
case: (e_filter_rp Hrun st_ok) => [[g1 [st1 [er1 [E1 Hu Hr Hs Hg]]]]|[j [g1 [_ _ _ E1 _]]]]; last first.
  by move: (E); rewrite E1.
have [E2 E3 E4] : (g1, Ok (st1, er1)) = (g', Ok (st, er)) by rewrite -E -E1.
by subst g1.
Qed.

Lemma e_before_out k : (k <= T)%N ->
  mx n 1 (e_x_before self st k) = post_x s k /\ mx n n (e_P_before self er k) = post_P s k.
Proof. by case: k => // k Hk; have [_ H1 H2 _ _] := e_filter_out Hk. Qed.

Lemma e_before_good k : (k <= T)%N -> good_vec n (e_x_before self st k).
Proof.
case: k => [_|k Hk]; first by case: Hrun.
by have [_ _ _ _ [[R _] _ _]] := e_filter_out Hk; exact: rp_good R.
Qed.

Lemma e_prior_out k : (k < T)%N ->
  pred_x s k = mx n 1 (value (e_f self (e_x_before self st k) (Some (row (control Z U) k)))).
Proof.
by move=> Hk; have [H1 _] := e_before_out (ltnW Hk); rewrite /pred_x /prior_x -H1 /s /linearised /= addrC subrK.
Qed.

(** smooth *)
Lemma e_smooth_rp L : T = nrows Z -> nrows Z = L.+1 ->
  (exists xs Ps,
     [/\ ekf_smooth self Z U g = (g', Ok (xs, Ps)),
         (forall k, (k < L)%N -> pred_P s k.+1 \in unitmx) &
         forall k, (k <= L)%N -> rpf [:: n] (row xs k) (smooth_x s L k) /\
                                 rpf [:: n; n] (row Ps k) (smooth_P s L k)]) \/
  (ekf_smooth self Z U g = (g', Raise LinAlgError) /\
     exists2 k, (k < L)%N & pred_P s k.+1 \notin unitmx).
Proof.
move=> HT HL; have HTL : T = L.+1 by rewrite HT.
have [Hc Hit Hn Gx [GP Hl Hcal HdP HdZ]] := Hrun.
have HZ : sized Z by case/andP: Hit.
have Hr k : (k < L.+1)%N -> rpf [:: n] (row st k) (post_x s k.+1) /\ rpf [:: n; n] (row er k) (post_P s k.+1).
  by rewrite -HTL => /e_filter_out [_ _ _ _ []].
have [Ho _ _ _] := e_filter_ok E; rewrite Hn HL in Ho.
rewrite /ekf_smooth /mbind E /mlift (len_sized HZ) HL Hn.
have [sm -> [Hs Hlast]] := smooth_init_ok Ho; rewrite subn1 [L.+1.-1]/=.
have Hdone i : (i <= L)%N -> (L <= i)%N -> holds sm i (smooth_x s L i) (smooth_P s L i).
  move=> H1 H2; have -> : i = L by apply/eqP; rewrite eqn_leq H1 H2.
  rewrite /smooth_x /smooth_P subnn /=; case/pairrow_eq: Hlast => /= E1 E2.
  by rewrite /holds E1 E2; apply: Hr.
have Hmain j sm' : (j <= L)%N -> outshape L.+1 n sm' ->
   (forall i, (i <= L)%N -> (j <= i)%N -> holds sm' i (smooth_x s L i) (smooth_P s L i)) ->
   (exists r, [/\ smooth_loop (ekf_smooth_step self (check_none_and_broadcast U Z) (st, er)) j sm' = Ok r,
      (forall k, (k < j)%N -> pred_P s k.+1 \in unitmx) &
      forall i, (i <= L)%N -> holds r i (smooth_x s L i) (smooth_P s L i)]) \/
   (smooth_loop (ekf_smooth_step self (check_none_and_broadcast U Z) (st, er)) j sm' = Raise LinAlgError /\
     exists2 k, (k < j)%N & pred_P s k.+1 \notin unitmx).
  elim: j sm' => [|j IH] sm' Hj Hs' Hd'; first by left; exists sm'; split=> // i Hi; apply: Hd'.
  cbn [smooth_loop].
  have HjT : (j.+1 < T)%N by rewrite HTL.
  have [lQ lU] : (j.+1 < nrows (e_Q self))%N /\ (j.+1 < nrows (control Z U))%N.
    by move: HjT; rewrite e_steps_gt => /and4P [].
  have [/andP [LQ CQ] _ _] := Hl _ HjT.
  rewrite /ekf_smooth_step; rewrite !getitem_cases; rewrite lQ lU; cbn [rbind].
  have Hj0 : (j < L.+1)%N by rewrite ltnS ltnW.
  have Hnr : forall (o : arr * arr), outshape L.+1 n o -> nrows o.1 = L.+1 /\ nrows o.2 = L.+1.
    by move=> o [[_ _ e1] [_ _ e2]]; rewrite /nrows e1 e2.
  have [-> ->] := Hnr _ Ho; rewrite Hj0; cbn [rbind].
  have [RX RP] := Hr _ Hj0.
  have Gxj : good_vec n (row st j) by case: RX => R _; exact: rp_good R.
  have [y [A [_ [_ [[Ey Gy] [EA GA] _ _]]]]] := Hcal _ _ HjT Gxj.
  have Hp : promote (dt (row er j)) (dt A) = DFloat by case: RP => _ ->.
  have [C Ep RC] := e_predict_rp EA GA Ey (proj1 RP) Hp LQ CQ.
  rewrite -/(control Z U) Ep; cbn [rbind]; rewrite EA; cbn [rbind].
  have EAk : mA s j.+1 = mx n n A by rewrite /s /linearised /= EA.
  have {}RC : rpf [:: n; n] C (pred_P s j.+1) by rewrite /pred_P /prior_P EAk.
  have Epx : pred_x s j.+1 = mx n 1 y.
    have Ec : mc s j.+1 = mx n 1 y - mA s j.+1 *m mx n 1 (row st j) by rewrite EAk /s /linearised /= EA Ey.
    have Er : mx n 1 (row st j) = post_x s j.+1 by exact: rpf_mx RX.
    by rewrite /pred_x /prior_x Ec Er addrC subrK.
  have Dy : rp [:: n] y (pred_x s j.+1) by rewrite Epx; exact: good_rp.
  have LA : mat_layout n n A by case/andP: GA.
  have CA : clean A by case/andP: GA.
  have := @smooth_body_rp F oracle n2i n L.+1 (st, er) sm' (y, C) A j _ _ _ _ _ _ _
     Ho Hs' _ (conj RX RP) (Hd' j.+1 Hj (leqnn _)) (rp_mat LA CA) Dy RC.
  move/(_ (leq_ltn_trans Hj (ltnSn L))).
  case: ifP => Hun; last by move=> ->; right; split=> //; exists j => //; rewrite Hun.
  cbv zeta; rewrite -EAk => -[r [-> Hor Hrj Hri]]; cbn [rbind].
  case: (IH r (ltnW Hj) Hor) => [|[r' [-> A1 A2]]|[-> [k Hk Hnk]]].
  - move=> i Hi; rewrite leq_eqVlt => /orP [/eqP <-|Hji].
      rewrite /smooth_x /smooth_P; have e : (L - j = (L - j.+1).+1)%N by rewrite subnSK.
      have e' : (L - (L - j.+1).+1 = j)%N by rewrite -e subKn // ltnW.
      by rewrite e /= e'.
    have Hne : i != j by rewrite gtn_eqF.
    have [e1 e2] := Hri i Hi Hne; rewrite /holds e1 e2; exact: (Hd' i Hi Hji).
  - left; exists r'; split=> // k; rewrite ltnS leq_eqVlt => /orP [/eqP ->|Hk] //.
    exact: A1.
  by right; split=> //; exists k => //; exact: ltnW.
case: (Hmain L sm (leqnn L) Hs Hdone) => [[r [Er A1 A2]]|[Er A]].
  left; exists r.1, r.2; split=> //.
  by rewrite Er; case: r {Er A2}.
by right; rewrite Er.
Qed.
End Ok.
End Run.
End EkfRun.
