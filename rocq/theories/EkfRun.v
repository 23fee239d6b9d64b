(** * EkfRun: the extended filter in exact arithmetic

    [linearised] reads, off an extended filter, its data and a trajectory of
    state vectors, the linear model obtained by replacing f and h with their
    first-order expansions along that trajectory, using the Jacobians the user
    supplied.  The run of the extended filter is then the textbook recursion
    of that model (proved here). *)
From Coq Require Import ZArith.
From mathcomp Require Import all_ssreflect all_algebra.
From Verif Require Import Np NpLemmas Kf Ekf ApiSpec Loop Frame FilterLemmas FilterThms SmoothLemmas NpShapes WellShaped
  WellShaped2 Exact Repr Textbook RunSpec Refine Refine2.

Set Implicit Arguments.
Unset Strict Implicit.
Unset Printing Implicit Defensive.
Import GRing.Theory Num.Theory.
Local Open Scope ring_scope.

Arguments Z.of_nat : simpl never.

Section EkfRun.
Variable F : realFieldType.
Variable oracle : oracle_type F.
Variable n2i : Z.
Notation N := (exact oracle n2i).
Notation arr := (arr N).

(** ** Specification *)

(** The array a callable returned; its result when it raises does not matter
    (the runs below exclude it). *)
Definition value (r : res arr) : arr := if r is Ok a then a else np_zeros N [::].

(** An array that holds a vector of k numbers; a matrix of r*c numbers. *)
Definition good_vec (k : nat) (a : arr) : bool := [&& wf a, shp a == [:: k] & clean a].
Definition good_mat (r c : nat) (a : arr) : bool := mat_layout r c a && clean a.
(** An array that holds an observation of m numbers; with one sensor it can be
    a bare number (shape ()), as the rows of a data array of shape (T,) are, and
    as np.sin(xk[0]) is. *)
Definition good_obs (m : nat) (a : arr) : bool :=
  [&& wf a, (shp a == [:: m]) || ((m == 1%N) && (shp a == [::])) & clean a].

(** A call as documented, on arrays without NaN: whatever the state vector,
    the callables return arrays of the documented shapes, without NaN.  The
    control rows can be anything the callables accept.  The last two
    conditions exclude int64 products and differences, which wrap around. *)
Definition e_exact_run (n m : nat) (self : ekf N) (Z : arr) (U : option arr) : Prop :=
  [/\ e_constructed self, e_iterable self Z U, e_size self = n, good_vec n (e_xk self) &
  [/\ good_mat n n (e_Pk self),
      (forall k, (k < e_steps self Z U)%N ->
        [/\ cov_layout n (row (e_Q self) k) && clean (row (e_Q self) k),
            cov_layout m (row (e_R self) k) && clean (row (e_R self) k) &
            good_obs m (row Z k)]),
      (forall k x, (k < e_steps self Z U)%N -> good_vec n x -> exists y A z H,
        [/\ e_f self x (Some (row (control Z U) k)) = Ok y /\ good_vec n y,
            e_jA self x (Some (row (control Z U) k)) = Ok A /\ good_mat n n A,
            e_h self x = Ok z /\ good_obs m z & e_jH self x = Ok H /\ good_mat m n H]),
      dt (e_Pk self) = DFloat \/ (forall x u A, e_jA self x u = Ok A -> dt A = DFloat) &
      dt Z = DFloat \/ (forall x z, e_h self x = Ok z -> dt z = DFloat)]].

(** First-order expansion along the state vectors xs: step k is expanded at
    xs k (the state before the step) for f, and at the state f predicts from
    it for h. *)
Definition linearised (n m : nat) (self : ekf N) (Z : arr) (U : option arr) (xs : nat -> arr) : model F n m :=
  let u k := Some (row (control Z U) k) in
  let A k := mx n n (value (e_jA self (xs k) (u k))) in
  let y k := value (e_f self (xs k) (u k)) in
  let H k := mx m n (value (e_jH self (y k))) in
  Model A
        (fun k => mx n 1 (y k) - A k *m mx n 1 (xs k))
        H
        (fun k => cov n (row (e_Q self) k))
        (fun k => cov m (row (e_R self) k))
        (fun k => mx m 1 (row Z k) - mx m 1 (value (e_h self (y k))) + H k *m mx n 1 (y k))
        (mx n 1 (e_xk self)) (mx n n (e_Pk self)).

(** The state vectors of a run that returned the states [st]. *)
Definition e_x_before (self : ekf N) (st : arr) (k : nat) : arr :=
  if k is j.+1 then row st j else e_xk self.
Definition e_P_before (self : ekf N) (er : arr) (k : nat) : arr :=
  if k is j.+1 then row er j else e_Pk self.

(** ** predict and update *)
Lemma good_rp k a : good_vec k a -> rp [:: k] a (mx k 1 a).
Proof. by case/and3P=> W /eqP E C; split=> //; rewrite /= !muln1. Qed.

Lemma rp_good k a (X : 'cV[F]_k) : rp [:: k] a X -> good_vec k a.
Proof. by case=> W E _ C _; rewrite /good_vec W E eqxx C. Qed.

Lemma e_residual_rp m (z zh : arr) : good_obs m z -> good_obs m zh -> promote (dt z) (dt zh) = DFloat ->
  exists2 y, np_sub z zh = Ok y & rpf [:: m] (np_atleast_1d y) (mx m 1 z - mx m 1 zh).
Proof.
move=> /and3P [Wz Hz Cz] /and3P [Wh Hh Ch] Hp; rewrite np_subE -mx_op_sub.
case E1: (m == 1%N); last first.
  move: Hz Hh; rewrite E1 /= !orbF => /eqP Ez /eqP Eh.
  have Rz : rp [:: m] z (mx m 1 z) by split=> //; rewrite /= !muln1.
  have Rh : rp [:: m] zh (mx m 1 zh) by split=> //; rewrite /= !muln1.
  have [y -> [[Wy Ey Ny Cy My] Dy]] := rp_bin1 Z.sub (fun a b => a - b) Rz Rh Hp.
  by exists y => //; rewrite /np_atleast_1d Ey.
move: (eqP E1) => Em; subst m.
have R1 (a : arr) : wf a -> clean a -> (shp a == [:: 1%N]) || ((1%N == 1%N) && (shp a == [::])) ->
    exists2 s, s = [::] \/ s = [:: 1%N] & rp s a (mx 1 1 a).
  move=> Wa Ca /orP [/eqP Ea|/eqP Ea]; first by exists [:: 1%N]; [right|split].
  by exists [::]; [left|split].
have [sz Hsz Rz] := R1 _ Wz Cz Hz; have [sh Hsh Rh] := R1 _ Wh Ch Hh.
have [s Es [Hs Ns]] : exists2 s, bshape sz sh = Some s & (s = [::] \/ s = [:: 1%N]) /\ nelem s = 1%N.
  case: Hsz => ->; case: Hsh => ->.
  - by exists [::]; [exact: erefl|split; [left|exact: erefl]].
  - by exists [:: 1%N]; [exact: erefl|split; [right|exact: erefl]].
  - by exists [:: 1%N]; [exact: erefl|split; [right|exact: erefl]].
  by exists [:: 1%N]; [exact: erefl|split; [right|exact: erefl]].
have [y -> [[Wy Ey Ny Cy My] Dy]] :=
  rp_bin_single Z.sub (fun a b => a - b) (muln1 1%N) Rz Rh Hp Es Ns.
exists y; first exact: erefl.
case: Hs => Es'; rewrite /np_atleast_1d Ey Es'; split; try exact: Dy; split; try exact: Cy; try exact: My; try exact: erefl.
- by move: Wy; rewrite /wf Ey Es'.
- exact: Wy.
by rewrite Ey Es'.
Qed.

Lemma e_correct_state_rp n m (x Kk z zh : arr) (X : 'cV[F]_n) (MK : 'M[F]_(n, m)) :
  rp [:: n] x X -> rpf [:: n; m] Kk MK -> good_obs m z -> good_obs m zh -> promote (dt z) (dt zh) = DFloat ->
  exists2 y, correct_state x Kk z zh = Ok y & rpf [:: n] y (X + MK *m (mx m 1 z - mx m 1 zh)).
Proof.
move=> Rx [RK DK] Gz Gh Hp; rewrite /correct_state.
have [y -> [Ry Dy]] := e_residual_rp Gz Gh Hp; cbn [rbind].
have Hp1 : promote (dt Kk) (dt (np_atleast_1d y)) = DFloat by rewrite DK.
have [w -> [Rw Dw]] := rp_mv RK Ry Hp1; cbn [rbind]; rewrite np_addE.
have Hp2 : promote (dt x) (dt w) = DFloat by rewrite Dw; case: (dt x).
by have [c -> Rc] := rp_bin1 Z.add +%R Rx Rw Hp2; exists c => //; rewrite -mx_op_add.
Qed.

Lemma e_predict_rp n (self : ekf N) (x u P Q A y : arr) (MP : 'M[F]_n) :
  e_jA self x (Some u) = Ok A -> good_mat n n A -> e_f self x (Some u) = Ok y ->
  rp [:: n; n] P MP -> promote (dt P) (dt A) = DFloat -> cov_layout n Q -> clean Q ->
  exists2 C, ekf_predict self x (Some u) P Q = Ok (y, C) &
    rpf [:: n; n] C (mx n n A *m MP *m (mx n n A)^T + cov n Q).
Proof.
move=> EA /andP [LA CA] Ef RP Hd HQ CQ; rewrite /ekf_predict EA Ef; cbn [rbind].
by have [C -> RC] := project_cov_rp (rp_mat LA CA) RP Hd HQ CQ; exists C.
Qed.

Lemma e_update_rp n m (self : ekf N) (x P z R H zh : arr) (MP : 'M[F]_n) g :
  e_I self = np_identity N n ->
  e_jH self x = Ok H -> good_mat m n H -> e_h self x = Ok zh -> good_obs m zh ->
  good_vec n x -> rpf [:: n; n] P MP -> good_obs m z ->
  promote (dt z) (dt zh) = DFloat -> cov_layout m R -> clean R ->
  let MH := mx m n H in
  let S := MH *m MP *m MH^T + cov m R in
  let K := MP *m MH^T *m invmx S in
  if S \in unitmx then
    exists Kk y C, [/\ ekf_update self x P z R g = (rcons g Kk, Ok (y, C)),
      rpf [:: n; m] Kk K, rpf [:: n] y (mx n 1 x + K *m (mx m 1 z - mx m 1 zh)) &
      rpf [:: n; n] C ((1%:M - K *m MH) *m MP)]
  else ekf_update self x P z R g = (g, Raise LinAlgError).
Proof.
move=> EI EH /andP [LH CH] Eh Gh Gx RP Gz Hp HR CR MH S K.
have RH := rp_mat LH CH.
rewrite /ekf_update /mbind /mlift EH.
have [S' -> RS] := innov_cov_rp RH RP HR CR.
have := gain_rp RS RH RP; rewrite -/S; case: ifP => _; last by move=> ->.
case=> Kk -> RK; rewrite /append_gain Eh.
have [y -> Ry] := e_correct_state_rp (good_rp Gx) RK Gz Gh Hp.
have [C EC RC] := correct_cov_rp RK RH RP.
by rewrite EI EC; exists Kk, y, C.
Qed.

(** ** Runs *)
Section Run.
Variables (n m : nat) (self : ekf N) (Z : arr) (U : option arr) (g : seq arr).
Hypothesis Hrun : e_exact_run n m self Z U.
Notation T := (e_steps self Z U).
Variable xs : nat -> arr.
(** xs is the run's own trajectory. *)
Hypothesis Hxs : forall k g' x P, (k <= T)%N ->
  e_by_hand self Z (control Z U) k g = (g', Ok (x, P)) -> xs k = x.
Let s := linearised n m self Z U xs.

Lemma e_iter_rp k : (k <= T)%N ->
  (exists g' x P,
     [/\ e_by_hand self Z (control Z U) k g = (g', Ok (x, P)),
         [/\ rp [:: n] x (post_x s k), rp [:: n; n] P (post_P s k) &
             (0 < k)%N -> dt x = DFloat /\ dt P = DFloat],
         (forall j, (j < k)%N -> innov s j \in unitmx),
         size g' = (size g + k)%N /\ take (size g) g' = g &
         forall j, (j < k)%N -> rpf [:: n; m] (nth (np_zeros N [::]) g' (size g + j)) (gain_at s j)]) \/
  (exists j g', [/\ (j < k)%N, innov s j \notin unitmx,
     (forall i, (i < j)%N -> innov s i \in unitmx),
     e_by_hand self Z (control Z U) k g = (g', Raise LinAlgError) &
     size g' = (size g + j)%N /\ take (size g) g' = g /\
     forall i, (i < j)%N -> rpf [:: n; m] (nth (np_zeros N [::]) g' (size g + i)) (gain_at s i)]).
Proof.
have [Hc Hit Hn Gx [GP Hl Hcal HdP HdZ]] := Hrun.
elim: k => [|k IH] Hk.
  left; exists g, (e_xk self), (e_Pk self); split=> //.
    by split=> //; [exact: good_rp|case/andP: GP => ? ?; exact: rp_mat].
  by rewrite addn0 take_size.
rewrite e_by_hand_rows // (take_nth (erow_at self Z (control Z U) 0)) ?size_e_rows_of // iter_rows_rcons.
rewrite (nth_map 0%N) ?size_iota // nth_iota // add0n /mbind -e_by_hand_rows ?(ltnW Hk) //.
case: (IH (ltnW Hk)) => [[g1 [x [P [E [Rx RP Df] Hu [Hg Hg'] Hgn]]]]|[j [g1 [Hj Hnu Hpre E Hg]]]]; rewrite E; last first.
  by right; exists j, g1; split=> //; exact: ltnW.
have Ex := Hxs (ltnW Hk) E.
have [/andP [LQ CQ] /andP [LR CR] GZ] := Hl _ Hk.
have Gxk := rp_good Rx.
have [y [A [_ [_ [[Ey Gy] [EA GA] _ _]]]]] := Hcal k x Hk Gxk.
have [_ [_ [zh [H [_ _ [Ezh Gzh] [EH GH]]]]]] := Hcal k y Hk Gy.
have Hp : promote (dt P) (dt A) = DFloat.
  case: HdP => [HP|HA]; last by rewrite (HA _ _ _ EA); case: (dt P).
  case: k {IH Hl Hcal Hk Ex Rx RP Hu Hg Hgn LQ CQ LR CR GZ Ey EA} Df E => [_ [_ _ <-]|k Df E].
    by rewrite HP.
  by have [//|_ ->] := Df.
have HpZ : promote (dt (row Z k)) (dt zh) = DFloat.
  by case: HdZ => [HZf|Hh]; [rewrite dt_row HZf|rewrite (Hh _ _ Ezh); case: (dt (row Z k))].
have [C Ep RC] := e_predict_rp EA GA Ey RP Hp LQ CQ.
rewrite /ekf_step /mbind /mlift; cbn [eU eQ eZ eR erow_at fst snd]; rewrite Ep; cbn [fst snd].
have EI : e_I self = np_identity N n by rewrite (e_constructed_I Hc) Hn.
have EAk : mA s k = mx n n A by rewrite /s /linearised /= Ex EA.
have EHk : mH s k = mx m n H by rewrite /s /linearised /= Ex Ey /= EH.
have Epx : pred_x s k = mx n 1 y.
  rewrite /pred_x /prior_x EAk /s /linearised /= Ex EA Ey /= -/s.
  by case: Rx => _ _ _ _ <-; rewrite addrC subrK.
have Epz : mz s k - mH s k *m pred_x s k = mx m 1 (row Z k) - mx m 1 zh.
  by rewrite Epx EHk /s /linearised /= Ex Ey /= EH Ezh /= addrK.
have EpP : pred_P s k = mx n n A *m post_P s k *m (mx n n A)^T + cov n (row (e_Q self) k).
  by rewrite /pred_P /prior_P EAk.
have := e_update_rp g1 EI EH GH Ezh Gzh Gy RC GZ HpZ LR CR.
rewrite -EpP -EHk; cbv zeta.
rewrite [_ + cov m (row (e_R self) k)](_ : _ = innov s k) //; case: ifP => HS; last first.
  by move=> ->; right; exists k, g1; split=> //; rewrite HS.
case=> Kk [y' [C' [-> RK Ry' RC']]].
left; exists (rcons g1 Kk), y', C'; split=> //.
- case: Ry' => Ry' Dy'; case: RC' => RC' DC'; split=> //.
  by move: Ry'; rewrite -Epz -Epx.
- move=> j; rewrite ltnS leq_eqVlt => /orP [/eqP ->|Hj] //; exact: Hu.
- rewrite size_rcons Hg addnS; split=> //.
  by rewrite -cats1 takel_cat // Hg leq_addr.
move=> j; rewrite ltnS leq_eqVlt => /orP [/eqP ->|Hj].
  by rewrite -Hg nth_rcons ltnn eqxx.
by rewrite nth_rcons Hg ltn_add2l Hj; exact: Hgn.
Qed.

Lemma e_filter_rp :
  (exists g' st er,
     [/\ ekf_filter self Z U g = (g', Ok (st, er)),
         (forall k, (k < T)%N -> innov s k \in unitmx),
         (forall k, (k < T)%N -> rpf [:: n] (row st k) (post_x s k.+1) /\
                                 rpf [:: n; n] (row er k) (post_P s k.+1)),
         size g' = (size g + T)%N /\ take (size g) g' = g &
         forall k, (k < T)%N -> rpf [:: n; m] (nth (np_zeros N [::]) g' (size g + k)) (gain_at s k)]) \/
  (exists j g', [/\ (j < T)%N, innov s j \notin unitmx,
     (forall i, (i < j)%N -> innov s i \in unitmx),
     ekf_filter self Z U g = (g', Raise LinAlgError) &
     size g' = (size g + j)%N /\ take (size g) g' = g /\
     forall i, (i < j)%N -> rpf [:: n; m] (nth (np_zeros N [::]) g' (size g + i)) (gain_at s i)]).
Proof.
have [Hc Hit Hn _ _] := Hrun.
case E: (ekf_filter self Z U g) => [g' [[st er]|e]]; last first.
  right; have [j [Hj Hpre Hend]] := e_filter_raises Hit E.
  have {Hend}Eh : e_by_hand self Z (control Z U) j.+1 g = (g', Raise e).
    case: Hend => // -[_ [xP [Eh Hs]]].
    have [[g1 [x [P [E1 [Rx RP _] _ _ _]]]]|[j' [g1 [_ _ _ E1 _]]]] := e_iter_rp Hj;
      rewrite E1 in Eh => //.
    case: Eh => _ Ex; move: Hs; rewrite -Ex.
    rewrite Hn (@storable_ok _ n m) ?(rp_has RP) //.
    by apply: vrp_vecs; exists [:: n]; [left|exact: Rx].
  have [[g1 [x [P [E1 _ _ _ _]]]]|[i [g1 [Hi Hnu Hpre1 E1 Hg]]]] := e_iter_rp Hj; rewrite E1 in Eh => //.
  case: Eh => Eg Ee; subst g1 e; exists i, g'; split=> //.
  exact: leq_trans Hi Hj.
left; exists g', st, er.
have [_ Hs Hr _] := e_filter_ok E; rewrite Hn in Hr.
have HT : exists x P, e_by_hand self Z (control Z U) T g = (g', Ok (x, P)).
  have [[x P]] := e_filter_gains_at E (leqnn T); rewrite -Hs take_size => Eh; by exists x, P.
case: HT => x [P Eh].
have [[g1 [x1 [P1 [E1 [Rx RP _] Hu Hg Hgn]]]]|[i [g1 [_ _ _ E1 _]]]] := e_iter_rp (leqnn T); rewrite E1 in Eh => //.
case: Eh => Eg Ex EP; subst g1 x1 P1; split=> // k Hk.
have [x1 [P1 [E2 _ -> ->]]] := Hr k Hk.
have [[g1 [x2 [P2 [E3 [Rx2 RP2 Df] _ _ _]]]]|[i [g1 [_ _ _ E3 _]]]] := e_iter_rp Hk; rewrite E3 in E2 => //.
case: E2 => _ Ex EP; subst x2 P2; have [//|D1 D2] := Df; split.
  by apply: (@fit_vrpf _ _ _ n 2); exists [:: n] => //; left.
by apply: fit_rpf.
Qed.
End Run.

(** Two trajectories of a run. *)
Definition own_x (self : ekf N) (Z : arr) (U : option arr) (g : seq arr) (k : nat) : arr :=
  if e_by_hand self Z (control Z U) k g is (_, Ok (x, _)) then x else e_xk self.

Lemma own_xP (self : ekf N) Z U g k g' x P :
  e_by_hand self Z (control Z U) k g = (g', Ok (x, P)) -> own_x self Z U g k = x.
Proof. by rewrite /own_x => ->. Qed.

Lemma st_xP n m (self : ekf N) Z U g gf st er k g' x P : e_exact_run n m self Z U ->
  ekf_filter self Z U g = (gf, Ok (st, er)) -> (k <= e_steps self Z U)%N ->
  e_by_hand self Z (control Z U) k g = (g', Ok (x, P)) -> e_x_before self st k = x.
Proof.
move=> Hrun E; have Hn : e_size self = n by case: Hrun.
case: k => [_ [_ <-]|k Hk Eh] //=.
have [_ _ Hr _] := e_filter_ok E; rewrite Hn in Hr.
have [x1 [P1 [E2 _ -> _]]] := Hr k Hk.
rewrite Eh in E2; case: E2 => _ <- _.
have Hown : forall k g' x P, (k <= e_steps self Z U)%N ->
    e_by_hand self Z (control Z U) k g = (g', Ok (x, P)) -> own_x self Z U g k = x.
  by move=> j gj xj Pj _; exact: own_xP.
have [[g1 [x2 [P2 [E3 [[W Ex Nx C _] _ Df] _ _ _]]]]|[i [g1 [_ _ _ E3 _]]]] := e_iter_rp Hrun Hown Hk;
  rewrite E3 in Eh => //.
case: Eh => _ e1 e2; subst x2 P2; have [//|D1 _] := Df.
by rewrite -Ex fit_id.
Qed.

End EkfRun.
