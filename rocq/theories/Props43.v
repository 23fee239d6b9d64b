(** * Props43: C110 continued: the two pendulum programs and the smoothing of a
    position and velocity

    The programs are those of Examples.v.  [row a k] is a[k]; [mx n m a] reads
    the numbers of an array of n*m numbers as a matrix. *)
From Coq Require Import ZArith.
From mathcomp Require Import all_ssreflect all_algebra.
From Verif Require Import Np NpLemmas Kf Ekf ApiSpec Loop Frame FilterLemmas FilterThms SmoothLemmas NpShapes WellShaped UtilThms
  Exact Repr Textbook RunSpec Refine Refine2 Build Outputs RingTac Loewner KalmanAlg TextbookThms LeastSq
  EkfRun EkfRun2 EkfBuild Props1 Props2 Props3 Props4 Props5 Props10 Examples ExampleThms Props42.

Set Implicit Arguments.
Unset Strict Implicit.
Unset Printing Implicit Defensive.
Import GRing.Theory Num.Theory Order.Theory.
Local Open Scope ring_scope.
Delimit Scope Z_scope with Z. Delimit Scope nat_scope with N.

Section C110.
Variable F : realFieldType.
Variable oracle : oracle_type F.
Variable n2i : Z.
Add Field Ffield : (mc_field F).
Add Field Ffield1 : (mc_field1 F).
Add Field Ffield2 : (mc_field2 F).
Ltac mring := mc_norm F; mc_eq; ring.
Ltac mfield := mc_norm F; mc_eq; field.
Notation N := (exact oracle n2i).
Notation arr := (arr N).
Notation vec := (vec_arr oracle n2i).
Notation mat := (mx_arr oracle n2i).
Notation mats := (mxs_arr oracle n2i).
Notation nums := (nums_arr oracle n2i).

Lemma quad_mat2 (a b d : F) (v : 'cV[F]_2) :
  quad (mat2 a b b d) v = a * v 0 0 ^+ 2 + 2%:R * b * v 0 0 * v 1 0 + d * v 1 0 ^+ 2.
Proof.
rewrite /quad !mxE sum2 !mxE !sum2 !mxE /= !expr2 (_ : 2%:R = 1 + 1) //.
move: (v 0 0) (v 1 0) => s t; mring.
Qed.

Lemma mat2_sym (a b d : F) : (mat2 a b b d)^T = mat2 a b b d.
Proof. by apply/matrixP => i j; rewrite !mxE; case: ifP => h1; case: ifP => h2. Qed.

Lemma v2_eq0 (v : 'cV[F]_2) : v 0 0 = 0 -> v 1 0 = 0 -> v = 0.
Proof.
move=> h0 h1; apply/matrixP => i j; rewrite ord1 [RHS]mxE; case: i => -[|[|]] //= h.
  by rewrite -[RHS]h0; congr (v _ _); apply: val_inj.
by rewrite -[RHS]h1; congr (v _ _); apply: val_inj.
Qed.

Lemma pd_swing_cov (dt c : F) : 0 < dt -> 0 < c -> pd (swing_cov dt c).
Proof.
move=> hdt hc; apply: pd_scale => //; split=> [|v hv]; first exact: mat2_sym.
rewrite quad_mat2; set u := v 0 0; set w := v 1 0.
have -> : dt ^+ 3 / 3%:R * u ^+ 2 + 2%:R * (dt ^+ 2 / 2%:R) * u * w + dt * w ^+ 2 =
          dt * ((dt * u / 2%:R + w) ^+ 2 + dt ^+ 2 * u ^+ 2 / 12%:R).
  have e2 : (2%:R : F) = 1 + 1 by [].
  have e3 : (3%:R : F) = 1 + 1 + 1 by rewrite !mulrS mulr0n addr0 addrA.
  have e12 : (12%:R : F) = (1 + 1) * (1 + 1) * (1 + 1 + 1) by rewrite -e3 -e2 -!natrM.
  have h2 : (1 + 1 : F) <> 0 by apply/eqP; rewrite -e2 pnatr_eq0.
  have h3 : (1 + 1 + 1 : F) <> 0 by apply/eqP; rewrite -e3 pnatr_eq0.
  rewrite e12 e3 e2.
  have -> : dt ^+ 3 = dt * dt * dt by rewrite !exprS expr0 mulr1 mulrA.
  have h3' : (1 + (1 + 1) : F) <> 0 by rewrite addrA.
  have h12' : (1 + 1) * ((1 + 1) * (1 + (1 + 1))) <> 0 :> F by apply/eqP; rewrite !mulf_neq0 //; apply/eqP.
  by rewrite !expr2; mfield; split; [exact: h12'|split; [exact: h2|exact: h3']].
rewrite pmulr_rgt0 //; have h12 : (0 : F) < 12%:R by rewrite ltr0n.
case: (altP (u =P 0)) => [hu|hu]; last first.
  apply: ltr_paddl; first exact: sqr_ge0.
  by apply: divr_gt0 => //; apply: mulr_gt0; [exact: exprn_gt0|rewrite exprn_even_gt0].
have hw : w != 0 by apply: contra hv => /eqP hw; apply/eqP/v2_eq0.
rewrite hu mulr0 mul0r add0r expr0n /= mulr0 mul0r addr0.
by rewrite exprn_even_gt0.
Qed.

(** ** The pendulum *)
Section Pendulum.
Variables (sn cs : F -> F) (dt G : F) (T : nat) (z : nat -> F) (x0 p c r : F).
Notation f := (swing sn dt G).
Notation jf := (swing_jac cs dt G).
Notation h := (seen sn).
Notation jh := (seen_jac cs).
Hypothesis hdt : 0 < dt.
Hypothesis hc : 0 < c.
Hypothesis hr : 0 < r.
Hypothesis hp : 0 <= p.

Let self : ekf N := Ekf (py_swing sn dt G) (@py_seen _ oracle n2i sn) (py_swing_jac cs dt G) (@py_seen_jac _ oracle n2i cs)
  (vec (col2 x0 0)) (mat (p%:M : 'M_2)) (mats T (fun _ => swing_cov dt c)) (nums T (fun _ => r)) 2 (np_identity N 2) [::].
Let Z := nums T z.

Lemma pendulum_init : pendulum_filter oracle n2i sn cs dt G T x0 p c r = Ok self.
Proof. by []. Qed.

Lemma pendulum_steps : e_steps self Z None = T.
Proof. by rewrite /e_steps /= /nrows /= !minnn. Qed.

Lemma pendulum_rows k : (k < T)%N -> [/\ row (e_Q self) k = mat (swing_cov dt c), row (e_R self) k = num_arr oracle n2i r &
  row Z k = num_arr oracle n2i (z k)].
Proof. by move=> Hk; rewrite /self; cbn [e_Q e_R]; rewrite mxs_row // !nums_row. Qed.

Lemma pendulum_run : e_exact_run 2 1 self Z None.
Proof.
split; [|by []|by []|exact: good_vec_arr|].
  by exists (e_xk self), (e_Pk self), (e_Q self), (e_R self), (e_f self), (e_h self), (e_jA self), (e_jH self), self, [::].
split; [exact: good_mat_arr| | |by left|by left].
  move=> k; rewrite pendulum_steps => /pendulum_rows [-> -> ->].
  by split.
move=> k x Hk Hx; do 4 eexists.
by split; split; reflexivity.
Qed.

(** State and covariance before step k, read off the results. *)
Definition x_prev (st : arr) (k : nat) : 'cV[F]_2 := if k is j.+1 then mx 2 1 (row st j) else col2 x0 0.
Definition P_prev (er : arr) (k : nat) : 'M[F]_2 := if k is j.+1 then mx 2 2 (row er j) else p%:M.

Let noise k : (k < T)%N -> pd (cov 2 (row (e_Q self) k)) /\ pd (cov 1 (row (e_R self) k)).
Proof.
by move=> /pendulum_rows [-> -> _]; rewrite cov_arr cov_num const1; split; [exact: pd_swing_cov|exact: pd_sc].
Qed.
Let start : psd (mx 2 2 (e_Pk self)).
Proof.
rewrite mx_arr_mx -scalemx1; apply: psd_scale => //; exact/pd_psd/pd_1.
Qed.

Lemma pendulum_step g g' st er : ekf_filter self Z None g = (g', Ok (st, er)) ->
  [/\ shp st = [:: T; 2]%N, shp er = [:: T; 2; 2]%N & forall k, (k < T)%N ->
    let x := x_prev st k in let P := P_prev er k in
    let Pm := jf x *m P *m (jf x)^T + swing_cov dt c in
    let H := jh (f x) in
    let S := (H *m Pm *m H^T) 0 0 + r in
    let K := S^-1 *: (Pm *m H^T) in
    [/\ 0 < S, mx 2 1 (row st k) = f x + (z k - h (f x)) *: K, mx 2 2 (row er k) = Pm - K *m H *m Pm &
        pd (mx 2 2 (row er k))]].
Proof.
move=> E; have [/shaped S1 /shaped S2] := e_filter_shapes E; split; [exact: S1|exact: S2|].
have Hrun := pendulum_run; move=> k Hk x P Pm H S K.
have HkT : (k < e_steps self Z None)%N by rewrite pendulum_steps.
have [_ /(_ k HkT)] := C47_filter_computes_the_textbook_step Hrun E.
have Ex : mx 2 1 (e_x_before self st k) = x by rewrite /x; case: (k) => [|j]; [exact: vec_arr_mx|].
have EP : mx 2 2 (e_P_before self er k) = P by rewrite /P; case: (k) => [|j]; [exact: mx_arr_mx|].
cbv zeta; rewrite EP => -[y [A [zh [MH [[Ey EA] [Ezh EH] He]]]]].
have [Ey1] : Ok (vec (f (mx 2 1 (e_x_before self st k)))) = Ok y := Ey.
have [EA1] : Ok (mat (jf (mx 2 1 (e_x_before self st k)))) = Ok A := EA.
have [Ez1] : Ok (num_arr oracle n2i (h (mx 2 1 y))) = Ok zh := Ezh.
have [EH1] : Ok (mat (jh (mx 2 1 y))) = Ok MH := EH.
move: He; rewrite -EH1 -Ez1 -EA1 -Ey1 Ex !vec_arr_mx !mx_arr_mx !num_mx.
have [-> -> ->] := pendulum_rows Hk; rewrite cov_arr cov_num !num_mx !const1.
rewrite -/Pm -/H; set S' := _ + r%:M.
have ES : S' = S%:M by rewrite [S']mx11_scalar mxE [r%:M 0 0]mxE eqxx mulr1n.
rewrite ES invmx_scalar mul_mx_scalar -/K => -[_ e1 e2 _ _].
have [_ Ee _ _ _] := e_filter_out Hrun E HkT.
have Hpd : pd (mx 2 2 (row er k)).
  have [_ _ -> _ _] := e_filter_out Hrun E HkT.
  have [] := @post_pd_Q _ _ _ (linearised 2 1 self Z None (e_x_before self st)) T start _ _ k Hk => //.
    by move=> i Hi; have [] := noise Hi.
  by move=> i Hi; have [] := noise Hi.
split=> //.
- have psdP : psd P.
    rewrite -EP; have [_ ->] := e_before_out Hrun E (ltnW HkT).
    apply: (@post_psd_pd _ _ _ _ T) => //; [..|exact: ltnW] => i Hi; first by have [/pd_psd] := noise Hi.
    by have [] := noise Hi.
  have hS : pd S'.
    apply: pd_addr; last exact: pd_sc.
    by apply: psd_conj; apply: psd_add; [exact: psd_conj|exact/pd_psd/pd_swing_cov].
  have [_ /(_ (const_mx 1))] := hS; rewrite ES /quad mul_mx_scalar -scalemxAl !mxE big_ord1 !mxE !mulr1.
  by apply; apply/eqP => /matrixP /(_ 0 0) /eqP; rewrite !mxE oner_eq0.
- by rewrite e1 scB mul_mx_scalar.
by rewrite e2 mulmxBl mul1mx.
Qed.

(** What step k of the textbook extended filter does with these functions. *)
Definition pendulum_equations (st er : arr) (k : nat) : Prop :=
  let x := x_prev st k in let P := P_prev er k in
  let Pm := jf x *m P *m (jf x)^T + swing_cov dt c in
  let H := jh (f x) in
  let S := (H *m Pm *m H^T) 0 0 + r in
  let K := S^-1 *: (Pm *m H^T) in
  [/\ 0 < S, mx 2 1 (row st k) = f x + (z k - h (f x)) *: K, mx 2 2 (row er k) = Pm - K *m H *m Pm &
      pd (mx 2 2 (row er k))].

Theorem C110_pendulum : exists states errors,
  pendulum oracle n2i sn cs dt G T z x0 p c r = Ok (states, errors) /\
  [/\ shp states = [:: T; 2]%N, shp errors = [:: T; 2; 2]%N &
      forall k, (k < T)%N -> pendulum_equations states errors k].
Proof.
have Hrun := pendulum_run.
have [|g' [st [er E]]] := C50_no_failure_with_noisy_sensors [::] Hrun start.
  by move=> k; rewrite pendulum_steps => Hk; have [/pd_psd] := noise Hk.
exists st, er; split; last exact: pendulum_step E.
by rewrite /pendulum pendulum_init; cbn [rbind e_gains]; rewrite E.
Qed.

Theorem C110_pendulum_smoothing : (0 < T)%N -> exists states errors xs Ps,
  pendulum oracle n2i sn cs dt G T z x0 p c r = Ok (states, errors) /\
  pendulum_smoothing oracle n2i sn cs dt G T z x0 p c r = Ok ((states, errors), (xs, Ps)) /\
  [/\ shp xs = [:: T; 2]%N, shp Ps = [:: T; 2; 2]%N,
      row xs T.-1 = row states T.-1 /\ row Ps T.-1 = row errors T.-1,
      (forall k, (k.+1 < T)%N ->
        let x := mx 2 1 (row states k) in let P := mx 2 2 (row errors k) in
        let Pm := jf x *m P *m (jf x)^T + swing_cov dt c in
        let C := P *m (jf x)^T *m invmx Pm in
        [/\ Pm \in unitmx, mx 2 1 (row xs k) = x + C *m (mx 2 1 (row xs k.+1) - f x) &
            mx 2 2 (row Ps k) = P + C *m (mx 2 2 (row Ps k.+1) - Pm) *m C^T]) &
      forall k i, (k < T)%N -> 0 <= mx 2 2 (row Ps k) i i <= mx 2 2 (row errors k) i i].
Proof.
move=> HT0; have Hrun := pendulum_run.
have HT : e_steps self Z None = nrows Z by exact: pendulum_steps.
have HL : nrows Z = T.-1.+1 by rewrite prednK.
have noise' k : (k < e_steps self Z None)%N -> pd (cov 2 (row (e_Q self) k)) /\ pd (cov 1 (row (e_R self) k)).
  by rewrite pendulum_steps; exact: noise.
have noise2 k : (k < e_steps self Z None)%N -> psd (cov 2 (row (e_Q self) k)) /\ psd (cov 1 (row (e_R self) k)).
  by move=> /noise' [/pd_psd ? /pd_psd ?].
have [|g' [st [er E]]] := C50_no_failure_with_noisy_sensors [::] Hrun start.
  by move=> k /noise' [/pd_psd].
have [gf [xs [Ps Es]]] := C50_no_smooth_failure_with_noisy_dynamics g' Hrun HT HL start noise'.
have [st2 [er2 [E2 L1 L2 _]]] := C15_smooth_last_extended Es.
have [? ?] : st2 = st /\ er2 = er.
  by move: E2; rewrite framed_efilter E => -[_ <- <-].
exists st, er, xs, Ps; split; [|split].
- by rewrite /pendulum pendulum_init; cbn [rbind e_gains]; rewrite E.
- by rewrite /pendulum_smoothing pendulum_init; cbn [rbind e_gains]; rewrite E; cbn [rbind fst snd]; rewrite Es.
subst st2 er2.
have [/shaped S1 /shaped S2] := e_smooth_shapes Es; split; [exact: S1|exact: S2|by split| |].
- move=> k Hk; have [st3 [er3 [E3 [_ _ eqs]]]] := C47_smooth_computes_the_textbook_step Hrun HT HL Es.
  have [? ?] : st3 = st /\ er3 = er by move: E3; rewrite E2 => -[].
  subst st3 er3; have [|y [A [Ey EA]]] := eqs k; first by rewrite -ltnS prednK.
  have [Ey1] : Ok (vec (f (mx 2 1 (row st k)))) = Ok y := Ey.
  have [EA1] : Ok (mat (jf (mx 2 1 (row st k)))) = Ok A := EA.
  have [-> _ _] := pendulum_rows Hk; rewrite -EA1 -Ey1 vec_arr_mx !mx_arr_mx cov_arr.
  by case.
move=> k i Hk; have [st3 [er3 [E3 eqs]]] := C49_smoothing_never_increases_uncertainty Hrun start noise2 HT Es.
have [? ?] : st3 = st /\ er3 = er by move: E3; rewrite E2 => -[].
subst st3 er3; have [|h1 _ h2 _] := eqs k; first by rewrite pendulum_steps.
by rewrite h2 andbT; exact: psd_diag.
Qed.
End Pendulum.

(** ** Smoothing a position and velocity *)
Section ConstantVelocity.
Variables (T : nat) (z : nat -> F) (dt v r p : F).
Hypothesis hT : (0 < T)%N.
Hypothesis hv : 0 <= v.
Hypothesis hr : 0 < r.
Hypothesis hp : 0 < p.

(** A step of time dt at constant velocity, and what a constant acceleration
    adds during it. *)
Notation move_ := (mat2 1 dt 0 1).
Definition push : 'cV[F]_2 := col2 (dt ^+ 2 / 2%:R) dt.
Notation H := (row2 1 0).

Lemma transition_push : transition_covariance dt v = v *: (push *m push^T).
Proof.
congr (_ *: _); apply/matrixP => i j; rewrite !mxE big_ord1 !mxE.
have e4 : (4%:R : F) = 2%:R * 2%:R by rewrite -natrM.
case: (i == 0); case: (j == 0); rewrite ?e4.
- by rewrite [RHS]mulf_div -exprD.
- by rewrite [RHS]mulrAC -exprSr.
- by rewrite [RHS]mulrA -exprS.
by rewrite expr2.
Qed.

Lemma transition_psd : psd (transition_covariance dt v).
Proof.
rewrite transition_push; apply: psd_scale => //; have := psd_conj push (pd_psd (pd_1 F 1)).
by rewrite mulmx1.
Qed.

Lemma move_unit : move_ \in unitmx.
Proof.
apply: (@mulmx1_unit _ _ _ (mat2 1 (- dt) 0 1) _).1; apply/matrixP => i j.
by rewrite !mxE sum2 !mxE; case: i => -[|[|]] // hi; case: j => -[|[|]] // hj /=; rewrite ?mul1r ?mulr1 ?mul0r ?mulr0 ?addr0 ?add0r ?addNr.
Qed.

(** The estimate before step k, read off the results; the first step does not
    move. *)
Definition x_moved (st : arr) (k : nat) : 'cV[F]_2 := if k is j.+1 then move_ *m mx 2 1 (row st j) else 0.
Definition P_moved (er : arr) (k : nat) : 'M[F]_2 :=
  if k is j.+1 then move_ *m mx 2 2 (row er j) *m move_^T + v *: (push *m push^T) else p%:M.

Theorem C110_constant_velocity : exists states errors xs Ps,
  constant_velocity oracle n2i T z dt v r p = Ok ((states, errors), (xs, Ps)) /\
  [/\ shp states = [:: T; 2]%N, shp errors = [:: T; 2; 2]%N, shp xs = [:: T; 2]%N /\ shp Ps = [:: T; 2; 2]%N,
      row xs T.-1 = row states T.-1 /\ row Ps T.-1 = row errors T.-1 &
  [/\ forall k, (k < T)%N ->
        let x := x_moved states k in let P := P_moved errors k in
        let K := (P 0 0 + r)^-1 *: (P *m H^T) in
        [/\ pd P, mx 2 1 (row states k) = x + (z k - x 0 0) *: K, mx 2 2 (row errors k) = P - K *m H *m P &
            pd (mx 2 2 (row errors k))],
      forall k, (k.+1 < T)%N ->
        let C := mx 2 2 (row errors k) *m move_^T *m invmx (P_moved errors k.+1) in
        mx 2 1 (row xs k) = mx 2 1 (row states k) + C *m (mx 2 1 (row xs k.+1) - x_moved states k.+1) /\
        mx 2 2 (row Ps k) = mx 2 2 (row errors k) + C *m (mx 2 2 (row Ps k.+1) - P_moved errors k.+1) *m C^T &
      forall k i, (k < T)%N -> 0 <= mx 2 2 (row Ps k) i i <= mx 2 2 (row errors k) i i]].
Proof.
rewrite /constant_velocity.
pose A (k : nat) : 'M[F]_2 := if k is 0 then 1%:M else move_.
pose Hs (k : nat) : 'M[F]_(1, 2) := row2 1 0.
pose Qf (k : nat) : 'M[F]_2 := if k is 0 then 0 else transition_covariance dt v.
pose Q := mats T Qf; pose xk := vec (0 : 'cV[F]_2).
have Hx : vec_layout 2 1 xk && clean xk by [].
have HP : mat_layout 2 2 (mat (p%:M : 'M[F]_2)) && clean (mat (p%:M : 'M[F]_2)).
  by rewrite mat_layout_arr clean_mkF.
have HQ : sized Q /\ nrows Q = T by [].
have HQr k : (k < T)%N -> cov_layout 2 (row Q k) && clean (row Q k).
  by move=> Hk; rewrite mxs_row // clean_mkF andbT /cov_layout eqxx andbT; exact: wf_mkF.
have Hx0 : shape0 xk = Ok 2%N by [].
rewrite (plain_init T A Hs (fun _ => r) _ _ Hx0); cbn [rbind].
set self := plain _ _ _ _ _ _ _; set Z := nums T z.
have Hr : exact_run 2 1 2 self Z None by exact: plain_run.
have HsT : steps self Z None = T by exact: plain_steps.
pose s := model_of 2 1 2 self Z None.
have Hm k : (k < T)%N -> [/\ mA s k = A k, mc s k = 0, mH s k = row2 1 0, mQ s k = Qf k & mR s k = r%:M /\ mz s k = (z k)%:M].
  move=> Hk; have [-> -> -> -> [-> ->]] := plain_model A Hs (fun _ => r) z xk (mat (p%:M : 'M[F]_2)) Q Hk.
  by rewrite /Q mxs_row // cov_arr !const1.
have m0 : mx0 s = 0 by exact: vec_arr_mx.
have P0 : mP0 s = p%:M by exact: mx_arr_mx.
have h0 : pd (mP0 s) by rewrite P0; exact: pd_sc.
have hQ k : (k < T)%N -> psd (mQ s k).
  by move=> Hk; have [_ _ _ -> _] := Hm k Hk; case: (k) => [|j]; [exact: psd0|exact: transition_psd].
have hR k : (k < T)%N -> pd (mR s k) by move=> Hk; have [_ _ _ _ [-> _]] := Hm k Hk; exact: pd_sc.
have hA k : (k < T)%N -> mA s k \in unitmx.
  by move=> Hk; have [-> _ _ _ _] := Hm k Hk; case: (k) => [|j]; [exact: unitmx1|exact: move_unit].
have hpd := post_pd_A h0 hQ hR hA.
have hu k : (k < T)%N -> innov s k \in unitmx.
  by move=> Hk; apply: (@innov_unit _ _ _ _ T) => //; exact: pd_psd.
have HT : steps self Z None = nrows Z by rewrite HsT.
have HL : nrows Z = T.-1.+1 by rewrite prednK.
have LT k : (k <= T.-1)%N = (k < T)%N by rewrite -ltnS prednK.
have [|g' [st [er E]]] := filter_returns (kf_gains self) Hr; first by rewrite HsT.
have [||gf [xs [Ps Es]]] := smooth_returns g' Hr HT HL.
- by move=> k; rewrite LT; exact: hu.
- move=> k Hk; have Hk1 : (k.+1 < T)%N by rewrite -LT.
  by apply: pd_unit; have [_ /(_ Hk1)] := hpd _ (ltnW Hk1).
have [st2 [er2 [E2 L1 L2 _]]] := C15_smooth_last Es.
have [? ?] : st2 = st /\ er2 = er.
  by move: E2; rewrite framed_filter; move: E; rewrite framed_filter => -[_ Er] [_]; rewrite Er => -[<- <-].
subst st2 er2; exists st, er, xs, Ps; split; first by rewrite E; cbn [rbind fst snd]; rewrite Es.
have [/shaped S1 /shaped S2] := filter_shapes E; have [/shaped S3 /shaped S4] := smooth_shapes Es.
split; [exact: S1|exact: S2|by split; [exact: S3|exact: S4]|by split|].
have Ho k (Hk : (k < T)%N) := filter_out Hr E (etrans (congr1 _ HsT) Hk).
have Ex k : (k <= T)%N -> post_x s k = (if k is j.+1 then mx 2 1 (row st j) else 0) /\
                          post_P s k = (if k is j.+1 then mx 2 2 (row er j) else p%:M).
  case: k => [|k] Hk; first by split; [exact: m0|exact: P0].
  by have [_ e1 e2 _ _] := Ho k Hk; rewrite -e1 -e2.
have Epx k : (k < T)%N -> pred_x s k = x_moved st k.
  move=> Hk; have [a b _ _ _] := Hm k Hk; rewrite pred_xE a b addr0; have [-> _] := Ex k (ltnW Hk).
  by case: (k) => [|j] //; rewrite mulmx0.
have EpP k : (k < T)%N -> pred_P s k = P_moved er k.
  move=> Hk; have [a _ _ q _] := Hm k Hk; rewrite pred_PE /ucov a q; have [_ ->] := Ex k (ltnW Hk).
  by case: (k) => [|j]; rewrite /A /Qf /P_moved ?transition_push // mul1mx trmx1 mulmx1 addr0.
split.
- move=> k Hk; pose x := x_moved st k; pose P := P_moved er k; pose K := (P 0 0 + r)^-1 *: (P *m H^T).
  rewrite -/x -/P -/K; have [a b h q [R Ez]] := Hm k Hk; have [_ e1 e2 _ _] := Ho k Hk.
  have hP : pd P by rewrite /P -EpP //; have [_ /(_ Hk)] := hpd k (ltnW Hk).
  have ES : innov s k = (P 0 0 + r)%:M.
    rewrite innovE /ucov h R EpP // -/P [X in X + _]mx11_scalar scD; congr (_ + _)%:M.
    by rewrite !mxE sum2 !mxE !sum2 !mxE /=; mring.
  have EK : gain_at s k = K by rewrite gainE /ugain -innovE ES EpP // h invmx_scalar mul_mx_scalar.
  split; [exact: hP| | |].
  + rewrite e1 post_xS /ucorr -gainE EK Epx // h Ez -/x; congr (_ + _).
    have -> : row2 1 0 *m x = (x 0 0)%:M.
      by rewrite [LHS]mx11_scalar mxE sum2 !mxE /= mul1r mul0r addr0.
    by rewrite scB mul_mx_scalar.
  + by rewrite e2 post_PS /upost -gainE EK EpP // h mulmxBl mul1mx.
  by rewrite e2; have [] := hpd k.+1 Hk.
- move=> k Hk; pose C := mx 2 2 (row er k) *m move_^T *m invmx (P_moved er k.+1); rewrite -/C; have [hi hpu hs] := smooth_out Hr HT HL Es.
  have Hk0 := ltnW Hk; have [s1 s2 _ _] := hs k (etrans (LT k) Hk0).
  have [t1 t2 _ _] := hs k.+1 (etrans (LT _) Hk).
  have HkL : (k < T.-1)%N by rewrite -ltnS prednK.
  have [a _ _ _ _] := Hm k.+1 Hk; have [e1 e2] := Ex k.+1 Hk0.
  have EC : sgain s k = C by rewrite /sgain EpP // e2 a.
  split; first by rewrite s1 smooth_xS // -t1 Epx // EC e1.
  by rewrite s2 smooth_PS // -t2 EpP // EC e2.
move=> k i Hk; have [|st3 [er3 [E3 eqs]]] := C36_smoothing_does_not_increase_uncertainty Hr HT (pd_psd h0) _ Es.
  by move=> j; rewrite HsT => Hj; split; [exact: hQ|exact/pd_psd/hR].
have [? ?] : st3 = st /\ er3 = er by move: E3; rewrite E2 => -[].
subst st3 er3; have [|h1 _ h2 _] := eqs k; first by rewrite HsT.
by rewrite h2 andbT; exact: psd_diag.
Qed.
End ConstantVelocity.
End C110.

(** The constants of the five programs meet the hypotheses. *)
Section Case.
Variable F : realFieldType.
Notation d a b := (a%:R / b%:R : F).
Example C110_case :
  [/\ 0 < d 1%N 100%N,                                             (* market beta: 0.01, 0.01 *)
      0 < d 5%N 1000%N /\ 0 < d 1%N 100%N,                          (* moving average: 0.005, 0.01 *)
      [/\ 0 < d 1%N 100%N, 0 < d 1%N 100%N, 0 < d 1%N 10%N & 0 <= d 1%N 10%N],   (* pendulum: DT, 0.01, rk, 0.1 *)
      [/\ (0 < 300)%N, 0 < d 2%N 100%N, 0 < d 1%N 100%N, 0 < d 12%N 100%N ^+ 2 & 0 <= d 2%N 10%N] &  (* pendulum smoothing *)
      [/\ (0 < 200)%N, 0 <= d 35%N 100%N ^+ 2, 0 < 2%:R ^+ 2 :> F & 0 < 10%:R :> F]].  (* constant velocity *)
Proof. by split; [|split|split|split|split]; rewrite ?exprn_gt0 ?exprn_ge0 ?divr_gt0 ?divr_ge0 ?ltr0n ?ler0n. Qed.
End Case.
