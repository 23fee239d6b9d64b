(** * Props8: C29, C46: estimates and covariances on random data *)
From Coq Require Import ZArith.
From mathcomp Require Import all_ssreflect all_algebra.
From Verif Require Import Np NpLemmas Kf ApiSpec Exact Repr Textbook RunSpec Refine Refine2 Build Outputs
  RingTac Loewner KalmanAlg TextbookThms ExCases Prob BestLin.

Set Implicit Arguments.
Unset Strict Implicit.
Unset Printing Implicit Defensive.
Import GRing.Theory Num.Theory Order.Theory.
Local Open Scope ring_scope.

Section Props.
Variable F : realFieldType.
Variable oracle : oracle_type F.
Variable n2i : Z.
Notation N := (exact oracle n2i).
Notation arr := (arr N).

(** X - Y, for random vectors. *)
Definition rsub (W : prob F) n (X Y : rvec W n) : rvec W n := fun o => X o - Y o.

(** In every outcome o, the object (with the control U) holds the model s, and
    the array of observations Z o holds what the sensors show when the state
    follows the model with the noises e, w, v. *)
Definition random_data (W : prob F) (n m p : nat) (s : model F n m) (T : nat)
    (e : rvec W n) (w : nat -> rvec W n) (v : nat -> rvec W m)
    (self : kf N) (Z : Om W -> arr) (U : option arr) : Prop :=
  forall o, let s' := model_of n m p self (Z o) U in
  [/\ exact_run n m p self (Z o) U, steps self (Z o) U = T,
      mx0 s' = mx0 s, mP0 s' = mP0 s &
      forall k, (k < T)%N ->
        [/\ mA s' k = mA s k, mc s' k = mc s k, mH s' k = mH s k, mQ s' k = mQ s k &
            mR s' k = mR s k /\ mz s' k = sensed s e w v k o]].

(** The estimator B has mean error 0 and error covariance P; no affine function
    of the first k observations z has a smaller one, and only B (up to
    a random vector of second moment 0) attains it. *)
Definition best_linear (W : prob F) n m (z : nat -> rvec W m) (k : nat) (X B : rvec W n) (P : 'M[F]_n) : Prop :=
  [/\ affine_in z k B, mean (rsub X B) = 0, moment (rsub X B) (rsub X B) = P &
      forall Y, affine_in z k Y ->
        loewner P (moment (rsub X Y) (rsub X Y)) /\
        (moment (rsub X Y) (rsub X Y) = P -> moment (rsub B Y) (rsub B Y) = 0)].

Section Run.
Variables (W : prob F) (n m p : nat) (s : model F n m) (T : nat).
Variables (e : rvec W n) (w : nat -> rvec W n) (v : nat -> rvec W m).
Variables (self : kf N) (Z : Om W -> arr) (U : option arr) (g : seq arr).
Hypothesis Hw : white_noises s T e w v.
Hypothesis Hd : random_data p s T e w v self Z U.

Let sw o := model_of n m p self (Z o) U.
Let sw0 o : mx0 (sw o) = mx0 s /\ mP0 (sw o) = mP0 s. Proof. by have [_ _ h1 h2 _] := Hd o. Qed.
Let swk o k : (k < T)%N ->
  [/\ mA (sw o) k = mA s k, mc (sw o) k = mc s k, mH (sw o) k = mH s k, mQ (sw o) k = mQ s k &
      mR (sw o) k = mR s k /\ mz (sw o) k = sensed s e w v k o].
Proof. by have [_ _ _ _ h] := Hd o; exact: h. Qed.

Lemma some_outcome (b : bool) : (Om W -> b) -> b.
Proof.
case: b => // H; have E : Ex (fun _ : Om W => 1 : F) = Ex (fun _ : Om W => 0).
  by apply: Ex_ext => o; have := H o.
by move/eqP: E; rewrite Ex_one Ex0 oner_eq0.
Qed.

Lemma sw_innov o k : (k < T)%N -> innov (sw o) k = innov s k.
Proof.
move=> Hk; rewrite !innovE (sw_pred (sw := sw) sw0 swk o Hk).
by have [_ _ -> _ [-> _]] := swk o Hk.
Qed.

Section Filter.
Variables (g' : Om W -> seq arr) (st er : Om W -> arr).
Hypothesis E : forall o, kf_filter self (Z o) U g = (g' o, Ok (st o, er o)).

Lemma rf_units k : (k < T)%N -> innov s k \in unitmx.
Proof.
move=> Hk; apply: some_outcome => o; rewrite -(sw_innov o Hk).
by have [h ht _ _ _] := Hd o; apply: (filter_units h (E o)); rewrite ht.
Qed.

Lemma rf_out o k : (k < T)%N -> mx n 1 (row (st o) k) = post_x (sw o) k.+1 /\
  mx n n (row (er o) k) = post_P s k.+1.
Proof.
move=> Hk; have [h ht _ _ _] := Hd o; have Hk1 := Hk; rewrite -ht in Hk1.
have [_ -> -> _ _] := filter_out h (E o) Hk1; split=> //.
exact: (sw_P (sw := sw) sw0 swk o (k := k.+1)).
Qed.
End Filter.

(** ** C29: errors[k] is the covariance of the error of states[k], the best
    affine estimate of the state from observations 0..k *)
Theorem C29_best_linear g' st er : (forall o, kf_filter self (Z o) U g = (g' o, Ok (st o, er o))) ->
  forall k, (k < T)%N -> forall o,
  best_linear (sensed s e w v) k.+1 (true_state s e w k.+1)
              (fun o => mx n 1 (row (st o) k)) (mx n n (row (er o) k)).
Proof.
move=> E k Hk o; have inn := rf_units E; have Hk' : (k.+1 <= T)%N by [].
have [_ ->] := rf_out E o Hk.
have Ex o' : xh sw k.+1 o' = mx n 1 (row (st o') k) by have [-> _] := rf_out E o' Hk.
have [em ec _ _ _] := est_all Hw sw0 swk inn Hk'.
have Er o' : err s e w sw k.+1 o' = rsub (true_state s e w k.+1) (fun o => mx n 1 (row (st o) k)) o'.
  by rewrite /err /rsub Ex.
have aff := xh_aff sw0 swk Hk'.
split.
- exact: aff_ext Ex aff.
- by rewrite meanE -(eq_moment Er (fun=> erefl)) -meanE.
- by rewrite -(eq_moment Er Er).
move=> Y aY; have := filter_best Hw sw0 swk inn Hk' aY; cbv zeta => Eb.
have Ee o' : xh sw k.+1 o' - Y o' = rsub (fun o => mx n 1 (row (st o) k)) Y o' by rewrite /rsub -Ex.
rewrite (eq_moment Ee Ee) in Eb.
have LY := L2aff Hw (ltac:(exact: Hk') : (k.+1 <= T)%N) aY.
rewrite /rsub Eb; split; last by move/eqP; rewrite -subr_eq0 addrC addKr => /eqP.
rewrite /loewner addrC addKr; apply: moment_psd; apply: L2v_sub => //.
by apply: L2v_ext Ex _; exact: (L2aff Hw Hk' aff).
Qed.

(** ** C46: the smoother is the best affine estimate from all observations *)
Theorem C46_smooth_best_linear L g' xs Ps :
  T = L.+1 -> (forall o, nrows (Z o) = L.+1) ->
  (forall o, kf_smooth self (Z o) U g = (g' o, Ok (xs o, Ps o))) ->
  forall k, (k <= L)%N -> forall o,
  best_linear (sensed s e w v) L.+1 (true_state s e w k.+1)
              (fun o => mx n 1 (row (xs o) k)) (mx n n (row (Ps o) k)).
Proof.
move=> HT HZ E k Hk o; have HL : (L < T)%N by rewrite HT.
have Eo o' := let: And5 h ht _ _ _ := Hd o' in smooth_out h (etrans ht (etrans HT (esym (HZ o')))) (HZ o') (E o').
have inn j : (j < T)%N -> innov s j \in unitmx.
  move=> Hj; apply: some_outcome => o'; rewrite -(sw_innov o' Hj).
  by have [h _ _] := Eo o'; apply: h; rewrite -ltnS -HT.
have upr j : (j < L)%N -> pred_P s j.+1 \in unitmx.
  move=> Hj; apply: some_outcome => o'; rewrite -(sw_pred (sw := sw) sw0 swk o' (k := j.+1)) ?HT //.
  by have [_ h _] := Eo o'; exact: h.
have Ex o' : BestLin.xs sw L k o' = mx n 1 (row (xs o') k).
  by have [_ _ h] := Eo o'; have [-> _ _ _] := h k Hk.
have EP : mx n n (row (Ps o) k) = smooth_P s L k.
  have [_ _ h] := Eo o; have [_ -> _ _] := h k Hk.
  have [i Hi] : exists i, (k + i = L)%N by exists (L - k)%N; rewrite subnKC.
  elim: i {Ex} k Hi Hk => [|i IH] k Hi Hk.
    have -> : k = L by rewrite -Hi addn0.
    by rewrite !smooth_PT; exact: (sw_P (sw := sw) sw0 swk o (k := L.+1)).
  have HkL : (k < L)%N by rewrite -Hi addnS ltnS leq_addr.
  have HkT : (k.+1 < T)%N by rewrite HT.
  have IHk : smooth_P (model_of n m p self (Z o) U) L k.+1 = smooth_P s L k.+1.
    by apply: IH; rewrite ?addSn -?addnS.
  rewrite [LHS]smooth_PS // [RHS]smooth_PS // IHk; congr (_ + _).
    exact: (sw_P (sw := sw) sw0 swk o (ltnW HkT)).
  rewrite !sgainE (sw_P (sw := sw) sw0 swk o (ltnW HkT)) (sw_pred (sw := sw) sw0 swk o HkT).
  by have [-> _ _ -> _] := swk o HkT.
have [em ec _] := ests_all Hw sw0 swk inn HL upr Hk.
have Er o' : errs s e w sw L k o' = rsub (true_state s e w k.+1) (fun o => mx n 1 (row (xs o) k)) o'.
  by rewrite /errs /rsub Ex.
have aff := xs_aff sw0 swk HL Hk; rewrite EP.
split.
- exact: aff_ext Ex aff.
- by rewrite meanE -(eq_moment Er (fun=> erefl)) -meanE.
- by rewrite -(eq_moment Er Er).
move=> Y aY; have := smooth_best Hw sw0 swk inn HL upr Hk aY; cbv zeta => Eb.
have Ee o' : BestLin.xs sw L k o' - Y o' = rsub (fun o => mx n 1 (row (xs o) k)) Y o' by rewrite /rsub -Ex.
rewrite (eq_moment Ee Ee) in Eb.
have LY := L2aff Hw HL aY.
rewrite /rsub Eb; split; last by move/eqP; rewrite -subr_eq0 addrC addKr => /eqP.
rewrite /loewner addrC addKr; apply: moment_psd; apply: L2v_sub => //.
by apply: L2v_ext Ex _; exact: (L2aff Hw HL aff).
Qed.
End Run.

(** ** The hypotheses are met: the model of ExCases.v on a finite space

    22 equally likely outcomes (j, sign): outcome (j, b) makes the j-th of 11
    scalar noises (2 initial, 3 x 2 process, 3 x 1 observation) equal to 1 or
    -1 and the others 0. *)
Definition dice : prob F.
Proof.
apply: (@finite_prob F [finType of 'I_11 * bool] (fun _ => 22%:R^-1)).
- by move=> _; rewrite invr_ge0 ler0n.
- rewrite sumr_const card_prod card_ord card_bool -[LHS]mulr_natr mulVf //.
  by rewrite pnatr_eq0.
Defined.

Definition scalar_noise (a : nat) : 'I_11 * bool -> F :=
  fun o => if o.1 == a :> nat then (if o.2 then 1 else -1) else 0.
Definition dice_e : rvec dice 2 := fun o => \col_i scalar_noise i o.
Definition dice_w (k : nat) : rvec dice 2 := fun o => \col_i scalar_noise (2 + 2 * k + i) o.
Definition dice_v (k : nat) : rvec dice 1 := fun o => \col_i scalar_noise (8 + k) o.

Lemma dice_Ex f : Ex (p := dice) f = \sum_j (22%:R^-1 * f (j, true) + 22%:R^-1 * f (j, false)).
Proof.
transitivity (\sum_(q : 'I_11 * bool) (22%:R^-1 * f (q.1, q.2))).
  by apply: eq_bigr => -[j b].
rewrite -(pair_bigA _ (fun j b => 22%:R^-1 * f (j, b))); apply: eq_bigr => j _.
by rewrite big_bool.
Qed.

Lemma noise_mean a : Ex (p := dice) (fun o => scalar_noise a o) = 0.
Proof.
rewrite dice_Ex big1 // => j _; rewrite /scalar_noise /=; case: (_ == a); last by rewrite mulr0 addr0.
by rewrite mulrN subrr.
Qed.

Lemma noise_moment a b : (a < 11)%N ->
  Ex (p := dice) (fun o => scalar_noise a o * scalar_noise b o) = (a == b)%:R / 11%:R.
Proof.
move=> Ha; rewrite dice_Ex (bigD1 (Ordinal Ha)) //= big1 ?addr0 => [|j Hj]; last first.
  rewrite -val_eqE /= in Hj; rewrite /scalar_noise /= (negbTE Hj) !mul0r !mulr0 addr0 //.
rewrite /scalar_noise /= eqxx; case: (a == b); last by rewrite !mulr0 addr0 mul0r.
rewrite !mulrNN !mul1r mulr1 -mulr2n -mulr_natl -[22%N]/(2 * 11)%N natrM invfM mulrA divff ?mul1r //.
by rewrite pnatr_eq0.
Qed.

Definition dice_model : model F 2 1 := demo 11%:R^-1.

Lemma dice_white : white_noises dice_model 3 dice_e dice_w dice_v.
Proof.
have M (r c : nat) (a : 'I_r -> nat) (b : 'I_c -> nat) (X : rvec dice r) (Y : rvec dice c) :
    (forall o, X o = \col_i scalar_noise (a i) o) -> (forall o, Y o = \col_i scalar_noise (b i) o) ->
    (forall i, (a i < 11)%N) ->
    moment X Y = \matrix_(i, j) ((a i == b j)%:R / 11%:R).
  move=> EX EY Ha; apply/matrixP => i j; rewrite !mxE -noise_moment //.
  by apply: Ex_ext => o; rewrite EX EY !mxE.
have E0 r c (a : 'I_r -> nat) (b : 'I_c -> nat) : (forall i j, a i != b j) ->
    \matrix_(i, j) ((a i == b j)%:R / 11%:R) = 0 :> 'M[F]_(r, c).
  by move=> H; apply/matrixP => i j; rewrite !mxE (negbTE (H i j)) mul0r.
have E1 r (a : 'I_r -> nat) : injective a ->
    \matrix_(i, j) ((a i == a j)%:R / 11%:R) = (11%:R^-1)%:M :> 'M[F]_r.
  by move=> H; apply/matrixP => i j; rewrite !mxE (inj_eq H); case: (i == j); rewrite ?mul1r ?mul0r.
have mean0 r (a : 'I_r -> nat) (X : rvec dice r) : (forall o, X o = \col_i scalar_noise (a i) o) -> mean X = 0.
  move=> EX; apply/matrixP => i j; rewrite !mxE -(noise_mean (a i)).
  by apply: Ex_ext => o; rewrite EX mxE.
have we k (i : 'I_2) : (k < 3)%N -> (2 + 2 * k + i < 11)%N.
  by case: i => [[|[|]]] //= _; case: k => [|[|[|]]].
have lt2 (i : 'I_2) : (i < 11)%N by case: i => i Hi; apply: (leq_trans Hi).
have ve k : (k < 3)%N -> (8 + k < 11)%N by case: k => [|[|[|]]].
split.
- by [].
- exact: (mean0 _ (fun i => i)).
- by rewrite (M _ _ (fun i => i) (fun i => i)) ?E1 //; exact: val_inj.
- move=> k Hk; split.
    rewrite (M _ _ (fun i => i) (fun i : 'I_2 => (2 + 2 * k + i)%N)) ?E0 // => -[i Hi] j.
      by rewrite neq_ltn (leq_trans Hi) // -addnA leq_addr.
  rewrite (M _ _ (fun i => i) (fun i : 'I_1 => (8 + k)%N)) ?E0 // => -[i Hi] j.
    by rewrite neq_ltn (leq_trans Hi) // (leq_trans _ (leq_addr k 8)).
move=> k Hk; split.
- by [].
- by split; [exact: (mean0 _ (fun i : 'I_2 => (2 + 2 * k + i)%N))|exact: (mean0 _ (fun i : 'I_1 => (8 + k)%N))].
- split.
    rewrite (M _ _ (fun i : 'I_2 => (2 + 2 * k + i)%N) (fun i : 'I_2 => (2 + 2 * k + i)%N)) ?E1 // => [i j|i].
      by move/addnI/val_inj.
    exact: we.
  rewrite (M _ _ (fun i : 'I_1 => (8 + k)%N) (fun i : 'I_1 => (8 + k)%N)) ?E1 //.
  by move=> i j _; rewrite !ord1.
- move=> j Hj; rewrite (M _ _ (fun i : 'I_2 => (2 + 2 * k + i)%N) (fun i : 'I_1 => (8 + j)%N)) ?E0 // => [i i'|i]; last exact: we.
  rewrite neq_ltn; apply/orP; left; apply: leq_trans (leq_addr j 8).
  by case: i => [[|[|]]] //= _; case: k Hk => [|[|[|]]].
move=> j Hj; split.
  rewrite (M _ _ (fun i : 'I_2 => (2 + 2 * k + i)%N) (fun i : 'I_2 => (2 + 2 * j + i)%N)) ?E0 // => [i i'|i]; last exact: we.
  by case: i i' => [[|[|]]] //= _ [[|[|]]] //= _; case: k Hk Hj => [|[|[|]]] // _; case: j => [|[|]].
rewrite (M _ _ (fun i : 'I_1 => (8 + k)%N) (fun i : 'I_1 => (8 + j)%N)) ?E0 // => i i'.
by rewrite eqn_add2l neq_ltn Hj orbT.
Qed.

Definition with_z n m (s : model F n m) (z : nat -> 'cV[F]_m) : model F n m :=
  Model (mA s) (mc s) (mH s) (mQ s) (mR s) z (mx0 s) (mP0 s).

Definition dice_Z (o : Om dice) : arr :=
  build_Z oracle n2i (with_z dice_model (fun k => sensed dice_model dice_e dice_w dice_v k o)) 3.

Example C29_C46_case g :
  let self := demo_kf oracle n2i 11%:R^-1 in let U := demo_U oracle n2i 11%:R^-1 in
  white_noises dice_model 3 dice_e dice_w dice_v /\
  random_data 2 dice_model 3 dice_e dice_w dice_v self dice_Z U /\
  (forall o, nrows (dice_Z o) = 3%N) /\
  (exists g' st er, forall o, kf_filter self (dice_Z o) U g = (g' o, Ok (st o, er o))) /\
  (exists g' xs Ps, forall o, kf_smooth self (dice_Z o) U g = (g' o, Ok (xs o, Ps o))).
Proof.
move=> self U.
pose so o := with_z dice_model (fun k => sensed dice_model dice_e dice_w dice_v k o).
have Hr o : exact_run 2 1 2 self (dice_Z o) U := build_run oracle n2i (so o) 3.
have Hs o : steps self (dice_Z o) U = 3%N := build_steps oracle n2i (so o) 3.
have HZ o : nrows (dice_Z o) = 3%N by [].
have c0 : 0 < 11%:R^-1 :> F by rewrite invr_gt0 ltr0n.
have pdc n : pd ((11%:R^-1)%:M : 'M[F]_n) by rewrite -scalemx1; apply: pd_scale => //; exact: pd_1.
have Hm o k : (k < 3)%N -> let s' := model_of 2 1 2 self (dice_Z o) U in
   [/\ mA s' k = mA dice_model k, mc s' k = mc dice_model k, mH s' k = mH dice_model k,
       mQ s' k = mQ dice_model k & mR s' k = mR dice_model k /\ mz s' k = sensed dice_model dice_e dice_w dice_v k o].
  exact: (build_model oracle n2i (so o)).
have Hm0 o : let s' := model_of 2 1 2 self (dice_Z o) U in mx0 s' = mx0 dice_model /\ mP0 s' = mP0 dice_model.
  exact: (build_model0 oracle n2i (so o) 3).
split; first exact: dice_white.
split; first by move=> o s'; have [h1 h2] := Hm0 o; split=> //; exact: Hm.
split=> //.
have P0 o : pd (mP0 (model_of 2 1 2 self (dice_Z o) U)) by have [_ ->] := Hm0 o; exact: pdc.
have PQ o k : (k < 3)%N -> pd (mQ (model_of 2 1 2 self (dice_Z o) U) k).
  by move=> Hk; have [_ _ _ -> _] := Hm o k Hk; exact: pdc.
have PR o k : (k < 3)%N -> pd (mR (model_of 2 1 2 self (dice_Z o) U) k).
  by move=> Hk; have [_ _ _ _ [-> _]] := Hm o k Hk; exact: pdc.
have Hi o k : (k < 3)%N -> innov (model_of 2 1 2 self (dice_Z o) U) k \in unitmx.
  apply: innov_unit; [exact: pd_psd|by move=> j Hj; apply/pd_psd/PQ|exact: PR].
have ret A (f : seq arr * res A) : (exists g' r, f = (g', Ok r)) -> {r | f = (f.1, Ok r)}.
  by case: f => a [r|err] H; [exists r|exfalso; case: H => x [r]].
split.
  have R o : {r | kf_filter self (dice_Z o) U g = ((kf_filter self (dice_Z o) U g).1, Ok r)}.
    apply: ret; have [|g' [st [er ->]]] := @filter_returns _ _ _ _ _ _ _ _ _ g (Hr o).
      by rewrite Hs; exact: Hi.
    by exists g', (st, er).
  exists (fun o => (kf_filter self (dice_Z o) U g).1), (fun o => (sval (R o)).1), (fun o => (sval (R o)).2) => o.
  case: (R o) => -[st er] E; exact: E.
have R o : {r | kf_smooth self (dice_Z o) U g = ((kf_smooth self (dice_Z o) U g).1, Ok r)}.
  apply: ret; have [|||j Hj|g' [xs [Ps ->]]] := @smooth_returns _ _ _ _ _ _ _ _ _ g (Hr o) 2.
  - by rewrite Hs.
  - by [].
  - exact: Hi.
  - apply: pd_unit; by have [] := post_pd_Q (pd_psd (P0 o)) (PQ o) (PR o) (k := j.+1).
  by exists g', (xs, Ps).
exists (fun o => (kf_smooth self (dice_Z o) U g).1), (fun o => (sval (R o)).1), (fun o => (sval (R o)).2) => o.
case: (R o) => -[xs Ps] E; exact: E.
Qed.
End Props.
