(** * Props42: C110, the example programs

    The programs are those of Examples.v.  [row a k] is a[k]; [mx n m a] reads
    the numbers of an array of n*m numbers as a matrix. *)
From Coq Require Import ZArith.
From mathcomp Require Import all_ssreflect all_algebra.
From Verif Require Import Np NpLemmas Kf Ekf ApiSpec Loop Frame FilterLemmas FilterThms SmoothLemmas NpShapes WellShaped UtilThms
  Exact Repr Textbook RunSpec Refine Refine2 Build Outputs RingTac Loewner KalmanAlg TextbookThms LeastSq
  EkfRun EkfRun2 EkfBuild Props1 Props2 Props4 Props7 Props10 Examples ExampleThms.

Set Implicit Arguments.
Unset Strict Implicit.
Unset Printing Implicit Defensive.
Import GRing.Theory Num.Theory Order.Theory.
Local Open Scope ring_scope.
Delimit Scope Z_scope with Z. Delimit Scope nat_scope with N.

Section C110.
Variable F : realFieldType.
Variable oracle : oracle_type F.
Variable n2i : Z.
Notation N := (exact oracle n2i).
Notation arr := (arr N).
Notation vec := (vec_arr oracle n2i).
Notation mat := (mx_arr oracle n2i).
Notation mats := (mxs_arr oracle n2i).
Notation nums := (nums_arr oracle n2i).

(** ** Market beta: a regression of y on x whose coefficients drift

    The cost of a sequence of coefficients (b_0, a_0), .., (b_k, a_k): how far
    they start from 0, how much they move, how badly b*x + a explains y. *)
Definition beta_cost (x y : nat -> F) (q r : F) (k : nat) (b a : nat -> F) : F :=
  b 0%N ^+ 2 + a 0%N ^+ 2 +
  \sum_(j < k) (((b j.+1 - b j) ^+ 2 + (a j.+1 - a j) ^+ 2) / q +
                (y j - (b j.+1 * x j + a j.+1)) ^+ 2 / r).

Lemma sum2 (f : 'I_2 -> F) : \sum_i f i = f 0 + f 1.
Proof. by rewrite !big_ord_recl big_ord0 addr0; congr (f _ + f _); apply/val_inj. Qed.

Lemma quad_sc n (c : F) (v : 'cV[F]_n) : quad (invmx c%:M) v = (\sum_i v i 0 ^+ 2) / c.
Proof.
rewrite invmx_scalar /quad mul_mx_scalar -scalemxAl [LHS]mxE mulrC; congr (_ * _); rewrite mxE.
by apply: eq_bigr => i _; rewrite mxE expr2.
Qed.

Lemma const1 (r : F) : const_mx r = r%:M :> 'M[F]_1.
Proof. by apply/matrixP => i j; rewrite !ord1 !mxE eqxx. Qed.

Lemma scD n (a b : F) : a%:M + b%:M = (a + b)%:M :> 'M[F]_n.
Proof. by rewrite raddfD. Qed.
Lemma scB n (a b : F) : a%:M - b%:M = (a - b)%:M :> 'M[F]_n.
Proof. by rewrite raddfB. Qed.

Lemma pd_sc n (c : F) : 0 < c -> pd (c%:M : 'M[F]_n).
Proof. by move=> hc; rewrite -scalemx1; apply: pd_scale => //; exact: pd_1. Qed.

Lemma shaped sh (a : arr) : float_shaped sh a -> shp a = sh.
Proof. by case/and3P=> _ _ /eqP. Qed.

Theorem C110_market_beta (T : nat) (x y : nat -> F) (q r : F) : 0 < q -> 0 < r ->
  exists states errors, market_beta oracle n2i T x y q r = Ok (states, errors) /\
  [/\ shp states = [:: T; 2]%N, shp errors = [:: T; 2; 2]%N &
  forall k, (k < T)%N -> exists b a,
    [/\ mx 2 1 (row states k) = col2 (b k.+1) (a k.+1),
        (forall b' a', beta_cost x y q r k.+1 b a <= beta_cost x y q r k.+1 b' a') &
        forall b' a', beta_cost x y q r k.+1 b' a' = beta_cost x y q r k.+1 b a ->
          forall j, (j <= k.+1)%N -> b' j = b j /\ a' j = a j]].
Proof.
move=> hq hr; rewrite /market_beta.
pose A : nat -> 'M[F]_2 := fun _ => 1%:M; pose H k := row2 (x k) 1.
pose xk := ints oracle n2i [:: 2%N] [:: 0; 0]%Z; pose Q := mats T (fun _ => q%:M : 'M[F]_2).
have Hx := ints2P oracle n2i.
have HP : mat_layout 2 2 (mat (1%:M : 'M[F]_2)) && clean (mat (1%:M : 'M[F]_2)).
  by rewrite mat_layout_arr clean_mkF.
have HQ : sized Q /\ nrows Q = T by [].
have HQr k : (k < T)%N -> cov_layout 2 (row Q k) && clean (row Q k).
  by move=> Hk; rewrite mxs_row // clean_mkF andbT /cov_layout eqxx andbT; exact: wf_mkF.
have Hx0 : shape0 xk = Ok 2%N by [].
rewrite (plain_init T A H (fun _ => r) _ _ Hx0); cbn [rbind].
set self := plain _ _ _ _ _ _ _; set Z := nums T y.
have Hr : exact_run 2 1 2 self Z None by exact: plain_run.
have Hs : steps self Z None = T by exact: plain_steps.
pose s := model_of 2 1 2 self Z None.
have Hm k : (k < T)%N -> [/\ mA s k = 1%:M, mc s k = 0, mH s k = row2 (x k) 1, mQ s k = q%:M & mR s k = r%:M /\ mz s k = (y k)%:M].
  move=> Hk; have [-> -> -> -> [-> ->]] := plain_model A H (fun _ => r) y xk (mat (1%:M : 'M[F]_2)) Q Hk.
  by rewrite /Q mxs_row // cov_arr !const1.
have m0 : mx0 s = 0 by exact: ints2_mx.
have P0 : mP0 s = 1%:M by exact: mx_arr_mx.
have hd : definite 2 1 2 self Z None.
  split; first by rewrite -/s P0; exact: pd_1.
  by move=> k; rewrite Hs => Hk; have [_ _ _ -> [-> _]] := Hm k Hk; split; apply: pd_sc.
have [|g' [st [er E]]] := filter_returns (kf_gains self) Hr.
  have [h0 h] := hd => k Hk; apply: (@innov_unit _ _ _ _ T) => // [|j Hj|j Hj|]; [exact: pd_psd| | |by rewrite -Hs].
    by have [/pd_psd] := h j (etrans (congr1 _ Hs) Hj).
  by have [] := h j (etrans (congr1 _ Hs) Hj).
exists st, er; split; first by rewrite E.
have [/shaped S1 /shaped S2] := filter_shapes E; split; [exact: S1|exact: S2|].
have cost k t : (k <= T)%N -> misfit s k t = beta_cost x y q r k (fun j => t j 0 0) (fun j => t j 1 0).
  move=> Hk; rewrite /misfit /beta_cost m0 P0 subr0 quad_sc divr1 sum2; congr (_ + _).
  apply: eq_bigr => -[j Hj] _; cbn [nat_of_ord]; have [-> -> -> -> [-> ->]] := Hm j (leq_trans Hj Hk).
  rewrite mul1mx addr0 !quad_sc sum2 big_ord1 !mxE; congr (_ + _ ^+ 2 / _).
  by rewrite sum2 !mxE eqxx /= mul1r mulr1n [x j * _]mulrC.
move=> k Hk; have [t [Ht Et]] := C28_filter Hr hd E (etrans (congr1 _ Hs) Hk).
exists (fun j => t j 0 0), (fun j => t j 1 0); split.
- by rewrite Et; apply/matrixP => i j; rewrite ord1 mxE; case: i => -[|[|]] //= h; congr (t _ _ _); apply: val_inj.
- move=> b' a'; have [h _] := Ht (fun j => col2 (b' j) (a' j)); move: h; rewrite !cost //.
  rewrite [in X in _ <= X -> _]/beta_cost !mxE /=.
  by under eq_bigr do rewrite !mxE /=.
move=> b' a' Ec j Hj; have [_ h] := Ht (fun j => col2 (b' j) (a' j)).
suff Ej : col2 (b' j) (a' j) = t j by rewrite -Ej !mxE.
apply: h => //; rewrite !cost // -Ec [LHS]/beta_cost !mxE /=.
by under eq_bigr do rewrite !mxE /=.
Qed.

(** ** Moving average

    [X k], [V k], [K k]: the mean, its variance and the gain after k, resp. at
    step k. *)
Definition at_ (d : F) (a : arr) (k : nat) : F := if k is j.+1 then mx 1 1 (row a j) 0 0 else d.

(** Weight of observation j, and of the initial mean, in states[k]. *)
Definition weight (K : nat -> F) (k j : nat) : F := K j * \prod_(j.+1 <= i < k.+1) (1 - K i).
Definition weight0 (K : nat -> F) (k : nat) : F := \prod_(0 <= i < k.+1) (1 - K i).

Lemma comprehension_ok (A B : Type) (f : A -> res B) (h : nat -> B) x0 (l : seq A) :
  (forall i, (i < size l)%N -> f (nth x0 l i) = Ok (h i)) -> comprehension f l = Ok (mkseq h (size l)).
Proof.
elim: l h => [|x l IH] h H //=; rewrite (H 0%N) //; cbn [rbind].
rewrite (IH (fun i => h i.+1)) => [|i Hi]; last exact: (H i.+1).
change (Ok (h 0%N :: mkseq (fun i => h i.+1) (size l)) = Ok (h 0%N :: map h (iota 1 (size l)))).
have -> : iota 1 (size l) = [seq (1 + i)%N | i <- iota 0 (size l)] by rewrite -iotaDl.
by rewrite -map_comp.
Qed.

Lemma item_rpf (a : arr) (G : 'M[F]_1) : rpf [:: 1; 1]%N a G -> np_item a = Ok (@VF N (Some (G 0 0))).
Proof.
case=> -[/andP [/eqP W D] E _ C <-] Da; rewrite mxE; move: W C D; rewrite E Da /np_item /clean /=.
case: (dat a) => [|v [|w l]] //= _ /andP [Cv _] /andP [Dv _].
by case: v Cv Dv => [z|[k|]].
Qed.

Lemma average_closed (X K z : nat -> F) k : (forall i, (i <= k)%N -> X i.+1 = (1 - K i) * X i + K i * z i) ->
  X k.+1 = weight0 K k * X 0%N + \sum_(j < k.+1) weight K k j * z j.
Proof.
elim: k => [|k IH] H.
  by rewrite H // /weight0 big_nat1 big_ord1 /weight [X in _ + _ * X * _]big_geq // mulr1.
rewrite H // IH => [|i Hi]; last exact/H/leqW.
have Ew0 : weight0 K k.+1 = weight0 K k * (1 - K k.+1) by rewrite /weight0 big_nat_recr.
have Ew j : (j <= k)%N -> weight K k.+1 j = weight K k j * (1 - K k.+1).
  by move=> Hj; rewrite /weight big_nat_recr //= mulrA.
have Ewk : weight K k.+1 k.+1 = K k.+1 by rewrite /weight big_geq // mulr1.
rewrite Ew0 [in RHS]big_ord_recr /= Ewk mulrDr addrA; congr (_ + _ + _); first by rewrite mulrA [_ * (1 - _)]mulrC.
rewrite big_distrr; apply: eq_bigr => -[j Hj] _; cbn [nat_of_ord]; rewrite Ew; last exact: Hj.
by rewrite [LHS]mulrA [X in X * _]mulrC.
Qed.

Theorem C110_moving_average (T : nat) (z : nat -> F) (q r : F) : 0 < q -> 0 < r ->
  exists states errors K,
  moving_average oracle n2i T z q r = Ok (states, errors, mkseq (fun k => @VF N (Some (K k))) T) /\
  [/\ shp states = [:: T; 1]%N, shp errors = [:: T; 1; 1]%N &
  let x := at_ 1 states in let V := at_ 1 errors in
  forall k, (k < T)%N ->
    [/\ 0 < K k < 1, K k = (V k + q) / (V k + q + r), x k.+1 = (1 - K k) * x k + K k * z k, V k.+1 = r * K k &
    [/\ x k.+1 = weight0 K k + \sum_(j < k.+1) weight K k j * z j, 0 < weight0 K k,
        (forall j, (j <= k)%N -> 0 < weight K k j) & weight0 K k + \sum_(j < k.+1) weight K k j = 1]]].
Proof.
move=> hq hr; rewrite /moving_average.
pose A : nat -> 'M[F]_1 := fun _ => 1%:M.
pose xk := ints oracle n2i [:: 1%N; 1%N] [:: 1]%Z; pose Q := nums T (fun _ => q).
have [Lx LP Cx] := ints1P oracle n2i.
have Hx : vec_layout 1 1 xk && clean xk by rewrite Lx Cx.
have HP : mat_layout 1 1 xk && clean xk by rewrite LP Cx.
have HQ : sized Q /\ nrows Q = T by [].
have HQr k : (k < T)%N -> cov_layout 1 (row Q k) && clean (row Q k) by move=> Hk; rewrite nums_row.
have Hx0 : shape0 xk = Ok 1%N by [].
rewrite (plain_init T A A (fun _ => r) _ _ Hx0); cbn [rbind].
set self := plain _ _ _ _ _ _ _; set Z := nums T z.
have Hr : exact_run 1 1 1 self Z None by exact: plain_run.
have Hs : steps self Z None = T by exact: plain_steps.
pose s := model_of 1 1 1 self Z None.
have Hm k : (k < T)%N -> [/\ mA s k = 1%:M, mc s k = 0, mH s k = 1%:M, mQ s k = q%:M & mR s k = r%:M /\ mz s k = (z k)%:M].
  move=> Hk; have [-> -> -> -> [-> ->]] := plain_model A A (fun _ => r) z xk xk Q Hk.
  by rewrite /Q nums_row // cov_num !const1.
have m0 : mx0 s = 1%:M by rewrite [LHS]ints1_mx const1.
have P0 : mP0 s = 1%:M by rewrite [LHS]ints1_mx const1.
have hu k : (k < T)%N -> innov s k \in unitmx.
  move=> Hk; apply: (@innov_unit _ _ _ _ T) => // [|j Hj|j Hj]; first by rewrite P0; exact/pd_psd/pd_1.
    by have [_ _ _ -> _] := Hm j Hj; exact/pd_psd/pd_sc.
  by have [_ _ _ _ [-> _]] := Hm j Hj; exact: pd_sc.
have [|g' [st [er E]]] := filter_returns (kf_gains self) Hr; first by rewrite Hs.
have Ho k (Hk : (k < T)%N) := filter_out Hr E (etrans (congr1 _ Hs) Hk).
have [/shaped S1 /shaped S2] := filter_shapes E.
pose K k := gain_at s k 0 0; exists st, er, K; rewrite E; cbn [rbind fst snd].
have Sg : size g' = T.
  case: (T) Ho Hs => [|T'] Ho Hs; last by have [_ _ _ _ [_ _ _ ->]] := Ho 0%N isT; rewrite Hs.
  by have [] := C22_filter_computes_the_textbook_step Hr E; rewrite Hs.
have EK : comprehension (@np_item _ oracle n2i) g' = Ok (mkseq (fun k => @VF N (Some (K k))) T).
  rewrite -[X in mkseq _ X]Sg; apply: (@comprehension_ok _ _ _ _ (np_zeros N [::])) => i; rewrite Sg => Hi.
  by have [_ _ _ _ [_ _ R _]] := Ho i Hi; exact: item_rpf R.
rewrite EK; cbn [rbind]; split=> //; split; [exact: S1|exact: S2|].
pose x := at_ 1 st; pose V := at_ 1 er; rewrite -/x -/V.
have Ex k : (k <= T)%N -> post_x s k = (x k)%:M /\ post_P s k = (V k)%:M.
  case: k => [|k] Hk; first by split; [exact: m0|exact: P0].
  have [_ e1 e2 _ _] := Ho k Hk; rewrite -e1 -e2 /x /V /=; split; exact: mx11_scalar.
have step k : (k < T)%N -> 0 < V k -> [/\ K k = (V k + q) / (V k + q + r), x k.+1 = (1 - K k) * x k + K k * z k & V k.+1 = r * K k].
  move=> Hk hV; have [e1 e2] := Ex k (ltnW Hk); have [e3 e4] := Ex k.+1 Hk; have [a c h Eq [Er Ez]] := Hm k Hk.
  have Epx : pred_x s k = (x k)%:M by rewrite pred_xE a c e1 mul1mx addr0.
  have EpP : pred_P s k = (V k + q)%:M by rewrite pred_PE /ucov a Eq e2 mul1mx trmx1 mulmx1 scD.
  have ES : innov s k = (V k + q + r)%:M by rewrite innovE /ucov h Er EpP mul1mx trmx1 mulmx1 scD.
  have h1 : V k + q + r != 0 by rewrite gt_eqF // !addr_gt0.
  have EG : gain_at s k = ((V k + q) / (V k + q + r))%:M.
    by rewrite gainE /ugain -innovE ES EpP h trmx1 mulmx1 invmx_scalar -scalar_mxM.
  have EKk : K k = (V k + q) / (V k + q + r) by rewrite /K EG mxE eqxx mulr1n.
  split=> //.
    move: e3; rewrite post_xS /ucorr -gainE EG Epx h Ez mul1mx scB -scalar_mxM scD -EKk.
    by move/matrixP/(_ 0 0); rewrite !mxE eqxx !mulr1n => <-; rewrite mulrBr mulrBl mul1r addrA addrAC.
  move: e4; rewrite post_PS /upost -gainE EG EpP h mulmx1 scB -scalar_mxM.
  move/matrixP/(_ 0 0); rewrite !mxE eqxx !mulr1n => <-; rewrite EKk.
  have -> : 1 - (V k + q) / (V k + q + r) = r / (V k + q + r).
    by rewrite -[X in X - _](divff h1) -mulrBl; congr (_ / _); rewrite [X in X - _]addrC addrK.
  by rewrite -!mulrA; congr (_ * _); rewrite mulrC.
have hV k : (k <= T)%N -> 0 < V k.
  elim: k => [|k IH] Hk; first exact: ltr01.
  have h := IH (ltnW Hk); have [e _ ->] := step k Hk h; rewrite e mulr_gt0 // divr_gt0 // !addr_gt0 //.
have hK k : (k < T)%N -> 0 < K k < 1.
  move=> Hk; have h := hV k (ltnW Hk); have [-> _ _] := step k Hk h.
  have h1 : 0 < V k + q by rewrite addr_gt0. 
  by rewrite divr_gt0 ?addr_gt0 //= ltr_pdivr_mulr ?addr_gt0 // mul1r ltr_addl.
move=> k Hk; have [e1 e2 e3] := step k Hk (hV k (ltnW Hk)); split=> //; first exact: hK.
have pos i : (i <= k)%N -> 0 < 1 - K i.
  by move=> Hi; have /andP [_ h] := hK i (leq_ltn_trans Hi Hk); rewrite subr_gt0.
split.
- rewrite -[weight0 K k]mulr1; apply: (@average_closed x K z k) => i Hi.
  by have [] := step i (leq_ltn_trans Hi Hk) (hV i (ltnW (leq_ltn_trans Hi Hk))).
- rewrite /weight0 big_nat; apply: prodr_gt0 => i; rewrite ltnS => /andP [_ Hi]; exact: pos.
- move=> j Hj; rewrite /weight mulr_gt0 //; first by have /andP [] := hK j (leq_ltn_trans Hj Hk).
  rewrite big_nat; apply: prodr_gt0 => i; rewrite ltnS => /andP [_ Hi]; exact: pos.
have e : 1 = weight0 K k * 1 + \sum_(j < k.+1) weight K k j * 1.
  by apply: (@average_closed (fun _ => 1) K (fun _ => 1) k) => i _; rewrite !mulr1 subrK.
by rewrite [RHS]e mulr1; congr (_ + _); apply: eq_bigr => j _; rewrite mulr1.
Qed.

End C110.
