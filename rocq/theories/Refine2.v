(** * Refine2: filter and smooth on exact runs *)
From Coq Require Import ZArith.
From mathcomp Require Import all_ssreflect all_algebra.
From Verif Require Import Np NpLemmas Kf ApiSpec Loop Frame FilterLemmas FilterThms SmoothLemmas NpShapes WellShaped
  WellShaped2 Exact Repr Textbook RunSpec Refine.

Set Implicit Arguments.
Unset Strict Implicit.
Unset Printing Implicit Defensive.
Import GRing.Theory Num.Theory.
Local Open Scope ring_scope.

Arguments Z.of_nat : simpl never.

Section Refine.
Variable F : realFieldType.
Variable oracle : oracle_type F.
Variable n2i : Z.
Notation N := (exact oracle n2i).
Notation arr := (arr N).

(** What a row holds after the assignment of a posterior. *)
Lemma fit_vrpf n m (x : arr) (X : 'cV[F]_n) : vrpf m x X -> rpf [:: n] (fit [:: n] x) X.
Proof.
case=> sh [Es|[En Em Es]] [[W E Nm C M] D]; subst sh.
  by rewrite -{2}E fit_id.
subst n m.
split=> //; split=> //.
- apply: clean_mk => ix _; rewrite snanE /=.
  move: (clean_get (bidx (strip_ones (size (shp x) - 1) (shp x)) ix) (a := reshape x (strip_ones (size (shp x) - 1) (shp x)))).
  by move/(_ C); rewrite snanE; case: (tofl _).
rewrite -M; apply/matrixP => i j; rewrite vecE_get // !ord1 mxE /fit get_mk //.
have Hx : get (reshape x (strip_ones (size (shp x) - size [:: 1%N]) (shp x)))
    (bidx (strip_ones (size (shp x) - size [:: 1%N]) (shp x)) [:: val (0 : 'I_1)]) = nth (VI 0) (dat x) 0.
  by rewrite E /get.
by rewrite Hx.
Qed.

Lemma fit_rpf n (P : arr) (M : 'M[F]_n) : rpf [:: n; n] P M -> rpf [:: n; n] (fit [:: n; n] P) M.
Proof. by move=> [[W E Nm C HM] D]; rewrite -{2}E fit_id. Qed.

Section Run.
Variables (n m p : nat) (self : kf N) (Z : arr) (U : option arr) (g : seq arr).
Hypothesis Hrun : exact_run n m p self Z U.
Let s := model_of n m p self Z U.
Notation T := (steps self Z U).

Lemma filter_rp :
  (exists g' st er,
     [/\ kf_filter self Z U g = (g', Ok (st, er)),
         (forall k, (k < T)%N -> innov s k \in unitmx),
         (forall k, (k < T)%N -> rpf [:: n] (row st k) (post_x s k.+1) /\
                                 rpf [:: n; n] (row er k) (post_P s k.+1)),
         size g' = (size g + T)%N /\ take (size g) g' = g &
         forall k, (k < T)%N -> rpf [:: n; m] (nth (np_zeros N [::]) g' (size g + k)) (gain_at s k)]) \/
  (exists j g', [/\ (j < T)%N, innov s j \notin unitmx,
     (forall i, (i < j)%N -> innov s i \in unitmx),
     kf_filter self Z U g = (g', Raise LinAlgError) &
     size g' = (size g + j)%N /\ take (size g) g' = g /\
     forall i, (i < j)%N -> rpf [:: n; m] (nth (np_zeros N [::]) g' (size g + i)) (gain_at s i)]).
Proof.
have [Hc Hw _ _ _] := Hrun; have [Hit Hn _ _ _] := Hw.
case E: (kf_filter self Z U g) => [g' [[st er]|e]]; last first.
  right; have [j [Hj Hpre Hend]] := filter_raises Hit E.
  have {Hend}Eh : by_hand self Z (control Z U) j.+1 g = (g', Raise e).
    case: Hend => // -[_ [xP [Eh Hs]]].
    have [[g1 [x [P [E1 [Rx RP _] _ _ _]]]]|[j' [g1 [_ _ _ E1 _]]]] := iter_rp g Hrun Hj;
      rewrite E1 in Eh => //.
    case: Eh => _ Ex; move: Hs; rewrite -Ex.
    by rewrite Hn (@storable_ok _ n m) ?(vrp_vecs Rx) ?(rp_has RP).
  have [[g1 [x [P [E1 _ _ _ _]]]]|[i [g1 [Hi Hnu Hpre1 E1 Hg]]]] := iter_rp g Hrun Hj; rewrite E1 in Eh => //.
  case: Eh => Eg Ee; subst g1 e; exists i, g'; split=> //.
  exact: leq_trans Hi Hj.
left; exists g', st, er.
have [_ Hs Hr _] := filter_ok E; rewrite Hn in Hr.
have HT : exists x P, by_hand self Z (control Z U) T g = (g', Ok (x, P)).
  have [[x P]] := filter_gains_at E (leqnn T); rewrite -Hs take_size => Eh; by exists x, P.
case: HT => x [P Eh].
have [[g1 [x1 [P1 [E1 [Rx RP _] Hu Hg Hgn]]]]|[i [g1 [_ _ _ E1 _]]]] := iter_rp g Hrun (leqnn T); rewrite E1 in Eh => //.
case: Eh => Eg Ex EP; subst g1 x1 P1; split=> // k Hk.
have [x1 [P1 [E2 _ -> ->]]] := Hr k Hk.
have [[g1 [x2 [P2 [E3 [Rx2 RP2 Df] _ _ _]]]]|[i [g1 [_ _ _ E3 _]]]] := iter_rp g Hrun Hk; rewrite E3 in E2 => //.
case: E2 => _ Ex EP; subst x2 P2; have [//|D1 D2] := Df; split.
  by apply: (@fit_vrpf n m); case: Rx2 => sh Hsh R; exists sh.
by apply: fit_rpf.
Qed.

Lemma filter_lens : T = nrows Z -> forall k, (k < T)%N ->
  [/\ (k < nrows (kf_A self))%N, (k < nrows (kf_Q self))%N, (k < nrows (kf_B self))%N &
      (k < nrows (control Z U))%N].
Proof. by move=> E k; rewrite steps_gt => /and5P [? _ ? ? /andP [? _]]. Qed.

(** One backward step. *)
Lemma smooth_gain_rp (C P A : arr) (MC MP MA : 'M[F]_n) :
  rpf [:: n; n] C MC -> rpf [:: n; n] P MP -> rp [:: n; n] A MA ->
  if MC \in unitmx then exists2 G, smooth_gain C P A = Ok G & rpf [:: n; n] G (MP *m MA^T *m invmx MC)
  else smooth_gain C P A = Raise LinAlgError.
Proof.
move=> [RC DC] [RP DP] RA; rewrite /smooth_gain.
have [c -> [Rc Dc]] : exists2 c, np_matmul P (np_T A) = Ok c & rpf [:: n; n] c (MP *m MA^T).
  by apply: rp_mm => //; [exact: rp_T|rewrite DP].
cbn [rbind]; have := rp_solve (rp_T RC) (rp_T Rc); rewrite unitmx_tr; case: ifP => _; last by move=> ->.
case=> X -> [RX DX]; cbn [rbind]; exists (np_T X) => //.
split; last by rewrite dt_T.
have -> : MP *m MA^T *m invmx MC = (invmx MC^T *m (MP *m MA^T)^T)^T.
  by rewrite [in RHS]trmx_mul trmxK trmx_inv trmxK.
exact: rp_T.
Qed.

Lemma smooth_state_rp (x G x1 xa : arr) (X X1 XA : 'cV[F]_n) (MG : 'M[F]_n) :
  rpf [:: n] x X -> rpf [:: n; n] G MG -> rpf [:: n] x1 X1 -> rp [:: n] xa XA ->
  exists2 y, smooth_state x G x1 xa = Ok y & rpf [:: n] y (X + MG *m (X1 - XA)).
Proof.
move=> [Rx Dx] [RG DG] [R1 D1] Ra; rewrite /smooth_state np_subE.
have Hp : promote (dt x1) (dt xa) = DFloat by rewrite D1.
have [d -> [Rd Dd]] := rp_bin1 Z.sub (fun a b => a - b) R1 Ra Hp; cbn [rbind].
have Hp' : promote (dt G) (dt d) = DFloat by rewrite DG.
have [w -> [Rw Dw]] := rp_mv RG Rd Hp'; cbn [rbind]; rewrite np_addE.
have Hp2 : promote (dt x) (dt w) = DFloat by rewrite Dx.
have [y -> Ry] := rp_bin1 Z.add +%R Rx Rw Hp2; exists y => //.
by rewrite -mx_op_sub -mx_op_add.
Qed.

Lemma smooth_cov_rp (P G P1 Pa : arr) (MP MG MP1 MPa : 'M[F]_n) :
  rpf [:: n; n] P MP -> rpf [:: n; n] G MG -> rpf [:: n; n] P1 MP1 -> rpf [:: n; n] Pa MPa ->
  exists2 C, smooth_cov P G P1 Pa = Ok C & rpf [:: n; n] C (MP + MG *m (MP1 - MPa) *m MG^T).
Proof.
move=> [RP DP] [RG DG] [R1 D1] [Ra Da]; rewrite /smooth_cov np_subE.
have Hp : promote (dt P1) (dt Pa) = DFloat by rewrite D1.
have [d -> [Rd Dd]] := rp_bin2 Z.sub (fun a b => a - b) R1 Ra Hp; cbn [rbind].
have Hp' : promote (dt d) (dt (np_T G)) = DFloat by rewrite Dd.
have [w -> [Rw Dw]] := rp_mm Rd (rp_T RG) Hp'; cbn [rbind].
have Hp2 : promote (dt G) (dt w) = DFloat by rewrite DG.
have [v -> [Rv Dv]] := rp_mm RG Rw Hp2; cbn [rbind]; rewrite np_addE.
have Hp3 : promote (dt P) (dt v) = DFloat by rewrite DP.
have [y -> Ry] := rp_bin2 Z.add +%R RP Rv Hp3; exists y => //.
by rewrite -mulmxA -mx_op_sub -mx_op_add.
Qed.

(** Rows of an output pair. *)
Definition holds (o : arr * arr) k (X : 'cV[F]_n) (P : 'M[F]_n) : Prop :=
  rpf [:: n] (row o.1 k) X /\ rpf [:: n; n] (row o.2 k) P.

Lemma smooth_body_rp L (est sm ahead : arr * arr) (A : arr) k X P XA PA X1 P1 (MA : 'M[F]_n) :
  outshape L n est -> outshape L n sm -> (k.+1 < L)%N ->
  holds est k X P -> holds sm k.+1 X1 P1 -> rp [:: n; n] A MA ->
  rp [:: n] ahead.1 XA -> rpf [:: n; n] ahead.2 PA ->
  if PA \in unitmx then
    let G := P *m MA^T *m invmx PA in
    exists r, [/\ smooth_body est sm k ahead A = Ok r, outshape L n r,
      holds r k (X + G *m (X1 - XA)) (P + G *m (P1 - PA) *m G^T) &
      forall i, (i < L)%N -> i != k -> row r.1 i = row sm.1 i /\ row r.2 i = row sm.2 i]
  else smooth_body est sm k ahead A = Raise LinAlgError.
Proof.
move=> He Hs Hk [RX RP] [R1 RP1] RA Ra1 Ra2; have Hk0 : (k < L)%N by exact: ltnW.
have [[_ _ Es1] [_ _ Es2]] := He; have [[_ _ Ss1] [_ _ Ss2]] := Hs.
rewrite /smooth_body (getitem_row Es2 Hk0) (getitem_row Es1 Hk0).
rewrite (getitem_row Ss1 Hk) (getitem_row Ss2 Hk); cbn [rbind].
have := smooth_gain_rp Ra2 RP RA; case: ifP => _; last by move=> ->.
case=> G -> RG; cbn [rbind].
have [y -> Ry] := smooth_state_rp RX RG R1 Ra1; cbn [rbind].
have Fy : fits [:: n] y by case: Ry => [[_ <- _ _ _] _]; exact: fits_id.
rewrite (setitem_nat _ Ss1 Hk0) Fy; cbn [rbind].
have [C -> RC] := smooth_cov_rp RP RG RP1 Ra2; cbn [rbind].
have FC : fits [:: n; n] C by case: RC => [[_ <- _ _ _] _]; exact: fits_id.
rewrite (setitem_nat _ Ss2 Hk0) FC; cbn [rbind].
have [Ho Hr] := outshape_set y C Hs Hk0.
eexists; split; first by reflexivity.
- exact: Ho.
- have := Hr k Hk0; rewrite eqxx => HE; have E1 := f_equal fst HE; have E2 := f_equal snd HE.
  cbn [fst snd pairrow] in E1, E2; rewrite /holds; cbn [fst snd]; rewrite E1 E2; split; last exact: fit_rpf.
  apply: (@fit_vrpf n 2); exists [:: n] => //; by left.
move=> i Hi /negbTE Hne; have := Hr i Hi; rewrite Hne => HE.
by split; [exact: (f_equal fst HE)|exact: (f_equal snd HE)].
Qed.

(** smooth: either the textbook smoother, or some innovation covariance or
    predicted covariance (after the first step) is singular. *)
Lemma smooth_rp L : T = nrows Z -> nrows Z = L.+1 ->
  (exists g' xs Ps,
     [/\ kf_smooth self Z U g = (g', Ok (xs, Ps)),
         (forall k, (k <= L)%N -> innov s k \in unitmx),
         (forall k, (k < L)%N -> pred_P s k.+1 \in unitmx) &
         forall k, (k <= L)%N -> rpf [:: n] (row xs k) (smooth_x s L k) /\
                                 rpf [:: n; n] (row Ps k) (smooth_P s L k)]) \/
  (exists g', kf_smooth self Z U g = (g', Raise LinAlgError) /\
     ((exists2 k, (k <= L)%N & innov s k \notin unitmx) \/
      (exists2 k, (k < L)%N & pred_P s k.+1 \notin unitmx))).
Proof.
move=> HT HL; have HTL : T = L.+1 by rewrite HT.
have [Hc Hw _ _ [Hcl Hct Hd Hbu]] := Hrun; have [Hit Hn Hx HP Hl] := Hw.
have HZ : sized Z by case/andP: Hit.
case: filter_rp => [[g' [st [er [Ef Hu Hr Hg Hgn]]]]|[j [g' [Hj Hnu _ Ef _]]]]; last first.
  right; exists g'; split; first by rewrite /kf_smooth /mbind Ef.
  by left; exists j => //; move: Hj; rewrite HTL ltnS.
rewrite HTL in Hr Hu.
have [Ho _ _ _] := filter_ok Ef; rewrite Hn HL in Ho.
rewrite /kf_smooth /mbind Ef /mlift (len_sized HZ) HL Hn.
have [sm -> [Hs Hlast]] := smooth_init_ok Ho; rewrite subn1 [L.+1.-1]/=.
have Hdone i : (i <= L)%N -> (L <= i)%N -> holds sm i (smooth_x s L i) (smooth_P s L i).
  move=> H1 H2; have -> : i = L by apply/eqP; rewrite eqn_leq H1 H2.
  rewrite /smooth_x /smooth_P subnn /=; case/pairrow_eq: Hlast => /= E1 E2.
  by rewrite /holds E1 E2; apply: Hr.
have Hmain j sm' : (j <= L)%N -> outshape L.+1 n sm' ->
   (forall i, (i <= L)%N -> (j <= i)%N -> holds sm' i (smooth_x s L i) (smooth_P s L i)) ->
   (exists r, [/\ smooth_loop (kf_smooth_step self (check_none_and_broadcast U Z) (st, er)) j sm' = Ok r,
      (forall k, (k < j)%N -> pred_P s k.+1 \in unitmx) &
      forall i, (i <= L)%N -> holds r i (smooth_x s L i) (smooth_P s L i)]) \/
   (smooth_loop (kf_smooth_step self (check_none_and_broadcast U Z) (st, er)) j sm' = Raise LinAlgError /\
     exists2 k, (k < j)%N & pred_P s k.+1 \notin unitmx).
  elim: j sm' => [|j IH] sm' Hj Hs' Hd'; first by left; exists sm'; split=> // i Hi; apply: Hd'.
  cbn [smooth_loop].
  have HjT : (j.+1 < T)%N by rewrite HTL.
  have [lA lQ lB lU] := filter_lens HT HjT.
  have [LA LH LB [LZ LQ LR]] := Hl _ HjT; have [CA CH CQ CR CZ] := Hcl _ HjT.
  rewrite /kf_smooth_step; rewrite !getitem_cases; rewrite lA lQ lB lU; cbn [rbind].
  have [[_ _ Es1] [_ _ Es2]] := Ho.
  have Hj0 : (j < L.+1)%N by rewrite ltnS ltnW.
  have Hnr : forall (o : arr * arr), outshape L.+1 n o -> nrows o.1 = L.+1 /\ nrows o.2 = L.+1.
    by move=> o [[_ _ e1] [_ _ e2]]; rewrite /nrows e1 e2.
  have [-> ->] := Hnr _ Ho; rewrite Hj0; cbn [rbind].
  have [RX RP] := Hr _ Hj0.
  have Rv : vrp 2 (row st j) (post_x s j.+1) by case: RX => RX _; exists [:: n] => //; left.
  have Hb' : dt (row (kf_B self) j.+1) = DFloat \/ dt (row (control Z U) j.+1) = DFloat by rewrite !dt_row.
  have HdA : dt (row (kf_A self) j.+1) = DFloat \/ (dt (row st j) = DFloat /\ dt (row er j) = DFloat).
    by right; case: RX => _ ->; case: RP => _ ->.
  have [y [C [Ep Ry RC]]] := predict_rp (rp_mat LA CA) Rv (proj1 RP) HdA LB (Hct _ HjT) Hb' LQ CQ.
  rewrite -/(control Z U) Ep; cbn [rbind].
  have {}Ry : rpf [:: n] y (pred_x s j.+1).
    by case: Ry => sh [->|[_ //]].
  have {}RC : rpf [:: n; n] C (pred_P s j.+1) by exact: RC.
  have := @smooth_body_rp L.+1 (st, er) sm' (y, C) (row (kf_A self) j.+1) j _ _ _ _ _ _ _
     Ho Hs' _ (conj RX RP) (Hd' j.+1 Hj (leqnn _)) (rp_mat LA CA) (proj1 Ry) RC.
  move/(_ (leq_ltn_trans Hj (ltnSn L))).
  case: ifP => Hun; last by move=> ->; right; split=> //; exists j => //; rewrite Hun.
  cbv zeta => -[r [-> Hor Hrj Hri]]; cbn [rbind].
  case: (IH r (ltnW Hj) Hor) => [|[r' [-> A1 A2]]|[-> [k Hk Hnk]]].
  - move=> i Hi; rewrite leq_eqVlt => /orP [/eqP <-|Hji].
      rewrite /smooth_x /smooth_P; have E : (L - j = (L - j.+1).+1)%N by rewrite subnSK.
      have E' : (L - (L - j.+1).+1 = j)%N by rewrite -E subKn // ltnW.
      by rewrite E /= E'.
    have Hne : i != j by rewrite gtn_eqF.
    have [e1 e2] := Hri i Hi Hne; rewrite /holds e1 e2; exact: (Hd' i Hi Hji).
  - left; exists r'; split=> // k; rewrite ltnS leq_eqVlt => /orP [/eqP ->|Hk] //.
    exact: A1.
  by right; split=> //; exists k => //; exact: ltnW.
case: (Hmain L sm (leqnn L) Hs Hdone) => [[r [E A1 A2]]|[E A]].
  left; exists g', r.1, r.2; split=> //.
  by rewrite E; case: r {E A2}.
by right; exists g'; rewrite E; split=> //; right.
Qed.

End Run.
End Refine.
