(** * SubExact: overridden updates in exact arithmetic *)
From Coq Require Import ZArith.
From mathcomp Require Import all_ssreflect all_algebra.
From Verif Require Import Np NpLemmas Kf ApiSpec Loop Frame FilterLemmas FilterThms SmoothLemmas NpShapes WellShaped
  Exact Repr Textbook RunSpec Refine Refine2 Build EndSpec EndToEnd Sub.

Set Implicit Arguments.
Unset Strict Implicit.
Unset Printing Implicit Defensive.
Import GRing.Theory Num.Theory.
Local Open Scope ring_scope.

Section SubExact.
Variable F : realFieldType.
Variable oracle : oracle_type F.
Variable n2i : Z.
Notation N := (exact oracle n2i).
Notation arr := (arr N).
Notation vecs := (vecs_arr oracle n2i).
Notation mats := (mxs_arr oracle n2i).
Notation mat := (mx_arr oracle n2i).

(** A class that inherits predict. *)
Definition inherits_predict (c : cls N (kf N)) : Prop :=
  forall Ak xk Bk uk Pk Qk o, c_predict c Ak xk Bk uk Pk Qk o = (o, kf_predict Ak xk Bk uk Pk Qk).

Section Run.
Variables (n m p : nat) (c : cls N (kf N)).
Hypothesis Hp : inherits_predict c.
(* o' is the object of the base class with which the subclass is compared *)
Variables (o o' : kf N) (Z Z' : arr) (U U' : option arr).
Hypothesis Hrun : exact_run n m p o' Z' U'.
Let s := model_of n m p o' Z' U'.
Notation T := (steps o' Z' U').
Hypothesis HA : [/\ kf_A o = kf_A o', kf_B o = kf_B o', kf_Q o = kf_Q o', kf_xk o = kf_xk o' & kf_Pk o = kf_Pk o'].
Hypothesis Hn : kf_size o = n.
Hypothesis HU : control Z U = control Z' U'.
Hypothesis Hit : iterable o Z U.
Hypothesis HT : steps o Z U = T.
Hypothesis HZ : nrows Z = nrows Z'.
(* which steps append their gain *)
Variable keep : pred nat.
Hypothesis Hupd : forall k x P g, (k < T)%N -> vrpf m x (pred_x s k) -> rpf [:: n; n] P (pred_P s k) ->
  if innov s k \in unitmx then
    exists y C, [/\ c_update c (row (kf_H o) k) x P (row Z k) (row (kf_R o) k) (with_gains o g) =
        (with_gains o (if keep k then rcons g (mat (gain_at s k)) else g), Ok (y, C)),
      vrpf m y (post_x s k.+1) & rpf [:: n; n] C (post_P s k.+1)]
  else c_update c (row (kf_H o) k) x P (row Z k) (row (kf_R o) k) (with_gains o g) =
    (with_gains o g, Raise LinAlgError).

Definition kept (g : seq arr) (k : nat) : seq arr := g ++ [seq mat (gain_at s i) | i <- iota 0 k & keep i].

Lemma keptS g k : kept g k.+1 = if keep k then rcons (kept g k) (mat (gain_at s k)) else kept g k.
Proof.
rewrite /kept -addn1 iotaD add0n filter_cat map_cat /=; case: ifP => _ /=; last by rewrite cats0.
by rewrite catA cats1.
Qed.

Lemma sub_iter_rp g k : (k <= T)%N ->
  (exists x P,
     [/\ sub_by_hand c o Z (control Z U) k (with_gains o g) = (with_gains o (kept g k), Ok (x, P)),
         [/\ vrp m x (post_x s k), rp [:: n; n] P (post_P s k) & (0 < k)%N -> dt x = DFloat /\ dt P = DFloat] &
         (forall j, (j < k)%N -> innov s j \in unitmx)]) \/
  (exists j, [/\ (j < k)%N, innov s j \notin unitmx, (forall i, (i < j)%N -> innov s i \in unitmx) &
     sub_by_hand c o Z (control Z U) k (with_gains o g) = (with_gains o (kept g j), Raise LinAlgError)]).
Proof.
have [Hc Hw Cx CP [Hcl Hct Hd Hbu]] := Hrun; have [Hit' Hn' Hx HP Hl] := Hw.
have [eA eB eQ ex eP] := HA.
elim: k => [|k IH] Hk.
  left; exists (kf_xk o), (kf_Pk o); split=> //=; first by rewrite /aret /kept /= cats0.
  by rewrite ex eP; split=> //; [exact: vrp_vec|exact: rp_mat].
rewrite /= /abind; case: (IH (ltnW Hk)) => [[x [P [E [Rx RP Df] Hu]]]|[j [Hj Hnu Hpre E]]]; rewrite E; last first.
  by right; exists j; split=> //; exact: ltnW.
have [LA LH LB [LZ LQ LR]] := Hl _ Hk; have [CA CH CQ CR CZ] := Hcl _ Hk.
have Hd' : dt (row (kf_A o) k) = DFloat \/ (dt x = DFloat /\ dt P = DFloat).
  case: k {IH Hk Rx RP Hu LA LH LB LZ LQ LR CA CH CQ CR CZ} Df E => [_ [_ <- <-]|k Df E].
    by rewrite dt_row eA ex eP.
  by right; apply: Df.
have Hb' : dt (row (kf_B o) k) = DFloat \/ dt (row (control Z U) k) = DFloat by rewrite !dt_row eB HU.
have RA : rp [:: n; n] (row (kf_A o) k) (mx n n (row (kf_A o') k)) by rewrite eA; exact: rp_mat.
have LB' : ctl_layout n p (row (kf_B o) k) (row (control Z U) k) by rewrite eB HU.
have Hct' : [|| np_isnan_all (row (kf_B o) k), np_isnan_all (row (control Z U) k)
          | clean (row (kf_B o) k) && clean (row (control Z U) k)] by rewrite eB HU; exact: Hct.
have LQ' : cov_layout n (row (kf_Q o) k) by rewrite eQ.
have CQ' : clean (row (kf_Q o) k) by rewrite eQ.
have [y [C [Ep Ry RC]]] := predict_rp RA Rx RP Hd' LB' Hct' Hb' LQ' CQ'.
rewrite Hp Ep; cbn [fst snd].
have Ry' : vrpf m y (pred_x s k) by rewrite eB HU in Ry; exact: Ry.
have RC' : rpf [:: n; n] C (pred_P s k) by rewrite eQ in RC; exact: RC.
have := Hupd (kept g k) Hk Ry' RC'; case: ifP => HS; last first.
  by move=> ->; right; exists k; split=> //; rewrite HS.
case=> y1 [C1 [-> R1 R2]]; rewrite -keptS; left; exists y1, C1; split=> //.
  case/vrpfW: R1 => R1 D1; case: R2 => R2 D2.
  by split.
by move=> j; rewrite ltnS leq_eqVlt => /orP [/eqP ->|Hj] //; exact: Hu.
Qed.

Lemma sub_filter_answer :
  let j := until_singular (innov s) T in
  sub_filter id c Z U o = (with_gains o (kept (kf_gains o) j), (kf_filter o' Z' U' [::]).2).
Proof.
move=> j; rewrite (run_filter_answer [::] Hrun) /kalman_filter_answer /filter_answer -/s -/j; cbn [snd].
set g := kf_gains o; have Eo : with_gains o g = o by rewrite /g; case: (o).
have -> : sub_filter id c Z U o = sub_loop c (rows_of o Z U) 0 (kf_xk o, kf_Pk o) (alloc N (nrows Z) (kf_size o)) (with_gains o g).
  by rewrite sub_filterE // Eo.
have := @sub_loop_spec _ _ c n (nrows Z) (rows_of o Z U) 0 (kf_xk o, kf_Pk o) _ (with_gains o g)
   (alloc_outshape N _ _) (size_rows_le o Z U).
rewrite Hn; case E : (sub_loop _ _ _ _ _ _) => [o1 [[st er]|e]].
  rewrite add0n size_rows_of HT => -[Ho Hr Hz [y Hy]].
  have Hy' : sub_by_hand c o Z (control Z U) T (with_gains o g) = (o1, Ok y).
    by rewrite sub_by_hand_rows ?HT // take_oversize // size_rows_of HT.
  have [[x [P [E1 _ Hu]]]|[i [_ _ _ E1]]] := sub_iter_rp g (leqnn T); rewrite E1 in Hy' => //.
  have Ej : j = T by exact: until_all.
  case: Hy' => <- _; rewrite Ej ltnn; congr (_, Ok _).
  have [S1 S2] := outshape_float Ho; rewrite /= HZ in S1 S2.
  have rows k : (k < T)%N -> row st k = vec_arr oracle n2i (post_x s k.+1) /\ row er k = mat (post_P s k.+1).
    move=> Hk; have [oj [[x1 P1] [F1 F2 F3 F4]]] := Hr k Hk.
    move: F1; rewrite -sub_by_hand_rows ?HT // => F1; rewrite add0n /= in F3 F4.
    have [[x2 [P2 [E2 [R1 R2 Df] _]]]|[i [_ _ _ E2]]] := sub_iter_rp g Hk; rewrite E2 in F1 => //.
    case: F1 => _ e1 e2; subst x2 P2; have [//|D1 D2] := Df; rewrite F3 F4; split.
      by apply: rpf_is_vec; apply: (@fit_vrpf _ _ _ n m); case: R1 => sh Hsh R; exists sh.
    by apply: rpf_is_mat; apply: fit_rpf.
  congr pair.
    apply: is_vecs => // k Hk; case: ltnP => HkT; first by case: (rows k HkT).
    rewrite -HZ in Hk; have [|-> _] := Hz k Hk; first by right.
    by rewrite (alloc_rows _ _ Hk).1; exact: zeros_vec.
  apply: is_mats => // k Hk; case: ltnP => HkT; first by case: (rows k HkT).
  rewrite -HZ in Hk; have [|_ ->] := Hz k Hk; first by right.
  by rewrite (alloc_rows _ _ Hk).2; exact: zeros_mat.
rewrite size_rows_of HT => -[i [Hi Hpre Hend]].
have Hbh k : (k <= T)%N -> sub_rows c (take k (rows_of o Z U)) (kf_xk o, kf_Pk o) (with_gains o g) =
   sub_by_hand c o Z (control Z U) k (with_gains o g) by move=> Hk; rewrite sub_by_hand_rows ?HT.
rewrite Hbh // in Hend.
have {Hend} Eh : sub_by_hand c o Z (control Z U) i.+1 (with_gains o g) = (o1, Raise e).
  case: Hend => // -[_ [xP [Eh Hs]]].
  have [[x [P [E1 [Rx RP _] _]]]|[j' [_ _ _ E1]]] := sub_iter_rp g Hi; rewrite E1 in Eh => //.
  case: Eh => _ Ex; move: Hs; rewrite -Ex.
  by rewrite (@storable_ok _ n m) ?(vrp_vecs Rx) ?(rp_has RP).
have [[x [P [E1 _ _]]]|[l [Hl Hnu Hpre1 E1]]] := sub_iter_rp g Hi; rewrite E1 in Eh => //.
have HlT : (l < T)%N by exact: leq_trans Hl Hi.
have Ej : j = l by exact: until_first.
by case: Eh => <- <-; rewrite Ej HlT.
Qed.

(** smooth: same outcome as the base class. *)
Lemma sub_smooth_answer :
  (sub_smooth id c (sub_filter id c) Z U o).2 = (kf_smooth o' Z' U' [::]).2.
Proof.
have [eA eB eQ ex eP] := HA.
have Hn' : kf_size o' = n by case: Hrun => _ [].
rewrite /sub_smooth /abind sub_filter_answer /kf_smooth /mbind.
case Ef : (kf_filter o' Z' U' [::]) => [g' [est|e]] //; cbn [snd]; rewrite /alift /mlift.
have sZ : sized Z by case/andP: Hit.
have sZ' : sized Z' by case: Hrun => _ [/andP []].
rewrite (len_sized sZ) (len_sized sZ') HZ; cbn [kf_size with_gains].
rewrite Hn Hn'; case: (smooth_init _ _ _) => [sm|e] //.
rewrite -/(control Z U) -/(control Z' U') HU; set o1 := with_gains o _.
have step k r : sub_smooth_step c o1 (control Z' U') est k r o1 = (o1, kf_smooth_step o' (control Z' U') est k r).
  rewrite /sub_smooth_step /kf_smooth_step /abind /alift; cbn [kf_A kf_B kf_Q o1 with_gains]; rewrite eA eB eQ.
  case: (np_getitem (kf_A o') _) => [Ak|] //=.
  case: (np_getitem (kf_Q o') _) => [Qk|] //=.
  case: (np_getitem (kf_B o') _) => [Bk|] //=; case: (np_getitem (control Z' U') _) => [uk|] //=.
  case: (np_getitem est.2 _) => [Pk|] //=; case: (np_getitem est.1 _) => [xk|] //=.
  by rewrite Hp; case: (kf_predict _ _ _ _ _ _) => [ah|e].
move: (_ - 1)%N => j; elim: j sm => [|j IH] sm //=.
by rewrite /abind step; case: (kf_smooth_step _ _ _ _ _) => [sm'|e] //=; apply: IH.
Qed.
End Run.
End SubExact.
