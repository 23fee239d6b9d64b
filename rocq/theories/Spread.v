(** * Spread: a noise covariance given as one number acts as the matrix that
    holds this number everywhere, in every arithmetic *)
From Coq Require Import ZArith.
From mathcomp Require Import ssreflect ssrfun ssrbool eqtype ssrnat seq.
From Verif Require Import Np NpLemmas Kf Ekf ApiSpec Loop Frame FilterLemmas FilterThms SmoothLemmas NpShapes WellShaped
  WellShaped2.

Set Implicit Arguments.
Unset Strict Implicit.
Unset Printing Implicit Defensive.

Section Spread.
Variable N : num.
Notation arr := (arr N).

Lemma single_get (a : arr) ix : wfs a -> size (dat a) = 1 -> valid (shp a) ix ->
  get a ix = nth (VI 0) (dat a) 0.
Proof.
move=> /eqP W E Hv; rewrite /get; have := offset_lt Hv; rewrite -W E.
by case: (offset _ _).
Qed.

Lemma add_spread n (a q : arr) : has [:: n; n] a -> cov_layout n q ->
  np_add a (spread n q) = np_add a q.
Proof.
move=> /hasP [Wa Ea] Hq; rewrite /spread; case: ifP => // /eqP E1.
have Hb := cov_has Hq; have Wq : wfs q by case/andP: Hq => /wf_wfs.
rewrite /np_add (@bin_ok _ _ _ a q [:: n; n]) ?Ea //.
set q' := mk _ _ _; rewrite (@bin_ok _ _ _ a q' [:: n; n]) ?Ea ?bshape_same //; congr Ok.
apply: eq_mk => ix Hv; congr sbin.
rewrite -/q'; have -> : get q' (bidx (shp q') ix) = nth (VI 0) (dat q) 0.
  by rewrite bidx_id ?get_mk.
rewrite single_get //.
exact: (@valid_bidx_r [:: n; n] (shp q) [:: n; n]).
Qed.

Lemma project_cov_spread n (A P Q : arr) : has [:: n; n] A -> has [:: n; n] P -> cov_layout n Q ->
  project_cov A P (spread n Q) = project_cov A P Q.
Proof.
move=> HA HP HQ; rewrite /project_cov.
have [c1 -> H1] := mm_has HP (has_T HA); cbn [rbind].
have [c2 -> H2] := mm_has HA H1; cbn [rbind].
exact: add_spread.
Qed.

Lemma innov_cov_spread n m (H P R : arr) : has [:: m; n] H -> has [:: n; n] P -> cov_layout m R ->
  innov_cov H P (spread m R) = innov_cov H P R.
Proof.
move=> HH HP HR; rewrite /innov_cov.
have [c1 -> H1] := mm_has HP (has_T HH); cbn [rbind].
have [c2 -> H2] := mm_has HH H1; cbn [rbind].
exact: add_spread.
Qed.

Definition spread_row n m (s : srow N) : srow N :=
  SRow (rA s) (rH s) (rB s) (rU s) (rZ s) (spread n (rQ s)) (spread m (rR s)).

Lemma step_spread n m p s xP g : row_layout n m p s -> vecs n m xP.1 -> has [:: n; n] xP.2 ->
  kf_step (np_identity N n) (spread_row n m s) xP g = kf_step (np_identity N n) s xP g.
Proof.
move=> [/has_mat HA /has_mat HH Hc [Hz HQ HR]] Hx HP; rewrite /kf_step /spread_row.
cbn [rA rH rB rU rZ rQ rR]; rewrite /mbind /mlift.
have -> : kf_predict (rA s) xP.1 (Some (rB s)) (Some (rU s)) xP.2 (spread n (rQ s)) =
          kf_predict (rA s) xP.1 (Some (rB s)) (Some (rU s)) xP.2 (rQ s).
  by rewrite /kf_predict project_cov_spread.
have [y [C [-> Hy HC]]] := predict_shape HA Hx Hc HP HQ; cbn [fst snd].
by rewrite /kf_update /mbind /mlift (innov_cov_spread HH HC HR).
Qed.

Lemma loop_spread n m p rows k xP out g :
  (forall i s0, i < size rows -> row_layout n m p (nth s0 rows i)) ->
  vecs n m xP.1 -> has [:: n; n] xP.2 ->
  filter_loop (kf_step (np_identity N n)) (map (spread_row n m) rows) k xP out g =
  filter_loop (kf_step (np_identity N n)) rows k xP out g.
Proof.
elim: rows k xP out g => [|s rows IH] k xP out g Hr Hx HP //=.
have Hs := Hr 0 s (ltn0Sn _); rewrite /= in Hs.
rewrite /mbind (step_spread g Hs Hx HP).
case: (step_shape g Hs Hx HP) => [[Kk [y [C [-> _ Hy HC]]]]|-> //].
rewrite /mlift; case: (store _ _ _) => // out'.
by apply: IH => // i s0 Hi; exact: (Hr i.+1 s0).
Qed.

Section Obj.
Variables (n m p : nat) (self : kf N) (Z : arr) (U : option arr) (Q R : arr) (g : seq arr).
Let self' := with_noise self Q R.
Hypothesis Hc : constructed self.
Hypothesis Hw : well_shaped n m p self Z U.
Hypothesis HQ : sized Q.
Hypothesis HR : sized R.
Hypothesis HT : steps self' Z U = steps self Z U.
Hypothesis Hk : forall k, k < steps self Z U ->
  row Q k = spread n (row (kf_Q self) k) /\ row R k = spread m (row (kf_R self) k).

Lemma filter_spread : kf_filter self' Z U g = kf_filter self Z U g.
Proof.
have [Hit Hn Hx HP Hl] := Hw.
have Hit' : iterable self' Z U.
  by move: Hit; rewrite /iterable /= => /and5P [-> -> -> -> /and4P [-> _ _ _]]; rewrite HQ HR.
rewrite !kf_filterE //.
have -> : rows_of self' Z U = map (spread_row n m) (rows_of self Z U).
  rewrite /rows_of HT -map_comp; apply/eq_in_map => k; rewrite mem_iota add0n => /andP [_ Hlt].
  by have [E1 E2] := Hk Hlt; rewrite /= /srow_at /spread_row /= E1 E2.
have -> : kf_I self' = np_identity N n by rewrite /= (constructed_I Hc) Hn.
have -> : kf_I self = np_identity N n by rewrite (constructed_I Hc) Hn.
apply: (@loop_spread n m p); first exact: well_shaped_rows Hw.
  exact: vec_vecs.
exact: has_mat.
Qed.

Lemma smooth_spread : steps self Z U = nrows Z -> kf_smooth self' Z U g = kf_smooth self Z U g.
Proof.
move=> HTZ; have [Hit Hn Hx HP Hl] := Hw.
rewrite /kf_smooth /mbind filter_spread; case E: (kf_filter self Z U g) => [g' [[st er]|e]] //.
have [Ho _ _ _] := filter_ok E; rewrite Hn in Ho.
have HZ : sized Z by case/andP: Hit.
rewrite /mlift (len_sized HZ); case: (smooth_init _ _ _) => // sm.
congr pair.
suff H j : j <= nrows Z - 1 -> smooth_loop (kf_smooth_step self' (check_none_and_broadcast U Z) (st, er)) j sm =
    smooth_loop (kf_smooth_step self (check_none_and_broadcast U Z) (st, er)) j sm by exact: H.
elim: j sm => [|j IH] sm Hj //; cbn [smooth_loop].
have HjT : j.+1 < steps self Z U.
  by rewrite HTZ; move: Hj; case: (nrows Z) => // L; rewrite subn1.
have -> : kf_smooth_step self' (check_none_and_broadcast U Z) (st, er) j sm =
          kf_smooth_step self (check_none_and_broadcast U Z) (st, er) j sm.
  rewrite /kf_smooth_step; cbn [kf_A kf_Q kf_B self' with_noise].
  have [LA LH LB [LZ LQ LR]] := Hl _ HjT.
  have [[_ HA _ _] [_ HQ0 _]] := steps_le self Z U.
  have [[_ _ _ _] [_ HQ' _]] := steps_le self' Z U; rewrite HT in HQ'.
  rewrite (getitem_cases (kf_A self)) (leq_trans HjT HA); cbn [rbind].
  rewrite !getitem_cases (leq_trans HjT HQ0) (leq_trans HjT HQ'); cbn [rbind].
  have [-> _] := Hk HjT.
  case: (j.+1 < nrows (kf_B self)) => //; cbn [rbind].
  case: (j.+1 < nrows _) => //; cbn [rbind].
  have Hj0 : j < nrows Z by rewrite -HTZ ltnW.
  have [[_ _ e1] [w2 _ e2]] := Ho.
  have n1 : nrows er = nrows Z by rewrite /nrows; cbn [snd] in e2; rewrite e2.
  have n2 : nrows st = nrows Z by rewrite /nrows; cbn [fst] in e1; rewrite e1.
  cbn [fst snd]; rewrite n1 n2 Hj0; cbn [rbind].
  have hP : has [:: n; n] (row er j).
    apply/hasP; split; last by rewrite shp_row; cbn [snd] in e2; rewrite e2.
    apply: (@wfs_row _ er j (nrows Z) [:: n; n]) => //; exact: wf_wfs.
  by rewrite /kf_predict (project_cov_spread (has_mat LA) hP LQ).
case: (kf_smooth_step _ _ _ _ _) => // sm'; cbn [rbind]; apply: IH; exact: ltnW.
Qed.
End Obj.
End Spread.
