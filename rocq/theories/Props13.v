(** * Props13: C66, C67: from the constructor's arguments to the returned arrays

    [vecs T v], [mats T M] are the float64 arrays of shape (T, d), (T, r, c)
    that hold the vectors v 0 .. v (T-1), the matrices M 0 .. M (T-1); [vec]
    and [mat] hold one (Build.v).  The answers are in EndSpec.v. *)
From Coq Require Import ZArith.
From mathcomp Require Import all_ssreflect all_algebra.
From Verif Require Import RingTac Np NpLemmas Kf Ekf ApiSpec Exact Repr Textbook Build Loewner KalmanAlg TextbookThms
  EndSpec EndToEnd EkfEnd.

Set Implicit Arguments.
Unset Strict Implicit.
Unset Printing Implicit Defensive.
Import GRing.Theory Num.Theory Order.Theory.
Local Open Scope ring_scope.

Section Props.
Variable F : realFieldType.
Variable oracle : oracle_type F.
Variable n2i : Z.
Notation N := (exact oracle n2i).
Notation arr := (arr N).
Notation vec := (vec_arr oracle n2i).
Notation mat := (mx_arr oracle n2i).
Notation vecs := (vecs_arr oracle n2i).
Notation mats := (mxs_arr oracle n2i).

(** ** C66: the standard filter

    Each sequence can have its own length; B and U can be None. *)
Section Standard.
Variables (n m p : nat).
Variables (A : nat -> 'M[F]_n) (H : nat -> 'M[F]_(m, n)) (Q : nat -> 'M[F]_n) (R : nat -> 'M[F]_m).
Variables (x0 : 'cV[F]_n) (P0 : 'M[F]_n) (z : nat -> 'cV[F]_m).
Variables (B : nat -> 'M[F]_(n, p)) (u : nat -> 'cV[F]_p) (tA tH tQ tR tz tB tu : nat).

Theorem C66_filter_from_matrices_to_arrays (ss : option Z) : ss = None \/ ss = Some (Z.of_nat n) ->
  let T := foldr minn tz [:: tA; tH; tB; tu; tQ; tR] in
  let s := Model A (fun k => B k *m u k) H Q R z x0 P0 in
  exists self,
    kf_init (mats tA A) (vec x0) (Some (mats tB B)) (mat P0) (mats tH H) (mats tQ Q) (mats tR R) ss = Ok self /\
    forall g, kf_filter self (vecs tz z) (Some (vecs tu u)) g = kalman_filter_answer s T tz g.
Proof.
move=> Hss T s; exists (end_self oracle n2i A (Some (tB, B)) H Q R x0 P0 tA tH tQ tR); split.
  exact: (end_init oracle n2i A (Some (tB, B)) H Q R x0 P0 tA tH tQ tR Hss).
exact: (end_filter A (Some (tB, B)) H Q R x0 P0 z (Some (tu, u)) tA tH tQ tR tz).
Qed.

Theorem C66_filter_without_control (ss : option Z) (Bo : bool) (Uo : bool) :
  ss = None \/ ss = Some (Z.of_nat n) -> ~~ (Bo && Uo) ->
  let T := foldr minn tz [:: tA; tH; if Bo then tB else tA; if Uo then tu else tz; tQ; tR] in
  let s := Model A (fun _ => 0) H Q R z x0 P0 in
  exists self,
    kf_init (mats tA A) (vec x0) (if Bo then Some (mats tB B) else None) (mat P0)
      (mats tH H) (mats tQ Q) (mats tR R) ss = Ok self /\
    forall g, kf_filter self (vecs tz z) (if Uo then Some (vecs tu u) else None) g
              = kalman_filter_answer s T tz g.
Proof.
move=> Hss Hbu T s.
pose oB := if Bo then Some (tB, B) else None; pose oU := if Uo then Some (tu, u) else None.
exists (end_self oracle n2i A oB H Q R x0 P0 tA tH tQ tR); split.
  by have := end_init oracle n2i A oB H Q R x0 P0 tA tH tQ tR Hss; rewrite /oB; case: (Bo).
move=> g; have := end_filter A oB H Q R x0 P0 z oU tA tH tQ tR tz g.
by rewrite /oB /oU /T /s; case: (Bo) Hbu; case: (Uo).
Qed.

(** smooth, with at least as many rows everywhere as observations. *)
Theorem C66_smooth_from_matrices_to_arrays (ss : option Z) (L : nat) : ss = None \/ ss = Some (Z.of_nat n) ->
  tz = L.+1 -> [&& (tz <= tA)%N, (tz <= tH)%N, (tz <= tB)%N, (tz <= tu)%N, (tz <= tQ)%N & (tz <= tR)%N] ->
  let s := Model A (fun k => B k *m u k) H Q R z x0 P0 in
  exists self,
    kf_init (mats tA A) (vec x0) (Some (mats tB B)) (mat P0) (mats tH H) (mats tQ Q) (mats tR R) ss = Ok self /\
    forall g, kf_smooth self (vecs tz z) (Some (vecs tu u)) g = kalman_smooth_answer s L g.
Proof.
move=> Hss HL /and5P [h1 h2 h3 h4 /andP [h5 h6]] s.
exists (end_self oracle n2i A (Some (tB, B)) H Q R x0 P0 tA tH tQ tR); split.
  exact: (end_init oracle n2i A (Some (tB, B)) H Q R x0 P0 tA tH tQ tR Hss).
move=> g; apply: (@end_smooth _ _ _ _ _ _ A (Some (tB, B)) H Q R x0 P0 z (Some (tu, u)) _ _ _ _ _ _ g HL).
rewrite /end_steps /len_of; apply/eqP; rewrite eqn_leq; apply/andP; split.
  by rewrite /= !geq_min leqnn !orbT.
by rewrite /= !leq_min h1 h2 h3 h4 h5 h6 leqnn.
Qed.

Theorem C66_smooth_without_control (ss : option Z) (L : nat) : ss = None \/ ss = Some (Z.of_nat n) ->
  tz = L.+1 -> [&& (tz <= tA)%N, (tz <= tH)%N, (tz <= tQ)%N & (tz <= tR)%N] ->
  let s := Model A (fun _ => 0) H Q R z x0 P0 in
  exists self,
    kf_init (mats tA A) (vec x0) None (mat P0) (mats tH H) (mats tQ Q) (mats tR R) ss = Ok self /\
    forall g, kf_smooth self (vecs tz z) None g = kalman_smooth_answer s L g.
Proof.
move=> Hss HL /and4P [h1 h2 h5 h6] s.
exists (end_self oracle n2i A (None : option (nat * (nat -> 'M[F]_(n, p)))) H Q R x0 P0 tA tH tQ tR); split.
  exact: (end_init oracle n2i A (None : option (nat * (nat -> 'M[F]_(n, p)))) H Q R x0 P0 tA tH tQ tR Hss).
move=> g; apply: (@end_smooth _ _ _ _ _ _ A (None : option (nat * (nat -> 'M[F]_(n, p)))) H Q R x0 P0 z None _ _ _ _ _ _ g HL).
rewrite /end_steps /len_of; apply/eqP; rewrite eqn_leq; apply/andP; split.
  by rewrite /= !geq_min leqnn !orbT.
by rewrite /= !leq_min h1 h2 h5 h6 leqnn.
Qed.
End Standard.

(** ** C67: the extended filter

    [py_f f], .. are the callables a user writes for the functions f, h and
    Jacobians jf, jh on vectors; a control that is entirely NaN (what None
    becomes) counts as zero. *)
Section Extended.
Variables (n m q : nat) (f : 'cV[F]_n -> 'cV[F]_q -> 'cV[F]_n) (h : 'cV[F]_n -> 'cV[F]_m).
Variables (jf : 'cV[F]_n -> 'cV[F]_q -> 'M[F]_n) (jh : 'cV[F]_n -> 'M[F]_(m, n)).
Variables (Q : nat -> 'M[F]_n) (R : nat -> 'M[F]_m) (x0 : 'cV[F]_n) (P0 : 'M[F]_n).
Variables (z : nat -> 'cV[F]_m) (u : nat -> 'cV[F]_q) (tQ tR tz tu : nat).

Theorem C67_filter_from_functions_to_arrays :
  let T := foldr minn tz [:: tu; tQ; tR] in
  let s := NlModel f h jf jh Q R z u x0 P0 in
  exists self : ekf N,
    ekf_init (vec x0) (mat P0) (mats tQ Q) (mats tR R) (py_f f) (py_h h) (py_jf jf) (py_jh jh) = Ok self /\
    forall g, ekf_filter self (vecs tz z) (Some (vecs tu u)) g = nl_filter_answer s T tz g.
Proof.
move=> T s; exists (e_end_self oracle n2i f h jf jh Q R x0 P0 tQ tR); split; first by [].
by move=> g; have := e_end_filter f h jf jh Q R x0 P0 z (Some (tu, u)) tQ tR tz g.
Qed.

Theorem C67_filter_without_control :
  let T := foldr minn tz [:: tz; tQ; tR] in
  let s := NlModel f h jf jh Q R z (fun _ => 0) x0 P0 in
  exists self : ekf N,
    ekf_init (vec x0) (mat P0) (mats tQ Q) (mats tR R) (py_f f) (py_h h) (py_jf jf) (py_jh jh) = Ok self /\
    forall g, ekf_filter self (vecs tz z) None g = nl_filter_answer s T tz g.
Proof.
move=> T s; exists (e_end_self oracle n2i f h jf jh Q R x0 P0 tQ tR); split; first by [].
by move=> g; have := e_end_filter f h jf jh Q R x0 P0 z None tQ tR tz g.
Qed.

Theorem C67_smooth_from_functions_to_arrays L :
  tz = L.+1 -> [&& (tz <= tu)%N, (tz <= tQ)%N & (tz <= tR)%N] ->
  let s := NlModel f h jf jh Q R z u x0 P0 in
  exists self : ekf N,
    ekf_init (vec x0) (mat P0) (mats tQ Q) (mats tR R) (py_f f) (py_h h) (py_jf jf) (py_jh jh) = Ok self /\
    forall g, ekf_smooth self (vecs tz z) (Some (vecs tu u)) g = nl_smooth_answer s L g.
Proof.
move=> HL /and3P [h1 h2 h3] s; exists (e_end_self oracle n2i f h jf jh Q R x0 P0 tQ tR); split; first by [].
move=> g; apply: (@e_end_smooth _ _ _ _ _ _ f h jf jh Q R x0 P0 z (Some (tu, u)) _ _ _ g L HL).
rewrite /e_end_steps /len_of; apply/eqP; rewrite eqn_leq; apply/andP; split.
  by rewrite /= !geq_min leqnn !orbT.
by rewrite /= !leq_min h1 h2 h3 leqnn.
Qed.

Theorem C67_smooth_without_control L : tz = L.+1 -> (tz <= tQ)%N && (tz <= tR)%N ->
  let s := NlModel f h jf jh Q R z (fun _ => 0) x0 P0 in
  exists self : ekf N,
    ekf_init (vec x0) (mat P0) (mats tQ Q) (mats tR R) (py_f f) (py_h h) (py_jf jf) (py_jh jh) = Ok self /\
    forall g, ekf_smooth self (vecs tz z) None g = nl_smooth_answer s L g.
Proof.
move=> HL /andP [h2 h3] s; exists (e_end_self oracle n2i f h jf jh Q R x0 P0 tQ tR); split; first by [].
move=> g; apply: (@e_end_smooth _ _ _ _ _ _ f h jf jh Q R x0 P0 z None _ _ _ g L HL).
rewrite /e_end_steps /len_of; apply/eqP; rewrite eqn_leq; apply/andP; split.
  by rewrite /= !geq_min leqnn !orbT.
by rewrite /= !leq_min h2 h3 leqnn.
Qed.

(** The linear functions give the standard answer. *)
Theorem C67_linear_functions_give_the_standard_answers p (A : 'M[F]_n) (B : 'M[F]_(n, p)) (H : 'M[F]_(m, n))
    (v : nat -> 'cV[F]_p) T len L (g : seq arr) :
  let s := NlModel (fun x w => A *m x + B *m w) (fun x => H *m x) (fun _ _ => A) (fun _ => H) Q R z v x0 P0 in
  let s' := Model (fun _ => A) (fun k => B *m v k) (fun _ => H) Q R z x0 P0 in
  nl_filter_answer s T len g = kalman_filter_answer s' T len g /\
  nl_smooth_answer s L g = kalman_smooth_answer s' L g.
Proof.
move=> s s'; have Hs T0 : same_model (nl_lin s) s' T0.
  split=> // k _; split=> //.
    by rewrite /nl_lin /s' /=; rewrite /nl_xa /nl_prior_x /= addrC addKr.
  by split=> //; rewrite /nl_lin /s' /= subrK.
by rewrite -nl_filter_lin -nl_smooth_lin (same_filter_answer _ _ (Hs _)) (same_smooth_answer _ (Hs _)).
Qed.
End Extended.

(** Cases: with positive definite noise no answer is an error; the answers are
    then arrays of vectors and matrices. *)
Example C66_case n m (s : model F n m) T len (g : seq arr) : psd (mP0 s) ->
  (forall k, (k < T)%N -> psd (mQ s k)) -> (forall k, (k < T)%N -> pd (mR s k)) ->
  kalman_filter_answer s T len g =
    (g ++ [seq mat (gain_at s k) | k <- iota 0 T],
     Ok (vecs len (fun k => if (k < T)%N then post_x s k.+1 else 0),
         mats len (fun k => if (k < T)%N then post_P s k.+1 else 0))).
Proof.
move=> h0 hQ hR; rewrite /kalman_filter_answer /filter_answer until_all ?ltnn //.
by move=> k Hk; apply: (@innov_unit _ _ _ s T) => // i /hR /pd_psd.
Qed.

(** Two steps of x' = x^2 + u seen through x, all noises 1, observations 1, no
    control, from 0 with no initial error. *)
Definition sq_model : nl_model F 1 1 1 :=
  NlModel (fun x w => (x 0 0 ^+ 2)%:M + w) (fun x => x) (fun x _ => (x 0 0 *+ 2)%:M) (fun _ => 1%:M)
    (fun _ => 1%:M) (fun _ => 1%:M) (fun _ => 1%:M) (fun _ => 0) 0 0.

Lemma sq_step k (a b : F) : nl_x sq_model k = a%:M -> nl_P sq_model k = b%:M ->
  let c := (a *+ 2) * b * (a *+ 2) + 1 in c + 1 != 0 ->
  [/\ nl_S sq_model k = (c + 1)%:M, nl_K sq_model k = (c / (c + 1))%:M,
      nl_x sq_model k.+1 = (a ^+ 2 + c / (c + 1) * (1 - a ^+ 2))%:M &
      nl_P sq_model k.+1 = ((1 - c / (c + 1)) * c)%:M].
Proof.
move=> Ex EP c Hc.
have Ey : nl_xa sq_model k = (a ^+ 2)%:M by rewrite /nl_xa /nl_prior_x /= Ex mxE eqxx mulr1n addr0.
have EPa : nl_Pa sq_model k = c%:M.
  by rewrite /nl_Pa /nl_prior_P /= EP Ex mxE eqxx mulr1n tr_scalar_mx -!scalar_mxM -raddfD.
have ES : nl_S sq_model k = (c + 1)%:M.
  by rewrite /nl_S /nl_innovation /= EPa tr_scalar_mx mul1mx mulmx1 -raddfD.
have EK : nl_K sq_model k = (c / (c + 1))%:M.
  by rewrite /nl_K /nl_kgain -/(nl_S sq_model k) ES EPa /= tr_scalar_mx mulmx1 invmx_scalar -scalar_mxM.
have [-> ->] := nl_postS sq_model k.
split=> //; rewrite /nl_corr_x /nl_corr_P -/(nl_K sq_model k) EK ?Ey ?EPa /=.
  by rewrite -raddfB -scalar_mxM -raddfD.
by rewrite mulmx1 -raddfB -scalar_mxM.
Qed.

Example C67_case :
  [/\ nl_K sq_model 0 = (2%:R^-1)%:M, nl_x sq_model 1 = (2%:R^-1)%:M, nl_P sq_model 1 = (2%:R^-1)%:M,
      nl_K sq_model 1 = (3%:R / 5%:R)%:M & until_singular (nl_S sq_model) 2 = 2%N].
Proof.
have n2 : (2%:R : F) != 0 by rewrite pnatr_eq0.
have n5 : (5%:R : F) != 0 by rewrite pnatr_eq0.
have h2 : 2%:R^-1 *+ 2 = 1 :> F by rewrite -[LHS]mulr_natr mulVf.
have e1 : 1 - 2%:R^-1 = 2%:R^-1 :> F by rewrite -{1}h2 mulr2n addrK.
have E2 : (2%:R^-1 *+ 2) * 2%:R^-1 * (2%:R^-1 *+ 2) + 1 = 3%:R / 2%:R :> F.
  by rewrite h2 mulr1 mul1r (natrD _ 1 2) mulrDl divff // mul1r.
have E3 : 3%:R / 2%:R + 1 = 5%:R / 2%:R :> F by rewrite (natrD _ 3 2) mulrDl divff.
have x0 : nl_x sq_model 0 = 0%:M by rewrite raddf0.
have P0 : nl_P sq_model 0 = 0%:M by rewrite raddf0.
have := sq_step x0 P0; rewrite mulr0 mul0r add0r; cbv zeta; rewrite -[1 + 1]/(2%:R) expr0n /= add0r subr0 mulr1 mul1r e1 mulr1.
case=> // S0 K0 x1 P1; have := sq_step x1 P1; rewrite E2; cbv zeta; rewrite E3 => -[|S1 K1 _ _].
  by rewrite mulf_neq0 ?invr_eq0.
split=> //; first by rewrite K1 invf_div mulrA divfK.
apply: until_all => -[|[|k]] // _; rewrite unitmxE ?S0 ?S1 det_scalar expr1 unitfE //.
by rewrite mulf_neq0 ?invr_eq0.
Qed.
End Props.
