(** * KalmanAlg: the algebra of one correction *)
From mathcomp Require Import all_ssreflect all_algebra.
From Verif Require Import RingTac Loewner.

Set Implicit Arguments.
Unset Strict Implicit.
Unset Printing Implicit Defensive.
Import GRing.Theory Num.Theory Order.Theory.
Local Open Scope ring_scope.

Section Update.
Variable F : realFieldType.
Add Ring Fring : (mc_ring F).
Add Ring Fring1 : (mc_ring1 F).
Add Ring Fring2 : (mc_ring2 F).
Ltac mring := mc_norm F; mc_eq; ring.
Ltac mxadd := mx_atoms F; let i := fresh in let j := fresh in apply/matrixP => i j; rewrite !mxE; mring.
Variables n m : nat.
Implicit Types (P : 'M[F]_n) (H : 'M[F]_(m, n)) (R : 'M[F]_m) (L : 'M[F]_(n, m)).

Definition ucov P H R := H *m P *m H^T + R.
Definition ugain P H R := P *m H^T *m invmx (ucov P H R).
Definition upost P H R := (1%:M - ugain P H R *m H) *m P.
(** Error covariance of the correction with an arbitrary gain L. *)
Definition joseph P H R L := (1%:M - L *m H) *m P *m (1%:M - L *m H)^T + L *m R *m L^T.

Lemma ucov_sym P H R : P^T = P -> R^T = R -> (ucov P H R)^T = ucov P H R.
Proof. by move=> sP sR; rewrite /ucov trD !trmx_mul trmxK sP sR mulmxA. Qed.

Lemma ucov_psd P H R : psd P -> psd R -> psd (ucov P H R).
Proof. by move=> hP hR; apply: psd_add => //; exact: psd_conj. Qed.

Lemma ucov_pd P H R : psd P -> pd R -> pd (ucov P H R).
Proof. by move=> hP hR; apply: pd_addr => //; exact: psd_conj. Qed.

Lemma gain_cov P H R : ucov P H R \in unitmx -> ugain P H R *m ucov P H R = P *m H^T.
Proof. by move=> hS; rewrite /ugain mulmxKV. Qed.

Lemma cov_gainT P H R : P^T = P -> R^T = R -> ucov P H R \in unitmx ->
  ucov P H R *m (ugain P H R)^T = H *m P.
Proof.
move=> sP sR hS; rewrite -[ucov P H R in LHS]ucov_sym // -trmx_mul gain_cov //.
by rewrite trmx_mul trmxK sP.
Qed.

Lemma upostE P H R : P^T = P -> R^T = R -> ucov P H R \in unitmx ->
  upost P H R = P - ugain P H R *m ucov P H R *m (ugain P H R)^T.
Proof. by move=> sP sR hS; rewrite /upost mulmxBl mul1mx -!mulmxA cov_gainT. Qed.

Lemma upost_sym P H R : P^T = P -> R^T = R -> ucov P H R \in unitmx -> (upost P H R)^T = upost P H R.
Proof.
move=> sP sR hS; rewrite upostE // trB sP; congr (_ - _); have := ucov_sym H sP sR.
by move: (ugain P H R) (ucov P H R) => K S E; rewrite !trmx_mul trmxK E mulmxA.
Qed.

Lemma josephE P H R L : P^T = P -> R^T = R -> ucov P H R \in unitmx ->
  joseph P H R L = upost P H R +
    (L - ugain P H R) *m ucov P H R *m (L - ugain P H R)^T.
Proof.
move=> sP sR hS; rewrite upostE // /joseph !trB trmx1 trmx_mul.
have -> : (1%:M - L *m H) *m P *m (1%:M - H^T *m L^T) + L *m R *m L^T =
   P - L *m (H *m P) - P *m H^T *m L^T + L *m ucov P H R *m L^T.
  by rewrite mulmxBl mul1mx !mulmxBr !mulmxBl !mulmx1 !mulmxA /ucov mulmxDr mulmxDl !mulmxA; mxadd.
by rewrite -(cov_gainT sP sR hS) -(gain_cov hS) !mulmxBr !mulmxBl !mulmxA; mxadd.
Qed.

Lemma upost_joseph P H R : P^T = P -> R^T = R -> ucov P H R \in unitmx ->
  upost P H R = joseph P H R (ugain P H R).
Proof. by move=> sP sR hS; rewrite josephE // subrr mul0mx mul0mx addr0. Qed.

Lemma joseph_psd P H R L : psd P -> psd R -> psd (joseph P H R L).
Proof. by move=> hP hR; apply: psd_add; exact: psd_conj. Qed.

Lemma upost_psd P H R : psd P -> psd R -> ucov P H R \in unitmx -> psd (upost P H R).
Proof. by move=> hP hR hS; rewrite upost_joseph ?hP.1 ?hR.1 //; exact: joseph_psd. Qed.

Lemma upost_pd P H R : pd P -> pd R -> pd (upost P H R).
Proof.
move=> hP hR; have hS := pd_unit (ucov_pd H (pd_psd hP) hR).
have hpsd := upost_psd (pd_psd hP) (pd_psd hR) hS.
split=> [|x Hx]; first by case: hpsd.
rewrite lt0r (hpsd.2 x) andbT; apply: contra Hx => /eqP.
rewrite upost_joseph ?hP.1 ?hR.1 // /joseph quadD !quad_conj => /eqP.
rewrite paddr_eq0 ?(pd_psd hP).2 ?(pd_psd hR).2 // => /andP [/eqP E1 /eqP E2].
have K0 : (ugain P H R)^T *m x = 0.
  by apply/eqP; apply: contraT => Hk; have := hR.2 _ Hk; rewrite E2 ltxx.
apply: contraT => Hk; have := hP.2 x Hk; move: E1.
by rewrite trB trmx1 trmx_mul mulmxBl mul1mx -mulmxA K0 mulmx0 subr0 => ->; rewrite ltxx.
Qed.

Lemma upost_le P H R : psd P -> psd R -> ucov P H R \in unitmx -> loewner (upost P H R) P.
Proof.
move=> hP hR hS; have -> : loewner (upost P H R) P <-> psd (ugain P H R *m ucov P H R *m (ugain P H R)^T).
  by rewrite /loewner upostE ?hP.1 ?hR.1 // opprB addrCA subrr addr0.
exact/psd_conj/ucov_psd.
Qed.

Lemma ugain_best P H R L : psd P -> psd R -> ucov P H R \in unitmx ->
  loewner (upost P H R) (joseph P H R L).
Proof.
move=> hP hR hS; rewrite /loewner josephE ?hP.1 ?hR.1 // addrAC subrr add0r.
exact/psd_conj/ucov_psd.
Qed.

Lemma ugain_unique P H R L : psd P -> psd R -> ucov P H R \in unitmx ->
  joseph P H R L = upost P H R -> L = ugain P H R.
Proof.
move=> hP hR hS; rewrite josephE ?hP.1 ?hR.1 // => /eqP.
rewrite -subr_eq0 addrAC subrr add0r => /eqP E.
have hSpd := psd_unit_pd (ucov_psd H hP hR) hS.
apply/eqP; rewrite -subr_eq0; set D := L - _; rewrite -/D in E.
have HD (x : 'cV_n) : D^T *m x = 0.
  apply/eqP; apply: contraT => Hk; have := hSpd.2 _ Hk.
  by rewrite -quad_conj E quad0 ltxx.
apply/eqP; rewrite -[D]trmxK; apply: (canLR (@trmxK _ _ _)); rewrite trmx0.
by apply/matrixP => i j; rewrite !mxE; have /colP /(_ i) := HD (delta_mx j 0); rewrite -colE !mxE.
Qed.

(** Monotonicity in the prior and in the noise. *)
Lemma joseph_mono P P' H R R' L : loewner P P' -> loewner R R' ->
  loewner (joseph P H R L) (joseph P' H R' L).
Proof. by move=> h1 h2; apply: loewner_add; exact: loewner_conj. Qed.

Lemma upost_mono P P' H R R' : psd P -> psd R -> ucov P H R \in unitmx -> ucov P' H R' \in unitmx ->
  loewner P P' -> loewner R R' -> loewner (upost P H R) (upost P' H R').
Proof.
move=> hP hR hS hS' h1 h2; have hP' := loewner_psd hP h1; have hR' := loewner_psd hR h2.
rewrite (upost_joseph hP'.1 hR'.1 hS').
exact: (loewner_trans (ugain_best _ hP hR hS) (joseph_mono _ _ h1 h2)).
Qed.

(** Information form. *)
Lemma uinfo P H R : P \in unitmx -> R \in unitmx -> ucov P H R \in unitmx ->
  (invmx P + H^T *m invmx R *m H) *m upost P H R = 1%:M.
Proof.
move=> hP hR hS; rewrite /upost mulmxBl mul1mx mulmxBr mulmxDl mulVmx //.
have -> : (invmx P + H^T *m invmx R *m H) *m (ugain P H R *m H *m P) = H^T *m invmx R *m H *m P.
  have E : (invmx P + H^T *m invmx R *m H) *m (P *m H^T) = H^T *m invmx R *m ucov P H R.
    rewrite mulmxDl mulmxA mulVmx // mul1mx /ucov mulmxDr -!mulmxA mulVmx // mulmx1.
    by rewrite addrC.
  have -> : ugain P H R *m H *m P = P *m H^T *m (invmx (ucov P H R) *m (H *m P)) by rewrite /ugain !mulmxA.
  by rewrite mulmxA E !mulmxA mulmxK.
by rewrite addrK.
Qed.

Lemma upost_inv P H R : P \in unitmx -> R \in unitmx -> ucov P H R \in unitmx ->
  invmx (upost P H R) = invmx P + H^T *m invmx R *m H /\ upost P H R \in unitmx.
Proof.
move=> hP hR hS; have E := uinfo hP hR hS; have [U1 U2] := mulmx1_unit E.
split=> //; have := congr1 (fun M => M *m invmx (upost P H R)) E.
by rewrite mulmxK // mul1mx.
Qed.

(** The gain is post H' R^-1. *)
Lemma gain_info P H R : R \in unitmx -> ucov P H R \in unitmx ->
  ugain P H R = upost P H R *m H^T *m invmx R.
Proof.
move=> hR hS; rewrite -[LHS](mulmxK hR); congr (_ *m _).
rewrite /upost !mulmxBl mul1mx -(gain_cov hS) /ucov mulmxDr !mulmxA.
by rewrite addrAC subrr add0r.
Qed.

Definition ucorr P H R (x : 'cV[F]_n) (z : 'cV[F]_m) := x + ugain P H R *m (z - H *m x).

Lemma uinfo_x P H R x z : P \in unitmx -> R \in unitmx -> ucov P H R \in unitmx ->
  invmx (upost P H R) *m ucorr P H R x z = invmx P *m x + H^T *m invmx R *m z.
Proof.
move=> hP hR hS; have [E U] := upost_inv hP hR hS.
rewrite /ucorr gain_info //; move: (upost P H R) E U => V E U.
rewrite mulmxDr !mulmxA mulVmx // mul1mx E mulmxDl mulmxBr !mulmxA; mxadd.
Qed.

(** The post-fit residual. *)
Lemma upostfit P H R x z : ucov P H R \in unitmx ->
  z - H *m ucorr P H R x z = R *m invmx (ucov P H R) *m (z - H *m x).
Proof.
move=> hS; rewrite /ucorr mulmxDr opprD addrA; set y := z - H *m x.
have -> : y - H *m (ugain P H R *m y) = (1%:M - H *m ugain P H R) *m y.
  by rewrite mulmxBl mul1mx !mulmxA.
congr (_ *m _); rewrite -(mulmxV hS) /ugain !mulmxA -mulmxBl; congr (_ *m _).
by rewrite /ucov [X in X - _]addrC addrK.
Qed.

Lemma upost_HP P H R : ucov P H R \in unitmx ->
  H *m upost P H R = R *m invmx (ucov P H R) *m H *m P.
Proof.
move=> hS; rewrite /upost mulmxA mulmxBr mulmx1 mulmxA; congr (_ *m _).
have -> : H - H *m ugain P H R *m H = (1%:M - H *m ugain P H R) *m H by rewrite mulmxBl mul1mx.
congr (_ *m _); rewrite -(mulmxV hS) /ugain !mulmxA -mulmxBl; congr (_ *m _).
by rewrite /ucov [X in X - _]addrC addrK.
Qed.

(** Completing the square: prior and observation misfit together. *)
Lemma complete_square P H R (a x : 'cV[F]_n) (z : 'cV[F]_m) : pd P -> pd R ->
  quad (invmx P) (x - a) + quad (invmx R) (z - H *m x) =
  quad (invmx (upost P H R)) (x - ucorr P H R a z) + quad (invmx (ucov P H R)) (z - H *m a).
Proof.
move=> hP hR; have uP := pd_unit hP; have uR := pd_unit hR.
have hS := ucov_pd H (pd_psd hP) hR; have uS := pd_unit hS.
have [E U] := @upost_inv _ H _ uP uR uS.
set e := x - a; set y := z - H *m a.
have -> : z - H *m x = y - H *m e by rewrite /y /e mulmxBr opprB addrA subrK.
have -> : x - ucorr P H R a z = e - ugain P H R *m y by rewrite /ucorr opprD addrA.
have sM : (invmx (upost P H R))^T = invmx (upost P H R).
  by rewrite sym_inv // upost_sym ?hP.1 ?hR.1.
have sRi := sym_inv hR.1.
rewrite (quad_add (y) (- (H *m e)) sRi) quadxN.
rewrite (quad_add e (- (ugain P H R *m y)) sM) quadxN.
have mN (M : 'M[F]_1) : (- M) 0 0 = - M 0 0 by rewrite mxE.
rewrite !mulmxN !mN !mulNrn.
(* quadratic in e *)
have -> : quad (invmx (upost P H R)) e = quad (invmx P) e + quad (invmx R) (H *m e).
  by rewrite E quadD quad_conjT.
(* cross term *)
have -> : e^T *m invmx (upost P H R) *m (ugain P H R *m y) = (H *m e)^T *m invmx R *m y.
  rewrite gain_info //; move: (upost P H R) U => V U.
  by rewrite !mulmxA mulmxKV // trmx_mul ?mulmxA.
have -> : (y^T *m invmx R *m (H *m e)) 0 0 = ((H *m e)^T *m invmx R *m y) 0 0 by rewrite form_sym.
(* quadratic in y *)
have -> : quad (invmx R) y = quad (invmx (upost P H R)) (ugain P H R *m y) + quad (invmx (ucov P H R)) y.
  have -> : quad (invmx (upost P H R)) (ugain P H R *m y) =
            quad ((ugain P H R)^T *m invmx (upost P H R) *m ugain P H R) y.
    by rewrite quad_conjT.
  rewrite -quadD; congr (quad _ y).
  have -> : (ugain P H R)^T *m invmx (upost P H R) *m ugain P H R =
            invmx R *m H *m P *m H^T *m invmx (ucov P H R).
    have -> : (ugain P H R)^T = invmx R *m H *m upost P H R.
      rewrite gain_info //; have := upost_sym hP.1 hR.1 uS; move: (upost P H R) => V sV.
      by rewrite !trmx_mul trmxK sRi sV mulmxA.
    by move: (upost P H R) U => V U; rewrite -[_ *m V *m _]mulmxA mulmxV // mulmx1 /ugain !mulmxA.
  have E1 : invmx R = invmx R *m ucov P H R *m invmx (ucov P H R) by rewrite mulmxK.
  by rewrite {1}E1 {1}/ucov mulmxDr mulmxDl mulVmx // mul1mx !mulmxA.
by rewrite !mulr2n; mring.
Qed.

(** The correction is the strict minimiser of the sum of both misfits. *)
Lemma ucorr_min P H R (a y : 'cV[F]_n) (z : 'cV[F]_m) : pd P -> pd R -> y != ucorr P H R a z ->
  quad (invmx P) (ucorr P H R a z - a) + quad (invmx R) (z - H *m ucorr P H R a z) <
  quad (invmx P) (y - a) + quad (invmx R) (z - H *m y).
Proof.
move=> hP hR Hy; have cs := complete_square H a _ z hP hR.
rewrite (cs (ucorr P H R a z)) (cs y); move: {cs} (upost_pd H hP hR) Hy.
move: (ucov P H R) (upost P H R) (ucorr P H R a z) => S C x hu Hy.
rewrite ltr_add2r subrr quadx0.
by have [_] := pd_inv hu; apply; rewrite subr_eq0.
Qed.

End Update.
