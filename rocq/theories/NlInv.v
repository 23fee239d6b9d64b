(** * NlInv: the extended filter in other units *)
From Coq Require Import ZArith.
From mathcomp Require Import all_ssreflect all_algebra.
From Verif Require Import Np Kf Exact Repr Textbook Build EndSpec EndToEnd EkfEnd.

Set Implicit Arguments.
Unset Strict Implicit.
Unset Printing Implicit Defensive.
Import GRing.Theory Num.Theory.
Local Open Scope ring_scope.

Section NlInv.
Variable F : realFieldType.
Variable oracle : oracle_type F.
Variable n2i : Z.
Notation N := (exact oracle n2i).
Notation arr := (arr N).

(** ** Answers depend only on the steps before the first singular one *)
Section Upto.
Variables (n m n' m' : nat).

Lemma until_upto (S : nat -> 'M[F]_m) (S' : nat -> 'M[F]_m') T :
  (forall k, (k < T)%N -> (forall i, (i < k)%N -> S i \in unitmx) -> (S' k \in unitmx) = (S k \in unitmx)) ->
  until_singular S' T = until_singular S T.
Proof.
move=> H; have lt k : (k < until_singular S T)%N -> S k \in unitmx.
  move=> Hk; have Hk' := leq_trans Hk (until_le _ _).
  have := @before_find _ 0%N (fun k => S k \notin unitmx) (iota 0 T) k Hk.
  by rewrite nth_iota // add0n => /negbFE.
have := until_le S T; rewrite leq_eqVlt => /orP [/eqP Ej|Hj].
  rewrite Ej; apply: until_all => k Hk; rewrite H //; first by apply: lt; rewrite Ej.
  by move=> i Hi; apply: lt; rewrite Ej; exact: ltn_trans Hi Hk.
apply: until_first => //.
  rewrite H //.
  have := @nth_find _ 0%N (fun k => S k \notin unitmx) (iota 0 T).
  by rewrite has_find size_iota => /(_ Hj); rewrite nth_iota // add0n.
move=> i Hi; rewrite H ?lt //; first exact: ltn_trans Hi Hj.
by move=> l Hl; apply: lt; exact: ltn_trans Hl Hi.
Qed.

Lemma until_units (S : nat -> 'M[F]_m) T k : (k < until_singular S T)%N ->
  (k < T)%N /\ forall i, (i <= k)%N -> S i \in unitmx.
Proof.
move=> Hk; split=> [|i Hi]; first exact: leq_trans Hk (until_le _ _).
have Hi' := leq_ltn_trans Hi Hk; have Hi2 := leq_trans Hi' (until_le _ _).
have := @before_find _ 0%N (fun k => S k \notin unitmx) (iota 0 T) i Hi'.
by rewrite nth_iota // add0n => /negbFE.
Qed.
End Upto.

Section Upto2.
Variables (n m m' : nat).
Implicit Types (x xs : nat -> 'cV[F]_n) (P Ps Pa : nat -> 'M[F]_n) (K : nat -> 'M[F]_(n, m)).

Lemma filter_answer_upto x x' P P' K K' (S S' : nat -> 'M[F]_m) T len (g : seq arr) :
  (forall k, (k < T)%N -> (forall i, (i < k)%N -> S i \in unitmx) -> (S' k \in unitmx) = (S k \in unitmx)) ->
  (forall k, (k < T)%N -> (forall i, (i <= k)%N -> S i \in unitmx) -> [/\ x' k = x k, P' k = P k & K' k = K k]) ->
  filter_answer x' P' K' S' T len g = filter_answer x P K S T len g.
Proof.
move=> HS H; rewrite /filter_answer (until_upto HS); congr (_, _).
  congr (_ ++ _); apply/eq_in_map => k; rewrite mem_iota add0n => Hk.
  by have [h1 h2] := until_units Hk; have [_ _ ->] := H k h1 h2.
case: ifP => // /negbT; rewrite -leqNgt => Hj.
have E k : (k < T)%N -> [/\ x' k = x k, P' k = P k & K' k = K k].
  by move=> Hk; have [h1 h2] := until_units (leq_trans Hk Hj); exact: H.
congr (Ok (_, _)); first apply: vecs_ext; last apply: mats_ext; move=> k _; case: ifP => // /E [] //.
Qed.

Lemma smooth_answer_upto K K' (S S' : nat -> 'M[F]_m) xs xs' Ps Ps' Pa Pa' L (g : seq arr) :
  (forall k, (k <= L)%N -> (forall i, (i < k)%N -> S i \in unitmx) -> (S' k \in unitmx) = (S k \in unitmx)) ->
  (forall k, (k <= L)%N -> (forall i, (i <= k)%N -> S i \in unitmx) -> K' k = K k) ->
  (forall k, (0 < k)%N -> (k <= L)%N -> (forall i, (i < k)%N -> S i \in unitmx) -> (Pa' k \in unitmx) = (Pa k \in unitmx)) ->
  ((forall i, (i <= L)%N -> S i \in unitmx) -> (forall i, (0 < i)%N -> (i <= L)%N -> Pa i \in unitmx) ->
     forall k, (k <= L)%N -> xs' k = xs k /\ Ps' k = Ps k) ->
  smooth_answer K' S' xs' Ps' Pa' L g = smooth_answer K S xs Ps Pa L g.
Proof.
move=> HS HK HP H; rewrite /smooth_answer (until_upto (HS : forall k, (k < L.+1)%N -> _)); congr (_, _).
  congr (_ ++ _); apply/eq_in_map => k; rewrite mem_iota add0n => Hk.
  by have [h1 h2] := until_units Hk; rewrite HK.
case: ltnP => //= Hj; have U i : (i <= L)%N -> S i \in unitmx.
  by move=> Hi; have [_ h2] := until_units (leq_trans (Hi : (i < L.+1)%N) Hj); exact: h2.
have E k : (0 < k)%N -> (k <= L)%N -> (Pa' k \in unitmx) = (Pa k \in unitmx).
  by move=> k0 Hk; apply: HP => // i Hi; apply: U; exact: leq_trans (ltnW Hi) Hk.
have -> : seq.has (fun k => Pa' k \notin unitmx) (iota 1 L) = seq.has (fun k => Pa k \notin unitmx) (iota 1 L).
  by apply: eq_in_has => k; rewrite mem_iota add1n => /andP [k0]; rewrite ltnS => Hk; rewrite E.
case: ifP => // /negbT /hasPn Hh.
have E2 := H U; have E3 k : (k <= L)%N -> xs' k = xs k /\ Ps' k = Ps k.
  apply: E2 => i i0 Hi; apply: negbNE; apply: Hh; rewrite mem_iota i0 add1n ltnS //.
congr (Ok (_, _)); first apply: vecs_ext; last apply: mats_ext; move=> k; rewrite ltnS => /E3 [] //.
Qed.
End Upto2.

(** ** Inverses of transformed covariances *)
Lemma inv_cong r (c : F) (V X : 'M[F]_r) : c != 0 -> V \in unitmx -> X \in unitmx ->
  invmx (c *: (V *m X *m V^T)) = c^-1 *: ((invmx V)^T *m invmx X *m invmx V).
Proof.
move=> c0 uV uX; have uVt : V^T \in unitmx by rewrite unitmx_tr.
have uc : c *: (V *m X *m V^T) \in unitmx by rewrite unitmxZ ?unitfE // !unitmx_mul uV uX uVt.
apply: (can_inj (mulKmx uc)); rewrite mulmxV // -scalemxAl -scalemxAr scalerA mulfV // scale1r.
by rewrite trmx_inv !mulmxA mulmxK // mulmxK // mulmxV.
Qed.

Lemma unit_cong r (c : F) (V X : 'M[F]_r) : c != 0 -> V \in unitmx ->
  (c *: (V *m X *m V^T) \in unitmx) = (X \in unitmx).
Proof. by move=> c0 uV; rewrite unitmxZ ?unitfE // !unitmx_mul unitmx_tr uV andbT. Qed.

(** ** The same system in other units *)
Section Units.
Variables (n m q : nat).

(** s' is the system of s written for the state V x + d and the observation
    M z + b, with all noise and initial covariances multiplied by c. *)
Definition in_units (V : 'M[F]_n) (d : 'cV[F]_n) (M : 'M[F]_m) (b : 'cV[F]_m) (c : F)
    (s s' : nl_model F n m q) : Prop :=
  [/\ (forall x u, nf s' (V *m x + d) u = V *m nf s x u + d) /\
      (forall x, nh s' (V *m x + d) = M *m nh s x + b),
      (forall x u, njf s' (V *m x + d) u *m V = V *m njf s x u) /\
      (forall x, njh s' (V *m x + d) *m V = M *m njh s x),
      forall k, nQ s' k = c *: (V *m nQ s k *m V^T) /\ nR s' k = c *: (M *m nR s k *m M^T),
      forall k, nz s' k = M *m nz s k + b /\ nu s' k = nu s k &
      nx0 s' = V *m nx0 s + d /\ nP0 s' = c *: (V *m nP0 s *m V^T)].

Variables (s : nl_model F n m q) (V : 'M[F]_n) (d : 'cV[F]_n) (M : 'M[F]_m) (b : 'cV[F]_m) (c : F).
Hypothesis c0 : c != 0.
Hypothesis uV : V \in unitmx.
Hypothesis uM : M \in unitmx.

Variable s' : nl_model F n m q.
Hypothesis HU : in_units V d M b c s s'.

Lemma cong_mul r (X : 'M[F]_(r, n)) (P : 'M[F]_n) :
  (X *m invmx V) *m (c *: (V *m P *m V^T)) *m (X *m invmx V)^T = c *: (X *m P *m X^T).
Proof.
rewrite -scalemxAr -scalemxAl; congr (_ *: _).
by rewrite trmx_mul trmx_inv !mulmxA mulmxKV // mulmxK // unitmx_tr.
Qed.

Let hf x u : nf s' (V *m x + d) u = V *m nf s x u + d. Proof. by case: HU => [[]]. Qed.
Let hh x : nh s' (V *m x + d) = M *m nh s x + b. Proof. by case: HU => [[]]. Qed.
Let hjf x u : njf s' (V *m x + d) u = V *m njf s x u *m invmx V.
Proof. by case: HU => _ [/(_ x u) <- _] _ _ _; rewrite mulmxK. Qed.
Let hjh x : njh s' (V *m x + d) = M *m njh s x *m invmx V.
Proof. by case: HU => _ [_ /(_ x) <-] _ _ _; rewrite mulmxK. Qed.
Let hQ k : nQ s' k = c *: (V *m nQ s k *m V^T). Proof. by case: HU => _ _ /(_ k) []. Qed.
Let hR k : nR s' k = c *: (M *m nR s k *m M^T). Proof. by case: HU => _ _ /(_ k) []. Qed.
Let hz k : nz s' k = M *m nz s k + b. Proof. by case: HU => _ _ _ /(_ k) []. Qed.
Let hu k : nu s' k = nu s k. Proof. by case: HU => _ _ _ /(_ k) []. Qed.

Lemma un_pred k : nl_x s' k = V *m nl_x s k + d -> nl_P s' k = c *: (V *m nl_P s k *m V^T) ->
  [/\ nl_xa s' k = V *m nl_xa s k + d, nl_Pa s' k = c *: (V *m nl_Pa s k *m V^T) &
      nl_S s' k = c *: (M *m nl_S s k *m M^T)].
Proof.
move=> Ex EP.
have Ea : nl_xa s' k = V *m nl_xa s k + d by rewrite /nl_xa /nl_prior_x Ex hu hf.
have EPa : nl_Pa s' k = c *: (V *m nl_Pa s k *m V^T).
  rewrite /nl_Pa /nl_prior_P EP Ex hu hjf hQ cong_mul -scalerDr; congr (_ *: _).
  by rewrite trmx_mul !mulmxA mulmxDr mulmxDl !mulmxA.
split=> //; rewrite /nl_S /nl_innovation EPa Ea hjh hR cong_mul -scalerDr; congr (_ *: _).
by rewrite trmx_mul !mulmxA mulmxDr mulmxDl !mulmxA.
Qed.

Lemma un_step k : nl_x s' k = V *m nl_x s k + d -> nl_P s' k = c *: (V *m nl_P s k *m V^T) ->
  nl_S s k \in unitmx ->
  [/\ nl_K s' k = V *m nl_K s k *m invmx M, nl_x s' k.+1 = V *m nl_x s k.+1 + d &
      nl_P s' k.+1 = c *: (V *m nl_P s k.+1 *m V^T)].
Proof.
move=> Ex EP uS; have [Ea EPa ES] := un_pred Ex EP.
have EK : nl_K s' k = V *m nl_K s k *m invmx M.
  rewrite /nl_K /nl_kgain -/(nl_S s' k) -/(nl_S s k) ES inv_cong // EPa Ea hjh.
  rewrite -!scalemxAl -!scalemxAr scalerA mulfV // scale1r.
  have e (A : 'M[F]_(m, n)) (P : 'M[F]_n) : V *m P *m V^T *m (A *m invmx V)^T = V *m P *m A^T.
    by rewrite trmx_mul trmx_inv !mulmxA mulmxK // unitmx_tr.
  rewrite e; move: (njh s _) (nl_Pa s k) (nl_S s k) => A P X.
  by rewrite trmx_mul trmx_inv !mulmxA mulmxK // unitmx_tr.
have [p1 p2] := nl_postS s k; have [q1 q2] := nl_postS s' k.
split=> //.
  rewrite q1 p1 /nl_corr_x -/(nl_K s' k) -/(nl_K s k) EK Ea hz hh.
  move: (nl_K s k) (nl_xa s k) (nh s (nl_xa s k)) => K0 x0 h0.
  rewrite opprD addrACA subrr addr0 -mulmxBr mulmxA mulmxKV // [in RHS]mulmxDr mulmxA.
  by rewrite addrAC.
rewrite q2 p2 /nl_corr_P -/(nl_K s' k) -/(nl_K s k) EK EPa Ea hjh.
move: (nl_K s k) (nl_Pa s k) (njh s (nl_xa s k)) => K0 P0 H0.
rewrite !mulmxA mulmxKV // -scalemxAr; congr (_ *: _).
rewrite mulmxBl mul1mx mulmxBr mulmxBl mulmx1 !mulmxBl !mulmxA mulmxKV //.
Qed.

Lemma un_post k : (forall i, (i < k)%N -> nl_S s i \in unitmx) ->
  nl_x s' k = V *m nl_x s k + d /\ nl_P s' k = c *: (V *m nl_P s k *m V^T).
Proof.
elim: k => [|k IH] H; first by case: HU => _ _ _ _ [].
have [|Ex EP] := IH; first by move=> i Hi; apply: H; exact: leqW.
by have [] := un_step Ex EP (H k (ltnSn k)).
Qed.

Lemma un_back L i : (i <= L)%N -> (forall k, (k <= L)%N -> nl_S s k \in unitmx) ->
  (forall k, (0 < k)%N -> (k <= L)%N -> nl_Pa s k \in unitmx) ->
  nl_back_x s' L i = V *m nl_back_x s L i + d /\ nl_back_P s' L i = c *: (V *m nl_back_P s L i *m V^T).
Proof.
move=> Hi uS uP; elim: i Hi => [|i IH] Hi.
  by apply: un_post => k; rewrite ltnS; exact: uS.
have [E1 E2] := IH (ltnW Hi); cbn [nl_back_x nl_back_P]; rewrite E1 E2.
have HL : ((L - i.+1).+1 <= L)%N by rewrite subnSK // leq_subr.
move: HL; set k := (L - i.+1)%N => HL.
have [p1 p2] : nl_x s' k.+1 = V *m nl_x s k.+1 + d /\ nl_P s' k.+1 = c *: (V *m nl_P s k.+1 *m V^T).
  by apply: un_post => j Hj; apply: uS; exact: leq_trans (ltnW Hj) HL.
have [q1 q2 _] := un_pred p1 p2.
have EG : nl_G s' k = V *m nl_G s k *m invmx V.
  rewrite /nl_G q2 inv_cong ?uP // p2 p1 hu hjf.
  rewrite -!scalemxAl -!scalemxAr scalerA mulfV // scale1r.
  move: (njf s _ _) (nl_P s k.+1) (invmx (nl_Pa s k.+1)) => A P X.
  by rewrite !trmx_mul !trmx_inv !mulmxA mulmxK ?unitmx_tr // mulmxK // unitmx_tr.
rewrite EG q1 q2 p1 p2; move: (nl_G s k) (nl_x s _) (nl_xa s _) (nl_P s _) (nl_Pa s _) => G x y P Pp.
move: (nl_back_x s L i) (nl_back_P s L i) => x1 P1; split.
  rewrite opprD addrACA subrr addr0 -mulmxBr mulmxA mulmxKV // [in RHS]mulmxDr mulmxA.
  by rewrite addrAC.
have -> : c *: (V *m P1 *m V^T) - c *: (V *m Pp *m V^T) = c *: (V *m (P1 - Pp) *m V^T).
  by rewrite mulmxBr mulmxBl scalerBr.
rewrite cong_mul -scalerDr; congr (_ *: _).
by move: (P1 - Pp : 'M_n) => D; rewrite trmx_mul mulmxDr mulmxDl !mulmxA.
Qed.

Lemma un_filter T len (g : seq arr) : nl_filter_answer s' T len g =
  filter_answer (fun k => V *m nl_x s k.+1 + d) (fun k => c *: (V *m nl_P s k.+1 *m V^T))
    (fun k => V *m nl_K s k *m invmx M) (nl_S s) T len g.
Proof.
apply: filter_answer_upto => k Hk uS.
  by have [p1 p2] := un_post uS; have [_ _ ->] := un_pred p1 p2; rewrite unit_cong.
have uS' i : (i < k)%N -> nl_S s i \in unitmx by move=> Hi; apply: uS; exact: ltnW.
by have [p1 p2] := un_post uS'; have [-> -> ->] := un_step p1 p2 (uS k (leqnn k)).
Qed.

Lemma un_smooth L (g : seq arr) : nl_smooth_answer s' L g =
  smooth_answer (fun k => V *m nl_K s k *m invmx M) (nl_S s)
    (fun k => V *m nl_back_x s L (L - k) + d) (fun k => c *: (V *m nl_back_P s L (L - k) *m V^T)) (nl_Pa s) L g.
Proof.
apply: smooth_answer_upto => [k Hk uS|k Hk uS|k k0 Hk uS|uS uP k Hk].
- by have [p1 p2] := un_post uS; have [_ _ ->] := un_pred p1 p2; rewrite unit_cong.
- have uS' i : (i < k)%N -> nl_S s i \in unitmx by move=> Hi; apply: uS; exact: ltnW.
  by have [p1 p2] := un_post uS'; have [-> _ _] := un_step p1 p2 (uS k (leqnn k)).
- by have [p1 p2] := un_post uS; have [_ -> _] := un_pred p1 p2; rewrite unit_cong.
by apply: un_back => //; exact: leq_subr.
Qed.
End Units.
End NlInv.
