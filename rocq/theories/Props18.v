(** * Props18: C76, C77: the extended filter in other units, and on two systems
    at once

    Exact arithmetic.  [NlModel] and the answers are in EndSpec.v; [py_f], ..
    are the callables for functions on vectors (as in Props13.v). *)
From Coq Require Import ZArith.
From mathcomp Require Import all_ssreflect all_algebra.
From Verif Require Import RingTac Np NpLemmas Kf Ekf ApiSpec Exact Repr Textbook Build Loewner KalmanAlg TextbookThms TextbookThms3
  EndSpec EndToEnd EkfEnd NlInv NlBlocks Props13.

Set Implicit Arguments.
Unset Strict Implicit.
Unset Printing Implicit Defensive.
Import GRing.Theory Num.Theory Order.Theory.
Local Open Scope ring_scope.

Section Props.
Variable F : realFieldType.
Variable oracle : oracle_type F.
Variable n2i : Z.
Notation N := (exact oracle n2i).
Notation arr := (arr N).
Notation vec := (vec_arr oracle n2i).
Notation mat := (mx_arr oracle n2i).
Notation vecs := (vecs_arr oracle n2i).
Notation mats := (mxs_arr oracle n2i).

(** The object a user gets for the system s with tQ matrices Q and tR matrices R. *)
Definition made_for n m q (s : nl_model F n m q) (tQ tR : nat) (self : ekf N) : Prop :=
  ekf_init (vec (nx0 s)) (mat (nP0 s)) (mats tQ (nQ s)) (mats tR (nR s))
    (py_f (nf s)) (py_h (nh s)) (py_jf (njf s)) (py_jh (njh s)) = Ok self.

(** Controls are passed, or left out. *)
Definition ctl n m q (s : nl_model F n m q) (Uo : bool) (tu : nat) : option arr :=
  if Uo then Some (vecs tu (nu s)) else None.

Definition no_ctl n m q (s : nl_model F n m q) : nl_model F n m q :=
  NlModel (nf s) (nh s) (njf s) (njh s) (nQ s) (nR s) (nz s) (fun _ => 0) (nx0 s) (nP0 s).
Definition used n m q (s : nl_model F n m q) (Uo : bool) := if Uo then s else no_ctl s.

Lemma made_filter n m q (s : nl_model F n m q) tQ tR self Uo tu tz g : made_for s tQ tR self ->
  ekf_filter self (vecs tz (nz s)) (ctl s Uo tu) g =
  nl_filter_answer (used s Uo) (foldr minn tz [:: if Uo then tu else tz; tQ; tR]) tz g.
Proof.
case=> <-; case: Uo.
  by have := e_end_filter (nf s) (nh s) (njf s) (njh s) (nQ s) (nR s) (nx0 s) (nP0 s) (nz s) (Some (tu, nu s)) tQ tR tz g;
     case: s.
by have := e_end_filter (nf s) (nh s) (njf s) (njh s) (nQ s) (nR s) (nx0 s) (nP0 s) (nz s) None tQ tR tz g.
Qed.

Lemma made_smooth n m q (s : nl_model F n m q) tQ tR self Uo tu L g : made_for s tQ tR self ->
  [&& Uo ==> (L < tu)%N, (L < tQ)%N & (L < tR)%N] ->
  ekf_smooth self (vecs L.+1 (nz s)) (ctl s Uo tu) g = nl_smooth_answer (used s Uo) L g.
Proof.
case=> <- /and3P [h1 h2 h3].
pose ou := if Uo then Some (tu, nu s) else None.
have ET : e_end_steps ou tQ tR L.+1 = L.+1.
  rewrite /e_end_steps /len_of; apply/eqP; rewrite eqn_leq; apply/andP; split.
    by rewrite /= !geq_min leqnn !orbT.
  rewrite /= !leq_min h2 h3 /ou; case: (Uo) h1 => [/= ->|_]; by rewrite leqnn.
have := @e_end_smooth _ _ _ _ _ _ (nf s) (nh s) (njf s) (njh s) (nQ s) (nR s) (nx0 s) (nP0 s) (nz s)
  ou tQ tR L.+1 g L erefl ET.
by rewrite /ou; case: (Uo); case: s {ou ET}.
Qed.

(** ** C76: other units *)
Section Units.
Variables (n m q : nat) (V : 'M[F]_n) (d : 'cV[F]_n) (M : 'M[F]_m) (b : 'cV[F]_m) (c : F).
Variables (s s' : nl_model F n m q).
Hypothesis c0 : c != 0.
Hypothesis uV : V \in unitmx.
Hypothesis uM : M \in unitmx.
Hypothesis HU : in_units V d M b c s s'.
Variables (tQ tR tz tu : nat) (Uo : bool) (self self' : ekf N).
Hypothesis H1 : made_for s tQ tR self.
Hypothesis H2 : made_for s' tQ tR self'.

Lemma in_units_used : in_units V d M b c (used s Uo) (used s' Uo).
Proof. by case: Uo => //; case: HU => h1 h2 h3 h4 h5; split=> // k; have [h _] := h4 k. Qed.

(** The answers, exceptions and gains are the same up to the change of units. *)
Theorem C76_filter_in_other_units :
  let T := foldr minn tz [:: if Uo then tu else tz; tQ; tR] in
  exists x P K (S : nat -> 'M[F]_m), forall g,
   ekf_filter self (vecs tz (nz s)) (ctl s Uo tu) g = filter_answer x P K S T tz g /\
   ekf_filter self' (vecs tz (nz s')) (ctl s' Uo tu) g =
     filter_answer (fun k => V *m x k + d) (fun k => c *: (V *m P k *m V^T))
                   (fun k => V *m K k *m invmx M) S T tz g.
Proof.
move=> T; pose s0 := used s Uo.
exists (fun k => nl_x s0 k.+1), (fun k => nl_P s0 k.+1), (nl_K s0), (nl_S s0) => g.
rewrite (made_filter _ _ _ _ H1) (made_filter _ _ _ _ H2); split=> //.
exact: (un_filter c0 uV uM in_units_used).
Qed.

Theorem C76_smooth_in_other_units L : [&& Uo ==> (L < tu)%N, (L < tQ)%N & (L < tR)%N] ->
  exists x P Pa K (S : nat -> 'M[F]_m), forall g,
   ekf_smooth self (vecs L.+1 (nz s)) (ctl s Uo tu) g = smooth_answer K S x P Pa L g /\
   ekf_smooth self' (vecs L.+1 (nz s')) (ctl s' Uo tu) g =
     smooth_answer (fun k => V *m K k *m invmx M) S
       (fun k => V *m x k + d) (fun k => c *: (V *m P k *m V^T)) Pa L g.
Proof.
move=> HL; pose s0 := used s Uo.
exists (fun k => nl_back_x s0 L (L - k)), (fun k => nl_back_P s0 L (L - k)), (nl_Pa s0), (nl_K s0), (nl_S s0) => g.
rewrite (made_smooth _ H1 HL) (made_smooth _ H2 HL); split=> //.
exact: (un_smooth c0 uV uM in_units_used).
Qed.
End Units.

(** Every system can be written in any units. *)
Example C76_case n m q (s : nl_model F n m q) V d M b c : V \in unitmx ->
  let back x := invmx V *m (x - d) in
  in_units V d M b c s
    (NlModel (fun x u => V *m nf s (back x) u + d) (fun x => M *m nh s (back x) + b)
       (fun x u => V *m njf s (back x) u *m invmx V) (fun x => M *m njh s (back x) *m invmx V)
       (fun k => c *: (V *m nQ s k *m V^T)) (fun k => c *: (M *m nR s k *m M^T))
       (fun k => M *m nz s k + b) (nu s) (V *m nx0 s + d) (c *: (V *m nP0 s *m V^T))).
Proof.
move=> uV back; have bK x : back (V *m x + d) = x by rewrite /back addrK mulKmx.
by split=> //; split=> *; rewrite /= bK // mulmxKV.
Qed.

(** Only the ratios of the covariances matter: the same callables, Q, R and P0
    multiplied by c. *)
Theorem C76_only_noise_ratios_matter n m q (s : nl_model F n m q) c tQ tR tz tu Uo self self' : c != 0 ->
  let s' := NlModel (nf s) (nh s) (njf s) (njh s) (fun k => c *: nQ s k) (fun k => c *: nR s k)
                    (nz s) (nu s) (nx0 s) (c *: nP0 s) in
  made_for s tQ tR self -> made_for s' tQ tR self' ->
  exists (x : nat -> 'cV[F]_n) (P : nat -> 'M[F]_n) K (S : nat -> 'M[F]_m), forall g,
   let T := foldr minn tz [:: if Uo then tu else tz; tQ; tR] in
   ekf_filter self (vecs tz (nz s)) (ctl s Uo tu) g = filter_answer x P K S T tz g /\
   ekf_filter self' (vecs tz (nz s)) (ctl s Uo tu) g = filter_answer x (fun k => c *: P k) K S T tz g.
Proof.
move=> c0 s' H1 H2.
have HU : in_units 1%:M 0 1%:M 0 c s s'.
  by split; [split=> *|split=> *|split|split|split]; rewrite /= ?trmx1 ?mulmx1 ?mul1mx ?addr0.
have [x [P [K [S E]]]] := C76_filter_in_other_units c0 (unitmx1 _ _) (unitmx1 _ _) HU tz tu Uo H1 H2.
exists x, P, K, S => g T; have [E1 E2] := E g; split=> //.
rewrite -/T in E2; rewrite -[nz s]/(nz s') -[ctl s Uo tu]/(ctl s' Uo tu) E2; apply: filter_answer_ext => k _.
by rewrite invmx1 trmx1 !mulmx1 !mul1mx addr0.
Qed.

(** ** C77: two systems at once *)
Section Both.
Variables (n1 n2 m1 m2 q : nat).
Variables (s1 : nl_model F n1 m1 q) (s2 : nl_model F n2 m2 q) (s : nl_model F (n1 + n2) (m1 + m2) q).
Hypothesis HS : nl_side_by_side s1 s2 s.
Variables (tQ tR tz tu : nat) (Uo : bool) (self1 self2 self : ekf N).
Hypothesis H1 : made_for s1 tQ tR self1.
Hypothesis H2 : made_for s2 tQ tR self2.
Hypothesis H : made_for s tQ tR self.

Lemma side_used : nl_side_by_side (used s1 Uo) (used s2 Uo) (used s Uo).
Proof. by case: Uo => //; case: HS => h1 h2 h3 h4 h5; split=> // k; have [h _] := h4 k. Qed.

Theorem C77_together_or_separately :
  let T := foldr minn tz [:: if Uo then tu else tz; tQ; tR] in
  let dg a1 a2 b1 b2 (A : 'M[F]_(a1, b1)) (B : 'M[F]_(a2, b2)) := block_mx A 0 0 B in
  exists (x1 : nat -> 'cV[F]_n1) (P1 : nat -> 'M[F]_n1) K1 (S1 : nat -> 'M[F]_m1)
         (x2 : nat -> 'cV[F]_n2) (P2 : nat -> 'M[F]_n2) K2 (S2 : nat -> 'M[F]_m2), forall g,
  [/\ ekf_filter self1 (vecs tz (nz s1)) (ctl s1 Uo tu) g = filter_answer x1 P1 K1 S1 T tz g,
      ekf_filter self2 (vecs tz (nz s2)) (ctl s2 Uo tu) g = filter_answer x2 P2 K2 S2 T tz g &
      ekf_filter self (vecs tz (nz s)) (ctl s Uo tu) g =
        filter_answer (fun k => col_mx (x1 k) (x2 k)) (fun k => dg _ _ _ _ (P1 k) (P2 k))
          (fun k => dg _ _ _ _ (K1 k) (K2 k)) (fun k => dg _ _ _ _ (S1 k) (S2 k)) T tz g].
Proof.
move=> T dg; pose t1 := used s1 Uo; pose t2 := used s2 Uo.
exists (fun k => nl_x t1 k.+1), (fun k => nl_P t1 k.+1), (nl_K t1), (nl_S t1).
exists (fun k => nl_x t2 k.+1), (fun k => nl_P t2 k.+1), (nl_K t2), (nl_S t2) => g.
rewrite (made_filter _ _ _ _ H1) (made_filter _ _ _ _ H2) (made_filter _ _ _ _ H); split=> //.
exact: (nb_filter side_used).
Qed.

Theorem C77_together_or_separately_smooth L : [&& Uo ==> (L < tu)%N, (L < tQ)%N & (L < tR)%N] ->
  let dg a1 a2 b1 b2 (A : 'M[F]_(a1, b1)) (B : 'M[F]_(a2, b2)) := block_mx A 0 0 B in
  exists (x1 : nat -> 'cV[F]_n1) (P1 Pa1 : nat -> 'M[F]_n1) K1 (S1 : nat -> 'M[F]_m1)
         (x2 : nat -> 'cV[F]_n2) (P2 Pa2 : nat -> 'M[F]_n2) K2 (S2 : nat -> 'M[F]_m2), forall g,
  [/\ ekf_smooth self1 (vecs L.+1 (nz s1)) (ctl s1 Uo tu) g = smooth_answer K1 S1 x1 P1 Pa1 L g,
      ekf_smooth self2 (vecs L.+1 (nz s2)) (ctl s2 Uo tu) g = smooth_answer K2 S2 x2 P2 Pa2 L g &
      ekf_smooth self (vecs L.+1 (nz s)) (ctl s Uo tu) g =
        smooth_answer (fun k => dg _ _ _ _ (K1 k) (K2 k)) (fun k => dg _ _ _ _ (S1 k) (S2 k))
          (fun k => col_mx (x1 k) (x2 k)) (fun k => dg _ _ _ _ (P1 k) (P2 k))
          (fun k => dg _ _ _ _ (Pa1 k) (Pa2 k)) L g].
Proof.
move=> HL dg; pose t1 := used s1 Uo; pose t2 := used s2 Uo.
exists (fun k => nl_back_x t1 L (L - k)), (fun k => nl_back_P t1 L (L - k)), (nl_Pa t1), (nl_K t1), (nl_S t1).
exists (fun k => nl_back_x t2 L (L - k)), (fun k => nl_back_P t2 L (L - k)), (nl_Pa t2), (nl_K t2), (nl_S t2) => g.
rewrite (made_smooth _ H1 HL) (made_smooth _ H2 HL) (made_smooth _ H HL); split=> //.
exact: (nb_smooth side_used).
Qed.
End Both.

(** Every two systems with the same controls can be put side by side. *)
Example C77_case n1 n2 m1 m2 q (s1 : nl_model F n1 m1 q) (s2 : nl_model F n2 m2 q) :
  (forall k, nu s2 k = nu s1 k) ->
  let dg a1 a2 b1 b2 (A : 'M[F]_(a1, b1)) (B : 'M[F]_(a2, b2)) := block_mx A 0 0 B in
  nl_side_by_side s1 s2
    (NlModel (fun x u => col_mx (nf s1 (usubmx x) u) (nf s2 (dsubmx x) u))
       (fun x => col_mx (nh s1 (usubmx x)) (nh s2 (dsubmx x)))
       (fun x u => dg _ _ _ _ (njf s1 (usubmx x) u) (njf s2 (dsubmx x) u))
       (fun x => dg _ _ _ _ (njh s1 (usubmx x)) (njh s2 (dsubmx x)))
       (fun k => dg _ _ _ _ (nQ s1 k) (nQ s2 k)) (fun k => dg _ _ _ _ (nR s1 k) (nR s2 k))
       (fun k => col_mx (nz s1 k) (nz s2 k)) (nu s1) (col_mx (nx0 s1) (nx0 s2)) (dg _ _ _ _ (nP0 s1) (nP0 s2))).
Proof. by move=> Hu dg; split=> //; split=> *; rewrite /= ?col_mxKu ?col_mxKd. Qed.
End Props.
