(** * Props41: C109: certified error bounds for runs in double precision

    A filter run on doubles that carry error bounds (Track.v): wherever a bound
    is left, the run in plain doubles has exactly that double, and the run in
    exact arithmetic is within the bound of it.  No assumption on the numbers is
    needed: the bounds are computed by the run. *)
From mathcomp Require Import all_ssreflect all_algebra.
From Coq Require Import ZArith Floats.SpecFloat Lia.
From Verif Require Import Np NpLemmas Kf Ekf Binary64 Lu Exact IntExact Param Zeros LaxParam Track TrackThms TrackRel.

Set Implicit Arguments.
Unset Strict Implicit.
Unset Printing Implicit Defensive.
Import GRing.Theory Num.Theory Order.Theory.
Delimit Scope Z_scope with Z.
Delimit Scope nat_scope with N.

Section Value.
Variable F : realFieldType.
Local Open Scope ring_scope.

(** 2^e, and the number a finite double stands for. *)
Definition two_to (e : Z) : F := if (0 <=? e)%Z then ofZ F (2 ^ e) else (ofZ F (2 ^ (- e)))^-1.
Definition dvalue (v : f64) : F :=
  if v is S754_finite s m e then (if s then -1 else 1) * ofZ F (Zpos m) * two_to e else 0.

Lemma two_to_add e k : (0 <= k)%Z -> (0 <= e + k)%Z -> two_to e * two_to k = two_to (e + k).
Proof.
move=> k0 ek; rewrite /two_to (Z.leb_le 0 k).2 // (Z.leb_le 0 (e + k)).2 //.
case: Z.leb_spec => e0; first by rewrite -ofZ_mul Z.pow_add_r.
have Ek : k = (- e + (e + k))%Z by lia.
rewrite {1}Ek Z.pow_add_r ?ofZ_mul //; last lia.
by rewrite mulKf // lt0r_neq0 // ofZ_pos //; apply: Z.pow_pos_nonneg; lia.
Qed.

Lemma dvalueE k v i : (0 <= k)%Z -> units k v = Some i -> dvalue v * ofZ F (one_k k) = ofZ F i.
Proof.
move=> k0; case: v => [s|s||s m e] //=; first by move=> [<-]; rewrite mul0r.
case: Z.leb_spec => // ek [<-].
have Ec : ofZ F (one_k k) = two_to k by rewrite /two_to (Z.leb_le 0 k).2.
rewrite Ec -mulrA two_to_add // /two_to (Z.leb_le 0 (e + k)).2 // [in RHS]ofZ_mul; congr (_ * _).
by case: s; rewrite ?mulN1r ?mul1r.
Qed.
End Value.

Section C109.
Variable F : realFieldType.
(** k: bounds count units of 2^-k; z: the integer NaN is cast to; oracle: what
    solving a system with NaNs gives, in exact arithmetic. *)
Variables (k z : Z) (oracle : oracle_type F).
Hypothesis k0 : (0 <= k)%Z.
Notation N := (tracked k z).
Notation D := (doubles z).
Notation E := (exact oracle z).
Local Open Scope ring_scope.

(** n units. *)
Definition err (n : Z) : F := ofZ F n / two_to F k.

(** ** What the caller passes: tracked arrays q, the doubles p, the exact w *)

(** Where q has a bound, p is that double. *)
Definition same_double (x : scal N) (y : scal D) : Prop :=
  match x, y with
  | VI m, VI m' => m' = m
  | VF x, VF y => x.2 <> None -> y = x.1
  | _, _ => False
  end.
(** Where q has a bound, its double is a finite whole number of units, and w is at
    most that far from it. *)
Definition within (x : scal N) (w : scal E) : Prop :=
  match x, w with
  | VI m, VI m' => m' = m
  | VF x, VF w =>
    if x.2 is Some n then units k x.1 <> None /\ exists2 w', w = Some w' & `|w' - dvalue F x.1| <= err n else True
  | _, _ => False
  end.

Definition like (N' : num) (P : scal N -> scal N' -> Prop) (q : Np.arr N) (p : Np.arr N') : Prop :=
  [/\ dt q = dt p, shp q = shp p, size (dat q) = size (dat p) &
      forall i, P (nth (VI 0) (dat q) i) (nth (VI 0) (dat p) i)].
Notation "q ~d p" := (like same_double q p) (at level 70).
Notation "q ~e w" := (like within q w) (at level 70).

(** B and U, which the code compares with NaN: also NaN in the same places. *)
Definition same_double_nan (x : scal N) (y : scal D) : Prop :=
  match x, y with VI m, VI m' => m' = m | VF x, VF y => y = x.1 | _, _ => False end.
Definition within_nan (x : scal N) (w : scal E) : Prop :=
  within x w /\ if x is VF x then if w is VF w then fisnan x.1 = ~~ isSome w else True else True.
Definition opt_like (N' : num) (P : scal N -> scal N' -> Prop) (q : option (Np.arr N)) (p : option (Np.arr N')) : Prop :=
  match q, p with Some x, Some y => like P x y | None, None => True | _, _ => False end.
Notation "q ~do p" := (opt_like same_double_nan q p) (at level 70).
Notation "q ~eo w" := (opt_like within_nan q w) (at level 70).

(** The same call, with tracked numbers, with doubles, with exact numbers. *)
Inductive call_like : call N -> call D -> call E -> Prop :=
| KPredict A x B u P Q A1 x1 B1 u1 P1 Q1 A2 x2 B2 u2 P2 Q2 :
    A ~d A1 -> x ~d x1 -> B ~do B1 -> u ~do u1 -> P ~d P1 -> Q ~d Q1 ->
    A ~e A2 -> x ~e x2 -> B ~eo B2 -> u ~eo u2 -> P ~e P2 -> Q ~e Q2 ->
    call_like (CPredict A x B u P Q) (CPredict A1 x1 B1 u1 P1 Q1) (CPredict A2 x2 B2 u2 P2 Q2)
| KUpdate H x P o R H1 x1 P1 o1 R1 H2 x2 P2 o2 R2 :
    H ~d H1 -> x ~d x1 -> P ~d P1 -> o ~d o1 -> R ~d R1 ->
    H ~e H2 -> x ~e x2 -> P ~e P2 -> o ~e o2 -> R ~e R2 ->
    call_like (CUpdate H x P o R) (CUpdate H1 x1 P1 o1 R1) (CUpdate H2 x2 P2 o2 R2)
| KFilter Z U Z1 U1 Z2 U2 : Z ~d Z1 -> U ~do U1 -> Z ~e Z2 -> U ~eo U2 ->
    call_like (CFilter Z U) (CFilter Z1 U1) (CFilter Z2 U2)
| KSmooth Z U Z1 U1 Z2 U2 : Z ~d Z1 -> U ~do U1 -> Z ~e Z2 -> U ~eo U2 ->
    call_like (CSmooth Z U) (CSmooth Z1 U1) (CSmooth Z2 U2).

Inductive ecall_like : ecall N -> ecall D -> ecall E -> Prop :=
| KEPredict x u P Q x1 u1 P1 Q1 x2 u2 P2 Q2 :
    x ~d x1 -> u ~do u1 -> P ~d P1 -> Q ~d Q1 -> x ~e x2 -> u ~eo u2 -> P ~e P2 -> Q ~e Q2 ->
    ecall_like (EPredict x u P Q) (EPredict x1 u1 P1 Q1) (EPredict x2 u2 P2 Q2)
| KEUpdate x P o R x1 P1 o1 R1 x2 P2 o2 R2 :
    x ~d x1 -> P ~d P1 -> o ~d o1 -> R ~d R1 -> x ~e x2 -> P ~e P2 -> o ~e o2 -> R ~e R2 ->
    ecall_like (EUpdate x P o R) (EUpdate x1 P1 o1 R1) (EUpdate x2 P2 o2 R2)
| KEFilter Z U Z1 U1 Z2 U2 : Z ~d Z1 -> U ~do U1 -> Z ~e Z2 -> U ~eo U2 ->
    ecall_like (EFilter Z U) (EFilter Z1 U1) (EFilter Z2 U2)
| KESmooth Z U Z1 U1 Z2 U2 : Z ~d Z1 -> U ~do U1 -> Z ~e Z2 -> U ~eo U2 ->
    ecall_like (ESmooth Z U) (ESmooth Z1 U1) (ESmooth Z2 U2).

(** ** What the bounds say of the results *)

(** Every entry of q with a bound n: p has that double, and w is at most n units
    from it. *)
Definition certified (q : Np.arr N) (p : Np.arr D) (w : Np.arr E) : Prop :=
  [/\ dt p = dt q /\ dt w = dt q, shp p = shp q /\ shp w = shp q,
      size (dat p) = size (dat q) /\ size (dat w) = size (dat q) &
      forall i, match nth (VI 0) (dat q) i, nth (VI 0) (dat p) i, nth (VI 0) (dat w) i with
      | VI m, VI m1, VI m2 => m1 = m /\ m2 = m
      | VF x, VF y, VF u =>
        if x.2 is Some n then y = x.1 /\ exists2 u', u = Some u' & `|u' - dvalue F y| <= err n else True
      | _, _, _ => False
      end].
Definition certified_pair (q : Np.arr N * Np.arr N) (p : Np.arr D * Np.arr D) (w : Np.arr E * Np.arr E) : Prop :=
  certified q.1 p.1 w.1 /\ certified q.2 p.2 w.2.
(** Results as bounded, or the same exception three times. *)
Definition certified_res (r : res (Np.arr N * Np.arr N)) (r1 : res (Np.arr D * Np.arr D)) (r2 : res (Np.arr E * Np.arr E)) : Prop :=
  match r, r1, r2 with
  | Ok q, Ok p, Ok w => certified_pair q p w
  | Raise e, Raise e1, Raise e2 => e1 = e /\ e2 = e
  | _, _, _ => False
  end.
Definition certified_gains (l : seq (Np.arr N)) (l1 : seq (Np.arr D)) (l2 : seq (Np.arr E)) : Prop :=
  [/\ size l1 = size l, size l2 = size l &
      forall i d d1 d2, (i < size l)%N -> certified (nth d l i) (nth d1 l1 i) (nth d2 l2 i)].

(** No call of the tracked session had to solve without bounds, or with a pivot
    that may be zero. *)
Definition no_singular (ks : seq (res (Np.arr N * Np.arr N))) : Prop :=
  forall i d, (i < size ks)%N -> nth d ks i <> Raise LinAlgError.

(** ** From and to the relations of TrackRel *)
Lemma two_k : two_to F k = ofZ F (one_k k).
Proof. by rewrite /two_to (Z.leb_le 0 k).2. Qed.

Lemma near_within v n w : units k v <> None -> `|w - dvalue F v| <= err n -> near k v n w.
Proof.
case Ei : (units k v) => [i|] // _; rewrite /err two_k => h; exists i => //.
have Hc := c_pos F k0; rewrite -(dvalueE F k0 Ei) -mulrBl normrM (gtr0_norm Hc).
by rewrite -ler_pdivl_mulr.
Qed.
Lemma within_near v n w : near k v n w -> `|w - dvalue F v| <= err n.
Proof.
case=> i Ei; have Hc := c_pos F k0; rewrite -(dvalueE F k0 Ei) -mulrBl normrM (gtr0_norm Hc).
by rewrite /err two_k ler_pdivl_mulr.
Qed.

Lemma like_rel (N' : num) (P : scal N -> scal N' -> Prop) (Q : K N -> K N' -> Prop) q p :
  (forall x y, P x y -> rel_scal Q x y) -> like P q p -> rel_arr Q q p.
Proof. by move=> h [h1 h2 h3 h4]; split=> // i; apply: h. Qed.
Lemma opt_rel (N' : num) (P : scal N -> scal N' -> Prop) (Q : K N -> K N' -> Prop) q p :
  (forall x y, P x y -> rel_scal Q x y) -> opt_like P q p -> rel_opt (rel_arr Q) q p.
Proof. by move=> h; case: q p => [q|] [p|] //=; exact: like_rel. Qed.

Lemma d_rel (x : scal N) (y : scal D) : same_double x y -> rel_scal (N1 := N) (N2 := D) (@to_dbl) x y.
Proof.
case: x y => [m|x] [m'|y] //=; first by move=> ->; exact: RelI.
by move=> h; apply: RelF; rewrite /to_dbl /bounded => Hb; apply: h => E0; rewrite E0 in Hb.
Qed.
Lemma dn_rel (x : scal N) (y : scal D) : same_double_nan x y -> rel_scal (N1 := N) (N2 := D) (@to_dbl_nan) x y.
Proof. by case: x y => [m|x] [m'|y] //= h; [rewrite h; exact: RelI|exact: RelF]. Qed.
Lemma e_rel (x : scal N) (w : scal E) : within x w -> rel_scal (N1 := N) (N2 := E) (@to_ex F k) x w.
Proof.
case: x w => [m|x] [m'|w] //=; first by move=> ->; exact: RelI.
move=> h; apply: RelF; move: h; rewrite /to_ex; case: x => v [n|] //= [h1 [w' -> h2]].
by exists w' => //; exact: near_within.
Qed.
Lemma en_rel (x : scal N) (w : scal E) : within_nan x w -> rel_scal (N1 := N) (N2 := E) (@to_ex_nan F k) x w.
Proof.
move=> [/e_rel h]; case: h => [m|x0 y0 h] h2; first exact: RelI.
by apply: RelF; split.
Qed.

Lemma pair_certified q p w : rel_arr (N1 := N) (N2 := D) (@to_dbl) q p -> rel_arr (N1 := N) (N2 := E) (@to_ex F k) q w ->
  certified q p w.
Proof.
move=> [d1 s1 n1 h1] [d2 s2 n2 h2]; split; [by rewrite -d1 -d2|by rewrite -s1 -s2|by rewrite -n1 -n2|].
move=> i; have := h1 i; have := h2 i; move: (nth _ (dat q) i) (nth _ (dat p) i) (nth _ (dat w) i) => x y u Hx Hy.
case: Hx Hy => [m|x' u' Hu] Hy; inversion Hy as [m1 E1 E2|x1 y1 Hy' E1 E2].
  by split.
case: x' Hu Hy' {E1 Hy} => v [n|] //=; rewrite /to_ex /to_dbl /bounded /=.
by move=> [u0 -> Hn] ->//; split=> //; exists u0 => //; exact: within_near.
Qed.

Lemma res_certified r r1 r2 : r <> Raise LinAlgError ->
  lx_res (rel_pair (N1 := N) (N2 := D) (@to_dbl)) r r1 -> lx_res (rel_pair (N1 := N) (N2 := E) (@to_ex F k)) r r2 ->
  certified_res r r1 r2.
Proof.
case: r => [q|e] Hne; case: r1 => [p|e1]; case: r2 => [w|e2] //=.
- by move=> [h1 h2] [h3 h4]; split; exact: pair_certified.
- by case: e Hne.
- by case: e Hne.
- by case: e Hne.
- by case: e Hne => // _ <- <-.
Qed.

Lemma l_nth (T T' : Type) (Rl : T -> T' -> Prop) s s' : rel_seq Rl s s' ->
  size s' = size s /\ forall i d d', (i < size s)%N -> Rl (nth d s i) (nth d' s' i).
Proof.
elim: s s' => [|x s IH] [|x' s'] //= [Hx /IH [-> h]]; split=> //.
by case=> [|i] d d' Hi //=; apply: h.
Qed.
Lemma nth_l (T T' : Type) (Rl : T -> T' -> Prop) s s' : size s' = size s ->
  (forall i d d', (i < size s)%N -> Rl (nth d s i) (nth d' s' i)) -> rel_seq Rl s s'.
Proof.
elim: s s' => [|x s IH] [|x' s'] //= [Hs] h; split; first exact: (h 0%N x x' isT).
by apply: IH => // i d d'; exact: (h i.+1).
Qed.
Lemma solved_rel ks : no_singular ks -> rel_seq (fun r _ => r <> Raise LinAlgError) ks ks.
Proof. by move=> h; apply: nth_l => // i d d'; exact: h. Qed.
Lemma gains_certified l l1 l2 : rel_seq (rel_arr (N1 := N) (N2 := D) (@to_dbl)) l l1 ->
  rel_seq (rel_arr (N1 := N) (N2 := E) (@to_ex F k)) l l2 -> certified_gains l l1 l2.
Proof.
move=> /l_nth [s1 h1] /l_nth [s2 h2]; split=> // i d d1 d2 Hi.
by apply: pair_certified; [exact: h1|exact: h2].
Qed.
Lemma calls_size (o : kf N) cs : size (kf_calls o cs).2 = size cs.
Proof. by elim: cs o => [|c cs IH] o //=; case: (kf_call o c) => o1 r; have := IH o1; case: (kf_calls o1 cs) => o2 rs /= ->. Qed.
Lemma e_calls_size (o : ekf N) cs : size (e_calls o cs).2 = size cs.
Proof. by elim: cs o => [|c cs IH] o //=; case: (e_call o c) => o1 r; have := IH o1; case: (e_calls o1 cs) => o2 rs /= ->. Qed.

Lemma call_rel c c1 c2 : call_like c c1 c2 ->
  lx_call (N1 := N) (N2 := D) (@to_dbl) (@to_dbl_nan) c c1 /\ lx_call (N1 := N) (N2 := E) (@to_ex F k) (@to_ex_nan F k) c c2.
Proof.
have Rd := @like_rel D _ _ _ _ d_rel; have Re := @like_rel E _ _ _ _ e_rel.
have Od := @opt_rel D _ _ _ _ dn_rel; have Oe := @opt_rel E _ _ _ _ en_rel.
by case=> *; split; constructor; auto.
Qed.
Lemma ecall_rel c c1 c2 : ecall_like c c1 c2 ->
  lx_ecall (N1 := N) (N2 := D) (@to_dbl) (@to_dbl_nan) c c1 /\ lx_ecall (N1 := N) (N2 := E) (@to_ex F k) (@to_ex_nan F k) c c2.
Proof.
have Rd := @like_rel D _ _ _ _ d_rel; have Re := @like_rel E _ _ _ _ e_rel.
have Od := @opt_rel D _ _ _ _ dn_rel; have Oe := @opt_rel E _ _ _ _ en_rel.
by case=> *; split; constructor; auto.
Qed.

(** ** C109 for KalmanFilter: every object, every history of calls *)
Lemma calls_rel cs cs1 cs2 : size cs1 = size cs -> size cs2 = size cs ->
  (forall i d d1 d2, (i < size cs)%N -> call_like (nth d cs i) (nth d1 cs1 i) (nth d2 cs2 i)) ->
  rel_seq (lx_call (N1 := N) (N2 := D) (@to_dbl) (@to_dbl_nan)) cs cs1 /\
  rel_seq (lx_call (N1 := N) (N2 := E) (@to_ex F k) (@to_ex_nan F k)) cs cs2.
Proof.
elim: cs cs1 cs2 => [|c cs IH] [|c1 cs1] [|c2 cs2] //= [E1] [E2] h.
have [h1 h2] := call_rel (h 0%N c c1 c2 isT).
by have [|h3 h4] := IH _ _ E1 E2; [move=> i d d1 d2; exact: (h i.+1)|].
Qed.
Lemma ecalls_rel cs cs1 cs2 : size cs1 = size cs -> size cs2 = size cs ->
  (forall i d d1 d2, (i < size cs)%N -> ecall_like (nth d cs i) (nth d1 cs1 i) (nth d2 cs2 i)) ->
  rel_seq (lx_ecall (N1 := N) (N2 := D) (@to_dbl) (@to_dbl_nan)) cs cs1 /\
  rel_seq (lx_ecall (N1 := N) (N2 := E) (@to_ex F k) (@to_ex_nan F k)) cs cs2.
Proof.
elim: cs cs1 cs2 => [|c cs IH] [|c1 cs1] [|c2 cs2] //= [E1] [E2] h.
have [h1 h2] := ecall_rel (h 0%N c c1 c2 isT).
by have [|h3 h4] := IH _ _ E1 E2; [move=> i d d1 d2; exact: (h i.+1)|].
Qed.

(** ** C109 for KalmanFilter: every object, every history of calls *)
Theorem C109_bounds A x B P H Q R n cs A1 x1 B1 P1 H1 Q1 R1 cs1 A2 x2 B2 P2 H2 Q2 R2 cs2 m :
  A ~d A1 -> x ~d x1 -> B ~do B1 -> P ~d P1 -> H ~d H1 -> Q ~d Q1 -> R ~d R1 ->
  A ~e A2 -> x ~e x2 -> B ~eo B2 -> P ~e P2 -> H ~e H2 -> Q ~e Q2 -> R ~e R2 ->
  size cs1 = size cs -> size cs2 = size cs ->
  (forall i d d1 d2, (i < size cs)%N -> call_like (nth d cs i) (nth d1 cs1 i) (nth d2 cs2 i)) ->
  (* the tracked session *)
  kf_init A x B P H Q R n = Ok m ->
  let s := kf_calls m cs in
  no_singular s.2 ->
  (* the sessions in double precision and in exact arithmetic *)
  exists o1 o2,
  [/\ kf_init A1 x1 B1 P1 H1 Q1 R1 n = Ok o1, kf_init A2 x2 B2 P2 H2 Q2 R2 n = Ok o2,
      (forall i d d1 d2, (i < size cs)%N ->
         certified_res (nth d s.2 i) (nth d1 (kf_calls o1 cs1).2 i) (nth d2 (kf_calls o2 cs2).2 i)) &
      certified_gains (kf_gains s.1) (kf_gains (kf_calls o1 cs1).1) (kf_gains (kf_calls o2 cs2).1)].
Proof.
have Rd := @like_rel D _ _ _ _ d_rel; have Re := @like_rel E _ _ _ _ e_rel.
have Od := @opt_rel D _ _ _ _ dn_rel; have Oe := @opt_rel E _ _ _ _ en_rel.
move=> /Rd a1 /Rd a2 /Od a3 /Rd a4 /Rd a5 /Rd a6 /Rd a7 /Re b1 /Re b2 /Oe b3 /Re b4 /Re b5 /Re b6 /Re b7.
move=> Es1 Es2 Hcs Em s Hs.
have Ld := dbl_lagree k z; have Le := ex_lagree z oracle k0.
have := lx_init Ld n a1 a2 a3 a4 a5 a6 a7; rewrite Em; case Eo1 : (kf_init A1 _ _ _ _ _ _ _) => [o1|] // K1.
have := lx_init Le n b1 b2 b3 b4 b5 b6 b7; rewrite Em; case Eo2 : (kf_init A2 _ _ _ _ _ _ _) => [o2|] // K2.
have [C1 C2] := calls_rel Es1 Es2 Hcs.
have [D1 /l_nth [_ D2]] := lx_kf_calls Ld K1 C1 (solved_rel Hs).
have [F1 /l_nth [_ F2]] := lx_kf_calls Le K2 C2 (solved_rel Hs).
exists o1, o2; split=> //.
  move=> i d d1 d2; rewrite -(calls_size m) => Hi.
  by apply: res_certified; [exact: Hs|exact: D2|exact: F2].
case: D1 => _ _ _ _ D1; case: F1 => _ _ _ _ F1; exact: gains_certified.
Qed.

(** ** C109 for ExtendedKalmanFilter: with callables that keep the bounds right *)
Definition fun_like (N' : num) (P : scal N -> scal N' -> Prop) (f : Np.arr N -> res (Np.arr N)) (f' : Np.arr N' -> res (Np.arr N')) : Prop :=
  forall q p, like P q p -> rel_res (like P) (f q) (f' p).
Definition fun2_like (N' : num) (P PU : scal N -> scal N' -> Prop) (f : Np.arr N -> option (Np.arr N) -> res (Np.arr N))
    (f' : Np.arr N' -> option (Np.arr N') -> res (Np.arr N')) : Prop :=
  forall q p u v, like P q p -> opt_like PU u v -> rel_res (like P) (f q u) (f' p v).

Lemma rel_like (N' : num) (P : scal N -> scal N' -> Prop) (Q : K N -> K N' -> Prop) q p :
  (forall x y, rel_scal Q x y -> P x y) -> rel_arr Q q p -> like P q p.
Proof. by move=> h [h1 h2 h3 h4]; split=> // i; apply: h. Qed.
Lemma rel_opt_like (N' : num) (P : scal N -> scal N' -> Prop) (Q : K N -> K N' -> Prop) q p :
  (forall x y, rel_scal Q x y -> P x y) -> rel_opt (rel_arr Q) q p -> opt_like P q p.
Proof. by move=> h; case: q p => [q|] [p|] //=; exact: rel_like. Qed.
Lemma rel_d (x : scal N) (y : scal D) : rel_scal (N1 := N) (N2 := D) (@to_dbl) x y -> same_double x y.
Proof.
by case=> [m|x' y' h] //=; move: h; rewrite /to_dbl /bounded; case: (x'.2) => // n h _; apply: h.
Qed.
Lemma rel_dn (x : scal N) (y : scal D) : rel_scal (N1 := N) (N2 := D) (@to_dbl_nan) x y -> same_double_nan x y.
Proof. by case. Qed.
Lemma rel_e (x : scal N) (w : scal E) : rel_scal (N1 := N) (N2 := E) (@to_ex F k) x w -> within x w.
Proof.
case=> [m|[v [n|]] w'] //= [u -> h]; split; last by exists u => //; exact: within_near.
by case: h => i ->.
Qed.
Lemma rel_en (x : scal N) (w : scal E) : rel_scal (N1 := N) (N2 := E) (@to_ex_nan F k) x w -> within_nan x w.
Proof. by case=> [m|x' w' [h1 h2]]; split=> //; apply: rel_e; apply: RelF. Qed.

Lemma fun_rel (N' : num) (P : scal N -> scal N' -> Prop) (Q : K N -> K N' -> Prop) f f' :
  (forall x y, P x y -> rel_scal Q x y) -> (forall x y, rel_scal Q x y -> P x y) ->
  fun_like P f f' -> lx_fun1 Q f f'.
Proof.
move=> h1 h2 Hf q p /(rel_like h2) /Hf Hr; apply: lx_strict; move: Hr.
by case: (f q) (f' p) => [?|?] [?|?] //=; exact: like_rel.
Qed.
Lemma fun2_rel (N' : num) (P PU : scal N -> scal N' -> Prop) (Q QU : K N -> K N' -> Prop) f f' :
  (forall x y, P x y -> rel_scal Q x y) -> (forall x y, rel_scal Q x y -> P x y) ->
  (forall x y, rel_scal QU x y -> PU x y) ->
  fun2_like P PU f f' -> lx_fun2 Q QU f f'.
Proof.
move=> h1 h2 h3 Hf q u p v /(rel_like h2) Hq /(rel_opt_like h3) Hu; apply: lx_strict; move: (Hf _ _ _ _ Hq Hu).
by case: (f q u) (f' p v) => [?|?] [?|?] //=; exact: like_rel.
Qed.

Notation "f ~d1 g" := (fun_like same_double f g) (at level 70).
Notation "f ~d2 g" := (fun2_like same_double same_double_nan f g) (at level 70).
Notation "f ~e1 g" := (fun_like within f g) (at level 70).
Notation "f ~e2 g" := (fun2_like within within_nan f g) (at level 70).

Theorem C109_bounds_extended x P Q R f h jA jH cs x1 P1 Q1 R1 f1 h1 jA1 jH1 cs1 x2 P2 Q2 R2 f2 h2 jA2 jH2 cs2 m :
  x ~d x1 -> P ~d P1 -> Q ~d Q1 -> R ~d R1 -> f ~d2 f1 -> h ~d1 h1 -> jA ~d2 jA1 -> jH ~d1 jH1 ->
  x ~e x2 -> P ~e P2 -> Q ~e Q2 -> R ~e R2 -> f ~e2 f2 -> h ~e1 h2 -> jA ~e2 jA2 -> jH ~e1 jH2 ->
  size cs1 = size cs -> size cs2 = size cs ->
  (forall i d d1 d2, (i < size cs)%N -> ecall_like (nth d cs i) (nth d1 cs1 i) (nth d2 cs2 i)) ->
  ekf_init x P Q R f h jA jH = Ok m ->
  let s := e_calls m cs in
  no_singular s.2 ->
  exists o1 o2,
  [/\ ekf_init x1 P1 Q1 R1 f1 h1 jA1 jH1 = Ok o1, ekf_init x2 P2 Q2 R2 f2 h2 jA2 jH2 = Ok o2,
      (forall i d d1 d2, (i < size cs)%N ->
         certified_res (nth d s.2 i) (nth d1 (e_calls o1 cs1).2 i) (nth d2 (e_calls o2 cs2).2 i)) &
      certified_gains (e_gains s.1) (e_gains (e_calls o1 cs1).1) (e_gains (e_calls o2 cs2).1)].
Proof.
have Rd := @like_rel D _ _ _ _ d_rel; have Re := @like_rel E _ _ _ _ e_rel.
have Fd := fun_rel d_rel rel_d; have Fe := fun_rel e_rel rel_e.
have Gd := fun2_rel d_rel rel_d rel_dn; have Ge := fun2_rel e_rel rel_e rel_en.
move=> /Rd a1 /Rd a2 /Rd a3 /Rd a4 /Gd a5 /Fd a6 /Gd a7 /Fd a8 /Re b1 /Re b2 /Re b3 /Re b4 /Ge b5 /Fe b6 /Ge b7 /Fe b8.
move=> Es1 Es2 Hcs Em s Hs.
have Ld := dbl_lagree k z; have Le := ex_lagree z oracle k0.
have := lx_einit Ld a1 a2 a3 a4 a5 a6 a7 a8; rewrite Em; case Eo1 : (ekf_init x1 _ _ _ _ _ _ _) => [o1|] // K1.
have := lx_einit Le b1 b2 b3 b4 b5 b6 b7 b8; rewrite Em; case Eo2 : (ekf_init x2 _ _ _ _ _ _ _) => [o2|] // K2.
have [C1 C2] := ecalls_rel Es1 Es2 Hcs.
have [D1 /l_nth [_ D2]] := lx_e_calls Ld K1 C1 (solved_rel Hs).
have [F1 /l_nth [_ F2]] := lx_e_calls Le K2 C2 (solved_rel Hs).
exists o1, o2; split=> //.
  move=> i d d1 d2; rewrite -(e_calls_size m) => Hi.
  by apply: res_certified; [exact: Hs|exact: D2|exact: F2].
case: D1 => _ _ _ _ D1; case: F1 => _ _ _ _ F1; exact: gains_certified.
Qed.
End C109.

(** ** Data written as fractions, decimals for example *)
Section Fractions.
Variable F : realFieldType.
Variables (k z : Z) (oracle : oracle_type F).
Hypothesis k0 : (0 <= k)%Z.
Local Open Scope ring_scope.

(** The double nearest to a/b (a and b exactly representable), with a bound on
    its distance from a/b; and a/b. *)
Definition fraction (a b : Z) : scal (tracked k z) :=
  let v := fdiv (fofZ a) (fofZ b) in
  VF (N := tracked k z) (v, omap (fun i => up_div (Z.abs (a * one_k k - i * b)) b) (units k v)).
Definition nearest (a b : Z) : scal (doubles z) := VF (N := doubles z) (fdiv (fofZ a) (fofZ b)).
Definition exactly (a b : Z) : scal (exact oracle z) := VF (N := exact oracle z) (Some (ofZ F a / ofZ F b)).

Theorem C109_fraction a b : (0 < b)%Z ->
  same_double (fraction a b) (nearest a b) /\ within (F := F) (oracle := oracle) (fraction a b) (exactly a b).
Proof.
move=> b0; split; first by [].
rewrite /within /fraction /exactly; case Ei : (units k _) => [i|] //=; split=> //.
eexists; first by [].
have Hc := c_pos F k0; have Hb := ofZ_pos F b0.
rewrite /err two_k // ler_pdivl_mulr // -[X in _ * X](gtr0_norm Hc) -normrM mulrBl (dvalueE F k0 Ei).
rewrite -(ler_pmul2r Hb); apply: le_trans (up_divP F _ b0).
rewrite ofZ_abs ofZ_sub !ofZ_mul -[X in _ * X <= _](gtr0_norm Hb) -normrM mulrBl.
by rewrite mulrAC divfK ?lt0r_neq0.
Qed.
End Fractions.

(** With k = 1074 every binary64 number is a whole number of units. *)
Theorem C109_every_double (v : f64) : valid_binary 53 1024 v = true -> (if v is S754_finite _ _ _ then True else if v is S754_zero _ then True else False) -> units 1074 v <> None.
Proof.
case: v => [s|s||s m e] //= /andP [/Zeq_bool_eq He _] _.
suff -> : (0 <=? e + 1074)%Z by [].
apply/Z.leb_le; move: He; rewrite /fexp /emin; lia.
Qed.

(** ** A case: a filter and a smoother over two observations, every number a
    decimal that is no double: every entry of every outcome keeps a bound *)
Section Case.
Local Open Scope ring_scope.
Definition c109_k : Z := 100.
Definition c109_data (i : nat) : seq nat * seq (Z * Z) :=
  match i with
  | 0%N => ([:: 2; 1; 1]%N, [:: (9, 10); (9, 10)]%Z)          (* A *)
  | 1%N => ([:: 1]%N, [:: (1, 10)]%Z)                         (* xk *)
  | 2%N => ([:: 1; 1]%N, [:: (13, 10)]%Z)                     (* Pk *)
  | 3%N => ([:: 2; 1; 1]%N, [:: (11, 10); (7, 10)]%Z)         (* H *)
  | 4%N => ([:: 2; 1; 1]%N, [:: (1, 5); (3, 10)]%Z)           (* Q *)
  | 5%N => ([:: 2; 1; 1]%N, [:: (1, 3); (2, 5)]%Z)            (* R *)
  | _ => ([:: 2; 1]%N, [:: (6, 5); (-7, 5)]%Z)                (* Z *)
  end.
Definition c109_arrays (N' : num) (fr : Z -> Z -> scal N') (i : nat) : Np.arr N' :=
  Arr DFloat (c109_data i).1 [seq fr p.1 p.2 | p <- (c109_data i).2].
Definition c109_calls (N' : num) (fr : Z -> Z -> scal N') : seq (call N') :=
  [:: CFilter (c109_arrays fr 6%N) None; CSmooth (c109_arrays fr 6%N) None].
Definition c109_init (N' : num) (fr : Z -> Z -> scal N') : res (kf N') :=
  kf_init (c109_arrays fr 0) (c109_arrays fr 1) None (c109_arrays fr 2) (c109_arrays fr 3) (c109_arrays fr 4) (c109_arrays fr 5) None.

(** Every entry has a bound, below 2^-47. *)
Definition tight (q : Np.arr (tracked c109_k 0)) : bool :=
  all (fun v : scal (tracked c109_k 0) => if v is VF x then if (x : tnum).2 is Some n then (n <? 2 ^ 53)%Z else false else true) (dat q).
Definition c109_session : bool :=
  if c109_init (@fraction c109_k 0) is Ok m then
    let s := kf_calls m (c109_calls (@fraction c109_k 0)) in
    all tight (kf_gains s.1) && all (fun r => if r is Ok p then tight p.1 && tight p.2 else false) s.2
  else false.

Variables (F : realFieldType) (oracle : oracle_type F).
Lemma frac_like (s : seq nat) (l : seq (Z * Z)) : all (fun p => (0 <? p.2)%Z) l ->
  like (@same_double c109_k 0) (Arr DFloat s [seq fraction c109_k 0 p.1 p.2 | p <- l]) (Arr DFloat s [seq nearest 0 p.1 p.2 | p <- l]) /\
  like (@within F c109_k 0 oracle) (Arr DFloat s [seq fraction c109_k 0 p.1 p.2 | p <- l]) (Arr DFloat s [seq exactly 0 oracle p.1 p.2 | p <- l]).
Proof.
have Hk : (0 <= c109_k)%Z by exact: Pos2Z.is_nonneg.
move=> Hl; split; split=> //; rewrite ?size_map // => i.
  by case: (ltnP i (size l)) => Hi; [rewrite !(nth_map (0%Z, 1%Z))|rewrite !nth_default ?size_map].
case: (ltnP i (size l)) => Hi; last by rewrite !nth_default ?size_map.
rewrite !(nth_map (0%Z, 1%Z)) //; have h : (0 < (nth (0%Z, 1%Z) l i).2)%Z by apply/Z.ltb_lt; exact: (all_nthP (0%Z, 1%Z) Hl i Hi).
exact: (proj2 (@C109_fraction F c109_k 0 oracle Hk (nth (0%Z, 1%Z) l i).1 _ h)).
Qed.

Example C109_case :
  c109_session /\
  (forall i, like (@same_double c109_k 0) (c109_arrays (@fraction c109_k 0) i) (c109_arrays (@nearest 0) i) /\
     like (@within F c109_k 0 oracle) (c109_arrays (@fraction c109_k 0) i) (c109_arrays (exactly 0 oracle) i)) /\
  forall i d d1 d2, (i < 2)%N -> call_like (F := F) (oracle := oracle) (nth d (c109_calls (@fraction c109_k 0)) i)
    (nth d1 (c109_calls (@nearest 0)) i) (nth d2 (c109_calls (exactly 0 oracle)) i).
Proof.
split; first by vm_compute.
have h i := @frac_like (c109_data i).1 (c109_data i).2.
have Hp i : all (fun p => (0 <? p.2)%Z) (c109_data i).2 by case: i => [|[|[|[|[|[|i]]]]]].
split=> [i|]; first exact: h.
have [h1 h2] := h 6%N (Hp 6%N).
case=> [|[|i]] d d1 d2 Hi; [exact: KFilter|exact: KSmooth|by []].
Qed.
End Case.
