(** * Props40: C108 for double precision: whole histories, and which entries are
    guaranteed *)
From Coq Require Import ZArith Reals Floats.SpecFloat.
From Flocq Require Import Core.Core.
From mathcomp Require Import ssreflect ssrfun ssrbool eqtype ssrnat seq.
From Verif Require Import Np NpLemmas Kf Binary64 Lu Param Zeros Graded Ieee Round64 Wide WideThms Props39.
From Verif Require Import Checked LaxOps LaxParam CheckedThms.

Set Implicit Arguments.
Unset Strict Implicit.
Unset Printing Implicit Defensive.

Section C108.
Variable z : Z.
Notation D := (doubles z).
Notation N := (checked z).
Notation arr := (Np.arr D).

(** w is the finite double v times 2^g, exactly; or both are NaN.  An integer can
    only be kept, or be zero. *)
Definition shifted_scal (g : Z) (v w : scal D) : Prop :=
  match v, w with
  | VI n, VI n' => n' = n /\ (g <> 0%Z -> n = 0%Z)
  | VF x, VF y =>
    [/\ double x, finite x, double y, finite y & real y = Rmult (real x) (bpow radix2 g)] \/
    (x = S754_nan :> f64 /\ y = S754_nan :> f64)
  | _, _ => False
  end.
Definition shifted (g : Z) (p p' : arr) : Prop :=
  [/\ dt p = dt p', shp p = shp p', size (dat p) = size (dat p') &
      forall i, shifted_scal g (nth (VI 0) (dat p) i) (nth (VI 0) (dat p') i)].
Definition shifted_opt (g : Z) (p p' : option arr) : Prop :=
  match p, p' with Some x, Some y => shifted g x y | None, None => True | _, _ => False end.

(** The same arrays and calls for the arithmetic that drops a number that
    overflows or may have underflowed, and all that is computed from it. *)
Definition watch_scal (v : scal D) : scal N :=
  match v with VI n => VI n | VF x => VF (N := N) (if finite x then Some x else None) end.
Definition watch (p : arr) : Np.arr N := Arr (dt p) (shp p) (map watch_scal (dat p)).
Definition watch_call (k : call D) : call N :=
  match k with
  | CPredict A x B u P Q => CPredict (watch A) (watch x) (omap watch B) (omap watch u) (watch P) (watch Q)
  | CUpdate H x P o R => CUpdate (watch H) (watch x) (watch P) (watch o) (watch R)
  | CFilter Z U => CFilter (watch Z) (omap watch U)
  | CSmooth Z U => CSmooth (watch Z) (omap watch U)
  end.

(** Entry i was not dropped. *)
Definition safe (q : Np.arr N) (i : nat) : bool :=
  match nth (VI 0) (dat q) i with VF x => if (x : option f64) is None then false else true | VI _ => true end.

(** Wherever neither run dropped the entry, it is in the new unit. *)
Definition shifted_safe (g : Z) (q q' : Np.arr N) (p p' : arr) : Prop :=
  [/\ dt p = dt p', shp p = shp p', size (dat p) = size (dat p') &
      forall i, safe q i -> safe q' i -> shifted_scal g (nth (VI 0) (dat p) i) (nth (VI 0) (dat p') i)].

Definition shifted_res (g : Z) (k k' : res (Np.arr N * Np.arr N)) (r r' : res (arr * arr)) : Prop :=
  match k, k', r, r' with
  | Ok q, Ok q', Ok p, Ok p' => shifted_safe g q.1 q'.1 p.1 p'.1 /\ shifted_safe (g + g) q.2 q'.2 p.2 p'.2
  | Raise _, Raise _, Raise e, Raise e' => e = e'
  | _, _, _, _ => False
  end.

(** No call had to solve with a dropped (or zero) pivot. *)
Definition solved (ks : seq (res (Np.arr N * Np.arr N))) : bool :=
  all (fun k => if k is Raise LinAlgError then false else true) ks.

Variables a b c : Z.

Inductive shifted_call : call D -> call D -> Prop :=
| DPredict A x B u P Q A' x' B' u' P' Q' : shifted 0 A A' -> shifted a x x' -> shifted_opt (a - c) B B' ->
    shifted_opt c u u' -> shifted (a + a) P P' -> shifted (a + a) Q Q' ->
    shifted_call (CPredict A x B u P Q) (CPredict A' x' B' u' P' Q')
| DUpdate H x P o R H' x' P' o' R' : shifted (b - a) H H' -> shifted a x x' -> shifted (a + a) P P' ->
    shifted b o o' -> shifted (b + b) R R' -> shifted_call (CUpdate H x P o R) (CUpdate H' x' P' o' R')
| DFilter Z U Z' U' : shifted b Z Z' -> shifted_opt c U U' -> (U = None -> dt Z = DFloat \/ c = 0%Z) ->
    shifted_call (CFilter Z U) (CFilter Z' U')
| DSmooth Z U Z' U' : shifted b Z Z' -> shifted_opt c U U' -> (U = None -> dt Z = DFloat \/ c = 0%Z) ->
    shifted_call (CSmooth Z U) (CSmooth Z' U').

(** ** In terms of numbers with exponents of any size *)
Definition value_scal (v : scal D) : scal (wide z) :=
  match v with VI n => VI n | VF x => VF (N := wide z) (if finite x then Some (real x) else None) end.
Definition value (p : arr) : Np.arr (wide z) := Arr (dt p) (shp p) (map value_scal (dat p)).
Definition value_call (k : call D) : call (wide z) :=
  match k with
  | CPredict A x B u P Q => CPredict (value A) (value x) (omap value B) (omap value u) (value P) (value Q)
  | CUpdate H x P o R => CUpdate (value H) (value x) (value P) (value o) (value R)
  | CFilter Z U => CFilter (value Z) (omap value U)
  | CSmooth Z U => CSmooth (value Z) (omap value U)
  end.

Definition numbers (p : arr) : Prop :=
  forall i, match nth (VI 0) (dat p) i with VF x => good x \/ x = S754_nan :> f64 | VI _ => True end.
Definition numbers_opt (p : option arr) : Prop := if p is Some x then numbers x else True.

Lemma shifted_numbers g p p' : shifted g p p' -> numbers p /\ numbers p'.
Proof.
case=> _ _ _ h; split=> i; have := h i; do 2 case: (nth _ _ _) => ? //=.
- by case=> [[h1 h2 h3 h4 _]|[-> _]]; [left; split|right].
- by case=> [[h1 h2 h3 h4 _]|[_ ->]]; [left; split|right].
Qed.
Lemma shifted_opt_numbers g p p' : shifted_opt g p p' -> numbers_opt p /\ numbers_opt p'.
Proof. by case: p p' => [p|] [p'|] //= /shifted_numbers. Qed.

Lemma nth_watch (s : seq (scal D)) i : nth (VI 0) (map watch_scal s) i = watch_scal (nth (VI 0) s i).
Proof. by elim: s i => [|v s IH] [|i] /=. Qed.
Lemma nth_value (s : seq (scal D)) i : nth (VI 0) (map value_scal s) i = value_scal (nth (VI 0) s i).
Proof. by elim: s i => [|v s IH] [|i] /=. Qed.

Lemma watch_any (N' : num) (Rl : K N -> K N' -> Prop) (p : arr) (p' : Np.arr N') (f : scal D -> scal N') :
  dt p = dt p' -> shp p = shp p' -> size (dat p) = size (dat p') ->
  (forall i, rel_scal Rl (watch_scal (nth (VI 0) (dat p) i)) (nth (VI 0) (dat p') i)) -> rel_arr Rl (watch p) p'.
Proof. by move=> Ed Es Ez h; split=> //=; [rewrite size_map|move=> i; rewrite nth_watch]. Qed.

Lemma watch_double p : numbers p -> rel_arr (to_double_nan (z := z)) (watch p) p.
Proof.
move=> h; split=> //=; first by rewrite size_map.
move=> i; rewrite nth_watch; have := h i; case: (nth _ _ _) => [n|x] /= Hx; first exact: RelI.
apply: RelF; case: Hx => [[Dx Fx]|->]; last by [].
by rewrite Fx.
Qed.
Lemma watch_wide p : numbers p -> rel_arr (to_wide_nan (z := z)) (watch p) (value p).
Proof.
move=> h; split=> //=; first by rewrite !size_map.
move=> i; rewrite nth_watch nth_value; have := h i; case: (nth _ _ _) => [n|x] /= Hx; first exact: RelI.
apply: RelF; case: Hx => [[Dx Fx]|->]; last by [].
by rewrite Fx.
Qed.
Lemma value_scaled g p p' : shifted g p p' -> scaled g (value p) (value p').
Proof.
case=> Ed Es Ez h; split=> //=; first by rewrite !size_map.
move=> i; rewrite !nth_value; have := h i; do 2 case: (nth _ _ _) => ? //=.
by case=> [[_ -> _ -> ->]|[-> ->]].
Qed.

Lemma value_scaled_opt g p p' : shifted_opt g p p' -> scaled_opt g (omap value p) (omap value p').
Proof. by case: p p' => [p|] [p'|] //= /value_scaled. Qed.
Lemma watch_double_opt p : numbers_opt p -> rel_opt (rel_arr (to_double_nan (z := z))) (omap watch p) p.
Proof. by case: p => //= p /watch_double. Qed.
Lemma watch_wide_opt p : numbers_opt p -> rel_opt (rel_arr (to_wide_nan (z := z))) (omap watch p) (omap value p).
Proof. by case: p => //= p /watch_wide. Qed.
Lemma watch_double_r p : numbers p -> rel_arr (to_double (z := z)) (watch p) p.
Proof. by move=> /watch_double /(ls_lx (double_lagree z)). Qed.
Lemma watch_wide_r p : numbers p -> rel_arr (to_wide (z := z)) (watch p) (value p).
Proof. by move=> /watch_wide /(ls_lx (wide_lagree z)). Qed.

Lemma shifted_watch g p p' : shifted g p p' ->
  [/\ rel_arr (to_double (z := z)) (watch p) p, rel_arr (to_wide (z := z)) (watch p) (value p),
      rel_arr (to_double (z := z)) (watch p') p', rel_arr (to_wide (z := z)) (watch p') (value p') &
      scaled g (value p) (value p')].
Proof.
move=> h; have [h1 h2] := shifted_numbers h.
by split; [exact: watch_double_r|exact: watch_wide_r|exact: watch_double_r|exact: watch_wide_r|exact: value_scaled].
Qed.
Lemma shifted_watch_opt g p p' : shifted_opt g p p' ->
  [/\ rel_opt (rel_arr (to_double_nan (z := z))) (omap watch p) p,
      rel_opt (rel_arr (to_wide_nan (z := z))) (omap watch p) (omap value p),
      rel_opt (rel_arr (to_double_nan (z := z))) (omap watch p') p',
      rel_opt (rel_arr (to_wide_nan (z := z))) (omap watch p') (omap value p') &
      scaled_opt g (omap value p) (omap value p')].
Proof.
move=> h; have [h1 h2] := shifted_opt_numbers h.
split; [exact: watch_double_opt|exact: watch_wide_opt|exact: watch_double_opt|exact: watch_wide_opt|exact: value_scaled_opt].
Qed.

Lemma omap_none (T T' : Type) (f : T -> T') o : omap f o = None -> o = None.
Proof. by case: o. Qed.

Lemma shifted_watch_call k k' : shifted_call k k' ->
  [/\ lx_call (to_double (z := z)) (to_double_nan (z := z)) (watch_call k) k,
      lx_call (to_wide (z := z)) (to_wide_nan (z := z)) (watch_call k) (value_call k),
      lx_call (to_double (z := z)) (to_double_nan (z := z)) (watch_call k') k',
      lx_call (to_wide (z := z)) (to_wide_nan (z := z)) (watch_call k') (value_call k') &
      scaled_call a b c (value_call k) (value_call k')].
Proof.
case=> [A x B u P Q A' x' B' u' P' Q'|H x P o R H' x' P' o' R'|Z U Z' U'|Z U Z' U'] /=.
- move=> /shifted_watch [A1 A2 A3 A4 A5] /shifted_watch [x1 x2 x3 x4 x5] /shifted_watch_opt [B1 B2 B3 B4 B5].
  move=> /shifted_watch_opt [u1 u2 u3 u4 u5] /shifted_watch [P1 P2 P3 P4 P5] /shifted_watch [Q1 Q2 Q3 Q4 Q5].
  by split; [exact: LPredict|exact: LPredict|exact: LPredict|exact: LPredict|exact: TPredict].
- move=> /shifted_watch [H1 H2 H3 H4 H5] /shifted_watch [x1 x2 x3 x4 x5] /shifted_watch [P1 P2 P3 P4 P5].
  move=> /shifted_watch [o1 o2 o3 o4 o5] /shifted_watch [R1 R2 R3 R4 R5].
  by split; [exact: LUpdate|exact: LUpdate|exact: LUpdate|exact: LUpdate|exact: TUpdate].
- move=> /shifted_watch [Z1 Z2 Z3 Z4 Z5] /shifted_watch_opt [U1 U2 U3 U4 U5] h.
  by split; [exact: LFilter|exact: LFilter|exact: LFilter|exact: LFilter|apply: TFilter => // /omap_none].
- move=> /shifted_watch [Z1 Z2 Z3 Z4 Z5] /shifted_watch_opt [U1 U2 U3 U4 U5] h.
  by split; [exact: LSmooth|exact: LSmooth|exact: LSmooth|exact: LSmooth|apply: TSmooth => // /omap_none].
Qed.

Lemma rel_scal_inv (N1 N2 : num) (Rl : K N1 -> K N2 -> Prop) v w : rel_scal Rl v w ->
  match v, w with VI n, VI m => m = n | VF x, VF y => Rl x y | _, _ => False end.
Proof. by case. Qed.

(** Where both watched runs keep an entry, the values give the doubles. *)
Lemma safe_arr g (q q' : Np.arr N) (p p' : arr) (w w' : Np.arr (wide z)) :
  rel_arr (to_double (z := z)) q p -> rel_arr (to_wide (z := z)) q w ->
  rel_arr (to_double (z := z)) q' p' -> rel_arr (to_wide (z := z)) q' w' -> scaled g w w' -> shifted_safe g q q' p p'.
Proof.
move=> [d1 s1 n1 h1] [d2 s2 n2 h2] [d3 s3 n3 h3] [d4 s4 n4 h4] [d5 s5 n5 h5].
split; [by rewrite -d1 d2 d5 -d4|by rewrite -s1 s2 s5 -s4|by rewrite -n1 n2 n5 -n4|].
move=> i; rewrite /safe.
have := h5 i; have := rel_scal_inv (h4 i); have := rel_scal_inv (h3 i); have := rel_scal_inv (h2 i).
have := rel_scal_inv (h1 i).
case: (nth _ (dat q) i) => [m|x]; case: (nth _ (dat q') i) => [m'|x'];
  case: (nth _ (dat p) i) => [k|y] //; case: (nth _ (dat w) i) => [l|u] //;
  case: (nth _ (dat p') i) => [k'|y'] // H1 H2; case: (nth _ (dat w') i) => [l'|u'] // H3 H4 H5.
- by rewrite H1 H3 -H4 -H2 /=.
- rewrite /shifted_scal; case: x H1 H2 => // v; case: x' H3 H4 => // v'.
  move=> [G' E'] [_ Eu'] [G E] [_ Eu] _ _; left.
  have -> : y = v :> f64 := E; have -> : y' = v' :> f64 := E'.
  have [Dv Fv] := G; have [Dv' Fv'] := G'; split=> //.
  by move: H5; rewrite /scaled_scal Eu Eu'.
Qed.

Lemma safe_res k k' r r' (w w' : res (Np.arr (wide z) * Np.arr (wide z))) :
  k <> Raise LinAlgError -> k' <> Raise LinAlgError ->
  lx_res (rel_pair (to_double (z := z))) k r -> lx_res (rel_pair (to_wide (z := z))) k w ->
  lx_res (rel_pair (to_double (z := z))) k' r' -> lx_res (rel_pair (to_wide (z := z))) k' w' ->
  scaled_res a w w' -> shifted_res a k k' r r'.
Proof.
move=> Nk Nk'; have St (N' : num) (Rl : K N -> K N' -> Prop) (m : res (Np.arr N * Np.arr N)) r0 :
    m <> Raise LinAlgError -> lx_res (rel_pair Rl) m r0 -> rel_res (rel_pair Rl) m r0.
  by case: m => [x|[]] Nm; case: r0 => [y|e'].
move=> /(St _ _ _ _ Nk) + /(St _ _ _ _ Nk) + /(St _ _ _ _ Nk') + /(St _ _ _ _ Nk').
clear St Nk Nk'; case: k => [q|e]; case: r => [p|e1] //; case: w => [o|e2] //;
  case: k' => [q'|e3]; case: r' => [p'|e4] //; case: w' => [o'|e5] //=.
- move=> [h1 h2] [h3 h4] [h5 h6] [h7 h8] [h9 h10].
  by split; [exact: safe_arr h1 h3 h5 h7 h9|exact: safe_arr h2 h4 h6 h8 h10].
- by move=> -> <- -> <-.
Qed.

Lemma lx_outcomes (N' : num) (Rl : K N -> K N' -> Prop) (ks : seq (res (Np.arr N * Np.arr N))) rs i d d' :
  rel_seq (lx_res (rel_pair Rl)) ks rs -> i < size ks ->
  lx_res (rel_pair Rl) (nth d ks i) (nth d' rs i).
Proof. by elim: ks rs i => [|k ks IH] [|r rs] [|i] //= [Hk Hs] //; apply: IH. Qed.

Lemma solved_seq ks : solved ks -> rel_seq (fun r _ => r <> Raise LinAlgError) ks ks.
Proof. by elim: ks => //= k ks IH /andP [Hk /IH]; split=> // E; move: Hk; rewrite E. Qed.
Lemma solved_nth ks i d : solved ks -> i < size ks -> nth d ks i <> Raise LinAlgError.
Proof. by move=> /all_nthP h Hi E; have := h d i Hi; rewrite E. Qed.
Lemma calls_size (N' : num) (o : kf N') cs : size (kf_calls o cs).2 = size cs.
Proof. by elim: cs o => [|k cs IH] o //=; case: (kf_call o k) => o1 r; have := IH o1; case: (kf_calls o1 cs) => o2 rs /= ->. Qed.

(** The gains: as the states and covariances, in their unit. *)
Definition shifted_gains (g : Z) (ks ks' : seq (Np.arr N)) (l l' : seq arr) : Prop :=
  [/\ size l = size l', size ks = size l, size ks' = size l &
      forall i dk dl, i < size l -> shifted_safe g (nth dk ks i) (nth dk ks' i) (nth dl l i) (nth dl l' i)].

Lemma seq_nth (T T' : Type) (Rl : T -> T' -> Prop) s s' : rel_seq Rl s s' ->
  size s = size s' /\ forall i d d', i < size s -> Rl (nth d s i) (nth d' s' i).
Proof.
elim: s s' => [|x s IH] [|x' s'] //= [Hx /IH [-> h]]; split=> //.
by case=> [|i] d d' Hi //=; apply: h.
Qed.

(** ** C108 for double precision: every object, every history of calls *)
Theorem C108_units_double A x B P H Q R n cs A' x' B' P' H' Q' R' cs' m m' :
  shifted 0 A A' -> shifted a x x' -> shifted_opt (a - c) B B' -> shifted (a + a) P P' ->
  shifted (b - a) H H' -> shifted (a + a) Q Q' -> shifted (b + b) R R' ->
  (B = None -> dt A = DFloat \/ a = c) ->
  size cs = size cs' -> (forall i d d', i < size cs -> shifted_call (nth d cs i) (nth d' cs' i)) ->
  (* both sessions, watched *)
  kf_init (watch A) (watch x) (omap watch B) (watch P) (watch H) (watch Q) (watch R) n = Ok m ->
  kf_init (watch A') (watch x') (omap watch B') (watch P') (watch H') (watch Q') (watch R') n = Ok m' ->
  let w := kf_calls m (map watch_call cs) in
  let w' := kf_calls m' (map watch_call cs') in
  solved w.2 -> solved w'.2 ->
  exists o o',
  [/\ kf_init A x B P H Q R n = Ok o, kf_init A' x' B' P' H' Q' R' n = Ok o',
      (forall i d d', i < size cs ->
         shifted_res a (nth d w.2 i) (nth d w'.2 i) (nth d' (kf_calls o cs).2 i) (nth d' (kf_calls o' cs').2 i)) &
      shifted_gains (a - b) (kf_gains w.1) (kf_gains w'.1) (kf_gains (kf_calls o cs).1) (kf_gains (kf_calls o' cs').1)].
Proof.
move=> hA hx hB hP hH hQ hR Hd Es Hcs Em Em' w w' Sw Sw'.
have [A1 A2 A3 A4 A5] := shifted_watch hA; have [x1 x2 x3 x4 x5] := shifted_watch hx.
have [B1 B2 B3 B4 B5] := shifted_watch_opt hB; have [P1 P2 P3 P4 P5] := shifted_watch hP.
have [H1 H2 H3 H4 H5] := shifted_watch hH; have [Q1 Q2 Q3 Q4 Q5] := shifted_watch hQ.
have [R1 R2 R3 R4 R5] := shifted_watch hR.
have Ld := double_lagree z; have Lw := wide_lagree z.
have := lx_init Ld n A1 x1 B1 P1 H1 Q1 R1; rewrite Em; case Eo : (kf_init A _ _ _ _ _ _ _) => [o|] // Ko.
have := lx_init Ld n A3 x3 B3 P3 H3 Q3 R3; rewrite Em'; case Eo' : (kf_init A' _ _ _ _ _ _ _) => [o'|] // Ko'.
have := lx_init Lw n A2 x2 B2 P2 H2 Q2 R2; rewrite Em; case Ev : (kf_init (value A) _ _ _ _ _ _ _) => [v|] // Kv.
have := lx_init Lw n A4 x4 B4 P4 H4 Q4 R4; rewrite Em'; case Ev' : (kf_init (value A') _ _ _ _ _ _ _) => [v'|] // Kv'.
have Hcall : [/\ rel_seq (lx_call (to_double (z := z)) (to_double_nan (z := z))) (map watch_call cs) cs,
    rel_seq (lx_call (to_wide (z := z)) (to_wide_nan (z := z))) (map watch_call cs) (map value_call cs),
    rel_seq (lx_call (to_double (z := z)) (to_double_nan (z := z))) (map watch_call cs') cs' &
    rel_seq (lx_call (to_wide (z := z)) (to_wide_nan (z := z))) (map watch_call cs') (map value_call cs')].
  elim: cs cs' Es Hcs {w w' Sw Sw'} => [|k cs IH] [|k' cs'] //= [Es] Hcs.
  have [k1 k2 k3 k4 _] := shifted_watch_call (Hcs 0%N k k' isT).
  by have [|h1 h2 h3 h4] := IH cs' Es; [move=> i d d' Hi; exact: (Hcs i.+1)|split].
have [C1 C2 C3 C4] := Hcall.
have Hd' : omap value B = None -> dt (value A) = DFloat \/ a = c by move=> /omap_none /Hd.
have Ez : size (map value_call cs) = size (map value_call cs') by rewrite !size_map.
have Hvs i d d' : i < size (map value_call cs) ->
    scaled_call a b c (nth d (map value_call cs) i) (nth d' (map value_call cs') i).
  rewrite size_map => Hi; have Hi' : i < size cs' by rewrite -Es.
  case: (cs) (cs') Hi Hi' Hcs => [|k0 s] [|k0' s'] // Hi Hi' Hcs0.
  rewrite (nth_map k0) // (nth_map k0') //.
  by have [_ _ _ _ h] := shifted_watch_call (Hcs0 i k0 k0' Hi).
have := C108_units n A5 x5 B5 P5 H5 Q5 R5 Hd' Ez Hvs; rewrite Ev Ev' => -[Hr Hg].
have [D1 D2] := lx_kf_calls Ld Ko C1 (solved_seq Sw); have [D3 D4] := lx_kf_calls Ld Ko' C3 (solved_seq Sw').
have [W1 W2] := lx_kf_calls Lw Kv C2 (solved_seq Sw); have [W3 W4] := lx_kf_calls Lw Kv' C4 (solved_seq Sw').
exists o, o'; split=> //.
- move=> i d d' Hi; have Hi1 : i < size w.2 by rewrite calls_size size_map.
  have Hi2 : i < size w'.2 by rewrite calls_size size_map -Es.
  pose d0 : res (Np.arr (wide z) * Np.arr (wide z)) := Raise IndexError.
  apply: (safe_res (w := nth d0 (kf_calls v (map value_call cs)).2 i) (w' := nth d0 (kf_calls v' (map value_call cs')).2 i)).
  + exact: solved_nth.
  + exact: solved_nth.
  + exact: lx_outcomes D2 Hi1.
  + exact: lx_outcomes W2 Hi1.
  + exact: lx_outcomes D4 Hi2.
  + exact: lx_outcomes W4 Hi2.
  + by apply: Hr; rewrite size_map.
- case: D1 => _ _ _ _ /seq_nth [E1 F1]; case: D3 => _ _ _ _ /seq_nth [E3 F3].
  case: W1 => _ _ _ _ /seq_nth [E2 F2]; case: W3 => _ _ _ _ /seq_nth [E4 F4]; case: Hg => Eg Fg.
  split.
  + by rewrite -E1 E2 Eg -E4.
  + by rewrite -E1.
  + by rewrite -E1 E2 Eg -E4.
  + move=> i dk dl; rewrite -E1 => Hi; have Hi' : i < size (kf_gains w'.1) by rewrite E4 -Eg -E2.
    apply: (safe_arr (F1 i dk dl Hi) (F2 i dk _ Hi) (F3 i dk dl Hi') (F4 i dk _ Hi')).
    by apply: Fg; rewrite -E2.
Qed.
End C108.

(** ** A case: a filter over two observations, lengths in units of 1/1024: every
    entry of every outcome is guaranteed *)
Section Case.
Notation D := (doubles 0).
Definition n111 (n : Z) : Np.arr D := Arr DFloat [:: 1; 1; 1]%N [:: VF (N := D) (fofZ n)].
Definition n211 (n : Z) : Np.arr D := Arr DFloat [:: 2; 1; 1]%N [:: VF (N := D) (fofZ n); VF (N := D) (fofZ n)].
Definition n11 (n : Z) : Np.arr D := Arr DFloat [:: 1; 1]%N [:: VF (N := D) (fofZ n)].
Definition n21 (n k : Z) : Np.arr D := Arr DFloat [:: 2; 1]%N [:: VF (N := D) (fofZ n); VF (N := D) (fofZ k)].
Definition n1 (n : Z) : Np.arr D := Arr DFloat [:: 1]%N [:: VF (N := D) (fofZ n)].

Definition all_safe (q : Np.arr (checked 0)) : bool := all (safe q) (iota 0 (size (dat q))).
(** The outcomes and gains of a watched session are kept, every entry. *)
Definition session_safe (s : kf (checked 0) * seq (res (Np.arr (checked 0) * Np.arr (checked 0)))) : bool :=
  [&& solved s.2, all all_safe (kf_gains s.1) & all (fun r => if r is Ok p then all_safe p.1 && all_safe p.2 else false) s.2].
Definition watched (x0 p o1 o2 : Z) : bool :=
  if kf_init (watch (n211 1)) (watch (n1 x0)) None (watch (n11 p)) (watch (n211 1)) (watch (n211 p)) (watch (n211 p)) None is Ok m
  then session_safe (kf_calls m (map (@watch_call 0) [:: CFilter (n21 o1 o2) None; CSmooth (n21 o1 o2) None])) else false.

Lemma real_shift s m e g : real (S754_finite s m (e + g)) = Rmult (real (S754_finite s m e)) (bpow radix2 g).
Proof. by rewrite /real /= /F2R /= bpow_plus Rmult_assoc. Qed.

Lemma shift_scal g n k s m e : fofZ n = S754_finite s m e -> fofZ k = S754_finite s m (e + g) ->
  double (fofZ n) -> double (fofZ k) -> shifted_scal (z := 0) g (VF (N := D) (fofZ n)) (VF (N := D) (fofZ k)).
Proof. by move=> En Ek Dn Dk; left; split=> //; rewrite ?En ?Ek //; exact: real_shift. Qed.

Lemma s3 : shifted_scal (z := 0) 10 (VF (N := D) (fofZ 3)) (VF (N := D) (fofZ 3072)).
Proof. by eapply shift_scal; vm_compute; reflexivity. Qed.
Lemma s5 : shifted_scal (z := 0) 10 (VF (N := D) (fofZ 5)) (VF (N := D) (fofZ 5120)).
Proof. by eapply shift_scal; vm_compute; reflexivity. Qed.
Lemma s7 : shifted_scal (z := 0) 10 (VF (N := D) (fofZ 7)) (VF (N := D) (fofZ 7168)).
Proof. by eapply shift_scal; vm_compute; reflexivity. Qed.
Lemma s1 : shifted_scal (z := 0) 20 (VF (N := D) (fofZ 1)) (VF (N := D) (fofZ 1048576)).
Proof. by eapply shift_scal; vm_compute; reflexivity. Qed.

Example C108_case_double :
  [/\ shifted 10 (n1 3) (n1 3072), shifted 10 (n21 5 7) (n21 5120 7168), shifted 20 (n11 1) (n11 1048576) &
      watched 3 1 5 7 && watched 3072 1048576 5120 7168].
Proof.
split.
- split; [exact: erefl|exact: erefl|exact: erefl|]; case=> [|[|i]]; [exact: s3|by split|by split].
- split; [exact: erefl|exact: erefl|exact: erefl|]; case=> [|[|[|i]]]; [exact: s5|exact: s7|by split|by split].
- split; [exact: erefl|exact: erefl|exact: erefl|]; case=> [|[|i]]; [exact: s1|by split|by split].
- by vm_compute.
Qed.

(** Range matters: 3/2 of the smallest double is not a double. *)
Definition tiny (m : positive) : Np.arr D := Arr DFloat [:: 1]%N [:: VF (N := D) (S754_finite false m (-1074))].
Definition threehalves : Np.arr D := Arr DFloat [:: 1; 1]%N [:: VF (N := D) (S754_finite false 6755399441055744 (-52))].
Definition no_input : Np.arr D := Arr DFloat [:: 1; 1]%N [:: VF (N := D) S754_nan].
Definition predicted (x : Np.arr D) : f64 :=
  if kf_predict threehalves x (Some no_input) (Some no_input) (n11 1) (n11 1) is Ok p then tofl (nth (VI 0) (dat p.1) 0) else S754_nan.
Example C108_needs_range :
  predicted (n1 1) = S754_finite false 6755399441055744 (-52) /\ predicted (tiny 1) = S754_finite false 2 (-1074).
Proof. by split; vm_compute. Qed.
End Case.
