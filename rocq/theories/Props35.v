(** * Props35: C103: in binary64 the code does not prefer a sign: mirrored
    data give mirrored answers, bit for bit (up to the signs of zeros) *)
From Coq Require Import ZArith Lia Floats.SpecFloat.
From mathcomp Require Import ssreflect ssrfun ssrbool eqtype ssrnat seq.
From Verif Require Import Np NpLemmas Kf Ekf Binary64 Lu Param Zeros Graded GradedOps Mirror.

Set Implicit Arguments.
Unset Strict Implicit.
Unset Printing Implicit Defensive.

Section C103.
Variable z : Z.
(** Doubles, on any platform z. *)
Notation N := (doubles z).
Notation arr := (arr N).

(** w is v, with the sign bit inverted if b, up to the sign of a zero.  An
    integer can only be kept, or be zero. *)
Definition turned_scal (b : bool) (v w : scal N) : Prop :=
  match v, w with
  | VI n, VI n' => n' = n /\ (b -> n = 0%Z)
  | VF x, VF y => zsame (if b then SFopp x else x) y
  | _, _ => False
  end.

(** An array with every sign inverted if b; the same array if not b. *)
Definition turned (b : bool) (a a' : arr) : Prop :=
  [/\ dt a = dt a', shp a = shp a', size (dat a) = size (dat a') &
      forall i, turned_scal b (nth (VI 0) (dat a) i) (nth (VI 0) (dat a') i)].
Definition turned_opt (b : bool) (a a' : option arr) : Prop :=
  match a, a' with Some x, Some y => turned b x y | None, None => True | _, _ => False end.
Definition turned_seq (b : bool) (l l' : seq arr) : Prop :=
  size l = size l' /\ forall i, i < size l -> turned b (nth (np_zeros N [::]) l i) (nth (np_zeros N [::]) l' i).

(** Same exception, or states turned by b and the same covariances. *)
Definition turned_res (b : bool) (r r' : res (arr * arr)) : Prop :=
  match r, r' with
  | Ok p, Ok p' => turned b p.1 p'.1 /\ turned false p.2 p'.2
  | Raise e, Raise e' => e = e'
  | _, _ => False
  end.

(** sx: the states are turned; sz: the observations; su: the inputs.  Then H
    turns if only one of states and observations does, B if only one of states
    and inputs. *)
Variables sx sz su : bool.

Inductive turned_call : call N -> call N -> Prop :=
| TPredict A x B u P Q A' x' B' u' P' Q' : turned false A A' -> turned sx x x' -> turned_opt (sx (+) su) B B' ->
    turned_opt su u u' -> turned false P P' -> turned false Q Q' ->
    turned_call (CPredict A x B u P Q) (CPredict A' x' B' u' P' Q')
| TUpdate H x P o R H' x' P' o' R' : turned (sx (+) sz) H H' -> turned sx x x' -> turned false P P' -> turned sz o o' ->
    turned false R R' -> turned_call (CUpdate H x P o R) (CUpdate H' x' P' o' R')
| TFilter Z U Z' U' : turned sz Z Z' -> turned_opt su U U' -> (U = None -> dt Z = DFloat \/ su = false) ->
    turned_call (CFilter Z U) (CFilter Z' U')
| TSmooth Z U Z' U' : turned sz Z Z' -> turned_opt su U U' -> (U = None -> dt Z = DFloat \/ su = false) ->
    turned_call (CSmooth Z U) (CSmooth Z' U').

Inductive turned_ecall : ecall N -> ecall N -> Prop :=
| TEPredict x u P Q x' u' P' Q' : turned sx x x' -> turned_opt su u u' -> turned false P P' -> turned false Q Q' ->
    turned_ecall (EPredict x u P Q) (EPredict x' u' P' Q')
| TEUpdate x P o R x' P' o' R' : turned sx x x' -> turned false P P' -> turned sz o o' -> turned false R R' ->
    turned_ecall (EUpdate x P o R) (EUpdate x' P' o' R')
| TEFilter Z U Z' U' : turned sz Z Z' -> turned_opt su U U' -> (U = None -> dt Z = DFloat \/ su = false) ->
    turned_ecall (EFilter Z U) (EFilter Z' U')
| TESmooth Z U Z' U' : turned sz Z Z' -> turned_opt su U U' -> (U = None -> dt Z = DFloat \/ su = false) ->
    turned_ecall (ESmooth Z U) (ESmooth Z' U').

(** ** In terms of Graded.v *)
Notation ga := (gr_arr (N1 := N) (N2 := N) mirror Z.even).

Lemma turnedE b g a a' : Z.odd g = b -> turned b a a' <-> ga g a a'.
Proof.
move=> Eb; have E v w : turned_scal b v w <-> gr_scal (N1 := N) (N2 := N) mirror Z.even g v w.
  split; last first.
    case=> [n [He|->]|x y Hxy] /=; last by rewrite -Eb.
    - by split=> //; rewrite -Eb -Z.negb_even He.
    - by [].
  case: v w => [n|x] [n'|y] //=.
    move=> [-> Hn]; apply: GrI; rewrite -Eb -Z.negb_even in Hn.
    by case E : (Z.even g); [left|right; apply: Hn; rewrite E].
  by move=> h; apply: GrF; rewrite /mirror /flip Eb.
by split=> -[? ? ? h]; split=> // i; apply/E.
Qed.

Lemma turned_optE b g a a' : Z.odd g = b -> turned_opt b a a' -> rel_opt (ga g) a a'.
Proof. by move=> Eb; case: a a' => [a|] [a'|] //= /(turnedE _ _ Eb). Qed.

Lemma turned_seqE b g l l' : Z.odd g = b -> rel_seq (ga g) l l' -> turned_seq b l l'.
Proof.
move=> Eb; elim: l l' => [|a l IH] [|a' l'] //= [Ha /IH [Es Hl]]; split; first by rewrite /= Es.
by case=> [|i] Hi /=; [apply/(turnedE _ _ Eb)|exact: Hl].
Qed.

Let a := Z.b2z sx.
Let b := Z.b2z sz.
Let c := Z.b2z su.
Let oa : Z.odd a = sx. Proof. by rewrite /a; case: sx. Qed.
Let ob : Z.odd b = sz. Proof. by rewrite /b; case: sz. Qed.
Let oc : Z.odd c = su. Proof. by rewrite /c; case: su. Qed.
Let oP : Z.odd (a + a) = false. Proof. by rewrite Z.odd_add; case: (Z.odd _). Qed.
Let oR : Z.odd (b + b) = false. Proof. by rewrite Z.odd_add; case: (Z.odd _). Qed.
Let oB : Z.odd (a - c) = sx (+) su. Proof. by rewrite Z.odd_sub oa oc; case: sx; case: su. Qed.
Let oH : Z.odd (b - a) = sx (+) sz. Proof. by rewrite Z.odd_sub oa ob; case: sx; case: sz. Qed.
Let oK : Z.odd (a - b) = sx (+) sz. Proof. by rewrite Z.odd_sub oa ob; case: sx; case: sz. Qed.

Lemma nanE (d d' : Prop) : (d' -> d \/ su = false) -> d' -> d \/ Z.even c.
Proof. by move=> h /h [|E]; [left|right; rewrite -Z.negb_odd oc E]. Qed.

Lemma turned_resE r r' : rel_res (gr_pair (N1 := N) (N2 := N) mirror Z.even a (a + a)) r r' -> turned_res sx r r'.
Proof. by case: r => [p|e]; case: r' => [p'|e'] //= [/(turnedE _ _ oa) h1 /(turnedE _ _ oP) h2]. Qed.

(** ** C103 for KalmanFilter: every object, every history of calls *)
Theorem C103_mirrored A x B P H Q R n cs A' x' B' P' H' Q' R' cs' :
  turned false A A' -> turned sx x x' -> turned_opt (sx (+) su) B B' -> turned false P P' ->
  turned (sx (+) sz) H H' -> turned false Q Q' -> turned false R R' ->
  (B = None -> dt A = DFloat \/ sx = su) ->
  size cs = size cs' -> (forall i d d', i < size cs -> turned_call (nth d cs i) (nth d' cs' i)) ->
  match kf_init A x B P H Q R n, kf_init A' x' B' P' H' Q' R' n with
  | Ok o, Ok o' =>
    (forall i d, i < size cs -> turned_res sx (nth d (kf_calls o cs).2 i) (nth d (kf_calls o' cs').2 i)) /\
    turned_seq (sx (+) sz) (kf_gains (kf_calls o cs).1) (kf_gains (kf_calls o' cs').1)
  | Raise e, Raise e' => e = e'
  | _, _ => False
  end.
Proof.
move=> /(@turnedE _ 0%Z _ _ erefl) HA /(turnedE _ _ oa) Hx /(turned_optE oB) HB /(turnedE _ _ oP) HP.
move=> /(turnedE _ _ oH) HH /(turnedE _ _ oP) HQ /(turnedE _ _ oR) HR Hd Es Hcs.
have Ag := mirror_agree z.
have Hd' : B = None -> dt A = DFloat \/ Z.even (a - c).
  by move=> /Hd [|E]; [left|right; rewrite -Z.negb_odd oB E addbb].
have Hc : rel_seq (gr_call (N1 := N) (N2 := N) mirror Z.even a b c) cs cs'.
  elim: cs cs' Es Hcs => [|k cs IH] [|k' cs'] //= [Es] Hcs; split; last first.
    by apply: IH => // i d d' Hi; exact: (Hcs i.+1).
  have := Hcs 0%N k k' isT => /=; case.
  - move=> ? ? ? ? ? ? ? ? ? ? ? ? /(@turnedE _ 0%Z _ _ erefl) h1 /(turnedE _ _ oa) h2 /(turned_optE oB) h3 /(turned_optE oc) h4 /(turnedE _ _ oP) h5 /(turnedE _ _ oP) h6.
    exact: GPredict.
  - move=> ? ? ? ? ? ? ? ? ? ? /(turnedE _ _ oH) h1 /(turnedE _ _ oa) h2 /(turnedE _ _ oP) h3 /(turnedE _ _ ob) h4 /(turnedE _ _ oR) h5.
    exact: GUpdate.
  - move=> ? ? ? ? /(turnedE _ _ ob) h1 /(turned_optE oc) h2 h3; apply: GFilter => //; exact: nanE.
  - move=> ? ? ? ? /(turnedE _ _ ob) h1 /(turned_optE oc) h2 h3; apply: GSmooth => //; exact: nanE.
have := gr_init Ag n HA Hx HB Hd' HP HH HQ HR.
case: (kf_init _ _ _ _ _ _ _ _) => [o|e]; case: (kf_init _ _ _ _ _ _ _ _) => [o'|e'] //= Ho.
have [[_ _ _ _ Hg] Hr] := gr_kf_calls Ag Ho Hc; split; last exact: turned_seqE oK Hg.
have Er : size (kf_calls o cs).2 = size cs.
  by clear; elim: cs o => [|k cs IH] o //=; case: (kf_call o k) => o1 r; have := IH o1; case: (kf_calls o1 cs) => o2 rs /= ->.
move=> i d; rewrite -Er; move: (kf_calls o cs).2 (kf_calls o' cs').2 Hr i {Er}.
elim=> [|r l IH] [|r' l'] //= [Hr Hl] [|i] Hi /=; [exact: turned_resE|exact: IH].
Qed.

(** ** C103 for ExtendedKalmanFilter, with functions that turn with the data *)
Theorem C103_mirrored_extended x P Q R f h jA jH cs x' P' Q' R' f' h' jA' jH' cs' :
  turned sx x x' -> turned false P P' -> turned false Q Q' -> turned false R R' ->
  (forall y y' u u', turned sx y y' -> turned_opt su u u' ->
     rel_res (turned sx) (f y u) (f' y' u') /\ rel_res (turned false) (jA y u) (jA' y' u')) ->
  (forall y y', turned sx y y' -> rel_res (turned sz) (h y) (h' y') /\ rel_res (turned (sx (+) sz)) (jH y) (jH' y')) ->
  size cs = size cs' -> (forall i d d', i < size cs -> turned_ecall (nth d cs i) (nth d' cs' i)) ->
  match ekf_init x P Q R f h jA jH, ekf_init x' P' Q' R' f' h' jA' jH' with
  | Ok o, Ok o' =>
    (forall i d, i < size cs -> turned_res sx (nth d (e_calls o cs).2 i) (nth d (e_calls o' cs').2 i)) /\
    turned_seq (sx (+) sz) (e_gains (e_calls o cs).1) (e_gains (e_calls o' cs').1)
  | Raise e, Raise e' => e = e'
  | _, _ => False
  end.
Proof.
move=> /(turnedE _ _ oa) Hx /(turnedE _ _ oP) HP /(turnedE _ _ oP) HQ /(turnedE _ _ oR) HR Hf Hh Es Hcs.
have Ag := mirror_agree z.
have W g b' r r' : Z.odd g = b' -> rel_res (turned b') r r' -> rel_res (ga g) r r'.
  by move=> Eb; case: r => [?|?]; case: r' => [?|?] //= /(turnedE _ _ Eb).
have W2 u u' : rel_opt (ga c) u u' -> turned_opt su u u'.
  by case: u u' => [u|] [u'|] //= /(turnedE _ _ oc).
have Ff : gr_fun2 (N1 := N) (N2 := N) mirror Z.even a c a f f'.
  by move=> y u y' u' /(turnedE _ _ oa) Hy /W2 Hu; apply: (W _ _ _ _ oa); case: (Hf _ _ _ _ Hy Hu).
have FA : gr_fun2 (N1 := N) (N2 := N) mirror Z.even a c 0 jA jA'.
  by move=> y u y' u' /(turnedE _ _ oa) Hy /W2 Hu; apply: (W 0%Z false _ _ erefl); case: (Hf _ _ _ _ Hy Hu).
have Fh : gr_fun1 (N1 := N) (N2 := N) mirror Z.even a b h h'.
  by move=> y y' /(turnedE _ _ oa) Hy; apply: (W _ _ _ _ ob); case: (Hh _ _ Hy).
have FH : gr_fun1 (N1 := N) (N2 := N) mirror Z.even a (b - a) jH jH'.
  by move=> y y' /(turnedE _ _ oa) Hy; apply: (W _ _ _ _ oH); case: (Hh _ _ Hy).
have Hc : rel_seq (gr_ecall (N1 := N) (N2 := N) mirror Z.even a b c) cs cs'.
  elim: cs cs' Es Hcs => [|k cs IH] [|k' cs'] //= [Es] Hcs; split; last first.
    by apply: IH => // i d d' Hi; exact: (Hcs i.+1).
  have := Hcs 0%N k k' isT => /=; case.
  - move=> ? ? ? ? ? ? ? ? /(turnedE _ _ oa) h2 /(turned_optE oc) h4 /(turnedE _ _ oP) h5 /(turnedE _ _ oP) h6.
    exact: GEPredict.
  - move=> ? ? ? ? ? ? ? ? /(turnedE _ _ oa) h2 /(turnedE _ _ oP) h3 /(turnedE _ _ ob) h4 /(turnedE _ _ oR) h5.
    exact: GEUpdate.
  - move=> ? ? ? ? /(turnedE _ _ ob) h1 /(turned_optE oc) h2 h3; apply: GEFilter => //; exact: nanE.
  - move=> ? ? ? ? /(turnedE _ _ ob) h1 /(turned_optE oc) h2 h3; apply: GESmooth => //; exact: nanE.
have := gr_einit Ag Hx HP HQ HR Ff Fh FA FH.
case: (ekf_init _ _ _ _ _ _ _ _) => [o|e]; case: (ekf_init _ _ _ _ _ _ _ _) => [o'|e'] //= Ho.
have [[_ _ _ _ Hg] Hr] := gr_e_calls Ag Ho Hc; split; last exact: turned_seqE oK Hg.
have Er : size (e_calls o cs).2 = size cs.
  by clear; elim: cs o => [|k cs IH] o //=; case: (e_call o k) => o1 r; have := IH o1; case: (e_calls o1 cs) => o2 rs /= ->.
move=> i d; rewrite -Er; move: (e_calls o cs).2 (e_calls o' cs').2 Hr i {Er}.
elim=> [|r l IH] [|r' l'] //= [Hr Hl] [|i] Hi /=; [exact: turned_resE|exact: IH].
Qed.
End C103.

(** ** A case: one step of filter with states, observations and inputs turned *)
Section Case.
Notation N0 := (doubles (Z.opp (Z.pow 2 63))).
Definition t11 (x : f64) : Np.arr N0 := Arr DFloat [:: 1%N; 1%N] [:: VF (N := N0) x].
Definition t1 (x : f64) : Np.arr N0 := Arr DFloat [:: 1%N] [:: VF (N := N0) x].
Definition t111 (x : f64) : Np.arr N0 := Arr DFloat [:: 1%N; 1%N; 1%N] [:: VF (N := N0) x].
(** The states and the covariances of filter([z]) from x0 = x, all else 1. *)
Definition filtered (x o : f64) : option (seq (scal N0) * seq (scal N0)) :=
  let one := t111 (fofZ 1) in
  if kf_init one (t1 x) None (t11 (fofZ 1)) one one one None is Ok k then
    if (kf_call k (CFilter (t11 o) None)).2 is Ok xP then Some (dat xP.1, dat xP.2) else None
  else None.
Definition isneg (l : seq (scal N0)) : seq bool :=
  [seq (fun v : scal N0 => if v is VF x then if (x : f64) is S754_finite s _ _ then s else false else false) v | v <- l].
Example C103_case :
  [/\ turned (z := Z.opp (Z.pow 2 63)) true (t1 (fofZ 1)) (t1 (fofZ (-1))),
      turned (z := Z.opp (Z.pow 2 63)) true (t11 (fofZ 5)) (t11 (fofZ (-5))),
      omap (fun p => isneg p.1) (filtered (fofZ 1) (fofZ 5)) = Some [:: false] &
      omap (fun p => isneg p.1) (filtered (fofZ (-1)) (fofZ (-5))) = Some [:: true]].
Proof.
split.
- split; [exact: erefl|exact: erefl|exact: erefl|].
  by case=> [|[|i]]; [vm_compute; left|split|split].
- split; [exact: erefl|exact: erefl|exact: erefl|].
  by case=> [|[|i]]; [vm_compute; left|split|split].
- by vm_compute.
- by vm_compute.
Qed.
End Case.
