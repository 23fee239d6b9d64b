(** * Props11: C53-C58, arrays in memory *)
From Coq Require Import ZArith List Lia Floats.SpecFloat.
From mathcomp Require Import ssreflect ssrfun ssrbool eqtype ssrnat seq path.
From Verif Require Import Np NpLemmas Kf Ekf ApiSpec Loop Frame NpShapes FilterLemmas Binary64 Cases.
From Verif Require Import Mem MemKf MemLemmas MemSim MemSim2 MemSim3 MemSim4 MemSpec MemThms MemThms2.

Set Implicit Arguments.
Unset Strict Implicit.
Unset Printing Implicit Defensive.

(** ** Concrete memories *)
Local Notation B := binary64.

(** The whole of buffer [l], holding an array like [a]. *)
Definition whole (l : nat) (a : arr B) : ref := Ref l (dt a) (shp a) (iota 0 (size (dat a))).

(** The cart of [Cases] with as much sharing as the shapes allow: A and Q are
    one array, Pk is its first row, xk is the beginning of Z, U is Z. *)
Definition sh_heap : heap B := [:: dat cart_A; dat cart_B; dat cart_H; dat cart_R; dat cart_Z].
Definition sh_A := whole 0 cart_A.
Definition sh_P := view_row sh_A 0.
Definition sh_Z := whole 4 cart_Z.
Definition sh_x := Ref 4 DFloat [:: 2] [:: 0; 1].
Definition sh_init : heap B * res hkf :=
  hkf_init sh_A sh_x (Some (whole 1 cart_B)) sh_P (whole 2 cart_H) sh_A (whole 3 cart_R) None sh_heap.
Definition sh_dummy := HKf sh_A sh_A sh_A sh_A sh_A sh_A sh_A 0 sh_A [::].
Definition sh_obj : hkf := if sh_init.2 is Ok o then o else sh_dummy.
Definition sh_mem : heap B := sh_init.1.
Definition sh_call := HFilter sh_Z (Some sh_Z).
Definition sh_smooth := HSmooth sh_Z (Some sh_Z).

Example sh_object_in : object_in sh_mem sh_obj. Proof. by vm_compute. Qed.
Example sh_call_in : call_in sh_mem sh_call. Proof. by vm_compute. Qed.
Example sh_returns : isok (hkf_call sh_obj sh_mem sh_call).2 && isok (hkf_call sh_obj sh_mem sh_smooth).2.
Proof. by vm_compute. Qed.
Example sh_shares : [&& rloc (h_A sh_obj) == rloc (h_Pk sh_obj), rloc (h_A sh_obj) == rloc (h_Q sh_obj)
                      & rloc (h_xk sh_obj) == rloc sh_Z].
Proof. by vm_compute. Qed.

(** An extended filter whose f returns its argument itself and whose Jacobians
    return stored arrays, always the same ones. *)
Definition al_heap : heap B := [:: dat osc_A; dat osc_H; dat osc_x; dat cart_P; dat cart_Q; dat cart_R; dat cart_Z].
Definition al_f (x : ref) (u : option ref) : hres B ref := hret x.
Definition al_h (x : ref) : hres B ref := h_matmul (whole 1 osc_H) x.
Definition al_jA (x : ref) (u : option ref) : hres B ref := hret (whole 0 osc_A).
Definition al_jH (x : ref) : hres B ref := hret (whole 1 osc_H).
Definition al_init : heap B * res (hekf B) :=
  hekf_init (whole 2 osc_x) (whole 3 cart_P) (whole 4 cart_Q) (whole 5 cart_R) al_f al_h al_jA al_jH al_heap.
Definition al_dummy : hekf B := HEkf al_f al_h al_jA al_jH sh_A sh_A sh_A sh_A 0 sh_A [::].
Definition al_obj : hekf B := if al_init.2 is Ok o then o else al_dummy.
Definition al_mem : heap B := al_init.1.
Definition al_call := HEFilter (whole 6 cart_Z) None.
Definition al_smooth := HESmooth (whole 6 cart_Z) None.
Definition al_pred := HEPredict (whole 2 osc_x) None (whole 3 cart_P) (view_row (whole 4 cart_Q) 0).

Example al_object_in : e_object_in al_mem al_obj. Proof. by vm_compute. Qed.
Example al_calls_in : [&& ecall_in al_mem al_call, ecall_in al_mem al_smooth & ecall_in al_mem al_pred].
Proof. by vm_compute. Qed.
Example al_returns : [&& isok (hekf_call al_obj al_mem al_call).2, isok (hekf_call al_obj al_mem al_smooth).2
                       & isok (hekf_call al_obj al_mem al_pred).2].
Proof. by vm_compute. Qed.

Lemma same_refl N (L : seq nat) (h : heap N) : all (fun l => l < size h) L -> same_on L h h.
Proof. by move=> /allP H; split=> // l /H. Qed.
Example al_same : same_on [:: 0; 1] al_mem al_mem. Proof. by apply: same_refl; vm_compute. Qed.

Lemma stored N L (h0 : heap N) h r : same_on L h0 h -> array_in h0 r -> rloc r \in L ->
  array_in h r /\ val h r = val h0 r.
Proof.
move=> [S E] /andP [A1 A2] /E [A3 A4]; rewrite /array_in A2 (leq_trans A1 S); split=> //.
by rewrite /val A4.
Qed.

Lemma stored_behaved N L (h0 : heap N) rA rH o :
  array_in h0 rA -> array_in h0 rH -> rloc rA \in L -> rloc rH \in L ->
  he_f o = (fun x u => hret x) -> he_h o = h_matmul rH ->
  he_jA o = (fun x u => hret rA) -> he_jH o = (fun x => hret rH) ->
  well_behaved L h0 o (fun x u => Ok x) (np_matmul (val h0 rH)) (fun x u => Ok (val h0 rA))
    (fun x => Ok (val h0 rH)).
Proof.
move=> HA HH LA LH Ef Eh EA EH; rewrite /well_behaved Ef Eh EA EH; split.
- by move=> h rx ru _ Hx _ /=; split=> //; apply: unchanged_refl.
- move=> h rx Bs Hx; have [HH1 HV] := stored Bs HH LH.
  have := sim_matmul (array_hv HH1) (array_hv Hx); rewrite /sim HV.
  case: (h_matmul _ _ _) => [h' [y|e]] /= [/unchangedP U A]; split=> //.
    case: (np_matmul _ _) A => // v [Hv _]; split; first exact: hv_array Hv.
    by case: Hv => _ _ ->.
  by case: (np_matmul _ _) A => // e' ->.
- move=> h rx ru Bs _ _ /=; have [HA1 HV] := stored Bs HA LA.
  by rewrite HV; split=> //; apply: unchanged_refl.
- move=> h rx Bs _ /=; have [HH1 HV] := stored Bs HH LH.
  by rewrite HV; split=> //; apply: unchanged_refl.
Qed.

Definition al_vf (x : arr B) (u : option (arr B)) : res (arr B) := Ok x.
Definition al_vh (x : arr B) : res (arr B) := np_matmul (val al_mem (whole 1 osc_H)) x.
Definition al_vjA (x : arr B) (u : option (arr B)) : res (arr B) := Ok (val al_mem (whole 0 osc_A)).
Definition al_vjH (x : arr B) : res (arr B) := Ok (val al_mem (whole 1 osc_H)).

Example al_well_behaved : well_behaved [:: 0; 1] al_mem al_obj al_vf al_vh al_vjA al_vjH.
Proof.
have HA : array_in al_mem (whole 0 osc_A) by vm_compute.
have HH : array_in al_mem (whole 1 osc_H) by vm_compute.
exact: (stored_behaved (L := [:: 0; 1]) (o := al_obj) HA HH isT isT erefl erefl erefl erefl).
Qed.

Section Claims.
Variable N : num.
Notation arr := (arr N).
Notation heap := (heap N).
Implicit Types (h : heap).

(** ** C53: no call modifies an array that existed before it *)

(** Whatever is shared, whether the call returns or raises. *)
Theorem C53_standard h o c : object_in h o -> call_in h c ->
  let: (o', h', r) := hkf_call o h c in
  [/\ unchanged h h', held o' = held o & forall a, array_in h a -> val h' a = val h a].
Proof.
move=> Ho Hc; have := one_call Ho Hc; case: (hkf_call o h c) => [[o' h'] r] [U _ [_ E] _ _].
by split=> // a /(array_in_unchanged U) [].
Qed.

Theorem C53_extended L h0 f g jA jH h o c : same_on L h0 h -> e_object_in h o ->
  well_behaved L h0 o f g jA jH -> ecall_in h c ->
  let: (o', h', r) := hekf_call o h c in
  [/\ unchanged h h', e_held o' = e_held o & forall a, array_in h a -> val h' a = val h a].
Proof.
move=> Bs Ho Hw Hc; have := one_ecall Bs Ho Hw Hc.
case: (hekf_call o h c) => [[o' h'] r] [U _ [_ E _] _ _].
by split=> // a /(array_in_unchanged U) [].
Qed.

(** The constructors: the object holds the very arrays it was given. *)
Theorem C53_constructor h A xk B Pk H Q R ss :
  all (array_in h) [:: A; xk; Pk; H; Q; R] -> opt_in h B ->
  let: (h', r) := hkf_init A xk B Pk H Q R ss h in
  unchanged h h' /\
  forall o, r = Ok o ->
    [:: h_A o; h_xk o; h_Pk o; h_H o; h_Q o; h_R o] = [:: A; xk; Pk; H; Q; R] /\
    (if B is Some b then h_B o = b else new_since h (h_B o)).
Proof.
move=> Ha HB; have := ctor_std ss Ha HB; case: (hkf_init _ _ _ _ _ _ _ _ _) => [h' [o|e]] [U]; last by split.
move=> [[E1 E2 E3 E4] [E5 E6 _] HB' _ _]; split=> // o' [<-].
by rewrite E1 E2 E3 E4 E5 E6.
Qed.

Theorem C53_constructor_extended h xk Pk Q R hf hh hjA hjH :
  all (array_in h) [:: xk; Pk; Q; R] ->
  let: (h', r) := hekf_init (N := N) xk Pk Q R hf hh hjA hjH h in
  unchanged h h' /\
  forall o, r = Ok o -> [:: he_xk o; he_Pk o; he_Q o; he_R o] = [:: xk; Pk; Q; R].
Proof.
move=> Ha; have := ctor_ext hf hh hjA hjH Ha.
case: (hekf_init _ _ _ _ _ _ _ _ _) => [h' [o|e]] [U]; last by split.
by move=> [[E1 E2 E3 E4] _ _ _ _]; split=> // o' [<-]; rewrite E1 E2 E3 E4.
Qed.

(** Any number of calls. *)
Theorem C53_history L es h o : object_in h o -> history_in L o h es -> all (@is_call N) es ->
  let: (o', h', l) := history o h es in
  [/\ unchanged h h', held o' = held o & forall a, array_in h a -> val h' a = val h a].
Proof.
move=> Ho Hi Ha; have := calls_history Ho Hi Ha; case: (history o h es) => [[o' h'] l] [U _ E _ _].
by split=> // a /(array_in_unchanged U) [].
Qed.

Theorem C53_history_extended L0 h0 f g jA jH L es h o : same_on L0 h0 h -> e_object_in h o ->
  well_behaved L0 h0 o f g jA jH -> e_history_in L o h es -> all (@e_is_call N) es ->
  let: (o', h', l) := e_history o h es in
  [/\ unchanged h h', e_held o' = e_held o & forall a, array_in h a -> val h' a = val h a].
Proof.
move=> Bs Ho Hw Hi Ha; have := e_calls_history Bs Ho Hw Hi Ha.
case: (e_history o h es) => [[o' h'] l] [U [_ E] _ _].
by split=> // a /(array_in_unchanged U) [].
Qed.

(** ** C54: what a call returns and logs is new memory *)
Theorem C54_standard h o c : object_in h o -> call_in h c ->
  let: (o', h', r) := hkf_call o h c in
  gains_new h (h_gains o) (h_gains o') /\ results_new h (h_gains o') r.
Proof. by move=> Ho Hc; have := one_call Ho Hc; case: (hkf_call o h c) => [[o' h'] r] []. Qed.

(** predict of the extended filter returns the array f returned (which may be
    one of the user's) as the mean; the covariance is new. *)
Theorem C54_extended L h0 f g jA jH h o c : same_on L h0 h -> e_object_in h o ->
  well_behaved L h0 o f g jA jH -> ecall_in h c ->
  let: (o', h', r) := hekf_call o h c in
  gains_new h (he_gains o) (he_gains o') /\
  if c is HEPredict _ _ _ _ then forall x P, r = Ok (x, P) -> new_since h P
  else results_new h (he_gains o') r.
Proof.
move=> Bs Ho Hw Hc; have := one_ecall Bs Ho Hw Hc.
case: (hekf_call o h c) => [[o' h'] r] [_ [G R] _ _ H]; split=> //.
case: c Hc R => [? ? ? ?|? ? ? ?|? ?|? ?] _ R; try exact: R.
by move=> x' P /H [_ _].
Qed.

(** Over any number of calls no two gains share a buffer. *)
Theorem C54_history L es h o : object_in h o -> history_in L o h es -> all (@is_call N) es ->
  let: (o', h', l) := history o h es in gains_new h (h_gains o) (h_gains o').
Proof. by move=> Ho Hi Ha; have := calls_history Ho Hi Ha; case: (history o h es) => [[o' h'] l] []. Qed.

Theorem C54_history_extended L0 h0 f g jA jH L es h o : same_on L0 h0 h -> e_object_in h o ->
  well_behaved L0 h0 o f g jA jH -> e_history_in L o h es -> all (@e_is_call N) es ->
  let: (o', h', l) := e_history o h es in gains_new h (he_gains o) (he_gains o').
Proof.
move=> Bs Ho Hw Hi Ha; have := e_calls_history Bs Ho Hw Hi Ha.
by case: (e_history o h es) => [[o' h'] l] [].
Qed.

(** ** C55: sharing among the arguments does not matter *)

(** Outcome and attributes, as values, are those of the value-level call. *)
Theorem C55_standard h o c : object_in h o -> call_in h c ->
  let: (o', h', r) := hkf_call o h c in
  kf_call (kf_of h o) (call_of h c) = (kf_of h' o', outcome h' r).
Proof. by move=> Ho Hc; have := one_call Ho Hc; case: (hkf_call o h c) => [[o' h'] r] []. Qed.

Theorem C55_extended L h0 f g jA jH h o c : same_on L h0 h -> e_object_in h o ->
  well_behaved L h0 o f g jA jH -> ecall_in h c ->
  let: (o', h', r) := hekf_call o h c in
  e_call (ekf_of f g jA jH h o) (ecall_of h c) = (ekf_of f g jA jH h' o', outcome h' r).
Proof.
move=> Bs Ho Hw Hc; have := one_ecall Bs Ho Hw Hc.
by case: (hekf_call o h c) => [[o' h'] r] [].
Qed.

Theorem C55_history L es h o : object_in h o -> history_in L o h es -> all (@is_call N) es ->
  let: (o', h', l) := history o h es in
  kf_calls (kf_of h o) [seq x.1 | x <- l] = (kf_of h' o', [seq x.2 | x <- l]).
Proof. by move=> Ho Hi Ha; have := calls_history Ho Hi Ha; case: (history o h es) => [[o' h'] l] []. Qed.

Theorem C55_history_extended L0 h0 f g jA jH L es h o : same_on L0 h0 h -> e_object_in h o ->
  well_behaved L0 h0 o f g jA jH -> e_history_in L o h es -> all (@e_is_call N) es ->
  let: (o', h', l) := e_history o h es in
  e_calls (ekf_of f g jA jH h o) [seq x.1 | x <- l] = (ekf_of f g jA jH h' o', [seq x.2 | x <- l]).
Proof.
move=> Bs Ho Hw Hi Ha; have := e_calls_history Bs Ho Hw Hi Ha.
by case: (e_history o h es) => [[o' h'] l] [].
Qed.

(** Same arguments by value, whatever is shared in one memory and not in the
    other: same outcome by value. *)
Corollary C55_sharing h1 h2 o1 o2 c1 c2 : object_in h1 o1 -> object_in h2 o2 ->
  call_in h1 c1 -> call_in h2 c2 -> kf_of h1 o1 = kf_of h2 o2 -> call_of h1 c1 = call_of h2 c2 ->
  let: (o1', h1', r1) := hkf_call o1 h1 c1 in
  let: (o2', h2', r2) := hkf_call o2 h2 c2 in
  kf_of h1' o1' = kf_of h2' o2' /\ outcome h1' r1 = outcome h2' r2.
Proof.
move=> H1 H2 K1 K2 Eo Ec; have := C55_standard H1 K1; have := C55_standard H2 K2.
case: (hkf_call o1 h1 c1) => [[o1' h1'] r1]; case: (hkf_call o2 h2 c2) => [[o2' h2'] r2].
rewrite Eo Ec => E2 E1; have E := etrans (esym E1) E2.
by split; [have := congr1 fst E | have := congr1 snd E].
Qed.

(** ** C56: writing to arrays the object does not hold changes no outcome *)

(** Between the calls the user overwrites anything (arguments of earlier calls,
    results, gains) but the buffers the object holds. *)
Theorem C56_standard es h o : object_in h o -> history_in (buffers (held o)) o h es ->
  let: (o', h', l) := history o h es in
  [seq x.2 | x <- l] = (kf_calls (kf_of h o) [seq x.1 | x <- l]).2 /\
  exists g, kf_of h' o' = with_gains (kf_of h o) g.
Proof.
move=> Ho Hi; have := user_history Ho (fun l H => H) Hi; case: (history o h es) => [[o' h'] l] [_ _ G X].
by rewrite kf_callsE /= -map_comp; split.
Qed.

Theorem C56_extended L0 h0 f g jA jH es h o : same_on L0 h0 h -> e_object_in h o ->
  well_behaved L0 h0 o f g jA jH -> e_history_in (buffers (e_held o) ++ L0) o h es ->
  let: (o', h', l) := e_history o h es in
  [seq x.2 | x <- l] = (e_calls (ekf_of f g jA jH h o) [seq x.1 | x <- l]).2 /\
  exists gs, ekf_of f g jA jH h' o' = e_with_gains (ekf_of f g jA jH h o) gs.
Proof.
move=> Bs Ho Hw Hi.
have S1 : {subset buffers (e_held o) <= buffers (e_held o) ++ L0} by move=> l H; rewrite mem_cat H.
have S2 : {subset L0 <= buffers (e_held o) ++ L0} by move=> l H; rewrite mem_cat H orbT.
have := e_user_history Bs Ho Hw S1 S2 Hi; case: (e_history o h es) => [[o' h'] l] [_ _ G X].
by rewrite e_callsE /= -map_comp; split.
Qed.

(** ** C57: the object follows in-place changes of the arrays it was given *)

(** After any change to memory that spares what the constructor allocated, every
    call behaves as on an object constructed from the arrays as they are now. *)
Theorem C57_standard h A xk B Pk H Q R ss h1 o h2 c :
  all (array_in h) [:: A; xk; Pk; H; Q; R] -> opt_in h B ->
  hkf_init A xk B Pk H Q R ss h = (h1, Ok o) -> kept (own h o) h1 h2 -> call_in h2 c ->
  exists self,
    kf_init (val h2 A) (val h2 xk) (omap (val h2) B) (val h2 Pk) (val h2 H) (val h2 Q) (val h2 R) ss
      = Ok self /\
    let: (o', h', r) := hkf_call o h2 c in
    kf_call self (call_of h2 c) = (kf_of h' o', outcome h' r).
Proof.
move=> Ha HB E K Hc; have := ctor_std ss Ha HB; rewrite E => [[_ [_ _ _ _]]] /(_ h2 K) [Ho Ei].
by exists (kf_of h2 o); split=> //; apply: C55_standard.
Qed.

Theorem C57_extended L h0 f g jA jH h xk Pk Q R hf hh hjA hjH h1 o h2 c :
  all (array_in h) [:: xk; Pk; Q; R] ->
  hekf_init (N := N) xk Pk Q R hf hh hjA hjH h = (h1, Ok o) -> kept (e_own h o) h1 h2 ->
  same_on L h0 h2 ->
  well_behaved2 L h0 hf f -> well_behaved1 L h0 hh g -> well_behaved2 L h0 hjA jA ->
  well_behaved1 L h0 hjH jH -> ecall_in h2 c ->
  exists self,
    ekf_init (val h2 xk) (val h2 Pk) (val h2 Q) (val h2 R) f g jA jH = Ok self /\
    let: (o', h', r) := hekf_call o h2 c in
    e_call self (ecall_of h2 c) = (ekf_of f g jA jH h' o', outcome h' r).
Proof.
move=> Ha E K Bs W1 W2 W3 W4 Hc; have := ctor_ext hf hh hjA hjH Ha; rewrite E.
move=> [_ [_ [Ef Eh EA EH] _ _]] /(_ h2 K) [Ho Ei].
exists (ekf_of f g jA jH h2 o); split; first exact: Ei.
apply: C55_extended Bs Ho _ Hc.
by split; rewrite ?Ef ?Eh ?EA ?EH.
Qed.

(** Untouched memory is a special case: construction by value. *)
Corollary C57_untouched h A xk B Pk H Q R ss :
  all (array_in h) [:: A; xk; Pk; H; Q; R] -> opt_in h B ->
  let: (h1, r) := hkf_init A xk B Pk H Q R ss h in
  kf_init (val h A) (val h xk) (omap (val h) B) (val h Pk) (val h H) (val h Q) (val h R) ss =
  match r with Ok o => Ok (kf_of h1 o) | Raise e => Raise e end.
Proof.
move=> Ha HB; have := ctor_std ss Ha HB; case: (hkf_init _ _ _ _ _ _ _ _ _) => [h1 [o|e]] [U] //.
move=> [_ _ _ _ H1]; have K : kept (own h o) h1 h1 by split.
have [_] := H1 h1 K.
have Vv a : array_in h a -> val h1 a = val h a by move=> /(array_in_unchanged U) [].
move: Ha; rewrite /= => /and5P [K1 K2 K3 K4 /and3P [K5 K6 _]].
rewrite (Vv _ K1) (Vv _ K2) (Vv _ K3) (Vv _ K4) (Vv _ K5) (Vv _ K6).
by case: B HB {H1 K} => [b|] //= /Vv ->.
Qed.

End Claims.

(** ** Cases *)

(** Calls on arrays that exist at the start make a history. *)
Lemma calls_in N L (h : heap N) o cs : object_in h o -> all (call_in h) cs ->
  history_in L o h [seq ECall N c | c <- cs].
Proof.
elim: cs h o => [|c cs IH] h o Ho //= /andP [Hc Hcs]; split=> //.
have := one_call Ho Hc; case: (hkf_call o h c) => [[o1 h1] r1] [U _ [O1 _] _ _].
apply: IH O1 _; apply: sub_all Hcs => c'.
have I Z : array_in h Z -> array_in h1 Z by move=> /(array_in_unchanged U) [].
have Io Z : opt_in h Z -> opt_in h1 Z by case: Z => //= Z; apply: I.
case: c' => /=.
- by move=> ? ? ? ? ? ? /and5P [/I -> /I -> /Io -> /Io -> /andP [/I -> /I ->]].
- by move=> ? ? ? ? ? /and5P [/I -> /I -> /I -> /I -> /andP [/I -> _]].
- by move=> ? ? /andP [/I -> /Io ->].
- by move=> ? ? /andP [/I -> /Io ->].
Qed.

(** Filter, smooth and filter again on the shared memory. *)
Example C53_history_case :
  history_in [::] sh_obj sh_mem [seq ECall B c | c <- [:: sh_call; sh_smooth; sh_call]].
Proof. by apply: calls_in; [apply: sh_object_in | vm_compute]. Qed.

(** The user clears every buffer allocated since the object was made (results
    and gains) between two calls. *)
Definition wipe N (n : nat) (h : heap N) : heap N := take n h ++ nseq (size h - n) [::].
Lemma wipe_in N n (h h' : heap N) r : n <= size h' -> array_in h r -> size h = n ->
  array_in (wipe n h') r.
Proof.
move=> S /andP [A1 A2] E; rewrite /array_in A2 andbT; apply: leq_trans A1 _; rewrite E.
by rewrite /wipe size_cat size_nseq size_takel // leq_addr.
Qed.
Lemma wiped N (h : heap N) o c1 Z U : object_in h o -> call_in h c1 -> call_in h (HSmooth Z U) ->
  history_in (buffers (held o)) o h [:: ECall N c1; EUser (wipe (size h)); ECall N (HSmooth Z U)].
Proof.
move=> Ho H1 H2 /=; split=> //.
have := one_call Ho H1; case: (hkf_call o h c1) => [[o1 h1] r1] [U1 _ _ _ _].
have Hb : all (fun l => l < size h) (buffers (held o)).
  by move: Ho; rewrite /object_in all_cat /buffers all_map => /andP [Ho _]; apply: sub_all Ho => r /andP [].
split.
  move=> h2; rewrite /wipe; split=> [|l Hl Hin].
    rewrite size_cat size_nseq size_take; case: ltnP => H; first by rewrite subnKC // ltnW.
    by rewrite leq_addr.
  rewrite nth_cat size_take; move/allP: Hb => /(_ l Hin) Hlt.
  have -> : l < (if size h < size h2 then size h else size h2) by case: ifP.
  by rewrite nth_take.
have S : size h <= size h1 by case: U1 => w ->; rewrite size_cat leq_addr.
split; last by case: (hkf_call _ _ _) => [[o2 h2] r2].
case/andP: H2 => HZ HU; rewrite (wipe_in S HZ) //=.
by case: U HU => [u|] //= Hu; apply: (wipe_in S Hu).
Qed.
Example C56_case : history_in (buffers (held sh_obj)) sh_obj sh_mem
  [:: ECall B sh_call; EUser (wipe (size sh_mem)); ECall B sh_smooth].
Proof.
have H1 : call_in sh_mem sh_call by vm_compute.
have H2 : call_in sh_mem sh_smooth by vm_compute.
exact: (wiped sh_object_in H1 H2).
Qed.

(** Changing xk in place after construction changes what filter returns. *)
Definition num0 (r : res (arr B * arr B)) : K B :=
  if r is Ok (x, P) then tofl (nth (VI 0) (dat x) 0) else knan B.
Definition poke (h : heap B) : heap B := set_nth [::] h 2 (dat cart_x).
Example C57_case :
  let o := al_obj in
  [/\ isok (hekf_call o al_mem al_call).2, isok (hekf_call o (poke al_mem) al_call).2,
      kept (e_own al_heap o) al_mem (poke al_mem) &
      outcome (hekf_call o al_mem al_call).1.2 (hekf_call o al_mem al_call).2 <>
      outcome (hekf_call o (poke al_mem) al_call).1.2 (hekf_call o (poke al_mem) al_call).2].
Proof.
split; [by vm_compute | by vm_compute | | by move/(congr1 num0); vm_compute].
have E : all (fun l => l != 2) (e_own al_heap al_obj) by vm_compute.
split=> [|l Hl Hin]; first by rewrite size_set_nth leq_maxr.
rewrite /poke nth_set_nth /=; move/allP: E => /(_ l Hin) /negbTE E.
by move: E; clear; rewrite /eq_op /= => ->.
Qed.

(** ** C58: a user function that writes to its argument *)

(** def f(x, u): x[0] += x[1]; return x *)
Definition bad_f (x : ref) (u : option ref) : hres B ref :=
  hdo a <- h_getitem x 0; hdo b <- h_getitem x 1; hdo s <- h_add a b;
  hdo _ <- h_setitem x 0 s; hret x.
Definition bad_obj : hekf B :=
  HEkf bad_f al_h al_jA al_jH (he_xk al_obj) (he_Pk al_obj) (he_Q al_obj) (he_R al_obj)
       (he_size al_obj) (he_I al_obj) [::].

(** The filter passes self.xk itself to f at the first step, so the stored
    initial state is overwritten and the same call made again returns other
    states. *)
Definition same_float (x y : f64) : bool :=
  match x, y with
  | S754_zero s, S754_zero t | S754_infinity s, S754_infinity t => Bool.eqb s t
  | S754_nan, S754_nan => true
  | S754_finite s m e, S754_finite t n d => [&& Bool.eqb s t, Pos.eqb m n & Z.eqb e d]
  | _, _ => false
  end.
Lemma same_float_refl x : same_float x x.
Proof. by case: x => [s|s||s m e] //=; rewrite ?Bool.eqb_reflx ?Pos.eqb_refl ?Z.eqb_refl. Qed.

Theorem C58_writing_callable :
  let: (o1, h1, r1) := hekf_call bad_obj al_mem al_call in
  let: (o2, h2, r2) := hekf_call o1 h1 al_call in
  [/\ e_object_in al_mem bad_obj, isok r1, isok r2,
      val h1 (he_xk bad_obj) <> val al_mem (he_xk bad_obj) & outcome h1 r1 <> outcome h2 r2].
Proof.
pose first (v : arr B) : f64 := tofl (nth (VI 0) (dat v) 0).
have : let: (o1, h1, r1) := hekf_call bad_obj al_mem al_call in
  let: (o2, h2, r2) := hekf_call o1 h1 al_call in
  [&& e_object_in al_mem bad_obj, isok r1, isok r2,
      ~~ same_float (first (val h1 (he_xk bad_obj))) (first (val al_mem (he_xk bad_obj))) &
      ~~ same_float (num0 (outcome h1 r1)) (num0 (outcome h2 r2))].
  by vm_compute.
case: (hekf_call bad_obj al_mem al_call) => [[o1 h1] r1].
case: (hekf_call o1 h1 al_call) => [[o2 h2] r2] /and5P [-> -> -> N1 N2]; split=> //.
  by move=> E; move: N1; rewrite E same_float_refl.
by move=> E; move: N2; rewrite E same_float_refl.
Qed.

(** Extended filter: calls on arrays that exist at the start. *)
Lemma e_calls_in N L0 h0 f g jA jH L (h : heap N) o cs : same_on L0 h0 h -> e_object_in h o ->
  well_behaved L0 h0 o f g jA jH -> all (ecall_in h) cs ->
  e_history_in L o h [seq EECall N c | c <- cs].
Proof.
elim: cs h o => [|c cs IH] h o Bs Ho Hw //= /andP [Hc Hcs]; split=> //.
have := one_ecall Bs Ho Hw Hc; case: (hekf_call o h c) => [[o1 h1] r1] [U _ [O1 _ W1] _ _].
have Bs1 : same_on L0 h0 h1 by apply: (based_ext (proj1 (unchangedP _ _) U)) Bs.
apply: IH Bs1 O1 W1 _; apply: sub_all Hcs => c'.
have I Z : array_in h Z -> array_in h1 Z by move=> /(array_in_unchanged U) [].
have Io Z : opt_in h Z -> opt_in h1 Z by case: Z => //= Z; apply: I.
case: c' => /=.
- by move=> ? ? ? ? /and4P [/I -> /Io -> /I -> /I ->].
- by move=> ? ? ? ? /and5P [/I -> /I -> /I -> /I -> _].
- by move=> ? ? /andP [/I -> /Io ->].
- by move=> ? ? /andP [/I -> /Io ->].
Qed.
Example C53_history_extended_case :
  e_history_in [::] al_obj al_mem [seq EECall B c | c <- [:: al_call; al_pred; al_smooth; al_call]].
Proof.
by apply: e_calls_in al_same al_object_in al_well_behaved _; vm_compute.
Qed.
