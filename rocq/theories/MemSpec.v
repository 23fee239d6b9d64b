(** * MemSpec: vocabulary for the properties about memory

    What exists in memory, what a call may not change, what the object holds,
    and histories in which the user modifies arrays between calls. *)
From Coq Require Import ZArith.
From mathcomp Require Import ssreflect ssrfun ssrbool eqtype ssrnat seq.
From Verif Require Import Np Kf Ekf Mem MemKf.

Set Implicit Arguments.
Unset Strict Implicit.
Unset Printing Implicit Defensive.

Section Spec.
Variable N : num.
Notation arr := (arr N).
Notation heap := (heap N).

(** [r] is an array that exists in memory [h]: its buffer is allocated and it
    has one position per element. *)
Definition array_in (h : heap) (r : ref) : bool :=
  (rloc r < size h) && (size (rpos r) == nelem (rshp r)).
Definition opt_in (h : heap) (r : option ref) : bool := if r is Some r then array_in h r else true.

(** From [h] to [h'] memory was only added: every buffer of [h] is as it was. *)
Definition unchanged (h h' : heap) : Prop := exists new, h' = h ++ new.

(** The buffer of [r] did not exist in [h]. *)
Definition new_since (h : heap) (r : ref) : bool := size h <= rloc r.

Definition buffers (g : seq ref) : seq nat := [seq rloc r | r <- g].

(** The gains [g] became [g'] by appending arrays that are new and share no
    buffer. *)
Definition gains_new (h : heap) (g g' : seq ref) : Prop :=
  exists d, [/\ g' = g ++ d, all (new_since h) d & uniq (buffers d)].

(** What was returned is new, shares no buffer and is not among the gains [g']. *)
Definition results_new (h : heap) (g' : seq ref) (r : res (ref * ref)) : Prop :=
  match r with
  | Ok (x, P) => [/\ new_since h x, new_since h P, rloc x <> rloc P,
                     rloc x \notin buffers g' & rloc P \notin buffers g']
  | Raise _ => True
  end.

(** The arrays the object holds, and the object by values. *)
Definition held (o : hkf) : seq ref :=
  [:: h_A o; h_xk o; h_B o; h_Pk o; h_H o; h_Q o; h_R o; h_I o].
Definition object_in (h : heap) (o : hkf) : bool := all (array_in h) (held o ++ h_gains o).
Definition kf_of (h : heap) (o : hkf) : kf N :=
  Kf (val h (h_A o)) (val h (h_xk o)) (val h (h_B o)) (val h (h_Pk o)) (val h (h_H o))
     (val h (h_Q o)) (val h (h_R o)) (h_size o) (val h (h_I o)) [seq val h r | r <- h_gains o].

(** From [h] to [h'] the user never freed memory and left the buffers [L] alone. *)
Definition kept (L : seq nat) (h h' : heap) : Prop :=
  size h <= size h' /\ forall l, l < size h -> l \in L -> nth [::] h' l = nth [::] h l.

(** The buffers an object holds that did not exist in [h]. *)
Definition own (h : heap) (o : hkf) : seq nat := [seq l <- buffers (held o) | size h <= l].

(** Method calls with array arguments, and the same calls by values. *)
Inductive hcall :=
| HPredict (Ak xk : ref) (Bk uk : option ref) (Pk Qk : ref)
| HUpdate (Hk xk Pk zk Rk : ref)
| HFilter (Z : ref) (U : option ref)
| HSmooth (Z : ref) (U : option ref).

Definition call_in (h : heap) (c : hcall) : bool :=
  match c with
  | HPredict Ak xk Bk uk Pk Qk => [&& array_in h Ak, array_in h xk, opt_in h Bk, opt_in h uk,
                                      array_in h Pk & array_in h Qk]
  | HUpdate Hk xk Pk zk Rk => all (array_in h) [:: Hk; xk; Pk; zk; Rk]
  | HFilter Z U | HSmooth Z U => array_in h Z && opt_in h U
  end.

Definition call_of (h : heap) (c : hcall) : call N :=
  match c with
  | HPredict Ak xk Bk uk Pk Qk =>
      CPredict (val h Ak) (val h xk) (omap (val h) Bk) (omap (val h) uk) (val h Pk) (val h Qk)
  | HUpdate Hk xk Pk zk Rk => CUpdate (val h Hk) (val h xk) (val h Pk) (val h zk) (val h Rk)
  | HFilter Z U => CFilter (val h Z) (omap (val h) U)
  | HSmooth Z U => CSmooth (val h Z) (omap (val h) U)
  end.

Definition run_hmeth (c : hcall) (o : hkf) : hmeth N (ref * ref) :=
  match c with
  | HPredict Ak xk Bk uk Pk Qk => hmlift (hkf_predict Ak xk Bk uk Pk Qk)
  | HUpdate Hk xk Pk zk Rk => hkf_update (h_I o) Hk xk Pk zk Rk
  | HFilter Z U => hkf_filter o Z U
  | HSmooth Z U => hkf_smooth o Z U
  end.

Definition h_with_gains (o : hkf) (g : seq ref) : hkf :=
  HKf (h_A o) (h_xk o) (h_B o) (h_Pk o) (h_H o) (h_Q o) (h_R o) (h_size o) (h_I o) g.

(** A call: the object and the memory afterwards, and the outcome. *)
Definition hkf_call (o : hkf) (h : heap) (c : hcall) : hkf * heap * res (ref * ref) :=
  let: (g, (h', r)) := run_hmeth c o (h_gains o) h in (h_with_gains o g, h', r).

(** An outcome by values. *)
Definition outcome (h : heap) (r : res (ref * ref)) : res (arr * arr) :=
  match r with Ok xP => Ok (val h xP.1, val h xP.2) | Raise e => Raise e end.

(** ** Histories with a user who also writes to memory *)

(** Between calls the user may do anything to memory: overwrite and allocate. *)
Inductive event := ECall (c : hcall) | EUser (f : heap -> heap).

Definition is_call (e : event) : bool := if e is ECall _ then true else false.

(** The object and memory at the end; for every call, the call and its outcome
    by values, taken when the call is made and when it returns. *)
Fixpoint history (o : hkf) (h : heap) (es : seq event)
    : hkf * heap * seq (call N * res (arr * arr)) :=
  match es with
  | [::] => (o, h, [::])
  | ECall c :: es' =>
    let: (o1, h1, r) := hkf_call o h c in
    let: (o2, h2, l) := history o1 h1 es' in
    (o2, h2, (call_of h c, outcome h1 r) :: l)
  | EUser f :: es' => history o (f h) es'
  end.

(** The user never frees memory and leaves the buffers [L] alone. *)
Definition spares (L : seq nat) (f : heap -> heap) : Prop := forall h, kept L h (f h).

(** Calls are made on arrays that exist; the user spares [L]. *)
Fixpoint history_in (L : seq nat) (o : hkf) (h : heap) (es : seq event) : Prop :=
  match es with
  | [::] => True
  | ECall c :: es' => call_in h c /\ let: (o1, h1, _) := hkf_call o h c in history_in L o1 h1 es'
  | EUser f :: es' => spares L f /\ history_in L o (f h) es'
  end.

(** ** Extended filter *)
Definition e_held (o : hekf N) : seq ref := [:: he_xk o; he_Pk o; he_Q o; he_R o; he_I o].
Definition e_object_in (h : heap) (o : hekf N) : bool := all (array_in h) (e_held o ++ he_gains o).

Definition e_own (h : heap) (o : hekf N) : seq nat := [seq l <- buffers (e_held o) | size h <= l].

(** [h] still has the buffers [L] of [h0] as they were. *)
Definition same_on (L : seq nat) (h0 h : heap) : Prop :=
  size h0 <= size h /\ forall l, l \in L -> l < size h0 /\ nth [::] h l = nth [::] h0 l.

(** A user callable that modifies no existing array and whose outcome depends
    on the values of its arguments, and of the buffers [L] it was given in
    memory [h0], only: it computes the function [f].  It may return one of its
    arguments, an array in [L], or a new one. *)
Definition well_behaved2 (L : seq nat) (h0 : heap) (hf : ref -> option ref -> hres N ref)
    (f : arr -> option arr -> res arr) : Prop :=
  forall h rx ru, same_on L h0 h -> array_in h rx -> opt_in h ru ->
    let: (h', r) := hf rx ru h in
    unchanged h h' /\
    match r with
    | Ok y => array_in h' y /\ f (val h rx) (omap (val h) ru) = Ok (val h' y)
    | Raise e => f (val h rx) (omap (val h) ru) = Raise e
    end.
Definition well_behaved1 (L : seq nat) (h0 : heap) (hf : ref -> hres N ref)
    (f : arr -> res arr) : Prop :=
  forall h rx, same_on L h0 h -> array_in h rx ->
    let: (h', r) := hf rx h in
    unchanged h h' /\
    match r with
    | Ok y => array_in h' y /\ f (val h rx) = Ok (val h' y)
    | Raise e => f (val h rx) = Raise e
    end.

(** The object by values, with the functions its callables compute. *)
Definition ekf_of f g jA jH (h : heap) (o : hekf N) : ekf N :=
  Ekf f g jA jH (val h (he_xk o)) (val h (he_Pk o)) (val h (he_Q o)) (val h (he_R o))
      (he_size o) (val h (he_I o)) [seq val h r | r <- he_gains o].

Definition well_behaved L h0 (o : hekf N) f g jA jH : Prop :=
  [/\ well_behaved2 L h0 (he_f o) f, well_behaved1 L h0 (he_h o) g,
      well_behaved2 L h0 (he_jA o) jA & well_behaved1 L h0 (he_jH o) jH].

Inductive hecall :=
| HEPredict (xk : ref) (uk : option ref) (Pk Qk : ref)
| HEUpdate (xk Pk zk Rk : ref)
| HEFilter (Z : ref) (U : option ref)
| HESmooth (Z : ref) (U : option ref).

Definition ecall_in (h : heap) (c : hecall) : bool :=
  match c with
  | HEPredict xk uk Pk Qk => [&& array_in h xk, opt_in h uk, array_in h Pk & array_in h Qk]
  | HEUpdate xk Pk zk Rk => all (array_in h) [:: xk; Pk; zk; Rk]
  | HEFilter Z U | HESmooth Z U => array_in h Z && opt_in h U
  end.

Definition ecall_of (h : heap) (c : hecall) : ecall N :=
  match c with
  | HEPredict xk uk Pk Qk => EPredict (val h xk) (omap (val h) uk) (val h Pk) (val h Qk)
  | HEUpdate xk Pk zk Rk => EUpdate (val h xk) (val h Pk) (val h zk) (val h Rk)
  | HEFilter Z U => EFilter (val h Z) (omap (val h) U)
  | HESmooth Z U => ESmooth (val h Z) (omap (val h) U)
  end.

Definition run_hemeth (c : hecall) (o : hekf N) : hmeth N (ref * ref) :=
  match c with
  | HEPredict xk uk Pk Qk => hmlift (hekf_predict o xk uk Pk Qk)
  | HEUpdate xk Pk zk Rk => hekf_update o xk Pk zk Rk
  | HEFilter Z U => hekf_filter o Z U
  | HESmooth Z U => hekf_smooth o Z U
  end.

Definition he_with_gains (o : hekf N) (g : seq ref) : hekf N :=
  HEkf (he_f o) (he_h o) (he_jA o) (he_jH o) (he_xk o) (he_Pk o) (he_Q o) (he_R o)
       (he_size o) (he_I o) g.

Definition hekf_call (o : hekf N) (h : heap) (c : hecall) : hekf N * heap * res (ref * ref) :=
  let: (g, (h', r)) := run_hemeth c o (he_gains o) h in (he_with_gains o g, h', r).

Inductive e_event := EECall (c : hecall) | EEUser (f : heap -> heap).

Definition e_is_call (e : e_event) : bool := if e is EECall _ then true else false.

(** The same for the extended filter. *)
Fixpoint e_history (o : hekf N) (h : heap) (es : seq e_event)
    : hekf N * heap * seq (ecall N * res (arr * arr)) :=
  match es with
  | [::] => (o, h, [::])
  | EECall c :: es' =>
    let: (o1, h1, r) := hekf_call o h c in
    let: (o2, h2, l) := e_history o1 h1 es' in
    (o2, h2, (ecall_of h c, outcome h1 r) :: l)
  | EEUser f :: es' => e_history o (f h) es'
  end.

Fixpoint e_history_in (L : seq nat) (o : hekf N) (h : heap) (es : seq e_event) : Prop :=
  match es with
  | [::] => True
  | EECall c :: es' => ecall_in h c /\ let: (o1, h1, _) := hekf_call o h c in e_history_in L o1 h1 es'
  | EEUser f :: es' => spares L f /\ e_history_in L o (f h) es'
  end.

End Spec.
