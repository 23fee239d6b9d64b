(** * Props38: C107: constant models: convergence to the steady state, in exact
    arithmetic (constant_model: Props16.v) *)
From Coq Require Import ZArith.
From mathcomp Require Import all_ssreflect all_algebra.
From Verif Require Import Np NpLemmas Kf ApiSpec Loop FilterLemmas FilterThms Exact Repr Textbook RunSpec Refine Refine2 Build
  Outputs Loewner KalmanAlg TextbookThms ExCases Props16 Steady.

Set Implicit Arguments.
Unset Strict Implicit.
Unset Printing Implicit Defensive.
Import GRing.Theory Num.Theory Order.Theory.
Local Open Scope ring_scope.

Section Props.
Variable F : realFieldType.
Variable oracle : oracle_type F.
Variable n2i : Z.
Notation N := (exact oracle n2i).
Notation arr := (arr N).

(** W is a steady state of A, C, Q, R: one prediction and one correction give it
    back. *)
Definition steady n m (A : 'M[F]_n) (C : 'M[F]_(m, n)) (Q : 'M[F]_n) (R : 'M[F]_m) (W : 'M[F]_n) : Prop :=
  let P := A *m W *m A^T + Q in let S := C *m P *m C^T + R in
  [/\ psd W, S \in unitmx & (1%:M - P *m C^T *m invmx S *m C) *m P = W].

Section Run.
Variables (n m p : nat) (self : kf N) (Z : arr) (U : option arr) (g : seq arr).
Let s := model_of n m p self Z U.
Notation T := (steps self Z U).
Hypothesis H : exact_run n m p self Z U.
Variables (A : 'M[F]_n) (C : 'M[F]_(m, n)) (Q : 'M[F]_n) (R : 'M[F]_m) (W : 'M[F]_n).
Hypothesis hc : constant_model p self Z U A C Q R.
Hypothesis hQ : psd Q.
Hypothesis hR : psd R.
Hypothesis hW : steady A C Q R W.
Hypothesis h0 : psd (mP0 s).
Variables (g' : seq arr) (st er : arr).
Hypothesis E : kf_filter self Z U g = (g', Ok (st, er)).
(** Nothing of the steady uncertainty survives a step without noise b times as
    large: A W A' <= b Q. *)
Variable b : F.
Hypothesis b0 : 0 <= b.
Hypothesis hb : loewner (A *m W *m A^T) (b *: Q).
(** How far the initial covariance is off: between W / (1+v) and (1+v) W. *)
Variable v : F.
Hypothesis v0 : 0 <= v.
Hypothesis above : loewner (mP0 s) ((1 + v) *: W).

Let e k (Hk : (k < T)%N) : mx n n (row er k) = post_P s k.+1.
Proof. by have [_ _ -> _ _] := filter_out H E Hk. Qed.

(** The excess over the steady state shrinks by b/(1+b) with every step, *)
Theorem C107_from_above k : (k < T)%N ->
  loewner (mx n n (row er k)) ((1 + v * (b / (1 + b)) ^+ k.+1) *: W).
Proof.
move=> Hk; rewrite e //; case: hW => w1 w2 w3.
exact: (from_above hc hQ hR w1 h0 (filter_units H E) w2 w3 v0 b0 hb above Hk).
Qed.

(** and what is missing by c/(1+c) where c = (1+v) b. *)
Theorem C107_from_below k : (k < T)%N -> loewner W ((1 + v) *: mP0 s) ->
  let c := (1 + v) * b in
  loewner W ((1 + v * (c / (1 + c)) ^+ k.+1) *: mx n n (row er k)).
Proof.
move=> Hk below c; rewrite e //; case: hW => w1 w2 w3.
exact: (from_below hc hQ hR w1 h0 (filter_units H E) w2 w3 v0 b0 hb above below Hk).
Qed.

(** So every covariance after v c / d steps is within the factor 1 + d of the steady
    state. *)
Theorem C107_converges d k : (k < T)%N -> 0 <= d -> loewner W ((1 + v) *: mP0 s) ->
  v * ((1 + v) * b) <= k.+1%:R * d ->
  loewner (mx n n (row er k)) ((1 + d) *: W) /\ loewner W ((1 + d) *: mx n n (row er k)).
Proof.
move=> Hk d0 below L; have wk (x : F) (P P' : 'M[F]_n) : psd P' -> x <= d -> loewner P ((1 + x) *: P') -> loewner P ((1 + d) *: P').
  move=> hP xd; move/loewner_trans; apply; rewrite /loewner -scalerBl; apply: psd_scale => //.
  by rewrite opprD addrACA subrr add0r subr_ge0.
have c0 : 0 <= (1 + v) * b by exact: mulr_ge0 (addr_ge0 ler01 v0) b0.
have L' : v * b <= k.+1%:R * d.
  by apply: le_trans L; rewrite ler_wpmul2l // mulrDl mul1r ler_addl mulr_ge0.
split.
  by apply: wk (C107_from_above Hk); [case: hW|exact: rate].
apply: wk (C107_from_below Hk below); last exact: rate.
by rewrite e //; apply: (@posts _ _ _ s T A Q C R) => //; exact: (filter_units H E).
Qed.
End Run.

(** A concrete case: a random walk with Q = 1 seen with R = 2 has the steady state 1;
    started from 3, any number of steps and any readings. *)
Definition walk (z : nat -> F) : model F 1 1 :=
  Model (fun _ => 1%:M) (fun _ => 0) (fun _ => 1%:M) (fun _ => 1%:M) (fun _ => 2%:R%:M) (fun k => (z k)%:M) 0 3%:R%:M.

Example C107_case (z : nat -> F) T :
  let w := walk z in
  let self := build oracle n2i w T in let Z := build_Z oracle n2i w T in let U := build_U oracle n2i w T in
  let s := model_of 1 1 1 self Z U in
  [/\ exact_run 1 1 1 self Z U /\ steps self Z U = T,
      constant_model 1 self Z U (1%:M : 'M[F]_1) (1%:M : 'M[F]_1) 1%:M 2%:R%:M,
      steady (1%:M : 'M[F]_1) (1%:M : 'M[F]_1) 1%:M 2%:R%:M 1%:M /\ psd (mP0 s),
      [/\ loewner ((1%:M : 'M[F]_1) *m 1%:M *m 1%:M^T) (1 *: 1%:M), loewner (mP0 s) ((1 + 2%:R) *: 1%:M) &
          loewner 1%:M ((1 + 2%:R) *: mP0 s)] &
      exists g1 st er, kf_filter self Z U [::] = (g1, Ok (st, er))].
Proof.
move=> w self Z U s.
have B := build_model oracle n2i w; have [b1 b2] := build_model0 oracle n2i w T.
have R1 : exact_run 1 1 1 self Z U by exact: build_run.
have S : steps self Z U = T by exact: build_steps.
have C : constant_model 1 self Z U (1%:M : 'M[F]_1) (1%:M : 'M[F]_1) 1%:M 2%:R%:M.
  move=> k; rewrite S => Hk; have [a1 _ a3 a4 [a5 _]] := B _ _ Hk.
  by split; [exact: a1|exact: a3|exact: a4|exact: a5].
have sc (c : F) : 0 < c -> pd (c%:M : 'M[F]_1) by move=> c0; apply/pd_scalar; rewrite mxE eqxx mulr1n.
have P0 : psd (mP0 s) by rewrite b2; apply/pd_psd/sc; rewrite ltr0n.
have lo (a c : F) : a <= c -> loewner (a%:M : 'M[F]_1) c%:M.
  move=> ac; rewrite /loewner -raddfB /=; have [->|n0] := eqVneq (c - a) 0; first by rewrite raddf0; exact: psd0.
  by apply/pd_psd/sc; rewrite lt_def n0 subr_ge0.
have m0 : mP0 s = 3%:R%:M by exact: b2.
split.
- by [].
- exact: C.
- split; last exact: P0.
  rewrite /steady; set P := _ + 1%:M; set S' := _ + 2%:R%:M.
  have EP : P = 2%:R%:M by rewrite /P trmx1 !mulmx1 -raddfD.
  have ES : S' = 4%:R%:M by rewrite /S' EP trmx1 mulmx1 mul1mx -raddfD /= -natrD.
  split; first exact/pd_psd/pd_1.
    by rewrite ES unitmxE det_scalar1 unitfE pnatr_eq0.
  rewrite ES EP invmx_scalar trmx1 !mulmx1 -scalar_mxM -raddfB /= -scalar_mxM; congr (_%:M).
  have n2 : 2%:R != 0 :> F by rewrite pnatr_eq0.
  by rewrite (natrM _ 2 2) invfM mulrA mulfV // mul1r mulrBl mul1r mulVf // addrK.
- have -> : 1 + 2%:R = 3%:R :> F by rewrite [RHS]mulrS.
  rewrite trmx1 !mulmx1 scale1r m0 !scale_scalar_mx mulr1; split; try exact: loewner_refl.
  by apply: lo; rewrite -natrM ler1n.
apply: (filter_returns [::] R1); rewrite S => k Hk.
apply: (@innov_unit _ _ _ s T P0) => // j Hj; have [|_ _ q r] := C j; rewrite ?S ?q ?r //; first exact/pd_psd/pd_1.
by apply: sc; rewrite ltr0n.
Qed.
End Props.
