(** * Cases: concrete systems, in binary64, that meet the hypotheses of the
    theorems (used by the [_case] examples next to each theorem) *)
From Coq Require Import ZArith Floats.SpecFloat.
From mathcomp Require Import ssreflect ssrfun ssrbool eqtype ssrnat seq.
From Verif Require Import Np Kf Ekf ApiSpec Binary64.

Set Implicit Arguments.
Unset Strict Implicit.
Unset Printing Implicit Defensive.

Local Notation B := binary64.
Local Notation d2 := (map (fun x => dec x 2)).

(** The object built, or a dummy. *)
Definition built (r : res (kf B)) : kf B :=
  if r is Ok k then k else Kf (iarr [::] [::]) (iarr [::] [::]) (iarr [::] [::]) (iarr [::] [::])
    (iarr [::] [::]) (iarr [::] [::]) (iarr [::] [::]) 0 (iarr [::] [::]) [::].
Definition e_built (r : res (ekf B)) : ekf B :=
  if r is Ok k then k else Ekf (fun _ _ => Raise TypeError) (fun _ => Raise TypeError)
    (fun _ _ => Raise TypeError) (fun _ => Raise TypeError) (iarr [::] [::]) (iarr [::] [::])
    (iarr [::] [::]) (iarr [::] [::]) 0 (iarr [::] [::]) [::].
Definition isok T (r : res T) : bool := if r is Ok _ then true else false.

(** Two states, one sensor, one control, three steps: a cart. *)
Definition cart_A := farr [:: 3; 2; 2] (d2 [:: 100; 10; 0; 100;  100; 20; 0; 100;  100; 10; -5; 100]%Z).
Definition cart_B := farr [:: 3; 2; 1] (d2 [:: 1; 10;  4; 20;  1; 10]%Z).
Definition cart_H := farr [:: 3; 1; 2] (d2 [:: 100; 0;  100; 0;  100; 30]%Z).
Definition cart_Q := farr [:: 3; 2; 2] (d2 [:: 1; 0; 0; 2;  1; 0; 0; 2;  1; 0; 0; 2]%Z).
Definition cart_R := farr [:: 3; 1; 1] (d2 [:: 10; 20; 10]%Z).
Definition cart_x := farr [:: 2] (d2 [:: 0; 100]%Z).
Definition cart_P := farr [:: 2; 2] (d2 [:: 100; 20; 20; 50]%Z).
Definition cart_Z := farr [:: 3; 1] (d2 [:: 12; 31; 44]%Z).
Definition cart_Z' := farr [:: 3; 1] (d2 [:: 12; 31; 777]%Z).
Definition cart_U := farr [:: 3; 1] (d2 [:: 100; -50; 25]%Z).
Definition cart_init := kf_init cart_A cart_x (Some cart_B) cart_P cart_H cart_Q cart_R None.
Definition cart := built cart_init.

Lemma cart_ok : cart_init = Ok cart. Proof. by []. Qed.

Lemma cart_constructed : constructed cart.
Proof.
exists cart_A, cart_x, (Some cart_B), cart_P, cart_H, cart_Q, cart_R, None, cart, [::].
by split.
Qed.

(** Two states, one sensor, nonlinear dynamics and observation:
    f(x, u) = A x + (x.x) + u, h(x) = H x + (x.x). *)
Definition osc_A := farr [:: 2; 2] (d2 [:: 100; 10; -10; 90]%Z).
Definition osc_H := farr [:: 1; 2] (d2 [:: 100; 50]%Z).
Definition osc_f (x : arr B) (u : option (arr B)) : res (arr B) :=
  do y <- np_matmul osc_A x; do s <- np_matmul x x; do w <- np_add y s;
  if u is Some v then (if np_isnan_all v then Ok w else np_add w v) else Ok w.
Definition osc_h (x : arr B) : res (arr B) :=
  do y <- np_matmul osc_H x; do s <- np_matmul x x; np_add y s.
Definition osc_jA (x : arr B) (u : option (arr B)) : res (arr B) :=
  do two <- np_add x x; np_add osc_A two.
Definition osc_jH (x : arr B) : res (arr B) := do two <- np_add x x; np_add osc_H two.
Definition osc_x := farr [:: 2] (d2 [:: 10; 20]%Z).
Definition osc_init := ekf_init osc_x cart_P cart_Q cart_R osc_f osc_h osc_jA osc_jH.
Definition osc := e_built osc_init.
Lemma osc_ok : osc_init = Ok osc. Proof. by []. Qed.
Lemma osc_constructed : e_constructed osc.
Proof.
exists osc_x, cart_P, cart_Q, cart_R, osc_f, osc_h, osc_jA, osc_jH, osc, [::].
by split.
Qed.

(** Dimension one with every shape (1,1), as in tests/test_standard.py. *)
Definition lvl_init := kf_init (fconst [:: 4; 1; 1] (fofZ 1)) (iarr [:: 1; 1] [:: 0%Z]) None
  (iarr [:: 1; 1] [:: 1%Z]) (fconst [:: 4; 1; 1] (fofZ 1)) (fconst [:: 4] fzero)
  (fconst [:: 4] (dec 1 1)) None.
Definition lvl := built lvl_init.
Definition lvl_Z := farr [:: 4] (d2 [:: 39; 50; 48; 29]%Z).
Lemma lvl_constructed : constructed lvl.
Proof.
exists (fconst [:: 4; 1; 1] (fofZ 1)), (iarr [:: 1; 1] [:: 0%Z]), None, (iarr [:: 1; 1] [:: 1%Z]),
  (fconst [:: 4; 1; 1] (fofZ 1)), (fconst [:: 4] fzero), (fconst [:: 4] (dec 1 1)), None, lvl, [::].
by split.
Qed.

Lemma okP T (m : seq (arr B) * res T) : isok m.2 -> exists g x, m = (g, Ok x).
Proof. by case: m => g [x|e] // _; exists g, x. Qed.

Lemma shapesP (m : seq (arr B) * res (arr B * arr B)) sx sP :
  (if m.2 is Ok (x, P) then (shp x == sx) && (shp P == sP) else false) ->
  exists x P g, m = (g, Ok (x, P)) /\ shp x = sx /\ shp P = sP.
Proof. by case: m => g [[x P]|e] //= /andP [/eqP <- /eqP <-]; exists x, P, g. Qed.

(** Both classes return on these, from any gain list the object may hold. *)
Lemma cart_returns : exists g st er, kf_filter cart cart_Z (Some cart_U) [::] = (g, Ok (st, er)).
Proof.
have : isok (kf_filter cart cart_Z (Some cart_U) [::]).2 by vm_compute.
by case/okP=> g [[st er] E]; exists g, st, er.
Qed.
Lemma cart_smooths : exists g st er, kf_smooth cart cart_Z (Some cart_U) [::] = (g, Ok (st, er)).
Proof.
have : isok (kf_smooth cart cart_Z (Some cart_U) [::]).2 by vm_compute.
by case/okP=> g [[st er] E]; exists g, st, er.
Qed.
Lemma osc_returns : exists g st er, ekf_filter osc cart_Z None [::] = (g, Ok (st, er)).
Proof.
have : isok (ekf_filter osc cart_Z None [::]).2 by vm_compute.
by case/okP=> g [[st er] E]; exists g, st, er.
Qed.
Lemma osc_smooths : exists g st er, ekf_smooth osc cart_Z None [::] = (g, Ok (st, er)).
Proof.
have : isok (ekf_smooth osc cart_Z None [::]).2 by vm_compute.
by case/okP=> g [[st er] E]; exists g, st, er.
Qed.
(** [well_shaped] as a test. *)
Definition well_shapedb n m p (self : kf B) (Z : arr B) (U : option (arr B)) : bool :=
  [&& iterable self Z U, kf_size self == n, vec_layout n m (kf_xk self), mat_layout n n (kf_Pk self) &
   all (fun k =>
     [&& mat_layout n n (row (kf_A self) k), mat_layout m n (row (kf_H self) k),
         ctl_layout n p (row (kf_B self) k) (row (control Z U) k),
         obs_layout n m (row Z k), cov_layout n (row (kf_Q self) k) &
         cov_layout m (row (kf_R self) k)]) (iota 0 (steps self Z U))].

Lemma well_shapedP n m p self Z U : well_shapedb n m p self Z U -> well_shaped n m p self Z U.
Proof.
case/and5P=> H1 /eqP H2 H3 H4 /allP H5; split=> // k Hk.
have := H5 k; rewrite mem_iota add0n leq0n => /(_ Hk) /and5P [K1 K2 K3 K4 /andP [K5 K6]].
by split.
Qed.

Lemma cart_well_shaped : well_shaped 2 1 1 cart cart_Z (Some cart_U).
Proof. by apply: well_shapedP; vm_compute. Qed.
Lemma lvl_well_shaped : well_shaped 1 1 1 lvl lvl_Z None.
Proof. by apply: well_shapedP; vm_compute. Qed.
