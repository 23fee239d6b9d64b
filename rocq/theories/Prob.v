(** * Prob: expectations, second moments and random vectors (specification) *)
From mathcomp Require Import all_ssreflect all_algebra.
From Verif Require Import Loewner Textbook.

Set Implicit Arguments.
Unset Strict Implicit.
Unset Printing Implicit Defensive.
Import GRing.Theory Num.Theory Order.Theory.
Local Open Scope ring_scope.

Section Prob.
Variable F : realFieldType.

(** What is used of a probability space: outcomes, the integrable and the
    square-integrable random numbers, and the expectation, a positive linear
    functional with E 1 = 1.  (Lebesgue integration on any probability space is
    one; so is any finite sum with non-negative weights of total 1, see
    [finite_prob] below.) *)
Record prob := Prob {
  Om : Type;
  L1 : (Om -> F) -> Prop;
  L2 : (Om -> F) -> Prop;
  Ex : (Om -> F) -> F;
  L1_ext : forall f g, (forall w, f w = g w) -> L1 f -> L1 g;
  L2_ext : forall f g, (forall w, f w = g w) -> L2 f -> L2 g;
  Ex_ext : forall f g, (forall w, f w = g w) -> Ex f = Ex g;
  L1_lin : forall a f g, L1 f -> L1 g -> L1 (fun w => a * f w + g w);
  L2_lin : forall a f g, L2 f -> L2 g -> L2 (fun w => a * f w + g w);
  L2_const : forall c, L2 (fun _ => c);
  L2_mul : forall f g, L2 f -> L2 g -> L1 (fun w => f w * g w);
  Ex_lin : forall a f g, L1 f -> L1 g -> Ex (fun w => a * f w + g w) = a * Ex f + Ex g;
  Ex_one : Ex (fun _ => 1) = 1;
  Ex_ge0 : forall f, L1 f -> (forall w, 0 <= f w) -> 0 <= Ex f
}.

Variable W : prob.

(** Random vectors, their means and their second moments E[X Y']. *)
Definition rvec (n : nat) := Om W -> 'cV[F]_n.
Definition L2v n (X : rvec n) : Prop := forall i, L2 (fun w => X w i 0).
Definition mean n (X : rvec n) : 'cV[F]_n := \col_i Ex (fun w => X w i 0).
Definition moment n m (X : rvec n) (Y : rvec m) : 'M[F]_(n, m) :=
  \matrix_(i, j) Ex (fun w => X w i 0 * Y w j 0).

(** The random quantities of a linear model over T steps: initial deviation e,
    process noises w k and observation noises v k are square-integrable, have
    mean zero, the model's covariances, and are uncorrelated. *)
Definition white_noises n m (s : model F n m) (T : nat) (e : rvec n) (w : nat -> rvec n)
    (v : nat -> rvec m) : Prop :=
  [/\ L2v e, mean e = 0, moment e e = mP0 s,
      (forall k, (k < T)%N -> moment e (w k) = 0 /\ moment e (v k) = 0) &
      (forall k, (k < T)%N ->
        [/\ L2v (w k) /\ L2v (v k), mean (w k) = 0 /\ mean (v k) = 0,
            moment (w k) (w k) = mQ s k /\ moment (v k) (v k) = mR s k,
            (forall j, (j < T)%N -> moment (w k) (v j) = 0) &
            (forall j, (j < k)%N -> moment (w k) (w j) = 0 /\ moment (v k) (v j) = 0)])].

(** The state that starts from x0 + e and follows the model (X 0 before the
    first step, X k.+1 at step k), and what the sensors show at step k. *)
Fixpoint true_state n m (s : model F n m) (e : rvec n) (w : nat -> rvec n) (k : nat) : rvec n :=
  fun o => if k is j.+1 then mA s j *m true_state s e w j o + mc s j + w j o else mx0 s + e o.
Definition sensed n m (s : model F n m) (e : rvec n) (w : nat -> rvec n) (v : nat -> rvec m)
    (k : nat) : rvec m :=
  fun o => mH s k *m true_state s e w k.+1 o + v k o.

(** An estimator that is an affine function of the first k of the observations z. *)
Definition affine_in n m (z : nat -> rvec m) (k : nat) (Y : rvec n) : Prop :=
  exists (a : 'cV[F]_n) (L : nat -> 'M[F]_(n, m)), forall o, Y o = a + \sum_(j < k) L j *m z j o.

End Prob.

Arguments L2v {F W n}.
Arguments mean {F W n}.
Arguments moment {F W n m}.

(** A finite probability space. *)
Section Finite.
Variable F : realFieldType.
Variables (T : finType) (wt : T -> F).
Hypothesis wt_ge0 : forall t, 0 <= wt t.
Hypothesis wt_sum : \sum_t wt t = 1.

Definition finite_prob : prob F.
Proof.
refine (@Prob F T (fun _ => True) (fun _ => True) (fun f => \sum_t wt t * f t)
   _ _ _ _ _ _ _ _ _ _) => //.
- by move=> f g E; apply: eq_bigr => t _; rewrite E.
- move=> a f g _ _; rewrite mulr_sumr -big_split; apply: eq_bigr => t _ /=.
  by rewrite mulrDr mulrCA.
- by rewrite -[RHS]wt_sum; apply: eq_bigr => t _; rewrite mulr1.
- by move=> f _ H; apply: sumr_ge0 => t _; apply: mulr_ge0.
Defined.
End Finite.
