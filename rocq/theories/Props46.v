(** * Props46: C111: without process noise the filter is recursive least squares

    Specification: [coast], where the model alone takes a start x, and
    [misfit], how far that start is from x0 and its path from the
    observations. *)
From Coq Require Import ZArith.
From mathcomp Require Import all_ssreflect all_algebra.
From Verif Require Import Np NpLemmas Kf ApiSpec Loop Exact Repr Textbook RunSpec Refine Refine2 Build Outputs Loewner
  KalmanAlg TextbookThms LeastSqG Examples ExampleThms Props42 Props43 Props45.

Set Implicit Arguments.
Unset Strict Implicit.
Unset Printing Implicit Defensive.
Import GRing.Theory Num.Theory Order.Theory.
Local Open Scope ring_scope.
Delimit Scope Z_scope with Z. Delimit Scope nat_scope with N.

Section C111.
Variable F : realFieldType.

Fixpoint coast n m (s : model F n m) (x : 'cV[F]_n) (k : nat) : 'cV[F]_n :=
  if k is j.+1 then mA s j *m coast s x j + mc s j else x.
Definition misfit n m (s : model F n m) (k : nat) (x : 'cV[F]_n) : F :=
  quad (invmx (mP0 s)) (x - mx0 s) + \sum_(j < k) quad (invmx (mR s j)) (mz s j - mH s j *m coast s x j.+1).
(** x is the only start of least misfit. *)
Definition best_start n m (s : model F n m) (k : nat) (x : 'cV[F]_n) : Prop :=
  forall x', misfit s k x <= misfit s k x' /\ (misfit s k x' = misfit s k x -> x' = x).

Section Least.
Variables (n m : nat) (s : model F n m) (T : nat).
Let G (k : nat) : 'M[F]_n := 0.
Let D (k : nat) : 'M[F]_n := 1%:M.
Notation pth := (path s 1%:M G).
Notation eff := (effort s 1%:M (mP0 s) G D).

Lemma path_coast a u k : pth a u k = coast s (mx0 s + a) k.
Proof.
elim: k => [|k IH]; first by change (mx0 s + 1%:M *m a = mx0 s + a); rewrite mul1mx.
change (mA s k *m pth a u k + mc s k + 0 *m u k = mA s k *m coast s (mx0 s + a) k + mc s k).
by rewrite IH mul0mx addr0.
Qed.

Lemma quad1_ge0 (x : 'cV[F]_n) : 0 <= quad (invmx (1%:M : 'M[F]_n)) x.
Proof. by rewrite invmx1; have [_ h] := pd_psd (@pd_1 F n); exact: h. Qed.

Lemma effort_misfit k a u : eff k a u = misfit s k (mx0 s + a) + \sum_(j < k) quad (invmx (D j)) (u j).
Proof.
rewrite /effort /misfit [mx0 s + a - _]addrAC subrr add0r -addrA; congr (_ + _).
rewrite -[RHS]big_split; apply: eq_bigr => j _; rewrite path_coast.
by rewrite [LHS]addrC.
Qed.

Lemma effort_zero k x : eff k (x - mx0 s) (fun _ => 0) = misfit s k x.
Proof.
rewrite effort_misfit [mx0 s + _]addrC subrK big1 ?addr0 // => j _.
by rewrite /quad mulmx0 mxE.
Qed.

Lemma least_start k a u : least_effort s 1%:M (mP0 s) G D k a u -> best_start s k (mx0 s + a).
Proof.
move=> H x'; have [h1 h2] := H (x' - mx0 s) (fun _ => 0); move: h1 h2; rewrite effort_zero => h1 h2.
have le : misfit s k (mx0 s + a) <= eff k a u.
  by rewrite effort_misfit ler_addl; apply: sumr_ge0 => j _; exact: quad1_ge0.
split; first exact: le_trans le h1.
move=> e; have [|<- _] := h2; first by apply/le_anti; rewrite h1 andbT e.
by rewrite [mx0 s + _]addrC subrK.
Qed.
End Least.

Variable oracle : oracle_type F.
Variable n2i : Z.
Notation N := (exact oracle n2i).

(** With Q = 0, P0 and R positive definite: filter's row k is where the best
    start for the first k+1 observations has come; smooth's rows are the one
    path of the best start for all of them. *)
Theorem C111_no_noise n m p (self : kf N) Z U g : exact_run n m p self Z U ->
  let s := model_of n m p self Z U in let T := steps self Z U in
  pd (mP0 s) -> (forall k, (k < T)%N -> mQ s k = 0) -> (forall k, (k < T)%N -> pd (mR s k)) ->
  (exists g' st er, kf_filter self Z U g = (g', Ok (st, er)) /\
   forall k, (k < T)%N -> exists x, mx n 1 (row st k) = coast s x k.+1 /\ best_start s k.+1 x) /\
  (forall g' xs Ps, T = nrows Z -> kf_smooth self Z U g = (g', Ok (xs, Ps)) ->
   exists x, (forall k, (k < T)%N -> mx n 1 (row xs k) = coast s x k.+1) /\ best_start s T x).
Proof.
move=> Hrun s T hP hQ hR.
have hP0 : mP0 s = 1%:M *m mP0 s *m (1%:M : 'M_n)^T by rewrite mul1mx trmx1 mulmx1.
have hQ' k : (k < T)%N -> mQ s k = (0 : 'M[F]_n) *m 1%:M *m (0 : 'M[F]_n)^T.
  by move=> Hk; rewrite hQ // !mul0mx.
have hD k : (k < T)%N -> pd (1%:M : 'M[F]_n) by move=> _; exact: pd_1.
split.
  have [g' [st [er [E H]]]] := C111_filter g Hrun hP0 hP hQ' hD hR.
  exists g', st, er; split=> // k Hk; have [a [u [-> L]]] := H k Hk.
  by exists (mx0 s + a); split; [exact: path_coast|exact: least_start L].
move=> g' xs Ps HT E; have [a [u [H L]]] := C111_smooth Hrun hP0 hP hQ' hD hR HT E.
exists (mx0 s + a); split; last exact: least_start L.
by move=> k Hk; rewrite H //; exact: path_coast.
Qed.

(** The hypotheses are met: a position moving at an unknown constant velocity,
    observed with noise, any number of times; both filter and smoother return. *)
Example C111_no_noise_case T (z : nat -> F) (dt r p : F) : 0 < r -> 0 < p ->
  let self : kf N := plain T (fun _ => mat2 1 dt 0 1) (fun _ => row2 1 0) (fun _ => r)
    (vec_arr oracle n2i (0 : 'cV[F]_2)) (mx_arr oracle n2i (p%:M : 'M[F]_2)) (mxs_arr oracle n2i T (fun _ => 0 : 'M[F]_2)) in
  let Z := nums_arr oracle n2i T z in let s := model_of 2 1 2 self Z None in
  [/\ exact_run 2 1 2 self Z None, pd (mP0 s), steps self Z None = T /\ steps self Z None = nrows Z,
      forall k, (k < T)%N -> mQ s k = 0 & forall k, (k < T)%N -> pd (mR s k)].
Proof.
move=> hr hp; set Q := mxs_arr _ _ _ _; set xk := vec_arr _ _ _; move=> self Z s.
have HQ : sized Q /\ nrows Q = T by [].
have HQr k : (k < T)%N -> cov_layout 2 (row Q k) && clean (row Q k).
  by move=> Hk; rewrite mxs_row // clean_mkF andbT /cov_layout eqxx andbT; exact: wf_mkF.
have HP : mat_layout 2 2 (mx_arr oracle n2i (p%:M : 'M[F]_2)) && clean (mx_arr oracle n2i (p%:M : 'M[F]_2)).
  by rewrite mat_layout_arr clean_mkF.
have HsT : steps self Z None = T by exact: plain_steps.
have Hm k : (k < T)%N -> mQ s k = 0 /\ mR s k = r%:M.
  move=> Hk; have [_ _ _ -> [-> _]] := plain_model (fun _ => mat2 1 dt 0 1) (fun _ => row2 1 0) (fun _ => r) z xk (mx_arr oracle n2i (p%:M : 'M[F]_2)) Q Hk.
  by rewrite /Q mxs_row // cov_arr const1.
have HZ : steps self Z None = nrows Z by rewrite HsT.
split=> //.
- exact: plain_run.
- have -> : mP0 s = p%:M by exact: mx_arr_mx.
  exact: pd_sc.
- by move=> k Hk; have [] := Hm k Hk.
- by move=> k Hk; have [_ ->] := Hm k Hk; exact: pd_sc.
Qed.
End C111.
