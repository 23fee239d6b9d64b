(** * LeastSq: the least-squares problem solved by filtering and smoothing *)
From mathcomp Require Import all_ssreflect all_algebra.
From Verif Require Import RingTac Loewner KalmanAlg Textbook TextbookThms.

Set Implicit Arguments.
Unset Strict Implicit.
Unset Printing Implicit Defensive.
Import GRing.Theory Num.Theory Order.Theory.
Local Open Scope ring_scope.

Section LS.
Variable F : realFieldType.
Variables n m : nat.
Variable s : model F n m.

(** Misfit of a trajectory t (t 0 before the first step, t k.+1 at step k) with
    the prior mean, the transitions and the observations of the first T steps,
    each weighed by the inverse of its covariance: minus twice the logarithm of
    the Gaussian posterior density, up to a constant. *)
Definition misfit (T : nat) (t : nat -> 'cV[F]_n) : F :=
  quad (invmx (mP0 s)) (t 0%N - mx0 s) +
  \sum_(k < T) (quad (invmx (mQ s k)) (t k.+1 - (mA s k *m t k + mc s k)) +
                quad (invmx (mR s k)) (mz s k - mH s k *m t k.+1)).

Variable N : nat.
Hypothesis hP0 : pd (mP0 s).
Hypothesis hQ : forall k, (k < N)%N -> pd (mQ s k).
Hypothesis hR : forall k, (k < N)%N -> pd (mR s k).

Lemma all_pd k : (k < N)%N -> [/\ pd (post_P s k), pd (pred_P s k) & pd (post_P s k.+1)].
Proof.
have H := post_pd_Q (pd_psd hP0) hQ hR; move=> Hk; have [h1 h2] := H k Hk; split=> //.
by case: k Hk {h1 h2} => // k Hk; have [] := H k (ltnW Hk).
Qed.

(** The best state before step k for a given state of step k. *)
Definition bwd k (y : 'cV[F]_n) : 'cV[F]_n :=
  post_x s k + ugain (post_P s k) (mA s k) (mQ s k) *m (y - pred_x s k).
Definition bwt k : 'M[F]_n := invmx (upost (post_P s k) (mA s k) (mQ s k)).

Lemma bwt_pd k : (k < N)%N -> pd (bwt k).
Proof. by move=> Hk; have [h1 _ _] := all_pd Hk; apply/pd_inv/upost_pd => //; exact: hQ. Qed.

Lemma misfitS T t : misfit T.+1 t = misfit T t +
  (quad (invmx (mQ s T)) (t T.+1 - (mA s T *m t T + mc s T)) +
   quad (invmx (mR s T)) (mz s T - mH s T *m t T.+1)).
Proof. by rewrite /misfit big_ord_recr /= addrA. Qed.

Definition floor_ (T : nat) : F := \sum_(k < T) quad (invmx (innov s k)) (mz s k - mH s k *m pred_x s k).

Lemma misfitE T t : (T <= N)%N ->
  misfit T t = floor_ T + \sum_(k < T) quad (bwt k) (t k - bwd k (t k.+1)) +
               quad (invmx (post_P s T)) (t T - post_x s T).
Proof.
elim: T => [|T IH] HT; first by rewrite /misfit /floor_ !big_ord0 !add0r addr0.
rewrite misfitS IH ?(ltnW HT) // /floor_ !big_ord_recr /=.
set f := \sum_(k < T) _; set g := \sum_(k < T) _.
have [h1 h2 h3] := all_pd HT.
have E1 := complete_square (mA s T) (post_x s T) (t T) (t T.+1 - mc s T) h1 (hQ HT).
have E2 := complete_square (mH s T) (pred_x s T) (t T.+1) (mz s T) h2 (hR HT).
have e1 : t T.+1 - mc s T - mA s T *m t T = t T.+1 - (mA s T *m t T + mc s T).
  by rewrite opprD addrA addrAC.
have e2 : t T.+1 - mc s T - mA s T *m post_x s T = t T.+1 - pred_x s T.
  by rewrite pred_xE opprD addrA addrAC.
have e3 : ucorr (post_P s T) (mA s T) (mQ s T) (post_x s T) (t T.+1 - mc s T) = bwd T (t T.+1).
  by rewrite /ucorr e2.
rewrite e1 e2 e3 -pred_PE in E1; rewrite -post_xS -post_PS -innovE in E2.
rewrite -/(bwt T) in E1.
move: E1 E2; rewrite /quad.
set a := (_ *m _) 0 0; set b := (_ *m _) 0 0; set c := (_ *m _) 0 0; set d := (_ *m _) 0 0.
set e := (_ *m _) 0 0; set h := (_ *m _) 0 0; set i := (_ *m _) 0 0.
move=> E1 E2; rewrite -!addrA; congr (_ + _).
rewrite [RHS]addrCA; congr (_ + _).
by rewrite !addrA E1 -addrA E2 [h + i]addrC addrA [c + i]addrC.
Qed.

(** The trajectory that ends in the filtered state and goes back by [bwd]. *)
Fixpoint back (T i : nat) : 'cV[F]_n :=
  if i is j.+1 then bwd (T - i) (back T j) else post_x s T.
Definition best T k := back T (T - k).

Lemma best_T T : best T T = post_x s T. Proof. by rewrite /best subnn. Qed.
Lemma best_S T k : (k < T)%N -> best T k = bwd k (best T k.+1).
Proof. by move=> Hk; rewrite /best -(subnSK Hk) /= subnSK // subKn // ltnW. Qed.

Lemma misfit_best T : (T <= N)%N -> misfit T (best T) = floor_ T.
Proof.
move=> HT; rewrite misfitE // best_T subrr quadx0 addr0 big1 ?addr0 // => k _.
by rewrite -best_S // subrr quadx0.
Qed.

Lemma best_min T t : (T <= N)%N -> misfit T (best T) <= misfit T t.
Proof.
move=> HT; rewrite misfit_best // misfitE // -addrA ler_addl; apply: addr_ge0.
  apply: sumr_ge0 => k _; apply: (pd_psd (bwt_pd _)).2; exact: leq_trans HT.
have hT : pd (post_P s T) by case: T HT => // T HT; have [] := all_pd HT.
exact: (pd_psd (pd_inv hT)).2.
Qed.

Lemma best_unique T t : (T <= N)%N -> misfit T t = misfit T (best T) ->
  forall k, (k <= T)%N -> t k = best T k.
Proof.
move=> HT; rewrite misfit_best // misfitE // -addrA => /eqP.
rewrite -subr_eq0 addrAC subrr add0r paddr_eq0; last 2 first.
- by apply: sumr_ge0 => k _; apply: (pd_psd (bwt_pd _)).2; exact: leq_trans HT.
- have hT : pd (post_P s T) by case: T HT => // T HT; have [] := all_pd HT.
  exact: (pd_psd (pd_inv hT)).2.
have pd0 (M : 'M[F]_n) (x y : 'cV[F]_n) : pd M -> quad M (x - y) = 0 -> x = y.
  move=> [_ hM] E; apply/eqP; rewrite -subr_eq0; apply: contraT => H.
  by have := hM _ H; rewrite E ltxx.
have hT : pd (post_P s T) by case: T HT => // T HT; have [] := all_pd HT.
rewrite psumr_eq0 => [|k _]; last by apply: (pd_psd (bwt_pd _)).2; exact: leq_trans HT.
move=> /andP [/allP Hs /eqP /(pd0 _ _ _ (pd_inv hT)) He] k Hk.
have [i Hi] : exists i, (k + i = T)%N by exists (T - k)%N; rewrite subnKC.
elim: i k Hi Hk => [|i IH] k Hi Hk; first by rewrite -Hi addn0 best_T in He *.
have HkT : (k < T)%N by rewrite -Hi addnS ltnS leq_addr.
have := Hs (Ordinal HkT) (mem_index_enum _); rewrite /= => /eqP /(pd0 _ _ _ (bwt_pd (leq_trans HkT HT))) ->.
by rewrite (IH k.+1) ?addSn -?addnS // -best_S.
Qed.

Lemma best_smooth T k : (k <= T)%N -> best T.+1 k.+1 = smooth_x s T k.
Proof.
move=> Hk; have [i Hi] : exists i, (k + i = T)%N by exists (T - k)%N; rewrite subnKC.
elim: i k Hi Hk => [|i IH] k Hi Hk; first by rewrite -Hi addn0 best_T smooth_xT.
have HkT : (k < T)%N by rewrite -Hi addnS ltnS leq_addr.
rewrite best_S ?ltnS // (IH k.+1) // ?addSn -?addnS // [in RHS]smooth_xS //.
Qed.

End LS.
