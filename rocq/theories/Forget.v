(** * Forget: the influence of the past on the textbook recursion fades *)
From mathcomp Require Import all_ssreflect all_algebra.
From Verif Require Import RingTac Loewner KalmanAlg Textbook TextbookThms Prob RobustSpec BestLin Factor Robust Robust2 Energy Sensit.

Set Implicit Arguments.
Unset Strict Implicit.
Unset Printing Implicit Defensive.
Import GRing.Theory Num.Theory Order.Theory.
Local Open Scope ring_scope.

Section Forget.
Variable F : realFieldType.
Variables (n m : nat) (s s' : model F n m) (T : nat).
Hypothesis e0 : mP0 s' = mP0 s.
Hypothesis ek : forall k, (k < T)%N ->
  [/\ mA s' k = mA s k, mH s' k = mH s k, mQ s' k = mQ s k & mR s' k = mR s k].
Hypothesis h0 : psd (mP0 s).
Hypothesis hk : forall k, (k < T)%N -> psd (mQ s k) /\ psd (mR s k).
Hypothesis inn : forall k, (k < T)%N -> innov s k \in unitmx.

(** d is within v of 0, measured by P. *)
Definition within (P : 'M[F]_n) (d : 'cV[F]_n) (v : F) : Prop := forall c, dot c d ^+ 2 <= v * quad P c.

Definition diff k := post_x s' k - post_x s k.

Lemma dotM (M : 'M[F]_n) c d : dot c (M *m d) = dot (M^T *m c) d.
Proof. by rewrite /dot trmx_mul trmxK mulmxA. Qed.

Lemma diff_step k : (k < T)%N -> mc s' k = mc s k -> mz s' k = mz s k ->
  diff k.+1 = (1%:M - gain_at s k *m mH s k) *m (mA s k *m diff k).
Proof.
move=> Hk ec ez; have [ea eh _ er] := ek Hk.
have e : ugain (pred_P s' k) (mH s' k) (mR s' k) = ugain (pred_P s k) (mH s k) (mR s k) by rewrite (ext_pred e0 ek Hk) eh er.
rewrite /diff !post_xS /ucorr e gainE !pred_xE ea ec ez eh [mA s k *m (_ - _)]mulmxBr.
move: (ugain _ _ _) => K; move: (mA s k *m post_x s' k) (mA s k *m post_x s k) (mc s k) (mz s k) (mH s k) => x y c z H.
rewrite mulmxBl mul1mx opprD addrACA -mulmxBr.
have -> : x + c - (y + c) = x - y by rewrite opprD addrACA subrr addr0.
congr (_ + _); rewrite -[K *m H *m _]mulmxA -[RHS]mulmxN; congr (_ *m _).
have -> : z - H *m (x + c) - (z - H *m (y + c)) = H *m (y + c) - H *m (x + c).
  by rewrite opprB addrC addrA subrK.
by rewrite -mulmxBr -[RHS]mulmxN; congr (_ *m _); rewrite opprB opprD addrACA subrr addr0.
Qed.

Lemma fade_step k v r : (k < T)%N -> mc s' k = mc s k -> mz s' k = mz s k -> 0 <= v -> 0 <= r ->
  loewner (mA s k *m post_P s k *m (mA s k)^T) (r *: pred_P s k) ->
  within (post_P s k) (diff k) v -> within (post_P s k.+1) (diff k.+1) (v * r).
Proof.
move=> Hk ec ez v0 r0 [_ L] W c; have [hq hr] := hk Hk.
have hp : psd (pred_P s k).
  rewrite pred_PE; apply: ucov_psd hq; apply: (@post_psd _ _ _ s T) => //; last exact: ltnW.
    by move=> j /hk [].
  by move=> j /hk [].
rewrite (diff_step Hk ec ez) !dotM; set b := (_^T *m c).
apply: le_trans (W _) _; rewrite -mulrA; apply: ler_wpmul2l => //.
have := L b; rewrite quadB subr_ge0 quad_conj quadZ => /le_trans; apply.
apply: ler_wpmul2l => //.
rewrite post_PS (upost_joseph hp.1 hr.1); last exact: inn.
have := inn Hk; rewrite innovE /b gainE; move: (pred_P s k) (mH s k) (mR s k) hr => P H R hr' _.
by rewrite /joseph quadD !quad_conj ler_addl; case: hr'.
Qed.

Lemma fade j k v (r : nat -> F) : (j <= k <= T)%N -> 0 <= v ->
  (forall i, (j <= i < k)%N -> [/\ mc s' i = mc s i, mz s' i = mz s i, 0 <= r i &
     loewner (mA s i *m post_P s i *m (mA s i)^T) (r i *: pred_P s i)]) ->
  within (post_P s j) (diff j) v -> within (post_P s k) (diff k) (v * \prod_(j <= i < k) r i).
Proof.
move=> /andP [jk kT] v0; elim: k jk kT => [|k IH] jk kT H W.
  by move: jk; rewrite leqn0 => /eqP j0; rewrite j0 big_geq // mulr1 -{1 2}j0.
case: (ltngtP j k.+1) jk => // [jk _|<- _]; last by rewrite big_geq // mulr1.
rewrite ltnS in jk; have [ec ez rk L] := H k (introT andP (conj jk (leqnn k.+1))).
rewrite big_nat_recr //= mulrA; apply: fade_step => //.
  apply: mulr_ge0 => //; rewrite big_seq_cond; apply: prodr_ge0 => i; rewrite andbT mem_index_iota => /andP [h1 h2].
  by have [] := H i (introT andP (conj h1 (ltn_trans h2 (ltnSn k)))).
apply: IH => // [|i /andP [h1 h2]]; first exact: ltnW.
exact: H i (introT andP (conj h1 (ltn_trans h2 (ltnSn k)))).
Qed.

Lemma within0 l : mx0 s' = mx0 s + mP0 s *m l -> within (post_P s 0) (diff 0) (quad (mP0 s) l).
Proof.
by move=> e c; rewrite /diff /= e addrC addKr mulrC; exact: cs_form.
Qed.
End Forget.
