(** * Binary64Nan: NaN propagates in binary64 *)
From Coq Require Import ZArith Floats.SpecFloat.
From mathcomp Require Import ssreflect ssrfun ssrbool eqtype ssrnat seq.
From Verif Require Import Np ApiSpec Binary64.

Set Implicit Arguments.
Unset Strict Implicit.
Unset Printing Implicit Defensive.

Lemma fadd_nan a b : fisnan a || fisnan b -> fisnan (fadd a b).
Proof. by case: a => [?|?||? ? ?]; case: b => [?|?||? ? ?]. Qed.
Lemma fsub_nan a b : fisnan a || fisnan b -> fisnan (fsub a b).
Proof. by case: a => [?|?||? ? ?]; case: b => [?|?||? ? ?]. Qed.
Lemma fmul_nan a b : fisnan a || fisnan b -> fisnan (fmul a b).
Proof. by case: a => [?|?||? ? ?]; case: b => [?|?||? ? ?]. Qed.

Lemma foldl_nan (term : nat -> f64) acc s :
  fisnan acc || has (fun l => fisnan (term l)) s ->
  fisnan (foldl (fun acc l => fadd acc (term l)) acc s).
Proof.
elim: s acc => [|l s IH] acc /=; first by rewrite orbF.
by move=> H; apply: IH; case: (has _ s) H => /=; rewrite ?orbT // !orbF; exact: fadd_nan.
Qed.

Lemma f_mm_nan kd m k n (a b : seq f64) i j l x0 : i < m -> j < n -> l < k ->
  size a = m * k -> size b = k * n ->
  fisnan (nth x0 a (i * k + l)) || fisnan (nth x0 b (l * n + j)) ->
  fisnan (f_mm kd m k n a b i j).
Proof.
move=> Hi Hj Hl Ha Hb; rewrite (set_nth_default fzero) ?[nth x0 b _](set_nth_default fzero).
- move=> H; rewrite /f_mm; case: k Hl Ha Hb H => // k Hl Ha Hb H.
  apply: foldl_nan; case: l Hl H => [|l] Hl H; first by rewrite fmul_nan.
  apply/orP; right; apply/hasP; exists l.+1; first by rewrite mem_iota /= add1n.
  exact: fmul_nan.
- rewrite Hb; apply: (@leq_trans (l.+1 * n)); first by rewrite mulSn addnC ltn_add2r.
  by rewrite leq_mul2r Hl orbT.
- rewrite Ha; apply: (@leq_trans (i.+1 * k)); first by rewrite mulSn addnC ltn_add2r.
  by rewrite leq_mul2r Hi orbT.
Qed.

Lemma binary64_nan : nan_propagates binary64.
Proof. by split; [exact: fadd_nan|exact: fsub_nan|exact: f_mm_nan]. Qed.
