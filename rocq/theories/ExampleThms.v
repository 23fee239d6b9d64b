(** * ExampleThms: the objects of the example programs *)
From Coq Require Import ZArith.
From mathcomp Require Import all_ssreflect all_algebra.
From Verif Require Import Np NpLemmas Kf Ekf ApiSpec Loop Frame FilterLemmas FilterThms SmoothLemmas NpShapes WellShaped UtilThms
  Exact Repr Textbook RunSpec Refine Refine2 Build Outputs RingTac Loewner KalmanAlg TextbookThms LeastSq
  EkfRun EkfRun2 EkfBuild Props2 Examples.

Set Implicit Arguments.
Unset Strict Implicit.
Unset Printing Implicit Defensive.
Import GRing.Theory Num.Theory Order.Theory.
Local Open Scope ring_scope.
Delimit Scope Z_scope with Z. Delimit Scope nat_scope with N.

Section Thms.
Variable F : realFieldType.
Variable oracle : oracle_type F.
Variable n2i : Z.
Notation N := (exact oracle n2i).
Notation arr := (arr N).
Notation vec := (vec_arr oracle n2i).
Notation mat := (mx_arr oracle n2i).
Notation mats := (mxs_arr oracle n2i).
Notation nums := (nums_arr oracle n2i).
Notation ints := (ints oracle n2i).

Lemma num_mx (r : F) : mx 1 1 (num_arr oracle n2i r) = const_mx r.
Proof. by apply/matrixP => i j; rewrite !mxE !ord1. Qed.

Section Plain.
Variables (n T : nat) (A : nat -> 'M[F]_n) (H : nat -> 'M[F]_(1, n)) (r z : nat -> F) (xk Pk Q : arr).
Definition plain : kf N :=
  Kf (mats T A) xk (np_full_like_nan (mats T A)) Pk (mats T H) Q (nums T r) n (np_identity N n) [::].
Hypothesis Hx : vec_layout n 1 xk && clean xk.
Hypothesis Hx0 : shape0 xk = Ok n.
Hypothesis HP : mat_layout n n Pk && clean Pk.
Hypothesis HQ : sized Q /\ nrows Q = T.
Hypothesis HQr : forall k, (k < T)%N -> cov_layout n (row Q k) && clean (row Q k).
Notation self := plain.
Notation Z := (nums T z).

Lemma plain_init : kf_init (mats T A) xk None Pk (mats T H) Q (nums T r) None = Ok self.
Proof. by rewrite /kf_init Hx0. Qed.

Lemma plain_constructed : constructed self.
Proof.
exists (mats T A), xk, None, Pk, (mats T H), Q, (nums T r), None, self, [::].
by split; [exact: plain_init|].
Qed.

Lemma plain_steps : steps self Z None = T.
Proof. by rewrite /steps /= /nrows /= -/(nrows Q) (proj2 HQ) !minnn. Qed.

Lemma plain_nan k : (k < T)%N -> np_isnan_all (row (kf_B self) k).
Proof. by move=> Hk; apply: isnan_row; exact: isnan_full_like. Qed.

Lemma plain_run : exact_run n 1 n self Z None.
Proof.
case/andP: Hx => Lx Cx; case/andP: HP => LP CP; case: HQ => SQ NQ.
have E k : (k < T)%N -> [/\ row (kf_A self) k = mat (A k), row (kf_H self) k = mat (H k),
    row (kf_R self) k = num_arr oracle n2i (r k) & row Z k = num_arr oracle n2i (z k)].
  by move=> Hk; rewrite /plain; cbn [kf_A kf_H kf_R]; rewrite !mxs_row // !nums_row.
split; [exact: plain_constructed| |exact: Cx|exact: CP|].
  split; [by rewrite /iterable /plain /= SQ|by []|exact: Lx|exact: LP|].
  move=> k; rewrite plain_steps => Hk; have [-> -> -> ->] := E k Hk; have /andP [LQ _] := HQr Hk.
  split; [exact: mat_layout_arr|exact: mat_layout_arr|by rewrite /ctl_layout plain_nan|].
  by split; [|exact: LQ|].
split; try by left.
  move=> k; rewrite plain_steps => Hk; have [-> -> -> ->] := E k Hk; have /andP [_ CQ] := HQr Hk.
  by split; try exact: clean_mkF.
by move=> k; rewrite plain_steps => Hk; rewrite plain_nan.
Qed.

Lemma plain_model k : (k < T)%N -> let s := model_of n 1 n self Z None in
  [/\ mA s k = A k, mc s k = 0, mH s k = H k, mQ s k = cov n (row Q k) &
      mR s k = const_mx (r k) /\ mz s k = const_mx (z k)].
Proof.
move=> Hk; rewrite /model_of; cbn [mA mc mH mQ mR mz]; rewrite plain_nan //.
rewrite /plain; cbn [kf_A kf_H kf_R kf_Q]; rewrite !mxs_row // !nums_row // !mx_arr_mx num_mx.
by split.
Qed.
End Plain.

Lemma ints2P : vec_layout 2 1 (ints [:: 2%N] [:: 0; 0]%Z) && clean (ints [:: 2%N] [:: 0; 0]%Z).
Proof. by []. Qed.
Lemma ints2_mx : mx 2 1 (ints [:: 2%N] [:: 0; 0]%Z) = 0.
Proof. by apply/matrixP => i j; rewrite !mxE ord1; case: i => -[|[|]]. Qed.
Lemma ints1P : [/\ vec_layout 1 1 (ints [:: 1%N; 1%N] [:: 1]%Z), mat_layout 1 1 (ints [:: 1%N; 1%N] [:: 1]%Z) &
  clean (ints [:: 1%N; 1%N] [:: 1]%Z)].
Proof. by []. Qed.
Lemma ints1_mx : mx 1 1 (ints [:: 1%N; 1%N] [:: 1]%Z) = const_mx 1.
Proof. by apply/matrixP => i j; rewrite !mxE !ord1. Qed.
End Thms.
