(** * Lu: the matrix product and the solver as programs over scalar operations

    np.linalg.solve calls LAPACK's gesv: Gaussian elimination with partial
    pivoting, then back substitution.  Here the algorithm is written for any
    scalars; with the operations on doubles it is the solver of [Binary64], with
    those of a field it is proved to find the solution exactly when there is one. *)
From Coq Require Import ZArith Floats.SpecFloat.
From mathcomp Require Import all_ssreflect all_algebra.
From Verif Require Import Np NpLemmas Binary64 Exact.

Set Implicit Arguments.
Unset Strict Implicit.
Unset Printing Implicit Defensive.
Import GRing.Theory Num.Theory Order.TTheory.

(** Scalar operations. *)
Record ops := Ops {
  O : Type; o0 : O;
  oadd : O -> O -> O; osub : O -> O -> O; omul : O -> O -> O; odiv : O -> O -> O;
  oabs : O -> O; oltb : O -> O -> bool; ois0 : O -> bool
}.

Section Algo.
Variable S : ops.
Notation T := (O S).

(** Row-major dot products, left to right. *)
Definition g_mm (kd : mmkind) (m k n : nat) (a b : seq T) (i j : nat) : T :=
  let term l := omul (nth (o0 S) a (i * k + l)) (nth (o0 S) b (l * n + j)) in
  if k is k'.+1 then foldl (fun acc l => oadd acc (term l)) (term 0) (iota 1 k')
  else o0 S.

(** Position of the row with the largest leading magnitude, the first of them. *)
Fixpoint g_amax (best : nat) (bv : T) (k : nat) (rows : seq (seq T)) : nat :=
  if rows is r :: rows' then
    let v := oabs (head (o0 S) r) in
    if oltb bv v then g_amax k v k.+1 rows' else g_amax best bv k.+1 rows'
  else best.

(** Elimination with partial pivoting; None: an exactly zero pivot. *)
Fixpoint g_elim (n : nat) (rows : seq (seq T)) : option (seq (seq T)) :=
  if n is n'.+1 then
    let p := g_amax 0 (oabs (head (o0 S) (head [::] rows))) 0 rows in
    let prow := nth [::] rows p in
    let rest := behead (set_nth [::] rows p (head [::] rows)) in
    let piv := head (o0 S) prow in
    if ois0 piv then None else
    let upd r :=
      let l := odiv (head (o0 S) r) piv in
      [seq osub q.1 (omul l q.2) | q <- zip (behead r) (behead prow)] in
    omap (cons prow) (g_elim n' (map upd rest))
  else Some [::].

Fixpoint g_backsub (c : nat) (prows : seq (seq T)) : seq T :=
  if prows is r :: prows' then
    let xs := g_backsub c prows' in
    let n := size xs in
    let rhs := nth (o0 S) r (1 + n + c) in
    let s := foldl (fun acc q => osub acc (omul q.1 q.2)) rhs
                   (zip (take n (behead r)) xs) in
    odiv s (head (o0 S) r) :: xs
  else [::].

Definition g_solve (n r : nat) (a b : seq T) : option (nat -> nat -> T) :=
  let rows := [seq p.1 ++ p.2 | p <- zip (chunk n n a) (chunk r n b)] in
  if g_elim n rows is Some prows then
    let cols := [seq g_backsub c prows | c <- iota 0 r] in
    Some (fun i j => nth (o0 S) (nth [::] cols j) i)
  else None.
End Algo.

(** ** With doubles *)
Definition double_ops : ops :=
  @Ops f64 fzero fadd fsub fmul fdiv fabs fltb (fun x => if x is S754_zero _ then true else false).
Lemma double_solver : f_solve = @g_solve double_ops. Proof. by []. Qed.
Lemma double_product : f_mm = @g_mm double_ops. Proof. by []. Qed.

(** ** Scalars may be renamed *)
Section Hom.
Variables (S S' : ops) (f : O S -> O S').
Hypothesis f0 : f (o0 S) = o0 S'.
Hypothesis fadd_ : forall x y, f (oadd x y) = oadd (f x) (f y).
Hypothesis fsub_ : forall x y, f (osub x y) = osub (f x) (f y).
Hypothesis fmul_ : forall x y, f (omul x y) = omul (f x) (f y).
Hypothesis fdiv_ : forall x y, f (odiv x y) = odiv (f x) (f y).
Hypothesis fabs_ : forall x, f (oabs x) = oabs (f x).
Hypothesis fltb_ : forall x y, oltb (f x) (f y) = oltb x y.
Hypothesis fis0_ : forall x, ois0 (f x) = ois0 x.

Lemma nth_f s i : nth (o0 S') (map f s) i = f (nth (o0 S) s i).
Proof. by elim: s i => [|x s IH] [|i] //=. Qed.
Lemma head_f s : head (o0 S') (map f s) = f (head (o0 S) s). Proof. by case: s. Qed.
Lemma nth_ff s i : nth [::] (map (map f) s) i = map f (nth [::] s i).
Proof. by elim: s i => [|x s IH] [|i] //=. Qed.
Lemma set_nth_ff s i v : set_nth [::] (map (map f) s) i (map f v) = map (map f) (set_nth [::] s i v).
Proof.
elim: s i => [|x s IH] [|i] //=; last by rewrite IH.
by congr (_ :: _); elim: i => //= i ->.
Qed.

Lemma hom_mm kd m k n a b i j : g_mm (S := S') kd m k n (map f a) (map f b) i j = f (g_mm kd m k n a b i j).
Proof.
rewrite /g_mm; case: k => [|k] //; rewrite !nth_f -fmul_.
move: (omul _ _) (iota 1 k) => x s; elim: s x => [|l s IH] x //=.
by rewrite !nth_f -fmul_ -fadd_ IH.
Qed.

Lemma hom_amax best bv k rows : g_amax (S := S') best (f bv) k (map (map f) rows) = g_amax best bv k rows.
Proof.
elim: rows best bv k => [|r rows IH] best bv k //=.
by rewrite head_f -fabs_ fltb_; case: ifP => _; rewrite IH.
Qed.

Lemma hom_elim n rows : g_elim (S := S') n (map (map f) rows) = omap (map (map f)) (g_elim n rows).
Proof.
elim: n rows => [|n IH] rows //=.
have Hh : head [::] (map (map f) rows) = map f (head [::] rows) by case: rows.
rewrite Hh head_f -fabs_ hom_amax nth_ff head_f fis0_ set_nth_ff; case: ifP => // _.
set rest := behead (set_nth _ _ _ _).
have -> : behead (map (map f) (set_nth [::] rows (g_amax 0 (oabs (head (o0 S) (head [::] rows))) 0 rows) (head [::] rows)))
  = map (map f) rest by rewrite behead_map.
set prow := nth _ _ _; set l := map _ (map _ rest).
have -> : l = map (map f) [seq [seq osub q.1 (omul (odiv (head (o0 S) r) (head (o0 S) prow)) q.2) | q <- zip (behead r) (behead prow)] | r <- rest].
  rewrite /l -!map_comp; apply: eq_map => r /=; rewrite head_f -fdiv_ !behead_map.
  move: (odiv _ _) => q; elim: (behead r) (behead prow) => [|x s IHs] [|y t] //=.
  by rewrite IHs fsub_ fmul_.
by rewrite IH; case: (g_elim n _).
Qed.

Lemma hom_backsub c prows : g_backsub (S := S') c (map (map f) prows) = map f (g_backsub c prows).
Proof.
elim: prows => [|r prows IH] //=; rewrite IH size_map nth_f head_f behead_map -map_take fdiv_; congr (odiv _ _ :: _).
move: (g_backsub c prows) {IH} => t; move: (nth _ _ _) => x; move: (take _ _) => s.
elim: s t x => [|y s IHs] [|z t] x //=.
by rewrite -fmul_ -fsub_ IHs.
Qed.

Lemma chunk_map w n (s : seq (O S)) : chunk w n (map f s) = map (map f) (chunk w n s).
Proof. by elim: n s => [|n IH] s //=; rewrite -map_take -map_drop IH. Qed.

Lemma hom_solve n r a b : match g_solve n r a b, g_solve (S := S') n r (map f a) (map f b) with
  | Some g, Some g' => forall i j, g' i j = f (g i j)
  | None, None => True
  | _, _ => False end.
Proof.
rewrite /g_solve !chunk_map.
have -> : [seq p.1 ++ p.2 | p <- zip (map (map f) (chunk n n a)) (map (map f) (chunk r n b))] =
    map (map f) [seq p.1 ++ p.2 | p <- zip (chunk n n a) (chunk r n b)].
  by elim: (chunk n n a) (chunk r n b) => [|x s IH] [|y t] //=; rewrite IH map_cat.
rewrite hom_elim; case: (g_elim n _) => //= prows i j.
have -> : [seq g_backsub (S := S') c (map (map f) prows) | c <- iota 0 r] = map (map f) [seq g_backsub c prows | c <- iota 0 r].
  by rewrite -map_comp; apply: eq_map => c /=; rewrite hom_backsub.
by rewrite nth_ff nth_f.
Qed.
End Hom.

(** ** With the numbers of a field *)
Local Open Scope ring_scope.
Section Field.
Variable F : realFieldType.
Definition field_ops : ops :=
  @Ops F 0 (fun x y => x + y) (fun x y => x - y) (fun x y => x * y) (fun x y => x / y)
       (fun x => `|x|) (fun x y => x < y) (fun x => x == 0).
Notation g_elim := (@g_elim field_ops).
Notation g_backsub := (@g_backsub field_ops).
Notation g_amax := (@g_amax field_ops).

Definition dot (n : nat) (u x : seq F) : F := \sum_(k < n) nth 0 u k * nth 0 x k.

Lemma dotS n u x : dot n.+1 u x = head 0 u * head 0 x + dot n (behead u) (behead x).
Proof.
rewrite /dot big_ord_recl !nth0; congr (_ + _); apply: eq_bigr => k _.
by rewrite lift0 !nth_behead.
Qed.

(** The largest pivot. *)
Lemma amax_spec best bv k (rows : seq (seq F)) (all_rows : seq (seq F)) :
  rows = drop k all_rows -> (best < size all_rows)%N ->
  bv = `|head 0 (nth [::] all_rows best)| ->
  (forall i, (i < k)%N -> `|head 0 (nth [::] all_rows i)| <= bv) ->
  let p := g_amax best bv k rows in
  (p < size all_rows)%N /\
  forall i, `|head 0 (nth [::] all_rows i)| <= `|head 0 (nth [::] all_rows p)|.
Proof.
elim: rows best bv k => [|r rows IH] best bv k Er Hb Ev Hk /=.
  have Hs : (size all_rows <= k)%N by rewrite leqNgt; apply/negP => h; move: Er; rewrite (drop_nth [::]).
  split=> // i; case: (ltnP i k) => Hi; first by rewrite -Ev; apply: Hk.
  by rewrite nth_default ?(leq_trans Hs) //= normr0 normr_ge0.
have Hs : (k < size all_rows)%N by rewrite ltnNge; apply/negP => h; move: Er; rewrite drop_oversize.
have [Er1 Er2] : r = nth [::] all_rows k /\ rows = drop k.+1 all_rows.
  by move: Er; rewrite (drop_nth [::]) // => -[-> ->].
case: ifP => Hlt.
  apply: IH => //; first by rewrite Er1.
  move=> i; rewrite ltnS leq_eqVlt => /orP [/eqP ->|Hi]; first by rewrite Er1.
  by apply: le_trans (Hk _ Hi) _; apply: ltW.
apply: IH => // i; rewrite ltnS leq_eqVlt => /orP [/eqP ->|Hi]; last exact: Hk.
by rewrite -Er1 leNgt Hlt.
Qed.

(** Exchanging rows keeps the equations. *)
Lemma swap_perm (rows : seq (seq F)) p : (p < size rows)%N ->
  perm_eq rows (nth [::] rows p :: behead (set_nth [::] rows p (head [::] rows))).
Proof.
case: rows => // r rows; case: p => [|p] /= Hp; first by [].
have -> : set_nth [::] rows p r = take p rows ++ r :: drop p.+1 rows.
  by rewrite set_nthE; have -> : (p < size rows)%N by exact: Hp.
have {1}-> : rows = take p rows ++ nth [::] rows p :: drop p.+1 rows by rewrite -drop_nth // cat_take_drop.
set a := take p rows; set x := nth _ _ _; set d := drop _ _.
apply/permP => P /=; rewrite !count_cat /= addnCA [RHS]addnCA; congr (_ + _)%N; exact: addnCA.
Qed.

(** Row r, as an equation in n unknowns, holds of x; column c of the right-hand sides. *)
Definition holds (n c : nat) (x r : seq F) : bool := dot n r x == nth 0 r (n + c).

Lemma upd_dot n w (r prow x : seq F) l : size r = (n.+1 + w)%N -> size prow = (n.+1 + w)%N ->
  let r' := [seq q.1 - l * q.2 | q <- zip (behead r) (behead prow)] in
  [/\ size r' = (n + w)%N, forall k, nth 0 r' k = nth 0 r k.+1 - l * nth 0 prow k.+1 &
      dot n r' x = dot n (behead r) x - l * dot n (behead prow) x].
Proof.
move=> Hr Hp r'.
have Hs : size r' = (n + w)%N by rewrite size_map size_zip !size_behead Hr Hp minnn.
have Hn k : nth 0 r' k = nth 0 r k.+1 - l * nth 0 prow k.+1.
  case: (ltnP k (n + w)) => Hk; last first.
    by rewrite !nth_default ?mulr0 ?subr0 ?Hs ?Hr ?Hp // addSn ltnS.
  rewrite /r' (nth_map (0, 0)); last by rewrite size_zip !size_behead Hr Hp minnn.
  by rewrite nth_zip /= ?nth_behead // !size_behead Hr Hp.
split=> //; rewrite /dot mulr_sumr -sumrB; apply: eq_bigr => k _.
by rewrite Hn !nth_behead mulrBl mulrA.
Qed.

Lemma foldl_dot n rhs (s x : seq F) : size x = n ->
  foldl (fun acc q => acc - q.1 * q.2) rhs (zip (take n s) x) = rhs - dot n s x.
Proof.
elim: n rhs s x => [|n IH] rhs s [|y x] //=; first by rewrite take0 /dot big_ord0 subr0.
move=> [Hx]; rewrite dotS; case: s => [|z s] /=; last by rewrite IH // opprD addrA.
rewrite mul0r add0r /dot big1 ?subr0 // => k _; by rewrite nth_nil mul0r.
Qed.

Lemma elim_size n (rows prows : seq (seq F)) : g_elim n rows = Some prows -> size prows = n.
Proof.
elim: n rows prows => [|n IH] rows prows /=; first by move=> [<-].
case: ifP => // _; case E : (g_elim n _) => [ps|] //= [<-] /=; by rewrite (IH _ _ E).
Qed.
Lemma backsub_size c (prows : seq (seq F)) : size (g_backsub c prows) = size prows.
Proof. by elim: prows => //= r prows ->. Qed.

(** One elimination step. *)
Lemma step_holds n w c (prow r x : seq F) : size r = (n.+1 + w)%N -> size prow = (n.+1 + w)%N ->
  head 0 prow != 0 -> holds n.+1 c x prow ->
  let l := head 0 r / head 0 prow in
  holds n.+1 c x r = holds n c (behead x) [seq q.1 - l * q.2 | q <- zip (behead r) (behead prow)].
Proof.
move=> Hr Hp Hz /eqP Hh l; have [_ Hn Hd] := upd_dot (behead x) l Hr Hp.
rewrite /holds Hd Hn !addSn -[nth 0 prow _]Hh !dotS mulrDr mulrA /l divfK // opprD addrA.
by rewrite (inj_eq (addIr _)) [RHS]eq_sym subr_eq eq_sym addrC.
Qed.

Lemma pivot_spec n w (rows : seq (seq F)) : size rows = n.+1 -> all (fun r => size r == (n.+1 + w)%N) rows ->
  let p := g_amax 0 (`|head 0 (head [::] rows)|) 0 rows in
  let prow := nth [::] rows p in let rest := behead (set_nth [::] rows p (head [::] rows)) in
  [/\ perm_eq rows (prow :: rest), (forall r, r \in rows -> `|head 0 r| <= `|head 0 prow|),
      size rest = n, size prow = (n.+1 + w)%N & all (fun r => size r == (n.+1 + w)%N) rest].
Proof.
move=> Hs Ha p prow rest.
have [Hp Hm] : (p < size rows)%N /\ forall i, `|head 0 (nth [::] rows i)| <= `|head 0 (nth [::] rows p)|.
  by apply: amax_spec => //; rewrite ?drop0 ?Hs ?nth0.
have HP : perm_eq rows (prow :: rest) by apply: swap_perm.
move: Ha; rewrite (perm_all _ HP) /= => /andP [/eqP H1 H2]; split=> //.
  by move=> r Hr; rewrite -(nth_index [::] Hr); apply: Hm.
by move: (perm_size HP); rewrite Hs => -[].
Qed.

Lemma all_holds_step n w c (prow x : seq F) (rest : seq (seq F)) : size prow = (n.+1 + w)%N ->
  all (fun r => size r == (n.+1 + w)%N) rest -> head 0 prow != 0 -> holds n.+1 c x prow ->
  all (holds n.+1 c x) rest =
  all (holds n c (behead x)) [seq [seq q.1 - head 0 r / head 0 prow * q.2 | q <- zip (behead r) (behead prow)] | r <- rest].
Proof.
move=> Hp Hr Hz Hh; rewrite all_map; apply: eq_in_all => r Hin.
by rewrite /= -(step_holds (w := w)) //; apply/eqP; apply: (allP Hr).
Qed.

Lemma upd_sizes n w (prow : seq F) (rest : seq (seq F)) : size prow = (n.+1 + w)%N ->
  all (fun r => size r == (n.+1 + w)%N) rest ->
  all (fun r => size r == (n + w)%N)
    [seq [seq q.1 - head 0 r / head 0 prow * q.2 | q <- zip (behead r) (behead prow)] | r <- rest].
Proof.
move=> Hp Hr; rewrite all_map; apply/allP => r Hin /=.
have Hs : size r = (n.+1 + w)%N by apply/eqP; apply: (allP Hr).
by rewrite size_map size_zip !size_behead Hs Hp minnn.
Qed.

Lemma elim_sound n w c (rows prows : seq (seq F)) x : size rows = n ->
  all (fun r => size r == (n + w)%N) rows -> size x = n -> g_elim n rows = Some prows ->
  all (holds n c x) rows = (x == g_backsub c prows).
Proof.
elim: n rows prows x => [|n IH] rows prows x Hs Ha Hx.
  by move=> [<-]; rewrite (size0nil Hs) (size0nil Hx).
have /= [HP Hm Hsr Hp Hr] := pivot_spec Hs Ha.
set p := g_amax _ _ _ _ in HP Hm Hsr Hp Hr *.
set prow := nth _ _ _ in HP Hm Hsr Hp Hr *; set rest := behead _ in HP Hm Hsr Hp Hr *.
rewrite [g_elim _ _]/=; case: ifP => // /negbT Hz; rewrite -/p -/prow -/rest.
case E : (g_elim n _) => [ps|] //= [<-].
rewrite (perm_all _ HP) /=; case: x Hx => // y x /= [Hx].
have Hs1 := elim_size E; have Hs2 : size (g_backsub c ps) = n by rewrite backsub_size.
rewrite Hs2 foldl_dot // eqseq_cons.
apply/andP/andP => [[Hh Hall]|[/eqP Hy /eqP Hx2]].
  move: Hall; rewrite (all_holds_step Hp Hr) // (IH _ _ _ _ (upd_sizes Hp Hr) _ E) ?size_map // => Hx2.
  split=> //; rewrite -(eqP Hx2); move: Hh; rewrite /holds dotS /= => /eqP Hh.
  by rewrite add1n -Hh addrK mulrC mulKf.
have Hh : holds n.+1 c (y :: x) prow.
  by rewrite /holds dotS /= Hy -Hx2 mulrC divfK // add1n subrK.
by rewrite Hh (all_holds_step Hp Hr) // (IH _ _ _ _ (upd_sizes Hp Hr) _ E) ?size_map //= Hx2.
Qed.

Lemma elim_fails n w (rows : seq (seq F)) : size rows = n ->
  all (fun r => size r == (n + w)%N) rows -> g_elim n rows = None ->
  exists x, [/\ size x = n, has (fun y => y != 0) x & all (holds n w x) rows].
Proof.
elim: n rows => [|n IH] rows Hs Ha //.
have /= [HP Hm Hsr Hp Hr] := pivot_spec Hs Ha.
set p := g_amax _ _ _ _ in HP Hm Hsr Hp Hr *.
set prow := nth _ _ _ in HP Hm Hsr Hp Hr *; set rest := behead _ in HP Hm Hsr Hp Hr *.
rewrite [g_elim _ _]/= -/p -/prow -/rest; case: ifP => [Hz _|/negbT Hz].
  exists (1 :: nseq n 0); split; [by rewrite /= size_nseq|by rewrite /= oner_neq0|].
  apply/allP => r Hin; rewrite /holds dotS /= mulr1 nth_default; last first.
    by rewrite (eqP (allP Ha _ Hin)).
  have -> : head 0 r = 0.
    by apply/eqP; rewrite -normr_le0; move: (Hm _ Hin); rewrite (eqP Hz) normr0.
  by rewrite add0r /dot big1 // => k _; rewrite nth_nseq if_same mulr0.
case E : (g_elim n _) => [ps|] // _.
have [|x [Hx Hnz Hall]] := IH _ _ (upd_sizes Hp Hr) E; first by rewrite size_map.
pose y := - dot n (behead prow) x / head 0 prow.
have Hh : holds n.+1 w (y :: x) prow.
  by rewrite /holds dotS /= /y mulrC divfK // addNr nth_default ?Hp.
exists (y :: x); split; [by rewrite /= Hx|by rewrite /= Hnz orbT|].
by rewrite (perm_all _ HP) /= Hh (all_holds_step Hp Hr).
Qed.

Lemma chunk_size (T : Type) w n (s : seq T) : size (chunk w n s) = n.
Proof. by elim: n s => //= n IH s; rewrite IH. Qed.
Lemma chunk_nth (T : Type) w n (s : seq T) i : (i < n)%N -> nth [::] (chunk w n s) i = take w (drop (i * w) s).
Proof.
elim: n s i => // n IH s [|i] /= Hi; first by rewrite mul0n drop0.
by rewrite IH // drop_drop mulSn addnC.
Qed.

(** The system as a matrix equation. *)
Variables (n r : nat) (a b : seq F).
Hypotheses (sa : size a = (n * n)%N) (sb : size b = (n * r)%N).
Definition mA_ : 'M[F]_n := \matrix_(i, j) nth 0 a (i * n + j).
Definition mB_ : 'M[F]_(n, r) := \matrix_(i, j) nth 0 b (i * r + j).
Notation A := mA_.
Notation B := mB_.
Definition lu_rows : seq (seq F) := [seq p.1 ++ p.2 | p <- zip (chunk n n a) (chunk r n b)].

Lemma part_size w (s : seq F) i : size s = (n * w)%N -> (i < n)%N -> size (take w (drop (i * w) s)) = w.
Proof.
move=> Hs Hi; rewrite size_take size_drop Hs -mulnBl.
case: ltnP => // H; apply/eqP; rewrite eqn_leq H /=.
by apply: leq_pmull; rewrite subn_gt0.
Qed.

Lemma rows_size : size lu_rows = n. Proof. by rewrite size_map size_zip !chunk_size minnn. Qed.
Lemma rows_nth i : (i < n)%N -> nth [::] lu_rows i = take n (drop (i * n) a) ++ take r (drop (i * r) b).
Proof.
move=> Hi; rewrite (nth_map ([::], [::])) ?size_zip ?chunk_size ?minnn //.
by rewrite nth_zip ?chunk_size //= !chunk_nth.
Qed.
Lemma rows_sizes : all (fun x => size x == (n + r)%N) lu_rows.
Proof.
apply/(all_nthP [::]) => i; rewrite rows_size => Hi.
by rewrite rows_nth // size_cat !part_size.
Qed.

Definition colseq (x : 'cV[F]_n) : seq F := [seq x i 0 | i <- enum 'I_n].
Lemma colseq_size x : size (colseq x) = n. Proof. by rewrite size_map size_enum_ord. Qed.
Lemma colseq_nth x (i : 'I_n) : nth 0 (colseq x) i = x i 0.
Proof. by rewrite (nth_map i) ?size_enum_ord // nth_ord_enum. Qed.
Lemma colseq_all (s : seq F) : size s = n -> s = colseq (\col_i nth 0 s i).
Proof.
move=> Hs; apply: (@eq_from_nth _ 0); rewrite ?colseq_size // Hs => i Hi.
by rewrite (colseq_nth _ (Ordinal Hi)) mxE.
Qed.

Lemma row_dot x (i : 'I_n) : dot n (nth [::] lu_rows i) (colseq x) = (A *m x) i 0.
Proof.
rewrite rows_nth // /dot mxE; apply: eq_bigr => k _.
by rewrite nth_cat part_size // ltn_ord nth_take // nth_drop colseq_nth mxE.
Qed.

Lemma holds_col c x : all (holds n c (colseq x)) lu_rows =
  (A *m x == \col_i (if (c < r)%N then nth 0 b (i * r + c) else 0)).
Proof.
have Hr (i : 'I_n) : nth 0 (nth [::] lu_rows i) (n + c) = (if (c < r)%N then nth 0 b (i * r + c) else 0).
  rewrite rows_nth // nth_cat part_size // ltnNge leq_addr /= addKn.
  case: ltnP => Hc; first by rewrite nth_take // nth_drop.
  by rewrite nth_default // part_size.
apply/(all_nthP [::])/eqP; rewrite rows_size => H.
  apply/colP => i; rewrite [RHS]mxE -Hr -row_dot; apply/eqP; exact: H.
by move=> i Hi; rewrite /holds (row_dot x (Ordinal Hi)) H mxE (Hr (Ordinal Hi)).
Qed.

Theorem lu_correct : match g_solve (S := field_ops) n r a b with
  | Some g => A \in unitmx /\ forall (i : 'I_n) (j : 'I_r), g i j = (invmx A *m B) i j
  | None => A \notin unitmx
  end.
Proof.
rewrite /g_solve -/lu_rows.
have Hs := rows_size; have Ha := rows_sizes.
case E : (g_elim n lu_rows) => [ps|].
  have HA : A \in unitmx.
    rewrite -unitmx_tr -row_free_unit -kermx_eq0; apply: contraT => /rowV0Pn [v /sub_kermxP Hv /eqP []].
    have Hx : A *m v^T = 0 by rewrite -[A]trmxK -trmx_mul Hv trmx0.
    have H0 c x : A *m x = \col_i (if (c < r)%N then nth 0 b (i * r + c) else 0) -> colseq x = g_backsub c ps.
      by move/eqP; rewrite -holds_col (elim_sound _ Hs Ha (colseq_size x) E) => /eqP.
    have Z : (0 : 'cV[F]_n) = \col_i (if (r < r)%N then nth 0 b (i * r + r) else 0).
      by apply/colP => i; rewrite !mxE ltnn.
    have E1 := H0 r v^T (etrans Hx Z); have E2 := H0 r 0 (etrans (mulmx0 _ _) Z).
    apply/rowP => i; have := congr1 (fun s => nth 0 s i) (etrans E1 (esym E2)).
    by rewrite !colseq_nth !mxE.
  split=> // i j; rewrite (nth_map 0%N) ?size_iota // nth_iota // add0n.
  pose x := col j (invmx A *m B).
  have : all (holds n j (colseq x)) lu_rows.
    rewrite holds_col /x colE !mulmxA mulmxV // mul1mx -colE; apply/eqP/colP => k.
    by rewrite !mxE ltn_ord.
  rewrite (elim_sound _ Hs Ha (colseq_size x) E) => /eqP <-.
  by rewrite colseq_nth mxE.
have [s [H1 H2 H3]] := elim_fails Hs Ha E.
apply/negP => HA; move: H3; rewrite (colseq_all H1) holds_col => /eqP.
set x := \col_i _ => Hx; have x0 : x = 0.
  rewrite -[x](mulKmx HA) Hx [\col_i _](_ : _ = 0) ?mulmx0 //.
  by apply/colP => i; rewrite !mxE ltnn.
case/hasP: H2 => y /(nthP 0) [i]; rewrite H1 => Hi <- /eqP []; exact: (congr1 (fun v : 'cV[F]_n => v (Ordinal Hi) 0) x0) || (have := congr1 (fun v : 'cV[F]_n => v (Ordinal Hi) 0) x0; by rewrite !mxE).
Qed.
End Field.
