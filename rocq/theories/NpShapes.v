(** * NpShapes: the array operations on vectors and matrices *)
From Coq Require Import ZArith Lia.
From mathcomp Require Import ssreflect ssrfun ssrbool eqtype ssrnat seq.
From Verif Require Import Np NpLemmas FilterLemmas.

Set Implicit Arguments.
Unset Strict Implicit.
Unset Printing Implicit Defensive.

Section Shapes.
Variable N : num.
Notation arr := (arr N).

Lemma indices1 m : indices [:: m] = [seq [:: i] | i <- iota 0 m].
Proof. by rewrite /= ; elim: (iota 0 m) => //= i s ->. Qed.

Lemma indices2 m n : indices [:: m; n] = [seq [:: i; j] | i <- iota 0 m, j <- iota 0 n].
Proof.
rewrite [LHS]/=; congr flatten; apply: eq_map => i.
have -> : flatten [seq [:: [:: j]] | j <- iota 0 n] = [seq [:: j] | j <- iota 0 n].
  by elim: (iota 0 n) => //= j s ->.
by rewrite -map_comp.
Qed.

Lemma mat_at_dat (a : arr) m k : wfs a -> shp a = [:: m; k] -> mat_at a [::] m k = dat a.
Proof.
move=> Hw Hs; rewrite {2}(mk_get Hw) Hs /mk; cbn [dat].
by rewrite indices2 map_allpairs.
Qed.

Lemma wfs_reshape (a : arr) sh : wfs a -> nelem sh = nelem (shp a) -> wfs (reshape a sh).
Proof. by rewrite /wfs /= => /eqP -> ->. Qed.

Lemma wfs_T (a : arr) : wfs (np_T a). Proof. exact: wfs_mk. Qed.

Lemma matmul_mm (a b : arr) m k n : wfs a -> wfs b -> shp a = [:: m; k] -> shp b = [:: k; n] ->
  np_matmul a b = Ok (mk (promote (dt a) (dt b)) [:: m; n]
    (fun ix => mm_entry (promote (dt a) (dt b)) MatMat m k n (dat a) (dat b)
                        (nth 0 ix 0) (nth 0 ix 1))).
Proof.
move=> Ha Hb Ea Eb; rewrite /np_matmul Ea Eb.
rewrite [size _ == _]/= ![nth _ _ _]/= eqxx [take _ _]/= [take (_ - 2) _]/=.
rewrite /bshape [omap _ _]/=; congr Ok.
rewrite /reshape; cbn [dt dat mk cat size]; congr Arr.
apply: eq_map => ix.
have Ea' : Arr (dt a) [:: m; k] (dat a) = a by rewrite -Ea; case: (a).
have Eb' : Arr (dt b) [:: k; n] (dat b) = b by rewrite -Eb; case: (b).
by rewrite Ea' Eb' take0 /bidx /= !mat_at_dat.
Qed.

Lemma matmul_mv (a b : arr) m k : wfs a -> wfs b -> shp a = [:: m; k] -> shp b = [:: k] ->
  np_matmul a b = Ok (mk (promote (dt a) (dt b)) [:: m]
    (fun ix => mm_entry (promote (dt a) (dt b)) MatVec m k 1 (dat a) (dat b) (nth 0 ix 0) 0)).
Proof.
move=> Ha Hb Ea Eb; rewrite /np_matmul Ea Eb.
rewrite [size _ == _]/= ![nth _ _ _]/= eqxx [take _ _]/= [take (_ - 2) _]/=.
rewrite /bshape [omap _ _]/=; congr Ok.
rewrite /reshape; cbn [dt dat mk cat size]; congr Arr.
rewrite indices2 indices1 -map_comp map_allpairs.
have -> (f : nat -> nat -> scal N) : [seq f i j | i <- iota 0 m, j <- [:: 0]] = [seq f i 0 | i <- iota 0 m].
  by elim: (iota 0 m) => //= i s ->.
apply: eq_map => i /=.
have Ea' : Arr (dt a) [:: m; k] (dat a) = a by rewrite -Ea; case: (a).
rewrite Ea' /bidx /= mat_at_dat // mat_at_dat //.
by rewrite /wfs /= muln1; move/eqP: Hb => ->; rewrite Eb /= muln1.
Qed.

(** A product that succeeds on a matrix and anything. *)
Lemma T2 (a : arr) m n : shp a = [:: m; n] ->
  np_T a = mk (dt a) [:: n; m] (fun ix => get a [:: nth 0 ix 1; nth 0 ix 0]).
Proof.
move=> E; rewrite /np_T E (_ : rev [:: m; n] = [:: n; m]) //; apply: eq_mk => ix.
by case/valid2 => i [j [_ _ ->]].
Qed.

Lemma shp_T2 (a : arr) m n : shp a = [:: m; n] -> shp (np_T a) = [:: n; m].
Proof. by move=> E; rewrite /np_T /= E. Qed.

Lemma solve_mm (a b : arr) n r : wfs a -> wfs b -> shp a = [:: n; n] -> shp b = [:: n; r] ->
  np_solve a b = match ksolve n r (map (@tofl N) (dat a)) (map (@tofl N) (dat b)) with
    | Some g => Ok (mk DFloat [:: n; r] (fun ix => VF (g (nth 0 ix 0) (nth 0 ix 1))))
    | None => Raise LinAlgError
    end.
Proof.
move=> Ha Hb Ea Eb; rewrite /np_solve Ea Eb /= !eqxx /=.
have Eb' : reshape b [:: n; r] = b by rewrite -Eb; case: (b).
rewrite Eb' /bidx /= !mat_at_dat // andbT.
case Eg: (ksolve n r _ _) => [g|] //=; congr Ok.
rewrite -[RHS](_ : reshape (mk DFloat [:: n; r] (fun ix => VF (g (nth 0 ix 0) (nth 0 ix 1)))) [:: n; r] = _) //.
congr reshape; apply: eq_mk => ix _; rewrite take0 /= !mat_at_dat //.
by rewrite Eg.
Qed.

(** Broadcasting. *)
Lemma bshape_same s : bshape s s = Some s.
Proof.
rewrite /bshape; suff -> : bshape_rev (rev s) (rev s) = Some (rev s) by rewrite /= revK.
by elim: (rev s) => //= d t ->; rewrite /bdim eqxx.
Qed.

Lemma bshape_nil_r s : bshape s [::] = Some s.
Proof. by rewrite /bshape /=; case E: (rev s) => [|d t] /=; rewrite -?E ?revK //; case: s E => // x s /(congr1 size); rewrite size_rev. Qed.

Lemma bshape_nil_l s : bshape [::] s = Some s.
Proof. by rewrite -{2}(revK s) /bshape. Qed.

Lemma bshape_sym s t : bshape s t = bshape t s.
Proof. by rewrite /bshape bshape_rev_sym. Qed.

Lemma bdim1r d : bdim d 1 = Some d.
Proof. by rewrite /bdim; case: eqP => // _; case: eqP. Qed.

Lemma bdimxx d : bdim d d = Some d. Proof. by rewrite /bdim eqxx. Qed.

Lemma bshape_1 n c : bshape [:: n; c] [:: 1] = Some [:: n; c].
Proof. by rewrite /bshape /= bdim1r. Qed.

Lemma bshape_11 n c : bshape [:: n; c] [:: 1; 1] = Some [:: n; c].
Proof. by rewrite /bshape /= !bdim1r. Qed.

Lemma bin_ok fz fk (a b : arr) sh : bshape (shp a) (shp b) = Some sh ->
  np_bin fz fk a b = Ok (mk (promote (dt a) (dt b)) sh
    (fun ix => sbin fz fk (get a (bidx (shp a) ix)) (get b (bidx (shp b) ix)))).
Proof. by rewrite /np_bin => ->. Qed.

Lemma bin_same fz fk (a b : arr) sh : shp a = sh -> shp b = sh ->
  np_bin fz fk a b = Ok (mk (promote (dt a) (dt b)) sh (fun ix => sbin fz fk (get a ix) (get b ix))).
Proof.
move=> Ea Eb; rewrite (@bin_ok _ _ _ _ sh) ?Ea ?Eb ?bshape_same //; congr Ok; apply: eq_mk => ix Hv.
by rewrite bidx_id.
Qed.

End Shapes.
