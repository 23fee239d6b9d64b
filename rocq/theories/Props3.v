(** * Props3: the structural properties C15-C21 and C45, for every arithmetic *)
From Coq Require Import ZArith Lia.
From mathcomp Require Import ssreflect ssrfun ssrbool eqtype ssrnat seq.
From Verif Require Import Np NpLemmas Kf Ekf ApiSpec Loop Frame FilterLemmas FilterThms SliceThms
  DataIndep DataIndep2 SmoothLemmas NoIndex NpShapes WellShaped Shapes2 WellShaped2 UtilThms EkfThms
  NanThms Binary64 Binary64Nan Cases.

Set Implicit Arguments.
Unset Strict Implicit.
Unset Printing Implicit Defensive.
Arguments Z.of_nat : simpl never.

(** ** C15 the smoother starts at the filter's last estimate *)
Theorem C15_smooth_last (N : num) (self : kf N) Z U g g' xs Ps :
  kf_smooth self Z U g = (g', Ok (xs, Ps)) ->
  exists st er, [/\ kf_filter self Z U g = (g', Ok (st, er)),
    row xs (nrows Z).-1 = row st (nrows Z).-1, row Ps (nrows Z).-1 = row er (nrows Z).-1 &
    nrows Z = 1 -> (xs, Ps) = (st, er)].
Proof. exact: smooth_last. Qed.

Theorem C15_smooth_last_extended (N : num) (self : ekf N) Z U g g' xs Ps :
  ekf_smooth self Z U g = (g', Ok (xs, Ps)) ->
  exists st er, [/\ ekf_filter self Z U g = (g', Ok (st, er)),
    row xs (nrows Z).-1 = row st (nrows Z).-1, row Ps (nrows Z).-1 = row er (nrows Z).-1 &
    nrows Z = 1 -> (xs, Ps) = (st, er)].
Proof. exact: e_smooth_last. Qed.

Theorem C15_one_observation (N : num) (self : kf N) Z U g g' st er : nrows Z = 1 ->
  kf_filter self Z U g = (g', Ok (st, er)) -> kf_smooth self Z U g = (g', Ok (st, er)).
Proof. exact: smooth_one. Qed.

Theorem C15_one_observation_extended (N : num) (self : ekf N) Z U g g' st er : nrows Z = 1 ->
  ekf_filter self Z U g = (g', Ok (st, er)) -> ekf_smooth self Z U g = (g', Ok (st, er)).
Proof. exact: e_smooth_one. Qed.

Theorem C15_gains (N : num) (self : kf N) (eself : ekf N) Z U g :
  (kf_smooth self Z U g).1 = (kf_filter self Z U g).1 /\
  (ekf_smooth eself Z U g).1 = (ekf_filter eself Z U g).1.
Proof. by rewrite smooth_gains e_smooth_gains. Qed.

Example C15_case :
  (exists g xs Ps, kf_smooth cart cart_Z (Some cart_U) [::] = (g, Ok (xs, Ps))) /\
  (exists g xs Ps, ekf_smooth osc cart_Z None [::] = (g, Ok (xs, Ps))) /\
  isok (kf_filter cart (upto_row 1 cart_Z) (Some cart_U) [::]).2 /\ nrows (upto_row 1 cart_Z) = 1.
Proof.
split; first exact: cart_smooths.
split; first exact: osc_smooths.
by split; vm_compute.
Qed.

(** ** C16 smooth refuses what it cannot index *)
Theorem C16_empty (N : num) (self : kf N) Z U g g' st er : nrows Z = 0 ->
  kf_filter self Z U g = (g', Ok (st, er)) -> kf_smooth self Z U g = (g', Raise IndexError).
Proof. exact: smooth_empty. Qed.

Theorem C16_empty_extended (N : num) (self : ekf N) Z U g g' st er : nrows Z = 0 ->
  ekf_filter self Z U g = (g', Ok (st, er)) -> ekf_smooth self Z U g = (g', Raise IndexError).
Proof. exact: e_smooth_empty. Qed.

Theorem C16_short (N : num) (self : kf N) Z U g g' st er : 1 < nrows Z ->
  [|| nrows (kf_A self) < nrows Z, nrows (kf_Q self) < nrows Z, nrows (kf_B self) < nrows Z
    | nrows (control Z U) < nrows Z] ->
  kf_filter self Z U g = (g', Ok (st, er)) -> kf_smooth self Z U g = (g', Raise IndexError).
Proof. exact: smooth_short. Qed.

Theorem C16_short_extended (N : num) (self : ekf N) Z U g g' st er : 1 < nrows Z ->
  (nrows (e_Q self) < nrows Z) || (nrows (control Z U) < nrows Z) ->
  ekf_filter self Z U g = (g', Ok (st, er)) -> ekf_smooth self Z U g = (g', Raise IndexError).
Proof. exact: e_smooth_short. Qed.

(** IndexError has no other cause: in particular not a short H or R. *)
Theorem C16_only (N : num) (self : kf N) Z U g : 0 < nrows Z ->
  nrows Z <= nrows (kf_A self) -> nrows Z <= nrows (kf_Q self) ->
  nrows Z <= nrows (kf_B self) -> nrows Z <= nrows (control Z U) ->
  (kf_smooth self Z U g).2 <> Raise IndexError.
Proof. exact: smooth_noidx. Qed.

Definition cart_with (A B H Q R : arr binary64) :=
  Kf A cart_x B cart_P H Q R 2 (np_identity binary64 2) [::].
Example C16_case :
  isok (kf_filter (cart_with cart_A cart_B cart_H (upto_row 2 cart_Q) cart_R) cart_Z (Some cart_U) [::]).2 /\
  isok (kf_filter cart (upto_row 0 cart_Z) (Some cart_U) [::]).2 /\
  isok (kf_smooth (cart_with cart_A cart_B (upto_row 2 cart_H) cart_Q (upto_row 1 cart_R)) cart_Z (Some cart_U) [::]).2.
Proof. by split; [|split]; vm_compute. Qed.

(** ** C17 the extended filter on a linear system is the standard filter

    [every_row T a r]: the sequence a has at least T rows, and the first T of
    them are all r. *)
Definition every_row (N : num) (T : nat) (a r : arr N) : Prop :=
  [/\ sized a, T <= nrows a & forall i, i < T -> row a i = r].

Theorem C17_linear (N : num) (ext : ekf N) (std : kf N) (A H B Z : arr N) U g :
  (forall x u, e_f ext x (Some u) =
     if np_isnan_all B || np_isnan_all u then np_matmul A x
     else do Ax <- np_matmul A x; do Bu <- np_matmul B u; np_add Ax Bu) ->
  (forall x u, e_jA ext x u = Ok A) ->
  (forall x, e_h ext x = np_matmul H x) ->
  (forall x, e_jH ext x = Ok H) ->
  every_row (nrows Z) (kf_A std) A -> every_row (nrows Z) (kf_H std) H ->
  every_row (nrows Z) (kf_B std) B ->
  constructed std -> e_constructed ext ->
  [/\ kf_xk std = e_xk ext, kf_Pk std = e_Pk ext, kf_Q std = e_Q ext,
      kf_R std = e_R ext & kf_size std = e_size ext] ->
  kf_filter std Z U g = ekf_filter ext Z U g /\ kf_smooth std Z U g = ekf_smooth ext Z U g.
Proof.
move=> Hf HjA Hh HjH [a1 a2 a3] [h1 h2 h3] [b1 b2 b3] Cs Ce [E1 E2 E3 E4 E5].
have HA : sized (kf_A std) && (nrows Z <= nrows (kf_A std)) by rewrite a1.
have HH : sized (kf_H std) && (nrows Z <= nrows (kf_H std)) by rewrite h1.
have HB : sized (kf_B std) && (nrows Z <= nrows (kf_B std)) by rewrite b1.
have Hr : forall i, i < nrows Z ->
  [/\ row (kf_A std) i = A, row (kf_H std) i = H & row (kf_B std) i = B].
  by move=> i Hi; rewrite a3 // h3 // b3.
have Hs : [/\ kf_xk std = e_xk ext, kf_Pk std = e_Pk ext, kf_Q std = e_Q ext,
  kf_R std = e_R ext & kf_size std = e_size ext /\ kf_I std = e_I ext].
  by split=> //; split=> //; rewrite (constructed_I Cs) (e_constructed_I Ce) E5.
split; first exact: (lin_filter U Hf HjA Hh HjH HA HH HB Hr Hs g).
exact: (lin_smooth U Hf HjA Hh HjH HA HH HB Hr Hs g).
Qed.

Definition lin_A := row cart_A 0.
Definition lin_H := row cart_H 2.
Definition lin_B := row cart_B 0.
Definition rep3 (a : arr binary64) := Arr (dt a) (3 :: shp a) (dat a ++ dat a ++ dat a).
Definition lin_std_init := kf_init (rep3 lin_A) cart_x (Some (rep3 lin_B)) cart_P (rep3 lin_H) cart_Q cart_R None.
Definition lin_ext_init := ekf_init cart_x cart_P cart_Q cart_R
  (fun x u => if u is Some v then
     if np_isnan_all lin_B || np_isnan_all v then np_matmul lin_A x
     else do Ax <- np_matmul lin_A x; do Bu <- np_matmul lin_B v; np_add Ax Bu
     else Raise TypeError)
  (fun x => np_matmul lin_H x) (fun _ _ => Ok lin_A) (fun _ => Ok lin_H).
Example C17_case : exists std ext, lin_std_init = Ok std /\ lin_ext_init = Ok ext /\
  every_row 3 (kf_A std) lin_A /\ every_row 3 (kf_H std) lin_H /\ every_row 3 (kf_B std) lin_B /\
  isok (kf_smooth std cart_Z (Some cart_U) [::]).2.
Proof.
eexists; eexists; split; first by reflexivity.
split; first by reflexivity.
split; first by split=> // -[|[|[|i]]].
split; first by split=> // -[|[|[|i]]].
split; first by split=> // -[|[|[|i]]].
by vm_compute.
Qed.

(** ** C18 column-vector states *)
Theorem C18_column_raises (N : num) (self : kf N) Z U g r n c : 0 < steps self Z U ->
  shp (row (kf_A self) 0) = [:: r; n] -> shp (kf_xk self) = [:: n; c] -> 1 < r ->
  exists g' e, kf_filter self Z U g = (g', Raise e).
Proof. exact: column_state. Qed.

(** so does smooth, which calls filter first. *)
Theorem C18_column_raises_smooth (N : num) (self : kf N) Z U g r n c : 0 < steps self Z U ->
  shp (row (kf_A self) 0) = [:: r; n] -> shp (kf_xk self) = [:: n; c] -> 1 < r ->
  exists g' e, kf_smooth self Z U g = (g', Raise e).
Proof.
move=> *; have [g' [e E]] : exists g' e, kf_filter self Z U g = (g', Raise e) by apply: (@column_state N self Z U g r n c).
by exists g', e; rewrite /kf_smooth /mbind E.
Qed.

(** A (1,1) state of a scalar system is accepted. *)
Theorem C18_one_by_one (N : num) (self : kf N) Z U g p : constructed self ->
  well_shaped 1 1 p self Z U -> shp (kf_xk self) = [:: 1; 1] ->
  (exists g' st er, kf_filter self Z U g = (g', Ok (st, er))) \/
  exists g', kf_filter self Z U g = (g', Raise LinAlgError).
Proof. by move=> C W _; apply: (well_shaped_raises _ C W). Qed.

Definition col := Kf cart_A (reshape cart_x [:: 2; 1]) cart_B cart_P cart_H cart_Q cart_R 2
  (np_identity binary64 2) [::].
Example C18_case : 0 < steps col cart_Z (Some cart_U) /\
  shp (row (kf_A col) 0) = [:: 2; 2] /\ shp (kf_xk col) = [:: 2; 1] /\
  constructed lvl /\ well_shaped 1 1 1 lvl lvl_Z None /\ shp (kf_xk lvl) = [:: 1; 1] /\
  isok (kf_filter lvl lvl_Z None [::]).2.
Proof.
split; first by vm_compute.
split; first by vm_compute.
split; first by vm_compute.
split; first exact: lvl_constructed.
split; first exact: lvl_well_shaped.
by split; vm_compute.
Qed.

(** ** C19 where the extended filter evaluates the user's functions

    Two objects that differ only in their callables, which agree at the points
    named: f and jacobian_A at (posterior mean of step k-1, control of step k),
    h and jacobian_H at the predicted mean of step k. *)
Definition same_but_callables (N : num) (s1 s2 : ekf N) : Prop :=
  [/\ e_xk s1 = e_xk s2, e_Pk s1 = e_Pk s2, e_Q s1 = e_Q s2, e_R s1 = e_R s2 &
      e_size s1 = e_size s2].

Theorem C19_filter_points (N : num) (s1 s2 : ekf N) Z U g :
  e_constructed s1 -> e_constructed s2 -> same_but_callables s1 s2 ->
  (forall k gk x P, k < e_steps s1 Z U ->
     e_by_hand s1 Z (control Z U) k g = (gk, Ok (x, P)) ->
     e_f s1 x (Some (row (control Z U) k)) = e_f s2 x (Some (row (control Z U) k)) /\
     e_jA s1 x (Some (row (control Z U) k)) = e_jA s2 x (Some (row (control Z U) k))) ->
  (forall k gk x P x' P', k < e_steps s1 Z U ->
     e_by_hand s1 Z (control Z U) k g = (gk, Ok (x, P)) ->
     ekf_predict s1 x (Some (row (control Z U) k)) P (row (e_Q s1) k) = Ok (x', P') ->
     e_h s1 x' = e_h s2 x' /\ e_jH s1 x' = e_jH s2 x') ->
  ekf_filter s1 Z U g = ekf_filter s2 Z U g.
Proof.
move=> C1 C2 [E1 E2 E3 E4 E5] H1 H2.
have Hs : [/\ e_xk s1 = e_xk s2, e_Pk s1 = e_Pk s2, e_Q s1 = e_Q s2,
  e_R s1 = e_R s2 & e_size s1 = e_size s2 /\ e_I s1 = e_I s2].
  by split=> //; split=> //; rewrite (e_constructed_I C1) (e_constructed_I C2) E5.
exact: (visited_filter Hs H1 H2).
Qed.

(** smooth in addition evaluates f and jacobian_A at the filtered states. *)
Theorem C19_smooth_points (N : num) (s1 s2 : ekf N) Z U g :
  e_constructed s1 -> e_constructed s2 -> same_but_callables s1 s2 ->
  (forall k gk x P, k < e_steps s1 Z U ->
     e_by_hand s1 Z (control Z U) k g = (gk, Ok (x, P)) ->
     e_f s1 x (Some (row (control Z U) k)) = e_f s2 x (Some (row (control Z U) k)) /\
     e_jA s1 x (Some (row (control Z U) k)) = e_jA s2 x (Some (row (control Z U) k))) ->
  (forall k gk x P x' P', k < e_steps s1 Z U ->
     e_by_hand s1 Z (control Z U) k g = (gk, Ok (x, P)) ->
     ekf_predict s1 x (Some (row (control Z U) k)) P (row (e_Q s1) k) = Ok (x', P') ->
     e_h s1 x' = e_h s2 x' /\ e_jH s1 x' = e_jH s2 x') ->
  (forall k st er, k.+1 < nrows Z -> (ekf_filter s1 Z U g).2 = Ok (st, er) ->
     e_f s1 (row st k) (Some (row (control Z U) k.+1)) = e_f s2 (row st k) (Some (row (control Z U) k.+1)) /\
     e_jA s1 (row st k) (Some (row (control Z U) k.+1)) = e_jA s2 (row st k) (Some (row (control Z U) k.+1))) ->
  ekf_smooth s1 Z U g = ekf_smooth s2 Z U g.
Proof.
move=> C1 C2 [E1 E2 E3 E4 E5] H1 H2 H3.
have Hs : [/\ e_xk s1 = e_xk s2, e_Pk s1 = e_Pk s2, e_Q s1 = e_Q s2,
  e_R s1 = e_R s2 & e_size s1 = e_size s2 /\ e_I s1 = e_I s2].
  by split=> //; split=> //; rewrite (e_constructed_I C1) (e_constructed_I C2) E5.
exact: (visited_smooth Hs H1 H2 H3).
Qed.

(** With U=None and a float Z the control passed is an array of NaN with the
    shape of the observation. *)
Theorem C19_control_none (N : num) (Z : arr N) k : k < nrows Z -> dt Z = DFloat ->
  kisnan (knan N) ->
  shp (row (control Z None) k) = shp (row Z k) /\ every_nan (row (control Z None) k).
Proof.
move=> Hk D Hn; rewrite control_none_row //; split=> // ix Hix.
by rewrite get_full_like // D.
Qed.

(** A second object whose callables are those of [osc] up to a test that never
    fires on the run: it refuses states with a NaN. *)
Definition guard (f : arr binary64 -> res (arr binary64)) (x : arr binary64) :=
  if seq.has (@snan binary64) (dat x) then Raise (UserExn 7) else f x.
Definition osc2_init := ekf_init osc_x cart_P cart_Q cart_R (fun x u => guard (osc_f ^~ u) x)
  (guard osc_h) (fun x u => guard (osc_jA ^~ u) x) (guard osc_jH).
Definition nan_x := farr [:: 2] [:: knan binary64; fzero].
Example C19_case : exists osc2, osc2_init = Ok osc2 /\ same_but_callables osc osc2 /\
  isok (ekf_smooth osc2 cart_Z None [::]).2 /\
  isok (e_h osc nan_x) /\ ~~ isok (e_h osc2 nan_x).
Proof.
eexists; split; first by reflexivity.
split; first by split.
split; first by vm_compute.
by split; vm_compute.
Qed.

(** ** C20 one NaN observation poisons every later state *)
Theorem C20_nan_filter (N : num) n m p (self : kf N) Z U g g' st er j i :
  nan_propagates N -> constructed self -> well_shaped n m p self Z U ->
  kf_filter self Z U g = (g', Ok (st, er)) ->
  j <= i -> i < steps self Z U -> some_nan (row Z j) -> every_nan (row st i).
Proof. by move=> NP; apply: (filter_nan NP). Qed.

Theorem C20_nan_smooth (N : num) n m p (self : kf N) Z U g g' xs Ps j k :
  nan_propagates N -> constructed self -> well_shaped n m p self Z U ->
  steps self Z U = nrows Z -> kf_smooth self Z U g = (g', Ok (xs, Ps)) ->
  j < nrows Z -> some_nan (row Z j) -> k < nrows Z -> every_nan (row xs k).
Proof. by move=> NP; apply: (smooth_nan NP). Qed.

(** while covariances and gains are those of any clean run of the same length. *)
Theorem C20_cov_clean (N : num) (self : kf N) Z Zclean U g g1 g2 st1 er1 st2 er2 :
  nrows Z = nrows Zclean -> U <> None ->
  kf_filter self Z U g = (g1, Ok (st1, er1)) ->
  kf_filter self Zclean U g = (g2, Ok (st2, er2)) -> er1 = er2 /\ g1 = g2.
Proof. by case: U => // u HZ _; apply: filter_cov. Qed.

(** IEEE-754 doubles propagate NaN. *)
Theorem C20_binary64 : nan_propagates binary64.
Proof. exact: binary64_nan. Qed.

Definition nan_Z := farr [:: 3; 1] [:: dec 12 2; knan binary64; dec 44 2].
Example C20_case : constructed cart /\ well_shaped 2 1 1 cart nan_Z (Some cart_U) /\
  steps cart nan_Z (Some cart_U) = nrows nan_Z /\ isok (kf_smooth cart nan_Z (Some cart_U) [::]).2 /\
  some_nan (row nan_Z 1).
Proof.
split; first exact: cart_constructed.
split; first by apply: well_shapedP; vm_compute.
split; first by vm_compute.
split; first by vm_compute.
by exists [:: 0]; vm_compute.
Qed.

(** ** C21 state_size *)
Theorem C21_init (N : num) A xk B Pk H Q R ss (self : kf N) :
  kf_init A xk B Pk H Q R ss = Ok self ->
  [/\ kf_A self = A, kf_xk self = xk, kf_Pk self = Pk &
   [/\ kf_H self = H, kf_Q self = Q, kf_R self = R, kf_gains self = [::] &
   match ss with
   | Some z => if (z =? 0)%Z then shp xk != [::] /\ kf_size self = nrows xk
               else (0 < z)%Z /\ kf_size self = Z.to_nat z
   | None => shp xk != [::] /\ kf_size self = nrows xk
   end]].
Proof. exact: init_size. Qed.

(** The control-input matrix is the one given; without one it is a placeholder
    of the shape of A, all NaN when A is float64.  The identity has the size of
    the state. *)
Theorem C21_init_control (N : num) A xk B Pk H Q R ss (self : kf N) :
  kf_init A xk B Pk H Q R ss = Ok self ->
  [/\ (forall b, B = Some b -> kf_B self = b),
      (B = None -> [/\ shp (kf_B self) = shp A, wf (kf_B self) &
                       dt A = DFloat -> kisnan (knan N) -> every_nan (kf_B self)]),
      float_shaped [:: kf_size self; kf_size self] (kf_I self) &
      forall i j, i < kf_size self -> j < kf_size self ->
        get (kf_I self) [:: i; j] = VF (kofZ N (if i == j then 1 else 0)%Z)].
Proof.
have idE n i j : i < n -> j < n -> get (np_identity N n) [:: i; j] = VF (kofZ N (if i == j then 1 else 0)%Z).
  by move=> Hi Hj; rewrite get_mk /= ?Hi ?Hj //; case: (i == j).
have idW n : float_shaped [:: n; n] (np_identity N n).
  by rewrite /float_shaped wf_mkF /= eqxx.
rewrite /kf_init; case E: (match ss with Some z => _ | None => _ end) => [n|//] [<-] /=; split=> //.
- by move=> b ->.
- move=> -> /=; split=> //; first exact: wf_full_like.
  by move=> D Hk ix Hix; rewrite get_full_like // D.
by move=> i j; exact: idE.
Qed.

(** The constructor of the extended filter. *)
Theorem C21_init_extended (N : num) xk Pk Q R f h jA jH (self : ekf N) :
  ekf_init xk Pk Q R f h jA jH = Ok self ->
  [/\ e_xk self = xk, e_Pk self = Pk, e_Q self = Q, e_R self = R &
   [/\ e_f self = f, e_h self = h, e_jA self = jA, e_jH self = jH &
   [/\ e_gains self = [::], shp xk != [::], e_size self = nrows xk,
      float_shaped [:: e_size self; e_size self] (e_I self) &
      forall i j, i < e_size self -> j < e_size self ->
        get (e_I self) [:: i; j] = VF (kofZ N (if i == j then 1 else 0)%Z)]]].
Proof.
have idE n i j : i < n -> j < n -> get (np_identity N n) [:: i; j] = VF (kofZ N (if i == j then 1 else 0)%Z).
  by move=> Hi Hj; rewrite get_mk /= ?Hi ?Hj //; case: (i == j).
have idW n : float_shaped [:: n; n] (np_identity N n).
  by rewrite /float_shaped wf_mkF /= eqxx.
rewrite /ekf_init /shape0; case Ex: (shp xk) => [|d sh] //= [<-]; split=> //; split=> //; split=> //=.
- by rewrite /nrows Ex.
by move=> i j; exact: idE.
Qed.

Theorem C21_init_extended_raises (N : num) (xk Pk Q R : arr N) f h jA jH e :
  ekf_init xk Pk Q R f h jA jH = Raise e <-> e = IndexError /\ shp xk = [::].
Proof.
rewrite /ekf_init /shape0; case: (shp xk) => [|d sh] /=; last by split=> // -[].
by split=> [[->]|[->]].
Qed.

Theorem C21_init_raises (N : num) (A xk : arr N) B Pk H Q R ss e :
  kf_init A xk B Pk H Q R ss = Raise e <->
  (e = ValueError /\ exists2 z, ss = Some z & (z < 0)%Z) \/
  (e = IndexError /\ shp xk = [::] /\ (ss = None \/ ss = Some 0%Z)).
Proof.
split; first exact: init_raises.
case=> [[-> [z -> Hz]]|[-> [Hx Hss]]]; rewrite /kf_init.
  have -> : (z =? 0)%Z = false by apply/negP => /Z.eqb_eq ?; lia.
  by have -> : (z <? 0)%Z = true by apply/Z.ltb_lt.
by case: Hss => -> /=; rewrite /shape0 Hx.
Qed.

(** A state_size other than the dimension of the state makes filter raise at
    the first step. *)
Theorem C21_wrong_size (N : num) n m p s (self : kf N) Z U g :
  constructed self ->
  iterable self Z U -> vec_layout n m (kf_xk self) -> mat_layout n n (kf_Pk self) ->
  0 < steps self Z U -> kf_size self = s -> s != n ->
  mat_layout n n (row (kf_A self) 0) -> mat_layout m n (row (kf_H self) 0) ->
  ctl_layout n p (row (kf_B self) 0) (row (control Z U) 0) ->
  obs_layout n m (row Z 0) -> cov_layout n (row (kf_Q self) 0) -> cov_layout m (row (kf_R self) 0) ->
  exists g' e, kf_filter self Z U g = (g', Raise e).
Proof.
move=> C Hi Hx HP Hs Es Hn HA HH Hc Ho HQ HR.
by apply: (@state_size_raises N n m p s).
Qed.

Definition sized_cart (z : Z) := built (kf_init cart_A cart_x (Some cart_B) cart_P cart_H cart_Q cart_R (Some z)).
Lemma sized_cart_constructed z : (0 < z)%Z -> constructed (sized_cart z).
Proof.
move=> Hz; exists cart_A, cart_x, (Some cart_B), cart_P, cart_H, cart_Q, cart_R, (Some z), (sized_cart z), [::].
rewrite /sized_cart /kf_init.
have -> : (z =? 0)%Z = false by apply/negP => /Z.eqb_eq ?; lia.
by have -> : (z <? 0)%Z = false by apply/Z.ltb_ge; lia.
Qed.
Example C21_case : constructed (sized_cart 1) /\ constructed (sized_cart 3) /\
  kf_size (sized_cart 1) = 1 /\ kf_size (sized_cart 3) = 3 /\
  vec_layout 2 1 (kf_xk (sized_cart 3)) /\ 0 < steps (sized_cart 3) cart_Z (Some cart_U) /\
  ~~ isok (kf_filter (sized_cart 1) cart_Z (Some cart_U) [::]).2.
Proof.
split; first exact: sized_cart_constructed.
split; first exact: sized_cart_constructed.
by do 4!(split; first by vm_compute); vm_compute.
Qed.

(** ** C45 documented shapes raise nothing but LinAlgError *)
Theorem C45_filter (N : num) n m p (self : kf N) Z U g :
  constructed self -> well_shaped n m p self Z U ->
  (exists g' st er, kf_filter self Z U g = (g', Ok (st, er))) \/
  exists g', kf_filter self Z U g = (g', Raise LinAlgError).
Proof. exact: well_shaped_raises. Qed.

Theorem C45_smooth (N : num) n m p (self : kf N) Z U g :
  constructed self -> well_shaped n m p self Z U -> 0 < nrows Z -> steps self Z U = nrows Z ->
  (exists g' xs Ps, kf_smooth self Z U g = (g', Ok (xs, Ps))) \/
  exists g', kf_smooth self Z U g = (g', Raise LinAlgError).
Proof. exact: well_shaped_smooth. Qed.

Theorem C45_filter_extended (N : num) n m (self : ekf N) Z U g :
  e_constructed self -> e_well_shaped n m self Z U ->
  (exists g' st er, ekf_filter self Z U g = (g', Ok (st, er))) \/
  exists g', ekf_filter self Z U g = (g', Raise LinAlgError).
Proof. exact: e_well_shaped_raises. Qed.

Theorem C45_smooth_extended (N : num) n m (self : ekf N) Z U g :
  e_constructed self -> e_well_shaped n m self Z U -> 0 < nrows Z -> e_steps self Z U = nrows Z ->
  (exists g' xs Ps, ekf_smooth self Z U g = (g', Ok (xs, Ps))) \/
  exists g', ekf_smooth self Z U g = (g', Raise LinAlgError).
Proof. exact: e_well_shaped_smooth. Qed.

(** Nonlinear callables of the documented shapes: f(x, u) = x + x, with a
    Jacobian that depends on x through the branch taken, h constant. *)
Definition sq_jA (x : arr binary64) (_ : option (arr binary64)) : res (arr binary64) :=
  Ok (if np_isnan_all x then row cart_A 0 else row cart_A 2).
Definition sq_f (x : arr binary64) (_ : option (arr binary64)) : res (arr binary64) := np_add (farr [:: 2] [:: fzero; fofZ 1]) x.
Definition sq_h (_ : arr binary64) : res (arr binary64) := Ok (farr [:: 1] [:: fofZ 3]).
Definition sq_jH (_ : arr binary64) : res (arr binary64) := Ok (row cart_H 0).
Definition sq := e_built (ekf_init cart_x cart_P cart_Q cart_R sq_f sq_h sq_jA sq_jH).
Lemma sq_constructed : e_constructed sq.
Proof. by exists cart_x, cart_P, cart_Q, cart_R, sq_f, sq_h, sq_jA, sq_jH, sq, [::]; split. Qed.

Lemma sq_well_shaped : e_well_shaped 2 1 sq cart_Z None.
Proof.
split; [by vm_compute|by vm_compute|by vm_compute|by vm_compute|].
have -> : e_steps sq cart_Z None = 3 by vm_compute.
move=> k Hk; have {Hk} Hk : (k == 0) || (k == 1) || (k == 2) by case: k Hk => [|[|[|k]]].
have HQ : all (fun k => cov_layout 2 (row (e_Q sq) k) && cov_layout 1 (row (e_R sq) k) &&
  (wf (row cart_Z k) && ((shp (row cart_Z k) == [:: 1]) || ((1 == 1) && (shp (row cart_Z k) == [::])))))
  [:: 0; 1; 2] by vm_compute.
have {}HQ : [/\ cov_layout 2 (row (e_Q sq) k), cov_layout 1 (row (e_R sq) k) &
  (wf (row cart_Z k) && ((shp (row cart_Z k) == [:: 1]) || ((1 == 1) && (shp (row cart_Z k) == [::]))))].
  move/allP: HQ => /(_ k); rewrite !inE orbA => /(_ Hk) /andP [/andP [h1 h2] h3]; split; [exact: h1|exact: h2|exact: h3].
case: HQ => h1 h2 h3; split; [exact: h1|exact: h2|exact: h3|].
move=> x Wx Sx.
have [y Ey Hy] : exists2 y, np_add (farr [:: 2] [:: fzero; fofZ 1]) x = Ok y & has [:: 2] y.
  by apply: bin_has; rewrite Sx bshape_same.
exists y, (if np_isnan_all x then row cart_A 0 else row cart_A 2), (farr [:: 1] [:: fofZ 3]), (row cart_H 0); split.
- split; first exact: Ey.
  case/hasP: Hy => _ Sy; rewrite Sy eqxx andbT.
  have F : isfloat (farr [:: 2] [:: fzero; fofZ 1]) by vm_compute.
  have D : dt (farr [:: 2] [:: fzero; fofZ 1]) = DFloat by vm_compute.
  by have /andP [W _] := np_bin_floatl Ey F (fun ix sh => @valid_bidx_l _ _ _ _).
- split; first by [].
  by case: (np_isnan_all x); vm_compute.
- by split; [|vm_compute].
by split; [|vm_compute].
Qed.

Example C45_case : well_shaped 2 1 1 cart cart_Z (Some cart_U) /\
  well_shaped 1 1 1 lvl lvl_Z None /\ steps cart cart_Z (Some cart_U) = nrows cart_Z /\
  e_constructed sq /\ e_well_shaped 2 1 sq cart_Z None /\ e_steps sq cart_Z None = nrows cart_Z /\
  isok (ekf_smooth sq cart_Z None [::]).2.
Proof.
split; first exact: cart_well_shaped.
split; first exact: lvl_well_shaped.
split; first by vm_compute.
split; first exact: sq_constructed.
split; first exact: sq_well_shaped.
by split; vm_compute.
Qed.
