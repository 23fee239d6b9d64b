(** * Kf: the model of utils.py and standard.py *)
From Coq Require Import ZArith.
From mathcomp Require Import ssreflect ssrfun ssrbool eqtype ssrnat seq.
From Verif Require Import Np.

Set Implicit Arguments.
Unset Strict Implicit.
Unset Printing Implicit Defensive.

Section Model.
Variable N : num.
Notation arr := (arr N).

(** utils.py:12-35 check_none_and_broadcast; Python's None is Coq's [None]. *)
Definition check_none_and_broadcast (a : option arr) (broad_to : arr) : arr :=
  match a with
  | None => np_full_like_nan broad_to       (* utils.py:32-33 *)
  | Some x => x                             (* utils.py:35 *)
  end.

(** utils.py:38-51 is_nan_all. np.isnan(None) raises TypeError. *)
Definition is_nan_all (a : option arr) : res bool :=
  match a with
  | None => Raise TypeError
  | Some x => Ok (np_isnan_all x)
  end.

(** A method that can append to self.kalman_gains: from the list before the
    call to the list after it, with a value or an exception.  The list keeps
    what was appended before an exception. *)
Definition meth (T : Type) := seq arr -> seq arr * res T.

Definition mret T (x : T) : meth T := fun g => (g, Ok x).
Definition mlift T (r : res T) : meth T := fun g => (g, r).
Definition mbind S T (m : meth S) (f : S -> meth T) : meth T := fun g =>
  match m g with
  | (g', Ok x) => f x g'
  | (g', Raise e) => (g', Raise e)
  end.
(** self.kalman_gains.append(K) *)
Definition append_gain (Kk : arr) : meth unit := fun g => (rcons g Kk, Ok tt).

Notation "'mdo' x <- m ; f" := (mbind m (fun x => f))
  (at level 200, x name, m at level 100, f at level 200).

(** standard.py:116-130: the attributes of a KalmanFilter (kf_I is the private
    self.__I). *)
Record kf := Kf {
  kf_A : arr; kf_xk : arr; kf_B : arr; kf_Pk : arr;
  kf_H : arr; kf_Q : arr; kf_R : arr;
  kf_size : nat; kf_I : arr; kf_gains : seq arr
}.

(** xk.shape[0], standard.py:128 and extended.py:140 (IndexError on a 0-d
    array: the shape tuple is empty). *)
Definition shape0 (a : arr) : res nat :=
  if shp a is d :: _ then Ok d else Raise IndexError.

(** standard.py:105-130 KalmanFilter.__init__. [state_size] is None or an
    integer; 0 is falsy (line 125); np.identity refuses a negative size. *)
Definition kf_init (A xk : arr) (B : option arr) (Pk H Q R : arr)
    (state_size : option Z) : res kf :=
  let B' := check_none_and_broadcast B A in           (* :118 *)
  do n <- (match state_size with
           | Some z => if (z =? 0)%Z then shape0 xk
                       else if (z <? 0)%Z then Raise ValueError
                       else Ok (Z.to_nat z)
           | None => shape0 xk
           end);                                       (* :125-128 *)
  Ok (Kf A xk B' Pk H Q R n (np_identity N n) [::]).   (* :129-130 *)

(** standard.py:185 and extended.py:185: Ak @ (Pk @ Ak.T) + Qk *)
Definition project_cov (Ak Pk Qk : arr) : res arr :=
  do PA <- np_matmul Pk (np_T Ak);
  do APA <- np_matmul Ak PA;
  np_add APA Qk.

(** standard.py:179-182. [or] does not evaluate its second operand when the
    first is true. *)
Definition project_state (Ak xk : arr) (Bk uk : option arr) : res arr :=
  do bnan <- is_nan_all Bk;
  do skip <- (if bnan then Ok true else is_nan_all uk);
  if skip then np_matmul Ak xk
  else
    do Ax <- np_matmul Ak xk;
    match Bk, uk with
    | Some b, Some u => do Bu <- np_matmul b u; np_add Ax Bu
    | _, _ => Raise TypeError
    end.

(** standard.py:132-187 KalmanFilter.predict *)
Definition kf_predict (Ak xk : arr) (Bk uk : option arr) (Pk Qk : arr)
    : res (arr * arr) :=
  do x <- project_state Ak xk Bk uk;
  do P <- project_cov Ak Pk Qk;
  Ok (x, P).

(** standard.py:238 and extended.py:234: Hk @ (Pk @ Hk.T) + Rk *)
Definition innov_cov (Hk Pk Rk : arr) : res arr :=
  do PH <- np_matmul Pk (np_T Hk);
  do HPH <- np_matmul Hk PH;
  np_add HPH Rk.

(** standard.py:241 and extended.py:237:
    np.linalg.solve(Sk.T, Hk @ Pk.T).T *)
Definition gain (Sk Hk Pk : arr) : res arr :=
  do HP <- np_matmul Hk (np_T Pk);
  do X <- np_solve (np_T Sk) HP;
  Ok (np_T X).

(** standard.py:245 and extended.py:241:
    xk + Kk @ np.atleast_1d(zk - zhat) *)
Definition correct_state (xk Kk zk zhat : arr) : res arr :=
  do y <- np_sub zk zhat;
  do Ky <- np_matmul Kk (np_atleast_1d y);
  np_add xk Ky.

(** standard.py:248 and extended.py:244: (self.__I - Kk @ Hk) @ Pk *)
Definition correct_cov (I Kk Hk Pk : arr) : res arr :=
  do KH <- np_matmul Kk Hk;
  do IKH <- np_sub I KH;
  np_matmul IKH Pk.

(** standard.py:189-250 KalmanFilter.update *)
Definition kf_update (I Hk xk Pk zk Rk : arr) : meth (arr * arr) :=
  mdo Sk <- mlift (innov_cov Hk Pk Rk);
  mdo Kk <- mlift (gain Sk Hk Pk);
  mdo _ <- append_gain Kk;                             (* :242 *)
  mdo zhat <- mlift (np_matmul Hk xk);
  mdo x <- mlift (correct_state xk Kk zk zhat);
  mdo P <- mlift (correct_cov I Kk Hk Pk);
  mret (x, P).

(** One element of zip(self.A, self.H, self.B, U, Z, self.Q, self.R),
    standard.py:291-292. *)
Record srow := SRow { rA : arr; rH : arr; rB : arr; rU : arr; rZ : arr; rQ : arr; rR : arr }.

Fixpoint zip7 (a h b u z q r : seq arr) : seq srow :=
  match a, h, b, u, z, q, r with
  | a0 :: a', h0 :: h', b0 :: b', u0 :: u', z0 :: z', q0 :: q', r0 :: r' =>
    SRow a0 h0 b0 u0 z0 q0 r0 :: zip7 a' h' b' u' z' q' r'
  | _, _, _, _, _, _, _ => [::]
  end.

(** standard.py:294-301: one predict and one update. *)
Definition kf_step (I : arr) (s : srow) (xP : arr * arr) : meth (arr * arr) :=
  mdo pr <- mlift (kf_predict (rA s) xP.1 (Some (rB s)) (Some (rU s)) xP.2 (rQ s));
  kf_update I (rH s) pr.1 pr.2 (rZ s) (rR s).

(** states[k] = x; errors[k] = P, standard.py:303-304, extended.py:297-298. *)
Definition store (out : arr * arr) (k : nat) (xP : arr * arr) : res (arr * arr) :=
  do st <- np_setitem out.1 (Z.of_nat k) xP.1;
  do er <- np_setitem out.2 (Z.of_nat k) xP.2;
  Ok (st, er).

(** standard.py:292-308, extended.py:288-302: the loop, over the rows that
    remain; [k] counts the rows done, [xP] is (xk, Pk), [out] is
    (states, errors). *)
Fixpoint filter_loop (S : Type) (step : S -> arr * arr -> meth (arr * arr))
    (rows : seq S) (k : nat) (xP out : arr * arr) : meth (arr * arr) :=
  match rows with
  | [::] => mret out
  | s :: rows' =>
    mdo xP' <- step s xP;
    mdo out' <- mlift (store out k xP');
    filter_loop step rows' k.+1 xP' out'
  end.

(** np.zeros((len(Z), n)) and np.zeros((len(Z), n, n)),
    standard.py:278-279, extended.py:274-275. *)
Definition alloc (T n : nat) : arr * arr :=
  (np_zeros N [:: T; n], np_zeros N [:: T; n; n]).

(** standard.py:252-310 KalmanFilter.filter *)
Definition kf_filter (self : kf) (Z : arr) (U : option arr) : meth (arr * arr) :=
  mdo T <- mlift (np_len Z);
  let U' := check_none_and_broadcast U Z in            (* :286 *)
  mdo a <- mlift (np_iter (kf_A self));                (* :291 *)
  mdo h <- mlift (np_iter (kf_H self));
  mdo b <- mlift (np_iter (kf_B self));
  mdo u <- mlift (np_iter U');
  mdo z <- mlift (np_iter Z);
  mdo q <- mlift (np_iter (kf_Q self));
  mdo r <- mlift (np_iter (kf_R self));
  filter_loop (kf_step (kf_I self)) (zip7 a h b u z q r) 0
              (kf_xk self, kf_Pk self) (alloc T (kf_size self)).

(** standard.py:379 and extended.py:375:
    np.linalg.solve(Pk_ahead.T, (Pk @ Ak.T).T).T *)
Definition smooth_gain (Pahead Pk Ak : arr) : res arr :=
  do PA <- np_matmul Pk (np_T Ak);
  do X <- np_solve (np_T Pahead) (np_T PA);
  Ok (np_T X).

(** standard.py:380 and extended.py:376 (right-hand side). *)
Definition smooth_state (xk G xs_next xahead : arr) : res arr :=
  do d <- np_sub xs_next xahead;
  do Gd <- np_matmul G d;
  np_add xk Gd.

(** standard.py:381-383 and extended.py:377 (right-hand side). *)
Definition smooth_cov (Pk G Ps_next Pahead : arr) : res arr :=
  do D <- np_sub Ps_next Pahead;
  do DG <- np_matmul D (np_T G);
  do GDG <- np_matmul G DG;
  np_add Pk GDG.

(** standard.py:374-383, extended.py:369-377: the body of the smoothing loop
    at index [k], once (xk_ahead, Pk_ahead) and Ak are known. *)
Definition smooth_body (xP_est sm : arr * arr) (k : nat) (ahead : arr * arr)
    (Ak : arr) : res (arr * arr) :=
  do Pk <- np_getitem xP_est.2 (Z.of_nat k);
  do xk <- np_getitem xP_est.1 (Z.of_nat k);
  do G <- smooth_gain ahead.2 Pk Ak;
  do xs1 <- np_getitem sm.1 (Z.of_nat k.+1);
  do xs <- smooth_state xk G xs1 ahead.1;
  do smx <- np_setitem sm.1 (Z.of_nat k) xs;
  do Ps1 <- np_getitem sm.2 (Z.of_nat k.+1);
  do Ps <- smooth_cov Pk G Ps1 ahead.2;
  do smP <- np_setitem sm.2 (Z.of_nat k) Ps;
  Ok (smx, smP).

(** standard.py:364-383: one iteration, index [k]. *)
Definition kf_smooth_step (self : kf) (U : arr) (xP_est : arr * arr) (k : nat)
    (sm : arr * arr) : res (arr * arr) :=
  do Ak <- np_getitem (kf_A self) (Z.of_nat k.+1);
  do Qk <- np_getitem (kf_Q self) (Z.of_nat k.+1);
  do Bk <- np_getitem (kf_B self) (Z.of_nat k.+1);
  do uk <- np_getitem U (Z.of_nat k.+1);
  do Pk <- np_getitem xP_est.2 (Z.of_nat k);
  do xk <- np_getitem xP_est.1 (Z.of_nat k);
  do ahead <- kf_predict Ak xk (Some Bk) (Some uk) Pk Qk;
  smooth_body xP_est sm k ahead Ak.

(** for k in range(n_obs - 2, -1, -1), standard.py:364, extended.py:361:
    [smooth_loop step j] runs k = j-1, ..., 0. *)
Fixpoint smooth_loop (step : nat -> arr * arr -> res (arr * arr))
    (j : nat) (sm : arr * arr) : res (arr * arr) :=
  match j with
  | 0 => Ok sm
  | k.+1 => do sm' <- step k sm; smooth_loop step k sm'
  end.

(** standard.py:348-353, extended.py:347-352: allocation and last element. *)
Definition smooth_init (T n : nat) (xP_est : arr * arr) : res (arr * arr) :=
  let sm := alloc T n in
  do xl <- np_getitem xP_est.1 (-1);
  do smx <- np_setitem sm.1 (-1) xl;
  do Pl <- np_getitem xP_est.2 (-1);
  do smP <- np_setitem sm.2 (-1) Pl;
  Ok (smx, smP).

(** standard.py:312-385 KalmanFilter.smooth *)
Definition kf_smooth (self : kf) (Z : arr) (U : option arr) : meth (arr * arr) :=
  mdo xP_est <- kf_filter self Z U;                    (* :345 *)
  mdo T <- mlift (np_len Z);                           (* :348, :363 *)
  mdo sm <- mlift (smooth_init T (kf_size self) xP_est);
  let U' := check_none_and_broadcast U Z in            (* :356 *)
  mlift (smooth_loop (kf_smooth_step self U' xP_est) (T - 1) sm).

(** The public methods as operations on the object: only kalman_gains is
    assigned after construction (standard.py:242). *)
Definition with_gains (self : kf) (g : seq arr) : kf :=
  Kf (kf_A self) (kf_xk self) (kf_B self) (kf_Pk self) (kf_H self) (kf_Q self)
     (kf_R self) (kf_size self) (kf_I self) g.

Inductive call :=
| CPredict (Ak xk : arr) (Bk uk : option arr) (Pk Qk : arr)
| CUpdate (Hk xk Pk zk Rk : arr)
| CFilter (Z : arr) (U : option arr)
| CSmooth (Z : arr) (U : option arr).

Definition run_meth (c : call) (self : kf) : meth (arr * arr) :=
  match c with
  | CPredict Ak xk Bk uk Pk Qk => mlift (kf_predict Ak xk Bk uk Pk Qk)
  | CUpdate Hk xk Pk zk Rk => kf_update (kf_I self) Hk xk Pk zk Rk
  | CFilter Z U => kf_filter self Z U
  | CSmooth Z U => kf_smooth self Z U
  end.

Definition kf_call (self : kf) (c : call) : kf * res (arr * arr) :=
  let: (g, r) := run_meth c self (kf_gains self) in (with_gains self g, r).

(** A history of calls on one object: the object and every outcome. *)
Fixpoint kf_calls (self : kf) (cs : seq call) : kf * seq (res (arr * arr)) :=
  match cs with
  | [::] => (self, [::])
  | c :: cs' =>
    let: (self1, r) := kf_call self c in
    let: (self2, rs) := kf_calls self1 cs' in (self2, r :: rs)
  end.

End Model.

Notation "'mdo' x <- m ; f" := (mbind m (fun x => f))
  (at level 200, x name, m at level 100, f at level 200).
