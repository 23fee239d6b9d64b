(** * Ekf: the model of extended.py *)
From Coq Require Import ZArith.
From mathcomp Require Import ssreflect ssrfun ssrbool eqtype ssrnat seq.
From Verif Require Import Np Kf.

Set Implicit Arguments.
Unset Strict Implicit.
Unset Printing Implicit Defensive.

Section Model.
Variable N : num.
Notation arr := (arr N).

(** extended.py:130-142: the attributes of an ExtendedKalmanFilter.  The user's
    callables are functions from arrays to an array or an exception: they are
    assumed to depend on their arguments only, and not to modify them.  The
    control-input can be None when predict is called directly. *)
Record ekf := Ekf {
  e_f : arr -> option arr -> res arr;
  e_h : arr -> res arr;
  e_jA : arr -> option arr -> res arr;
  e_jH : arr -> res arr;
  e_xk : arr; e_Pk : arr; e_Q : arr; e_R : arr;
  e_size : nat; e_I : arr; e_gains : seq arr
}.

(** extended.py:119-142 ExtendedKalmanFilter.__init__ *)
Definition ekf_init (xk Pk Q R : arr)
    (f : arr -> option arr -> res arr) (h : arr -> res arr)
    (jA : arr -> option arr -> res arr) (jH : arr -> res arr) : res ekf :=
  do n <- shape0 xk;                                       (* :140 *)
  Ok (Ekf f h jA jH xk Pk Q R n (np_identity N n) [::]).   (* :141-142 *)

(** extended.py:144-187 ExtendedKalmanFilter.predict *)
Definition ekf_predict (self : ekf) (xk : arr) (uk : option arr) (Pk Qk : arr)
    : res (arr * arr) :=
  do Ak <- e_jA self xk uk;                                (* :179 *)
  do x <- e_f self xk uk;                                  (* :182 *)
  do P <- project_cov Ak Pk Qk;                            (* :185 *)
  Ok (x, P).

(** extended.py:189-246 ExtendedKalmanFilter.update *)
Definition ekf_update (self : ekf) (xk Pk zk Rk : arr) : meth N (arr * arr) :=
  mdo Hk <- mlift (e_jH self xk);                          (* :231 *)
  mdo Sk <- mlift (innov_cov Hk Pk Rk);                    (* :234 *)
  mdo Kk <- mlift (gain Sk Hk Pk);                         (* :237 *)
  mdo _ <- append_gain Kk;                                 (* :238 *)
  mdo zhat <- mlift (e_h self xk);                         (* :241 *)
  mdo x <- mlift (correct_state xk Kk zk zhat);            (* :241 *)
  mdo P <- mlift (correct_cov (e_I self) Kk Hk Pk);        (* :244 *)
  mret (x, P).

(** One element of zip(U, Z, self.Q, self.R), extended.py:287-288. *)
Record erow := ERow { eU : arr; eZ : arr; eQ : arr; eR : arr }.

Fixpoint zip4 (u z q r : seq arr) : seq erow :=
  match u, z, q, r with
  | u0 :: u', z0 :: z', q0 :: q', r0 :: r' => ERow u0 z0 q0 r0 :: zip4 u' z' q' r'
  | _, _, _, _ => [::]
  end.

(** extended.py:290-295 *)
Definition ekf_step (self : ekf) (s : erow) (xP : arr * arr) : meth N (arr * arr) :=
  mdo pr <- mlift (ekf_predict self xP.1 (Some (eU s)) xP.2 (eQ s));
  ekf_update self pr.1 pr.2 (eZ s) (eR s).

(** extended.py:248-304 ExtendedKalmanFilter.filter *)
Definition ekf_filter (self : ekf) (Z : arr) (U : option arr) : meth N (arr * arr) :=
  mdo T <- mlift (np_len Z);
  let U' := check_none_and_broadcast U Z in                (* :282 *)
  mdo u <- mlift (np_iter U');                             (* :287 *)
  mdo z <- mlift (np_iter Z);
  mdo q <- mlift (np_iter (e_Q self));
  mdo r <- mlift (np_iter (e_R self));
  filter_loop (ekf_step self) (zip4 u z q r) 0
              (e_xk self, e_Pk self) (alloc N T (e_size self)).

(** extended.py:361-377: one iteration of the smoothing loop, index [k]. *)
Definition ekf_smooth_step (self : ekf) (U : arr) (xP_est : arr * arr) (k : nat)
    (sm : arr * arr) : res (arr * arr) :=
  do Qk <- np_getitem (e_Q self) (Z.of_nat k.+1);
  do uk <- np_getitem U (Z.of_nat k.+1);
  do Pk <- np_getitem xP_est.2 (Z.of_nat k);
  do xk <- np_getitem xP_est.1 (Z.of_nat k);
  do ahead <- ekf_predict self xk (Some uk) Pk Qk;         (* :369 *)
  do Ak <- e_jA self xk (Some uk);                         (* :372 *)
  smooth_body xP_est sm k ahead Ak.

(** extended.py:306-379 ExtendedKalmanFilter.smooth *)
Definition ekf_smooth (self : ekf) (Z : arr) (U : option arr) : meth N (arr * arr) :=
  mdo xP_est <- ekf_filter self Z U;                       (* :344 *)
  mdo T <- mlift (np_len Z);
  mdo sm <- mlift (smooth_init T (e_size self) xP_est);
  let U' := check_none_and_broadcast U Z in                (* :355 *)
  mlift (smooth_loop (ekf_smooth_step self U' xP_est) (T - 1) sm).

(** The object after a call: only kalman_gains is assigned. *)
Definition e_with_gains (self : ekf) (g : seq arr) : ekf :=
  Ekf (e_f self) (e_h self) (e_jA self) (e_jH self) (e_xk self) (e_Pk self)
      (e_Q self) (e_R self) (e_size self) (e_I self) g.

Inductive ecall :=
| EPredict (xk : arr) (uk : option arr) (Pk Qk : arr)
| EUpdate (xk Pk zk Rk : arr)
| EFilter (Z : arr) (U : option arr)
| ESmooth (Z : arr) (U : option arr).

Definition e_run (c : ecall) (self : ekf) : meth N (arr * arr) :=
  match c with
  | EPredict xk uk Pk Qk => mlift (ekf_predict self xk uk Pk Qk)
  | EUpdate xk Pk zk Rk => ekf_update self xk Pk zk Rk
  | EFilter Z U => ekf_filter self Z U
  | ESmooth Z U => ekf_smooth self Z U
  end.

Definition e_call (self : ekf) (c : ecall) : ekf * res (arr * arr) :=
  let: (g, r) := e_run c self (e_gains self) in (e_with_gains self g, r).

Fixpoint e_calls (self : ekf) (cs : seq ecall) : ekf * seq (res (arr * arr)) :=
  match cs with
  | [::] => (self, [::])
  | c :: cs' =>
    let: (self1, r) := e_call self c in
    let: (self2, rs) := e_calls self1 cs' in (self2, r :: rs)
  end.

End Model.
