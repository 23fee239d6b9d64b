(** * Conc: threads that share one object

    The value model ([Kf], [Ekf]) runs a method in one go.  Here a method is a
    program of small steps: reading an attribute of the shared object *now*, and
    appending to the shared list kalman_gains.  Everything between two such steps
    works on values local to the call, so that a switch of threads (or an
    interrupt) inside it is the same as one just before the next step.
    Simplification: reading the contents of an array that the object refers to is
    part of the step that uses it; no method writes to such an array (C54, C55),
    so only a user who does could tell the difference.  list.append is one step
    (it is atomic in CPython). *)
From Coq Require Import ZArith.
From mathcomp Require Import ssreflect ssrfun ssrbool eqtype ssrnat seq.
From Verif Require Import Np Kf Ekf.

Set Implicit Arguments.
Unset Strict Implicit.
Unset Printing Implicit Defensive.

Section Prog.
Variable N : num.
Notation arr := (arr N).
Variable O : Type.

Inductive prog (T : Type) : Type :=
| Ret (r : res T)                       (* finished: returned or raised *)
| Read (k : O -> prog T)                (* read the object *)
| Append (K : arr) (p : prog T).        (* self.kalman_gains.append(K) *)

Fixpoint pbind S T (p : prog S) (f : S -> prog T) : prog T :=
  match p with
  | Ret (Ok x) => f x
  | Ret (Raise e) => Ret (Raise e)
  | Read k => Read (fun o => pbind (k o) f)
  | Append K p' => Append K (pbind p' f)
  end.
Definition plift T (r : res T) : prog T := Ret r.
Definition pget T (a : O -> T) : prog T := Read (fun o => Ret (Ok (a o))).
Definition pappend (K : arr) : prog unit := Append K (Ret (Ok tt)).

Variable add : arr -> O -> O.

(** One step. *)
Definition pstep T (p : prog T) (o : O) : O * prog T :=
  match p with
  | Ret r => (o, Ret r)
  | Read k => (o, k o)
  | Append K p' => (add K o, p')
  end.

Definition outcome T (p : prog T) : option (res T) := if p is Ret r then Some r else None.

(** The shared object and the threads; thread i makes a step. *)
Definition world T := (O * seq (prog T))%type.
Definition nothing T : prog T := Ret (Raise TypeError).
Definition go T (w : world T) (i : nat) : world T :=
  if (i < size w.2)%N then
    let: (o, p) := pstep (nth (nothing T) w.2 i) w.1 in (o, set_nth (nothing T) w.2 i p)
  else w.
(** A schedule says whose turn it is. *)
Definition run_schedule T (w : world T) (sched : seq nat) : world T := foldl (@go T) w sched.

(** One thread and a user who does things to the object in between. *)
Inductive event := Turn | User (f : O -> O).
Definition happens T (w : O * prog T) (e : event) : O * prog T :=
  match e with
  | Turn => pstep w.2 w.1
  | User f => (f w.1, w.2)
  end.
Definition run_events T (w : O * prog T) (es : seq event) : O * prog T := foldl (@happens T) w es.
End Prog.


Arguments Turn {O}.
Arguments User {O} f.
Notation "'pdo' x <- m ; f" := (pbind m (fun x => f))
  (at level 200, x name, m at level 100, f at level 200).

(** ** The loops *)
Section Loops.
Variable N : num.
Notation arr := (arr N).
Variable O : Type.
Notation prog := (prog N O).

(** standard.py:292-308, extended.py:288-302 *)
Fixpoint p_filter_loop (S : Type) (step : S -> arr * arr -> prog (arr * arr))
    (rows : seq S) (k : nat) (xP out : arr * arr) : prog (arr * arr) :=
  match rows with
  | [::] => plift N O (Ok out)
  | s :: rows' =>
    pdo xP' <- step s xP;
    pdo out' <- plift N O (store out k xP');
    p_filter_loop step rows' k.+1 xP' out'
  end.

(** standard.py:364-383, extended.py:361-377 *)
Fixpoint p_smooth_loop (step : nat -> arr * arr -> prog (arr * arr))
    (j : nat) (sm : arr * arr) : prog (arr * arr) :=
  match j with
  | 0 => plift N O (Ok sm)
  | k.+1 => pdo sm' <- step k sm; p_smooth_loop step k sm'
  end.

(** np.zeros((len(Z), self.state_size)) and
    np.zeros((len(Z), self.state_size, self.state_size)), standard.py:278-279,
    :348-349, extended.py:274-275, :347-348: three reads of state_size. *)
Definition p_alloc (sz : O -> nat) (T : nat) : prog (arr * arr) :=
  pdo n1 <- pget N sz;
  pdo n2 <- pget N sz;
  pdo n3 <- pget N sz;
  plift N O (Ok (np_zeros N [:: T; n1], np_zeros N [:: T; n2; n3])).

(** xk_smooth[-1] = x_est[-1]; Pk_smooth[-1] = P_est[-1], standard.py:352-353,
    extended.py:351-352 *)
Definition smooth_last (sm xP_est : arr * arr) : res (arr * arr) :=
  do xl <- np_getitem xP_est.1 (-1);
  do smx <- np_setitem sm.1 (-1) xl;
  do Pl <- np_getitem xP_est.2 (-1);
  do smP <- np_setitem sm.2 (-1) Pl;
  Ok (smx, smP).
End Loops.

(** ** The methods of KalmanFilter *)
Section Standard.
Variable N : num.
Notation arr := (arr N).
Notation prog := (prog N (kf N)).
Notation pget a := (pget N a).
Notation plift r := (plift N (kf N) r).

(** standard.py:189-250 *)
Definition p_update (Hk xk Pk zk Rk : arr) : prog (arr * arr) :=
  pdo Sk <- plift (innov_cov Hk Pk Rk);
  pdo Kk <- plift (gain Sk Hk Pk);
  pdo _ <- pappend (kf N) Kk;                          (* :242 *)
  pdo zhat <- plift (np_matmul Hk xk);
  pdo x <- plift (correct_state xk Kk zk zhat);
  pdo I <- pget (@kf_I N);                             (* :248 *)
  pdo P <- plift (correct_cov I Kk Hk Pk);
  plift (Ok (x, P)).

(** standard.py:294-301 *)
Definition p_step (s : srow N) (xP : arr * arr) : prog (arr * arr) :=
  pdo pr <- plift (kf_predict (rA s) xP.1 (Some (rB s)) (Some (rU s)) xP.2 (rQ s));
  p_update (rH s) pr.1 pr.2 (rZ s) (rR s).

(** standard.py:252-310 *)
Definition p_filter (Z : arr) (U : option arr) : prog (arr * arr) :=
  pdo T <- plift (np_len Z);
  pdo out <- p_alloc N (@kf_size N) T;                 (* :278-279 *)
  pdo xk <- pget (@kf_xk N);                           (* :282 *)
  pdo Pk <- pget (@kf_Pk N);                           (* :283 *)
  let U' := check_none_and_broadcast U Z in
  pdo A <- pget (@kf_A N);                             (* :291 *)
  pdo H <- pget (@kf_H N);
  pdo B <- pget (@kf_B N);
  pdo Q <- pget (@kf_Q N);
  pdo R <- pget (@kf_R N);
  pdo a <- plift (np_iter A);
  pdo h <- plift (np_iter H);
  pdo b <- plift (np_iter B);
  pdo u <- plift (np_iter U');
  pdo z <- plift (np_iter Z);
  pdo q <- plift (np_iter Q);
  pdo r <- plift (np_iter R);
  p_filter_loop p_step (zip7 a h b u z q r) 0 (xk, Pk) out.

(** standard.py:364-383, with the local variables A, B, Q of :357-359 *)
Definition p_smooth_body (A B Q U : arr) (xP_est : arr * arr) (k : nat) (sm : arr * arr) : res (arr * arr) :=
  do Ak <- np_getitem A (Z.of_nat k.+1);
  do Qk <- np_getitem Q (Z.of_nat k.+1);
  do Bk <- np_getitem B (Z.of_nat k.+1);
  do uk <- np_getitem U (Z.of_nat k.+1);
  do Pk <- np_getitem xP_est.2 (Z.of_nat k);
  do xk <- np_getitem xP_est.1 (Z.of_nat k);
  do ahead <- kf_predict Ak xk (Some Bk) (Some uk) Pk Qk;
  smooth_body xP_est sm k ahead Ak.

(** standard.py:312-385 *)
Definition p_smooth (Z : arr) (U : option arr) : prog (arr * arr) :=
  pdo xP_est <- p_filter Z U;                          (* :345 *)
  pdo T <- plift (np_len Z);
  pdo sm0 <- p_alloc N (@kf_size N) T;                 (* :348-349 *)
  pdo sm <- plift (smooth_last sm0 xP_est);
  let U' := check_none_and_broadcast U Z in
  pdo A <- pget (@kf_A N);                             (* :357 *)
  pdo B <- pget (@kf_B N);
  pdo Q <- pget (@kf_Q N);
  p_smooth_loop (fun k sm => plift (p_smooth_body A B Q U' xP_est k sm)) (T - 1) sm.

Definition thread_of (c : call N) : prog (arr * arr) :=
  match c with
  | CPredict Ak xk Bk uk Pk Qk => plift (kf_predict Ak xk Bk uk Pk Qk)
  | CUpdate Hk xk Pk zk Rk => p_update Hk xk Pk zk Rk
  | CFilter Z U => p_filter Z U
  | CSmooth Z U => p_smooth Z U
  end.

Definition kf_add (K : arr) (o : kf N) : kf N := with_gains o (rcons (kf_gains o) K).
End Standard.

(** ** The methods of ExtendedKalmanFilter *)
Section Extended.
Variable N : num.
Notation arr := (arr N).
Notation prog := (prog N (ekf N)).
Notation pget a := (pget N a).
Notation plift r := (plift N (ekf N) r).

(** extended.py:144-187: the callables are attributes, read when called. *)
Definition p_epredict (xk : arr) (uk : option arr) (Pk Qk : arr) : prog (arr * arr) :=
  pdo jA <- pget (@e_jA N);                            (* :179 *)
  pdo Ak <- plift (jA xk uk);
  pdo f <- pget (@e_f N);                              (* :182 *)
  pdo x <- plift (f xk uk);
  pdo P <- plift (project_cov Ak Pk Qk);
  plift (Ok (x, P)).

(** extended.py:189-246 *)
Definition p_eupdate (xk Pk zk Rk : arr) : prog (arr * arr) :=
  pdo jH <- pget (@e_jH N);                            (* :231 *)
  pdo Hk <- plift (jH xk);
  pdo Sk <- plift (innov_cov Hk Pk Rk);
  pdo Kk <- plift (gain Sk Hk Pk);
  pdo _ <- pappend (ekf N) Kk;                         (* :238 *)
  pdo h <- pget (@e_h N);                              (* :241 *)
  pdo zhat <- plift (h xk);
  pdo x <- plift (correct_state xk Kk zk zhat);
  pdo I <- pget (@e_I N);                              (* :244 *)
  pdo P <- plift (correct_cov I Kk Hk Pk);
  plift (Ok (x, P)).

(** extended.py:290-295 *)
Definition p_estep (s : erow N) (xP : arr * arr) : prog (arr * arr) :=
  pdo pr <- p_epredict xP.1 (Some (eU s)) xP.2 (eQ s);
  p_eupdate pr.1 pr.2 (eZ s) (eR s).

(** extended.py:248-304 *)
Definition p_efilter (Z : arr) (U : option arr) : prog (arr * arr) :=
  pdo T <- plift (np_len Z);
  pdo out <- p_alloc N (@e_size N) T;                  (* :274-275 *)
  pdo xk <- pget (@e_xk N);                            (* :278 *)
  pdo Pk <- pget (@e_Pk N);                            (* :279 *)
  let U' := check_none_and_broadcast U Z in
  pdo Q <- pget (@e_Q N);                              (* :287 *)
  pdo R <- pget (@e_R N);
  pdo u <- plift (np_iter U');
  pdo z <- plift (np_iter Z);
  pdo q <- plift (np_iter Q);
  pdo r <- plift (np_iter R);
  p_filter_loop p_estep (zip4 u z q r) 0 (xk, Pk) out.

(** extended.py:361-377, with the local variable Q of :356 *)
Definition p_esmooth_step (Q U : arr) (xP_est : arr * arr) (k : nat) (sm : arr * arr) : prog (arr * arr) :=
  pdo Qk <- plift (np_getitem Q (Z.of_nat k.+1));
  pdo uk <- plift (np_getitem U (Z.of_nat k.+1));
  pdo Pk <- plift (np_getitem xP_est.2 (Z.of_nat k));
  pdo xk <- plift (np_getitem xP_est.1 (Z.of_nat k));
  pdo ahead <- p_epredict xk (Some uk) Pk Qk;          (* :369 *)
  pdo jA <- pget (@e_jA N);                            (* :372 *)
  pdo Ak <- plift (jA xk (Some uk));
  plift (smooth_body xP_est sm k ahead Ak).

(** extended.py:306-379 *)
Definition p_esmooth (Z : arr) (U : option arr) : prog (arr * arr) :=
  pdo xP_est <- p_efilter Z U;                         (* :344 *)
  pdo T <- plift (np_len Z);
  pdo sm0 <- p_alloc N (@e_size N) T;                  (* :347-348 *)
  pdo sm <- plift (smooth_last sm0 xP_est);
  let U' := check_none_and_broadcast U Z in
  pdo Q <- pget (@e_Q N);                              (* :356 *)
  p_smooth_loop (p_esmooth_step Q U' xP_est) (T - 1) sm.

Definition e_thread_of (c : ecall N) : prog (arr * arr) :=
  match c with
  | EPredict xk uk Pk Qk => p_epredict xk uk Pk Qk
  | EUpdate xk Pk zk Rk => p_eupdate xk Pk zk Rk
  | EFilter Z U => p_efilter Z U
  | ESmooth Z U => p_esmooth Z U
  end.

Definition ekf_add (K : arr) (o : ekf N) : ekf N := e_with_gains o (rcons (e_gains o) K).
End Extended.
