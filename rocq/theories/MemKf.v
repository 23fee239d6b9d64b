(** * MemKf: utils.py, standard.py and extended.py on arrays in memory

    The same functions as in [Kf] and [Ekf], statement by statement, on array
    references: which arrays are views of which, what is allocated and what is
    written in place. *)
From Coq Require Import ZArith.
From mathcomp Require Import ssreflect ssrfun ssrbool eqtype ssrnat seq.
From Verif Require Import Np Kf Mem.

Set Implicit Arguments.
Unset Strict Implicit.
Unset Printing Implicit Defensive.

Section Model.
Variable N : num.
Notation hres := (hres N).
Notation hmeth := (hmeth N).

(** utils.py:12-35: the array passed is returned itself, not a copy. *)
Definition h_check_none (a : option ref) (broad_to : ref) : hres ref :=
  match a with None => h_full_like_nan broad_to | Some x => hret x end.

(** utils.py:38-51 *)
Definition h_is_nan_all (a : option ref) : hres bool :=
  match a with None => hraise bool TypeError | Some x => h_isnan_all x end.

(** standard.py:116-130: the attributes hold references. *)
Record hkf := HKf {
  h_A : ref; h_xk : ref; h_B : ref; h_Pk : ref;
  h_H : ref; h_Q : ref; h_R : ref;
  h_size : nat; h_I : ref; h_gains : seq ref
}.

(** xk.shape[0], standard.py:128 and extended.py:140 *)
Definition h_shape0 (a : ref) : hres nat := fun h => (h, shape0 (val h a)).

(** standard.py:105-130 KalmanFilter.__init__ *)
Definition hkf_init (A xk : ref) (B : option ref) (Pk H Q R : ref)
    (state_size : option Z) : hres hkf :=
  hdo B' <- h_check_none B A;                                  (* :118 *)
  hdo n <- (match state_size with
            | Some z => if (z =? 0)%Z then h_shape0 xk
                        else if (z <? 0)%Z then hraise nat ValueError
                        else hret (Z.to_nat z)
            | None => h_shape0 xk
            end);                                              (* :125-128 *)
  hdo I <- h_new (np_identity N n);                            (* :129 *)
  hret (HKf A xk B' Pk H Q R n I [::]).                      (* :130 *)

(** standard.py:185, extended.py:185: Ak @ (Pk @ Ak.T) + Qk *)
Definition h_project_cov (Ak Pk Qk : ref) : hres ref :=
  hdo PA <- h_matmul Pk (h_T Ak);
  hdo APA <- h_matmul Ak PA;
  h_add APA Qk.

(** standard.py:179-182 *)
Definition h_project_state (Ak xk : ref) (Bk uk : option ref) : hres ref :=
  hdo bnan <- h_is_nan_all Bk;
  hdo skip <- (if bnan then hret true else h_is_nan_all uk);
  if skip then h_matmul Ak xk
  else
    hdo Ax <- h_matmul Ak xk;
    match Bk, uk with
    | Some b, Some u => hdo Bu <- h_matmul b u; h_add Ax Bu
    | _, _ => hraise ref TypeError
    end.

(** standard.py:132-187 KalmanFilter.predict *)
Definition hkf_predict (Ak xk : ref) (Bk uk : option ref) (Pk Qk : ref) : hres (ref * ref) :=
  hdo x <- h_project_state Ak xk Bk uk;
  hdo P <- h_project_cov Ak Pk Qk;
  hret (x, P).

(** standard.py:238, extended.py:234 *)
Definition h_innov_cov (Hk Pk Rk : ref) : hres ref :=
  hdo PH <- h_matmul Pk (h_T Hk);
  hdo HPH <- h_matmul Hk PH;
  h_add HPH Rk.

(** standard.py:241, extended.py:237: the gain is a transposed view of what
    np.linalg.solve allocated. *)
Definition h_gain (Sk Hk Pk : ref) : hres ref :=
  hdo HP <- h_matmul Hk (h_T Pk);
  hdo X <- h_solve (h_T Sk) HP;
  hret (h_T X).

(** standard.py:245, extended.py:241 *)
Definition h_correct_state (xk Kk zk zhat : ref) : hres ref :=
  hdo y <- h_sub zk zhat;
  hdo Ky <- h_matmul Kk (h_atleast_1d y);
  h_add xk Ky.

(** standard.py:248, extended.py:244 *)
Definition h_correct_cov (I Kk Hk Pk : ref) : hres ref :=
  hdo KH <- h_matmul Kk Hk;
  hdo IKH <- h_sub I KH;
  h_matmul IKH Pk.

(** standard.py:189-250 KalmanFilter.update *)
Definition hkf_update (I Hk xk Pk zk Rk : ref) : hmeth (ref * ref) :=
  hmdo Sk <- hmlift (h_innov_cov Hk Pk Rk);
  hmdo Kk <- hmlift (h_gain Sk Hk Pk);
  hmdo _ <- h_append_gain Kk;                                (* :242 *)
  hmdo zhat <- hmlift (h_matmul Hk xk);
  hmdo x <- hmlift (h_correct_state xk Kk zk zhat);
  hmdo P <- hmlift (h_correct_cov I Kk Hk Pk);
  hmret (x, P).

(** standard.py:303-308, extended.py:297-302: states[k] and errors[k] are
    written in place; xk, Pk become the posterior arrays themselves. *)
Definition h_store (out : ref * ref) (k : nat) (xP : ref * ref) : hres unit :=
  hdo _ <- h_setitem out.1 (Z.of_nat k) xP.1;
  h_setitem out.2 (Z.of_nat k) xP.2.

(** standard.py:292-310, extended.py:288-304: [todo] more steps from step [k].
    [step k] draws the next element of every iterable and runs predict and
    update.  zip stops with the shortest iterable; what it drew from the longer
    ones just before stopping is dropped and not modelled. *)
Fixpoint h_filter_loop (step : nat -> ref * ref -> hmeth (ref * ref))
    (todo k : nat) (xP out : ref * ref) : hmeth (ref * ref) :=
  match todo with
  | 0 => hmret out
  | todo'.+1 =>
    hmdo xP' <- step k xP;
    hmdo _ <- hmlift (h_store out k xP');
    h_filter_loop step todo' k.+1 xP' out
  end.

(** standard.py:278-279 and 348-349, extended.py:274-275 and 347-348 *)
Definition h_alloc (T n : nat) : hres (ref * ref) :=
  hdo st <- h_new (np_zeros N [:: T; n]);
  hdo er <- h_new (np_zeros N [:: T; n; n]);
  hret (st, er).

(** iter(a): TypeError for a 0-d array; the number of elements it will give. *)
Definition h_iter (a : ref) : hres nat := h_len a.

(** standard.py:292-301: one element of zip(A, H, B, U, Z, Q, R), then predict
    and update. *)
Definition hkf_step (self : hkf) (U Z : ref) (k : nat) (xP : ref * ref) : hmeth (ref * ref) :=
  hmdo Ak <- hmlift (h_row (h_A self) k);
  hmdo Hk <- hmlift (h_row (h_H self) k);
  hmdo Bk <- hmlift (h_row (h_B self) k);
  hmdo uk <- hmlift (h_row U k);
  hmdo zk <- hmlift (h_row Z k);
  hmdo Qk <- hmlift (h_row (h_Q self) k);
  hmdo Rk <- hmlift (h_row (h_R self) k);
  hmdo pr <- hmlift (hkf_predict Ak xP.1 (Some Bk) (Some uk) xP.2 Qk);
  hkf_update (h_I self) Hk pr.1 pr.2 zk Rk.

(** standard.py:252-310 KalmanFilter.filter *)
Definition hkf_filter (self : hkf) (Z : ref) (U : option ref) : hmeth (ref * ref) :=
  hmdo T <- hmlift (h_len Z);
  hmdo out <- hmlift (h_alloc T (h_size self));                (* :278-279 *)
  hmdo U' <- hmlift (h_check_none U Z);                        (* :286 *)
  hmdo a <- hmlift (h_iter (h_A self));                        (* :291 *)
  hmdo h <- hmlift (h_iter (h_H self));
  hmdo b <- hmlift (h_iter (h_B self));
  hmdo u <- hmlift (h_iter U');
  hmdo z <- hmlift (h_iter Z);
  hmdo q <- hmlift (h_iter (h_Q self));
  hmdo r <- hmlift (h_iter (h_R self));
  h_filter_loop (hkf_step self U' Z) (foldr minn z [:: a; h; b; u; q; r]) 0
                (h_xk self, h_Pk self) out.

(** standard.py:379, extended.py:375 *)
Definition h_smooth_gain (Pahead Pk Ak : ref) : hres ref :=
  hdo PA <- h_matmul Pk (h_T Ak);
  hdo X <- h_solve (h_T Pahead) (h_T PA);
  hret (h_T X).

(** standard.py:380, extended.py:376 (right-hand side) *)
Definition h_smooth_state (xk G xs_next xahead : ref) : hres ref :=
  hdo d <- h_sub xs_next xahead;
  hdo Gd <- h_matmul G d;
  h_add xk Gd.

(** standard.py:381-383, extended.py:377 (right-hand side) *)
Definition h_smooth_cov (Pk G Ps_next Pahead : ref) : hres ref :=
  hdo D <- h_sub Ps_next Pahead;
  hdo DG <- h_matmul D (h_T G);
  hdo GDG <- h_matmul G DG;
  h_add Pk GDG.

(** standard.py:374-383, extended.py:369-377.  [Pk] is the view P_est[k] taken
    before predict (standard.py:371, extended.py:366). *)
Definition h_smooth_body (xP_est sm : ref * ref) (k : nat) (ahead : ref * ref)
    (Ak Pk : ref) : hres unit :=
  hdo G <- h_smooth_gain ahead.2 Pk Ak;
  hdo xk <- h_getitem xP_est.1 (Z.of_nat k);
  hdo xs1 <- h_getitem sm.1 (Z.of_nat k.+1);
  hdo xs <- h_smooth_state xk G xs1 ahead.1;
  hdo _ <- h_setitem sm.1 (Z.of_nat k) xs;
  hdo Pk' <- h_getitem xP_est.2 (Z.of_nat k);
  hdo Ps1 <- h_getitem sm.2 (Z.of_nat k.+1);
  hdo Ps <- h_smooth_cov Pk' G Ps1 ahead.2;
  h_setitem sm.2 (Z.of_nat k) Ps.

(** standard.py:364-383 *)
Definition hkf_smooth_step (self : hkf) (U : ref) (xP_est sm : ref * ref) (k : nat) : hres unit :=
  hdo Ak <- h_getitem (h_A self) (Z.of_nat k.+1);
  hdo Qk <- h_getitem (h_Q self) (Z.of_nat k.+1);
  hdo Bk <- h_getitem (h_B self) (Z.of_nat k.+1);
  hdo uk <- h_getitem U (Z.of_nat k.+1);
  hdo Pk <- h_getitem xP_est.2 (Z.of_nat k);
  hdo xk <- h_getitem xP_est.1 (Z.of_nat k);
  hdo ahead <- hkf_predict Ak xk (Some Bk) (Some uk) Pk Qk;
  h_smooth_body xP_est sm k ahead Ak Pk.

(** standard.py:364, extended.py:361 *)
Fixpoint h_smooth_loop (step : nat -> hres unit) (j : nat) : hres unit :=
  match j with
  | 0 => hret tt
  | k.+1 => hdo _ <- step k; h_smooth_loop step k
  end.

(** standard.py:352-353, extended.py:351-352 *)
Definition h_smooth_last (sm xP_est : ref * ref) : hres unit :=
  hdo xl <- h_getitem xP_est.1 (-1);
  hdo _ <- h_setitem sm.1 (-1) xl;
  hdo Pl <- h_getitem xP_est.2 (-1);
  h_setitem sm.2 (-1) Pl.

(** standard.py:312-385 KalmanFilter.smooth *)
Definition hkf_smooth (self : hkf) (Z : ref) (U : option ref) : hmeth (ref * ref) :=
  hmdo xP_est <- hkf_filter self Z U;                          (* :345 *)
  hmdo T <- hmlift (h_len Z);
  hmdo sm <- hmlift (h_alloc T (h_size self));                 (* :348-349 *)
  hmdo _ <- hmlift (h_smooth_last sm xP_est);                  (* :352-353 *)
  hmdo U' <- hmlift (h_check_none U Z);                        (* :356 *)
  hmdo _ <- hmlift (h_smooth_loop (hkf_smooth_step self U' xP_est sm) (T - 1));
  hmret sm.

(** extended.py:130-142.  A user callable works on references: it may return
    one of its arguments, a stored array or a new one, and allocate or write. *)
Record hekf := HEkf {
  he_f : ref -> option ref -> hres ref;
  he_h : ref -> hres ref;
  he_jA : ref -> option ref -> hres ref;
  he_jH : ref -> hres ref;
  he_xk : ref; he_Pk : ref; he_Q : ref; he_R : ref;
  he_size : nat; he_I : ref; he_gains : seq ref
}.

(** extended.py:119-142 ExtendedKalmanFilter.__init__ *)
Definition hekf_init (xk Pk Q R : ref)
    (f : ref -> option ref -> hres ref) (h : ref -> hres ref)
    (jA : ref -> option ref -> hres ref) (jH : ref -> hres ref) : hres hekf :=
  hdo n <- h_shape0 xk;
  hdo I <- h_new (np_identity N n);
  hret (HEkf f h jA jH xk Pk Q R n I [::]).

(** extended.py:144-187 predict: the prior mean is whatever array f returned. *)
Definition hekf_predict (self : hekf) (xk : ref) (uk : option ref) (Pk Qk : ref)
    : hres (ref * ref) :=
  hdo Ak <- he_jA self xk uk;
  hdo x <- he_f self xk uk;
  hdo P <- h_project_cov Ak Pk Qk;
  hret (x, P).

(** extended.py:189-246 update *)
Definition hekf_update (self : hekf) (xk Pk zk Rk : ref) : hmeth (ref * ref) :=
  hmdo Hk <- hmlift (he_jH self xk);
  hmdo Sk <- hmlift (h_innov_cov Hk Pk Rk);
  hmdo Kk <- hmlift (h_gain Sk Hk Pk);
  hmdo _ <- h_append_gain Kk;
  hmdo zhat <- hmlift (he_h self xk);
  hmdo x <- hmlift (h_correct_state xk Kk zk zhat);
  hmdo P <- hmlift (h_correct_cov (he_I self) Kk Hk Pk);
  hmret (x, P).

(** extended.py:288-295 *)
Definition hekf_step (self : hekf) (U Z : ref) (k : nat) (xP : ref * ref) : hmeth (ref * ref) :=
  hmdo uk <- hmlift (h_row U k);
  hmdo zk <- hmlift (h_row Z k);
  hmdo Qk <- hmlift (h_row (he_Q self) k);
  hmdo Rk <- hmlift (h_row (he_R self) k);
  hmdo pr <- hmlift (hekf_predict self xP.1 (Some uk) xP.2 Qk);
  hekf_update self pr.1 pr.2 zk Rk.

(** extended.py:248-304 filter *)
Definition hekf_filter (self : hekf) (Z : ref) (U : option ref) : hmeth (ref * ref) :=
  hmdo T <- hmlift (h_len Z);
  hmdo out <- hmlift (h_alloc T (he_size self));
  hmdo U' <- hmlift (h_check_none U Z);
  hmdo u <- hmlift (h_iter U');
  hmdo z <- hmlift (h_iter Z);
  hmdo q <- hmlift (h_iter (he_Q self));
  hmdo r <- hmlift (h_iter (he_R self));
  h_filter_loop (hekf_step self U' Z) (foldr minn z [:: u; q; r]) 0
                (he_xk self, he_Pk self) out.

(** extended.py:361-377 *)
Definition hekf_smooth_step (self : hekf) (U : ref) (xP_est sm : ref * ref) (k : nat) : hres unit :=
  hdo Qk <- h_getitem (he_Q self) (Z.of_nat k.+1);
  hdo uk <- h_getitem U (Z.of_nat k.+1);
  hdo Pk <- h_getitem xP_est.2 (Z.of_nat k);
  hdo xk <- h_getitem xP_est.1 (Z.of_nat k);
  hdo ahead <- hekf_predict self xk (Some uk) Pk Qk;
  hdo Ak <- he_jA self xk (Some uk);
  h_smooth_body xP_est sm k ahead Ak Pk.

(** extended.py:306-379 smooth *)
Definition hekf_smooth (self : hekf) (Z : ref) (U : option ref) : hmeth (ref * ref) :=
  hmdo xP_est <- hekf_filter self Z U;
  hmdo T <- hmlift (h_len Z);
  hmdo sm <- hmlift (h_alloc T (he_size self));
  hmdo _ <- hmlift (h_smooth_last sm xP_est);
  hmdo U' <- hmlift (h_check_none U Z);
  hmdo _ <- hmlift (h_smooth_loop (hekf_smooth_step self U' xP_est sm) (T - 1));
  hmret sm.

End Model.
