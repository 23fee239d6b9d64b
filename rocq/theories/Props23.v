(** * Props23: C87: threads sharing an object; C88: attributes assigned during a call *)
From Coq Require Import ZArith Floats.SpecFloat.
From mathcomp Require Import ssreflect ssrfun ssrbool eqtype ssrnat seq.
From Verif Require Import Np Kf Ekf Conc ConcLemmas Binary64 Cases.

Set Implicit Arguments.
Unset Strict Implicit.
Unset Printing Implicit Defensive.

(** ** The programs compute what the methods compute *)
Section Standard.
Variable N : num.
Notation arr := (arr N).
Notation impl := (impl (@kf_gains N) (@with_gains N)).
Notation alone := (alone (@kf_gains N) (@with_gains N)).
Notation same := (same (@with_gains N)).

Lemma gp (o : kf N) g : kf_gains (with_gains o g) = g. Proof. by []. Qed.
Lemma pp (o : kf N) g g' : with_gains (with_gains o g) g' = with_gains o g'. Proof. by []. Qed.
Lemma pg (o : kf N) : with_gains o (kf_gains o) = o. Proof. by case: o. Qed.

Ltac lft := apply: impl_bind; [exact: impl_lift|].
Ltac gt := apply: impl_get; [by []|].

Lemma impl_update o Hk xk Pk zk Rk : impl (p_update Hk xk Pk zk Rk) o (kf_update (kf_I o) Hk xk Pk zk Rk).
Proof.
lft => Sk; lft => Kk; apply: impl_bind; [exact: (impl_append gp pp)|move=> _].
by lft => zh; lft => x; gt; lft => P.
Qed.

Lemma impl_step o s xP : impl (p_step s xP) o (kf_step (kf_I o) s xP).
Proof. by lft => pr; exact: impl_update. Qed.

Lemma impl_filter o Z U : impl (p_filter Z U) o (kf_filter o Z U).
Proof.
lft => T; apply: impl_alloc => //; gt; gt; cbv zeta; gt; gt; gt; gt; gt.
lft => a; lft => h; lft => b; lft => u; lft => z; lft => q; lft => r.
by apply: impl_filter_loop => s xP; exact: impl_step.
Qed.

Lemma impl_smooth o Z U : impl (p_smooth Z U) o (kf_smooth o Z U).
Proof.
apply: impl_bind; first exact: impl_filter.
move=> xP; lft => T; apply: impl_alloc => //; lft => sm; cbv zeta; gt; gt; gt.
exact: (@impl_smooth_loop _ _ _ _ _ (kf_smooth_step o (check_none_and_broadcast U Z) xP)).
Qed.

Lemma impl_call o c : impl (thread_of c) o (run_meth c o).
Proof.
case: c => *; [exact: impl_lift|exact: impl_update|exact: impl_filter|exact: impl_smooth].
Qed.

Lemma alone_call o c : alone (thread_of c) o = kf_call o c.
Proof. by rewrite (impl_alone pg (impl_call o c)) /kf_call; case: (run_meth _ _ _). Qed.

(** ** What the programs read *)
Section Blind.
Variable R : kf N -> kf N -> Prop.
Hypothesis RI : forall o o', R o o' -> kf_I o = kf_I o'.
Lemma blind_update Hk xk Pk zk Rk : blind R (p_update Hk xk Pk zk Rk).
Proof.
do 2 (apply: blind_bind => // ?); apply: blind_bind => // _.
do 2 (apply: blind_bind => // ?); apply: blind_bind; first exact: blind_get.
by move=> I; apply: blind_bind.
Qed.
Lemma blind_step s xP : blind R (p_step s xP).
Proof. by apply: blind_bind => // pr; exact: blind_update. Qed.
Lemma late_filter Z U : late R (p_filter Z U).
Proof.
apply: late_bind_lift => T; apply: late_alloc => out; do 2 (apply: late_bind_read => ?); cbv zeta.
do 5 (apply: late_bind_read => ?); do 7 (apply: late_bind_lift => ?).
by apply: late_blind; apply: blind_filter_loop => s xP; exact: blind_step.
Qed.
Hypothesis RA : forall o o', R o o' -> kf_A o = kf_A o'.
Hypothesis RB : forall o o', R o o' -> kf_B o = kf_B o'.
Hypothesis RQ : forall o o', R o o' -> kf_Q o = kf_Q o'.
Hypothesis Rs : forall o o', R o o' -> kf_size o = kf_size o'.
Lemma blind_after Z U xP : blind R
  (pdo T <- plift N (kf N) (np_len Z);
   pdo sm0 <- p_alloc N (@kf_size N) T;
   pdo sm <- plift N (kf N) (smooth_last sm0 xP);
   pdo A <- pget N (@kf_A N); pdo B <- pget N (@kf_B N); pdo Q <- pget N (@kf_Q N);
   p_smooth_loop (fun k sm => plift N (kf N) (p_smooth_body A B Q (check_none_and_broadcast U Z) xP k sm)) (T - 1) sm).
Proof.
apply: blind_bind; [exact: Logic.I|move=> T]; apply: blind_bind; first exact: blind_alloc.
move=> sm0; apply: blind_bind => // sm; do 3 (apply: blind_bind; [exact: blind_get|move=> ?]).
exact: blind_smooth_loop.
Qed.
Lemma late_smooth Z U : late R (p_smooth Z U).
Proof. by apply: late_bind; [exact: late_filter|move=> xP; exact: blind_after]. Qed.
Hypothesis RH : forall o o', R o o' -> kf_H o = kf_H o'.
Hypothesis RR : forall o o', R o o' -> kf_R o = kf_R o'.
Hypothesis Rx : forall o o', R o o' -> kf_xk o = kf_xk o'.
Hypothesis RP : forall o o', R o o' -> kf_Pk o = kf_Pk o'.
Lemma blind_filter Z U : blind R (p_filter Z U).
Proof.
apply: blind_bind; [exact: Logic.I|move=> T]; apply: blind_bind; first exact: blind_alloc.
move=> out; do 2 (apply: blind_bind; [exact: blind_get|move=> ?]); cbv zeta.
do 5 (apply: blind_bind; [exact: blind_get|move=> ?]); do 7 (apply: blind_bind => // ?).
by apply: blind_filter_loop => s xP; exact: blind_step.
Qed.
Lemma blind_call c : blind R (thread_of c).
Proof.
case: c => [*|*|Z U|Z U] //; [exact: blind_update|exact: blind_filter|].
by apply: blind_bind; [exact: blind_filter|move=> xP; exact: blind_after].
Qed.
End Blind.

Lemma thread_blind c : blind same (thread_of c).
Proof. by apply: blind_call => o _ [g ->]. Qed.
End Standard.

Section Extended.
Variable N : num.
Notation arr := (arr N).
Notation impl := (impl (@e_gains N) (@e_with_gains N)).
Notation alone := (alone (@e_gains N) (@e_with_gains N)).
Notation same := (same (@e_with_gains N)).

Lemma egp (o : ekf N) g : e_gains (e_with_gains o g) = g. Proof. by []. Qed.
Lemma epp (o : ekf N) g g' : e_with_gains (e_with_gains o g) g' = e_with_gains o g'. Proof. by []. Qed.
Lemma epg (o : ekf N) : e_with_gains o (e_gains o) = o. Proof. by case: o. Qed.

Ltac lft := apply: impl_bind; [exact: impl_lift|].
Ltac gt := apply: impl_get; [by []|].

Lemma impl_epredict o xk uk Pk Qk : impl (p_epredict xk uk Pk Qk) o (mlift (ekf_predict o xk uk Pk Qk)).
Proof.
rewrite /ekf_predict => g /=; case: (e_jA o xk uk) => [A|e] //=.
by case: (e_f o xk uk) => [x|e] //=; case: (project_cov A Pk Qk).
Qed.

Lemma impl_eupdate o xk Pk zk Rk : impl (p_eupdate xk Pk zk Rk) o (ekf_update o xk Pk zk Rk).
Proof.
gt; lft => Hk; lft => Sk; lft => Kk; apply: impl_bind; [exact: (impl_append egp epp)|move=> _].
by gt; lft => zh; lft => x; gt; lft => P.
Qed.

Lemma impl_estep o s xP : impl (p_estep s xP) o (ekf_step o s xP).
Proof. by apply: impl_bind; [exact: impl_epredict|move=> pr; exact: impl_eupdate]. Qed.

Lemma impl_efilter o Z U : impl (p_efilter Z U) o (ekf_filter o Z U).
Proof.
lft => T; apply: impl_alloc => //; gt; gt; cbv zeta; gt; gt.
lft => u; lft => z; lft => q; lft => r.
by apply: impl_filter_loop => s xP; exact: impl_estep.
Qed.

Lemma impl_bind_lift o S T (p : prog N (ekf N) S) (f : S -> prog N (ekf N) T) (r : res S) (h : S -> res T) :
  impl p o (mlift r) -> (forall x, impl (f x) o (mlift (h x))) -> impl (pbind p f) o (mlift (rbind r h)).
Proof. by move=> H1 H2 g; rewrite alone_bind H1 /=; case: r {H1} => //= x; rewrite H2. Qed.

Lemma impl_esmooth o Z U : impl (p_esmooth Z U) o (ekf_smooth o Z U).
Proof.
apply: impl_bind; first exact: impl_efilter.
move=> xP; lft => T; apply: impl_alloc => //; lft => sm; cbv zeta; gt.
apply: (@impl_smooth_loop _ _ _ _ _ (ekf_smooth_step o (check_none_and_broadcast U Z) xP)) => k sm'.
do 4 (apply: impl_bind_lift; [exact: impl_lift|move=> ?]).
apply: impl_bind_lift; first exact: impl_epredict.
by move=> ah; gt; apply: impl_bind_lift.
Qed.

Lemma impl_ecall o c : impl (e_thread_of c) o (e_run c o).
Proof.
case: c => *; [exact: impl_epredict|exact: impl_eupdate|exact: impl_efilter|exact: impl_esmooth].
Qed.

Lemma alone_ecall o c : alone (e_thread_of c) o = e_call o c.
Proof. by rewrite (impl_alone epg (impl_ecall o c)) /e_call; case: (e_run _ _ _). Qed.

Section Blind.
Variable R : ekf N -> ekf N -> Prop.
Hypothesis RI : forall o o', R o o' -> e_I o = e_I o'.
Hypothesis Rf : forall o o', R o o' -> e_f o = e_f o'.
Hypothesis Rh : forall o o', R o o' -> e_h o = e_h o'.
Hypothesis RjA : forall o o', R o o' -> e_jA o = e_jA o'.
Hypothesis RjH : forall o o', R o o' -> e_jH o = e_jH o'.
Lemma blind_epredict xk uk Pk Qk : blind R (p_epredict xk uk Pk Qk).
Proof.
do 2 (apply: blind_bind; [exact: blind_get|move=> ?]; apply: blind_bind => // ?).
by apply: blind_bind.
Qed.
Lemma blind_eupdate xk Pk zk Rk : blind R (p_eupdate xk Pk zk Rk).
Proof.
apply: blind_bind; [exact: blind_get|move=> jH]; do 3 (apply: blind_bind => // ?); apply: blind_bind => // _.
apply: blind_bind; [exact: blind_get|move=> h]; do 2 (apply: blind_bind => // ?).
by apply: blind_bind; [exact: blind_get|move=> I]; apply: blind_bind.
Qed.
Lemma blind_estep s xP : blind R (p_estep s xP).
Proof. by apply: blind_bind => [|pr]; [exact: blind_epredict|exact: blind_eupdate]. Qed.
Lemma late_efilter Z U : late R (p_efilter Z U).
Proof.
apply: late_bind_lift => T; apply: late_alloc => out; do 2 (apply: late_bind_read => ?); cbv zeta.
do 2 (apply: late_bind_read => ?); do 4 (apply: late_bind_lift => ?).
by apply: late_blind; apply: blind_filter_loop => s xP; exact: blind_estep.
Qed.
Hypothesis RQ : forall o o', R o o' -> e_Q o = e_Q o'.
Hypothesis Rs : forall o o', R o o' -> e_size o = e_size o'.
Lemma blind_eafter Z U xP : blind R
  (pdo T <- plift N (ekf N) (np_len Z);
   pdo sm0 <- p_alloc N (@e_size N) T;
   pdo sm <- plift N (ekf N) (smooth_last sm0 xP);
   pdo Q <- pget N (@e_Q N);
   p_smooth_loop (p_esmooth_step Q (check_none_and_broadcast U Z) xP) (T - 1) sm).
Proof.
apply: blind_bind; [exact: Logic.I|move=> T]; apply: blind_bind; first exact: blind_alloc.
move=> sm0; apply: blind_bind => // sm; apply: blind_bind; [exact: blind_get|move=> Q].
apply: blind_smooth_loop => k sm'; do 4 (apply: blind_bind => // ?).
apply: blind_bind; first exact: blind_epredict.
by move=> ah; apply: blind_bind; [exact: blind_get|move=> jA; apply: blind_bind].
Qed.
Lemma late_esmooth Z U : late R (p_esmooth Z U).
Proof. by apply: late_bind; [exact: late_efilter|move=> xP; exact: blind_eafter]. Qed.
Hypothesis RR : forall o o', R o o' -> e_R o = e_R o'.
Hypothesis Rx : forall o o', R o o' -> e_xk o = e_xk o'.
Hypothesis RP : forall o o', R o o' -> e_Pk o = e_Pk o'.
Lemma blind_efilter Z U : blind R (p_efilter Z U).
Proof.
apply: blind_bind; [exact: Logic.I|move=> T]; apply: blind_bind; first exact: blind_alloc.
move=> out; do 2 (apply: blind_bind; [exact: blind_get|move=> ?]); cbv zeta.
do 2 (apply: blind_bind; [exact: blind_get|move=> ?]); do 4 (apply: blind_bind => // ?).
by apply: blind_filter_loop => s xP; exact: blind_estep.
Qed.
Lemma blind_ecall c : blind R (e_thread_of c).
Proof.
case: c => [*|*|Z U|Z U]; [exact: blind_epredict|exact: blind_eupdate|exact: blind_efilter|].
by apply: blind_bind; [exact: blind_efilter|move=> xP; exact: blind_eafter].
Qed.
End Blind.

Lemma e_thread_blind c : blind same (e_thread_of c).
Proof. by apply: blind_ecall => o _ [g ->]. Qed.
End Extended.

(** ** C87: any schedule *)
Definition no_thread (N : num) (O : Type) : prog N O (arr N * arr N) := nothing N O _.

Section C87.
Variable N : num.
Notation arr := (arr N).

Lemma threads_blind (cs : seq (call N)) i : i < size [seq thread_of c | c <- cs] ->
  blind (same (@with_gains N)) (nth (nothing N (kf N) (arr * arr)) [seq thread_of c | c <- cs] i).
Proof. by case: cs => // c0 cs; rewrite size_map => Hi; rewrite (nth_map c0) //; exact: thread_blind. Qed.

(** The steps are the model: a thread that runs alone ends with the object and
    the answer of the call. *)
Theorem C87_alone (self : kf N) c : exists n, forall k, n <= k ->
  let w := run_schedule (@kf_add N) (self, [:: thread_of c]) (nseq k 0) in
  w.1 = (kf_call self c).1 /\ [seq outcome p | p <- w.2] = [:: Some (kf_call self c).2].
Proof.
exists (rank (thread_of c) self) => k Hk w.
have B i : i < size [:: thread_of c] -> blind (same (@with_gains N)) (nth (nothing N (kf N) (arr * arr)) [:: thread_of c] i).
  by case: i => // _; exact: thread_blind.
have [sz [tags [log [h1 h2 h3 /(_ 0 isT) [[rest [h4 h5]] h6 h7]]]]] :=
  any_schedule (@gp N) (@pp N) (@pg N) self (nseq k 0) B.
have Ha := aloneE (@gp N) (@pp N) (@pg N) (thread_blind c) self; rewrite alone_call in Ha.
have {}h7 : outcome (nth (nothing N (kf N) _) w.2 0) = Some (kf_call self c).2.
  by rewrite Ha h7 // count_nseq /= mul1n.
split; last by move: sz h7; rewrite -/w; case: (w.2) => // p [|] //= _ ->.
have r0 : rest = [::] by apply: h5; rewrite -/w h7.
rewrite Ha h3; congr (with_gains _ (_ ++ _)); rewrite h4 r0 cats0 /mine /=.
by move: h1 h2; clear; elim: tags log => [|t tags IH] [|K log] //= [h1] /andP [t0 h2]; case: t t0 => //= _; rewrite -IH.
Qed.

(** Any number of threads, any calls, any schedule, at any moment: nothing but
    kalman_gains has changed; what was appended is an interleaving of what the
    threads append alone (of the part of it they have got to; of all of it for a
    thread that has finished); and a thread that has finished got the answer it
    gets alone. *)
Theorem C87_any_schedule (self : kf N) (cs : seq (call N)) (sched : seq nat) :
  let w := run_schedule (@kf_add N) (self, [seq thread_of c | c <- cs]) sched in
  with_gains w.1 (kf_gains self) = self /\
  exists tags log, [/\ kf_gains w.1 = kf_gains self ++ log, size tags = size log,
    all (fun t => t < size cs) tags &
  forall i c, i < size cs -> c = nth c cs i ->
  let solo := kf_call self c in
  let now := outcome (nth (no_thread N (kf N)) w.2 i) in
  (exists rest, kf_gains solo.1 = kf_gains self ++ mask [seq t == i | t <- tags] log ++ rest /\
     (now <> None -> rest = [::])) /\
  forall r, now = Some r -> r = solo.2].
Proof.
move=> w; have [sz [tags [log [h1 h2 h3 h4]]]] := any_schedule (@gp N) (@pp N) (@pg N) self sched (@threads_blind cs).
split; first by rewrite h3 pp pg.
exists tags, log; split=> //; first by rewrite h3 gp.
  by move: h2; rewrite size_map.
move=> i c Hi Hc solo now.
have := h4 i; rewrite size_map => /(_ Hi); rewrite (nth_map c) // -Hc => -[[rest [k1 k2]] k3 k4].
have Ha := aloneE (@gp N) (@pp N) (@pg N) (thread_blind c) self; rewrite alone_call in Ha.
by rewrite /solo Ha /=; split; [exists rest; split=> //; rewrite k1|exact: k3].
Qed.

(** A thread is done when it has had enough turns, whatever the others do. *)
Theorem C87_progress (self : kf N) c : exists n, forall (cs : seq (call N)) sched i,
  i < size cs -> c = nth c cs i -> n <= count_mem i sched ->
  let w := run_schedule (@kf_add N) (self, [seq thread_of c | c <- cs]) sched in
  outcome (nth (no_thread N (kf N)) w.2 i) = Some (kf_call self c).2.
Proof.
exists (rank (thread_of c) self) => cs sched i Hi Hc Hn w.
have [_ [tags [log [_ _ _ h]]]] := any_schedule (@gp N) (@pp N) (@pg N) self sched (@threads_blind cs).
have := h i; rewrite size_map => /(_ Hi) [_ _]; rewrite (nth_map c) // -Hc => /(_ Hn) ->.
have Ha := aloneE (@gp N) (@pp N) (@pg N) (thread_blind c) self; rewrite alone_call in Ha.
by rewrite Ha.
Qed.
(** The same for the extended filter. *)
Lemma e_threads_blind (cs : seq (ecall N)) i : i < size [seq e_thread_of c | c <- cs] ->
  blind (same (@e_with_gains N)) (nth (nothing N (ekf N) (arr * arr)) [seq e_thread_of c | c <- cs] i).
Proof. by case: cs => // c0 cs; rewrite size_map => Hi; rewrite (nth_map c0) //; exact: e_thread_blind. Qed.

Theorem C87_alone_extended (self : ekf N) c : exists n, forall k, n <= k ->
  let w := run_schedule (@ekf_add N) (self, [:: e_thread_of c]) (nseq k 0) in
  w.1 = (e_call self c).1 /\ [seq outcome p | p <- w.2] = [:: Some (e_call self c).2].
Proof.
exists (rank (e_thread_of c) self) => k Hk w.
have B i : i < size [:: e_thread_of c] -> blind (same (@e_with_gains N)) (nth (nothing N (ekf N) (arr * arr)) [:: e_thread_of c] i).
  by case: i => // _; exact: e_thread_blind.
have [sz [tags [log [h1 h2 h3 /(_ 0 isT) [[rest [h4 h5]] h6 h7]]]]] :=
  any_schedule (@egp N) (@epp N) (@epg N) self (nseq k 0) B.
have Ha := aloneE (@egp N) (@epp N) (@epg N) (e_thread_blind c) self; rewrite alone_ecall in Ha.
have {}h7 : outcome (nth (nothing N (ekf N) _) w.2 0) = Some (e_call self c).2.
  by rewrite Ha h7 // count_nseq /= mul1n.
split; last by move: sz h7; rewrite -/w; case: (w.2) => // p [|] //= _ ->.
have r0 : rest = [::] by apply: h5; rewrite -/w h7.
rewrite Ha h3; congr (e_with_gains _ (_ ++ _)); rewrite h4 r0 cats0 /mine /=.
by move: h1 h2; clear; elim: tags log => [|t tags IH] [|K log] //= [h1] /andP [t0 h2]; case: t t0 => //= _; rewrite -IH.
Qed.

Theorem C87_any_schedule_extended (self : ekf N) (cs : seq (ecall N)) (sched : seq nat) :
  let w := run_schedule (@ekf_add N) (self, [seq e_thread_of c | c <- cs]) sched in
  e_with_gains w.1 (e_gains self) = self /\
  exists tags log, [/\ e_gains w.1 = e_gains self ++ log, size tags = size log,
    all (fun t => t < size cs) tags &
  forall i c, i < size cs -> c = nth c cs i ->
  let solo := e_call self c in
  let now := outcome (nth (no_thread N (ekf N)) w.2 i) in
  (exists rest, e_gains solo.1 = e_gains self ++ mask [seq t == i | t <- tags] log ++ rest /\
     (now <> None -> rest = [::])) /\
  forall r, now = Some r -> r = solo.2].
Proof.
move=> w; have [sz [tags [log [h1 h2 h3 h4]]]] := any_schedule (@egp N) (@epp N) (@epg N) self sched (@e_threads_blind cs).
split; first by rewrite h3 epp epg.
exists tags, log; split=> //; first by rewrite h3 egp.
  by move: h2; rewrite size_map.
move=> i c Hi Hc solo now.
have := h4 i; rewrite size_map => /(_ Hi); rewrite (nth_map c) // -Hc => -[[rest [k1 k2]] k3 k4].
have Ha := aloneE (@egp N) (@epp N) (@epg N) (e_thread_blind c) self; rewrite alone_ecall in Ha.
by rewrite /solo Ha /=; split; [exists rest; split=> //; rewrite k1|exact: k3].
Qed.

Theorem C87_progress_extended (self : ekf N) c : exists n, forall (cs : seq (ecall N)) sched i,
  i < size cs -> c = nth c cs i -> n <= count_mem i sched ->
  let w := run_schedule (@ekf_add N) (self, [seq e_thread_of c | c <- cs]) sched in
  outcome (nth (no_thread N (ekf N)) w.2 i) = Some (e_call self c).2.
Proof.
exists (rank (e_thread_of c) self) => cs sched i Hi Hc Hn w.
have [_ [tags [log [_ _ _ h]]]] := any_schedule (@egp N) (@epp N) (@epg N) self sched (@e_threads_blind cs).
have := h i; rewrite size_map => /(_ Hi) [_ _]; rewrite (nth_map c) // -Hc => /(_ Hn) ->.
have Ha := aloneE (@egp N) (@epp N) (@epg N) (e_thread_blind c) self; rewrite alone_ecall in Ha.
by rewrite Ha.
Qed.
End C87.

(** ** C88: attributes assigned while a call runs *)
Section C88.
Variable N : num.
Notation arr := (arr N).

(** filter: once the first gain is there, assignments to any attribute (but the
    private identity matrix) between two steps of the call no longer matter to it. *)
Theorem C88_filter_reads_its_parameters_once (self : kf N) Z U : exists n, forall j es,
  let c := CFilter Z U in
  let w1 := run_events (@kf_add N) (self, thread_of c) (nseq j Turn) in
  let w := run_events (@kf_add N) w1 es in
  size (kf_gains self) < size (kf_gains w1.1) ->
  (forall f, List.In (User f) es -> forall o, kf_I (f o) = kf_I o) ->
  [/\ forall r, outcome w.2 = Some r -> r = (kf_call self c).2,
      n <= turns es -> outcome w.2 <> None &
      (forall f, List.In (User f) es -> forall o, kf_gains (f o) = kf_gains o) ->
      outcome w.2 <> None -> kf_gains w.1 = kf_gains (kf_call self c).1].
Proof.
exists (rank (thread_of (CFilter Z U)) self) => j es c w1 w lt K.
have Ha := aloneE (@gp N) (@pp N) (@pg N) (thread_blind c) self; rewrite alone_call in Ha.
pose R (o o' : kf N) := kf_I o = kf_I o'.
have P : polite R es by move=> f Hf o; rewrite /R K.
have L : late R (thread_of c) by exact: late_filter.
rewrite Ha; apply: (late_then (@gp N) (@pp N) (@pg N) _ _ L (thread_blind c) P lt) => //.
by move=> o1 o2 o3; rewrite /R => ->.
Qed.

(** smooth: the same for xk, Pk, H, R and kalman_gains (A, B, Q and state_size are
    read again by the backward pass). *)
Theorem C88_smooth_reads_some_parameters_once (self : kf N) Z U : exists n, forall j es,
  let c := CSmooth Z U in
  let w1 := run_events (@kf_add N) (self, thread_of c) (nseq j Turn) in
  let w := run_events (@kf_add N) w1 es in
  size (kf_gains self) < size (kf_gains w1.1) ->
  (forall f, List.In (User f) es -> forall o,
     [/\ kf_I (f o) = kf_I o, kf_A (f o) = kf_A o, kf_B (f o) = kf_B o, kf_Q (f o) = kf_Q o & kf_size (f o) = kf_size o]) ->
  [/\ forall r, outcome w.2 = Some r -> r = (kf_call self c).2,
      n <= turns es -> outcome w.2 <> None &
      (forall f, List.In (User f) es -> forall o, kf_gains (f o) = kf_gains o) ->
      outcome w.2 <> None -> kf_gains w.1 = kf_gains (kf_call self c).1].
Proof.
exists (rank (thread_of (CSmooth Z U)) self) => j es c w1 w lt K.
have Ha := aloneE (@gp N) (@pp N) (@pg N) (thread_blind c) self; rewrite alone_call in Ha.
pose R (o o' : kf N) := [/\ kf_I o = kf_I o', kf_A o = kf_A o', kf_B o = kf_B o', kf_Q o = kf_Q o' & kf_size o = kf_size o'].
have P : polite R es by move=> f Hf o; rewrite /R; have [-> -> -> -> ->] := K f Hf o.
have L : late R (thread_of c) by apply: late_smooth => o o' [].
rewrite Ha; apply: (late_then (@gp N) (@pp N) (@pg N) _ _ L (thread_blind c) P lt) => //.
by move=> o1 o2 o3; rewrite /R => -[-> -> -> -> ->].
Qed.

(** The extended filter: xk, Pk, Q, R are read once by filter; xk, Pk, R by smooth.
    The callables are looked up at every step. *)
Theorem C88_extended_filter_reads_its_parameters_once (self : ekf N) Z U : exists n, forall j es,
  let c := EFilter Z U in
  let w1 := run_events (@ekf_add N) (self, e_thread_of c) (nseq j Turn) in
  let w := run_events (@ekf_add N) w1 es in
  size (e_gains self) < size (e_gains w1.1) ->
  (forall f, List.In (User f) es -> forall o,
     [/\ e_I (f o) = e_I o, e_f (f o) = e_f o, e_h (f o) = e_h o, e_jA (f o) = e_jA o & e_jH (f o) = e_jH o]) ->
  [/\ forall r, outcome w.2 = Some r -> r = (e_call self c).2,
      n <= turns es -> outcome w.2 <> None &
      (forall f, List.In (User f) es -> forall o, e_gains (f o) = e_gains o) ->
      outcome w.2 <> None -> e_gains w.1 = e_gains (e_call self c).1].
Proof.
exists (rank (e_thread_of (EFilter Z U)) self) => j es c w1 w lt K.
have Ha := aloneE (@egp N) (@epp N) (@epg N) (e_thread_blind c) self; rewrite alone_ecall in Ha.
pose R (o o' : ekf N) := [/\ e_I o = e_I o', e_f o = e_f o', e_h o = e_h o', e_jA o = e_jA o' & e_jH o = e_jH o'].
have P : polite R es by move=> f Hf o; rewrite /R; have [-> -> -> -> ->] := K f Hf o.
have L : late R (e_thread_of c) by apply: late_efilter => o o' [].
rewrite Ha; apply: (late_then (@egp N) (@epp N) (@epg N) _ _ L (e_thread_blind c) P lt) => //.
by move=> o1 o2 o3; rewrite /R => -[-> -> -> -> ->].
Qed.

Theorem C88_extended_smooth_reads_some_parameters_once (self : ekf N) Z U : exists n, forall j es,
  let c := ESmooth Z U in
  let w1 := run_events (@ekf_add N) (self, e_thread_of c) (nseq j Turn) in
  let w := run_events (@ekf_add N) w1 es in
  size (e_gains self) < size (e_gains w1.1) ->
  (forall f, List.In (User f) es -> forall o,
     [/\ e_I (f o) = e_I o, e_f (f o) = e_f o, e_h (f o) = e_h o, e_jA (f o) = e_jA o & e_jH (f o) = e_jH o] /\
     e_Q (f o) = e_Q o /\ e_size (f o) = e_size o) ->
  [/\ forall r, outcome w.2 = Some r -> r = (e_call self c).2,
      n <= turns es -> outcome w.2 <> None &
      (forall f, List.In (User f) es -> forall o, e_gains (f o) = e_gains o) ->
      outcome w.2 <> None -> e_gains w.1 = e_gains (e_call self c).1].
Proof.
exists (rank (e_thread_of (ESmooth Z U)) self) => j es c w1 w lt K.
have Ha := aloneE (@egp N) (@epp N) (@epg N) (e_thread_blind c) self; rewrite alone_ecall in Ha.
pose R (o o' : ekf N) :=
  [/\ e_I o = e_I o', e_f o = e_f o', e_h o = e_h o', e_jA o = e_jA o' & e_jH o = e_jH o'] /\
  e_Q o = e_Q o' /\ e_size o = e_size o'.
have P : polite R es by move=> f Hf o; rewrite /R; have [[-> -> -> -> ->] [-> ->]] := K f Hf o.
have L : late R (e_thread_of c) by apply: late_esmooth => o o' [[? ? ? ? ?] []].
rewrite Ha; apply: (late_then (@egp N) (@epp N) (@epg N) _ _ L (e_thread_blind c) P lt) => //.
by move=> o1 o2 o3; rewrite /R => -[[-> -> -> -> ->] [-> ->]].
Qed.
End C88.

(** ** Cases *)
Notation B := binary64.
Definition same_float (x y : f64) : bool :=
  match x, y with
  | SpecFloat.S754_zero s, SpecFloat.S754_zero t | SpecFloat.S754_infinity s, SpecFloat.S754_infinity t => Bool.eqb s t
  | SpecFloat.S754_nan, SpecFloat.S754_nan => true
  | SpecFloat.S754_finite s m e, SpecFloat.S754_finite t n d => [&& Bool.eqb s t, Pos.eqb m n & Z.eqb e d]
  | _, _ => false
  end.
Definition fst_num (v : arr B) : f64 := tofl (nth (VI 0) (dat v) 0).
Definition fin T (p : prog B (kf B) T) : bool := if outcome p is Some (Ok _) then true else false.

(** Two threads that take turns: both finish, and the list holds K0 K0 K1 K1 K2
    K2: neither call's gains are together. *)
Definition two_threads := [:: thread_of (CFilter cart_Z (Some cart_U)); thread_of (CFilter cart_Z' (Some cart_U))].
Definition taking_turns : seq nat := flatten (nseq 20 [:: 0; 1]).
Example C87_case :
  let w := run_schedule (@kf_add B) (cart, two_threads) taking_turns in
  let solo := kf_call cart (CFilter cart_Z (Some cart_U)) in
  [&& all (@fin _) w.2, size (kf_gains w.1) == 6, size (kf_gains solo.1) == 3,
      same_float (fst_num (nth (np_zeros B [::]) (kf_gains w.1) 1)) (fst_num (nth (np_zeros B [::]) (kf_gains solo.1) 0)) &
      ~~ same_float (fst_num (nth (np_zeros B [::]) (kf_gains solo.1) 0)) (fst_num (nth (np_zeros B [::]) (kf_gains solo.1) 1))].
Proof. by vm_compute. Qed.

(** The user sets R and Q after the first gain: [filter] answers as if nothing had
    happened, [smooth] does not when Q is set: it mixes the two. *)
Definition with_RQ (R Q : arr B) (o : kf B) : kf B :=
  Kf (kf_A o) (kf_xk o) (kf_B o) (kf_Pk o) (kf_H o) Q R (kf_size o) (kf_I o) (kf_gains o).
Definition big_Q := farr [:: 3; 2; 2] (map (fun x => dec x 2) [:: 100; 0; 0; 200;  100; 0; 0; 200;  100; 0; 0; 200]%Z).
Definition meddling (f : kf B -> kf B) : seq (event (kf B)) := User f :: nseq 40 Turn.

Example C88_case :
  let c := CFilter cart_Z (Some cart_U) in
  let w1 := run_events (@kf_add B) (cart, thread_of c) (nseq 11 Turn) in
  size (kf_gains cart) < size (kf_gains w1.1) /\
  (forall f, List.In (User f) (meddling (with_RQ cart_R big_Q)) -> forall o, kf_I (f o) = kf_I o) /\
  fin (run_events (@kf_add B) w1 (meddling (with_RQ cart_R big_Q))).2.
Proof.
split; first by vm_compute.
split; last by vm_compute.
have T : forall n f, ~ List.In (User f) (nseq n (@Turn (kf B))) by elim=> [|n IH] f //= [|/IH].
by move=> f [[<-]|h] //; case: (T 40 f h).
Qed.

Definition answer_num (p : prog B (kf B) (arr B * arr B)) : f64 :=
  if outcome p is Some (Ok (st, _)) then fst_num st else fzero.

(** R may be set during smooth, Q may not. *)
Example C88_smooth_case :
  let c := CSmooth cart_Z (Some cart_U) in
  let solo := run_events (@kf_add B) (cart, thread_of c) (nseq 60 Turn) in
  let w1 := run_events (@kf_add B) (cart, thread_of c) (nseq 11 Turn) in
  let wR := run_events (@kf_add B) w1 (meddling (with_RQ big_Q cart_Q)) in
  let wQ := run_events (@kf_add B) w1 (meddling (with_RQ cart_R big_Q)) in
  [&& fin solo.2, fin wR.2, fin wQ.2, same_float (answer_num wR.2) (answer_num solo.2) &
      ~~ same_float (answer_num wQ.2) (answer_num solo.2)].
Proof. by vm_compute. Qed.

Definition efin T (p : prog B (ekf B) T) : bool := if outcome p is Some (Ok _) then true else false.
Definition two_ethreads := [:: e_thread_of (EFilter cart_Z None); e_thread_of (ESmooth cart_Z' None)].
Example C87_extended_case :
  let w := run_schedule (@ekf_add B) (osc, two_ethreads) (flatten (nseq 60 [:: 0; 1])) in
  all (@efin _) w.2 && (size (e_gains w.1) == 6).
Proof. by vm_compute. Qed.

(** R set during smooth of the extended filter. *)
Example C88_extended_case :
  let c := ESmooth cart_Z None in
  let w1 := run_events (@ekf_add B) (osc, e_thread_of c) (nseq 12 Turn) in
  let f (o : ekf B) := Ekf (e_f o) (e_h o) (e_jA o) (e_jH o) cart_x (e_Pk o) (e_Q o) big_Q (e_size o) (e_I o) [::] in
  (size (e_gains osc) < size (e_gains w1.1)) && efin (run_events (@ekf_add B) w1 (User f :: nseq 60 Turn)).2.
Proof. by vm_compute. Qed.
