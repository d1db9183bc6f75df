(** Periodic jobs: the theorems. *)
Require Import List Bool PeanoNat.
From Verif Require Import CrModel CrSpec CrProofs CrProofs2.
Import ListNotations.

(** C168: a paused job begins no run until it is started again, whatever timers, runs and starts were under way
    when it was paused. *)
Theorem C168_a_paused_job_begins_no_run : forall j es,
  gone j = false -> no_start es -> runs (run (act j EPause) es) = runs j.
Proof. exact after_pause. Qed.
Print Assumptions C168_a_paused_job_begins_no_run.

Example C168_case :
  let j := run (started false true 0) [EBegin; EEnd; EFire 0] in
  gone j = false /\ runs j = 2 /\ active j = 1 /\
  runs (run (act j EPause) [EEnd; EFire 1]) = 2 /\ runs (run j [EEnd; EFire 1]) = 3.
Proof. repeat split. Qed.

(** C169, for jobs started once: a job that is not async is run once at a time, and every job is run no more often
    than it was asked to be.  Missing: async jobs, and jobs that are started again. *)
Theorem C169_a_job_is_run_once_at_a_time_partial : forall immediately times es,
  no_start es -> at_once (run (started false immediately times) es) <= 1.
Proof. intros i m es N. exact (proj1 (once_and_limit i m es N)). Qed.
Print Assumptions C169_a_job_is_run_once_at_a_time_partial.

Theorem C169_a_job_is_run_no_more_often_than_asked_partial : forall is_async immediately times es,
  no_start es -> 0 < times -> runs (run (started is_async immediately times) es) <= times.
Proof. exact limit_async. Qed.
Print Assumptions C169_a_job_is_run_no_more_often_than_asked_partial.

Example C169_case :
  let j := run (started false false 2) [EBegin; EFire 0; EEnd; EFire 1; EPause] in
  no_start [EBegin; EFire 0; EEnd; EFire 1; EPause] /\ at_once j = 1 /\ runs j = 2 /\
  pend (run j [EEnd]) = [].
Proof. repeat split. intros H. cbn in H. repeat destruct H as [H | H]; discriminate || contradiction. Qed.

(** Refuted for async jobs: the next run begins although the one before has not ended. *)
Theorem C169_an_async_job_is_run_once_at_a_time_refuted : exists es,
  no_start es /\ at_once (run (started true true 0) es) = 3.
Proof.
  exists [EBegin; EFire 0; EFire 1]. split; [| reflexivity].
  intros H. cbn in H. repeat destruct H as [H | H]; discriminate || contradiction.
Qed.
Print Assumptions C169_an_async_job_is_run_once_at_a_time_refuted.

(** Refuted for a job paused and started again during a run: it is run twice at once from then on, and more often
    than asked. *)
Theorem C169_a_job_started_again_is_run_once_at_a_time_refuted : exists es,
  at_once (run (started false true 1) es) = 2 /\ runs (run (started false true 1) es) = 2.
Proof. exists [EBegin; EPause; EStart; EBegin]. split; reflexivity. Qed.
Print Assumptions C169_a_job_started_again_is_run_once_at_a_time_refuted.

(** C170, for a job that is started once and destroyed while no run is being started or under way: no run begins
    afterwards, and the freed job is not used.  Missing: a job destroyed during a run. *)
Theorem C170_a_destroyed_job_is_left_alone_partial : forall is_async immediately times es es',
  no_start es -> ~ In EDestroy es ->
  let j := run (started is_async immediately times) es in
  quiet j ->
  runs (run (act j EDestroy) es') = runs j /\ touched (run (act j EDestroy) es') = false.
Proof. exact destroyed_quiet. Qed.
Print Assumptions C170_a_destroyed_job_is_left_alone_partial.

Example C170_case :
  let j := run (started false true 0) [EBegin; EEnd] in
  quiet j /\ pend j = [0] /\ runs j = 1 /\ runs (run j [EFire 0]) = 2.
Proof. repeat split. Qed.

(** Refuted for a job destroyed during a run: the run uses the freed job when it ends and sets a timer, and when
    that fires the function of the freed job is run. *)
Theorem C170_a_destroyed_job_is_left_alone_refuted : exists es es',
  let j := run (started false true 0) es in
  no_start es /\ ~ In EDestroy es /\
  touched (run (act j EDestroy) es') = true /\ runs (run (act j EDestroy) es') = S (runs j).
Proof.
  exists [EBegin], [EEnd; EFire 0]. repeat split; intros H; cbn in H; repeat destruct H as [H | H];
    discriminate || contradiction.
Qed.
Print Assumptions C170_a_destroyed_job_is_left_alone_refuted.

(** C171: a job that was neither paused nor destroyed is run once more by itself, after every history, as long as it
    has not been run as often as asked; so is one that was paused at any moment and is started again. *)
Theorem C171_a_job_goes_on_by_itself : forall is_async immediately times es,
  ~ In EPause es -> ~ In EDestroy es ->
  let j := run (started is_async immediately times) es in
  wanted times j ->
  exists es', by_itself es' /\ runs (run j es') = S (runs j).
Proof. exact goes_on. Qed.
Print Assumptions C171_a_job_goes_on_by_itself.

Theorem C171_a_job_started_again_goes_on : forall is_async immediately times es,
  let j := run (started is_async immediately times) es in
  gone j = false -> wanted times j ->
  exists es', by_itself es' /\ runs (run (act j EStart) es') = S (runs j).
Proof. exact start_goes_on. Qed.
Print Assumptions C171_a_job_started_again_goes_on.

Example C171_case :
  let j := run (started false false 2) [EBegin; EFire 0] in
  let k := run j [EPause; EEnd; EFire 1] in
  wanted 2 j /\ runs j = 1 /\ active j = 1 /\ runs (run j [EEnd; EFire 1]) = 2 /\
  gone k = false /\ wanted 2 k /\ pend k = [] /\ active k = 0 /\ runs (run k [EStart; EBegin]) = 2.
Proof. cbv zeta. unfold wanted. repeat split; right; apply Nat.leb_le; reflexivity. Qed.
