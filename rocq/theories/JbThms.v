(** * C117-C124: jobs of the coordinator and region commands of the stores *)
From Coq Require Import ZArith List Bool Arith Lia.
From Verif Require Import JbModel JbSpec JbProofs1 JbProofs3 JbProofs4 JbProofs5 JbProofs6 JbProofs7 JbDemo.
Import ListNotations.
Local Open Scope Z_scope.

(** ** C117 *)

(** Whatever the stores answer or report, however requests, rounds, log
    entries, lost entries and cleanings interleave: a command about to be sent
    belongs to the step it is sent for, and every command of the earlier steps
    of its job was answered by a store as accepted, known, or in effect. *)
Theorem C117_step_order : forall limit s x j,
  reach limit fits s -> to_send s x -> In j (y_born s) -> j_id j = i_job x ->
  cmd_at j (i_step x) (c_id (i_cmd x))
  /\ forall n cid, (n < i_step x)%nat -> cmd_at j n cid -> acked s (j_id j) cid.
Proof. exact send_order. Qed.
Print Assumptions C117_step_order.

(** After the three creations were answered, the split is about to be sent. *)
Example C117_nonvacuous : exists s x,
  reach 3 fits s /\ to_send s x /\ In split_job (y_born s) /\ j_id split_job = i_job x
  /\ i_step x = 1%nat /\ c_kind (i_cmd x) = KSplit /\ acked s 1 101 /\ acked s 1 102 /\ acked s 1 103.
Proof.
  exists (st 3 (born ++ good [[Accepted]; [Repeat]; [Refused EExist]] ++ [EBegin well 100])).
  exists (mkItem 1 1 (mkCmd 104 KSplit false)).
  split; [apply (go_fits 3 (born ++ good [[Accepted]; [Repeat]; [Refused EExist]] ++ [EBegin well 100])); vm_compute; reflexivity|].
  split; [unfold to_send; eexists _, _, _, 11, _; split; [vm_compute; reflexivity|]; split; [left; reflexivity|]; left; reflexivity|].
  split; [vm_compute; left; reflexivity|]. split; [reflexivity|]. split; [reflexivity|]. split; [reflexivity|].
  vm_compute. tauto.
Qed.

(** An operation with two commands (no request makes one) is passed when one of
    them is accepted. *)
Theorem C117_two_commands_refuted : exists j l s,
  run 3 init l = Some s /\ In (ENew j) l /\ y_dead s = false /\
  (exists x, to_send s x /\ i_job x = j_id j /\ i_step x = 1%nat) /\ cmd_at j 0 502 /\ ~ acked s (j_id j) 502.
Proof.
  set (j := mkJob 5 0 [ mkTask [mk 11 0 [mkCmd 501 KDelete false; mkCmd 502 KDelete false]] []; mkTask [mk 11 0 [mkCmd 503 KPurge false]] [] ]).
  set (l := [ENew j; EApply; EBegin well 100; ESend (RReply [Accepted; NotLeader 0]); EEnd; EApply; EBegin well 100]).
  exists j, l, (st 3 l). split; [vm_compute; reflexivity|]. split; [left; reflexivity|]. split; [vm_compute; reflexivity|].
  split; [exists (mkItem 5 1 (mkCmd 503 KPurge false)); split; [|split; reflexivity]; unfold to_send; eexists _, _, _, 11, _;
          split; [vm_compute; reflexivity|]; split; [left; reflexivity|]; left; reflexivity|].
  split; [eexists _, (mkCmd 502 KDelete false); split; [reflexivity|]; split; [cbn; tauto | reflexivity]|].
  vm_compute. intros [H | []]. discriminate.
Qed.
Print Assumptions C117_two_commands_refuted.

(** ** C118 *)

(** Unless someone cleans jobs, a job the coordinator archives as successful had
    every one of its commands answered as accepted, known or in effect. *)
Theorem C118_success_acknowledged_partial : forall limit s j j0,
  reach limit (fun s e => fits s e /\ no_clean e) s ->
  In (j, true) (co_arch (y_co s)) -> In j0 (y_born s) -> j_id j0 = j_id j ->
  forall c, In c (job_cmds j0) -> acked s (j_id j0) (c_id c).
Proof. exact finished_acked. Qed.
Print Assumptions C118_success_acknowledged_partial.

Example C118_nonvacuous : exists s,
  reach 3 (fun s e => fits s e /\ no_clean e) s /\ In split_job (y_born s) /\
  (exists j, In (j, true) (co_arch (y_co s)) /\ j_id j = j_id split_job) /\ map c_id (job_cmds split_job) = [101; 102; 103; 104].
Proof.
  set (l := born ++ good [[Accepted]; [Accepted]; [Accepted]] ++ good [[Accepted]] ++ good [] ++ good [] ++ good []).
  exists (st 3 l). split; [apply (go_calm 3 l); vm_compute; reflexivity|]. split; [vm_compute; left; reflexivity|].
  split; [eexists; split; [vm_compute; left; reflexivity | reflexivity] | reflexivity].
Qed.

(** A job that is cleaned is archived as successful, none of its commands sent. *)
Theorem C118_cleaned_refuted : exists s j,
  reach 3 fits s /\ In (j, true) (co_arch (y_co s)) /\ In j (y_born s) /\ job_cmds j <> [] /\ y_sent s = [] /\ y_acked s = [].
Proof.
  set (l := born ++ [EClean 0; EApply]). exists (st 3 l), split_job.
  split; [apply (go_fits 3 l); vm_compute; reflexivity|]. split; [vm_compute; left; reflexivity|].
  split; [vm_compute; left; reflexivity|]. split; [discriminate|]. split; vm_compute; reflexivity.
Qed.
Print Assumptions C118_cleaned_refuted.

(** A process that answers under another store id returns an empty answer
    without an error: all commands count as accepted. *)
Theorem C118_other_store_refuted : exists l s j,
  run 3 init l = Some s /\ (forall id, ~ In (EClean id) l) /\
  In (j, true) (co_arch (y_co s)) /\ map c_id (job_cmds j) = [401] /\ y_acked s = [].
Proof.
  set (l := [ENew short_job; EApply; EBegin well 100; ESend RWrong; EEnd; EApply; EBegin well 100; EEnd; EApply]).
  exists l, (st 3 l), (mkJob 4 1 [ mkTask [mkOp 11 0 [mkCmd 401 KDelete false] true 0] [] ]).
  split; [vm_compute; reflexivity|]. split; [intros id H; cbn in H; repeat destruct H as [H | H]; discriminate || exact H|].
  split; [vm_compute; left; reflexivity|]. split; vm_compute; reflexivity.
Qed.
Print Assumptions C118_other_store_refuted.

(** A job that was cleaned, and archived as successful, comes back when the
    round that was looking at it writes its entry. *)
Theorem C118_comes_back_refuted : exists s j,
  reach 3 fits s /\ In (j, true) (co_arch (y_co s)) /\ y_round s = Idle /\ y_log s = [] /\
  exists j', In j' (co_jobs (y_co s)) /\ j_id j' = j_id j.
Proof.
  set (l := [ENew (one_job KDelete); EApply] ++ good [[Accepted]] ++ [EBegin well 100; EClean 3; EApply; EEnd; EApply]).
  exists (st 3 l), (mkJob 3 1 [ mkTask [mkOp 11 0 [mkCmd 301 KDelete false] true 0] []; mkTask [mk 11 4 []] [] ]).
  split; [apply (go_fits 3 l); vm_compute; reflexivity|]. split; [vm_compute; left; reflexivity|].
  split; [vm_compute; reflexivity|]. split; [vm_compute; reflexivity|].
  eexists. split; [vm_compute; left; reflexivity | reflexivity].
Qed.
Print Assumptions C118_comes_back_refuted.

(** ** C119 *)

(** If from some moment on all pre-checks hold, all stores exist and accept, all
    regions to drop can be dropped, and no more commands are around than fit
    into a round, then a job with n steps left is archived as successful and
    gone after n+1 rounds. *)
Theorem C119_jobs_end : forall limit s s' j,
  reach limit fits s -> y_round s = Idle -> y_log s = [] -> y_dead s = false ->
  In j (co_jobs (y_co s)) -> rounds limit (S (length (j_tasks j) - j_next j)) s s' ->
  exists j', In (j', true) (co_arch (y_co s')) /\ j_id j' = j_id j /\ get (y_co s') (j_id j) = None.
Proof. intros limit s s' j R Er El Ed Hj. exact (jobs_end limit _ s s' j R Er El Ed Hj eq_refl). Qed.
Print Assumptions C119_jobs_end.

(** A job of four steps, after a refusal, beside another job. *)
Example C119_nonvacuous : exists s s' j,
  reach 3 fits s /\ y_round s = Idle /\ y_log s = [] /\ y_dead s = false /\ In j (co_jobs (y_co s)) /\
  length (co_jobs (y_co s)) = 2%nat /\ length (j_tasks j) = 4%nat /\ y_fails s = [1] /\
  rounds 3 (S (length (j_tasks j) - j_next j)) s s'.
Proof.
  set (l := born ++ [ENew delete_job; EApply; EBegin well 100; ESend (RReply [Accepted]); ESend (RReply [Refused EElse]); ESend RLost;
                     ESend (RReply [Accepted]); ESend RLost; EEnd; EApply]).
  exists (st 3 l), (st 3 (l ++ good [[Accepted]; [Accepted]; [Accepted]; [Accepted]; [Accepted]] ++ good [[Accepted; Accepted]] ++ good [] ++ good [] ++ good [])).
  exists (mkJob 1 0 [ mkTask [mkOp 11 0 [mkCmd 101 KCreate false] true 0; mkOp 12 0 [mkCmd 102 KCreate true] false 1; mk 13 0 [mkCmd 103 KCreate false]] [];
              mkTask [mk 11 1 [mkCmd 104 KSplit false]] []; mkTask [mk 11 2 []] []; mkTask [] [77] ]).
  split; [apply (go_fits 3 l); vm_compute; reflexivity|]. split; [vm_compute; reflexivity|]. split; [vm_compute; reflexivity|].
  split; [vm_compute; reflexivity|]. split; [vm_compute; left; reflexivity|]. split; [vm_compute; reflexivity|].
  split; [reflexivity|]. split; [vm_compute; reflexivity|]. cbn [j_tasks j_next length Nat.sub].
  apply (rounds_S 3 4 _ (good [[Accepted]; [Accepted]; [Accepted]; [Accepted]; [Accepted]])
           (st 3 (l ++ good [[Accepted]; [Accepted]; [Accepted]; [Accepted]; [Accepted]]))).
  { vm_compute. lia. } { apply good_ok. intros r x Hr Hx. cbn in Hr. repeat destruct Hr as [<- | Hr]; cbn in Hx; intuition. } { vm_compute. reflexivity. }
  apply (rounds_S 3 3 _ (good [[Accepted; Accepted]])
           (st 3 (l ++ good [[Accepted]; [Accepted]; [Accepted]; [Accepted]; [Accepted]] ++ good [[Accepted; Accepted]]))).
  { vm_compute. lia. } { apply good_ok. intros r x Hr Hx. cbn in Hr. repeat destruct Hr as [<- | Hr]; cbn in Hx; intuition. } { vm_compute. reflexivity. }
  apply (rounds_S 3 2 _ (good [])
           (st 3 (l ++ good [[Accepted]; [Accepted]; [Accepted]; [Accepted]; [Accepted]] ++ good [[Accepted; Accepted]] ++ good []))).
  { vm_compute. lia. } { apply good_ok. intros r x []. } { vm_compute. reflexivity. }
  apply (rounds_S 3 1 _ (good [])
           (st 3 (l ++ good [[Accepted]; [Accepted]; [Accepted]; [Accepted]; [Accepted]] ++ good [[Accepted; Accepted]] ++ good [] ++ good []))).
  { vm_compute. lia. } { apply good_ok. intros r x []. } { vm_compute. reflexivity. }
  apply (rounds_S 3 0 _ (good [])
           (st 3 (l ++ good [[Accepted]; [Accepted]; [Accepted]; [Accepted]; [Accepted]] ++ good [[Accepted; Accepted]] ++ good [] ++ good [] ++ good []))).
  { vm_compute. lia. } { apply good_ok. intros r x []. } { vm_compute. reflexivity. }
  constructor.
Qed.

(** A job whose accepted command had no effect waits at the pre-check of the
    next step: rounds send nothing and change nothing. *)
Theorem C119_check_refuted : exists s v j,
  reach 3 fits s /\ (forall st, pv_store v st = true) /\ (forall r, pv_drop v r = true) /\
  In j (co_jobs (y_co s)) /\ (forall id cid, In (id, cid) (y_sent s) -> acked s id cid) /\
  run 3 s [EBegin v 100; EEnd] = Some s.
Proof.
  set (l := [ENew (one_job KChange); EApply] ++ good [[Accepted]]).
  exists (st 3 l), unchecked, (mkJob 3 1 [ mkTask [mkOp 11 0 [mkCmd 301 KChange false] true 0] []; mkTask [mk 11 4 []] [] ]).
  split; [apply (go_fits 3 l); vm_compute; reflexivity|]. split; [reflexivity|]. split; [reflexivity|].
  split; [vm_compute; left; reflexivity|]. split; [intros id cid H; vm_compute in H |- *; exact H | vm_compute; reflexivity].
Qed.
Print Assumptions C119_check_refuted.

(** A job that is to drop a region which is already gone waits for ever. *)
Theorem C119_gone_refuted : exists s v j,
  reach 3 fits s /\ (forall n, pv_check v n = true) /\ (forall st, pv_store v st = true) /\
  In j (co_jobs (y_co s)) /\ j_next j = 3%nat /\ run 3 s [EBegin v 100; EEnd] = Some s.
Proof.
  set (l := born ++ good [[Accepted]; [Accepted]; [Accepted]] ++ good [[Accepted]] ++ good []).
  exists (st 3 l), undropped.
  exists (mkJob 1 3 [ mkTask [mkOp 11 0 [mkCmd 101 KCreate false] true 0; mkOp 12 0 [mkCmd 102 KCreate false] true 0; mkOp 13 0 [mkCmd 103 KCreate false] true 0] [];
              mkTask [mkOp 11 1 [mkCmd 104 KSplit false] true 0] []; mkTask [mk 11 2 []] []; mkTask [] [77] ]).
  split; [apply (go_fits 3 l); vm_compute; reflexivity|]. split; [reflexivity|]. split; [reflexivity|].
  split; [vm_compute; left; reflexivity|]. split; [reflexivity | vm_compute; reflexivity].
Qed.
Print Assumptions C119_gone_refuted.

(** ** C120 *)

(** A failure, applied while no round is under way, of the only command of a
    step puts the job at that step; whatever happens then, as long as no store
    accepts the command, nothing else is reported and nobody cleans, the job
    stays there. *)
Theorem C120_held_partial : forall limit s m j id cid k t s1 s2,
  reach limit fits s -> y_round s = Idle -> y_log s = [(m, [IStatus id cid Fail])] ->
  get (y_co s) id = Some j -> nth_error (j_tasks j) k = Some t -> (exists c, task_cmds t = [c] /\ c_id c = cid) ->
  step limit s EApply = Some s1 ->
  star limit (fun s e => fits s e /\ holds_back id cid s e) s1 s2 ->
  forall j2, get (y_co s2) id = Some j2 -> j_next j2 = k.
Proof. exact held_back. Qed.
Print Assumptions C120_held_partial.

(** The split fails after the fact; the job goes back one step and stays while
    the store does not answer, another job passing by. *)
Example C120_nonvacuous : exists s m j t s1 s2 j2,
  reach 3 fits s /\ y_round s = Idle /\ y_log s = [(m, [IStatus 1 104 Fail])] /\
  get (y_co s) 1 = Some j /\ nth_error (j_tasks j) 1 = Some t /\ (exists c, task_cmds t = [c] /\ c_id c = 104) /\ j_next j = 2%nat /\
  step 3 s EApply = Some s1 /\ star 3 (fun s e => fits s e /\ holds_back 1 104 s e) s1 s2 /\
  get (y_co s2) 1 = Some j2 /\ j_next j2 = 1%nat /\ length (y_sent s2) = 8%nat.
Proof.
  set (l := born ++ good [[Accepted]; [Accepted]; [Accepted]] ++ good [[Accepted]] ++ [EReport 1 104]).
  set (l2 := [EBegin well 100; ESend RLost; EEnd; ENew delete_job; EApply] ++ [EBegin well 100; ESend (RReply [Refused EElse; Accepted]); ESend RLost; EEnd; EApply]
             ++ [EBegin well 100; ELose 0]).
  set (s1 := st 3 (l ++ [EApply])).
  exists (st 3 l), false. eexists _, _, s1, (st 3 (l ++ [EApply] ++ l2)), _.
  split; [apply (go_fits 3 l); vm_compute; reflexivity|]. split; [vm_compute; reflexivity|]. split; [vm_compute; reflexivity|].
  split; [vm_compute; reflexivity|]. split; [vm_compute; reflexivity|]. split; [exists (mkCmd 104 KSplit false); split; reflexivity|].
  split; [vm_compute; reflexivity|]. split; [vm_compute; reflexivity|].
  split; [apply (go_held 3 1 104 l2); vm_compute; reflexivity|]. split; [vm_compute; reflexivity|]. split; [reflexivity | vm_compute; reflexivity].
Qed.

(** In a step with two operations the one that failed after it was accepted
    still counts as done: the other's acceptance moves the job on. *)
Theorem C120_two_operations_refuted : exists s m j s1 s2 j2,
  reach 3 fits s /\ y_round s = Idle /\ y_log s = [(m, [IStatus 2 201 Fail])] /\
  get (y_co s) 2 = Some j /\ cmd_at j 0 201 /\
  step 3 s EApply = Some s1 /\ star 3 (fun s e => fits s e /\ holds_back 2 201 s e) s1 s2 /\
  get (y_co s2) 2 = Some j2 /\ j_next j2 = 1%nat.
Proof.
  set (l := [ENew delete_job; EApply] ++ good [[Accepted]; [Accepted]] ++ [EReport 2 201]).
  set (l2 := [EBegin well 100; ESend RLost; ESend (RReply [Accepted]); EEnd; EApply]).
  exists (st 3 l), false. eexists _, (st 3 (l ++ [EApply])), (st 3 (l ++ [EApply] ++ l2)), _.
  split; [apply (go_fits 3 l); vm_compute; reflexivity|]. split; [vm_compute; reflexivity|]. split; [vm_compute; reflexivity|].
  split; [vm_compute; reflexivity|].
  split; [eexists _, (mkCmd 201 KDelete false); split; [reflexivity|]; split; [cbn; tauto | reflexivity]|].
  split; [vm_compute; reflexivity|]. split; [apply (go_held 3 2 201 l2); vm_compute; reflexivity|].
  split; [vm_compute; reflexivity | reflexivity].
Qed.
Print Assumptions C120_two_operations_refuted.

(** A failure reported while a round is under way is undone when the round's
    entry overwrites the job: here the job ends as successful although the only
    thing known of its command is that it failed. *)
Theorem C120_overwritten_refuted : exists s m j t s1 s2 j2,
  reach 3 fits s /\ y_log s = [(m, [IStatus 3 301 Fail])] /\
  get (y_co s) 3 = Some j /\ nth_error (j_tasks j) 0 = Some t /\ task_cmds t = [mkCmd 301 KSplit false] /\
  step 3 s EApply = Some s1 /\ (exists j1, get (y_co s1) 3 = Some j1 /\ j_next j1 = 0%nat) /\
  star 3 (fun s e => fits s e /\ holds_back 3 301 s e) s1 s2 /\
  In (j2, true) (co_arch (y_co s2)) /\ j_id j2 = 3.
Proof.
  set (l := [ENew (one_job KSplit); EApply] ++ good [[Accepted]] ++ [EBegin well 100; EReport 3 301]).
  set (l2 := [EEnd; EApply; EBegin well 100; EEnd; EApply]).
  exists (st 3 l), false. eexists _, _, (st 3 (l ++ [EApply])), (st 3 (l ++ [EApply] ++ l2)), _.
  split; [apply (go_fits 3 l); vm_compute; reflexivity|]. split; [vm_compute; reflexivity|].
  split; [vm_compute; reflexivity|]. split; [vm_compute; reflexivity|]. split; [reflexivity|]. split; [vm_compute; reflexivity|].
  split; [eexists; split; [vm_compute; reflexivity | reflexivity]|].
  split; [apply (go_held 3 3 301 l2); vm_compute; reflexivity|]. split; [vm_compute; left; reflexivity | reflexivity].
Qed.
Print Assumptions C120_overwritten_refuted.

(** ** C121 *)

(** The coordinator gives a job up ("failed") only after more failures of it
    than the limit and one, and only if no step before its current one creates
    a region. *)
Theorem C121_given_up : forall limit s j,
  reach limit fits s -> In (j, false) (co_arch (y_co s)) ->
  (limit + 2 <= failures s (j_id j))%nat
  /\ forall n t c, (n < j_next j)%nat -> nth_error (j_tasks j) n = Some t -> In c (task_cmds t) -> c_kind c <> KCreate.
Proof. exact given_up_after. Qed.
Print Assumptions C121_given_up.

Definition refuse (rs : list (list result)) : list event := EBegin well 100 :: map (fun r => ESend (RReply r)) rs ++ [EEnd; EApply].

Example C121_nonvacuous : exists s j,
  reach 1 fits s /\ In (j, false) (co_arch (y_co s)) /\ failures s (j_id j) = 3%nat /\ j_next j = 1%nat.
Proof.
  set (l := [ENew delete_job; EApply] ++ good [[Accepted]; [Accepted]] ++ refuse [[Refused EElse]] ++ refuse [[Refused EChanging]] ++ refuse [[Refused EElse]]).
  exists (st 1 l). eexists. split; [apply (go_fits 1 l); vm_compute; reflexivity|]. split; [vm_compute; left; reflexivity|].
  split; vm_compute; reflexivity.
Qed.

(** With a creation behind it a job is tried for ever. *)
Theorem C121_creation_behind : exists s j,
  reach 1 fits s /\ In j (co_jobs (y_co s)) /\ failures s (j_id j) = 6%nat /\ co_arch (y_co s) = [].
Proof.
  set (r := refuse [[Refused EElse]]).
  set (l := born ++ good [[Accepted]; [Accepted]; [Accepted]] ++ r ++ r ++ r ++ r ++ r ++ r).
  exists (st 1 l). eexists. split; [apply (go_fits 1 l); vm_compute; reflexivity|]. split; [vm_compute; left; reflexivity|].
  split; vm_compute; reflexivity.
Qed.
Print Assumptions C121_creation_behind.

(** ** C122 *)

(** Unless someone cleans jobs or a job fails more often than the limit and one,
    applying the log never ends the coordinator. *)
Theorem C122_no_crash_partial : forall limit s,
  reach limit (fun s e => fits s e /\ no_clean e) s -> (forall id, (failures s id <= limit + 1)%nat) -> y_dead s = false.
Proof. exact never_dead. Qed.
Print Assumptions C122_no_crash_partial.

Example C122_nonvacuous : exists s,
  reach 3 (fun s e => fits s e /\ no_clean e) s /\ (forall id, (failures s id <= 3 + 1)%nat) /\ y_fails s = [1; 1] /\ length (co_arch (y_co s)) = 1%nat.
Proof.
  set (l := born ++ good [[Accepted]; [Refused EElse]; [Accepted]] ++ good [[Accepted]; [Refused EElse]; [Accepted]]
            ++ good [[Accepted]; [Accepted]; [Accepted]] ++ good [[Accepted]] ++ good [] ++ good [] ++ good []).
  exists (st 3 l). split; [apply (go_calm 3 l); vm_compute; reflexivity|].
  assert (E : y_fails (st 3 l) = [1; 1]) by (vm_compute; reflexivity).
  split; [|split; [exact E | vm_compute; reflexivity]].
  intros id. unfold failures. rewrite E. cbn [filter]. destruct (id =? 1); cbn; lia.
Qed.

(** Cleaning jobs while a round is about to end one of them: the second deletion
    ends the process, on every member, and again when the log is replayed. *)
Theorem C122_clean_refuted : exists s, reach 3 fits s /\ y_dead s = true /\ y_fails s = [].
Proof.
  set (l := [ENew short_job; EApply] ++ good [[Accepted]] ++ [EBegin well 100; EClean 4; EApply; EEnd; EApply]).
  exists (st 3 l). split; [apply (go_fits 3 l); vm_compute; reflexivity|]. split; vm_compute; reflexivity.
Qed.
Print Assumptions C122_clean_refuted.

(** So does a failure reported late, if it is the one that makes the coordinator
    give up while a round is about to end the job. *)
Theorem C122_given_up_refuted : exists s,
  reach 0 (fun s e => fits s e /\ no_clean e) s /\ y_dead s = true /\ y_fails s = [4; 4].
Proof.
  set (l := [ENew short_job; EApply] ++ good [[Accepted]] ++ [EReport 4 401; EApply] ++ good [[Accepted]]
            ++ [EBegin well 100; EReport 4 401; EApply; EEnd; EApply]).
  exists (st 0 l). split; [apply (go_calm 0 l); vm_compute; reflexivity|]. split; vm_compute; reflexivity.
Qed.
Print Assumptions C122_given_up_refuted.

(** ** C123 *)

(** If no command is handled twice at the same time, and recovered commands
    find their executors: a command answered OK the first time it was sent has
    run, or is on disk to be run, and then waits in a queue if the store is up -
    across any crashes. *)
Theorem C123_accepted_run_partial : forall s id,
  sreach calm s -> In (id, false) (p_oks s) ->
  In id (p_runs s) \/ (diskget (p_disk s) id = Some SNone /\ (p_up s = true -> queued s id)).
Proof. exact accepted_run. Qed.
Print Assumptions C123_accepted_run_partial.

(** Two commands accepted, a crash, a restart, a third one: the first has run. *)
Example C123_nonvacuous : exists s,
  sreach calm s /\ In (7, false) (p_oks s) /\ In (8, false) (p_oks s) /\ p_runs s = [7] /\ queued s 8 /\ p_up s = true.
Proof.
  set (l := [De (SPush 0 (plain 7)); De (SMem 0); De (SPush 1 (plain 8)); De (SDisk 0); De (SMem 1); De (SDispatch 0 true); De (SDisk 1);
             De (SDispatch 1 true); De SCrash; Dstart; De (SRun 0)] ++ handle 0 (plain 9) true ++ [De (SStore 0 true)]).
  exists (sst calm_b l). split; [apply sst_calm; vm_compute; reflexivity|]. split; [vm_compute; tauto|]. split; [vm_compute; tauto|].
  split; [vm_compute; reflexivity|]. split; [|vm_compute; reflexivity].
  exists (mkScmd 8 false SNone). split; [vm_compute; left; reflexivity | reflexivity].
Qed.

(** A command that failed, is sent again with the retry mark and answered OK, is
    forgotten in a crash: nothing on disk says that it is to be run again. *)
Theorem C123_retry_refuted : exists s h s1 l s2 id,
  sreach calm s /\ sstep s (SDispatch h true) = Some (s1, Some (id, AOk)) /\ srun s1 l = Some s2 /\
  p_up s2 = true /\ runs s2 id = runs s1 id /\ p_queue s2 = [] /\ p_running s2 = [].
Proof.
  set (l0 := handle 0 (plain 7) true ++ [De (SRun 0); De (SStore 0 false); De (SPush 0 (retried 7)); De (SMem 0)]).
  set (l1 := l0 ++ [De (SDispatch 0 true)]).
  exists (sst calm_b l0), 0%nat, (sst calm_b l1), [SCrash; SStart (fun _ => true)], (sst calm_b (l1 ++ [De SCrash; Dstart])), 7.
  split; [apply sst_calm; vm_compute; reflexivity|]. split; [vm_compute; reflexivity|]. split; [vm_compute; reflexivity|].
  split; [vm_compute; reflexivity|]. split; [vm_compute; reflexivity|]. split; vm_compute; reflexivity.
Qed.
Print Assumptions C123_retry_refuted.

(** A command sent twice at the same time: the second is answered OK while the
    first is not yet on disk; a crash, and it is forgotten. *)
Theorem C123_twice_refuted : exists l s1 s2 id,
  srun p_init l = Some s1 /\ In (id, false) (p_oks s1) /\ srun s1 [SCrash; SStart (fun _ => true)] = Some s2 /\
  p_runs s2 = [] /\ p_disk s2 = [] /\ p_queue s2 = [].
Proof.
  exists [SPush 0 (plain 7); SPush 1 (plain 7); SMem 0; SMem 1; SDispatch 1 true]. eexists _, _, 7.
  split; [vm_compute; reflexivity|]. split; [cbn; tauto|]. split; [vm_compute; reflexivity|]. repeat split.
Qed.
Print Assumptions C123_twice_refuted.

(** A command that was recorded but found no executor, sent again after its
    answer was lost, is answered "known", which the coordinator takes for
    accepted; it is neither run nor queued. *)
Theorem C123_known_refuted : exists s id,
  sreach calm s /\ sstep s (SPush 0 (plain id)) = Some (s, Some (id, ARepeat)) /\
  p_up s = true /\ p_runs s = [] /\ p_queue s = [] /\ (forall k, advances k Repeat = true).
Proof.
  exists (sst calm_b (handle 0 (plain 7) false)), 7.
  split; [apply sst_calm; vm_compute; reflexivity|]. split; [vm_compute; reflexivity|]. split; [vm_compute; reflexivity|].
  split; [vm_compute; reflexivity|]. split; [vm_compute; reflexivity | intros k; reflexivity].
Qed.
Print Assumptions C123_known_refuted.

(** ** C124 *)

(** If besides no command is sent with the retry mark, and no crash comes
    between the running of a command and the storing of its status, every
    command runs at most once, however often it is sent. *)
Theorem C124_once_partial : forall s id, sreach quiet s -> (runs s id <= 1)%nat.
Proof. exact runs_once. Qed.
Print Assumptions C124_once_partial.

Example C124_nonvacuous : exists s, sreach quiet s /\ runs s 7 = 1%nat /\ length (p_oks s) = 2%nat.
Proof.
  set (l := handle 0 (plain 7) true ++ [De (SPush 0 (plain 7)); De (SRun 0); De (SStore 0 false); De (SPush 1 (plain 7)); De SCrash; Dstart;
             De (SPush 0 (plain 7))] ++ handle 0 (plain 8) true).
  exists (sst quiet_b l). split; [apply sst_quiet; vm_compute; reflexivity|]. split; vm_compute; reflexivity.
Qed.

(** Sent twice at the same time, a command runs twice. *)
Theorem C124_twice_refuted : exists l s id,
  srun p_init l = Some s /\ (forall h c, In (SPush h c) l -> m_retry c = false) /\ ~ In SCrash l /\ runs s id = 2%nat.
Proof.
  exists [SPush 0 (plain 7); SPush 1 (plain 7); SMem 0; SMem 1; SDisk 0; SDispatch 1 true; SDispatch 0 true; SRun 0; SRun 0]. eexists _, 7.
  split; [vm_compute; reflexivity|]. split; [intros h c H; cbn in H; repeat destruct H as [H | H]; try discriminate; try (injection H as <- <-; reflexivity); destruct H|].
  split; [cbn; intros H; repeat destruct H as [H | H]; try discriminate; destruct H | vm_compute; reflexivity].
Qed.
Print Assumptions C124_twice_refuted.

(** A crash between the running of a command and the storing of its status. *)
Theorem C124_crash_refuted : exists s id, sreach calm s /\ p_oks s = [(id, false)] /\ runs s id = 2%nat.
Proof.
  exists (sst calm_b (handle 0 (plain 7) true ++ [De (SRun 0); De SCrash; Dstart; De (SRun 0)])), 7.
  split; [apply sst_calm; vm_compute; reflexivity|]. split; vm_compute; reflexivity.
Qed.
Print Assumptions C124_crash_refuted.

(** A command with the retry mark is run however it went before: here it had
    run well. *)
Theorem C124_retry_refuted : exists s id,
  sreach calm s /\ diskget (p_disk s) id = Some SDone /\ runs s id = 2%nat.
Proof.
  exists (sst calm_b (handle 0 (plain 7) true ++ [De (SRun 0); De (SStore 0 true); De (SPush 0 (retried 7)); De (SMem 0); De (SDispatch 0 true);
                      De (SRun 0); De (SStore 0 true)])), 7.
  split; [apply sst_calm; vm_compute; reflexivity|]. split; vm_compute; reflexivity.
Qed.
Print Assumptions C124_retry_refuted.
