(** Latches: C30 (mutual exclusion), C31 (wake-ups, deadlock, termination), C50 (finished commands). *)
From Coq Require Import ZArith List Bool Arith Sorted.
From Verif Require Import Outcome LatchModel LatchSpec LatchProofs.
Import ListNotations.
Open Scope Z_scope.

(** Three commands on overlapping keys, four slots; keys 5 and 9 share a slot.  Command 0 executes,
    command 1 holds 7 and waits for 9, command 2 waits for 5. *)
Definition reqs3 : list (list Z) := [[9; 5]; [9; 7; 7]; [5; 7]].
Definition busy3 : list nat := [0; 0; 0; 0; 1; 1; 1; 2; 2]%nat.
Example C30_example : no_zero reqs3 /\ slot 4 5 = slot 4 9 /\
  exists s, lrun 4 (linit reqs3) busy3 = Ok s /\
     executes_with s 0 5 /\ executes_with s 0 9 /\ owner s 1 7 /\ waits_for s 1 9 /\ waits_for s 2 5 /\
     queue_of 4 s 9 = [0; 1]%nat /\ wakeups s 1 = 0.
Proof.
  split; [repeat constructor; intros [?|H]; try discriminate; repeat (destruct H as [?|H]; try discriminate); destruct H|].
  split; [reflexivity|]. eexists. split; [vm_compute; reflexivity|].
  repeat match goal with |- _ /\ _ => split end.
  - eexists. split; [reflexivity|]. split; [reflexivity|]. cbn. auto.
  - eexists. split; [reflexivity|]. split; [reflexivity|]. cbn. auto.
  - eexists. split; [reflexivity|]. cbn. auto.
  - eexists. exists 1%nat. split; [reflexivity|]. split; reflexivity.
  - eexists. exists 0%nat. split; [reflexivity|]. split; reflexivity.
  - vm_compute. reflexivity.
  - vm_compute. reflexivity.
Qed.
Print Assumptions C30_example.

(** No two commands execute at the same time if a key of one and a key of the other have the same
    hash (so never on the same key). *)
Theorem C30_exclusive : forall slots reqs sched s c1 c2 h, no_zero reqs -> lrun slots (linit reqs) sched = Ok s ->
  executes_with s c1 h -> executes_with s c2 h -> c1 = c2.
Proof. exact executing_exclusive. Qed.
Print Assumptions C30_exclusive.

(** Also no latch has two owners while commands are still acquiring or releasing. *)
Theorem C30_owner : forall slots reqs sched s c1 c2 h, no_zero reqs -> lrun slots (linit reqs) sched = Ok s ->
  owner s c1 h -> owner s c2 h -> c1 = c2.
Proof. exact exclusive. Qed.
Print Assumptions C30_owner.

(** The latches of a command are those of exactly the hashes it asked for. *)
Theorem C30_covers : forall slots reqs sched s c t, lrun slots (linit reqs) sched = Ok s -> nth_error (ths s) c = Some t ->
  exists hs, nth_error reqs c = Some hs /\ StronglySorted Z.lt (req t) /\ (forall h, In h (req t) <-> In h hs).
Proof. exact all_latched. Qed.
Print Assumptions C30_covers.

(** F12.  With a key that hashes to 0 two commands execute together: releasing another key of the same
    slot forgets the owner. *)
Theorem C30_hash_zero_refuted : exists slots reqs sched s c1 c2 h, lrun slots (linit reqs) sched = Ok s /\
  executes_with s c1 h /\ executes_with s c2 h /\ c1 <> c2.
Proof.
  exists 4, [[4]; [0]; [0]], [0; 0; 0; 1; 1; 1; 0; 0; 2; 2; 2]%nat. eexists. exists 1%nat, 2%nat, 0.
  split; [vm_compute; reflexivity|].
  split; [eexists; split; [reflexivity|]; split; [reflexivity|]; cbn; auto|].
  split; [eexists; split; [reflexivity|]; split; [reflexivity|]; cbn; auto|]. discriminate.
Qed.
Print Assumptions C30_hash_zero_refuted.

(** The same three commands, scheduled in turn, all finish; and in the middle a wake-up is on its way. *)
Example C31_example :
  (exists s, lrun 4 (linit reqs3) (concat (repeat [0; 1; 2]%nat 40)) = Ok s /\ all_done s) /\
  (exists s, lrun 4 (linit reqs3) (busy3 ++ [0; 0; 0]%nat) = Ok s /\ waits_for s 1 9 /\ hd_error (queue_of 4 s 9) = Some 1%nat /\
     wakeups s 1 = 1) /\
  (exists s, lrun_all 4 (linit reqs3) busy3 = Ok (Some s)).
Proof.
  split; [|split].
  - eexists. split; [vm_compute; reflexivity|]. intros t I. cbn in I. destruct I as [<-|[<-|[<-|[]]]]; reflexivity.
  - eexists. split; [vm_compute; reflexivity|]. split; [eexists; exists 1%nat; split; [reflexivity|]; split; reflexivity|].
    split; vm_compute; reflexivity.
  - eexists. vm_compute. reflexivity.
Qed.
Print Assumptions C31_example.

(** No lost and no spurious wake-up: exactly one wake-up is on its way to a waiting command that has
    become first in its queue, and none to any other command. *)
Theorem C31_wakeups : forall slots reqs sched s c, no_zero reqs -> lrun slots (linit reqs) sched = Ok s ->
  (forall h, waits_for s c h ->
     wakeups s c = if match hd_error (queue_of slots s h) with Some c' => (c' =? c)%nat | None => false end then 1 else 0) /\
  ((forall h, ~ waits_for s c h) -> wakeups s c = 0).
Proof. exact wake_exact. Qed.
Print Assumptions C31_wakeups.

(** Owners and waiting commands stand in the queue of the hash, once, the owner first. *)
Theorem C31_queue : forall slots reqs sched s h c, no_zero reqs -> lrun slots (linit reqs) sched = Ok s ->
  NoDup (queue_of slots s h) /\ ((owner s c h \/ waits_for s c h) -> In c (queue_of slots s h)) /\
  (owner s c h -> hd_error (queue_of slots s h) = Some c).
Proof. exact queue_exact. Qed.
Print Assumptions C31_queue.

(** First come, first served: a step leaves a queue alone, appends the command that moves, or removes
    the command that moves from its front. *)
Theorem C31_fifo : forall slots reqs sched s c s' h, no_zero reqs -> lrun slots (linit reqs) sched = Ok s ->
  lstep slots s c = Ok (Some s') ->
  queue_of slots s' h = queue_of slots s h \/ queue_of slots s' h = queue_of slots s h ++ [c] \/
  queue_of slots s h = c :: queue_of slots s' h.
Proof. exact fifo. Qed.
Print Assumptions C31_fifo.

(** No schedule aborts (the asserts in the release hold). *)
Theorem C31_no_abort : forall slots reqs sched, no_zero reqs -> exists s, lrun slots (linit reqs) sched = Ok s.
Proof. exact no_crash. Qed.
Print Assumptions C31_no_abort.

(** No deadlock: if no command can move, all have finished. *)
Theorem C31_no_deadlock : forall slots reqs sched s, no_zero reqs -> lrun slots (linit reqs) sched = Ok s ->
  (forall c, ~ can_move slots s c) -> all_done s.
Proof. exact no_deadlock. Qed.
Print Assumptions C31_no_deadlock.

(** Every execution is finite: the number of steps is bounded by the sizes of the requests.  With
    C31_no_deadlock, every execution that is continued as long as a command can move ends with all
    commands finished, so every waiting command is granted its latches. *)
Theorem C31_bounded : forall slots reqs sched s, no_zero reqs -> lrun_all slots (linit reqs) sched = Ok (Some s) ->
  (length sched <= fold_right (fun hs n => 6 * length hs + 5 + n)%nat 0%nat reqs)%nat.
Proof. exact bounded. Qed.
Print Assumptions C31_bounded.

Theorem C31_granted : forall slots reqs sched s, no_zero reqs -> lrun slots (linit reqs) sched = Ok s ->
  exists sched' s', lrun_all slots s sched' = Ok (Some s') /\ all_done s'.
Proof. exact all_finish. Qed.
Print Assumptions C31_granted.

(** F12.  With a key that hashes to 0 the release of a latch can hit an assert. *)
Theorem C31_hash_zero_refuted : exists slots reqs sched, lrun slots (linit reqs) sched = Crash.
Proof. exists 4, [[4]; [0]], [0; 0; 0; 1; 1; 1; 0; 0; 1; 1]%nat. vm_compute. reflexivity. Qed.
Print Assumptions C31_hash_zero_refuted.

(** Command 0 has released its latches and is about to wake command 1. *)
Example C50_example : exists s t, lrun 4 (linit [[1]; [1]]) [0; 0; 0; 1; 1; 0; 0; 0]%nat = Ok s /\
  nth_error (ths s) 0 = Some t /\ ph t = Sig [1%nat] None.
Proof. eexists. eexists. split; [vm_compute; reflexivity|]. split; reflexivity. Qed.
Print Assumptions C50_example.

(** A release decreases only the counters of commands that are still waiting. *)
Theorem C50_decrease_partial : forall slots reqs sched s c t c' wl, no_zero reqs -> lrun slots (linit reqs) sched = Ok s ->
  nth_error (ths s) c = Some t -> ph t = Sig (c' :: wl) None -> exists h, waits_for s c' h.
Proof. exact decrease_live. Qed.
Print Assumptions C50_decrease_partial.

(** F36.  Full statement: no release ever touches the condition of a finished command.  It is false:
    the signal is sent after the condition's mutex was released, and the woken command may finish
    and destroy the condition in between. *)
Theorem C50_signal_refuted : exists slots reqs sched s, no_zero reqs /\ lrun slots (linit reqs) sched = Ok s /\ touched s = true.
Proof.
  exists 4, [[1]; [1]], [0; 0; 0; 1; 1; 0; 0; 0; 0; 1; 1; 1; 1; 1; 1; 1; 0]%nat. eexists.
  split; [repeat constructor; intros [?|[]]; discriminate|].
  split; [vm_compute; reflexivity|]. reflexivity.
Qed.
Print Assumptions C50_signal_refuted.
