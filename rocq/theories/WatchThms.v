(** C27, C63, C64: one-time watches of the versioned store. *)
From Coq Require Import ZArith List Bool Lia.
From Verif Require Import Bytes KvModel KvSpec WatchModel WatchSpec WatchProofs7.
Import ListNotations.
Open Scope Z_scope.

(** ** C27: requests served one at a time *)

(** The answers to a watch: at once when the key is missing and the client does not wait for it, or when
    it was changed after the start revision; otherwise the first later event that is wanted; otherwise
    nothing, an answer without an event when the client left and the cleaning task ran, or when the
    node stopped being the leader. *)
Theorem C27_watch_answers : forall h1 q h2,
  clean (entries h1 ++ entries h2) -> q_key q <> [] -> Z.of_nat (length (watches h1)) <= 50000 ->
  answers_to (wserves (h1 ++ SWatch q :: h2)) (Z.of_nat (length (watches h1))) =
  expected q (w_seq (wserves h1)) (spec_log (entries h1)) h2.
Proof. exact serial_answers. Qed.
Print Assumptions C27_watch_answers.

Definition wput (k v : bytes) : incr := mkInc [] [OPut k false 0 false v].
Definition wdel (k : bytes) : incr := mkInc [] [ODel k].
(** wait for any change of key 7, with the entry before it *)
Definition wq : wreq := mkQ [7] 0 false false true true.

Example C27_watch_answers_used :
  let h1 := [SApply (wput [7] [1]); SWatch (mkQ [8] 0 false false false true)] in
  let h2 := [SCancel 1000; SApply (wput [8] [2]); SCron; SApply (mkInc [] [OPut [9] false 0 false [1]; ODel [7]; OPut [7] false 0 false [5]])] in
  clean (entries h1 ++ entries h2) /\ Z.of_nat (length (watches h1)) <= 50000 /\
  answers_to (wserves (h1 ++ SWatch (mkQ [7] 0 true false true true) :: h2)) 1 =
    [Some (mkEv EvDelete (mkO [7] [] 10001 10003 2 0) (mkO [7] [1] 10001 10001 2 0))].
Proof. cbv zeta. split; [|vm_compute; split; [discriminate|reflexivity]]. vm_compute. repeat split; discriminate. Qed.

Example C27_cancelled : answers_to (wserves [SApply (wput [7] [1]); SWatch wq; SCancel 1000; SApply (wput [8] [2]); SCron; SApply (wput [7] [2])]) 0 = [None].
Proof. reflexivity. Qed.

Example C27_stopped : answers_to (wserves [SApply (wput [7] [1]); SWatch wq; SStop; SApply (wput [7] [2])]) 0 = [None].
Proof. reflexivity. Qed.

Example C27_not_exists : answers_to (wserves [SWatch (mkQ [7] 0 false false false false); SApply (wput [7] [2])]) 0 = [Some (mkEv EvNotExists kvo0 kvo0)].
Proof. reflexivity. Qed.

(** The answer at once ignores the filter: a client that does not want puts is told of one. *)
Theorem C27_filter_refuted : exists h q ev, q_noput q = true /\
  answers_to (wserves (h ++ [SWatch q])) (Z.of_nat (length (watches h))) = [Some ev] /\ ev_type ev = EvPut.
Proof.
  exists [SApply (wput [7] [1]); SApply (wput [7] [2])], (mkQ [7] 10001 true false true true). eexists. vm_compute. repeat split; reflexivity.
Qed.
Print Assumptions C27_filter_refuted.

(** A delete after the start revision, but before the watch came, is never told. *)
Theorem C27_past_delete_refuted : exists h q, q_nodel q = false /\ q_key q <> [] /\
  (exists ev, In (q_key q, ev) (log_events (entries h)) /\ ev_type ev = EvDelete /\ q_start q < o_mod (ev_kv ev)) /\
  answers_to (wserves (h ++ [SWatch q])) (Z.of_nat (length (watches h))) = [].
Proof.
  exists [SApply (wput [7] [1]); SApply (wdel [7])], (mkQ [7] 10001 false false true true).
  split; [reflexivity|]. split; [discriminate|]. split; [|reflexivity].
  eexists. split; [vm_compute; right; left; reflexivity|]. split; reflexivity.
Qed.
Print Assumptions C27_past_delete_refuted.

(** Deleting a key that does not exist is told as a delete. *)
Theorem C27_absent_delete_refuted : exists h e q ev, st_data (spec_log (entries h)) (q_key q) = None /\ st_data (spec_log (entries h ++ [e])) (q_key q) = None /\
  answers_to (wserves (h ++ [SWatch q; SApply e])) (Z.of_nat (length (watches h))) = [Some ev] /\ ev_type ev = EvDelete.
Proof.
  exists [SApply (wput [7] [1]); SApply (wdel [7])], (wdel [7]), wq. eexists. vm_compute. repeat split; reflexivity.
Qed.
Print Assumptions C27_absent_delete_refuted.

(** The entry before the change is told with a version it never had. *)
Theorem C27_prev_version_refuted : exists h e q ev old, st_data (spec_log (entries h)) (q_key q) = Some old /\
  answers_to (wserves (h ++ [SWatch q; SApply e])) (Z.of_nat (length (watches h))) = [Some ev] /\ o_ver (ev_prev ev) <> o_ver old.
Proof.
  exists [SApply (wput [7] [1])], (wput [7] [2]), wq. eexists. eexists. vm_compute. repeat split; try reflexivity. discriminate.
Qed.
Print Assumptions C27_prev_version_refuted.

(** ** C63: all interleavings *)

(** A watch registered between two steps of the apply thread (nothing is applied between its look at
    the store and its registration) is answered once any wanted event comes after it, as long as the
    node does not start being the leader. *)
Theorem C63_registered_woken_partial : forall es q es2, let s := wsteps ws0 es in w_lock s = None -> ~ In WStart es2 ->
  let s1 := wsteps s [WRead q; WRegister] in
  let s2 := wsteps s1 es2 in
  w_pending s2 = None ->
  exists l, w_events s2 = w_events s1 ++ l /\
  forall p start found, In (w_tick s, q, start, found) (w_asked s1) -> In p l -> wanted q start p = true -> answers_to s2 (w_tick s) <> [].
Proof. exact registered_woken. Qed.
Print Assumptions C63_registered_woken_partial.

Example C63_registered_woken_used :
  let es := [WEntry (wput [7] [1]); WOp; WCheck] in
  let es2 := [WTrigger; WFinal; WEntry (wput [7] [2]); WOp; WRead (mkQ [8] 0 false false true false); WCheck; WRegister; WTrigger] in
  let s := wsteps ws0 es in let s1 := wsteps s [WRead wq; WRegister] in let s2 := wsteps s1 es2 in
  w_lock s = None /\ w_pending s2 = None /\ w_tick s = 0 /\
  (exists p, w_events s2 = w_events s1 ++ [p] /\ wanted wq 10001 p = true /\ In (0, wq, 10001, Some (mkO [7] [1] 10001 10001 1 0)) (w_asked s1)) /\
  answers_to s2 0 = [Some (mkEv EvPut (mkO [7] [2] 10001 10002 2 0) (mkO [7] [1] 10001 10001 2 0))].
Proof.
  vm_compute. repeat split; try reflexivity. eexists. split; [reflexivity|]. split; [reflexivity|left; reflexivity].
Qed.

(** When the leader stops, every registered watch is answered, without an event. *)
Theorem C63_stop_answers_all : forall es, let s := wsteps ws0 es in w_lock s = None -> w_busy s = false ->
  forall n, In n (w_nodes s) -> exists t q found, In (t, q, wn_start n, found) (w_asked s) /\ q_key q = wn_key n /\
    answers_to s t = [] /\ answers_to (wstep s WStop) t = [None].
Proof. exact stop_answers. Qed.
Print Assumptions C63_stop_answers_all.

Example C63_stop_used : let s := wsteps ws0 [WEntry (wput [7] [1]); WOp; WCheck; WTrigger; WFinal; WRead wq; WRegister] in
  w_lock s = None /\ w_busy s = false /\ length (w_nodes s) = 1%nat /\ answers_to (wstep s WStop) 0 = [None].
Proof. vm_compute. auto. Qed.

(** The look at the store and the registration are not one step for the apply thread, which decides
    without the lock that nobody watches: the put between them is told to nobody. *)
Theorem C63_lost_wakeup_refuted : exists q e,
  let s := wsteps ws0 [WRead q; WEntry e; WOp; WCheck; WRegister; WTrigger; WFinal] in
  w_busy s = false /\ w_lock s = None /\ w_log s = [e] /\
  (exists start found p, In (0, q, start, found) (w_asked s) /\ In p (log_events [e]) /\ wanted q start p = true) /\
  answers_to s 0 = [].
Proof.
  exists wq, (wput [7] [1]). cbv zeta. split; [reflexivity|]. split; [reflexivity|]. split; [reflexivity|]. split; [|reflexivity].
  eexists. eexists. eexists. vm_compute. split; [left; reflexivity|]. split; [left; reflexivity|reflexivity].
Qed.
Print Assumptions C63_lost_wakeup_refuted.

(** When a node starts being the leader it forgets the watches it has without answering them: no
    later event and no later stop ever answers one. *)
Theorem C63_leader_start_refuted : forall es es2 n t q found, let s := wsteps ws0 es in w_lock s = None -> w_busy s = false ->
  In n (w_nodes s) -> In (t, q, wn_start n, found) (w_asked s) -> answers_to s t = [] ->
  answers_to (wsteps s (WStart :: es2)) t = [].
Proof. exact leader_start_loses. Qed.
Print Assumptions C63_leader_start_refuted.

Example C63_leader_start_used : let s := wsteps ws0 [WRead wq; WRegister] in
  w_lock s = None /\ w_busy s = false /\ (exists n found, In n (w_nodes s) /\ In (0, wq, wn_start n, found) (w_asked s)) /\ answers_to s 0 = [] /\
  answers_to (wsteps s [WStart; WEntry (wput [7] [1]); WOp; WCheck; WTrigger; WFinal; WStop]) 0 = [].
Proof. vm_compute. repeat split; try reflexivity. eexists. eexists. split; left; reflexivity. Qed.

(** ** C64: what is answered, in every interleaving *)

Theorem C64_at_most_once : forall es t, (length (answers_to (wsteps ws0 es) t) <= 1)%nat.
Proof. exact at_most_once. Qed.
Print Assumptions C64_at_most_once.

(** An answer with an event is the one the store asked for at some moment while the log was applied, or an event of
    the log on the watched key, of a kind the client wants, not before the start revision. *)
Theorem C64_answer_content : forall es t ev, let s := wsteps ws0 es in In (t, Some ev) (w_answers s) ->
  exists q start found a, In (t, q, start, found) (w_asked s) /\ moment (w_log s) a /\
  (immediate q a = Some ev \/
   (immediate q a = None /\ exists ev0, In (q_key q, ev0) (log_events (w_log s)) /\ wanted q (start_of q a) (q_key q, ev0) = true /\ ev = told q ev0)).
Proof. exact answer_content. Qed.
Print Assumptions C64_answer_content.

(** The process never stops because a watch to answer is missing. *)
Theorem C64_never_fatal : forall es, w_fatal (wsteps ws0 es) = false.
Proof. exact never_fatal. Qed.
Print Assumptions C64_never_fatal.

Example C64_used :
  let s := wsteps ws0 [WEntry (mkInc [] [OPut [7] false 0 false [1]; OPut [8] false 0 false [1]]); WOp; WRead (mkQ [7] 0 false false false true); WCheck; WRegister;
                       WRead (mkQ [8] 0 false false false true); WRegister; WTrigger; WCancel 1000; WOp; WCron; WCheck; WTrigger; WFinal] in
  w_answers s = [(0, None); (1, Some (mkEv EvPut (mkO [8] [1] 10001 10001 1 0) kvo0))].
Proof. vm_compute. reflexivity. Qed.
