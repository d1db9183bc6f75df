(** Watches of the meta data: the theorems. *)
Require Import ZArith List Bool Permutation.
From Verif Require Import MwModel MwSpec MwProofs MwProofs2 MwDemo.
Import ListNotations.
Open Scope Z_scope.

(** * C160 *)
Theorem C160_each_call_is_answered_once_or_waits : forall es,
  NoDup (answered (run begin es)) /\
  (stays_up es ->
     Permutation (answered (run begin es) ++ waiting (run begin es)) (seq 0 (ncall (run begin es)))).
Proof. intros es. exact (conj (calls_distinct es) (calls_once es)). Qed.
Print Assumptions C160_each_call_is_answered_once_or_waits.

Example C160_case :
  stays_up ended /\ answered (run begin ended) = [0; 1; 2; 3; 4; 5; 6]%nat /\ waiting (run begin ended) = [] /\
  last (map snd (outs (run begin ended))) (REvents [] false) = RNoWatch.
Proof.
  split; [| vm_compute; auto].
  unfold stays_up, ended, before, life. cbn [app]. intros C.
  repeat (destruct C as [C | C]; [discriminate |]). exact C.
Qed.

(** * C161 *)
Theorem C161_a_watch_from_now_brings_every_later_event_once_in_order : forall es1 ts es2,
  let s1 := run begin es1 in let s := run s1 (ECreate 0 ts :: es2) in
  nd s1 = None -> goes_on es2 -> never_cancelled (since s1 s) ->
  (exists rest, watched ts (after (rev s1) (hist s)) = brought (since s1 s) ++ rest) /\
  (listening s -> brought (since s1 s) = watched ts (after (rev s1) (hist s))) /\
  (never_cancelled (since s1 (run s [EProgress])) ->
     brought (since s1 (run s [EProgress])) = watched ts (after (rev s1) (hist s))).
Proof. exact watch_now. Qed.
Print Assumptions C161_a_watch_from_now_brings_every_later_event_once_in_order.

Example C161_case :
  let s1 := run begin before in let s := run s1 (ECreate 0 [1%nat] :: life) in
  nd s1 = None /\ goes_on life /\ never_cancelled (since s1 s) /\ listening s /\
  brought (since s1 s) = [(1%nat, 21); (1%nat, 22); (1%nat, 24)].
Proof.
  cbv zeta. split; [reflexivity |]. split.
  { intros e H. unfold life in H.
    repeat (destruct H as [<- | H]; [split; [discriminate | intros; discriminate] |]). destruct H. }
  split.
  { match goal with |- never_cancelled ?x =>
      let v := eval vm_compute in x in replace x with v by (vm_compute; reflexivity) end.
    intros o H. repeat (destruct H as [<- | H]; [eexists; reflexivity |]). destruct H. }
  split; [vm_compute; discriminate | vm_compute; reflexivity].
Qed.

(** * C162 *)

(** Missing against the full statement: the newest event at the time of the creation; events that come while
    the watch is being created; starts after the newest event held. *)
Theorem C162_a_watch_from_a_revision_brings_all_but_the_newest_event_partial : forall es1 start ts es2,
  let s1 := run begin es1 in let s := run s1 (ECreate start ts :: ESupply :: es2) in
  nd s1 = None -> 0 < start <= last_key (em s1) -> goes_on es2 -> never_cancelled (since s1 s) ->
  let all := watched ts (but (last_key (em s1)) (from start (hist s))) in
  (exists rest, all = brought (since s1 s) ++ rest) /\
  (listening s -> brought (since s1 s) = all) /\
  (never_cancelled (since s1 (run s [EProgress])) -> brought (since s1 (run s [EProgress])) = all).
Proof. exact watch_from. Qed.
Print Assumptions C162_a_watch_from_a_revision_brings_all_but_the_newest_event_partial.

Example C162_case :
  let s1 := run begin before in let s := run s1 (ECreate 1 [1%nat] :: ESupply :: life) in
  nd s1 = None /\ 0 < 1 <= last_key (em s1) /\ goes_on life /\ never_cancelled (since s1 s) /\
  listening s /\
  brought (since s1 s) = [(1%nat, 10); (1%nat, 12); (1%nat, 21); (1%nat, 22); (1%nat, 24)].
Proof.
  cbv zeta. split; [reflexivity |]. split; [vm_compute; split; congruence |]. split.
  { intros e H. unfold life in H.
    repeat (destruct H as [<- | H]; [split; [discriminate | intros; discriminate] |]). destruct H. }
  split.
  { match goal with |- never_cancelled ?x =>
      let v := eval vm_compute in x in replace x with v by (vm_compute; reflexivity) end.
    intros o H. repeat (destruct H as [<- | H]; [eexists; reflexivity |]). destruct H. }
  split; [vm_compute; discriminate | vm_compute; reflexivity].
Qed.

(** The newest event at the time of the creation never comes. *)
Theorem C162_the_newest_event_at_the_creation_comes_refuted : exists es start ts,
  let s1 := run begin es in let s := run s1 [ECreate start ts; ESupply; EProgress; EProgress] in
  In start (kept s1) /\ cres s = [Created] /\ listening s /\
  brought (outs s) <> watched ts (from start (hist s)).
Proof. exists gaps, 1, [1%nat]. vm_compute. repeat split; auto; discriminate. Qed.
Print Assumptions C162_the_newest_event_at_the_creation_comes_refuted.

(** After a restart a watch from an old revision is accepted and brings nothing of the past. *)
Theorem C162_a_watch_after_a_restart_brings_the_past_refuted : exists es start ts,
  let s1 := run begin (es ++ [ERestart]) in let s := run s1 [ECreate start ts; ESupply; EProgress] in
  In start (map fst (hist s1)) /\ cres s = [Created] /\ listening s /\ brought (outs s) = [] /\
  watched ts (from start (hist s)) <> [].
Proof. exists gaps, 1, [1%nat]. vm_compute. repeat split; auto; discriminate. Qed.
Print Assumptions C162_a_watch_after_a_restart_brings_the_past_refuted.

(** A client that has all events up to a revision and asks for those from the next one on misses the next. *)
Theorem C162_a_watch_from_the_next_revision_brings_the_next_event_refuted : exists es ts e,
  let s1 := run begin es in
  let s := run s1 [ECreate (rev s1 + 1) ts; ESupply; EAdd 0 [e]; EProgress] in
  cres s = [Created] /\ listening s /\ brought (outs s) = [] /\
  watched ts (from (rev s1 + 1) (hist s)) = [e].
Proof. exists gaps, [1%nat], (1%nat, 50). vm_compute. repeat split; auto; discriminate. Qed.
Print Assumptions C162_a_watch_from_the_next_revision_brings_the_next_event_refuted.

(** An event that comes while the watch is being created is brought twice. *)
Theorem C162_an_event_during_the_creation_comes_once_refuted : exists es ts e e',
  let s := run (run begin es) [ECreate 1 ts; EAdd 0 [e]; EAdd 0 [e']; ESupply; EProgress] in
  cres s = [Created] /\ NoDup (watched ts (from 1 (hist s))) /\
  ~ NoDup (brought (outs s)) /\ In e (brought (outs s)).
Proof.
  exists gaps, [1%nat], (1%nat, 50), (1%nat, 51). cbv zeta. split; [vm_compute; auto |]. split.
  - vm_compute. repeat (constructor; [intros C; cbn in C; repeat (destruct C as [C | C]; [discriminate C |]); exact C |]).
    constructor.
  - split; [| vm_compute; tauto].
    match goal with |- ~ NoDup ?x =>
      let v := eval vm_compute in x in replace x with v by (vm_compute; reflexivity) end.
    intros D. apply (NoDup_remove_2 [(1%nat, 10); (1%nat, 11); (1%nat, 12)]) in D. apply D.
    cbn. tauto.
Qed.
Print Assumptions C162_an_event_during_the_creation_comes_once_refuted.

(** * C163 *)

(** Missing against the full statement: a start that is no revision with events can be refused although nothing
    is missing; a start after the newest event held is accepted whatever was dropped. *)
Theorem C163_a_held_start_is_accepted_and_a_refusal_names_one_partial : forall es start ts,
  let s := run begin es in let s' := run s [ECreate start ts; ESupply] in
  nd s = None -> 0 < start ->
  (In start (kept s) -> nd s' <> None /\ cres s' = cres s ++ [Created]) /\
  (nd s' = None -> exists r, cres s' = cres s ++ [Compacted r] /\ In r (kept s) /\ start < r) /\
  (nd s' <> None -> start <= last_key (em s) -> forall p, In p (hist s) -> start <= fst p -> In p (em s)).
Proof.
  exact (fun es start ts N P =>
    conj (fun I => held_creates es start ts N I P)
      (conj (refused_names es start ts N P) (fun L K => all_kept es start ts N (conj P K) L))).
Qed.
Print Assumptions C163_a_held_start_is_accepted_and_a_refusal_names_one_partial.

Example C163_case :
  let s := run begin (gaps ++ [ETrim 2]) in
  kept s = [3; 4] /\ cres (run s [ECreate 3 [1%nat]; ESupply]) = [Created] /\
  cres (run s [ECreate 1 [1%nat]; ESupply]) = [Compacted 3].
Proof. vm_compute. auto. Qed.

(** A watch is refused as compacted although every event ever is held. *)
Theorem C163_a_refused_watch_would_miss_an_event_refuted : exists es start ts r,
  let s := run begin es in
  cres (run s [ECreate start ts; ESupply]) = [Compacted r] /\ em s = hist s /\ 0 < start <= rev s.
Proof. exists gaps, 2, [1%nat], 3. vm_compute. repeat split; auto; discriminate. Qed.
Print Assumptions C163_a_refused_watch_would_miss_an_event_refuted.
