(** Requests to the coordinator: the theorems. *)
Require Import List Bool PeanoNat Lia.
From Verif Require Import CiModel CiSpec CiProofs.
Import ListNotations.

(** * C164 *)

(** Missing against the full statement: lists of more than five addresses, and servers that cannot be reached. *)
Theorem C164_a_request_by_a_list_reaches_the_leader_partial : forall n L i es c x,
  n <= 5 -> L < n -> i < n -> all_replies (leads n L) es ->
  nth_error (cs (run (MList n) (start (Some i)) es)) c = Some x ->
  length (log x) <= n /\ (forall st, ph x = Done st -> answered_by L x).
Proof. exact list_reaches. Qed.
Print Assumptions C164_a_request_by_a_list_reaches_the_leader_partial.

(** Two calls at once among three servers; server 1 leads, server 2 is remembered. *)
Example C164_case :
  let w := fun a => if Nat.eqb a 1 then OAns 0 else ONot None in
  leads 3 1 w /\
  cs (run (MList 3) (start (Some 2)) [ENew; ENew; ESend 0 0; ESend 1 0; EReply 1 w; EReply 0 w; ESend 0 0; ESend 1 0;
                                      EReply 0 w; ESend 0 0; EReply 1 w; EReply 0 w; ESend 1 0; EReply 1 w]) =
    [mkC (Done (SAns 0)) [(2, ONot None); (0, ONot None); (1, OAns 0)];
     mkC (Done (SAns 0)) [(2, ONot None); (0, ONot None); (1, OAns 0)]].
Proof.
  cbv zeta. split; [| vm_compute; reflexivity]. split; [exists 0; reflexivity |].
  intros a H N. exists None. apply Nat.eqb_neq in N. rewrite N. reflexivity.
Qed.

(** With six addresses a request can fail although all servers are up. *)
Theorem C164_a_long_list_reaches_the_leader_refuted : exists n L i w,
  L < n /\ i < n /\ leads n L w /\
  exists l, cs (run (MList n) (start (Some i)) (ENew :: concat (repeat [ESend 0 0; EReply 0 w] 5))) =
    [mkC (Done SInternal) l].
Proof.
  exists 6, 5, 0, (fun a => if Nat.eqb a 5 then OAns 0 else ONot None).
  split; [lia |]. split; [lia |]. split.
  - split; [exists 0; reflexivity |]. intros a H N. exists None. apply Nat.eqb_neq in N. rewrite N. reflexivity.
  - eexists. vm_compute. reflexivity.
Qed.
Print Assumptions C164_a_long_list_reaches_the_leader_refuted.

(** While the remembered server is down no request ever ends with an answer, though the leader is up. *)
Theorem C164_a_request_gets_past_a_server_that_is_down_refuted : exists n L i w,
  L < n <= 5 /\ i < n /\ w L = OAns 0 /\ (forall a, a < n -> a <> L -> a <> i -> w a = ONot (Some L)) /\
  forall es c x, all_replies (fun v => v = w) es ->
    nth_error (cs (run (MList n) (start (Some i)) es)) c = Some x -> forall st, ph x = Done st -> st = SRpc.
Proof.
  exists 3, 0, 1, (fun a => if Nat.eqb a 0 then OAns 0 else if Nat.eqb a 1 then ODown else ONot (Some 0)).
  split; [lia |]. split; [lia |]. split; [reflexivity |]. split.
  - intros a H N0 N1. destruct a as [| [| [| a]]]; try lia. reflexivity.
  - intros es c x W E st P. apply (stuck 3 1 es c) in E.
    + rewrite P in E. exact E.
    + intros d w J. rewrite (W d w J). reflexivity.
Qed.
Print Assumptions C164_a_request_gets_past_a_server_that_is_down_refuted.

(** * C165 *)

(** Missing against the full statement: names that lead more than twice to servers that are down or know no leader, wrong hints,
    and other calls at the same time. *)
Theorem C165_a_request_by_name_reaches_the_leader_partial : forall L m ps,
  (forall x, In x ps -> leads_known L (snd x)) -> unhelped ps <= 2 -> 3 + unhelped ps <= length ps ->
  exists x, run MName (start m) (attempts ps) = mkS (Some L) [x] /\ answered_by L x /\
    length (log x) <= 3 + unhelped ps.
Proof. exact name_reaches. Qed.
Print Assumptions C165_a_request_by_name_reaches_the_leader_partial.

(** The remembered server is down, the name leads to it again, then to a server that knows no
    leader, and then to one that does. *)
Example C165_case :
  let w := fun a => if Nat.eqb a 1 then OAns 7 else if Nat.eqb a 2 then ODown else ONot (Some 1) in
  let v := fun a => if Nat.eqb a 1 then OAns 7 else ONot None in
  let ps := [(0, w); (2, w); (3, v); (0, w); (0, w)] in
  leads_known 1 w /\ leads_known 1 v /\ unhelped ps = 2 /\ length ps = 5 /\
  cs (run MName (start (Some 2)) (attempts ps)) =
    [mkC (Done (SAns 7)) [(2, ODown); (2, ODown); (3, ONot None); (0, ONot (Some 1)); (1, OAns 7)]].
Proof.
  cbv zeta. split; [| split; [| vm_compute; auto]].
  - split; [exists 7; reflexivity |]. intros a N. apply Nat.eqb_neq in N. rewrite N.
    destruct (Nat.eqb a 2); auto.
  - split; [exists 7; reflexivity |]. intros a N. apply Nat.eqb_neq in N. rewrite N. auto.
Qed.

(** Two servers that name each other keep every request from a leader that is up. *)
Theorem C165_wrong_hints_are_got_over_refuted : exists L i w,
  w L = OAns 0 /\
  forall es c x, all_replies (fun v => v = w) es ->
    nth_error (cs (run MName (start (Some i)) es)) c = Some x -> forall st, ph x = Done st -> st = SInternal.
Proof.
  exists 0, 1, (fun a => if Nat.eqb a 0 then OAns 0 else if Nat.eqb a 1 then ONot (Some 2) else ONot (Some 1)).
  split; [reflexivity |]. intros es c x W E st P. apply (circle 1 2 es c) in E.
  - rewrite P in E. exact E.
  - intros d w J. rewrite (W d w J). split; reflexivity.
Qed.
Print Assumptions C165_wrong_hints_are_got_over_refuted.

(** Other calls that fail late make a call forget the leader again and again. *)
Theorem C165_other_calls_do_not_keep_a_request_from_the_leader_refuted : exists L m w es x,
  leads_known L w /\ all_replies (fun v => v = w) es /\
  (forall c p, In (ESend c p) es -> w p <> ODown) /\
  nth_error (cs (run MName (start m) es)) 0 = Some x /\ ph x = Done SInternal.
Proof.
  pose (w := fun a => if Nat.eqb a 1 then OAns 0 else if Nat.eqb a 2 then ODown else ONot (Some 1)).
  exists 1, (Some 2), w.
  exists ([ENew; ENew; ENew; ENew; ESend 0 0; ESend 1 0; ESend 2 0; ESend 3 0; EReply 0 w] ++
          [ESend 0 0; EReply 0 w; EReply 1 w; ESend 0 0; EReply 0 w; EReply 2 w; ESend 0 0; EReply 0 w; EReply 3 w;
           ESend 0 0; EReply 0 w]).
  eexists. split.
  { split; [exists 0; reflexivity |]. intros a N. unfold w. apply Nat.eqb_neq in N. rewrite N.
    destruct (Nat.eqb a 2); auto. }
  split.
  { intros c v H. cbn [app] in H. repeat (destruct H as [H | H]; [first [discriminate H | injection H as _ <-; reflexivity] |]).
    destruct H. }
  split.
  { intros c p H. cbn [app] in H. repeat (destruct H as [H | H]; [first [discriminate H | injection H as _ <-; discriminate] |]).
    destruct H. }
  split; [vm_compute; reflexivity | reflexivity].
Qed.
Print Assumptions C165_other_calls_do_not_keep_a_request_from_the_leader_refuted.

(** * C166 *)
Theorem C166_what_is_handed_back_is_the_only_answer : forall md es m c x,
  nth_error (cs (run md (start m) es)) c = Some x ->
  length (log x) <= 5 /\
  (forall code, ph x = Done (SAns code) ->
     exists l a, log x = l ++ [(a, OAns code)] /\ existsb is_answer l = false) /\
  (ph x = Done SRpc \/ ph x = Done SInternal -> existsb is_answer (log x) = false).
Proof.
  intros md es m c [q l] H. split; [exact (tries_few md es m c _ H) |]. split.
  - intros code E. cbn in E. subst q. exact (proj2 (back_answer md es m c code l H)).
  - intros [E | E]; cbn in E; subst q; [exact (proj2 (back_failure md es m c l (or_introl H)))
                                       | exact (proj2 (back_failure md es m c l (or_intror H)))].
Qed.
Print Assumptions C166_what_is_handed_back_is_the_only_answer.

Example C166_case :
  let w := fun a => if Nat.eqb a 0 then ODown else if Nat.eqb a 1 then ONot None else OAns 3 in
  cs (run MName (start None) [ENew; ESend 0 0; EReply 0 w; ESend 0 1; EReply 0 w; ESend 0 2; EReply 0 w]) =
    [mkC (Done (SAns 3)) [(0, ODown); (1, ONot None); (2, OAns 3)]] /\
  cs (run (MList 2) (start (Some 0)) [ENew; ESend 0 0; EReply 0 w]) = [mkC (Done SRpc) [(0, ODown)]].
Proof. vm_compute. auto. Qed.

(** * C167 *)

(** Missing against the full statement: requests by the name of a service whose answer is lost. *)
Theorem C167_a_request_is_handled_at_most_once_partial : forall md es m c x,
  nth_error (cs (run md (start m) es)) c = Some x ->
  (exists n, md = MList n) \/ (forall a, ~ In (a, OLost) (log x)) ->
  times (log x) <= 1.
Proof.
  intros md es m c x H [[n ->] | N]; [exact (list_once n es m c x H) | exact (unlost_once md es m c x H N)].
Qed.
Print Assumptions C167_a_request_is_handled_at_most_once_partial.

Example C167_case :
  let w := fun a => if Nat.eqb a 0 then OLost else OAns 0 in
  map (fun x => times (log x)) (cs (run (MList 2) (start (Some 0)) [ENew; ESend 0 0; EReply 0 w])) = [1] /\
  map (fun x => times (log x)) (cs (run MName (start (Some 1)) [ENew; ESend 0 0; EReply 0 w])) = [1].
Proof. vm_compute. auto. Qed.

(** A request whose answer is lost is sent, and handled, again. *)
Theorem C167_a_request_by_name_is_handled_once_refuted : exists es x,
  cs (run MName (start (Some 0)) es) = [x] /\ ph x = Done (SAns 0) /\ times (log x) = 2.
Proof.
  exists [ENew; ESend 0 0; EReply 0 (fun _ => OLost); ESend 0 0; EReply 0 (fun _ => OAns 0)].
  eexists. split; [vm_compute; reflexivity |]. split; reflexivity.
Qed.
Print Assumptions C167_a_request_by_name_is_handled_once_refuted.
