(** Theorems about the safe points of garbage collection (C134-C139). *)
From Coq Require Import ZArith List Bool Lia.
From Verif Require Import SpModel SpSpec SpProofs SpProofs2 SpProofs3 SpDemo.
Import ListNotations.
Open Scope Z_scope.

(** * C134: safe points never go back *)

(** In every history, whatever fails and whoever leads, the committed default safe points only
    grow; and so do those of a tenant that nobody drops and whose creation is over. *)
Theorem C134_committed_safe_points_grow_partial :
  forall es1 es2, let c := crun coor0 es1 in let d := crun c es2 in
  c_sp c <= c_sp d /\ c_rl c <= c_rl d /\
  (forall id x, zget (c_ten c) id = Some x -> none_under_way id c -> Forall (leaves_alone id) es2 ->
     exists y, zget (c_ten d) id = Some y /\ n_sp x <= n_sp y /\ n_rl x <= n_rl y).
Proof.
  intros es1 es2 c d. destruct (crun_counters es2 c) as [A B]. split; [exact A|]. split; [exact B|].
  intros id x H W F. exact (crun_tenant id es2 c x F W H).
Qed.
Print Assumptions C134_committed_safe_points_grow_partial.

(** The answers of one leader only grow. *)
Theorem C134_answers_of_one_leader_grow_partial :
  forall es1 es2, Forall no_change es2 ->
  let c := crun coor0 es1 in let d := crun c es2 in
  w_sp (get_gc c) <= w_sp (get_gc d) /\ w_rl (get_gc c) <= w_rl (get_gc d).
Proof. intros es1 es2 F. exact (crun_temps es2 _ F). Qed.
Print Assumptions C134_answers_of_one_leader_grow_partial.

(** tenant 1 goes from 10 to 25 while stale requests for 15 are committed late *)
Example C134_case :
  let es2 := [CAsk (up 40 0 [(1, 15)] []); CAsk (up 30 0 [(1, 25)] []); CCommit 1; CCommit 0] in
  none_under_way 1 c_base /\ zget (c_ten c_base) 1 = Some (mkTen 100 0 10 10) /\
  zget (c_ten (crun c_base es2)) 1 = Some (mkTen 100 0 25 10) /\ c_sp c_base = 10 /\ c_sp (crun c_base es2) = 40.
Proof. split; [intros i []|]. vm_compute. repeat split; reflexivity. Qed.

(** After a write failed, a new leader answers an older safe point than the old one did. *)
Theorem C134_next_leader_refuted :
  exists es e, w_sp (get_gc (crun coor0 es)) = 50 /\ w_sp (get_gc (crun coor0 (es ++ [e]))) = 10 /\ e = CChange.
Proof. exists (sp_base ++ [CAsk (up 50 0 [] []); CFail 0]), CChange. vm_compute. auto. Qed.
Print Assumptions C134_next_leader_refuted.

(** Of two creations of a tenant sent at the same time both are accepted, and the second one sets
    back the safe point the tenant was given after the first. *)
Theorem C134_second_creation_refuted :
  exists es e x y, zget (c_ten (crun coor0 es)) 1 = Some x /\ n_sp x = 10 /\ e = CCommit 0 /\
    zget (c_ten (crun coor0 (es ++ [e]))) 1 = Some y /\ n_sp y = 0 /\ Forall (leaves_alone 1) es.
Proof.
  exists sp_twice, (CCommit 0), (mkTen 100 0 10 0), (mkTen 100 0 0 0).
  do 5 (split; [vm_compute; reflexivity|]). repeat constructor.
Qed.
Print Assumptions C134_second_creation_refuted.

(** * C135: an acknowledged update is in force, a refused one has no effect *)

(** When requests come one at a time, an update is accepted exactly if its flag is legal and all
    its tenants are known; afterwards every safe point is the larger of what it was and what was
    asked for, the flag is as asked for and as answered, and names, comments and other tenants are
    as before. *)
Theorem C135_acknowledged_update_is_in_force_partial :
  forall c u, calm c -> proper u ->
  ((exists r, snd (ask c u) = Some r) <-> servable c u) /\
  (forall c1 r, ask c u = (c1, Some r) ->
     let d := settled c1 in
     w_sp (get_gc d) = Z.max (w_sp (get_gc c)) (u_sp u) /\ w_rl (get_gc d) = Z.max (w_rl (get_gc c)) (u_rl u) /\
     c_sp d = w_sp (get_gc d) /\ c_rl d = w_rl (get_gc d) /\
     w_stop (get_gc d) = flag_after (u_flag u) (w_stop (get_gc c)) /\ r_stop r = w_stop (get_gc d) /\
     (forall id, zget (c_ten d) id = option_map (after_update u id) (zget (c_ten c) id))).
Proof.
  intros c u K P. split; [exact (ask_accepts c u)|]. intros c1 r A. exact (calm_update c u c1 r K P A).
Qed.
Print Assumptions C135_acknowledged_update_is_in_force_partial.

(** Nothing of a refused update is ever committed, in any state. *)
Theorem C135_refused_update_commits_nothing_partial :
  forall c u c1, ask c u = (c1, None) ->
  c_sp c1 = c_sp c /\ c_rl c1 = c_rl c /\ c_stop c1 = c_stop c /\ c_ten c1 = c_ten c /\ c_pend c1 = c_pend c.
Proof. exact refused_ask. Qed.
Print Assumptions C135_refused_update_commits_nothing_partial.

Example C135_case :
  let u := mkUpd 20 FStop 5 [(1, 30)] [(1, 12)] in
  proper u /\ servable c_base u /\
  w_sp (get_gc (settled (fst (ask c_base u)))) = 20 /\ w_rl (get_gc (settled (fst (ask c_base u)))) = 10 /\
  w_stop (get_gc (settled (fst (ask c_base u)))) = true /\
  zget (c_ten (settled (fst (ask c_base u)))) 1 = Some (mkTen 100 0 30 12).
Proof.
  cbv zeta. split; [split; repeat constructor; simpl; tauto|]. split.
  - split; [discriminate|]. intros id v [[[= <- <-]|[]]|[[= <- <-]|[]]]; right; vm_compute; discriminate.
  - vm_compute. repeat split; reflexivity.
Qed.

(** A request refused for an unknown tenant has raised the safe point the leader gives to stores. *)
Theorem C135_refused_but_raised_refuted :
  exists c u c1, calm c /\ ask c u = (c1, None) /\ w_sp (get_gc c) = 0 /\ w_sp (get_gc c1) = 50.
Proof.
  exists coor0, (up 50 0 [(7, 50)] []), (with_temp coor0 50 0).
  split; [exact calm0|]. vm_compute. auto.
Qed.
Print Assumptions C135_refused_but_raised_refuted.

(** Two accepted updates, committed in the order they were made: the raise of the second to 20 is
    dropped, because it carries a copy of the lock safe point that the first one raised. *)
Theorem C135_raise_dropped_refuted :
  exists c u1 u2, c = c_base /\ told_ok c u1 = true /\ told_ok (fst (ask c u1)) u2 = true /\
    In (1, 20) (u_tsp u2) /\
    exists x, zget (c_ten (crun c [CAsk u1; CAsk u2; CCommit 0; CCommit 0])) 1 = Some x /\ n_sp x = 10.
Proof.
  exists c_base, (up 0 0 [] [(1, 15)]), (up 0 0 [(1, 20)] []). split; [reflexivity|].
  split; [vm_compute; reflexivity|]. split; [vm_compute; reflexivity|]. split; [left; reflexivity|].
  exists (mkTen 100 0 10 15). vm_compute. auto.
Qed.
Print Assumptions C135_raise_dropped_refuted.

(** An update is acknowledged without a write because another one is under way, which fails. *)
Theorem C135_acknowledged_on_hearsay_refuted :
  exists c u, c = crun coor0 [CAsk (up 20 0 [] [])] /\ told_ok c u = true /\ u_sp u = 20 /\
    c_pend (fst (ask c u)) = c_pend c /\ w_sp (get_gc (crun c [CAsk u; CFail 0; CChange])) = 0.
Proof. exists (crun coor0 [CAsk (up 20 0 [] [])]), (up 20 0 [] []). vm_compute. auto 10. Qed.
Print Assumptions C135_acknowledged_on_hearsay_refuted.

(** An update of a safe point undoes a new name committed before it. *)
Theorem C135_name_undone_refuted :
  exists es u x y, zget (c_ten (crun coor0 (es ++ [CAsk u; CCommit 0]))) 1 = Some x /\ n_name x = 200 /\
    zget (c_ten (crun coor0 (es ++ [CAsk u; CCommit 0; CCommit 0]))) 1 = Some y /\ n_name y = 100 /\
    es = [CNew 1 100 0; CCommit 0; CRename 1 200 0].
Proof.
  exists [CNew 1 100 0; CCommit 0; CRename 1 200 0], (up 0 0 [(1, 10)] []), (mkTen 200 0 0 0), (mkTen 100 0 10 0).
  vm_compute. auto 10.
Qed.
Print Assumptions C135_name_undone_refuted.

(** The answer's new safe point is that of the locks. *)
Theorem C135_answer_refuted :
  exists c u r, calm c /\ snd (ask c u) = Some r /\ w_sp (get_gc (settled (fst (ask c u)))) = 50 /\ r_new_safe_point r = 70.
Proof. exists coor0, (up 50 70 [] []), (mkResp 70 false). split; [exact calm0|]. vm_compute. auto. Qed.
Print Assumptions C135_answer_refuted.

(** * C136: collections use safe points of the coordinator *)

(** In every history of a store, with fetches, runs and requests in any order, each collection of
    the regular run, and each set of deletes it proposes, uses a positive safe point that the
    coordinator gave for that tenant. *)
Theorem C136_regular_collections_use_given_safe_points_partial :
  forall es s a, grun store0 es = Some s -> In a (g_seen s ++ g_fx s) -> f_client a = false ->
  0 < f_sp a /\ exists stop sp tens, In (GFetch stop sp tens) es /\ given sp tens (f_tenant a) (f_sp a).
Proof. exact regular_told. Qed.
Print Assumptions C136_regular_collections_use_given_safe_points_partial.

Example C136_case :
  exists s, grun store0 (st_base ++ [GBegin; GArm regs3; GFetch false 60 [(1, 25)]] ++ one_run) = Some s /\
  g_fx s = [mkAct 501 0 30 false; mkAct 502 1 20 false; mkAct 502 1 20 false].
Proof. eexists. split; [vm_compute; reflexivity|]. reflexivity. Qed.

(** A client's collection uses whatever safe point the client names. *)
Theorem C136_request_refuted :
  exists es s a, grun store0 es = Some s /\ In a (g_fx s) /\ f_sp a = 1000 /\
    (forall stop sp tens x, In (GFetch stop sp tens) es -> given sp tens (f_tenant a) x -> x = 30).
Proof.
  exists (st_base ++ [GRequest 501 0 1000]). eexists. exists (mkAct 501 0 1000 true).
  split; [vm_compute; reflexivity|]. split; [left; reflexivity|]. split; [reflexivity|].
  intros stop sp tens x [[= <- <- <-]|[H|[]]]; [|discriminate H]. intros [[_ ->]|[H _]]; [reflexivity|]. exfalso. apply H. reflexivity.
Qed.
Print Assumptions C136_request_refuted.

(** * C137: stopped means stopped *)

(** Once the store has learnt that collection is stopped, and until it learns otherwise, no
    collection of the tenant begins and no deletes are proposed for it, neither by a run that was
    under way nor for a client — provided the tenant is in the answer and the answer did not come
    in the moment between a run's reading of the flags and its start. *)
Theorem C137_stopped_means_stopped_partial :
  forall es s sp tens t x es2 s2, grun store0 es = Some s -> ~ between s t -> given sp tens t x ->
  Forall not_switched_on es2 -> grun s (GFetch true sp tens :: es2) = Some s2 ->
  forall a, f_tenant a = t -> (In a (g_fx s2) -> In a (g_fx s)) /\ (In a (g_seen s2) -> In a (g_seen s)).
Proof. exact stopped_run. Qed.
Print Assumptions C137_stopped_means_stopped_partial.

(** the stop comes in the middle of a region *)
Example C137_case :
  exists s s2, grun store0 (st_base ++ [GBegin; GArm regs3; GRegion; GBatch]) = Some s /\ ~ between s 0 /\
  grun s [GFetch true 30 [(1, 20); (2, 0)]; GBatch; GRegion; GFinish; GRequest 501 0 30; GBegin] = Some s2 /\ g_fx s2 = g_fx s /\ g_ph s2 = RIdle.
Proof. eexists _, _. split; [vm_compute; reflexivity|]. split; [intros []|]. split; [vm_compute; reflexivity|]. split; reflexivity. Qed.

(** A stop learnt between the reading of the flags and the start of a run is forgotten. *)
Theorem C137_race_refuted :
  exists es s s2 a, grun store0 es = Some s /\
    grun s [GFetch true 30 [(1, 20)]; GArm regs3; GRegion; GBatch] = Some s2 /\ In a (g_fx s2) /\ ~ In a (g_fx s) /\ f_tenant a = 0.
Proof.
  exists (st_base ++ [GBegin]). eexists _, _, (mkAct 501 0 30 false).
  split; [vm_compute; reflexivity|]. split; [vm_compute; reflexivity|]. split; [left; reflexivity|]. split; [intros []|reflexivity].
Qed.
Print Assumptions C137_race_refuted.

(** A tenant that has been dropped is not in the answer, and goes on being collected. *)
Theorem C137_absent_tenant_refuted :
  exists es s s2 a, grun store0 es = Some s /\ (forall t, ~ between s t) /\
    grun s ([GFetch true 30 []; GBegin; GArm regs3; GRegion; GBatch]) = Some s2 /\ In a (g_fx s2) /\ ~ In a (g_fx s) /\ f_tenant a = 1.
Proof.
  exists st_base. eexists _, _, (mkAct 502 1 20 false).
  split; [vm_compute; reflexivity|]. split; [intros t []|]. split; [vm_compute; reflexivity|]. split; [left; reflexivity|]. split; [intros []|reflexivity].
Qed.
Print Assumptions C137_absent_tenant_refuted.

(** * C138: every region is collected *)

(** After an answer that lets collection go on, a run can always be brought to its end, and a run
    that ends undisturbed has collected every region the store leads whose tenant has a positive
    safe point, at that safe point. *)
Theorem C138_every_region_is_collected :
  forall es0 s sp tens s1 regs, grun store0 es0 = Some s -> g_ph s = RIdle -> gstep s (GFetch false sp tens) = Some s1 -> NoDup (map fst tens) ->
  (exists s0, gstep s1 GBegin = Some s0 /\
     (g_ph s0 = RIdle \/ exists es s2, Forall own_step es /\ grun s0 (GArm regs :: es) = Some s2 /\ g_ph s2 = RIdle /\ g_dead s2 = false)) /\
  (forall es s2, Forall own_step es -> grun s1 (GBegin :: GArm regs :: es) = Some s2 -> g_ph s2 = RIdle ->
     forall r t x, In (r, t) regs -> given sp tens t x -> 0 < x -> In (mkAct r t x false) (g_seen s2)).
Proof.
  intros es0 s sp tens s1 regs R PI F N. split; [exact (fetched_can_finish es0 s sp tens s1 regs R PI F)|].
  intros es s2 O H P2. exact (all_visited es0 s sp tens s1 regs es s2 R PI F N O H P2).
Qed.
Print Assumptions C138_every_region_is_collected.

Example C138_case :
  exists s2, grun store0 (st_base ++ GBegin :: GArm regs3 :: one_run) = Some s2 /\ Forall own_step one_run /\ g_ph s2 = RIdle /\
  g_seen s2 = [mkAct 501 0 30 false; mkAct 502 1 20 false].
Proof. eexists. split; [vm_compute; reflexivity|]. split; [repeat constructor|]. split; reflexivity. Qed.

(** * C139: requests for a collection do not end the store *)

(** Provided the store's first answer from the coordinator came before, and named the tenants. *)
Theorem C139_collection_does_not_end_the_store_partial :
  forall stop sp tens es s, grun store0 (GFetch stop sp tens :: es) = Some s ->
  (forall r t x, In (GRequest r t x) es -> exists y, given sp tens t y) -> g_dead s = false.
Proof. exact known_alive. Qed.
Print Assumptions C139_collection_does_not_end_the_store_partial.

(** The regular run never ends it: any history without requests. *)
Theorem C139_regular_run_does_not_end_the_store :
  forall es s, grun store0 es = Some s -> (forall r t x, ~ In (GRequest r t x) es) -> g_dead s = false.
Proof. exact regular_alive. Qed.
Print Assumptions C139_regular_run_does_not_end_the_store.

Example C139_case :
  exists s, grun store0 (st_base ++ [GRequest 501 0 25; GBegin; GArm regs3; GRequest 503 2 9] ++ one_run) = Some s /\ g_dead s = false /\ length (g_fx s) = 5%nat.
Proof. eexists. split; [vm_compute; reflexivity|]. split; reflexivity. Qed.

(** A request before the first answer ends the store, and so does one for a region of a tenant
    made since. *)
Theorem C139_unknown_tenant_refuted :
  (exists s, grun store0 [GRequest 501 0 25] = Some s /\ g_dead s = true) /\
  (exists s, grun store0 (st_base ++ [GRequest 504 3 25]) = Some s /\ g_dead s = true).
Proof. split; eexists; (split; [vm_compute; reflexivity|reflexivity]). Qed.
Print Assumptions C139_unknown_tenant_refuted.
