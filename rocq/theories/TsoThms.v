(** The timestamp oracle: C22 (timestamps are unique and increase), C51 (a leader serves). *)
From Coq Require Import ZArith List Bool Arith Lia.
From Verif Require Import TsoModel TsoSpec TsoProofs.
Import ListNotations.
Open Scope Z_scope.

(** Node 0 leads, serves, its timer moves the clock, it crashes; node 1 takes over with a clock that is
    behind; node 0 comes back from a snapshot and leads again; node 2 installs a snapshot. *)
Definition history3 : list ev :=
  [Elect 0 100; Submit 0; Apply 0; Gen 0 5; Gen 0 7; Timer 0 4000; Submit 0; Apply 1; Apply 0; Gen 0 1; Apply 1; Restart 0 None;
   Elect 1 90; Submit 1; Apply 1; Gen 1 3; Install 2 1; Restart 0 (Some 1%nat); Gen 0 1; Stop 1; Elect 0 9000; Submit 0; Apply 0; Gen 0 2].
Example C22_example : all_steps tallowed tinit history3 /\ all_steps one_leader tinit history3 /\
  snd (trun tinit history3) = [Stamp 100 0 5; Stamp 100 5 7; Stamp 4000 0 1; Stamp 7001 0 3; ENotLeader; Stamp 10002 0 2].
Proof.
  split; [|split; [|vm_compute; reflexivity]].
  - unfold history3. repeat (cbn [all_steps]; split; [unfold tallowed; vm_compute; intuition congruence|]). exact Logic.I.
  - unfold history3. repeat (cbn [all_steps]; split; [first [exact Logic.I|intros j Nj; vm_compute; destruct j as [|[|[|j]]]; congruence]|]). exact Logic.I.
Qed.
Print Assumptions C22_example.

(** No number is handed out twice, across leaders, crashes, snapshots and clocks that go back, if leaders
    serve only after their first entry was applied, counts are positive, clients do not update the
    oracle, and no proposal outlives the leadership it was computed in. *)
Theorem C22_unique_partial : forall es, all_steps tallowed tinit es -> unique (snd (trun tinit es)).
Proof. intros es A. exact (t_unique _ _ (run_tinv es tinit [] init_tinv A)). Qed.
Print Assumptions C22_unique_partial.

(** If moreover no deposed leader still serves when a new one is elected, every number is larger than
    all numbers handed out before. *)
Theorem C22_increasing_partial : forall es, all_steps tallowed tinit es -> all_steps one_leader tinit es -> increasing (snd (trun tinit es)).
Proof. intros es A O. exact (proj2 (proj2 (proj2 (run_sinv es tinit [] init_sinv A O)))). Qed.
Print Assumptions C22_increasing_partial.

(** ** without the conditions *)


(** A new leader serves before its start-up entry is applied: it continues from the last entry of the old
    leader, with the logical part the old leader started from. *)
Theorem C22_before_sync_refuted : exists es,
  all_steps (fun s e => no_client s e /\ positive s e /\ no_stale s e /\ one_leader s e) tinit es /\ ~ unique (snd (trun tinit es)).
Proof.
  exists [Elect 0 100; Submit 0; Apply 0; Gen 0 5; Apply 1; Stop 0; Elect 1 100; Gen 1 5]. split.
  - repeat (cbn [all_steps]; split; [repeat split; first [exact Logic.I|reflexivity|intros j Nj; vm_compute; destruct j as [|[|[|j]]]; congruence]|]). exact Logic.I.
  - eapply (dup_not_unique _ 0%nat 1%nat _ _ _ _ _ _ (100 * 2 ^ 18)); [vm_compute; reflexivity|vm_compute; reflexivity|discriminate|lia|lia].
Qed.
Print Assumptions C22_before_sync_refuted.

(** A request with a negative count is accepted and moves the logical part back. *)
Theorem C22_negative_count_refuted : exists es,
  all_steps (fun s e => no_client s e /\ serves_synced s e /\ no_stale s e /\ one_leader s e) tinit es /\ ~ unique (snd (trun tinit es)).
Proof.
  exists [Elect 0 100; Submit 0; Apply 0; Gen 0 5; Gen 0 (-5); Gen 0 5]. split.
  - repeat (cbn [all_steps]; split; [repeat split; first [exact Logic.I|reflexivity|right; reflexivity|intros j Nj; vm_compute; destruct j as [|[|[|j]]]; congruence]|]). exact Logic.I.
  - eapply (dup_not_unique _ 0%nat 2%nat _ _ _ _ _ _ (100 * 2 ^ 18)); [vm_compute; reflexivity|vm_compute; reflexivity|discriminate|lia|lia].
Qed.
Print Assumptions C22_negative_count_refuted.

(** A client update with the current physical part is accepted and resets the logical part. *)
Theorem C22_client_update_refuted : exists es,
  all_steps (fun s e => positive s e /\ serves_synced s e /\ no_stale s e /\ one_leader s e /\
                        match e with Client _ u => u_kind u = Update /\ n_phys (nodes s 0) <= u_phys u | _ => True end) tinit es /\
  ~ unique (snd (trun tinit es)).
Proof.
  exists [Elect 0 100; Submit 0; Apply 0; Gen 0 5; Client 0 (mkU Update 100 0 3100 0); Apply 0; Gen 0 5]. split.
  - repeat (cbn [all_steps]; split; [repeat split; first [exact Logic.I|reflexivity|right; reflexivity|intros j Nj; vm_compute; destruct j as [|[|[|j]]]; congruence|vm_compute; congruence]|]). exact Logic.I.
  - eapply (dup_not_unique _ 0%nat 1%nat _ _ _ _ _ _ (100 * 2 ^ 18)); [vm_compute; reflexivity|vm_compute; reflexivity|discriminate|lia|lia].
Qed.
Print Assumptions C22_client_update_refuted.

(** A timer that computed its proposal before the node lost the leadership and submits it after the node
    is the leader again: the proposal may carry the physical part of the start-up entry, which is
    accepted and resets the logical part. *)
Theorem C22_stale_timer_refuted : exists es,
  all_steps (fun s e => no_client s e /\ positive s e /\ serves_synced s e /\ one_leader s e) tinit es /\ ~ unique (snd (trun tinit es)).
Proof.
  exists [Elect 0 100; Submit 0; Apply 0; Timer 0 3101; Stop 0; Elect 0 3101; Submit 0; Submit 0; Apply 0; Gen 0 5; Apply 0; Gen 0 5]. split.
  - repeat (cbn [all_steps]; split; [repeat split; first [exact Logic.I|reflexivity|right; reflexivity|intros j Nj; vm_compute; destruct j as [|[|[|j]]]; congruence]|]). exact Logic.I.
  - eapply (dup_not_unique _ 0%nat 1%nat _ _ _ _ _ _ (3101 * 2 ^ 18)); [vm_compute; reflexivity|vm_compute; reflexivity|discriminate|lia|lia].
Qed.
Print Assumptions C22_stale_timer_refuted.

(** A deposed leader that has not noticed yet serves from memory: smaller numbers after larger ones. *)
Theorem C22_two_leaders_refuted : exists es, all_steps tallowed tinit es /\ ~ increasing (snd (trun tinit es)).
Proof.
  exists [Elect 0 100; Submit 0; Apply 0; Apply 1; Elect 1 100; Submit 1; Apply 1; Gen 1 5; Gen 0 5]. split.
  - repeat (cbn [all_steps]; split; [unfold tallowed; vm_compute; intuition congruence|]). exact Logic.I.
  - assert (E : snd (trun tinit [Elect 0 100; Submit 0; Apply 0; Apply 1; Elect 1 100; Submit 1; Apply 1; Gen 1 5; Gen 0 5]) = [Stamp 3101 0 5; Stamp 100 0 5]) by (vm_compute; reflexivity).
    rewrite E. intros U. assert (X := U 0%nat 1%nat _ _ (3101 * 2 ^ 18) (100 * 2 ^ 18) eq_refl eq_refl ltac:(lia) ltac:(cbn [stamps]; lia) ltac:(cbn [stamps]; lia)). lia.
Qed.
Print Assumptions C22_two_leaders_refuted.

(** A healthy leader whose start-up entry was applied answers every request that fits into the current
    millisecond with the requested number of timestamps. *)
Theorem C51_serves_partial : forall es, all_steps tallowed tinit es ->
  let s := fst (trun tinit es) in
  forall i t count, n_term (nodes s i) = Some t -> n_synced (nodes s i) = true -> n_ok (nodes s i) = true ->
    0 < count -> n_logic (nodes s i) + count < 2 ^ 18 ->
    exists p l, snd (tstep s (Gen i count)) = Some (Stamp p l count) /\ 0 < p.
Proof.
  intros es A s i t count Tm Sy Ok Pc Lt. do 2 eexists.
  exact (served s _ i t count (run_tinv es tinit [] init_tinv A) Tm Sy Ok Pc Lt).
Qed.
Print Assumptions C51_serves_partial.

Example C51_example : exists n, nodes (fst (trun tinit history3)) 0 = n /\ n_term n = Some 3%nat /\ n_synced n = true /\ n_ok n = true /\ n_logic n = 2.
Proof. eexists. split; [vm_compute; reflexivity|]. repeat split. Qed.

(** Once the start-up entry of a node failed, the node never serves again, even when it is elected again
    and its start-up entry is applied, until a client resets the oracle or the process restarts. *)
Theorem C51_unhealthy_refuted : exists es0, all_steps tallowed tinit es0 /\
  forall es, Forall (keeps_unhealthy 0) es -> forall count, 0 < count ->
    let s := fst (trun (fst (trun tinit es0)) es) in
    snd (tstep s (Gen 0 count)) = Some ERetry \/ snd (tstep s (Gen 0 count)) = Some ENotLeader.
Proof.
  exists [Elect 0 100; Stop 0; Submit 0; Unhealthy 0]. split.
  - repeat (cbn [all_steps]; split; [unfold tallowed; vm_compute; intuition congruence|]). exact Logic.I.
  - intros es F count Pc. cbv zeta. apply sick_gen; [|exact Pc]. apply sick_run; [|reflexivity|exact F].
    apply kinds_run; [|repeat constructor]. split; [intros u []|intros i u []].
Qed.
Print Assumptions C51_unhealthy_refuted.
