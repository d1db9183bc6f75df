(** * C109-C116: balancing leaders and replicas *)
From Coq Require Import ZArith QArith List Bool Lia.
From Verif Require Import BalModel BalSpec BalProofs1 BalProofs2 BalProofs3 BalProofs4 BalDemo.
Import ListNotations.
Local Open Scope Z_scope.

(** ** C109 *)

(** Whatever the coordinator sees and picks, a plan of leader transfers has at
    most the configured number of them, moves each region once, only regions
    that are healthy at the last look, and each from the store that leads the
    region to another; both stores are up, and the other one has a replica. *)
Theorem C109_plan_sound : forall batch views fuel rs ss ts,
  map_ok rs -> schedule batch views fuel rs ss = Some ts ->
  (length ts <= Nat.max 1 batch)%nat /\ NoDup (map t_region ts) /\
  (exists n, forall t, In t ts -> healthy_in (views n) (t_region t)) /\
  forall t, In t ts ->
    leads rs (t_src t) (t_region t) /\ t_src t <> t_dst t /\
    store_up ss (t_src t) /\ store_up ss (t_dst t) /\
    (follows rs (t_dst t) (t_region t) \/ exists n, votes_in (views n) (t_dst t) (t_region t)).
Proof. exact plan_sound. Qed.
Print Assumptions C109_plan_sound.

(** Planning ends. *)
Theorem C109_plan_ends : forall batch views rs ss,
  exists n ts, forall fuel, (n <= fuel)%nat -> schedule batch views fuel rs ss = Some ts.
Proof. exact schedule_ends. Qed.
Print Assumptions C109_plan_ends.

Example C109_nonvacuous : map_ok six /\
  schedule 4 (calm (fun n => n)) 20 six three =
  Some [mkTask 11 1 3; mkTask 14 1 2; mkTask 12 1 3; mkTask 13 1 2].
Proof. split; [exact six_ok | vm_compute; reflexivity]. Qed.

(** ** C110 *)

(** While the reported health of the regions stays the same, each transfer of a
    plan, made after those before it, leaves the new leader's store with no
    more leaders for its weight than the old one's. *)
Theorem C110_each_transfer_helps : forall batch views fuel rs ss ts,
  map_ok rs -> steady views -> schedule batch views fuel rs ss = Some ts ->
  forall pre t post, ts = pre ++ t :: post ->
    no_more (load rs (pre ++ [t]) (t_dst t)) (weight_of ss (t_dst t))
            (load rs (pre ++ [t]) (t_src t)) (weight_of ss (t_src t)).
Proof. exact transfer_helps. Qed.
Print Assumptions C110_each_transfer_helps.

(** So after the whole plan no store has more than the fullest had, and none
    less than the emptiest had. *)
Theorem C110_spread_never_grows : forall batch views fuel rs ss ts,
  map_ok rs -> stores_ok ss -> steady views -> schedule batch views fuel rs ss = Some ts ->
  forall s, candidate rs ss s ->
    (exists a, candidate rs ss a /\ no_more (load rs ts s) (weight_of ss s) (load rs [] a) (weight_of ss a)) /\
    (exists b, candidate rs ss b /\ no_more (load rs [] b) (weight_of ss b) (load rs ts s) (weight_of ss s)).
Proof. exact plan_bounds. Qed.
Print Assumptions C110_spread_never_grows.

Example C110_nonvacuous :
  map_ok six /\ stores_ok three /\ steady (calm (fun n => n)) /\ candidate six three 1 /\
  load six [] 1 = 6 /\
  load six [mkTask 11 1 3; mkTask 14 1 2; mkTask 12 1 3; mkTask 13 1 2] 1 = 2.
Proof.
  split; [exact six_ok|]. split; [exact three_ok|]. split; [intros i j r; reflexivity|]. split.
  - apply (cand_by _ _ 1 (mkRegion 11 1 p3) (mkStore 1 true 0)); cbn; try lia; try tauto.
    exists (mkPeer 1 true). cbn. auto.
  - split; vm_compute; reflexivity.
Qed.

(** When a region stops being healthy before the last look, its transfer is
    dropped but the transfers that were planned upon it stay: a store ends up
    with less than the emptiest had. *)
Theorem C110_unsteady_refuted : exists batch views fuel rs ss ts s,
  map_ok rs /\ stores_ok ss /\ schedule batch views fuel rs ss = Some ts /\ candidate rs ss s /\
  forall b, candidate rs ss b -> ~ no_more (load rs [] b) (weight_of ss b) (load rs ts s) (weight_of ss s).
Proof.
  exists 4%nat, turning, 40%nat, fifteen, weighted, [mkTask 21 2 3], 2.
  split; [exact fifteen_ok|]. split; [exact weighted_ok|]. split; [vm_compute; reflexivity|]. split.
  - apply (cand_by _ _ 2 (mkRegion 21 2 p23) (mkStore 2 true 1)); cbn; try lia; try tauto.
    exists (mkPeer 2 true). cbn. auto.
  - intros b ((_ & st & Hst & Es & _) & _). cbn in Hst.
    destruct Hst as [<- | [<- | [<- | []]]]; cbn in Es; subst b; vm_compute; intros H; apply H; reflexivity.
Qed.
Print Assumptions C110_unsteady_refuted.

(** ** C111 *)

(** When every store has room for what it follows, leadership only goes to
    voting replicas. *)
Theorem C111_targets_vote_partial : forall batch views fuel rs ss ts,
  map_ok rs -> schedule batch views fuel rs ss = Some ts ->
  (forall n s r, store_up ss s -> follows rs s r -> fits_in (views n) s r) ->
  forall t, In t ts -> exists n,
    votes_in (views n) (t_dst t) (t_region t) /\ fits_in (views n) (t_dst t) (t_region t).
Proof. exact targets_vote. Qed.
Print Assumptions C111_targets_vote_partial.

Example C111_nonvacuous :
  (forall n s r, store_up three s -> follows six s r -> fits_in (calm (fun n => n) n) s r) /\
  schedule 4 (calm (fun n => n)) 20 six three <> Some [].
Proof.
  split; [|vm_compute; discriminate]. intros n s r _ _. exists ok_sm, ok_rm.
  split; [reflexivity|]. split; [reflexivity | discriminate].
Qed.

(** The transfers into a store test the memory the wrong way round: the leader
    of a vector index goes to a store that has no room for it. *)
Theorem C111_memory_refuted : exists batch views fuel rs ss ts t,
  map_ok rs /\ schedule batch views fuel rs ss = Some ts /\ In t ts /\
  forall n, exists sm m, v_store (views n) (t_dst t) = Some sm /\ v_region (views n) (t_region t) = Some m /\
    rm_vector m = true /\ sm_free_mem sm < rm_mem m.
Proof.
  exists 4%nat, tight, 40%nat, six, three,
    [mkTask 11 1 3; mkTask 12 1 2; mkTask 13 1 3; mkTask 14 1 2], (mkTask 11 1 3).
  split; [exact six_ok|]. split; [vm_compute; reflexivity|]. split; [left; reflexivity|].
  intros n. exists small_sm, vec_rm. repeat split.
Qed.
Print Assumptions C111_memory_refuted.

(** They do not ask whether the replica votes, either. *)
Theorem C111_learner_refuted : exists batch views fuel rs ss ts t,
  map_ok rs /\ schedule batch views fuel rs ss = Some ts /\ In t ts /\
  forall n, ~ votes_in (views n) (t_dst t) (t_region t).
Proof.
  exists 4%nat, learner_view, 40%nat, learning, two, [mkTask 11 1 2; mkTask 12 1 2], (mkTask 11 1 2).
  split; [exact learning_ok|]. split; [vm_compute; reflexivity|]. split; [left; reflexivity|].
  intros n (ps & p & E & Hp & Es & V). cbn in E. assert (ps = p_learner) by congruence. subst ps.
  cbn in Hp. destruct Hp as [<- | [<- | []]]; cbn in *; discriminate.
Qed.
Print Assumptions C111_learner_refuted.

(** Regions with unfinished jobs are not left alone. *)
Theorem C111_busy_refuted : exists batch views fuel rs ss ts t,
  map_ok rs /\ schedule batch views fuel rs ss = Some ts /\ In t ts /\
  forall n, In (t_region t) (v_jobs (views n)).
Proof.
  exists 4%nat, busy, 40%nat, six, three,
    [mkTask 11 1 3; mkTask 12 1 2; mkTask 13 1 3; mkTask 14 1 2], (mkTask 11 1 3).
  split; [exact six_ok|]. split; [vm_compute; reflexivity|]. split; [left; reflexivity|].
  intros n. left. reflexivity.
Qed.
Print Assumptions C111_busy_refuted.

(** ** C112 *)

(** If some store leads a healthy region and every healthy region it leads
    could go to another store, the plan is not empty, whatever is picked. *)
Theorem C112_progress_partial : forall views rs ss batch fuel s,
  map_ok rs -> stores_ok ss -> constant views -> candidate rs ss s ->
  (exists r, leads rs s r /\ healthy_in (views 0%nat) r) ->
  (forall r, leads rs s r -> healthy_in (views 0%nat) r ->
     r <> 0 /\ exists d, can_take rs ss (views 0%nat) s d r) ->
  schedule batch views fuel rs ss <> Some [].
Proof. exact progress. Qed.
Print Assumptions C112_progress_partial.

Example C112_nonvacuous :
  constant (calm (fun n => n)) /\ leads six 1 11 /\ healthy_in (calm (fun n => n) 0%nat) 11 /\
  can_take six three (calm (fun n => n) 0%nat) 1 2 11.
Proof.
  split; [intros i j r; repeat split|]. split.
  { exists (mkRegion 11 1 p3). cbn. repeat split; auto. exists (mkPeer 1 true). cbn. auto. }
  split; [exists ok_rm; repeat split; cbn; lia|].
  split.
  { apply (cand_by _ _ 2 (mkRegion 11 1 p3) (mkStore 2 true 0)); cbn; try lia; try tauto.
    exists (mkPeer 2 true). cbn. auto. }
  split; [lia|]. split; [exists p3, (mkPeer 2 true); cbn; auto 10|].
  split; [exists ok_sm, ok_rm; repeat split; discriminate|]. vm_compute. discriminate.
Qed.

(** It does not hold when only some of the regions could go: one region is
    picked at random, and if that one cannot go its store is passed over. *)
Theorem C112_unlucky_refuted : exists batch views fuel rs ss s r d,
  map_ok rs /\ stores_ok ss /\ constant views /\ candidate rs ss s /\
  leads rs s r /\ healthy_in (views 0%nat) r /\ can_take rs ss (views 0%nat) s d r /\
  led rs s = 5%nat /\ led rs d = 0%nat /\ schedule batch views fuel rs ss = Some [].
Proof.
  exists 4%nat, (unlucky 0), 40%nat, lonely, two, 1, 12, 2.
  split; [exact lonely_ok|]. split; [exact two_ok|]. split; [intros i j r; repeat split|]. split.
  { apply (cand_by _ _ 1 (mkRegion 12 1 p12) (mkStore 1 true 0)); cbn; try lia; try tauto.
    exists (mkPeer 1 true). cbn. auto. }
  split; [exists (mkRegion 12 1 p12); cbn; repeat split; auto; exists (mkPeer 1 true); cbn; auto|].
  split; [exists ok_rm; repeat split; cbn; lia|]. split.
  { split.
    { apply (cand_by _ _ 2 (mkRegion 12 1 p12) (mkStore 2 true 0)); cbn; try lia; try tauto.
      exists (mkPeer 2 true). cbn. auto. }
    split; [lia|]. split; [exists p12, (mkPeer 2 true); cbn; auto 10|].
    split; [exists ok_sm, ok_rm; repeat split; discriminate|]. vm_compute. discriminate. }
  split; [vm_compute; reflexivity|]. split; vm_compute; reflexivity.
Qed.
Print Assumptions C112_unlucky_refuted.

(** ** C113 *)

(** A planned move of a replica takes it from a store that is up and follows
    the region to a less full one that is up, reports more free capacity than
    the region takes and does not report the region.  If the reports are
    truthful, the new stores are the old ones with the one replaced by the
    other, and the change of peers is accepted. *)
Theorem C113_move_sound : forall c views rs ss k,
  rschedule c views rs ss = Planned (Some k) -> finite c (views 0%nat) ss ->
  store_up ss (k_src k) /\ store_up ss (k_dst k) /\ follows rs (k_src k) (k_region k) /\
  (exists a b, v_store (views 0%nat) (k_src k) = Some a /\ v_store (views 0%nat) (k_dst k) = Some b /\
     (fullness c b < fullness c a)%Q) /\
  exists n sm m, v_store (views n) (k_dst k) = Some sm /\ v_region (views n) (k_region k) = Some m /\
    0 < rm_size m < sm_free_cap sm /\ ~ In (k_region k) (sm_regions sm) /\
    (truthful rs (views n) ->
       replaces (rm_peers m) (k_new k) (k_src k) (k_dst k) /\
       pair_accepts (rm_peers m) (k_new k) = Some (k_dst k, k_src k)).
Proof. exact move_sound. Qed.
Print Assumptions C113_move_sound.

Example C113_nonvacuous :
  rschedule cfg0 full_view one_region four = Planned (Some (mkRtask 11 1 4 [4; 2; 3])) /\
  finite cfg0 (full_view 0) four.
Proof.
  split; [vm_compute; reflexivity|]. split; [cbn; lia|]. intros s m Hs E. cbn in Hs.
  repeat (destruct Hs as [<- | Hs]; [vm_compute in E; injection E as <-; cbn; lia|]). contradiction.
Qed.

(** A store that the coordinator knows only from its store heartbeats passes
    for one without regions.  A replica is then moved onto a store that has
    one already; the check of the new peers counts it twice and accepts. *)
Theorem C113_replica_lost_refuted : exists c views rs ss k m,
  rschedule c views rs ss = Planned (Some k) /\ finite c (views 0%nat) ss /\
  v_region (views 0%nat) (k_region k) = Some m /\ NoDup (rm_peers m) /\
  In (k_dst k) (rm_peers m) /\
  pair_accepts (rm_peers m) (k_new k) = Some (k_dst k, k_src k) /\
  (length (nodup Z.eq_dec (k_new k)) < length (rm_peers m))%nat /\
  exists full own, v_store (views 0%nat) = get_store_metrics full own.
Proof.
  exists cfg0, unreported, one_region, three, (mkRtask 11 1 3 [3; 2; 3]), size_rm.
  split; [vm_compute; reflexivity|]. split.
  { split; [cbn; lia|]. intros s m Hs E. cbn in Hs.
    repeat (destruct Hs as [<- | Hs]; [vm_compute in E; injection E as <-; cbn; lia|]). contradiction. }
  split; [reflexivity|]. split; [cbn; nodup|]. split; [cbn; auto|].
  split; [vm_compute; reflexivity|]. split; [vm_compute; lia|].
  exists full_map, own_map. reflexivity.
Qed.
Print Assumptions C113_replica_lost_refuted.

(** ** C114 *)

(** Planning moves of replicas does not bring the coordinator down when every
    store reports a capacity and the limit is at least a millionth for each
    store. *)
Theorem C114_no_crash_partial : forall c views rs ss, finite c (views 0%nat) ss ->
  (inject_Z (Z.of_nat (length ss)) * (1 # 1000000) <= c_limit c)%Q ->
  rschedule c views rs ss <> Crashed.
Proof. exact rschedule_safe. Qed.
Print Assumptions C114_no_crash_partial.

Example C114_nonvacuous : finite cfg0 (full_view 0) four /\
  (inject_Z (Z.of_nat (length four)) * (1 # 1000000) <= c_limit cfg0)%Q.
Proof. split; [exact (proj2 C113_nonvacuous) | vm_compute; discriminate]. Qed.

(** A single store that reports a capacity of 0 is enough to crash it. *)
Theorem C114_crash_refuted : exists c views rs ss,
  rschedule c views rs ss = Crashed /\ length ss = 1%nat /\ length rs = 1%nat.
Proof.
  exists cfg0, blank_view, [mkRegion 11 1 p1], [mkStore 1 true 0].
  split; [vm_compute; reflexivity|]. split; reflexivity.
Qed.
Print Assumptions C114_crash_refuted.

(** Regions that are not healthy are moved like any other. *)
Theorem C114_unhealthy_refuted : exists c views rs ss k m,
  rschedule c views rs ss = Planned (Some k) /\ finite c (views 0%nat) ss /\
  (forall n, v_region (views n) (k_region k) = Some m) /\
  rm_normal m = false /\ rm_raft_ok m = false /\ rm_replica_ok m = false /\ rm_online m = false /\
  rm_unstable m = true.
Proof.
  exists cfg0, sick_view, one_region, four, (mkRtask 11 1 4 [4; 2; 3]), sick_rm.
  split; [vm_compute; reflexivity|]. split; [exact (proj2 C113_nonvacuous)|].
  split; [intros n; reflexivity|]. repeat split.
Qed.
Print Assumptions C114_unhealthy_refuted.

(** The configured difference of scores binds the first try of a round only:
    the second moves a replica between stores that are closer. *)
Theorem C114_limit_refuted : exists c views rs ss k a b,
  rschedule c views rs ss = Planned (Some k) /\ finite c (views 0%nat) ss /\
  v_store (views 0%nat) (k_src k) = Some a /\ v_store (views 0%nat) (k_dst k) = Some b /\
  (fullness c a - fullness c b < c_limit c)%Q.
Proof.
  exists cfg0, near_view, near, near_stores, (mkRtask 11 2 3 [3; 5]), (mkSm 0 70 100 [11]), (mkSm 0 80 100 []).
  split; [vm_compute; reflexivity|]. split.
  { split; [cbn; lia|]. intros s m Hs E. cbn in Hs.
    repeat (destruct Hs as [<- | Hs]; [vm_compute in E; injection E as <-; cbn; lia|]). contradiction. }
  split; [vm_compute; reflexivity|]. split; [vm_compute; reflexivity|]. vm_compute. reflexivity.
Qed.
Print Assumptions C114_limit_refuted.

(** ** C115 *)

(** At most one launch of a scheduler runs, as long as no call tests the flag
    while another is between its test and its setting of it. *)
Theorem C115_one_runs_partial : forall l st i j,
  one_at_a_time l -> launches l_init l = Some st -> running st i -> running st j -> i = j.
Proof. exact one_runs. Qed.
Print Assumptions C115_one_runs_partial.

Example C115_nonvacuous : exists st,
  launches l_init [(0%nat, LTest); (0%nat, LSet); (1%nat, LTest); (0%nat, LClear); (2%nat, LTest); (2%nat, LSet)] = Some st /\
  running st 2 /\ l_pc st 1%nat = LBack false.
Proof. eexists. split; [vm_compute; reflexivity|]. split; vm_compute; reflexivity. Qed.

(** Otherwise two run at once. *)
Theorem C115_two_run_refuted : exists l st,
  launches l_init l = Some st /\ running st 0 /\ running st 1.
Proof.
  exists [(0%nat, LTest); (1%nat, LTest); (0%nat, LSet); (1%nat, LSet)]. eexists.
  split; [vm_compute; reflexivity|]. split; vm_compute; reflexivity.
Qed.
Print Assumptions C115_two_run_refuted.

(** ** C116 *)

(** Given windows "a,b;c,d;..." of hours with a <= b, the schedulers run by
    themselves in exactly those hours. *)
Theorem C116_windows_exact : forall ws h,
  Forall hours_ok ws -> Forall (fun w => fst w <= snd w) ws ->
  (should_run (render ws) h = true <-> exists w, In w ws /\ within w h).
Proof. exact windows_exact. Qed.
Print Assumptions C116_windows_exact.

Example C116_nonvacuous : render [(1, 3); (14, 15)] = [49; 44; 51; 59; 49; 52; 44; 49; 53] /\
  should_run (render [(1, 3); (14, 15)]) 15 = true /\ should_run (render [(1, 3); (14, 15)]) 4 = false /\
  Forall hours_ok [(1, 3); (14, 15)].
Proof.
  split; [vm_compute; reflexivity|]. split; [vm_compute; reflexivity|]. split; [vm_compute; reflexivity|].
  repeat constructor; cbn; lia.
Qed.

(** A window without an end, "a", is open from that hour to the end of the day. *)
Theorem C116_open_end : forall a h, 0 <= a < 24 -> (should_run (dec a) h = true <-> a <= h <= 23).
Proof. exact open_end_exact. Qed.
Print Assumptions C116_open_end.

(** A window over midnight is never open. *)
Theorem C116_midnight_refuted : exists w h, hours_ok w /\ 0 <= h < 24 /\ within w h /\
  should_run (render [w]) h = false.
Proof.
  exists (22, 3), 23. split; [split; cbn; lia|]. split; [lia|]. split; [left; cbn; lia | vm_compute; reflexivity].
Qed.
Print Assumptions C116_midnight_refuted.
