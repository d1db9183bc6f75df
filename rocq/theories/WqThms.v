(** * C100-C104: worker sets *)
From Coq Require Import ZArith List Bool Lia.
From Verif Require Import WqModel WqSpec WqProofs1 WqProofs2 WqProofs3 WqProofs4 WqProofs5 WqProofs6.
Import ListNotations.

(** ** C100: what the set accepts runs exactly once *)

Theorem C100_once : forall c ls s tr,
  sruns c (s_init c) ls = Some (s, tr) -> run_at_most_once tr.
Proof. exact once_runs. Qed.
Print Assumptions C100_once.

Theorem C100_served : forall c ls s tr,
  sruns c (s_init c) ls = Some (s, tr) -> 0 < c_workers c -> ~ In Stopping tr -> s_quiet c s ->
  all_served tr.
Proof. exact served_runs. Qed.
Print Assumptions C100_served.

(** Without new calls the set cannot go on for ever, so it becomes quiet. *)
Theorem C100_bounded : forall c s, exists n, forall ls s' tr,
  sruns c s ls = Some (s', tr) -> forallb own_action ls = true -> length ls <= n.
Proof. exact bounded_runs. Qed.
Print Assumptions C100_bounded.

(** Destroy: its loop comes to an end, and by then everything accepted before
    it was called has run. *)
Theorem C100_stop_ends : forall c ls s tr,
  sruns c (s_init c) ls = Some (s, tr) -> In Stopping tr -> s_quiet c s -> all_left s.
Proof. exact left_runs. Qed.
Print Assumptions C100_stop_ends.

Theorem C100_stop : forall c ls s tr k,
  sruns c (s_init c) ls = Some (s, tr) -> 0 < c_workers c -> all_left s ->
  precedes tr (Returned k true) Stopping -> In (Ended k) tr.
Proof. exact shutdown_runs. Qed.
Print Assumptions C100_stop.

(** Two workers, three calls; the first worker waits before the first push, one
    task is run by each worker and the third one by whoever comes first. *)
Definition demo_set : scfg := mkScfg 2 10 false.
Definition demo_ls : list slabel :=
  [SWorker 0; SCall; SCount 0; SCall; SBegin 0; SCount 1; SBegin 1; SSignal 0 0; SWorker 1; SSignal 1 0;
   SCall; SWorker 0; SCount 2; SBegin 2; SSignal 2 0; SEnd 1; SEnd 0; SWorker 1; SWorker 0; SEnd 1; SWorker 1].
Definition demo_tr : list event :=
  [Called 0; Called 1; Returned 0 true; Started 0; Returned 1 true; Called 2; Started 1;
   Returned 2 true; Ended 0; Ended 1; Started 2; Ended 2].

Example C100_case :
  exists s, sruns demo_set (s_init demo_set) demo_ls = Some (s, demo_tr) /\ s_quiet demo_set s /\
            ~ In Stopping demo_tr.
Proof.
  eexists. split; [vm_compute; reflexivity|]. split.
  - intros l O. destruct l as [|k|k|k|k w|w|w|w| |w]; try discriminate O; cbn -[demo_set].
    + do 3 (destruct k as [|k]; [reflexivity|]). destruct k; reflexivity.
    + do 3 (destruct k as [|k]; [reflexivity|]). destruct k; reflexivity.
    + do 3 (destruct k as [|k]; [reflexivity|]). destruct k; reflexivity.
    + do 3 (destruct k as [|k]; [reflexivity|]). destruct k; reflexivity.
    + do 2 (destruct w as [|w]; [reflexivity|]). destruct w; reflexivity.
    + do 2 (destruct w as [|w]; [reflexivity|]). destruct w; reflexivity.
    + reflexivity.
  - intro I. cbn in I. intuition discriminate.
Qed.

(** Destroy comes while one task waits in the queue and another one runs. *)
Example C100_stop_case :
  exists s tr,
    sruns (mkScfg 1 0 false) (s_init (mkScfg 1 0 false))
      [SCall; SCount 0; SBegin 0; SSignal 0 0; SWorker 0; SCall; SCount 1; SBegin 1; SSignal 1 0; SDestroy;
       SEnd 0; SWorker 0; SEnd 0; SWorker 0] = Some (s, tr) /\
    all_left s /\ precedes tr (Returned 1 true) Stopping /\ In (Ended 1) tr.
Proof.
  eexists. eexists. split; [vm_compute; reflexivity|].
  split; [intros p I; cbn in I; intuition auto|].
  split; [|cbn; tauto].
  exists [Called 0; Returned 0 true; Started 0; Called 1; Returned 1 true].
  eexists. split; [reflexivity|]. split; cbn; tauto.
Qed.

(** Outside the proviso: a call that entered before Destroy and is answered
    with true after the workers have left.  Its task never runs, although
    nothing is left to do. *)
Theorem C100_during_stop_refuted :
  exists ls s tr,
    sruns (mkScfg 1 0 false) (s_init (mkScfg 1 0 false)) ls = Some (s, tr) /\
    precedes tr (Called 0) Stopping /\ In (Returned 0 true) tr /\ all_left s /\
    s_quiet (mkScfg 1 0 false) s /\ ~ In (Started 0) tr.
Proof.
  exists [SCall; SDestroy; SWorker 0; SCount 0; SBegin 0; SSignal 0 0]. eexists. eexists.
  split; [vm_compute; reflexivity|].
  split; [exists [Called 0]; eexists; split; [reflexivity|]; split; cbn; tauto|].
  split; [cbn; tauto|].
  split; [intros p I; cbn in I; intuition auto|].
  split; [|intro I; cbn in I; intuition discriminate].
  intros l O. destruct l as [|k|k|k|k w|w|w|w| |w]; try discriminate O; cbn.
  - destruct k as [|k]; [reflexivity|]. destruct k; reflexivity.
  - destruct k as [|k]; [reflexivity|]. destruct k; reflexivity.
  - destruct k as [|k]; [reflexivity|]. destruct k; reflexivity.
  - destruct k as [|k]; [reflexivity|]. destruct k; reflexivity.
  - destruct w as [|w]; [reflexivity|]. destruct w; reflexivity.
  - destruct w as [|w]; [reflexivity|]. destruct w; reflexivity.
  - destruct w as [|w]; [reflexivity|]. destruct w; reflexivity.
Qed.
Print Assumptions C100_during_stop_refuted.

(** ** C101: tasks start in the order in which they were accepted *)

Theorem C101_order : forall c ls s tr k j,
  sruns c (s_init c) ls = Some (s, tr) -> c_inplace c = false ->
  precedes tr (Returned k true) (Called j) -> In (Started j) tr -> precedes tr (Started k) (Started j).
Proof. exact order_runs. Qed.
Print Assumptions C101_order.

Theorem C101_one_at_a_time : forall c ls s tr k j,
  sruns c (s_init c) ls = Some (s, tr) -> c_inplace c = false -> c_workers c = 1 ->
  precedes tr (Started k) (Started j) -> precedes tr (Ended k) (Started j).
Proof. exact alone_runs. Qed.
Print Assumptions C101_one_at_a_time.

Example C101_case :
  precedes demo_tr (Returned 0 true) (Called 2) /\ In (Started 2) demo_tr.
Proof.
  split; [|cbn; tauto]. exists [Called 0; Called 1; Returned 0 true].
  eexists. split; [reflexivity|]. split; cbn; tauto.
Qed.

(** Outside the proviso: with tasks run in the caller's thread, a later call is
    run while an earlier one still waits in the queue. *)
Theorem C101_in_place_refuted :
  exists ls s tr,
    sruns (mkScfg 2 0 true) (s_init (mkScfg 2 0 true)) ls = Some (s, tr) /\
    precedes tr (Returned 2 true) (Called 3) /\ In (Ended 3) tr /\ ~ In (Started 2) tr.
Proof.
  exists [SCall; SCount 0; SBegin 0; SCall; SCount 1; SBegin 1; SCall; SCount 2; SBegin 2; SSignal 2 0;
          SFinish 0; SFinish 1; SCall; SCount 3; SBegin 3; SFinish 3]. eexists. eexists.
  split; [vm_compute; reflexivity|].
  split; [|split; [cbn; tauto|intro I; cbn in I; intuition discriminate]].
  exists [Called 0; Started 0; Called 1; Started 1; Called 2; Returned 2 true].
  eexists. split; [reflexivity|]. split; cbn; tauto.
Qed.
Print Assumptions C101_in_place_refuted.

(** ** C102: limits *)

(** Nobody is refused before the limit is exceeded. *)
Theorem C102_refusal : forall c ls s tr l s' e k,
  sruns c (s_init c) ls = Some (s, tr) -> sstep c s l = Some (s', e) -> In (Returned k false) e ->
  (0 < c_max c < outstanding tr)%Z.
Proof. exact refusal_runs. Qed.
Print Assumptions C102_refusal.

Theorem C102_concurrency_partial : forall c ls s tr,
  sruns c (s_init c) ls = Some (s, tr) -> c_inplace c = false -> (running tr <= Z.of_nat (c_workers c))%Z.
Proof. exact concurrency_runs. Qed.
Print Assumptions C102_concurrency_partial.

(** With at most [p] calls under way at any moment the limit is exceeded by at
    most [p]. *)
Theorem C102_outstanding_partial : forall c p ls s tr,
  sruns c (s_init c) ls = Some (s, tr) ->
  (forall ls1 ls2 s1 tr1, ls = ls1 ++ ls2 -> sruns c (s_init c) ls1 = Some (s1, tr1) -> (inside tr1 <= p)%Z) ->
  (0 < c_max c)%Z -> (c_max c + p < 2 ^ 64)%Z -> (outstanding tr <= c_max c + p)%Z.
Proof. exact outstanding_runs. Qed.
Print Assumptions C102_outstanding_partial.

(** The third call is refused with two tasks outstanding and a limit of one. *)
Definition lim : scfg := mkScfg 1 1 false.
Definition lim_ls : list slabel :=
  [SCall; SCount 0; SBegin 0; SSignal 0 0; SCall; SCount 1; SBegin 1; SSignal 1 0].

Example C102_case :
  exists s tr s' , sruns lim (s_init lim) lim_ls = Some (s, tr) /\ outstanding tr = 2%Z /\
    sstep lim s SCall = Some (s', [Called 2; Returned 2 false]).
Proof.
  eexists. eexists. eexists. split; [vm_compute; reflexivity|]. split; [vm_compute; reflexivity|].
  vm_compute. reflexivity.
Qed.

(** The bound of [C102_outstanding_partial] is met: one call at a time, limit
    one, two tasks outstanding. *)
Example C102_outstanding_case :
  forall ls1 ls2 s1 tr1, lim_ls = ls1 ++ ls2 -> sruns lim (s_init lim) ls1 = Some (s1, tr1) -> (inside tr1 <= 1)%Z.
Proof.
  intros ls1 ls2 s1 tr1 E R.
  assert (P : ls1 = firstn (length ls1) lim_ls) by (rewrite E, firstn_app, Nat.sub_diag, firstn_all, app_nil_r; auto).
  assert (L : length ls1 <= 8) by (apply (f_equal (@length _)) in E; rewrite app_length in E; simpl in E; lia).
  rewrite P in R. clear P E. revert R. generalize dependent (length ls1). intros n L.
  do 9 (destruct n as [|n]; [intro R; vm_compute in R; injection R as <- <-; vm_compute; discriminate|]).
  lia.
Qed.

(** A limit of one does not keep three tasks from being outstanding when the
    calls race. *)
Theorem C102_outstanding_refuted :
  exists ls s tr, sruns lim (s_init lim) ls = Some (s, tr) /\ (outstanding tr = c_max lim + 3)%Z.
Proof.
  exists [SCall; SCall; SCall; SCall; SCount 0; SCount 1; SCount 2; SCount 3]. eexists. eexists.
  split; [vm_compute; reflexivity|]. vm_compute. reflexivity.
Qed.
Print Assumptions C102_outstanding_refuted.

(** With in-place runs a set of two workers runs four tasks at once, even when
    the calls come one after another. *)
Theorem C102_concurrency_refuted :
  exists ls s tr,
    sruns (mkScfg 2 0 true) (s_init (mkScfg 2 0 true)) ls = Some (s, tr) /\ running tr = 4%Z.
Proof.
  exists [SCall; SCount 0; SBegin 0; SCall; SCount 1; SBegin 1; SCall; SCount 2; SBegin 2; SSignal 2 0; SWorker 0;
          SCall; SCount 3; SBegin 3; SSignal 3 0; SWorker 1]. eexists. eexists.
  split; [vm_compute; reflexivity|]. vm_compute. reflexivity.
Qed.
Print Assumptions C102_concurrency_refuted.

(** A store whose 1026 regions apply a write at once ends its own process: with
    the default settings the apply set refuses the 1026th, although every
    region waits for its single entry. *)
Definition apply_set : scfg := mkScfg 128 1024 true.
Definition apply_all (n : nat) : list slabel :=
  flat_map (fun k => [SCall; SCount k; SBegin k]) (seq 0 n).

Theorem C102_apply_refuted :
  exists s tr s' e,
    sruns apply_set (s_init apply_set) (apply_all 1025) = Some (s, tr) /\
    sstep apply_set s SCall = Some (s', e) /\ apply_refused e = true.
Proof.
  destruct (sruns apply_set (s_init apply_set) (apply_all 1025)) as [(s, tr)|] eqn:E.
  - destruct (sstep apply_set s SCall) as [(s', e)|] eqn:E2.
    + exists s, tr, s', e. split; [reflexivity|]. split; [exact E2|].
      assert (G : match sruns apply_set (s_init apply_set) (apply_all 1025) with
                  | Some (s, _) => match sstep apply_set s SCall with Some (_, e) => apply_refused e | None => false end
                  | None => false end = true) by (vm_compute; reflexivity).
      rewrite E, E2 in G. exact G.
    + exfalso. cbn [sstep] in E2. destruct (over_limit _ _); discriminate.
  - exfalso.
    assert (G : match sruns apply_set (s_init apply_set) (apply_all 1025) with Some _ => true | None => false end = true)
      by (vm_compute; reflexivity).
    rewrite E in G. discriminate.
Qed.
Print Assumptions C102_apply_refuted.

(** ** C103: background jobs of a region *)

Theorem C103_once : forall max n ls s tr,
  eruns max (e_init n) ls = EOk s tr -> run_at_most_once tr.
Proof. exact e_once_runs. Qed.
Print Assumptions C103_once.

Theorem C103_served : forall max n ls s tr,
  eruns max (e_init n) ls = EOk s tr -> e_quiet max s -> all_served tr.
Proof. exact e_served_runs. Qed.
Print Assumptions C103_served.

Theorem C103_bounded : forall max s, exists n, forall ls s' tr,
  eruns max s ls = EOk s' tr -> forallb e_own_action ls = true -> length ls <= n.
Proof. exact e_bounded_runs. Qed.
Print Assumptions C103_bounded.

(** A job accepted before another one of the same region was handed over has
    ended before that one starts. *)
Theorem C103_order : forall max n ls s tr k j r,
  eruns max (e_init n) ls = EOk s tr ->
  nth_error (modes ls) k = Some (ByRegion r) -> nth_error (modes ls) j = Some (ByRegion r) ->
  precedes tr (Returned k true) (Called j) -> In (Started j) tr -> precedes tr (Ended k) (Started j).
Proof. exact e_order_runs. Qed.
Print Assumptions C103_order.

(** Two jobs of one region never run at the same time. *)
Theorem C103_one_at_a_time : forall max n ls s tr k j r,
  eruns max (e_init n) ls = EOk s tr ->
  nth_error (modes ls) k = Some (ByRegion r) -> nth_error (modes ls) j = Some (ByRegion r) ->
  precedes tr (Started k) (Started j) -> precedes tr (Ended k) (Started j).
Proof. exact e_alone_runs. Qed.
Print Assumptions C103_one_at_a_time.

(** Without a limit no job is refused. *)
Theorem C103_unlimited : forall n ls s tr k,
  eruns 0 (e_init n) ls = EOk s tr -> ~ In (Returned k false) tr.
Proof. exact e_unlimited_runs. Qed.
Print Assumptions C103_unlimited.

Theorem C103_no_crash : forall max n ls,
  0 < n -> (forall r, In (XCall (ByRegion r)) ls -> (0 <= r)%Z) -> eruns max (e_init n) ls <> ECrash.
Proof. exact e_no_crash_runs. Qed.
Print Assumptions C103_no_crash.

(** Three workers, jobs of regions 7, 8 and 7. *)
Definition jobs_ls : list elabel :=
  [XCall (ByRegion 7); XPush 0; XCall (ByRegion 8); XStart 1; XCount 0; XReturn 0; XPush 1; XCount 1; XStart 2;
   XCall (ByRegion 7); XPush 2; XEnd 1; XReturn 1; XStart 1; XCount 2; XEnd 2; XEnd 1; XReturn 2].

Example C103_case :
  exists s tr, eruns 0 (e_init 3) jobs_ls = EOk s tr /\ e_quiet 0 s /\
    precedes tr (Returned 0 true) (Called 2) /\ In (Started 2) tr /\
    nth_error (modes jobs_ls) 0 = Some (ByRegion 7) /\ nth_error (modes jobs_ls) 2 = Some (ByRegion 7).
Proof.
  eexists. eexists. split; [vm_compute; reflexivity|]. split.
  - intros l O. destruct l as [m|k|k|k|w|w]; try discriminate O; cbn.
    + do 3 (destruct k as [|k]; [reflexivity|]). destruct k; reflexivity.
    + do 3 (destruct k as [|k]; [reflexivity|]). destruct k; reflexivity.
    + do 3 (destruct k as [|k]; [reflexivity|]). destruct k; reflexivity.
    + do 3 (destruct w as [|w]; [reflexivity|]). destruct w; reflexivity.
    + do 3 (destruct w as [|w]; [reflexivity|]). destruct w; reflexivity.
  - split; [|split; [cbn; tauto|split; reflexivity]].
    exists [Called 0; Called 1; Started 0; Returned 0 true].
    eexists. split; [reflexivity|]. split; cbn; tauto.
Qed.

(** ** C104: limits and region ids of background jobs *)

(** Where no job ended before its call had returned, nobody is refused before
    the limit is exceeded. *)
Theorem C104_refusal_partial : forall max n ls s tr m s' e k,
  eruns max (e_init n) ls = EOk s tr ->
  (forall j, In (Ended j) tr -> In (Returned j true) tr) ->
  estep max s (XCall m) = EOk s' e -> In (Returned k false) e ->
  (0 < max < outstanding tr)%Z.
Proof. exact e_refusal_runs. Qed.
Print Assumptions C104_refusal_partial.

Example C104_case :
  exists s tr s',
    eruns 1 (e_init 1) [XCall RoundRobin; XPush 0; XCount 0; XReturn 0; XStart 0; XEnd 0;
                        XCall RoundRobin; XPush 1; XCount 1; XReturn 1;
                        XCall RoundRobin; XPush 2; XCount 2; XReturn 2] = EOk s tr /\
    (forall j, In (Ended j) tr -> In (Returned j true) tr) /\ In (Ended 0) tr /\
    estep 1 s (XCall LeastQueue) = EOk s' [Called 3; Returned 3 false].
Proof.
  eexists. eexists. eexists. split; [vm_compute; reflexivity|].
  split; [intros j I; cbn in I; cbn; intuition (try discriminate); match goal with H : Ended _ = Ended _ |- _ => injection H as <- end; tauto|].
  split; [cbn; tauto|]. vm_compute. reflexivity.
Qed.

(** The count goes up after the job was handed over.  A job that ends first
    takes it below zero, which is read as a huge number: a set with a limit of
    a thousand and nothing to do refuses the next call. *)
Theorem C104_refusal_refuted :
  exists ls s tr s' e,
    eruns 1000 (e_init 1) ls = EOk s tr /\ outstanding tr = 0%Z /\
    estep 1000 s (XCall (ByRegion 5)) = EOk s' e /\ In (Returned 1 false) e.
Proof.
  exists [XCall (ByRegion 5); XPush 0; XStart 0; XEnd 0]. eexists. eexists. eexists. eexists.
  split; [vm_compute; reflexivity|]. split; [vm_compute; reflexivity|].
  split; [vm_compute; reflexivity|]. cbn; tauto.
Qed.
Print Assumptions C104_refusal_refuted.

(** A negative region id indexes the workers below zero. *)
Theorem C104_region_id_refuted :
  exists r, eruns 0 (e_init 4) [XCall (ByRegion r)] = ECrash.
Proof. exists (-1)%Z. vm_compute. reflexivity. Qed.
Print Assumptions C104_region_id_refuted.
