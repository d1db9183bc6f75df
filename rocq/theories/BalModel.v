(** * The balance schedulers of the coordinator

    src/coordinator/balance_leader.cc plans transfers of raft leadership,
    src/coordinator/balance_region.cc plans moves of replicas.  Both read the
    region map, the store map and the metrics that the stores reported, and
    write a job.

    Simplifications.
    - Scores are floats in the code; here they are exact fractions.  The scores
      of leaders are quotients of two 32-bit integers, which floats keep apart
      as long as their product stays below 2^23.
    - [std::sort] is modelled by an insertion sort with the same comparison.
      When all scores are more than 10^-6 apart, or equal, the comparison is a
      total order and both give the same list; otherwise std::sort may give
      another list.  No theorem on leader transfers depends on the order.
    - The metrics can change while a plan is made: every round reads a view
      chosen by the environment, and so does the final filter.
    - The tracker, which only records what was filtered, is left out. *)

From Coq Require Import ZArith QArith Qabs List Bool.
Import ListNotations.

Local Open Scope Z_scope.

(** ** What the coordinator knows *)

(** pb::common::Peer: the store and whether the role is VOTER. *)
Record peer := mkPeer { p_store : Z; p_voter : bool }.

(** pb::common::Region of GetRegionMapFull (coordinator_control_coor.cc:1050):
    id, leader_store_id (0: unknown) and definition().peers(). *)
Record region := mkRegion { g_id : Z; g_leader : Z; g_peers : list peer }.

(** pb::common::Store of GetStoreMap (coordinator_control_coor.cc:176): id,
    whether the state is STORE_NORMAL, leader_num_weight. *)
Record store := mkStore { s_id : Z; s_normal : bool; s_weight : Z }.

(** pb::common::RegionMetrics: what the filters read. *)
Record rmetrics := mkRm {
  rm_normal : bool;      (* store_region_state() == NORMAL *)
  rm_raft_ok : bool;     (* region_status().raft_status() == REGION_RAFT_HEALTHY *)
  rm_replica_ok : bool;  (* replica_status() == REPLICA_NORMAL *)
  rm_online : bool;      (* heartbeat_status() == REGION_ONLINE *)
  rm_unstable : bool;    (* unstable_followers() is not empty *)
  rm_pending : Z;        (* pending_queue_size() *)
  rm_vector : bool;      (* index_type() == INDEX_TYPE_VECTOR *)
  rm_mem : Z;            (* vector_index_metrics().memory_bytes() *)
  rm_size : Z;           (* region_size() *)
  rm_peers : list Z      (* region_definition().peers(), their stores *)
}.

(** pb::common::StoreMetrics: what the filters read. *)
Record smetrics := mkSm {
  sm_free_mem : Z;       (* store_own_metrics().system_free_memory() *)
  sm_free_cap : Z;       (* system_free_capacity() *)
  sm_total_cap : Z;      (* system_total_capacity() *)
  sm_regions : list Z    (* the keys of region_metrics_map() *)
}.

(** What one round of a scheduler reads.  [v_cur] is
    CoordinatorControl::GetRegion (coordinator_control_coor.cc:1168), the peers
    of a region at that moment; [v_pick] is the random number of PickOneRegion;
    [v_jobs] are the regions named by the commands of unfinished jobs. *)
Record view := mkView {
  v_pick : nat;
  v_cur : Z -> option (list peer);
  v_region : Z -> option rmetrics;
  v_store : Z -> option smetrics;
  v_jobs : list Z
}.

Definition memZ (x : Z) (l : list Z) : bool := existsb (Z.eqb x) l.

(** ** Filters of the leader scheduler *)

(** balance_leader.cc:56-106 ResourceFilter::Check; true keeps. *)
Definition resource_check (v : view) (sid rid : Z) : bool :=
  match v_store v sid with
  | None => false
  | Some sm =>
      match v_region v rid with
      | None => false
      | Some rm =>
          if rm_vector rm then
            if sm_free_mem sm <=? 0 then false
            else if rm_mem rm <=? 0 then false
            else if sm_free_mem sm <=? rm_mem rm then false
            else true
          else true
      end
  end.

(** balance_leader.cc:108-152 RegionHealthFilter::Check; true keeps. *)
Definition health_check (v : view) (rid : Z) : bool :=
  match v_region v rid with
  | None => false
  | Some rm =>
      if negb (rm_normal rm) then false
      else if negb (rm_raft_ok rm) then false
      else if negb (rm_replica_ok rm) then false
      else if negb (rm_online rm) then false
      else if rm_unstable rm then false
      else if 10 <? rm_pending rm then false
      else true
  end.

(** balance_leader.cc:154-178 TaskFilter::Check: it looks for the region among
    the commands of the jobs, remembers the answer in [result] and returns
    true. *)
Definition task_check (v : view) (rid : Z) : bool :=
  let result := negb (memZ rid (v_jobs v)) in
  let _ := result in
  true.

(** ** Stores with their leaders and followers *)

(** balance_leader.cc:614-643 GenerateStoreRegionMap: the stores of the peers
    of all regions with a known leader, in the order of std::map, ... *)
Fixpoint ins_set (x : Z) (l : list Z) : list Z :=
  match l with
  | [] => [x]
  | y :: r => if x <? y then x :: l else if x =? y then l else y :: ins_set x r
  end.

Definition map_stores (rs : list region) : list Z :=
  fold_left (fun acc r => if g_leader r =? 0 then acc
                          else fold_left (fun a p => ins_set (p_store p) a) (g_peers r) acc)
            rs [].

(** ... the regions that a store leads, one for each of its peers there, ... *)
Definition leaders_of (rs : list region) (sid : Z) : list Z :=
  flat_map (fun r => if g_leader r =? 0 then []
                     else flat_map (fun p => if (p_store p =? sid) && (p_store p =? g_leader r)
                                             then [g_id r] else []) (g_peers r)) rs.

(** ... and those it follows. *)
Definition followers_of (rs : list region) (sid : Z) : list Z :=
  flat_map (fun r => if g_leader r =? 0 then []
                     else flat_map (fun p => if (p_store p =? sid) && negb (p_store p =? g_leader r)
                                             then [g_id r] else []) (g_peers r)) rs.

(** balance_leader.cc:581-589 GetStore. *)
Definition get_store (ss : list store) (sid : Z) : option store :=
  find (fun s => s_id s =? sid) ss.

(** StoreEntry (balance_leader.h). *)
Record entry := mkEntry { n_id : Z; n_weight : Z; n_lead : list Z; n_foll : list Z; n_delta : Z }.

(** balance_leader.cc:591-612 GenerateStoreEntries, with StoreStateFilter
    (:44-54) as the only store filter. *)
Definition gen_entries (rs : list region) (ss : list store) : list entry :=
  flat_map (fun sid =>
    match get_store ss sid with
    | None => []
    | Some s => if s_id s =? 0 then []
                else if negb (s_normal s) then []
                else [mkEntry (s_id s) (s_weight s) (leaders_of rs sid) (followers_of rs sid) 0]
    end) (map_stores rs).

(** balance_leader.cc:267-271 LeaderScore: numerator and denominator. *)
Definition weight (e : entry) : Z := if 0 <? n_weight e then n_weight e else 1.
Definition score_num (e : entry) (d : Z) : Z := Z.of_nat (length (n_lead e)) + n_delta e + d.

(** [LeaderScore(da)] of [a] <= [LeaderScore(db)] of [b]. *)
Definition score_le (a : entry) (da : Z) (b : entry) (db : Z) : bool :=
  score_num a da * weight b <=? score_num b db * weight a.

(** balance_leader.cc:211-229 Less and Greater: scores closer than 0.000001
    count as equal, and then the larger id comes first in both orders. *)
Definition close (a b : entry) : bool :=
  Z.abs (score_num a 0 * weight b - score_num b 0 * weight a) * 1000000 <? weight a * weight b.

Definition less (a b : entry) : bool :=
  if close a b then n_id b <? n_id a else negb (score_le b 0 a 0).

Definition greater (a b : entry) : bool :=
  if close a b then n_id b <? n_id a else negb (score_le a 0 b 0).

Fixpoint insert {A} (lt : A -> A -> bool) (x : A) (l : list A) : list A :=
  match l with
  | [] => [x]
  | y :: r => if lt y x then y :: insert lt x r else x :: l
  end.

Definition isort {A} (lt : A -> A -> bool) (l : list A) : list A :=
  fold_right (insert lt) [] l.

(** ** The state of a plan

    The two candidate lists share their StoreEntry objects; here both are lists
    of store ids, and the entries are kept once. *)

Record task := mkTask { t_region : Z; t_src : Z; t_dst : Z }.

Record plan := mkPlan {
  pl_ents : list entry;
  pl_src : list Z; pl_si : nat;     (* source candidates and their index_ *)
  pl_tgt : list Z; pl_ti : nat;     (* target candidates and their index_ *)
  pl_used : list Z;
  pl_tasks : list task;             (* in the order they were made *)
  pl_round : nat                    (* rounds done, selects the next view *)
}.

(** balance_leader.cc:275-283 CandidateStores::Store. *)
Definition ent (es : list entry) (sid : Z) : option entry := find (fun e => n_id e =? sid) es.

(** balance_leader.cc:291-297 CandidateStores::Sort. *)
Definition sorted_ids (lt : entry -> entry -> bool) (es : list entry) : list Z := map n_id (isort lt es).

(** balance_leader.cc:645-664 ReadjustLeaderScore. *)
Definition add_delta (es : list entry) (sid d : Z) : list entry :=
  map (fun e => if n_id e =? sid then mkEntry (n_id e) (n_weight e) (n_lead e) (n_foll e) (n_delta e + d) else e) es.

Definition readjust (p : plan) (t : task) : plan :=
  let es := add_delta (add_delta (pl_ents p) (t_src t) (-1)) (t_dst t) 1 in
  mkPlan es (sorted_ids greater es) (pl_si p) (sorted_ids less es) (pl_ti p)
         (t_region t :: pl_used p) (pl_tasks p ++ [t]) (S (pl_round p)).

(** balance_leader.cc:678-685 PickOneRegion: a random one of the ids; an id
    that the region map no longer has gives the empty region, with id 0. *)
Definition pick_region (v : view) (ids : list Z) : option (Z * list peer) :=
  match ids with
  | [] => None
  | _ => let rid := nth (v_pick v mod length ids) ids 0 in
         if rid =? 0 then None
         else match v_cur v rid with None => None | Some ps => Some (rid, ps) end
  end.

(** balance_leader.cc:666-676 FilterUsedRegion and :822-841 FilterRegion. *)
Definition usable (v : view) (used ids : list Z) : list Z :=
  filter (health_check v) (filter (fun r => negb (memZ r used)) ids).

(** balance_leader.cc:687-703 GetFollowerStores. *)
Definition follower_stores (es : list entry) (ps : list peer) (lead : Z) : list entry :=
  isort less
    (flat_map (fun p => if p_voter p && negb (p_store p =? lead)
                        then match ent es (p_store p) with None => [] | Some e => [e] end
                        else []) ps).

(** balance_leader.cc:705-717 GetLeaderStore. *)
Fixpoint leader_store (es : list entry) (ps : list peer) (rid : Z) : option entry :=
  match ps with
  | [] => None
  | p :: r =>
      if p_voter p then
        match ent es (p_store p) with
        | Some e => if memZ rid (n_lead e) then Some e else leader_store es r rid
        | None => leader_store es r rid
        end
      else leader_store es r rid
  end.

(** balance_leader.cc:865-873 FilterResource; true eliminates. *)
Definition filter_resource (v : view) (sid rid : Z) : bool := negb (resource_check v sid rid).

(** balance_leader.cc:751-784 GenerateTransferOutLeaderTask, with
    FilterScoreLessThanLeader (:719-729). *)
Definition gen_out (v : view) (p : plan) (sid : Z) : option task :=
  match ent (pl_ents p) sid with
  | None => None
  | Some src =>
      match pick_region v (usable v (pl_used p) (n_lead src)) with
      | None => None
      | Some (rid, ps) =>
          let fs := follower_stores (pl_ents p) ps sid in
          let fs := filter (fun e => negb (filter_resource v (n_id e) rid)) fs in
          let fs := filter (fun e => score_le e 1 src (-1)) fs in
          match fs with
          | [] => None
          | e :: _ => Some (mkTask rid sid (n_id e))
          end
      end
  end.

(** balance_leader.cc:786-810 GenerateTransferInLeaderTask. *)
Definition gen_in (v : view) (p : plan) (sid : Z) : option task :=
  match ent (pl_ents p) sid with
  | None => None
  | Some dst =>
      match pick_region v (usable v (pl_used p) (n_foll dst)) with
      | None => None
      | Some (rid, ps) =>
          if negb (filter_resource v sid rid) then None
          else match leader_store (pl_ents p) ps rid with
               | None => None
               | Some l => if negb (score_le dst 1 l (-1)) then None
                           else Some (mkTask rid (n_id l) sid)
               end
      end
  end.

(** ** Schedule *)

Section Schedule.
  Variable batch : nat.           (* FLAGS_balacne_leader_task_batch_size *)
  Variable views : nat -> view.

  (** balance_leader.cc:478-504 the first half of the loop; true: break. *)
  Definition half_out (p : plan) : plan * bool :=
    match nth_error (pl_src p) (pl_si p) with
    | None => (p, false)
    | Some sid =>
        match gen_out (views (pl_round p)) p sid with
        | Some t => let p' := readjust p t in (p', Nat.leb batch (length (pl_tasks p')))
        | None => (mkPlan (pl_ents p) (pl_src p) (S (pl_si p)) (pl_tgt p) (pl_ti p)
                          (pl_used p) (pl_tasks p) (S (pl_round p)), false)
        end
    end.

  (** balance_leader.cc:506-532 the second half. *)
  Definition half_in (p : plan) : plan * bool :=
    match nth_error (pl_tgt p) (pl_ti p) with
    | None => (p, false)
    | Some sid =>
        match gen_in (views (pl_round p)) p sid with
        | Some t => let p' := readjust p t in (p', Nat.leb batch (length (pl_tasks p')))
        | None => (mkPlan (pl_ents p) (pl_src p) (pl_si p) (pl_tgt p) (S (pl_ti p))
                          (pl_used p) (pl_tasks p) (S (pl_round p)), false)
        end
    end.

  (** balance_leader.cc:477 the loop condition. *)
  Definition has_more (p : plan) : bool :=
    Nat.ltb (pl_si p) (length (pl_src p)) || Nat.ltb (pl_ti p) (length (pl_tgt p)).

  (** balance_leader.cc:477-533; [None]: more than [fuel] iterations. *)
  Fixpoint rounds (fuel : nat) (p : plan) : option plan :=
    match fuel with
    | O => None
    | S f =>
        if has_more p then
          let (p1, stop1) := half_out p in
          if stop1 then Some p1
          else let (p2, stop2) := half_in p1 in
               if stop2 then Some p2 else rounds f p2
        else Some p
    end.

  (** balance_leader.cc:843-863 FilterTask.  [FilterTask(int64_t)] walks the
      region filters, not the task filters, so [task_check] is never asked. *)
  Definition filter_task (v : view) (ts : list task) : list task :=
    filter (fun t => health_check v (t_region t)) ts.

  Definition start (rs : list region) (ss : list store) : plan :=
    let es := gen_entries rs ss in
    mkPlan es (sorted_ids greater es) 0 (sorted_ids less es) 0 [] [] 0.

  (** balance_leader.cc:447-545 Schedule. *)
  Definition schedule (fuel : nat) (rs : list region) (ss : list store) : option (list task) :=
    match map_stores rs with
    | [] => Some []
    | _ =>
        match gen_entries rs ss with
        | [] => Some []
        | _ => match rounds fuel (start rs ss) with
               | None => None
               | Some p => Some (filter_task (views (pl_round p)) (pl_tasks p))
               end
        end
    end.
End Schedule.

(** ** The region scheduler *)

(** IEEE arithmetic on exact values: the score of a store divides by its
    capacity, which may be 0. *)
Inductive ext := NaN | PInf | NInf | Fin (q : Q).

Definition e_of (z : Z) : ext := Fin (inject_Z z).

Definition Qsign (q : Q) : comparison := Qcompare q 0.

Definition e_div (a b : ext) : ext :=
  match a, b with
  | Fin x, Fin y =>
      match Qsign y with
      | Eq => match Qsign x with Eq => NaN | Gt => PInf | Lt => NInf end
      | _ => Fin (x / y)
      end
  | NaN, _ | _, NaN => NaN
  | Fin _, _ => Fin 0
  | PInf, Fin y => match Qsign y with Lt => NInf | _ => PInf end
  | NInf, Fin y => match Qsign y with Lt => PInf | _ => NInf end
  | _, _ => NaN
  end.

Definition e_mul (a b : ext) : ext :=
  match a, b with
  | Fin x, Fin y => Fin (x * y)
  | NaN, _ | _, NaN => NaN
  | PInf, Fin y | Fin y, PInf => match Qsign y with Eq => NaN | Gt => PInf | Lt => NInf end
  | NInf, Fin y | Fin y, NInf => match Qsign y with Eq => NaN | Gt => NInf | Lt => PInf end
  | PInf, PInf | NInf, NInf => PInf
  | _, _ => NInf
  end.

Definition e_add (a b : ext) : ext :=
  match a, b with
  | Fin x, Fin y => Fin (x + y)
  | NaN, _ | _, NaN => NaN
  | PInf, NInf | NInf, PInf => NaN
  | PInf, _ | _, PInf => PInf
  | _, _ => NInf
  end.

Definition e_neg (a : ext) : ext :=
  match a with NaN => NaN | PInf => NInf | NInf => PInf | Fin x => Fin (- x) end.

Definition e_sub (a b : ext) : ext := e_add a (e_neg b).

Definition e_le (a b : ext) : bool :=
  match a, b with
  | NaN, _ | _, NaN => false
  | Fin x, Fin y => Qle_bool x y
  | NInf, _ | _, PInf => true
  | _, _ => false
  end.

Definition e_lt (a b : ext) : bool :=
  match a, b with
  | NaN, _ | _, NaN => false
  | _, _ => negb (e_le b a)
  end.

Definition e_abs (a : ext) : ext :=
  match a with NaN => NaN | Fin x => Fin (Qabs x) | _ => PInf end.

(** GetBalanceRegionDefault{Index,Store}RegionSize, GetBalanceRegionCountRatio,
    FLAGS_balance_region_limit_score_diff (15). *)
Record rcfg := mkRcfg { c_region_size : Z; c_ratio : Q; c_limit : Q }.

(** balance_region.cc:275-315 StoreEntry::Score.  The two clamped members only
    go into the tracker: the total is made of the unclamped scores. *)
Definition rscore (c : rcfg) (m : smetrics) : ext :=
  let capacity := sm_total_cap m in
  let capacity_score :=
    e_mul (e_div (e_of (capacity - sm_free_cap m)) (e_of capacity)) (e_of 100) in
  let max_region_count := e_div (e_of capacity) (e_of (c_region_size c)) in
  let region_count_score :=
    e_mul (e_div (e_of (Z.of_nat (length (sm_regions m)))) max_region_count) (e_of 100) in
  e_add (e_mul (Fin (c_ratio c)) region_count_score)
        (e_mul (Fin (1 - c_ratio c)) capacity_score).

(** StoreEntry: id, score (the metrics are copied into the entry, so it does
    not change while a plan is made), followed regions. *)
Record rentry := mkRentry { q_id : Z; q_score : ext; q_foll : list Z }.

(** coordinator_control_coor.cc:319-378 GetStoreMetrics of one store, from the
    metrics of its region heartbeats ([full]: its own metrics, if it sent any,
    and the regions) and from those of its store heartbeats ([own]): a store
    known only from the latter is returned without any region. *)
Definition get_store_metrics (full : Z -> option (option smetrics * list Z))
           (own : Z -> option smetrics) (sid : Z) : option smetrics :=
  match full sid with
  | Some (Some m, rs) => Some (mkSm (sm_free_mem m) (sm_free_cap m) (sm_total_cap m) rs)
  | Some (None, _) => None
  | None => match own sid with
            | Some m => Some (mkSm (sm_free_mem m) (sm_free_cap m) (sm_total_cap m) [])
            | None => None
            end
  end.

(** balance_region.cc:676-705 GenerateStoreEntries: in the order of the store
    map, with stores that have no region yet. *)
Definition gen_rentries (c : rcfg) (v : view) (rs : list region) (ss : list store) : list rentry :=
  flat_map (fun s =>
    if s_id s =? 0 then []
    else if negb (s_normal s) then []
    else match v_store v (s_id s) with
         | None => []
         | Some m => [mkRentry (s_id s) (rscore c m) (followers_of rs (s_id s))]
         end) ss.

(** balance_region.cc:227-245 Less and Greater. *)
Definition rclose (a b : rentry) : bool :=
  e_lt (e_abs (e_sub (q_score a) (q_score b))) (Fin (1 # 1000000)).

Definition rless (a b : rentry) : bool :=
  if rclose a b then q_id b <? q_id a else e_lt (q_score a) (q_score b).

Definition rgreater (a b : rentry) : bool :=
  if rclose a b then q_id b <? q_id a else e_lt (q_score b) (q_score a).

(** balance_region.cc:87-135 ResourceFilter::Check; true keeps. *)
Definition rresource_check (v : view) (sid rid : Z) : bool :=
  match v_store v sid with
  | None => false
  | Some sm =>
      match v_region v rid with
      | None => false
      | Some rm =>
          if sm_free_cap sm <=? 0 then false
          else if rm_size rm <=? 0 then false
          else if sm_free_cap sm <=? rm_size rm then false
          else true
      end
  end.

(** balance_region.cc:201-225 RegionPlacementSafeguard::Check; true keeps. *)
Definition placement_check (v : view) (sid rid : Z) : bool :=
  match v_store v sid with
  | None => false
  | Some sm => negb (memZ rid (sm_regions sm))
  end.

(** balance_region.cc:748-767 FilterRegion.  The filter it walks,
    RegionStateFilter (:137-199), overrides Check(store, region) while
    FilterRegion calls Check(region), which the base class answers with true
    (balance_region.h:84): nothing is filtered. *)
Definition base_check (rid : Z) : bool := true.
Definition rfilter_region (ids : list Z) : list Z := filter base_check ids.

Record rtask := mkRtask { k_region : Z; k_src : Z; k_dst : Z; k_new : list Z }.

(** balance_region.cc:649-664: the new stores of the region. *)
Definition new_stores (ps : list Z) (src dst : Z) : list Z :=
  dst :: filter (fun s => negb (s =? src)) ps.

(** balance_region.cc:612-647 GenerateChangeRegionTask. *)
Definition gen_change (v : view) (src dst : rentry) : option rtask :=
  if e_le (q_score src) (q_score dst) then None
  else
    let ids := rfilter_region (q_foll src) in
    let ms := flat_map (fun id => match v_region v id with None => [] | Some m => [(id, m)] end) ids in
    let ms := isort (fun a b => rm_size (snd b) <? rm_size (snd a)) ms in
    match find (fun im => rresource_check v (q_id dst) (fst im) && placement_check v (q_id dst) (fst im)) ms with
    | None => None
    | Some (id, m) => Some (mkRtask id (q_id src) (q_id dst) (new_stores (rm_peers m) (q_id src) (q_id dst)))
    end.

(** What Schedule of the region scheduler does: it ends with or without a task,
    or it dereferences the null pointer that GetStore returns past the end. *)
Inductive outcome := Planned (t : option rtask) | Crashed.

(** balance_region.cc:498-588, the loop.  Each iteration tries the current pair
    of stores, moves the source on, tries again, and moves the target on. *)
Fixpoint rloop (c : rcfg) (views : nat -> view) (n : nat) (src tgt : list rentry) : outcome :=
  match src with
  | [] => Planned None
  | s :: src' =>
      match tgt with
      | [] => Planned None
      | t :: tgt' =>
          if e_le (q_score s) (q_score t) then Planned None
          else if e_le (e_sub (q_score s) (q_score t)) (Fin (c_limit c)) then Planned None
          else
            match gen_change (views n) s t with
            | Some k => Planned (Some k)
            | None =>
                match src' with
                | [] => Crashed
                | s' :: _ =>
                    match gen_change (views (S n)) s' t with
                    | Some k => Planned (Some k)
                    | None => rloop c views (S (S n)) src' tgt'
                    end
                end
            end
      end
  end.

(** balance_region.cc:498-588 Schedule; [views 0] gives the store metrics. *)
Definition rschedule (c : rcfg) (views : nat -> view) (rs : list region) (ss : list store) : outcome :=
  match map_stores rs with
  | [] => Planned None
  | _ =>
      let es := gen_rentries c (views 0%nat) rs ss in
      match es with
      | [] => Planned None
      | _ => rloop c views 1 (isort rgreater es) (isort rless es)
      end
  end.

(** coordinator_control_coor.cc:3435-3465, the check of
    ChangePairPeerRegionWithJob on the stores it is given: std::set_difference
    of sorted ranges counts repetitions. *)
Fixpoint remove1 (x : Z) (l : list Z) : list Z :=
  match l with [] => [] | y :: r => if x =? y then r else y :: remove1 x r end.

Definition set_difference (a b : list Z) : list Z := fold_left (fun acc x => remove1 x acc) b a.

Definition pair_accepts (old new : list Z) : option (Z * Z) :=
  match set_difference new old, set_difference old new with
  | [more], [less1] => Some (more, less1)
  | _, _ => None
  end.

(** ** Launching

    balance_leader.cc:381-400 and balance_region.cc:426-446: each call tests
    [is_running], then sets it, works, and clears it at the end. *)
Inductive lstep := LTest | LSet | LClear.
Inductive lpc := LIdle | LTested | LRunning | LBack (ran : bool).

Record lstate := mkL { l_flag : bool; l_pc : nat -> lpc }.

Definition l_init : lstate := mkL false (fun _ => LIdle).

Definition l_set (f : nat -> lpc) (i : nat) (x : lpc) : nat -> lpc :=
  fun j => if Nat.eqb j i then x else f j.

Definition launch_step (st : lstate) (a : nat * lstep) : option lstate :=
  let (i, s) := a in
  match l_pc st i, s with
  | LIdle, LTest => Some (mkL (l_flag st) (l_set (l_pc st) i (if l_flag st then LBack false else LTested)))
  | LTested, LSet => Some (mkL true (l_set (l_pc st) i LRunning))
  | LRunning, LClear => Some (mkL false (l_set (l_pc st) i (LBack true)))
  | _, _ => None
  end.

Fixpoint launches (st : lstate) (l : list (nat * lstep)) : option lstate :=
  match l with
  | [] => Some st
  | a :: r => match launch_step st a with None => None | Some st' => launches st' r end
  end.

(** balance_leader.cc:370-377 (and balance_region.cc:415-422), the test of
    ShouldRun on the parsed periods. *)
Definition in_periods (ps : list (Z * Z)) (hour : Z) : bool :=
  existsb (fun p => (fst p <=? hour) && (hour <=? snd p)) ps.

(** butil::SplitString (not in /repo): pieces between separators, trimmed of
    white space, none for a blank string. *)
Definition is_space (c : Z) : bool := (c =? 32) || ((9 <=? c) && (c <=? 13)).

Fixpoint drop_spaces (s : list Z) : list Z :=
  match s with [] => [] | c :: r => if is_space c then drop_spaces r else s end.

Definition trim (s : list Z) : list Z := rev (drop_spaces (rev (drop_spaces s))).

Fixpoint pieces (c : Z) (s : list Z) : list (list Z) :=
  match s with
  | [] => [[]]
  | x :: r =>
      if x =? c then [] :: pieces c r
      else match pieces c r with
           | [] => [[x]]
           | p :: ps => (x :: p) :: ps
           end
  end.

Definition split_string (c : Z) (s : list Z) : list (list Z) :=
  match map trim (pieces c s) with
  | [[]] => []
  | ps => ps
  end.

(** strtol with base 10 on a whole string: [None] when some byte is left over.
    Long overflow gives LONG_MAX or LONG_MIN; the result is stored in an int. *)
Fixpoint digits (acc : Z) (s : list Z) : option Z :=
  match s with
  | [] => Some acc
  | c :: r => if (48 <=? c) && (c <=? 57) then digits (acc * 10 + (c - 48)) r else None
  end.

Definition to_int (n : Z) : Z :=
  let n := Z.min (Z.max n (- 2 ^ 63)) (2 ^ 63 - 1) in
  (n + 2 ^ 31) mod 2 ^ 32 - 2 ^ 31.

Definition strtol_all (s : list Z) : option Z :=
  match s with
  | [] => None
  | 45 :: [] | 43 :: [] => None
  | 45 :: r => match digits 0 r with Some n => Some (to_int (- n)) | None => None end
  | 43 :: r => match digits 0 r with Some n => Some (to_int n) | None => None end
  | _ => match digits 0 s with Some n => Some (to_int n) | None => None end
  end.

(** balance_leader.cc:321-357 (and balance_region.cc:366-402) ParseTimePeriod. *)
Definition hour_or (dflt : Z) (s : list Z) : option Z :=
  match s with [] => Some dflt | _ => strtol_all s end.

Definition parse_period (part : list Z) : list (Z * Z) :=
  match split_string 44 part with
  | [] => []
  | a :: rest =>
      match hour_or 0 a, hour_or 23 (match rest with [] => [] | b :: _ => b end) with
      | Some x, Some y => [(x, y)]
      | _, _ => []
      end
  end.

Definition parse_periods (s : list Z) : list (Z * Z) := flat_map parse_period (split_string 59 s).

(** balance_leader.cc:359-379 ShouldRun. *)
Definition should_run (s : list Z) (hour : Z) : bool := in_periods (parse_periods s) hour.
