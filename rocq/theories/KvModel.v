(** The coordinator's versioned key-value store (VersionService): the two tables
    (key index and revision records), what one raft log entry does to them, range
    reads, and the requests that produce log entries.  Leases are here only as the
    table that a put consults; their own life is in LeaseModel.v.

    Simplifications: revisions are pairs; src/coordinator/kv_control_kv.cc:53-64
    writes a pair as two fixed-width integers, so distinct pairs have distinct keys in the
    table.  Engine writes do not fail.  [int64] counters do not overflow
    (KvControl::GetNextId stops the process at the end of the range,
    kv_control.cc:235-237). *)
From Coq Require Import ZArith List Lia Bool.
From Verif Require Import Bytes SMap.
Import ListNotations.
Open Scope Z_scope.

(** ** Data *)

(** proto RevisionInternal: (main, sub) *)
Definition rev : Type := Z * Z.

Definition reqb (a b : rev) : bool := (fst a =? fst b) && (snd a =? snd b).

(** proto KvIndexInternal.Generation.  [g_create = None]: has_create_revision() is false. *)
Record gen := mkG { g_create : option rev; g_ver : Z; g_revs : list rev }.

(** a generation just added by add_generations() *)
Definition gnull : gen := mkG None 0 [].

(** proto KvIndexInternal; the id is the key of the table *)
Record idx := mkI { i_mod : rev; i_gens : list gen }.

(** proto KvInternal, the body of KvRevInternal *)
Record kvr := mkV { v_key : bytes; v_value : bytes; v_create : rev; v_mod : rev;
                    v_ver : Z; v_lease : Z; v_del : bool }.

(** proto LeaseInternal *)
Record lease := mkL { l_ttl : Z; l_renew : Z }.

(** proto version.Kv: what a client sees *)
Record kvo := mkO { o_key : bytes; o_value : bytes; o_create : Z; o_mod : Z; o_ver : Z; o_lease : Z }.

(** KvControl: [k_index] = kv_index_map_ (ordered, in memory and on disk),
    [k_revs] = kv_rev_meta_ (disk), [k_leases] = kv_lease_map_; [k_rev] and [k_applied] =
    ID_NEXT_REVISION and RAFT_APPLY_INDEX in id_epoch_map_, [k_srev] and [k_sapplied] their
    records on disk (kv_control.h:330-362, kv_control.cc:44-60). *)
Record kvst := mkS {
  k_index : list (bytes * idx);
  k_revs : rev -> option kvr;
  k_leases : list (Z * lease);
  k_rev : Z; k_applied : Z; k_srev : Z; k_sapplied : Z }.

Definition iget : list (bytes * idx) -> bytes -> option idx := get bcmp.
Definition iput : list (bytes * idx) -> bytes -> idx -> list (bytes * idx) := put bcmp.
Definition idel : list (bytes * idx) -> bytes -> list (bytes * idx) := del bcmp.
Definition lget : list (Z * lease) -> Z -> option lease := get Z.compare.
Definition lput : list (Z * lease) -> Z -> lease -> list (Z * lease) := put Z.compare.
Definition ldel : list (Z * lease) -> Z -> list (Z * lease) := del Z.compare.

Definition rput (f : rev -> option kvr) (r : rev) (v : option kvr) : rev -> option kvr :=
  fun x => if reqb x r then v else f x.

(** kv_index.generations(generations_size() - 1) *)
Fixpoint last_gen (l : list gen) : option gen :=
  match l with [] => None | [g] => Some g | _ :: l' => last_gen l' end.

(** ** Range reads *)

(** the test in kv_control_kv.cc:104-113 and again in 228-237: the last generation
    has a create revision and at least one revision *)
Definition live_idx (i : idx) : bool :=
  match last_gen (i_gens i) with
  | Some g => match g_create g, g_revs g with Some _, _ :: _ => true | _, _ => false end
  | None => false
  end.

(** FLAGS_max_kv_key_size, kv_control_kv.cc:36 *)
Definition kMaxKey : nat := Z.to_nat 4096.

(** kv_control_kv.cc:94-101; an empty [range_end] does not get here from KvRange *)
Definition range_upper (range_end : bytes) : bytes :=
  if beqb range_end [0] then repeat 255 kMaxKey else range_end.

(** RangeRawKvIndex, kv_control_kv.cc:90-130, with GetRangeValues, common/safe_map.h:712-734:
    walking an ordered map from lower_bound(key) to the first key >= upper_bound visits exactly
    the keys in between.  The id tests of the value filter (115-121) repeat those bounds. *)
Definition range_index (m : list (bytes * idx)) (key range_end : bytes) : list (bytes * idx) :=
  filter (fun p => bleb key (fst p) && bltb (fst p) (range_upper range_end) && live_idx (snd p)) m.

(** kv_control_kv.cc:256-265: the message made from a revision record *)
Definition to_kvo (keys_only : bool) (v : kvr) : kvo :=
  mkO (v_key v) (if keys_only then [] else v_value v) (fst (v_create v)) (fst (v_mod v)) (v_ver v) (v_lease v).

(** the loop of KvRange, kv_control_kv.cc:225-280; [n] = limit_count *)
Fixpoint range_loop (revs : rev -> option kvr) (limit : Z) (keys_only count_only : bool)
    (l : list (bytes * idx)) (n : Z) : list kvo * bool :=
  match l with
  | [] => ([], false)
  | (_, i) :: l' =>
      if live_idx i then
        if limit <? n + 1 then ([], true)
        else if count_only then range_loop revs limit keys_only count_only l' (n + 1)
        else match revs (i_mod i) with
             | None => range_loop revs limit keys_only count_only l' (n + 1)
             | Some v =>
                 let '(a, m) := range_loop revs limit keys_only count_only l' (n + 1) in
                 (to_kvo keys_only v :: a, m)
             end
      else range_loop revs limit keys_only count_only l' n
  end.

Definition kInt64Max : Z := 9223372036854775807.

(** the answer of a Range request: kvs, count, more *)
Record range_out := mkR { ro_kvs : list kvo; ro_count : Z; ro_more : bool }.

(** KvRange, kv_control_kv.cc:195-297 *)
Definition kv_range (s : kvst) (key range_end : bytes) (limit : Z) (keys_only count_only : bool) : range_out :=
  let limit := if limit =? 0 then kInt64Max else limit in
  let l := match range_end with
           | [] => match iget (k_index s) key with Some i => [(key, i)] | None => [] end
           | _ => range_index (k_index s) key range_end
           end in
  let '(kvs, more) := range_loop (k_revs s) limit keys_only count_only l 0 in
  mkR kvs (Z.of_nat (length kvs)) more.

(** DoKvRange, server/version_service.cc:443-490: an empty key is refused, a limit <= 0 means none *)
Definition do_range (s : kvst) (key range_end : bytes) (limit : Z) (keys_only count_only : bool) : option range_out :=
  match key with
  | [] => None
  | _ => Some (kv_range s key range_end (if limit <=? 0 then kInt64Max else limit) keys_only count_only)
  end.

(** KvRangeRawKeys, kv_control_kv.cc:299-338 *)
Definition range_raw_keys (s : kvst) (key range_end : bytes) : list bytes :=
  match range_end with
  | [] => match iget (k_index s) key with Some _ => [key] | None => [] end
  | _ => map fst (range_index (k_index s) key range_end)
  end.

(** ** What applying one operation writes *)

(** one write, or one change of memory, in the order the code does them *)
Inductive eff :=
| ERev (r : rev) (v : kvr)          (** PutRawKvRev, kv_control_kv.cc:172-184 *)
| EDelRev (r : rev)                 (** DeleteRawKvRev, 186-190 *)
| EIdx (k : bytes) (i : idx)        (** PutRawKvIndex, 132-142 *)
| EDelIdx (k : bytes)               (** DeleteRawKvIndex, 144-153 *)
| ELease (id : Z) (l : lease)       (** kv_lease_meta_->Put, kv_control_fsm.cc:370-386 *)
| EDelLease (id : Z)                (** kv_lease_meta_->Erase, 388-397 *)
| EMain (m : Z)                     (** id_epoch_map_.GetNextId in memory, kv_control.cc:229-250 *)
| EFinal (index : Z) (m : option Z).
    (** the last write batch, kv_control_fsm.cc:530-592: the applied index and, if one was
        taken, the new revision counter *)

Definition perform (s : kvst) (e : eff) : kvst :=
  match e with
  | ERev r v => mkS (k_index s) (rput (k_revs s) r (Some v)) (k_leases s) (k_rev s) (k_applied s) (k_srev s) (k_sapplied s)
  | EDelRev r => mkS (k_index s) (rput (k_revs s) r None) (k_leases s) (k_rev s) (k_applied s) (k_srev s) (k_sapplied s)
  | EIdx k i => mkS (iput (k_index s) k i) (k_revs s) (k_leases s) (k_rev s) (k_applied s) (k_srev s) (k_sapplied s)
  | EDelIdx k => mkS (idel (k_index s) k) (k_revs s) (k_leases s) (k_rev s) (k_applied s) (k_srev s) (k_sapplied s)
  | ELease id l => mkS (k_index s) (k_revs s) (lput (k_leases s) id l) (k_rev s) (k_applied s) (k_srev s) (k_sapplied s)
  | EDelLease id => mkS (k_index s) (k_revs s) (ldel (k_leases s) id) (k_rev s) (k_applied s) (k_srev s) (k_sapplied s)
  | EMain m => mkS (k_index s) (k_revs s) (k_leases s) m (k_applied s) (k_srev s) (k_sapplied s)
  | EFinal i m =>
      mkS (k_index s) (k_revs s) (k_leases s) (k_rev s) i
          (match m with Some m => m | None => k_srev s end) i
  end.

Definition performs (s : kvst) (es : list eff) : kvst := fold_left perform es s.

(** what a watcher is told: event type, the key's new state and its previous one *)
Inductive etype := EvPut | EvDelete | EvNotExists.
Record event := mkEv { ev_type : etype; ev_kv : kvo; ev_prev : kvo }.

(** a default version.Kv *)
Definition kvo0 : kvo := mkO [] [] 0 0 0 0.

(** the new index of a put, its create revision and its version: KvPutApply,
    kv_control_kv.cc:584-652 *)
Definition put_index (o : option idx) (op : rev) : idx * rev * Z :=
  match o with
  | None => (mkI op [mkG (Some op) 1 [op]], op, 1)
  | Some i =>
      match last_gen (i_gens i) with
      | None => (mkI op [mkG (Some op) 1 [op]], op, 1)
      | Some g =>
          match g_create g with
          | Some c =>
              (mkI op (removelast (i_gens i) ++ [mkG (Some c) (g_ver g + 1) (g_revs g ++ [op])]), c, g_ver g + 1)
          | None =>
              (mkI op (removelast (i_gens i) ++ [mkG (Some op) 1 (g_revs g ++ [op])]), op, 1)
          end
      end
  end.

Definition zero_rev : rev := (0, 0).
Definition mod_of (o : option idx) : rev := match o with Some i => i_mod i | None => zero_rev end.
Definition value_of (v : option kvr) : bytes := match v with Some v => v_value v | None => [] end.
Definition lease_of (v : option kvr) : Z := match v with Some v => v_lease v | None => 0 end.

(** prev_kv of a watch event, kv_control_kv.cc:617-631 and 724-728 (put), 787-797 and 865-869
    (delete): filled only when the latest generation is a put; the version is read after it was
    advanced *)
Definition prev_kv (s : kvst) (key : bytes) : kvo :=
  let o := iget (k_index s) key in
  match o with
  | Some i =>
      match last_gen (i_gens i) with
      | Some g =>
          match g_create g with
          | Some c =>
              if 0 <? fst c
              then let last := k_revs s (i_mod i) in
                   mkO key (value_of last) (fst c) (fst (i_mod i)) (g_ver g + 1) (lease_of last)
              else mkO [] [] (fst c) (fst (i_mod i)) (g_ver g + 1) 0
          | None => kvo0
          end
      | None => kvo0
      end
  | None => kvo0
  end.

(** KvPutApply, kv_control_kv.cc:565-745: [None] = refused because the lease does not exist
    (the state stays as it is) *)
Definition put_record (s : kvst) (op : rev) (key : bytes) (ignore_lease : bool) (lid : Z)
    (ignore_value : bool) (value : bytes) : option (kvr * idx) :=
  let o := iget (k_index s) key in
  let '(i, create, version) := put_index o op in
  let last := k_revs s (mod_of o) in
  let v := mkV key (if ignore_value then value_of last else value) create op version
               (if ignore_lease then lease_of last else lid) false in
  if (0 <? v_lease v) && (match lget (k_leases s) (v_lease v) with Some _ => false | None => true end)
  then None else Some (v, i).

Definition put_effs (s : kvst) (op : rev) (key : bytes) (ignore_lease : bool) (lid : Z)
    (ignore_value : bool) (value : bytes) : list eff :=
  match put_record s op key ignore_lease lid ignore_value value with
  | None => []
  | Some (v, i) => [ERev op v; EIdx key i]
  end.

(** the new index of a delete, and the create revision and version put into its record:
    KvDeleteApply, kv_control_kv.cc:765-819.  [latest_generation->create_revision()] of a
    null generation is the default (0, 0). *)
Definition delete_index (i : idx) (op : rev) : idx * rev * Z :=
  match last_gen (i_gens i) with
  | None => (mkI op (i_gens i ++ [gnull]), op, 1)
  | Some g =>
      match g_create g with
      | Some c =>
          (mkI op (removelast (i_gens i) ++ [mkG (Some c) (g_ver g + 1) (g_revs g ++ [op]); gnull]), c, g_ver g + 1)
      | None => (mkI op (i_gens i), zero_rev, g_ver g)
      end
  end.

(** KvDeleteApply, kv_control_kv.cc:747-886: the index is written before the record *)
Definition delete_effs (s : kvst) (op : rev) (key : bytes) : list eff :=
  match iget (k_index s) key with
  | None => []
  | Some i =>
      let '(i', create, version) := delete_index i op in
      [EIdx key i'; ERev op (mkV key [] create op version 0 true)]
  end.

(** the history generations of KvCompactApply, kv_control_kv.cc:1003-1030: before the first
    kept generation, revisions below [c] are dropped; after it everything is kept.
    [kept] = new_kv_index.generations() so far (in order) *)
Fixpoint compact_history (c : Z) (gs : list gen) (kept : list gen) (dropped : list rev) : list gen * list rev :=
  match gs with
  | [] => (kept, dropped)
  | g :: gs' =>
      match kept with
      | _ :: _ => compact_history c gs' (kept ++ [g]) dropped
      | [] =>
          match g_create g with
          | None => compact_history c gs' [] dropped
          | Some _ =>
              let out := filter (fun r => fst r <? c) (g_revs g) in
              let rest := filter (fun r => negb (fst r <? c)) (g_revs g) in
              match rest with
              | [] => compact_history c gs' [] (dropped ++ out)
              | _ => compact_history c gs' [mkG (g_create g) (g_ver g) rest] (dropped ++ out)
              end
          end
      end
  end.

(** the latest generation, kv_control_kv.cc:1055-1080: the last revision stays *)
Fixpoint keep_last (c : Z) (l : list rev) : list rev * list rev :=
  match l with
  | [] => ([], [])
  | [r] => ([r], [])
  | r :: l' =>
      let '(keep, out) := keep_last c l' in
      if fst r <? c then (keep, r :: out) else (r :: keep, out)
  end.

(** kv_control_kv.cc:992-1084: the new generations and the revisions to delete *)
Definition compact_gens (c : Z) (gs : list gen) : list gen * list rev :=
  match last_gen gs with
  | None => ([], [])
  | Some g =>
      let '(kept, dropped) := compact_history c (removelast gs) [] [] in
      match kept with
      | _ :: _ => (kept ++ [g], dropped)
      | [] =>
          match g_create g with
          | None => ([], dropped)
          | Some _ =>
              let '(keep, out) := keep_last c (g_revs g) in
              match keep with
              | [] => ([], dropped ++ out)
              | _ => ([mkG (g_create g) (g_ver g) keep], dropped ++ out)
              end
          end
      end
  end.

(** KvCompactApply, kv_control_kv.cc:984-1107 *)
Definition compact_effs (s : kvst) (key : bytes) (c : Z) : list eff :=
  match iget (k_index s) key with
  | None => []
  | Some i =>
      match i_gens i with
      | [] => []
      | _ =>
          let '(gs, out) := compact_gens c (i_gens i) in
          (match gs with [] => EDelIdx key | _ => EIdx key (mkI (i_mod i) gs) end) :: map EDelRev out
      end
  end.

(** ** One raft log entry *)

(** the kv_indexes of a MetaIncrement *)
Inductive op :=
| OPut (key : bytes) (ignore_lease : bool) (lid : Z) (ignore_value : bool) (value : bytes)
| ODel (key : bytes)
| OCompact (key : bytes) (c : Z).

(** the leases of a MetaIncrement: CREATE and UPDATE both put *)
Inductive lop := LPut (id : Z) (l : lease) | LDel (id : Z).

Record incr := mkInc { in_leases : list lop; in_ops : list op }.

Definition lop_eff (o : lop) : eff := match o with LPut id l => ELease id l | LDel id => EDelLease id end.

Definition takes_revision (o : op) : bool := match o with OCompact _ _ => false | _ => true end.

(** the writes of one operation at revision [r] *)
Definition op_effs (s : kvst) (r : rev) (o : op) : list eff :=
  match o with
  | OPut key il lid iv value => put_effs s r key il lid iv value
  | ODel key => delete_effs s r key
  | OCompact key c => compact_effs s key c
  end.

(** the event of one operation, kv_control_kv.cc:719-743 and 861-884 *)
Definition op_event (s : kvst) (r : rev) (o : op) : option (bytes * event) :=
  match o with
  | OPut key il lid iv value =>
      match put_record s r key il lid iv value with
      | None => None
      | Some (v, _) => Some (key, mkEv EvPut (mkO key (v_value v) (fst (v_create v)) (fst r) (v_ver v) (v_lease v)) (prev_kv s key))
      end
  | ODel key =>
      match iget (k_index s) key with
      | None => None
      | Some i =>
          let '(_, create, version) := delete_index i r in
          Some (key, mkEv EvDelete (mkO key [] (fst create) (fst r) version 0) (prev_kv s key))
      end
  | OCompact _ _ => None
  end.

(** the loop over kv_indexes, kv_control_fsm.cc:437-523: [main] is the revision taken from the
    counter by the first put or delete, [sub] the number of the next one *)
Fixpoint ops_effs (s : kvst) (ops : list op) (main : option Z) (sub : Z) : list eff * option Z :=
  match ops with
  | [] => ([], main)
  | o :: ops' =>
      if takes_revision o then
        let m := match main with Some m => m | None => k_rev s + 1 end in
        let es := (match main with Some _ => [] | None => [EMain m] end) ++ op_effs s (m, sub) o in
        let '(es', main') := ops_effs (performs s es) ops' (Some m) (sub + 1) in
        (es ++ es', main')
      else
        let es := op_effs s (0, 0) o in
        let '(es', main') := ops_effs (performs s es) ops' main sub in
        (es ++ es', main')
  end.

(** everything ApplyMetaIncrement does for a log entry at [index], kv_control_fsm.cc:327-595.
    The term test (345) is left out: along one log terms do not decrease, so an entry with a
    smaller or equal index has a smaller or equal term.  An empty increment is not modelled
    (350-353: it returns without moving the applied index). *)
Definition entry_effs (s : kvst) (index : Z) (e : incr) : list eff :=
  if index <=? k_applied s then []
  else
    let les := map lop_eff (in_leases e) in
    let '(es, main) := ops_effs (performs s les) (in_ops e) None 1 in
    les ++ es ++ [EFinal index main].

Definition apply_entry (s : kvst) (index : Z) (e : incr) : kvst := performs s (entry_effs s index e).

(** the log from entry [n + 1] on *)
Fixpoint apply_log (s : kvst) (n : Z) (es : list incr) : kvst :=
  match es with
  | [] => s
  | e :: r => apply_log (apply_entry s (n + 1) e) (n + 1) r
  end.

(** KvControl::InitIds, kv_control.cc:73-80, on an empty store *)
Definition kv0 : kvst := mkS [] (fun _ => None) [] 10000 0 10000 0.

(** Recover, kv_control.cc:82-120: memory is rebuilt from the records on disk *)
Definition recover (s : kvst) : kvst :=
  mkS (k_index s) (k_revs s) (k_leases s) (k_srev s) (k_sapplied s) (k_srev s) (k_sapplied s).

(** the process dies after the first [j] effects of the entry, restarts, and raft hands it the
    entry again *)
Definition crash_replay (s : kvst) (index : Z) (e : incr) (j : nat) : kvst :=
  apply_entry (recover (performs s (firstn j (entry_effs s index e)))) index e.

(** ** Requests *)

Inductive kv_error := ECount | EInval | ELeaseGone | ENotReady.

Definition kMaxCount : Z := 100000.   (** FLAGS_version_kv_max_count, kv_control_kv.cc:33 *)
Definition kMaxValue : Z := 8192.     (** FLAGS_max_kv_value_size, 39 *)

(** the first answer of KvRange for one key: kvs_temp in KvPut, kv_control_kv.cc:404-407 *)
Definition current (s : kvst) (key : bytes) : option kvo :=
  match ro_kvs (kv_range s key [] 1 false false) with kv :: _ => Some kv | [] => None end.

(** the checks of KvPut that do not concern leases, kv_control_kv.cc:352-387 *)
Definition put_check (s : kvst) (key value : bytes) (ignore_value : bool) : option kv_error :=
  if kMaxCount <? Z.of_nat (length (k_index s)) then Some ECount
  else if (match key with [] => true | _ => false end) then Some EInval
  else if (kMaxKey <? length key)%nat then Some EInval
  else if negb ignore_value && (match value with [] => true | _ => false end) then Some EInval
  else if negb ignore_value && (kMaxValue <? Z.of_nat (length value)) then Some EInval
  else None.

(** the lease the key will get: kv_control_kv.cc:390-433.  [lid] has been checked by the caller
    when it is used (390-402) *)
Definition put_lease (s : kvst) (key : bytes) (lid : Z) (ignore_lease : bool) : Z + kv_error :=
  match current s key with
  | Some kv =>
      if ignore_lease then inl (o_lease kv)
      else if o_lease kv =? lid then inl lid else inr EInval
  | None => if ignore_lease then inr EInval else inl lid
  end.

(** the increment of KvPut, kv_control_kv.cc:463-480: ignore_value is written into it only when
    it is false, so it always arrives as false *)
Definition put_incr (key value : bytes) (grant : Z) (ignore_value ignore_lease : bool) : incr :=
  mkInc [] [OPut key ignore_lease grant false (if ignore_value then [] else value)].

(** the increment of KvDeleteRange, kv_control_kv.cc:501-527 *)
Definition delete_keys (s : kvst) (key range_end : bytes) : list kvo :=
  ro_kvs (kv_range s key range_end kInt64Max true false).
Definition delete_incr (s : kvst) (key range_end : bytes) : incr :=
  mkInc [] (map (fun kv => ODel (o_key kv)) (delete_keys s key range_end)).

(** KvCompact, kv_control_kv.cc:947-982 *)
Definition compact_incr (keys : list bytes) (c : Z) : incr := mkInc [] (map (fun k => OCompact k c) keys).

(** CompactionTask, kv_control_kv.cc:917-942: the key that finds the batch full is not put into
    the next batch *)
Fixpoint task_batches (keys : list bytes) (batch : list bytes) : list (list bytes) :=
  match keys with
  | [] => match batch with [] => [] | _ => [batch] end
  | k :: keys' =>
      if (length batch <? 50)%nat then task_batches keys' (batch ++ [k])
      else batch :: task_batches keys' []
  end.

Definition kRetention : Z := 1000.   (** FLAGS_compaction_retention_rev_count, kv_control_kv.cc:45 *)

(** the log entries of one run of CompactionTask, 888-945 *)
Definition compaction_task (s : kvst) : list incr :=
  if k_rev s <? kRetention then []
  else map (fun b => compact_incr b (k_rev s - kRetention)) (task_batches (map fst (k_index s)) []).
