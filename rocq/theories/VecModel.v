(** Vector index maintenance: how the in-memory vector index of a region is
    kept equal to the vectors stored on disk.

    One store process is modelled: the stored vectors of all its regions, the
    vector index objects in memory, and per region its raft log, its position
    in that log, its vector index wrapper, the thread that applies the log and
    the thread that builds, loads, switches and saves indexes.

    Sources: src/vector/vector_index.cc, vector_index_manager.cc,
    vector_index_snapshot_manager.cc, vector_index_flat.cc,
    vector_index_hnsw.cc, src/handler/raft_apply_handler.cc,
    src/raft/store_state_machine.cc.

    Simplifications, for the whole file: a vector is one integer and dimension
    checks always pass; faiss and hnswlib are finite maps from id to vector;
    deleting an absent id succeeds; the log is not truncated; stored vectors do
    not expire; one replica (its own store) is modelled; the epoch is its
    [version] only; disk-ANN and the mono store engine are left out. *)
Require Import ZArith List Bool Lia.
Import ListNotations.
Open Scope Z_scope.

(** ** Index contents *)

(** What an index object holds: id -> vector.  Stands for the faiss
    IndexIDMap2 (vector_index_flat.cc:60-100) or the hnswlib graph
    (vector_index_hnsw.cc:100-200). *)
Definition contents := Z -> option Z.

(** Nothing inside: VectorIndexFactory::New (vector_index_factory.cc:40-120). *)
Definition cempty : contents := fun _ => None.

(** faiss remove_ids + add_with_ids (vector_index_flat.cc:165-185); hnswlib
    addPoint (vector_index_hnsw.cc:229-233). *)
Definition cput (c : contents) (i v : Z) : contents :=
  fun k => if k =? i then Some v else c k.

(** faiss remove_ids (vector_index_flat.cc:195-210); hnswlib markDelete
    (vector_index_hnsw.cc:272-273). *)
Definition cdel (c : contents) (i : Z) : contents :=
  fun k => if k =? i then None else c k.

Definition cput_all (c : contents) (l : list (Z * Z)) : contents :=
  fold_left (fun c p => cput c (fst p) (snd p)) l c.

Definition cdel_all (c : contents) (l : list Z) : contents :=
  fold_left cdel l c.

(** SplitVectorWithId (vector_index.cc:58-71): consecutive batches of at most
    [n].  [acc] is the batch being filled, newest first. *)
Fixpoint split_batches (n : nat) (acc l : list (Z * Z)) : list (list (Z * Z)) :=
  match l with
  | [] => match acc with [] => [] | _ => [rev acc] end
  | x :: r =>
      if (n <=? S (length acc))%nat
      then rev (x :: acc) :: split_batches n [] r
      else split_batches n (x :: acc) r
  end.

(** VectorIndexUtils::CheckVectorIdDuplicated (vector_index_utils.cc:551-566):
    true when no id occurs twice. *)
Fixpoint ids_distinct (l : list Z) : bool :=
  match l with
  | [] => true
  | i :: r => negb (existsb (Z.eqb i) r) && ids_distinct r
  end.

(** VectorIndexFlat::AddOrUpsert (vector_index_flat.cc:121-190): an empty list
    and a list with a repeated id are refused without effect. *)
Definition flat_upsert (c : contents) (l : list (Z * Z)) : contents * bool :=
  match l with
  | [] => (c, false)
  | _ => if ids_distinct (map fst l) then (cput_all c l, true) else (c, false)
  end.

(** ParallelRun (vector_index.cc:73-104): every batch is run, in the order the
    thread pool picks; the call fails if some batch fails. *)
Fixpoint run_batches (c : contents) (bs : list (list (Z * Z))) : contents * bool :=
  match bs with
  | [] => (c, true)
  | b :: r =>
      let '(c1, ok1) := flat_upsert c b in
      let '(c2, ok2) := run_batches c1 r in
      (c2, ok1 && ok2)
  end.

(** Configuration: the kind of index, the flags
    ivf_vector_write_batch_size_per_task / hnsw_vector_write_batch_size_per_task
    ([c_chunk]), kBuildVectorIndexBatchSize (constant.h:173, [c_batch]),
    vector_catchup_log_min_gap ([c_gap]), and the order in which the thread
    pool runs the batches of one call ([c_order], any rearrangement). *)
Record cfg := {
  c_hnsw : bool;
  c_chunk : nat;
  c_batch : nat;
  c_gap : nat;
  c_order : nat -> list (list (Z * Z)) -> list (list (Z * Z))
}.

(** VectorIndex::AddByParallel / UpsertByParallel (vector_index.cc:194-227) with
    VectorIndexHnsw::Upsert (vector_index_hnsw.cc:203-252).  Adding and
    upserting are the same operation in both kinds
    (vector_index_flat.cc:121-160, vector_index_hnsw.cc:195-201). *)
Definition idx_upsert (g : cfg) (seed : nat) (c : contents) (l : list (Z * Z))
  : contents * bool :=
  if c_hnsw g then
    match l with
    | [] => (c, false)
    | _ => (cput_all c (concat (c_order g seed (split_batches (c_chunk g) [] l))), true)
    end
  else run_batches c (c_order g seed (split_batches (c_chunk g) [] l)).

(** VectorIndex::DeleteByParallel (vector_index.cc:231-242). *)
Definition idx_delete (c : contents) (l : list Z) : contents * bool :=
  (cdel_all c l, true).

(** ** Index objects, log entries, regions *)

(** One VectorIndex object (vector_index.h:60-300): contents, the range and
    epoch it was built for, and apply_log_id.  Log ids are positions in the log
    counted from 1, so [o_apply = n] says "the first n entries". *)
Record obj := { o_has : contents; o_lo : Z; o_hi : Z; o_epoch : Z; o_apply : nat }.

Definition empty_obj : obj :=
  {| o_has := cempty; o_lo := 0; o_hi := 0; o_epoch := 0; o_apply := 0 |}.

(** Raft commands (store_state_machine.cc:110-240 dispatches them): VECTOR_ADD,
    VECTOR_DELETE, an entry that is not a data entry (configuration change or
    no-op), SPLIT at a vector id, COMMIT_MERGE of another region.
    Simplification: the split key and the merge are given by vector ids. *)
Inductive op :=
| OAdd (l : list (Z * Z))
| ODel (l : list Z)
| OConf
| OSplit (mid : Z)
| OMerge (src : nat).

(** A log entry: the command, the timestamp the leader gave it (storage.cc
    VectorAdd/VectorDelete take it from the timestamp provider) and the region
    epoch in the command's header (raft_node.cc / raft_store_engine.cc). *)
Record entry := { e_op : op; e_ts : Z; e_epoch : Z }.

(** The thread applying the log of one region (store_state_machine.cc:110-240,
    raft_apply_handler.cc:1115-1540).
    [AWait]: vector stored, handler waits until no switch is in progress;
    [AWrite p q]: it has fetched the index and the sibling;
    [AMark]: index written, ApplyLogId not yet set;
    [ADone]: handler returned, applied index not yet advanced. *)
Inductive apc := AIdle | AWait | AWrite (p : nat) (q : option nat) | AMark | ADone.

(** The task queue of one region's wrapper (vector_index_manager.cc:60-480,
    859-1243): [BScan] index created, data not yet read; [BCatch] in the
    catch-up loop; [BPre] loop left; [BLast] switching flag set; [BSwitch p e]
    last round done up to log id [e]; [BUnlock] updated, flag still set. *)
Inductive bpc :=
| BIdle | BScan (p : nat) | BCatch (p : nat) | BPre (p : nat) | BLast (p : nat)
| BSwitch (p : nat) (e : nat) | BUnlock.

(** The last saved snapshot of an index
    (vector_index_snapshot_manager.cc:501-795). *)
Record snap := { n_has : contents; n_lo : Z; n_hi : Z; n_epoch : Z; n_id : nat }.

(** A region (store_meta_manager.h) with its vector index wrapper
    (vector_index.h:420-640).  [w_apply] is apply_log_id_, [w_meta] the value of
    it last written by SaveMeta. *)
Record region := {
  r_alive : bool;
  r_lo : Z; r_hi : Z; r_epoch : Z;
  r_log : list entry;
  r_applied : nat;
  r_apc : apc;
  r_bpc : bpc;
  w_ready : bool;
  w_own : option nat; w_share : option nat; w_sib : option nat;
  w_apply : nat; w_meta : nat;
  w_switch : bool;
  w_snap : option snap
}.

Definition set_log (l : list entry) (r : region) : region :=
  {| r_alive := r_alive r; r_lo := r_lo r; r_hi := r_hi r; r_epoch := r_epoch r; r_log := l;
     r_applied := r_applied r; r_apc := r_apc r; r_bpc := r_bpc r; w_ready := w_ready r;
     w_own := w_own r; w_share := w_share r; w_sib := w_sib r; w_apply := w_apply r;
     w_meta := w_meta r; w_switch := w_switch r; w_snap := w_snap r |}.

Definition set_apc (a : apc) (r : region) : region :=
  {| r_alive := r_alive r; r_lo := r_lo r; r_hi := r_hi r; r_epoch := r_epoch r; r_log := r_log r;
     r_applied := r_applied r; r_apc := a; r_bpc := r_bpc r; w_ready := w_ready r;
     w_own := w_own r; w_share := w_share r; w_sib := w_sib r; w_apply := w_apply r;
     w_meta := w_meta r; w_switch := w_switch r; w_snap := w_snap r |}.

Definition set_bpc (b : bpc) (r : region) : region :=
  {| r_alive := r_alive r; r_lo := r_lo r; r_hi := r_hi r; r_epoch := r_epoch r; r_log := r_log r;
     r_applied := r_applied r; r_apc := r_apc r; r_bpc := b; w_ready := w_ready r;
     w_own := w_own r; w_share := w_share r; w_sib := w_sib r; w_apply := w_apply r;
     w_meta := w_meta r; w_switch := w_switch r; w_snap := w_snap r |}.

Definition set_applied (n : nat) (r : region) : region :=
  {| r_alive := r_alive r; r_lo := r_lo r; r_hi := r_hi r; r_epoch := r_epoch r; r_log := r_log r;
     r_applied := n; r_apc := r_apc r; r_bpc := r_bpc r; w_ready := w_ready r;
     w_own := w_own r; w_share := w_share r; w_sib := w_sib r; w_apply := w_apply r;
     w_meta := w_meta r; w_switch := w_switch r; w_snap := w_snap r |}.

Definition set_wapply (n : nat) (r : region) : region :=
  {| r_alive := r_alive r; r_lo := r_lo r; r_hi := r_hi r; r_epoch := r_epoch r; r_log := r_log r;
     r_applied := r_applied r; r_apc := r_apc r; r_bpc := r_bpc r; w_ready := w_ready r;
     w_own := w_own r; w_share := w_share r; w_sib := w_sib r; w_apply := n;
     w_meta := w_meta r; w_switch := w_switch r; w_snap := w_snap r |}.

Definition set_switch (b : bool) (r : region) : region :=
  {| r_alive := r_alive r; r_lo := r_lo r; r_hi := r_hi r; r_epoch := r_epoch r; r_log := r_log r;
     r_applied := r_applied r; r_apc := r_apc r; r_bpc := r_bpc r; w_ready := w_ready r;
     w_own := w_own r; w_share := w_share r; w_sib := w_sib r; w_apply := w_apply r;
     w_meta := w_meta r; w_switch := b; w_snap := w_snap r |}.

(** GetVectorIndex (vector_index.cc:668-679): the shared index first. *)
Definition cur_index (r : region) : option nat :=
  match w_share r with Some p => Some p | None => w_own r end.

(** One version of a stored vector: id, timestamp, vector or deletion mark.
    kVectorDataCF holds the key of the id followed by the timestamp
    (raft_apply_handler.cc:1150-1260, 1412-1465; src/vector/codec.cc). *)
Definition version : Type := Z * Z * option Z.

Record state := { s_data : list version; s_heap : list obj; s_regs : list region }.

(** The newest version of an id (mvcc iterator at timestamp 0,
    src/mvcc/iterator.cc; C05).  Of versions with the same timestamp the one
    written last wins: the key is the same. *)
Fixpoint newest (d : list version) (i : Z) : option (Z * option Z) :=
  match d with
  | [] => None
  | (k, t, v) :: r =>
      if k =? i then
        match newest r i with
        | Some (t', v') => if t <? t' then Some (t', v') else Some (t, v)
        | None => Some (t, v)
        end
      else newest r i
  end.

Definition stored (d : list version) (i : Z) : option Z :=
  match newest d i with Some (_, v) => v | None => None end.

(** ** Small list helpers *)

Fixpoint upd {A : Type} (l : list A) (n : nat) (f : A -> A) : list A :=
  match l, n with
  | [], _ => []
  | x :: r, O => f x :: r
  | x :: r, S m => x :: upd r m f
  end.

Definition in_rng (lo hi i : Z) : bool := (lo <=? i) && (i <? hi).

Definition set_has (c : contents) (o : obj) : obj :=
  {| o_has := c; o_lo := o_lo o; o_hi := o_hi o; o_epoch := o_epoch o; o_apply := o_apply o |}.

Definition set_oapply (n : nat) (o : obj) : obj :=
  {| o_has := o_has o; o_lo := o_lo o; o_hi := o_hi o; o_epoch := o_epoch o; o_apply := n |}.

Definition set_orange (lo hi ep : Z) (o : obj) : obj :=
  {| o_has := o_has o; o_lo := lo; o_hi := hi; o_epoch := ep; o_apply := o_apply o |}.

Definition geto (h : list obj) (p : nat) : obj := nth p h empty_obj.

Definition with_data (d : list version) (s : state) : state :=
  {| s_data := d; s_heap := s_heap s; s_regs := s_regs s |}.
Definition with_heap (h : list obj) (s : state) : state :=
  {| s_data := s_data s; s_heap := h; s_regs := s_regs s |}.
Definition with_regs (l : list region) (s : state) : state :=
  {| s_data := s_data s; s_heap := s_heap s; s_regs := l |}.
Definition on_reg (n : nat) (f : region -> region) (s : state) : state :=
  with_regs (upd (s_regs s) n f) s.

(** ** Writing through the wrapper *)

(** FilterVectorWithId (vector_index.cc:896-917). *)
Definition keep_pairs (o : obj) (l : list (Z * Z)) : list (Z * Z) :=
  filter (fun p => in_rng (o_lo o) (o_hi o) (fst p)) l.

(** FilterVectorId (vector_index.cc:860-895). *)
Definition keep_ids (o : obj) (l : list Z) : list Z :=
  filter (in_rng (o_lo o) (o_hi o)) l.

(** VectorIndexWrapper::Add / Upsert after the indexes are fetched
    (vector_index.cc:936-966, 990-1010): the sibling first; when the own index
    then fails, what the sibling took is deleted from it. *)
Definition w_upsert (g : cfg) (seed : nat) (h : list obj) (p : nat) (q : option nat)
  (l : list (Z * Z)) : list obj * bool :=
  match q with
  | None =>
      let '(c, ok) := idx_upsert g seed (o_has (geto h p)) l in
      (upd h p (set_has c), ok)
  | Some q =>
      let '(cq, okq) := idx_upsert g seed (o_has (geto h q)) (keep_pairs (geto h q) l) in
      let h1 := upd h q (set_has cq) in
      if okq then
        let '(cp, okp) := idx_upsert g seed (o_has (geto h1 p)) (keep_pairs (geto h1 p) l) in
        let h2 := upd h1 p (set_has cp) in
        if okp then (h2, true)
        else (upd h2 q (set_has (fst (idx_delete (o_has (geto h2 q))
                                        (keep_ids (geto h2 q) (map fst l))))), false)
      else (h1, false)
  end.

(** VectorIndexWrapper::Delete (vector_index.cc:1012-1054). *)
Definition w_delete (h : list obj) (p : nat) (q : option nat) (l : list Z)
  : list obj * bool :=
  match q with
  | None => (upd h p (set_has (fst (idx_delete (o_has (geto h p)) l))), true)
  | Some q =>
      let h1 := upd h q (set_has (fst (idx_delete (o_has (geto h q)) (keep_ids (geto h q) l)))) in
      (upd h1 p (set_has (fst (idx_delete (o_has (geto h1 p)) (keep_ids (geto h1 p) l)))), true)
  end.

(** ** Replaying the log into an index *)

(** RocksLogStorage::GetDataEntries (rocks_log_storage.cc:1077-1137): log ids
    from [s] up to but not including [e]. *)
Definition get_entries (l : list entry) (s e : nat) : list entry :=
  skipn (s - 1) (firstn (e - 1) l).

(** The loop of ReplayWalToVectorIndex (vector_index_manager.cc:789-851):
    additions are gathered in [vs] until a deletion comes, deletions in [ids]
    until an addition comes; the results of the index calls are ignored. *)
Fixpoint replay_loop (g : cfg) (seed : nat) (lo hi : Z) (es : list entry)
  (c : contents) (vs : list (Z * Z)) (ids : list Z) : contents :=
  match es with
  | [] =>
      match vs, ids with
      | _ :: _, _ => fst (idx_upsert g seed c vs)
      | [], _ :: _ => fst (idx_delete c ids)
      | [], [] => c
      end
  | e :: r =>
      match e_op e with
      | OAdd l =>
          let c1 := match ids with [] => c | _ => fst (idx_delete c ids) end in
          let vs1 := vs ++ filter (fun p => in_rng lo hi (fst p)) l in
          if (c_batch g <=? length vs1)%nat
          then replay_loop g seed lo hi r (fst (idx_upsert g seed c1 vs1)) [] []
          else replay_loop g seed lo hi r c1 vs1 []
      | ODel l =>
          let c1 := match vs with [] => c | _ => fst (idx_upsert g seed c vs) end in
          let ids1 := ids ++ filter (in_rng lo hi) l in
          if (c_batch g <=? length ids1)%nat
          then replay_loop g seed lo hi r (fst (idx_delete c1 ids1)) [] []
          else replay_loop g seed lo hi r c1 [] ids1
      | _ => replay_loop g seed lo hi r c vs ids
      end
  end.

(** Only data entries are returned by GetDataEntries. *)
Definition is_data (e : entry) : bool :=
  match e_op e with OConf => false | _ => true end.

(** last_log_id after the loop (vector_index_manager.cc:795, 848): the log id
    of the last data entry read, [cur] when there is none.  [n] is the log id
    before the first entry of the list. *)
Fixpoint last_data (es : list entry) (n cur : nat) : nat :=
  match es with
  | [] => cur
  | e :: r => last_data r (S n) (if is_data e then S n else cur)
  end.

(** ReplayWalToVectorIndex (vector_index_manager.cc:764-856). *)
Definition replay_wal (g : cfg) (seed : nat) (log : list entry) (o : obj) (st en : nat) : obj :=
  if (en <=? st)%nat then o
  else
    let es := get_entries log st en in
    let c := replay_loop g seed (o_lo o) (o_hi o) es (o_has o) [] [] in
    let last := last_data es (st - 1) (o_apply o) in
    set_oapply (if (o_apply o <? last)%nat then last else o_apply o) (set_has c o).

(** ** Scanning the stored vectors *)

Fixpoint dedup (l : list Z) : list Z :=
  match l with
  | [] => []
  | i :: r => if existsb (Z.eqb i) r then dedup r else i :: dedup r
  end.

(** The iteration of BuildVectorIndex over kVectorDataCF
    (vector_index_manager.cc:929-965): every id of the range with a vector.
    Simplification: the order of the ids is not the key order. *)
Definition scan_data (d : list version) (lo hi : Z) : list (Z * Z) :=
  flat_map (fun i => match stored d i with Some v => [(i, v)] | None => [] end)
    (filter (in_rng lo hi) (dedup (map (fun x => fst (fst x)) d))).

(** Simplification: one call of AddByParallel; the code makes one per
    kBuildVectorIndexBatchSize vectors (vector_index_manager.cc:966-997). *)
Definition build_contents (g : cfg) (seed : nat) (d : list version) (lo hi : Z) : contents :=
  match scan_data d lo hi with
  | [] => cempty
  | l => fst (idx_upsert g seed cempty l)
  end.

(** ** Actions *)

Inductive action :=
| Propose (n : nat) (o : op) (ts : Z)
| ApplyData (n : nat)
| ApplyPick (n : nat)
| ApplyWrite (n : nat) (seed : nat)
| ApplyMark (n : nat)
| ApplyDone (n : nat)
| BuildStart (n : nat) (known : nat) (force : bool)
| BuildScan (n : nat) (seed : nat)
| CatchUp (n : nat) (seed : nat)
| LockSwitch (n : nat)
| LastRound (n : nat) (seed : nat)
| SwitchIndex (n : nat) (hold : bool)
| UnlockSwitch (n : nat)
| SaveIndex (n : nat)
| LoadIndex (n : nat)
| ClearIndex (n : nat)
| Crashed (back : list nat).

(** The ids an entry writes. *)
Definition op_ids (o : op) : list Z :=
  match o with OAdd l => map fst l | ODel l => l | _ => [] end.

(** Request validation on the leader (index_service.cc:373-528, 530-700): ids in
    the region, at least one vector; nothing checks for repeated ids. *)
Definition op_valid (r : region) (o : op) : bool :=
  match o with
  | OAdd l => match l with [] => false | _ => forallb (fun p => in_rng (r_lo r) (r_hi r) (fst p)) l end
  | ODel l => match l with [] => false | _ => forallb (in_rng (r_lo r) (r_hi r)) l end
  | _ => true
  end.

(** The versions an entry adds: the handler writes the key of the id and the
    timestamp (raft_apply_handler.cc:1150-1260, 1412-1465). *)
Definition op_versions (o : op) (ts : Z) : list version :=
  match o with
  | OAdd l => map (fun p => (fst p, ts, Some (snd p))) l
  | ODel l => map (fun i => (i, ts, None)) l
  | _ => []
  end.

(** The last write of the batch ends up newest: see [newest]. *)
Definition put_versions (d : list version) (vs : list version) : list version :=
  fold_left (fun d x => x :: d) vs d.

(** A region created by a split (raft_apply_handler.cc:548-600): the lower part
    of the parent's range, a new empty log, epoch version 2, and the parent's
    own index shared (SetShareVectorIndex, vector_index.cc:686-694). *)
Definition child_region (lo hi : Z) (share : option nat) : region :=
  {| r_alive := true; r_lo := lo; r_hi := hi; r_epoch := 2; r_log := []; r_applied := 0;
     r_apc := AIdle; r_bpc := BIdle;
     w_ready := match share with Some _ => true | None => false end;
     w_own := None; w_share := share; w_sib := None; w_apply := 0; w_meta := 0;
     w_switch := false; w_snap := None |}.

(** Parent after a split (raft_apply_handler.cc:572-580). *)
Definition shrink (mid : Z) (r : region) : region :=
  {| r_alive := r_alive r; r_lo := mid; r_hi := r_hi r; r_epoch := r_epoch r + 1; r_log := r_log r;
     r_applied := r_applied r; r_apc := ADone; r_bpc := r_bpc r; w_ready := w_ready r;
     w_own := w_own r; w_share := w_share r; w_sib := w_sib r; w_apply := w_apply r;
     w_meta := w_meta r; w_switch := w_switch r; w_snap := w_snap r |}.

(** Target after a merge (raft_apply_handler.cc:940-1030): the union of the two
    adjacent ranges, a larger epoch, the source's own index as sibling
    (SetSiblingVectorIndex, vector_index.cc:716-722). *)
Definition grow (lo hi ep : Z) (sib : option nat) (r : region) : region :=
  {| r_alive := r_alive r; r_lo := lo; r_hi := hi; r_epoch := ep; r_log := r_log r;
     r_applied := r_applied r; r_apc := ADone; r_bpc := r_bpc r; w_ready := w_ready r;
     w_own := w_own r; w_share := w_share r;
     w_sib := match sib with Some q => Some q | None => w_sib r end; w_apply := w_apply r;
     w_meta := w_meta r; w_switch := w_switch r; w_snap := w_snap r |}.

(** Source after a merge (raft_apply_handler.cc:1052-1066): tombstone. *)
Definition retire (r : region) : region :=
  {| r_alive := false; r_lo := r_lo r; r_hi := r_hi r; r_epoch := r_epoch r; r_log := r_log r;
     r_applied := r_applied r; r_apc := r_apc r; r_bpc := r_bpc r; w_ready := w_ready r;
     w_own := w_own r; w_share := w_share r; w_sib := w_sib r; w_apply := w_apply r;
     w_meta := w_meta r; w_switch := w_switch r; w_snap := w_snap r |}.

(** UpdateVectorIndex (vector_index.cc:580-627).  [lo]/[hi] is the range of the
    new index, [slo]/[shi] the sibling's. *)
Definition update_index (p : nat) (lo hi slo shi : Z) (ap : nat) (r : region) : region :=
  let a := if (w_apply r <? ap)%nat then ap else w_apply r in
  {| r_alive := r_alive r; r_lo := r_lo r; r_hi := r_hi r; r_epoch := r_epoch r; r_log := r_log r;
     r_applied := r_applied r; r_apc := r_apc r; r_bpc := BUnlock; w_ready := true;
     w_own := Some p; w_share := None;
     w_sib := match w_sib r with
              | Some q => if (lo <=? slo) && (shi <=? hi) then None else Some q
              | None => None
              end;
     w_apply := a; w_meta := a; w_switch := w_switch r; w_snap := w_snap r |}.

(** ClearVectorIndex (vector_index.cc:629-641). *)
Definition clear_index (r : region) : region :=
  {| r_alive := r_alive r; r_lo := r_lo r; r_hi := r_hi r; r_epoch := r_epoch r; r_log := r_log r;
     r_applied := r_applied r; r_apc := r_apc r; r_bpc := r_bpc r; w_ready := false;
     w_own := None; w_share := None; w_sib := None; w_apply := w_apply r;
     w_meta := w_meta r; w_switch := w_switch r; w_snap := w_snap r |}.

(** A snapshot written by SaveVectorIndexSnapshot; SaveMeta follows
    (vector_index_snapshot_manager.cc:700-795, vector_index.cc:790-830). *)
Definition save_snap (o : obj) (r : region) : region :=
  {| r_alive := r_alive r; r_lo := r_lo r; r_hi := r_hi r; r_epoch := r_epoch r; r_log := r_log r;
     r_applied := r_applied r; r_apc := r_apc r; r_bpc := r_bpc r; w_ready := w_ready r;
     w_own := w_own r; w_share := w_share r; w_sib := w_sib r; w_apply := w_apply r;
     w_meta := w_apply r; w_switch := w_switch r;
     w_snap := Some {| n_has := o_has o; n_lo := o_lo o; n_hi := o_hi o; n_epoch := o_epoch o;
                       n_id := w_apply r |} |}.

(** The process dies and starts again: indexes and thread positions are gone,
    the applied index falls back to a persisted value [b]
    (store_state_machine.cc:232-236, kSaveAppliedIndexStep), ApplyLogId to the
    saved one (LoadMeta, vector_index.cc:832-858). *)
Definition reboot (b : nat) (r : region) : region :=
  {| r_alive := r_alive r; r_lo := r_lo r; r_hi := r_hi r; r_epoch := r_epoch r; r_log := r_log r;
     r_applied := Nat.min b (r_applied r); r_apc := AIdle; r_bpc := BIdle; w_ready := false;
     w_own := None; w_share := None; w_sib := None; w_apply := w_meta r;
     w_meta := w_meta r; w_switch := false; w_snap := w_snap r |}.

Fixpoint reboot_all (bs : list nat) (l : list region) : list region :=
  match l with
  | [] => []
  | r :: t => reboot (hd O bs) r :: reboot_all (tl bs) t
  end.

(** The rebuild task gives up when the last snapshot has the region's epoch,
    unless forced (vector_index_manager.cc:123-137); the build task does when
    an own index is ready and was built for this epoch
    (vector_index_manager.cc:380-440). *)
Definition may_build (r : region) (force : bool) : bool :=
  force || negb (w_ready r && match w_own r with Some _ => true | None => false end)
  || match w_snap r with None => true | Some n => n_epoch n <? r_epoch r end.

(** Applying the entry at the position [r_applied]: the epoch in its header must
    be the region's (store_state_machine.cc:168-177). *)
Definition apply_data (s : state) (n : nat) (r : region) (e : entry) : option state :=
  if negb (e_epoch e =? r_epoch r) then Some (on_reg n (set_apc ADone) s)
  else
    match e_op e with
    | OConf => Some (on_reg n (set_apc ADone) s)
    | OAdd _ | ODel _ =>
        (* VectorAddHandler (raft_apply_handler.cc:1262-1300), VectorDeleteHandler
           (raft_apply_handler.cc:1450-1477): store, then look at the index when
           it is ready and has not seen this log id *)
        let d := put_versions (s_data s) (op_versions (e_op e) (e_ts e)) in
        let a := if w_ready r && (w_apply r <? S (r_applied r))%nat then AWait else ADone in
        Some (on_reg n (set_apc a) (with_data d s))
    | OSplit mid =>
        if (r_lo r <? mid) && (mid <? r_hi r)
        then Some (with_regs (upd (s_regs s) n (shrink mid) ++
                              [child_region (r_lo r) mid (w_own r)]) s)
        else None
    | OMerge m =>
        (* the source has applied its whole log (C56) and is not being applied *)
        if (m =? n)%nat then None else
        match nth_error (s_regs s) m with
        | Some src =>
            if r_alive src && (r_applied src =? length (r_log src))%nat &&
               match r_apc src with AIdle => true | _ => false end &&
               ((r_hi src =? r_lo r) || (r_hi r =? r_lo src))
            then Some (with_regs (upd (upd (s_regs s) m retire) n
                         (grow (Z.min (r_lo r) (r_lo src)) (Z.max (r_hi r) (r_hi src))
                               (Z.max (r_epoch r) (r_epoch src) + 1) (w_own src))) s)
            else None
        | None => None
        end
    end.

Definition step_reg (g : cfg) (s : state) (a : action) (n : nat) (r : region) : option state :=
  match a with
  | Propose _ o ts =>
      if r_alive r && op_valid r o
      then Some (on_reg n (set_log (r_log r ++ [{| e_op := o; e_ts := ts; e_epoch := r_epoch r |}])) s)
      else None
  | ApplyData _ =>
      match r_apc r, nth_error (r_log r) (r_applied r) with
      | AIdle, Some e => if r_alive r then apply_data s n r e else None
      | _, _ => None
      end
  | ApplyPick _ =>
      (* VectorIndexWrapper::Add/Upsert/Delete up to fetching the indexes
         (vector_index.cc:918-935): not ready or no index: error, nothing done *)
      match r_apc r with
      | AWait =>
          if w_ready r then
            if w_switch r then None
            else match cur_index r with
                 | Some p => Some (on_reg n (set_apc (AWrite p (w_sib r))) s)
                 | None => Some (on_reg n (set_apc ADone) s)
                 end
          else Some (on_reg n (set_apc ADone) s)
      | _ => None
      end
  | ApplyWrite _ seed =>
      match r_apc r, nth_error (r_log r) (r_applied r) with
      | AWrite p q, Some e =>
          let '(h, ok) :=
            match e_op e with
            | OAdd l => w_upsert g seed (s_heap s) p q l
            | ODel l => w_delete (s_heap s) p q l
            | _ => (s_heap s, false)
            end in
          Some (on_reg n (set_apc (if ok then AMark else ADone)) (with_heap h s))
      | _, _ => None
      end
  | ApplyMark _ =>
      match r_apc r with
      | AMark => Some (on_reg n (fun r => set_apc ADone (set_wapply (S (r_applied r)) r)) s)
      | _ => None
      end
  | ApplyDone _ =>
      match r_apc r with
      | ADone => Some (on_reg n (fun r => set_apc AIdle (set_applied (S (r_applied r)) r)) s)
      | _ => None
      end
  | BuildStart _ known force =>
      (* BuildVectorIndex up to the iterator (vector_index_manager.cc:868-902);
         known_applied_index is not larger than the applied index *)
      match r_bpc r with
      | BIdle =>
          if r_alive r && may_build r force && (known <=? r_applied r)%nat
          then Some (on_reg n (set_bpc (BScan (length (s_heap s))))
                 (with_heap (s_heap s ++ [{| o_has := cempty; o_lo := r_lo r; o_hi := r_hi r;
                                             o_epoch := r_epoch r; o_apply := known |}]) s))
          else None
      | _ => None
      end
  | BuildScan _ seed =>
      match r_bpc r with
      | BScan p =>
          let o := geto (s_heap s) p in
          Some (on_reg n (set_bpc (BCatch p))
            (with_heap (upd (s_heap s) p
               (set_has (build_contents g seed (s_data s) (o_lo o) (o_hi o)))) s))
      | _ => None
      end
  | CatchUp _ seed =>
      (* the loop of CatchUpLogToVectorIndex (vector_index_manager.cc:1185-1210) *)
      match r_bpc r with
      | BCatch p =>
          let o := geto (s_heap s) p in
          let st := S (o_apply o) in
          let en := r_applied r in
          if (st + c_gap g <=? en)%nat
          then Some (with_heap (upd (s_heap s) p (fun o => replay_wal g seed (r_log r) o st en)) s)
          else Some (on_reg n (set_bpc (BPre p)) s)
      | _ => None
      end
  | LockSwitch _ =>
      match r_bpc r with
      | BPre p => Some (on_reg n (fun r => set_bpc (BLast p) (set_switch true r)) s)
      | _ => None
      end
  | LastRound _ seed =>
      (* vector_index_manager.cc:1220-1229 *)
      match r_bpc r with
      | BLast p =>
          let o := geto (s_heap s) p in
          let en := r_applied r in
          Some (on_reg n (set_bpc (BSwitch p en))
            (with_heap (upd (s_heap s) p
               (fun o => replay_wal g seed (r_log r) o (S (o_apply o)) en)) s))
      | _ => None
      end
  | SwitchIndex _ hold =>
      (* GetEpochAndRange, SetEpochAndRange, UpdateVectorIndex
         (vector_index_manager.cc:1231-1238); [hold]: the wrapper is to be held *)
      match r_bpc r with
      | BSwitch p _ =>
          let h := upd (s_heap s) p (set_orange (r_lo r) (r_hi r) (r_epoch r)) in
          let sib := geto h (match w_sib r with Some q => q | None => p end) in
          if hold
          then Some (on_reg n (update_index p (r_lo r) (r_hi r) (o_lo sib) (o_hi sib)
                                 (o_apply (geto h p))) (with_heap h s))
          else Some (on_reg n (set_bpc BUnlock) (with_heap h s))
      | _ => None
      end
  | UnlockSwitch _ =>
      match r_bpc r with
      | BUnlock => Some (on_reg n (fun r => set_bpc BIdle (set_switch false r)) s)
      | _ => None
      end
  | SaveIndex _ =>
      (* SaveVectorIndexSnapshot (vector_index_snapshot_manager.cc:501-600): the
         own index, labelled with the wrapper's ApplyLogId; given up when a
         snapshot with that id exists *)
      match r_bpc r, w_own r with
      | BIdle, Some p =>
          if match w_snap r with Some n => (n_id n <? w_apply r)%nat | None => true end
          then Some (on_reg n (save_snap (geto (s_heap s) p)) s)
          else None
      | _, _ => None
      end
  | LoadIndex _ =>
      (* LoadVectorIndexSnapshot (vector_index_snapshot_manager.cc:798-887):
         refused when the epoch is not the region's *)
      match r_bpc r, w_snap r with
      | BIdle, Some sn =>
          if r_alive r && (n_epoch sn =? r_epoch r)
          then Some (on_reg n (set_bpc (BCatch (length (s_heap s))))
                 (with_heap (s_heap s ++ [{| o_has := n_has sn; o_lo := n_lo sn; o_hi := n_hi sn;
                                             o_epoch := n_epoch sn; o_apply := n_id sn |}]) s))
          else None
      | _, _ => None
      end
  | ClearIndex _ =>
      (* leader stopped, or the region need not hold an index
         (raft_vote_handler.cc:81, vector_index_manager.cc:178-181) *)
      Some (on_reg n clear_index s)
  | Crashed _ => None
  end.

Definition act_reg (a : action) : nat :=
  match a with
  | Propose n _ _ | ApplyData n | ApplyPick n | ApplyWrite n _ | ApplyMark n | ApplyDone n
  | BuildStart n _ _ | BuildScan n _ | CatchUp n _ | LockSwitch n | LastRound n _
  | SwitchIndex n _ | UnlockSwitch n | SaveIndex n | LoadIndex n | ClearIndex n => n
  | Crashed _ => O
  end.

(** One step of the store; [None]: the action cannot happen now. *)
Definition step (g : cfg) (s : state) (a : action) : option state :=
  match a with
  | Crashed bs => Some (with_regs (reboot_all bs (s_regs s)) s)
  | _ => match nth_error (s_regs s) (act_reg a) with
         | Some r => step_reg g s a (act_reg a) r
         | None => None
         end
  end.

Fixpoint run (g : cfg) (s : state) (acts : list action) : option state :=
  match acts with
  | [] => Some s
  | a :: r => match step g s a with Some s' => run g s' r | None => None end
  end.

(** One new, empty region without an index: the store before any request. *)
Definition init (lo hi : Z) : state :=
  {| s_data := []; s_heap := [];
     s_regs := [{| r_alive := true; r_lo := lo; r_hi := hi; r_epoch := 1; r_log := [];
                   r_applied := 0; r_apc := AIdle; r_bpc := BIdle; w_ready := false;
                   w_own := None; w_share := None; w_sib := None; w_apply := 0; w_meta := 0;
                   w_switch := false; w_snap := None |}] |}.

(** ** Searching *)

(** What VectorIndexWrapper::Search can find (vector_index.cc:1110-1158): with a
    sibling both indexes without a filter, otherwise the current index, filtered
    by the region's range when that is not the index's range.  [None]: the
    request is answered with an error. *)
Definition searchable (s : state) (n : nat) (i v : Z) : option bool :=
  match nth_error (s_regs s) n with
  | None => None
  | Some r =>
      if w_ready r then
        match cur_index r with
        | None => None
        | Some p =>
            let o := geto (s_heap s) p in
            let hit (o : obj) := match o_has o i with Some w => w =? v | None => false end in
            match w_sib r with
            | Some q => Some (hit (geto (s_heap s) q) || hit o)
            | None =>
                if (r_lo r =? o_lo o) && (r_hi r =? o_hi o) then Some (hit o)
                else Some (in_rng (r_lo r) (r_hi r) i && hit o)
            end
        end
      else None
  end.
