(** Model: moving a region's data to a lagging replica — the raft snapshot.

    Two parts.
    1. The stream of one column family from the leader to the follower:
       src/raft/dingo_filesystem_adaptor.{h,cc} (the reader on the leader, the sst
       writer on the follower).
    2. The replica: what it applies, what it persists, how it loads an installed
       snapshot and how it restarts: src/raft/store_state_machine.cc and
       src/handler/raft_snapshot_handler.cc, policy "dingo" (the default,
       raft_snapshot_handler.cc:40).

    Simplified everywhere: keys are the encoded keys of the store; a process crash
    keeps everything RocksDB and the file system were given (the write-ahead log is
    on); I/O errors do not happen; terms are left out.  The raft library (braft) is
    not in the repository: the steps where it calls in are stated from its interface
    (a file is finished by a reply shorter than the count asked for; on restart
    [on_snapshot_load] is called on the local snapshot and entries are delivered from
    the one after it; an older snapshot than the applied position is refused). *)
From Coq Require Import ZArith List Bool Arith Lia.
From Verif Require Import Bytes.
Import ListNotations.
Open Scope nat_scope.

(** * 1. The stream *)

Definition kv := (bytes * bytes)%type.

(** [size_t] as eight little-endian bytes (the host's layout: the code appends the
    object representation, dingo_filesystem_adaptor.h:139). *)
Definition le64 (x : Z) : bytes := rev (be 8 x).
Definition unle64 (l : bytes) : Z := unbe (rev l).

(** dingo_filesystem_adaptor.h:137-143 [SerializeToIobuf]. *)
Definition ser1 (b : bytes) : bytes := le64 (Z.of_nat (length b)) ++ b.
(** dingo_filesystem_adaptor.cc:206-207: the key, then the value. *)
Definition ser (p : kv) : bytes := ser1 (fst p) ++ ser1 (snd p).

(** The iterator of one column family after Seek(lower_bound)
    (dingo_filesystem_adaptor.cc:131,721).  The iterator is made with default options
    (:128,720): no upper bound, so it runs to the end of the column family. *)
Fixpoint seek (lo : bytes) (l : list kv) : list kv :=
  match l with
  | [] => []
  | p :: r => if bltb (fst p) lo then seek lo r else l
  end.

(** The reader: the shared iterator context (offset, the rest of the iterator, done)
    and the adaptor's own last package (dingo_filesystem_adaptor.h:149-164).
    [rd_all] is what the iterator gives after a seek, for a reset. *)
Record reader := mkReader {
  rd_all : list kv;
  rd_left : list kv;
  rd_off : nat;
  rd_done : bool;
  rd_last_off : nat;
  rd_last : bytes
}.

(** First open of a file: fresh context, fresh adaptor
    (dingo_filesystem_adaptor.cc:701-735). *)
Definition open_fresh (all : list kv) : reader := mkReader all all 0 false 0 [].
(** Opening again while the context is still there: the context goes on where it
    stands, the adaptor starts with last_offset_ = 0 and an empty package
    (dingo_filesystem_adaptor.cc:693-698,735; .h:162-163). *)
Definition open_again (r : reader) : reader :=
  mkReader (rd_all r) (rd_left r) (rd_off r) (rd_done r) 0 [].

(** dingo_filesystem_adaptor.cc:190-213, the loop: whole pairs until [size] bytes are
    exceeded or the iterator ends. *)
Fixpoint fill (size count : nat) (rest : list kv) : bytes * list kv * bool :=
  if count <? size then
    match rest with
    | [] => ([], [], true)
    | p :: r =>
        let '(out, rest', d) := fill size (count + length (ser p)) r in
        (ser p ++ out, rest', d)
    end
  else ([], rest, false).

Definition read_on (r : reader) (offset size : nat) : option bytes * reader :=
  let '(out, rest, d) := fill size 0 (rd_left r) in
  (Some out, mkReader (rd_all r) rest (rd_off r + length out) (rd_done r || d) offset out).

(** dingo_filesystem_adaptor.cc:134-218 [DingoDataReaderAdaptor::read].  [late]: the
    context has not moved for snapshot_timeout_min.  Simplified: offsets are naturals
    (a negative one is refused, :139); the region is not being deleted (:144). *)
Definition read (r : reader) (offset size : nat) (late : bool) : option bytes * reader :=
  if rd_off r <? offset then (None, r)
  else if offset <? rd_off r then
    if rd_last_off r =? offset then (Some (rd_last r), r)
    else if (offset =? 0) && late
    then read_on (mkReader (rd_all r) (rd_all r) 0 false 0 (rd_last r)) offset size
    else (None, r)
  else read_on r offset size.

(** dingo_filesystem_adaptor.cc:230-235 [size]. *)
Definition file_size (r : reader) : option nat := if rd_done r then Some (rd_off r) else None.

(** braft's rule for the end of a file (outside the repository): the reply is shorter
    than the count, or the file ends where the count ends. *)
Definition at_end (r : reader) (offset size : nat) (out : bytes) : bool :=
  (length out <? size) ||
  match file_size r with Some n => n =? offset + size | None => false end.

(** Eight bytes of length, then that many bytes
    (dingo_filesystem_adaptor.cc:425-446,449-476). *)
Definition take1 (d : bytes) : option (bytes * bytes) :=
  if length d <? 8 then None
  else
    let n := Z.to_nat (unle64 (firstn 8 d)) in
    let r := skipn 8 d in
    if length r <? n then None else Some (firstn n r, skipn n r).

(** dingo_filesystem_adaptor.cc:420-489 [IobufToSst]: pairs until the data is used up.
    [fuel] bounds the loop; every round consumes at least sixteen bytes. *)
Fixpoint parse (fuel : nat) (d : bytes) : option (list kv) :=
  match d with
  | [] => Some []
  | _ :: _ =>
      match fuel with
      | O => None
      | S f =>
          match take1 d with
          | None => None
          | Some (k, d1) =>
              match take1 d1 with
              | None => None
              | Some (v, d2) =>
                  match parse f d2 with
                  | None => None
                  | Some l => Some ((k, v) :: l)
                  end
              end
          end
      end
  end.

(** rocksdb's SstFileWriter::Put (dingo_filesystem_adaptor.cc:481): the keys must come in
    strictly increasing order. *)
Fixpoint put_all (got new : list kv) : option (list kv) :=
  match new with
  | [] => Some got
  | p :: r =>
      match rev got with
      | q :: _ => if bltb (fst q) (fst p) then put_all (got ++ [p]) r else None
      | [] => put_all (got ++ [p]) r
      end
  end.

(** The follower's copy of one file. *)
Inductive copy :=
| Copying (next : nat) (got : list kv)
| Copied (got : list kv)
| CopyFailed.

(** What can happen during a transfer: a request is answered ([XReply]); it is handled
    but the answer is lost, to be asked again ([XLost]); a request of an earlier attempt
    arrives ([XStray]).  [late] as in [read]; every request carries its count. *)
Inductive xlabel :=
| XReply (size : nat) (late : bool)
| XLost (size : nat) (late : bool)
| XStray (offset size : nat) (late : bool).

Definition xstep (l : xlabel) (s : reader * copy) : reader * copy :=
  let '(r, c) := s in
  match l, c with
  | XReply size late, Copying next got =>
      match read r next size late with
      | (None, r') => (r', CopyFailed)
      | (Some out, r') =>
          match parse (length out) out with
          | None => (r', CopyFailed)
          | Some new =>
              match put_all got new with
              | None => (r', CopyFailed)
              | Some got' =>
                  (r', if at_end r' next size out then Copied got'
                       else Copying (next + length out) got')
              end
          end
      end
  | XLost size late, Copying next _ => (snd (read r next size late), c)
  | XStray offset size late, _ => (snd (read r offset size late), c)
  | _, _ => s
  end.

Definition xrun (ls : list xlabel) (s : reader * copy) : reader * copy :=
  fold_left (fun s l => xstep l s) ls s.

(** * 2. The replica *)

(** The data of a store: column family, key. *)
Definition db := nat -> bytes -> option bytes.

(** The data commands of a raft entry (src/handler/raft_apply_handler.cc), by their effect. *)
Inductive op :=
| OPut (c : nat) (k v : bytes)
| ODel (c : nat) (k : bytes)
| ODelRange (c : nat) (a b : bytes).

(** A raft command: writes, or a split at a key (raft_apply_handler.cc, SplitHandler:
    the parent keeps [start, m), its version goes up by one, the child is opened). *)
Inductive cmd :=
| CWrite (ops : list op)
| CSplit (m : bytes).

Record entry := mkEntry { e_ver : nat; e_cmd : cmd }.

(** Version and range of the region; conf_version never changes
    (store_state_machine_event.cc:187). *)
Record region := mkRegion { g_ver : nat; g_lo : bytes; g_hi : bytes }.

Definition op_at (o : op) (c : nat) (k : bytes) : option (option bytes) :=
  match o with
  | OPut c' k' v => if (c =? c') && beqb k k' then Some (Some v) else None
  | ODel c' k' => if (c =? c') && beqb k k' then Some None else None
  | ODelRange c' a b => if (c =? c') && bleb a k && bltb k b then Some None else None
  end.

Definition do_op (d : db) (o : op) : db :=
  fun c k => match op_at o c k with Some v => v | None => d c k end.

(** store_state_machine.cc:157-166: a command whose epoch is not the region's is
    skipped.  Third component: the versions at which this replica opened the child of a
    split. *)
Definition exec (e : entry) (s : region * db * list nat) : region * db * list nat :=
  let '(g, d, o) := s in
  if e_ver e =? g_ver g then
    match e_cmd e with
    | CWrite ops => (g, fold_left do_op ops d, o)
    | CSplit m => (mkRegion (S (g_ver g)) (g_lo g) m, d, o ++ [g_ver g])
    end
  else (g, d, o).

(** The region meta file of an installed snapshot: the leader's applied index, version
    and range at the moment it opened the snapshot
    (store_state_machine.cc:305-316, dingo_filesystem_adaptor.cc:252-266). *)
Record smeta := mkSmeta { m_index : nat; m_region : region }.

(** The local snapshot directory.  [sn_index]: last_included_index.  [sn_meta]: absent in
    the fake snapshot a replica saves itself (raft_snapshot_handler.cc:469-484).
    [sn_file]: the sst file of a column family; [sn_gone]: the files removed. *)
Record snapshot := mkSnapshot {
  sn_index : nat;
  sn_meta : option smeta;
  sn_file : nat -> bytes -> option bytes;
  sn_gone : list nat
}.

(** Where the loading of a snapshot stands (raft_snapshot_handler.cc:361-450 with
    :192-246): the region meta, the deletion of the old data per column family, the
    ingestion per column family, the removal of the files, recording the position
    (store_state_machine.cc:412-422). *)
Inductive stage :=
| SMeta
| SDel (c : nat)
| SIngest (c : nat)
| SRemove (c : nat)
| SSave.

Inductive pc := Up | Loading (st : stage) | Down.

Record replica := mkReplica {
  r_pc : pc;
  r_region : region;         (* persisted with every change *)
  r_db : db;
  r_opened : list nat;
  r_applied : nat;           (* applied_index_ *)
  r_pos : nat;               (* the raft library's own position *)
  r_saved : nat;             (* the persisted applied index *)
  r_snap : snapshot
}.

Definition with_pc (s : replica) (p : pc) : replica :=
  mkReplica p (r_region s) (r_db s) (r_opened s) (r_applied s) (r_pos s) (r_saved s) (r_snap s).

(** raft_snapshot_handler.cc:228-229: KvDeleteRange of the region's range. *)
Definition del_range (g : region) (c : nat) (d : db) : db :=
  fun c' k => if (c' =? c) && bleb (g_lo g) k && bltb k (g_hi g) then None else d c' k.

(** raft_snapshot_handler.cc:405-431: a file that is not there is skipped; the keys of an
    ingested file replace what the column family holds
    (rocks_raw_engine.cc:1140-1150). *)
Definition ingest (sn : snapshot) (c : nat) (d : db) : db :=
  if existsb (Nat.eqb c) (sn_gone sn) then d
  else fun c' k =>
    if c' =? c then match sn_file sn c k with Some v => Some v | None => d c' k end
    else d c' k.

(** kSaveAppliedIndexStep (store_state_machine.cc:37). *)
Definition kStep : nat := 10.

(** The keys a file of the leader's store holds: everything from the start of the region
    on (see [seek]). *)
Definition file_of (L : db) (lo : bytes) : nat -> bytes -> option bytes :=
  fun c k => if bleb lo k then L c k else None.

(** Labels.  [LApply]: the library delivers the next entry.  [LSnapSave], [LSnapSaved]: the
    two halves of on_snapshot_save.  [LInstall j m L]: a snapshot with last included index
    [j] arrives, made from the leader's store [L] with the meta [m].  [LLoad]: the next
    micro-step of loading.  [LCrash], [LStart]: the process stops, starts. *)
Inductive label :=
| LApply
| LSnapSave
| LSnapSaved
| LInstall (j : nat) (m : smeta) (L : db)
| LLoad
| LCrash
| LStart.

Section Machine.
  (** The number of column families of the region and the committed log. *)
  Variable ncf : nat.
  Variable log : list entry.

  (** raft_snapshot_handler.cc:361-450. *)
  Definition load_step (st : stage) (m : smeta) (s : replica) : replica :=
    match st with
    | SMeta =>
        (* :203-212 *)
        if g_ver (m_region m) <? g_ver (r_region s) then with_pc s (Loading SSave)
        else
          mkReplica (Loading (SDel 0))
            (if g_ver (r_region s) <? g_ver (m_region m) then m_region m else r_region s)
            (r_db s) (r_opened s) (r_applied s) (r_pos s) (r_saved s) (r_snap s)
    | SDel c =>
        if c <? ncf then
          mkReplica (Loading (SDel (S c))) (r_region s) (del_range (r_region s) c (r_db s))
            (r_opened s) (r_applied s) (r_pos s) (r_saved s) (r_snap s)
        else with_pc s (Loading (SIngest 0))
    | SIngest c =>
        if c <? ncf then
          mkReplica (Loading (SIngest (S c))) (r_region s) (ingest (r_snap s) c (r_db s))
            (r_opened s) (r_applied s) (r_pos s) (r_saved s) (r_snap s)
        else with_pc s (Loading (SRemove 0))
    | SRemove c =>
        (* :440-446 *)
        if c <? ncf then
          mkReplica (Loading (SRemove (S c))) (r_region s) (r_db s)
            (r_opened s) (r_applied s) (r_pos s) (r_saved s)
            (mkSnapshot (sn_index (r_snap s)) (sn_meta (r_snap s)) (sn_file (r_snap s))
                        (c :: sn_gone (r_snap s)))
        else with_pc s (Loading SSave)
    | SSave =>
        (* store_state_machine.cc:412-422 *)
        mkReplica Up (r_region s) (r_db s) (r_opened s)
          (sn_index (r_snap s)) (sn_index (r_snap s)) (sn_index (r_snap s)) (r_snap s)
    end.

  (** store_state_machine.cc:362-427 [on_snapshot_load], up to the decision: no meta file →
      a local snapshot; otherwise load if the leader's index is above [applied]. *)
  Definition begin_load (s : replica) : replica :=
    match sn_meta (r_snap s) with
    | None => with_pc s Up
    | Some m => if r_applied s <? m_index m then with_pc s (Loading SMeta) else with_pc s Up
    end.

  Definition step (l : label) (s : replica) : option replica :=
    match l, r_pc s with
    | LApply, Up =>
        (* store_state_machine.cc:107-240 *)
        match nth_error log (r_pos s) with
        | None => None
        | Some e =>
            let n := S (r_pos s) in
            if n <=? r_applied s then
              Some (mkReplica Up (r_region s) (r_db s) (r_opened s) (r_applied s) n (r_saved s)
                              (r_snap s))
            else
              let '(g, d, o) := exec e (r_region s, r_db s, r_opened s) in
              Some (mkReplica Up g d o n n (if n mod kStep =? 0 then n else r_saved s) (r_snap s))
        end
    | LSnapSave, Up =>
        (* store_state_machine.cc:325-336; only forward (the library) *)
        if sn_index (r_snap s) <? r_pos s then
          if r_applied s =? r_pos s then
            Some (mkReplica Up (r_region s) (r_db s) (r_opened s) (r_applied s) (r_pos s) (r_saved s)
                            (mkSnapshot (r_pos s) None (fun _ _ => None) []))
          else None
        else None
    | LSnapSaved, Up =>
        (* store_state_machine.cc:340-342 *)
        match sn_meta (r_snap s) with
        | None =>
            Some (mkReplica Up (r_region s) (r_db s) (r_opened s) (r_applied s) (r_pos s)
                            (r_applied s) (r_snap s))
        | Some _ => None
        end
    | LInstall j m L, Up =>
        (* the library refuses a snapshot that is not newer than its own or older than its
           position; then on_snapshot_load *)
        if (sn_index (r_snap s) <? j) && (r_pos s <=? j) then
          let sn := mkSnapshot j (Some m) (file_of L (g_lo (m_region m))) [] in
          Some (begin_load (mkReplica Up (r_region s) (r_db s) (r_opened s) (r_applied s) j
                                      (r_saved s) sn))
        else None
    | LLoad, Loading st =>
        match sn_meta (r_snap s) with
        | Some m => Some (load_step st m s)
        | None => None
        end
    | LCrash, Up => Some (with_pc s Down)
    | LCrash, Loading _ => Some (with_pc s Down)
    | LStart, Down =>
        (* applied_index_ := the persisted one; the library starts at its snapshot and has
           it loaded *)
        Some (begin_load (mkReplica Up (r_region s) (r_db s) (r_opened s) (r_saved s)
                                    (sn_index (r_snap s)) (r_saved s) (r_snap s)))
    | _, _ => None
    end.

  Definition run (ls : list label) (s : replica) : option replica :=
    fold_left (fun o l => match o with Some s => step l s | None => None end) ls (Some s).
End Machine.

(** A new replica: nothing applied, no snapshot. *)
Definition fresh (g : region) (d : db) : replica :=
  mkReplica Up g d [] 0 0 0 (mkSnapshot 0 None (fun _ _ => None) []).
