(** Model of backup and restore.  Source: /repo/src, read as text.

    On the store: BackupData writes the newest version at or below the backup timestamp of each key
    of a region into files, and RestoreData checks such files and writes their contents back
    through raft (engine/txn_engine_helper.cc, server/store_service.cc, server/service_helper.cc).
    On the coordinator: the registration of backups.  In the tool (src/br): the order in which a
    backup is registered and garbage collection stopped, and the three threads that send the
    requests of one kind of region.

    Left out: the vector, scalar, table and document parts of INDEX and DOCUMENT regions, the sst
    format (a file is the list of its entries), the SQL meta data, the file that lists the
    saved files, and the compression and storage options. *)
From Coq Require Import ZArith List Bool.
From Verif Require Import Bytes SMap Outcome TxnModel TxnSpec.
Import ListNotations.
Open Scope Z_scope.

(** * A. Backing up a region *)

(** std::map::emplace: an entry that exists is left alone *)
Definition ins {V} (m : smap (bytes * Z) V) (k : bytes * Z) (v : V) : smap (bytes * Z) V :=
  match get vcmp m k with Some _ => m | None => put vcmp m k v end.

(** the two maps that become the write and the data file *)
Inductive bres :=
| BOk (fw : smap (bytes * Z) wrec) (fd : smap (bytes * Z) bytes)
| BLocked.                                     (* EBACKUP_TXN_FOUND_LOCK *)

(** engine/txn_engine_helper.cc:6650-6690 the lock part of DoWriteDataAndCheckForTxn: only a lock
    of the transaction that wrote the record counts *)
Definition own_lock (s : store) (k : bytes) (st : Z) : bool :=
  match get bcmp (locks s) k with
  | Some l => l_ts l =? st
  | None => false
  end.

(** engine/txn_engine_helper.cc:6690-6706 the value of the record, if it is not in the record *)
Definition copy_data (s : store) (k : bytes) (st : Z) (fd : smap (bytes * Z) bytes) :=
  match get vcmp (datas s) (k, st) with
  | Some v => ins fd (k, st) v
  | None => fd
  end.

(** engine/txn_engine_helper.cc:6273-6414 DoBackupDataCoreTxn: one pass over the records, keys
    ascending and timestamps descending; [last] and [go] are last_write_key and is_continue.
    Engine reads that fail are left out. *)
Fixpoint scan_txn (s : store) (tso : Z) (ws : list ((bytes * Z) * wrec)) (last : bytes) (go : bool)
         (fw : smap (bytes * Z) wrec) (fd : smap (bytes * Z) bytes) : bres :=
  match ws with
  | [] => BOk fw fd
  | ((k, t), w) :: r =>
      let go := if beqb last k then go else true in
      if tso <? t then scan_txn s tso r k go fw fd
      else if negb go then scan_txn s tso r k go fw fd
      else match w_op w with
           | OpPut | OpDelete =>
               if own_lock s k (w_start w) then BLocked
               else scan_txn s tso r k false (ins fw (k, t) w) (copy_data s k (w_start w) fd)
           | _ => scan_txn s tso r k go fw fd
           end
  end.

(** the iterator of the scan: the records of [a, b) *)
Definition inside (a b k : bytes) : bool := bleb a k && bltb k b.
Definition backup_txn (s : store) (tso : Z) (a b : bytes) : bres :=
  scan_txn s tso (filter (fun e => inside a b (fst (fst e))) (writes s)) [] false [] [].

(** engine/txn_engine_helper.cc:6416-6593 the same loop of DoBackupDataCoreNonTxn over the plain
    column family of a STORE region.  A value is the stored bytes, the last of which is the flag
    (mvcc/codec.h): 0 put, 1 put with a time to live, 2 delete; any other flag is a FATAL log. *)
Definition plain := smap (bytes * Z) bytes.
Definition flag_ok (v : bytes) : bool := match rev v with f :: _ => (0 <=? f) && (f <=? 2) | [] => false end.
Fixpoint scan_plain (tso : Z) (es : list ((bytes * Z) * bytes)) (last : bytes) (go : bool) (f : plain) : outcome plain :=
  match es with
  | [] => Ok f
  | ((k, t), v) :: r =>
      let go := if beqb last k then go else true in
      if tso <? t then scan_plain tso r k go f
      else if negb go then scan_plain tso r k go f
      else if flag_ok v then scan_plain tso r k false (ins f (k, t) v)
      else Crash
  end.
Definition backup_plain (m : plain) (tso : Z) (a b : bytes) : outcome plain :=
  scan_plain tso (filter (fun e => inside a b (fst (fst e))) m) [] false [].

(** * B. Writing a backup back *)

(** how one raft write ends: accepted and applied, or refused with an error code; a refused write
    may still be applied later ([landed]) *)
Inductive wres := WDone | WFail (code : Z) (landed : bool).
Definition EPERM : Z := 1.
Definition ERAFT_NOTLEADER : Z := 70001.
Definition EINTERNAL : Z := 10000.

(** engine/txn_engine_helper.cc:6943-7153 RestoreTxn, STORE region: the entries of the data file,
    then those of the write file *)
Definition entries (fw : smap (bytes * Z) wrec) (fd : smap (bytes * Z) bytes) : list wop :=
  map (fun e => PutData (fst (fst e)) (snd (fst e)) (snd e)) fd ++
  map (fun e => PutWrite (fst (fst e)) (snd (fst e)) (snd e)) fw.

(** :7083-7143 a write is sent when the bytes or the entries collected exceed their limits; the
    rest is always sent at the end, even when empty *)
Fixpoint cut (sz : wop -> Z) (max_size max_count : Z) (l : list wop) (acc : list wop) (size count : Z) : list batch :=
  match l with
  | [] => [rev acc]
  | o :: r =>
      let size := size + sz o in
      let count := count + 1 in
      if (max_size <? size) || (max_count <? count)
      then rev (o :: acc) :: cut sz max_size max_count r [] 0 0
      else cut sz max_size max_count r (o :: acc) size count
  end.

(** :7096-7101, :7125-7130 and :7145-7151 every write but the last is only asked whether it failed
    with EPERM; the status of the last one is returned *)
Definition land (s : store) (b : batch) (r : wres) : store :=
  match r with WDone => apply_batch s b | WFail _ true => apply_batch s b | WFail _ false => s end.
Fixpoint send (bs : list batch) (env : nat -> wres) (n : nat) (s : store) : store * Z :=
  match bs with
  | [] => (s, 0)
  | b :: r =>
      let s1 := land s b (env n) in
      match env n, r with
      | WDone, _ => send r env (S n) s1
      | WFail c _, [] => (s1, if c =? EPERM then ERAFT_NOTLEADER else c)
      | WFail c _, _ => if c =? EPERM then (s1, ERAFT_NOTLEADER) else send r env (S n) s1
      end
  end.

(** engine/txn_engine_helper.cc:7717-7775 DoReadSstFileForTxn: [opened] is the status of opening
    the files; after RestoreTxn it is this status that is looked at, not RestoreTxn's *)
Definition read_and_restore (opened : bool) (bs : list batch) (env : nat -> wres) (s : store) : store * Z :=
  if opened then
    let '(s1, butil_status) := send bs env 0 s in
    if negb opened then (s1, butil_status) else (s1, 0)
  else (s, EINTERNAL).

(** * C. The files *)

(** engine/txn_engine_helper.cc:6709-6833 WriteSst: what is recorded about a file *)
Record meta := mkMeta { m_name : bytes; m_cf : bytes; m_size : Z; m_sum : bytes }.
(** what a path leads to *)
Inductive node := Missing | Special | File (content : bytes).
Definition disk := bytes -> node.

(** server/service_helper.cc:322-395 ValidSstMetas, for every file before anything is read: it
    exists, is a regular file, has the recorded size, belongs to a column family of the region and
    has the recorded checksum *)
Definition valid_file (sum : bytes -> bytes) (cfs : list bytes) (d : disk) (m : meta) : bool :=
  match d (m_name m) with
  | File c => (Z.of_nat (length c) =? m_size m) && existsb (beqb (m_cf m)) cfs && beqb (sum c) (m_sum m)
  | _ => false
  end.
Definition valid_files (sum : bytes -> bytes) (cfs : list bytes) (d : disk) (ms : list meta) : bool :=
  forallb (valid_file sum cfs d) ms.

(** WriteSst: the file and its description; a map without entries leaves no file *)
Definition describe (sum : bytes -> bytes) (name cf content : bytes) : meta :=
  mkMeta name cf (Z.of_nat (length content)) (sum content).

(** server/store_service.cc:3729-3818 DoRestoreData: the checks, then the files are read and
    written back.  [decode] stands for the sst reader: the entries of a list of files. *)
Definition EBACKUP : Z := 90000.
Definition restore_request (sum : bytes -> bytes) (cfs : list bytes) (decode : list bytes -> option (list batch))
           (d : disk) (ms : list meta) (env : nat -> wres) (s : store) : store * Z :=
  if valid_files sum cfs d ms then
    let contents := map (fun m => match d (m_name m) with File c => c | _ => [] end) ms in
    match decode contents with
    | Some bs => read_and_restore true bs env s
    | None => read_and_restore false [] env s
    end
  else (s, EBACKUP).

(** * D. A transaction, a timestamp and the snapshots of several regions *)

(** One database whose keys are spread over regions ([reg]).  A transaction takes its start
    timestamp, prewrites each of its keys, takes a commit timestamp when all are prewritten and
    commits its keys one after the other, in any interleaving with others; it may be given up as
    long as no key is committed.  A backup fixes its timestamp and takes the snapshot of each
    region at its own time (txn_engine_helper.cc:6273-6290 GetSnapshot in DoBackupDataCoreTxn). *)
Record txn := mkTxn { x_start : Z; x_keys : list bytes; x_pre : list bytes; x_ct : option Z; x_done : list bytes; x_dead : bool }.
Record bk := mkBk { b_clock : Z; b_store : store; b_txns : list txn; b_tso : option Z; b_snaps : list (nat * store) }.
Definition init_bk : bk := mkBk 1 empty_store [] None [].
Inductive bev :=
| BBegin (keys : list bytes)
| BPre (i : nat) (k : bytes) (v : bytes)
| BTs (i : nat)
| BCommit (i : nat) (k : bytes)
| BKill (i : nat)
| BClean (i : nat) (k : bytes)              (* a lock of a given-up transaction is removed *)
| BTso (t : Z)
| BSnap (r : nat).
Definition mem (k : bytes) (l : list bytes) : bool := existsb (beqb k) l.
Fixpoint upd {A} (l : list A) (n : nat) (x : A) : list A :=
  match l, n with
  | [], _ => []
  | _ :: r, O => x :: r
  | y :: r, S m => y :: upd r m x
  end.
Definition a_lock (k : bytes) (st : Z) : lock := mkLock k st 0 k 0 0 OpPut [] [] 0 false [].
Definition bstep (s : bk) (e : bev) : option bk :=
  let '(mkBk cl g xs tso sn) := s in
  match e with
  | BBegin keys => Some (mkBk (cl + 1) g (xs ++ [mkTxn (cl + 1) keys [] None [] false]) tso sn)
  | BPre i k v =>
      match nth_error xs i with
      | Some x =>
          if mem k (x_keys x) && negb (mem k (x_pre x)) && negb (x_dead x) then
            match lock_at g k with
            | Some _ => None
            | None => Some (mkBk cl (apply_batch g [PutData k (x_start x) v; PutLock k (a_lock k (x_start x))])
                              (upd xs i (mkTxn (x_start x) (x_keys x) (k :: x_pre x) (x_ct x) (x_done x) (x_dead x))) tso sn)
            end
          else None
      | None => None
      end
  | BTs i =>
      match nth_error xs i with
      | Some x =>
          match x_ct x with
          | Some _ => None
          | None =>
              if forallb (fun k => mem k (x_pre x)) (x_keys x) && negb (x_dead x)
              then Some (mkBk (cl + 1) g (upd xs i (mkTxn (x_start x) (x_keys x) (x_pre x) (Some (cl + 1)) (x_done x) (x_dead x))) tso sn)
              else None
          end
      | None => None
      end
  | BCommit i k =>
      match nth_error xs i with
      | Some x =>
          match x_ct x with
          | Some c =>
              if mem k (x_pre x) && negb (mem k (x_done x)) && negb (x_dead x)
              then Some (mkBk cl (apply_batch g [PutWrite k c (mkW (x_start x) OpPut []); DelLock k])
                           (upd xs i (mkTxn (x_start x) (x_keys x) (x_pre x) (Some c) (k :: x_done x) (x_dead x))) tso sn)
              else None
          | None => None
          end
      | None => None
      end
  | BKill i =>
      match nth_error xs i with
      | Some x =>
          match x_done x with
          | [] => Some (mkBk cl g (upd xs i (mkTxn (x_start x) (x_keys x) (x_pre x) (x_ct x) [] true)) tso sn)
          | _ => None
          end
      | None => None
      end
  | BClean i k =>
      match nth_error xs i with
      | Some x =>
          match lock_at g k with
          | Some l => if x_dead x && (l_ts l =? x_start x)
                      then Some (mkBk cl (apply_batch g [DelLock k]) xs tso sn) else None
          | None => None
          end
      | None => None
      end
  | BTso t =>
      match tso with
      | Some _ => None
      | None => if t <=? cl then Some (mkBk cl g xs (Some t) sn) else None
      end
  | BSnap r =>
      match tso with
      | Some _ => Some (mkBk cl g xs tso (sn ++ [(r, g)]))
      | None => None
      end
  end.

(** * E. The threads of the backup tool *)

(** br/backup_data_base.cc:276-351 DoBackupRegionInternal, one thread for each of the three kinds
    of regions; br/backup_sql_data.cc:143-310 Run, which starts and awaits them.  A thread takes
    its regions one after the other, stops when is_need_exit_ is set, and at its end first says
    that it has ended and then writes its status over last_error_. *)
Inductive pc := PLoop | PSent (r : Z) | PLeave (ok : bool) | PEnded (ok : bool) | PGone.
Record thr := mkThr { t_todo : list Z; t_pc : pc }.
Record tool := mkTool { l_thr : list thr; l_exit : bool; l_err : bool; l_saved : list Z; l_done : nat; l_total : nat; l_ret : option bool }.
Definition init_tool (jobs : list (list Z)) : tool :=
  mkTool (map (fun j => mkThr j PLoop) jobs) false false [] 0 (length (concat jobs)) None.
Inductive lev :=
| LNext (t : nat)                     (* the loop test, the exit test and the request *)
| LAnswer (t : nat) (ok : bool)
| LSay (t : nat)                      (* is_thread_exit = true *)
| LWrite (t : nat)                    (* last_error_ = status *)
| LReturn.
Definition ended (t : thr) : bool := match t_pc t with PEnded _ | PGone => true | _ => false end.
Definition lstep (s : tool) (e : lev) : option tool :=
  let '(mkTool ts ex er sv dn tot rt) := s in
  match e with
  | LNext i =>
      match nth_error ts i with
      | Some (mkThr todo PLoop) =>
          match todo with
          | [] => Some (mkTool (upd ts i (mkThr [] (PLeave true))) ex er sv dn tot rt)
          | r :: rest =>
              if ex then Some (mkTool (upd ts i (mkThr todo (PLeave true))) ex er sv dn tot rt)
              else Some (mkTool (upd ts i (mkThr rest (PSent r))) ex er sv dn tot rt)
          end
      | _ => None
      end
  | LAnswer i ok =>
      match nth_error ts i with
      | Some (mkThr todo (PSent r)) =>
          if ok then Some (mkTool (upd ts i (mkThr todo PLoop)) ex er (r :: sv) (S dn) tot rt)
          else Some (mkTool (upd ts i (mkThr todo (PLeave false))) true er sv dn tot rt)
      | _ => None
      end
  | LSay i =>
      match nth_error ts i with
      | Some (mkThr todo (PLeave ok)) => Some (mkTool (upd ts i (mkThr todo (PEnded ok))) ex er sv dn tot rt)
      | _ => None
      end
  | LWrite i =>
      match nth_error ts i with
      | Some (mkThr todo (PEnded ok)) => Some (mkTool (upd ts i (mkThr todo PGone)) ex (negb ok) sv dn tot rt)
      | _ => None
      end
  | LReturn =>
      match rt with
      | Some _ => None
      | None => if (ex || (tot <=? dn)%nat) && forallb ended ts
                then Some (mkTool ts ex er sv dn tot (Some (if ex then negb er else true))) else None
      end
  end.
Fixpoint lrun (s : tool) (es : list lev) : option tool :=
  match es with [] => Some s | e :: r => match lstep s e with Some s1 => lrun s1 r | None => None end end.

(** br/backup_sql_data.cc and br/backup_sdk_data.cc Filter: which regions a backup takes, by the
    first byte of the start key: 't' executor transactional, 'w' client raw, 'x' client
    transactional (a flag, on by default), 'r' executor raw *)
Definition sql_region (start : bytes) : bool := match start with b :: _ => b =? 116 | [] => false end.
Definition sdk_region (start : bytes) : bool := match start with b :: _ => (b =? 119) || (b =? 120) | [] => false end.

(** server/store_service.cc:3376-3455 BackupData validates the epoch and the range of the request
    against the region; :6174-6290 the scan later takes the region's range itself.  A region's
    history is the list of its (version, range) pairs, newest last. *)
Record shape := mkShape { sh_ver : Z; sh_a : bytes; sh_b : bytes }.
Definition admit_request (now : shape) (ver : Z) (a b : bytes) : bool :=
  (ver =? sh_ver now) && bleb (sh_a now) a && bleb b (sh_b now).
Definition backup_region (checked scanned : shape) (ver : Z) (a b : bytes) (s : store) (tso : Z) : option bres :=
  if admit_request checked ver a b then Some (backup_txn s tso (sh_a scanned) (sh_b scanned)) else None.

(** * F. Registration and garbage collection *)

(** coordinator/coordinator_control_coor.cc:7079-7235 BrWatchDogManager *)
Record info := mkInfo { i_name : Z; i_at : Z; i_for : Z }.
Definition dog := option info.
Definition register (d : dog) (name at_ timeout now : Z) : dog * bool :=
  match d with
  | None => (Some (mkInfo name at_ timeout), true)
  | Some i =>
      if i_name i =? name then (Some (mkInfo name at_ (i_for i)), true)
      else if i_at i + i_for i <? now then (Some (mkInfo name at_ timeout), true)
      else (d, false)
  end.
Definition unregister (d : dog) (name : Z) : dog * bool :=
  match d with
  | None => (None, true)
  | Some i => if i_name i =? name then (None, true) else (d, false)
  end.
Definition backing_up (d : dog) (now : Z) : bool :=
  match d with None => false | Some i => now <=? i_at i + i_for i end.
Inductive dev := DReg (name at_ timeout now : Z) | DUnreg (name : Z).
Definition dstep (d : dog) (e : dev) : dog * bool :=
  match e with
  | DReg n a t now => register d n a t now
  | DUnreg n => unregister d n
  end.
Definition drun (d : dog) (es : list dev) : dog := fold_left (fun d e => fst (dstep d e)) es d.

(** br/backup.cc Init, Run and Finish, by several tools against one coordinator: read whether
    garbage collection is stopped, register, stop it unless it was seen stopped, run, unregister,
    start it again if this tool stopped it.  Leases do not run out here. *)
Inductive bpc := QNew | QSeen (stopped : bool) | QReg (stopped : bool) | QRun (mine : bool) | QUnreg (mine : bool) | QOver.
Record site := mkSite { s_gc_stopped : bool; s_owner : option nat; s_tools : list bpc }.
Inductive sev := SLook (p : nat) | SRegister (p : nat) | SStop (p : nat) | SUnregister (p : nat) | SStart (p : nat).
Definition sstep (s : site) (e : sev) : option site :=
  let '(mkSite gc ow ps) := s in
  match e with
  | SLook p => match nth_error ps p with Some QNew => Some (mkSite gc ow (upd ps p (QSeen gc))) | _ => None end
  | SRegister p =>
      match nth_error ps p with
      | Some (QSeen c) => match ow with
                          | None => Some (mkSite gc (Some p) (upd ps p (QReg c)))
                          | Some _ => Some (mkSite gc ow (upd ps p QOver))
                          end
      | _ => None
      end
  | SStop p =>
      match nth_error ps p with
      | Some (QReg c) => if c then Some (mkSite gc ow (upd ps p (QRun false)))
                         else Some (mkSite true ow (upd ps p (QRun true)))
      | _ => None
      end
  | SUnregister p => match nth_error ps p with Some (QRun m) => Some (mkSite gc None (upd ps p (QUnreg m))) | _ => None end
  | SStart p =>
      match nth_error ps p with
      | Some (QUnreg m) => Some (mkSite (if m then false else gc) ow (upd ps p QOver))
      | _ => None
      end
  end.
