(** Transactional reads: the iterator that merges the lock and the write column family, batch
    get, scan and lock scan with their paging.  Stored keys are (user key, timestamp) pairs as in
    TxnModel.v (C02 justifies it). *)
From Coq Require Import ZArith List Bool.
From Verif Require Import Bytes SMap Outcome TxnModel.
Import ListNotations.
Open Scope Z_scope.

(** pb::store::IsolationLevel; any other value is refused by every entry point
    (txn_engine_helper.cc:1251-1254, 1499-1503) *)
Inductive iso := SI | RC.

(** TxnEngineHelper::CheckLockConflict, txn_engine_helper.cc:1063-1121 *)
Definition lock_conflict (i : iso) (start : Z) (resolved : list Z) (l : lock) : bool :=
  if existsb (Z.eqb (l_ts l)) resolved then false
  else if start <? l_minc l then false
  else if 0 <? l_ts l then
    match i with
    | SI => if 0 <? l_fut l then l_fut l <? start else l_ts l <? start
    | RC => if 0 <? l_fut l
            then if op_eqb (l_type l) OpLock then false else l_fut l <? start
            else false
    end
  else false.

(* ------------------------------------------------------------------------------------ *)
(** * BatchGet *)

(** what a read answers for one key *)
Inductive rd :=
| RdVal (v : bytes)       (* [] = nothing there *)
| RdConflict (l : lock)
| RdErr.                  (* EINTERNAL *)

(** the loop over the versions of one key, txn_engine_helper.cc:1341-1424: newest first, those in
    [lower_bound, upper_bound) = timestamps from iter_start_ts down to 1.  A value missing from
    the data column family is logged and read as empty. *)
Fixpoint get_versions (ds : smap (bytes * Z) bytes) (i : iso) (start : Z) (key : bytes)
         (ws : list (bytes * Z * wrec)) : rd :=
  match ws with
  | [] => RdVal []
  | ((_, t), w) :: rest =>
      if match i with SI => t <=? start | RC => true end then
        match w_op w with
        | OpRollback => get_versions ds i start key rest
        | OpDelete => RdVal []
        | OpPut =>
            if negb (beqb (w_short w) []) then RdVal (w_short w)
            else match get vcmp ds (key, w_start w) with Some v => RdVal v | None => RdVal [] end
        | _ => RdErr
        end
      else get_versions ds i start key rest
  end.

Definition seek_ts (i : iso) (start : Z) : Z := match i with SI => start | RC => kMaxVer end.

(** one key of TxnEngineHelper::BatchGet, txn_engine_helper.cc:1282-1425 *)
Definition get_key (s : store) (i : iso) (start : Z) (resolved : list Z) (key : bytes) : rd :=
  let l := get_lock s key in
  if lock_conflict i start resolved l then RdConflict l
  else
    get_versions (datas s) i start key
      (filter (fun e => let '((k, t), _) := e in beqb k key && (t <=? seek_ts i start) && (0 <? t))
              (writes s)).

(** TxnEngineHelper::BatchGet, txn_engine_helper.cc:1223-1461: the values so far, and how it
    ended.  The size limits on keys and memory are left out. *)
Fixpoint batch_get (s : store) (i : iso) (start : Z) (resolved : list Z) (keys : list bytes)
         (acc : list (bytes * bytes)) : list (bytes * bytes) * rd :=
  match keys with
  | [] => (acc, RdVal [])
  | k :: rest =>
      match get_key s i start resolved k with
      | RdVal v => batch_get s i start resolved rest (acc ++ [(k, v)])
      | x => (acc, x)
      end
  end.

(* ------------------------------------------------------------------------------------ *)
(** * TxnIterator *)

(** TxnIterator's members, txn_engine_helper.h:105-135.  [it_locks] and [it_writes] are what the
    two bounded iterators have left, the head being the current entry.  [] stands for an empty
    string in the key members. *)
Record tit := mkIt {
  it_locks : list (bytes * lock);
  it_writes : list (bytes * Z * wrec);
  it_lkey : bytes;            (* last_lock_key_ *)
  it_wkey : bytes;            (* last_write_key_ *)
  it_key : bytes;             (* key_ *)
  it_value : bytes;           (* value_ *)
  it_conf : option lock }.    (* txn_result_info_ *)

Inductive itr := ItOk (x : tit) | ItFinish (x : tit) | ItConflict (x : tit) | ItErr (x : tit).

(** TxnIterator::GotoNextUserKeyInWriteIter, txn_engine_helper.cc:780-806 *)
Fixpoint goto_next (prev : bytes) (ws : list (bytes * Z * wrec)) (last : bytes)
  : list (bytes * Z * wrec) * bytes :=
  match ws with
  | [] => ([], last)
  | _ :: ws1 =>
      match ws1 with
      | [] => ([], last)
      | ((k, _), _) :: _ => if bltb prev k then (ws1, k) else goto_next prev ws1 k
      end
  end.

(** TxnIterator::GetUserValueInWriteIter, txn_engine_helper.cc:823-950: found, value, rest of the
    write iterator and last_write_key; None is the EINTERNAL return *)
Fixpoint user_value (ds : smap (bytes * Z) bytes) (i : iso) (start : Z) (key : bytes)
         (ws : list (bytes * Z * wrec)) (last : bytes) (found : bool) (value : bytes)
  : option (bool * bytes * list (bytes * Z * wrec) * bytes) :=
  match ws with
  | [] => Some (found, value, [], last)
  | ((k, t), w) :: rest =>
      if bltb key k then Some (found, value, ws, k)
      else if match i with SI => start <? t | RC => false end
      then user_value ds i start key rest k true []
      else
        match w_op w with
        | OpDelete => let '(ws', last') := goto_next k ws k in Some (true, [], ws', last')
        | OpRollback => user_value ds i start key rest k true []
        | OpPut =>
            if negb (beqb (w_short w) []) then
              let '(ws', last') := goto_next k ws k in Some (true, w_short w, ws', last')
            else
              match get vcmp ds (key, w_start w) with
              | Some v => let '(ws', last') := goto_next k ws k in Some (true, v, ws', last')
              | None => None
              end
        | _ => user_value ds i start key rest k found value
        end
  end.

(** TxnIterator::GetCurrentValue, txn_engine_helper.cc:955-1040.  value_ is empty on entry. *)
Definition current_value (ds : smap (bytes * Z) bytes) (i : iso) (start : Z) (resolved : list Z)
           (x : tit) : outcome itr :=
  let from_writes key :=
    match user_value ds i start key (it_writes x) (it_wkey x) false (it_value x) with
    | None => ItErr (mkIt (it_locks x) (it_writes x) (it_lkey x) (it_wkey x) [] [] (it_conf x))
    | Some (found, v, ws, last) =>
        ItOk (mkIt (it_locks x) ws (it_lkey x) last (if found : bool then key else []) v (it_conf x))
    end in
  if beqb (it_wkey x) [] && beqb (it_lkey x) [] then Crash
  else
    let lock_first :=
      if beqb (it_wkey x) [] then true
      else if negb (beqb (it_lkey x) [])
           then bleb (it_lkey x) (it_wkey x) || is_nil (it_writes x)
           else false in
    if lock_first then
      match it_locks x with
      | [] => Crash      (* Value() of an exhausted iterator *)
      | (_, l) :: _ =>
          if lock_conflict i start resolved l then
            Ok (ItConflict (mkIt (it_locks x) (it_writes x) (it_lkey x) (it_wkey x) [] [] (Some l)))
          else if beqb (it_lkey x) (it_wkey x) then Ok (from_writes (it_lkey x))
          else Ok (ItOk (mkIt (it_locks x) (it_writes x) (it_lkey x) (it_wkey x) (it_lkey x)
                              (it_value x) (it_conf x)))
      end
    else Ok (from_writes (it_wkey x)).

(** TxnIterator::InnerSeek, txn_engine_helper.cc:577-650 *)
Definition inner_seek (ds : smap (bytes * Z) bytes) (i : iso) (start : Z) (resolved : list Z)
           (key : bytes) (x : tit) : outcome itr :=
  let ls := filter (fun e => negb (bltb (fst e) key)) (it_locks x) in
  let ws := filter (fun e => match vcmp (fst e) (key, seek_ts i start) with Lt => false | _ => true end)
                   (it_writes x) in
  let lk := match ls with (k, _) :: _ => k | [] => [] end in
  let wk := match ws with ((k, _), _) :: _ => k | [] => [] end in
  let x' := mkIt ls ws lk wk [] [] (it_conf x) in
  if beqb lk [] && beqb wk [] then Ok (ItOk x') else current_value ds i start resolved x'.

(** the advance of the lock iterator in InnerNext, txn_engine_helper.cc:694-716 *)
Fixpoint next_lock (key : bytes) (ls : list (bytes * lock)) (last : bytes) : list (bytes * lock) * bytes :=
  match ls with
  | [] => ([], last)
  | _ :: ls1 =>
      match ls1 with
      | [] => ([], [])
      | (k, _) :: _ => if bltb key k then (ls1, k) else next_lock key ls1 k
      end
  end.

(** TxnIterator::InnerNext, txn_engine_helper.cc:678-778 *)
Definition inner_next (ds : smap (bytes * Z) bytes) (i : iso) (start : Z) (resolved : list Z)
           (x : tit) : outcome itr :=
  if beqb (it_key x) [] then Ok (ItFinish x)
  else match it_conf x with
  | Some _ => Ok (ItErr x)
  | None =>
      let '(ls, lk) := if negb (is_nil (it_locks x)) && bleb (it_lkey x) (it_key x)
                       then next_lock (it_key x) (it_locks x) (it_lkey x)
                       else (it_locks x, it_lkey x) in
      let x' := mkIt ls (it_writes x) lk (it_wkey x) (it_key x) [] None in
      if bleb (it_wkey x) (it_key x) && negb (is_nil (it_writes x)) then Crash
      else if beqb lk [] && beqb (it_wkey x) [] then
        if is_nil ls && is_nil (it_writes x)
        then Ok (ItOk (mkIt ls (it_writes x) lk (it_wkey x) [] [] None))
        else Ok (ItOk x')
      else if bleb lk (it_key x) && bleb (it_wkey x) (it_key x)
      then Ok (ItOk (mkIt ls (it_writes x) lk (it_wkey x) [] [] None))
      else current_value ds i start resolved x'
  end.

(** the loop shared by TxnIterator::Seek 554-575 and TxnIterator::Next 652-676: InnerNext until
    there is a value.  [fuel] bounds the number of turns; running out of it counts as a crash, and
    the totality theorem shows that the value given by [turns] always suffices. *)
Definition turns (x : tit) : nat := S (S (length (it_locks x) + length (it_writes x))).
Fixpoint next_loop (fuel : nat) (ds : smap (bytes * Z) bytes) (i : iso) (start : Z)
         (resolved : list Z) (x : tit) : outcome itr :=
  match fuel with
  | O => Crash
  | S f =>
      olet r := inner_next ds i start resolved x in
      match r with
      | ItFinish y => Ok (ItOk y)
      | ItOk y => if beqb (it_value y) [] then next_loop f ds i start resolved y else Ok (ItOk y)
      | e => Ok e
      end
  end.

Definition it_next ds i start resolved (x : tit) : outcome itr :=
  next_loop (turns x) ds i start resolved x.

(** TxnIterator::Init 446-544 (the iterators are bounded by the range) and Seek 546-575.  The
    range is [a, b) of user keys. *)
Definition it_init (s : store) (a b : bytes) : tit :=
  mkIt (filter (fun e => bleb a (fst e) && bltb (fst e) b) (locks s))
       (filter (fun e => bleb a (fst (fst e)) && bltb (fst (fst e)) b) (writes s)) [] [] [] [] None.

Definition it_seek (ds : smap (bytes * Z) bytes) (i : iso) (start : Z) (resolved : list Z)
           (key : bytes) (x : tit) : outcome itr :=
  olet r := inner_seek ds i start resolved key x in
  match r with
  | ItOk y => if beqb (it_value y) [] then it_next ds i start resolved y else Ok (ItOk y)
  | e => Ok e
  end.

(** TxnIterator::Valid, txn_engine_helper.cc:1045-1056 *)
Definition it_valid (x : tit) : bool :=
  match it_conf x with Some _ => false | None => negb (beqb (it_key x) []) end.

(* ------------------------------------------------------------------------------------ *)
(** * Scan with pages *)

(** Stream::Check, common/stream.cc:41-45.  [bytes_left] abstracts the byte limit: it says for
    every number of results whether the byte limit stops there. *)
Definition stop (limit : Z) (full : nat -> bool) (n : nat) : bool :=
  (limit <=? Z.of_nat n) || full n.

Record page := mkPage {
  pg_kvs : list (bytes * bytes);
  pg_conf : option lock;
  pg_more : bool;
  pg_err : bool }.

(** the loop of TxnEngineHelper::Scan without coprocessor, txn_engine_helper.cc:1590-1640, and the
    step after it, 1652-1676.  Returns the page and the iterator kept in the stream. *)
Fixpoint scan_loop (fuel : nat) (ds : smap (bytes * Z) bytes) (i : iso) (start : Z)
         (resolved : list Z) (key_only : bool) (limit : Z) (full : nat -> bool)
         (x : tit) (acc : list (bytes * bytes)) : outcome (page * tit) :=
  match fuel with
  | O => Crash
  | S f =>
      if it_valid x then
        let acc' := acc ++ [(it_key x, if key_only then [] else it_value x)] in
        let stopping := stop limit full (length acc') in
        olet r := it_next ds i start resolved x in
        match r with
        | ItOk y | ItFinish y =>
            if stopping then Ok (mkPage acc' (it_conf y) true false, y)
            else scan_loop f ds i start resolved key_only limit full y acc'
        | ItConflict y => Ok (mkPage acc' (it_conf y) true false, y)
        | ItErr y => Ok (mkPage acc' None stopping true, y)
        end
      else Ok (mkPage acc (it_conf x) false false, x)
  end.

(** the first page: TxnEngineHelper::Scan with a new stream, txn_engine_helper.cc:1510-1560 *)
Definition scan_first (s : store) (i : iso) (start : Z) (resolved : list Z) (key_only : bool)
           (limit : Z) (full : nat -> bool) (a b : bytes) : outcome (page * option tit) :=
  olet r := it_seek (datas s) i start resolved a (it_init s a b) in
  match r with
  | ItConflict y => Ok (mkPage [] (it_conf y) true false, None)
  | ItErr y => Ok (mkPage [] None false true, None)
  | ItOk y | ItFinish y =>
      olet p := scan_loop (turns y) (datas s) i start resolved key_only limit full y [] in
      Ok (fst p, Some (snd p))
  end.

(** a later page: the iterator is taken from the stream; it reads its snapshot, but values come
    from the data column family as it is now ([ds]), txn_engine_helper.cc:904-905 *)
Definition scan_next (ds : smap (bytes * Z) bytes) (i : iso) (start : Z) (resolved : list Z)
           (key_only : bool) (limit : Z) (full : nat -> bool) (x : tit) : outcome (page * tit) :=
  scan_loop (turns x) ds i start resolved key_only limit full x [].

(* ------------------------------------------------------------------------------------ *)
(** * Lock scan with pages *)

(** the loop of TxnEngineHelper::ScanLockInfo, txn_engine_helper.cc:1168-1216.  When a page is
    full the iterator stays on the last lock returned. *)
Fixpoint scan_lock_loop (lo hi : Z) (limit : Z) (full : nat -> bool) (ls : list (bytes * lock))
         (acc : list lock) : list lock * bool * list (bytes * lock) :=
  match ls with
  | [] => (acc, false, [])
  | (k, l) :: rest =>
      if lock_in_ts lo hi l then
        let acc' := acc ++ [l] in
        if stop limit full (length acc') then (acc', true, ls)
        else scan_lock_loop lo hi limit full rest acc'
      else scan_lock_loop lo hi limit full rest acc
  end.

(** the iterator of a new lock scan stream, txn_engine_helper.cc:1133-1142 *)
Definition scan_lock_init (s : store) (a b : bytes) : list (bytes * lock) :=
  filter (fun e => bleb a (fst e) && bltb (fst e) b) (locks s).

(** one page of a lock scan: results, has_more, iterator kept in the stream *)
Definition scan_lock_page lo hi limit full ls := scan_lock_loop lo hi limit full ls [].
