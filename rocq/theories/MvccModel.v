(** Model of the multi-version reader.
    Sources: src/mvcc/iterator.cc, src/mvcc/iterator.h, src/mvcc/reader.cc.
    A column family is a list of (stored key, stored value) sorted by stored key; the raw
    engine iterator is the list of entries it will still visit (the head is the current
    entry). Simplifications: the three readers KvReader (reader.cc:35-211), VectorReader
    (213-392) and DocumentReader (394-573) have identical bodies and share one model;
    the iterator reads one engine snapshot; Helper::TimestampMs() is the argument [now]. *)
From Coq Require Import ZArith List Bool.
From Verif Require Import Bytes Outcome CodecModel.
Import ListNotations.
Open Scope Z_scope.

Definition entry : Type := bytes * bytes.
Definition store : Type := list entry.

(** RawIterator::Seek with an upper bound (exclusive, as in rocksdb::ReadOptions) *)
Definition raw_seek (upper target : bytes) (st : store) : list entry :=
  filter (fun e => bleb target (fst e) && bltb (fst e) upper) st.

(** RawIterator::SeekForPrev with a lower bound (inclusive); the list is in visiting order *)
Definition raw_seek_for_prev (lower target : bytes) (st : store) : list entry :=
  rev (filter (fun e => bleb lower (fst e) && bleb (fst e) target) st).

(** iterator.h:29 and reader.cc:46 etc. *)
Definition read_ts (ts : Z) : Z := if 0 <? ts then ts else two63 - 1.

(** is the current version hidden? iterator.cc:106-116 and 145-158 *)
Definition hidden (now : Z) (value : bytes) : outcome bool :=
  olet flag := get_value_flag value in
  match flag with
  | kDelete => Ok true
  | kPutTTL => olet ttl := get_value_ttl value in Ok (ttl <? now)
  | kPut => Ok false
  end.

(** Iterator::NextVisibleKey, iterator.cc:91-120; [prev] is prev_encode_key_.
    Returns the new prev_encode_key_ and the position. *)
Fixpoint next_visible (ts now : Z) (prev : bytes) (l : list entry) : outcome (bytes * list entry) :=
  match l with
  | [] => Ok (prev, [])
  | e :: r =>
      olet encode_key := truncate_ts (fst e) in
      if beqb encode_key prev then next_visible ts now prev r
      else
        olet t := truncate_key (fst e) in
        if ts <? t then next_visible ts now prev r
        else
          olet h := hidden now (snd e) in
          if h : bool then next_visible ts now encode_key r
          else Ok (encode_key, e :: r)
  end.

(** Iterator::PrevVisibleKey, iterator.cc:126-166; [cur] is (prev_key, prev_value), [None]
    when prev_key is empty (stored keys are never empty: TruncateTsForKey checks 17 bytes).
    Returns (key_, value_) and the position. *)
Fixpoint prev_visible (ts now : Z) (cur : option entry) (l : list entry)
  : outcome (option entry * list entry) :=
  match l with
  | [] => Ok (cur, [])
  | e :: r =>
      olet encode_key := truncate_ts (fst e) in
      olet stop := match cur with
                   | None => Ok false
                   | Some c => olet pk := truncate_ts (fst c) in Ok (negb (beqb encode_key pk))
                   end in
      if stop : bool then Ok (cur, l)
      else
        olet t := truncate_key (fst e) in
        if ts <? t then prev_visible ts now cur r
        else
          olet h := hidden now (snd e) in
          if h : bool then prev_visible ts now None r
          else prev_visible ts now (Some e) r
  end.

(** Result of a read API call *)
Inductive read_result (A : Type) :=
| RKeyEmpty            (* EKEY_EMPTY *)
| RNotFound            (* EKEY_NOT_FOUND *)
| ROk (a : A).
Arguments RKeyEmpty {A}.
Arguments RNotFound {A}.
Arguments ROk {A} a.

Definition is_empty (k : bytes) : bool := match k with [] => true | _ => false end.

(** KvReader::KvGet, reader.cc:35-56 *)
Definition kv_get (st : store) (ts now : Z) (plain_key : bytes) : outcome (read_result bytes) :=
  if is_empty plain_key then Ok RKeyEmpty
  else
    let encode_key := encode_bytes plain_key in
    olet (_, l) := next_visible (read_ts ts) now [] (raw_seek (prefix_next encode_key) encode_key st) in
    match l with
    | [] => Ok RNotFound
    | e :: _ => omap ROk (unpackage_value (snd e))
    end.

(** Codec::DecodeKey with the result ignored, reader.cc:79-81 *)
Definition decode_key_or_empty (k : bytes) : outcome (bytes * Z) :=
  omap (fun d => match d with Some p => p | None => ([], 0) end) (decode_key k).

(** one element of the scan result: (key, ts, value), reader.cc:77-85 *)
Definition kv_of_entry (e : entry) : outcome (bytes * Z * bytes) :=
  olet d := decode_key_or_empty (fst e) in
  olet v := unpackage_value (snd e) in
  Ok (fst d, snd d, v).

(** the loop "for (Seek; Valid; Next)" of reader.cc:76-88 over an initial position, collecting
    entries; each iteration consumes at least one entry, so [fuel] > length never runs out *)
Fixpoint forward_loop (fuel : nat) (ts now : Z) (prev : bytes) (l : list entry) : outcome (list entry) :=
  match fuel with
  | O => Crash
  | S fuel' =>
      olet (prev', l') := next_visible ts now prev l in
      match l' with
      | [] => Ok []
      | e :: _ => omap (cons e) (forward_loop fuel' ts now prev' l')
      end
  end.

(** "for (SeekForPrev; Valid; Prev)" over the MVCC iterator *)
Fixpoint reverse_loop (fuel : nat) (ts now : Z) (l : list entry) : outcome (list entry) :=
  match fuel with
  | O => Crash
  | S fuel' =>
      olet (cur, l') := prev_visible ts now None l in
      match cur with
      | None => Ok []
      | Some e => omap (cons e) (reverse_loop fuel' ts now l')
      end
  end.

Fixpoint omap_list {A B} (f : A -> outcome B) (l : list A) : outcome (list B) :=
  match l with
  | [] => Ok []
  | a :: r => olet b := f a in omap (cons b) (omap_list f r)
  end.

Definition forward_entries (st : store) (ts now : Z) (start_key end_key : bytes) : outcome (list entry) :=
  let l := raw_seek (encode_bytes end_key) (encode_bytes start_key) st in
  forward_loop (S (length l)) (read_ts ts) now [] l.

(** KvReader::KvScan, reader.cc:58-91 *)
Definition kv_scan (st : store) (ts now : Z) (start_key end_key : bytes)
  : outcome (read_result (list (bytes * Z * bytes))) :=
  if is_empty start_key then Ok RKeyEmpty
  else if is_empty end_key then Ok RKeyEmpty
  else olet es := forward_entries st ts now start_key end_key in
       omap ROk (omap_list kv_of_entry es).

(** KvReader::KvScan with a callback, reader.cc:93-125; the callback has a state [S] and
    returns the new state and whether to go on *)
Fixpoint callback_loop {S : Type} (func : S -> bytes -> bytes -> S * bool) (s : S)
  (fuel : nat) (ts now : Z) (prev : bytes) (l : list entry) : outcome S :=
  match fuel with
  | O => Crash
  | Datatypes.S fuel' =>
      olet (prev', l') := next_visible ts now prev l in
      match l' with
      | [] => Ok s
      | e :: _ =>
          olet kv := kv_of_entry e in
          let '(s', go) := func s (fst (fst kv)) (snd kv) in
          if go : bool then callback_loop func s' fuel' ts now prev' l' else Ok s'
      end
  end.

Definition kv_scan_func {S} (func : S -> bytes -> bytes -> S * bool) (s : S)
  (st : store) (ts now : Z) (start_key end_key : bytes) : outcome (read_result S) :=
  if is_empty start_key then Ok RKeyEmpty
  else if is_empty end_key then Ok RKeyEmpty
  else let l := raw_seek (encode_bytes end_key) (encode_bytes start_key) st in
       omap ROk (callback_loop func s (Datatypes.S (length l)) (read_ts ts) now [] l).

(** KvReader::KvCount, reader.cc:127-151 *)
Definition kv_count (st : store) (ts now : Z) (start_key end_key : bytes) : outcome (read_result Z) :=
  if is_empty start_key then Ok RKeyEmpty
  else if is_empty end_key then Ok RKeyEmpty
  else omap (fun es => ROk (Z.of_nat (length es))) (forward_entries st ts now start_key end_key).

(** KvReader::KvMinKey, reader.cc:153-179; [plain_key] is left as it was when nothing is found *)
Definition kv_min_key (st : store) (ts now : Z) (start_key end_key plain_key : bytes)
  : outcome (read_result bytes) :=
  if is_empty start_key then Ok RKeyEmpty
  else if is_empty end_key then Ok RKeyEmpty
  else
    olet (_, l) := next_visible (read_ts ts) now []
                     (raw_seek (encode_bytes end_key) (encode_bytes start_key) st) in
    match l with
    | [] => Ok (ROk plain_key)
    | e :: _ => omap (fun d => ROk (fst d)) (decode_key_or_empty (fst e))
    end.

(** KvReader::KvMaxKey, reader.cc:181-207 *)
Definition kv_max_key (st : store) (ts now : Z) (start_key end_key plain_key : bytes)
  : outcome (read_result bytes) :=
  if is_empty start_key then Ok RKeyEmpty
  else if is_empty end_key then Ok RKeyEmpty
  else
    olet (cur, _) := prev_visible (read_ts ts) now None
                       (raw_seek_for_prev (encode_bytes start_key) (encode_bytes end_key) st) in
    match cur with
    | None => Ok (ROk plain_key)
    | Some e => omap (fun d => ROk (fst d)) (decode_key_or_empty (fst e))
    end.

(** Reverse iteration through NewIterator (reader.cc:209-211), SeekForPrev and Prev:
    all entries visited from [end_key] (exclusive: no stored key equals EncodeBytes(end))
    down to the lower bound [start_key] *)
Definition reverse_entries (st : store) (ts now : Z) (start_key end_key : bytes) : outcome (list entry) :=
  let l := raw_seek_for_prev (encode_bytes start_key) (encode_bytes end_key) st in
  reverse_loop (S (length l)) (read_ts ts) now l.
