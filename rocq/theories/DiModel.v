(** The text index of a document region: writes, saving of the position, loading, building, catching up and
    switching.

    Sources: src/document/document_index.cc, src/document/document_index_manager.cc,
    src/handler/raft_apply_handler.cc, src/raft/store_state_machine.cc.

    Simplifications: calls of the text index library succeed, take effect at once and are kept across a stop
    (each ends with a commit); a deletion removes every row with the id; all ids lie in the region's range,
    and there is no split or merge; a handler, a round and a scan take effect at once, except that a stop may
    cut a round short; a document named twice in one addition is scanned twice; every log entry is applied (epochs agree); a log entry holds one
    command.  Log ids are 1, 2, ...; entry k of the log is the k-th of the list. *)
Require Import ZArith List Bool Arith.
Import ListNotations.
Open Scope nat_scope.

(** A document: id and content (pb::common::DocumentWithId). *)
Definition doc := (Z * Z)%type.

(** DOCUMENT_ADD with is_update, DOCUMENT_DELETE, other commands: raft_apply_handler.cc:1905-2094. *)
Inductive cmd := CAdd (upd : bool) (ds : list doc) | CDel (l : list Z) | COther.

Definition mem (x : Z) (l : list Z) : bool := existsb (Z.eqb x) l.

(** DocumentIndex::Add, document_index.cc:232-347. *)
Definition ix_add (r ds : list doc) : list doc := r ++ ds.
(** DocumentIndex::Delete, document_index.cc:349-391. *)
Definition ix_del (r : list doc) (l : list Z) : list doc := filter (fun d => negb (mem (fst d) l)) r.
(** DocumentIndex::Upsert, document_index.cc:211-230. *)
Definition ix_upsert (r ds : list doc) : list doc := ix_add (ix_del r (map fst ds)) ds.

(** The handlers' call of the index: raft_apply_handler.cc:1967-1968, 2072. *)
Definition ix_apply (r : list doc) (c : cmd) : list doc :=
  match c with
  | CAdd true ds => ix_upsert r ds
  | CAdd false ds => ix_add r ds
  | CDel l => ix_del r l
  | COther => r
  end.

(** Whether the handler calls the index at all: raft_apply_handler.cc:1949-2003, 2066-2090 (no ids:
    2026-2031). *)
Definition calls (c : cmd) : bool :=
  match c with CAdd _ _ => true | CDel [] => false | CDel _ => true | COther => false end.

(** One entry in ReplayWalToDocumentIndex, document_index_manager.cc:551-617: [b] is
    kBuildDocumentIndexBatchSize; [ds] and [l] are the documents and ids gathered. *)
Definition replay_one (b : nat) (s : list doc * list doc * list Z) (c : cmd) : list doc * list doc * list Z :=
  let '(r, ds, l) := s in
  match c with
  | CAdd _ new =>
      let '(r1, l1) := match l with [] => (r, l) | _ => (ix_del r l, []) end in
      let ds1 := ds ++ new in
      if b <=? length ds1 then (ix_add r1 ds1, [], l1) else (r1, ds1, l1)
  | CDel new =>
      let '(r1, ds1) := match ds with [] => (r, ds) | _ => (ix_add r ds, []) end in
      let l1 := l ++ new in
      if b <=? length l1 then (ix_del r1 l1, ds1, []) else (r1, ds1, l1)
  | COther => s
  end.

(** The rest after the last entry: document_index_manager.cc:705-709. *)
Definition replay_rest (s : list doc * list doc * list Z) : list doc :=
  let '(r, ds, l) := s in
  match ds with [] => match l with [] => r | _ => ix_del r l end | _ => ix_add r ds end.

Definition replay_list (b : nat) (r : list doc) (cs : list cmd) : list doc :=
  replay_rest (fold_left (replay_one b) cs (r, [], [])).

(** GetDataEntries(start, end), both ends included: rocks_log_storage.cc:1123-1135. *)
Definition entries (log : list cmd) (a e : nat) : list cmd := firstn (S e - a) (skipn (a - 1) log).

(** An index object and its directory: its rows; apply_log_id_; the apply_log_id in its meta file; whether
    its first filling is over (a loaded index, or the scan of BuildDocumentIndex is through). *)
Record obj := mkObj { rows : list doc; oapply : nat; smeta : option nat; oscan : bool }.

(** DocumentIndex::SaveMeta, document_index.cc:133-156. *)
Definition save_meta (o : obj) (k : nat) : obj := mkObj (rows o) k (Some k) (oscan o).

(** ReplayWalToDocumentIndex, document_index_manager.cc:507-722. *)
Definition replay (b : nat) (log : list cmd) (o : obj) (a e : nat) : obj :=
  if e <=? a then o
  else mkObj (replay_list b (rows o) (entries log a e)) (Nat.max (oapply o) e) (smeta o) (oscan o).

(** A replay cut short: the rows of a first part of the entries are in, the position is not saved. *)
Definition torn (b : nat) (log : list cmd) (o : obj) (e : nat) : obj :=
  mkObj (replay_list b (rows o) (entries log (S (oapply o)) e)) (oapply o) (smeta o) (oscan o).

(** [kv] entries have been written to the store, [applied] is raft_meta's AppliedId, [busy] says that the
    handler of the next entry is through but AppliedId is not stored yet (store_state_machine.cc:186-226).
    [own], [ready], [wapply], [lsave]: DocumentIndexWrapper's document_index_, ready_, apply_log_id_,
    last_save_apply_log_id_.  [bld] is the index being loaded or built; [disk] what a stop left. *)
Record world := mkW {
  kv : nat; applied : nat; busy : bool;
  own : option obj; ready : bool; wapply : nat; lsave : nat;
  bld : option obj; disk : option obj }.

(** document_index_save_log_gap, kBuildDocumentIndexBatchSize, document_catchup_log_min_gap. *)
Record conf := mkConf { gap : nat; bsize : nat; cgap : nat }.

(** DocumentIndexWrapper::SetApplyLogId, document_index.cc:703-718. *)
Definition set_apply (c : conf) (w : world) (o : obj) (k : nat) : world :=
  if gap c <? k - lsave w
  then mkW (kv w) (applied w) (busy w) (Some (save_meta o k)) (ready w) k k (bld w) (disk w)
  else mkW (kv w) (applied w) (busy w) (Some o) (ready w) k (lsave w) (bld w) (disk w).

(** DocumentAddHandler::Handle and DocumentDeleteHandler::Handle, raft_apply_handler.cc:1905-2007,
    2009-2094: first the store, then the index. *)
Definition handle (c : conf) (log : list cmd) (w : world) : world :=
  if busy w then w
  else
    match nth_error log (applied w) with
    | None => w
    | Some x =>
        let k := S (applied w) in
        let w1 := mkW (Nat.max (kv w) k) (applied w) true (own w) (ready w) (wapply w) (lsave w) (bld w)
                    (disk w) in
        match own w with
        | Some o =>
            if ready w && (wapply w <? k) && calls x
            then set_apply c w1 (mkObj (ix_apply (rows o) x) (oapply o) (smeta o) (oscan o)) k
            else w1
        | None => w1
        end
    end.

(** AppliedId is stored: store_state_machine.cc:224-226. *)
Definition finish (w : world) : world :=
  if busy w
  then mkW (kv w) (S (applied w)) false (own w) (ready w) (wapply w) (lsave w) (bld w) (disk w)
  else w.

(** The rows BuildDocumentIndex reads: every version in the data family, document_index_manager.cc:795-836
    (deletions hold no document and are passed over). *)
Definition scan (log : list cmd) (n : nat) : list doc :=
  flat_map (fun c => match c with CAdd _ ds => ds | _ => [] end) (firstn n log).

Definition set_bld (w : world) (o : option obj) : world :=
  mkW (kv w) (applied w) (busy w) (own w) (ready w) (wapply w) (lsave w) o (disk w).

Inductive event :=
| EHandle | EFinish          (* one entry *)
| ELoad                      (* DocumentIndex::LoadIndex *)
| EBuild | EScan             (* BuildDocumentIndex up to AppliedId; its scan *)
| ERound | ESwitch           (* CatchUpLogToDocumentIndex *)
| EStop (k n : nat).         (* stop, at most n entries into a round, and restart; AppliedId falls back to k
                                at most *)

(** DocumentIndex::LoadIndex, document_index.cc:163-209; BuildDocumentIndex,
    document_index_manager.cc:724-868 (CreateIndex removes what is there, document_index_factory.cc:74-86);
    CatchUpLogToDocumentIndex, document_index_manager.cc:1012-1036 (a round) and 1040-1076 (the switch);
    UpdateDocumentIndex, document_index.cc:726-777. *)
Definition act (c : conf) (log : list cmd) (w : world) (e : event) : world :=
  match e with
  | EHandle => handle c log w
  | EFinish => finish w
  | ELoad =>
      match bld w, own w, disk w with
      | None, None, Some o =>
          match smeta o with
          | Some m => set_bld w (Some (mkObj (rows o) m (Some m) true))
          | None => w
          end
      | _, _, _ => w
      end
  | EBuild => match bld w with None => set_bld w (Some (mkObj [] (applied w) None false)) | Some _ => w end
  | EScan =>
      match bld w with
      | Some o => if oscan o then w else set_bld w (Some (mkObj (scan log (kv w)) (oapply o) None true))
      | None => w
      end
  | ERound =>
      match bld w with
      | Some o =>
          let a := S (oapply o) in
          if oscan o && (cgap c + a <=? applied w)
          then set_bld w (Some (save_meta (replay (bsize c) log o a (applied w)) (applied w)))
          else w
      | None => w
      end
  | ESwitch =>
      match bld w with
      | Some o =>
          if oscan o then
            let a := S (oapply o) in
            let o1 := replay (bsize c) log o a (applied w) in
            let o2 := if a <? applied w then save_meta o1 (applied w) else o1 in
            mkW (kv w) (applied w) (busy w) (Some o2) true (oapply o2) (lsave w) None (disk w)
          else w
      | None => w
      end
  | EStop k n =>
      mkW (kv w) (Nat.min k (applied w)) false None false 0 0 None
        (match bld w with
         | Some o => Some (if oscan o then torn (bsize c) log o (Nat.min (oapply o + n) (applied w)) else o)
         | None => match own w with Some o => Some o | None => disk w end
         end)
  end.

Definition start : world := mkW 0 0 false None false 0 0 None None.

Definition run (c : conf) (log : list cmd) (w : world) (es : list event) : world :=
  fold_left (act c log) es w.

(** * Answers of two indexes

    A hit is the id of a document and its score; scores are integers here (no NaN). *)
Definition hit := (Z * Z)%type.

(** The two cursors of MergeSearchResult, document_index.cc:1119-1157; [n] is how many results are still to
    come. *)
Fixpoint cursors (n : nat) (a b : list hit) : list hit :=
  match n with
  | 0 => []
  | S n =>
      match a, b with
      | x :: a', y :: b' => if Z.ltb (snd y) (snd x) then x :: cursors n a' b else y :: cursors n a b'
      | x :: a', [] => x :: cursors n a' []
      | [], y :: b' => y :: cursors n [] b'
      | [], [] => []
      end
  end.

(** std::sort by id (which of two hits of one document comes first is not determined; here the one that came
    first). *)
Fixpoint put (x : hit) (l : list hit) : list hit :=
  match l with
  | [] => [x]
  | y :: l' => if Z.leb (fst x) (fst y) then x :: l else y :: put x l'
  end.

Definition sort_ids (l : list hit) : list hit := fold_right put [] l.

(** std::unique by id, document_index.cc:1110-1114. *)
Fixpoint uniq (l : list hit) : list hit :=
  match l with
  | [] => []
  | x :: l' => match uniq l' with
               | [] => [x]
               | y :: r => if Z.eqb (fst x) (fst y) then x :: r else x :: y :: r
               end
  end.

(** MergeSearchResult, document_index.cc:1099-1157. *)
Definition merge_hits (topk : nat) (a b : list hit) : list hit :=
  match topk with 0 => uniq (sort_ids (a ++ b)) | _ => cursors topk a b end.

(** What one index answers, document_index.cc:393-445: the library's hits, best first, at most [topk] of them
    unless the query is unlimited. *)
Definition search1 (topk : nat) (unlimited : bool) (hits : list hit) : option (list hit) :=
  if negb unlimited && (topk =? 0) then None
  else Some (if unlimited then hits else firstn topk hits).

(** DocumentIndexWrapper::Search with a sibling index, document_index.cc:1187-1207. *)
Definition search2 (topk : nat) (unlimited : bool) (h1 h2 : list hit) : option (list hit) :=
  match search1 topk unlimited h1, search1 topk unlimited h2 with
  | Some a, Some b => Some (merge_hits topk a b)
  | _, _ => None
  end.
