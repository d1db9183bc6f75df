(** Model of scan sessions: KvScanBegin / KvScanContinue / KvScanRelease, versions
    1 and 2, over the multi-version iterator.
    Sources: src/scan/scan.cc, src/scan/scan_filter.cc, src/scan/scan_manager.cc,
    src/engine/storage.cc:293-456, src/server/store_service.cc:1142-1330,
    1403-1640.
    Every request runs in separate steps, one per lock it takes; the cleaning
    timer, writes to the store and the clock run between them.
    Simplifications: the coprocessor is not used (disable_coprocessor); the
    checks of the service before Storage is called are limited to the ones that
    concern the scan itself. *)
From Coq Require Import ZArith List Bool.
From Verif Require Import Bytes Outcome CodecModel MvccModel.
Import ListNotations.
Open Scope Z_scope.

(** ** One page *)

(** The position of an mvcc iterator: prev_encode_key_ and the entries still to
    be visited; the head is the current, visible one (iterator.cc:46-75). *)
Definition iter : Type := bytes * list entry.

(** A key-value pair of the answer; the value is left out with key_only
    (scan.cc:146-153). *)
Definition pair_of (key_only : bool) (e : entry) : outcome (bytes * bytes) :=
  olet d := decode_key_or_empty (fst e) in
  if key_only then Ok (fst d, [])
  else olet v := unpackage_value (snd e) in Ok (fst d, v).

(** ScanFilter::UptoLimit (scan_filter.cc:36-53): true when the page is full.
    [cnt] and [sz] are the counters before this pair. *)
Definition upto_limit (max_cnt max_bytes : Z) (key_only : bool) (cnt sz : Z)
  (kv : bytes * bytes) : bool * Z * Z :=
  let cnt' := cnt + 1 in
  if max_cnt <=? cnt' then (true, cnt', sz)
  else
    let sz' := sz + Z.of_nat (length (fst kv)) +
               (if key_only then 0 else Z.of_nat (length (snd kv))) in
    (max_bytes <=? sz', cnt', sz').

(** The loop of ScanContext::GetKeyValue (scan.cc:142-166).  Every round
    consumes an entry, so [fuel] > length never runs out. *)
Fixpoint fetch (fuel : nat) (max_cnt max_bytes : Z) (key_only : bool) (ts now : Z)
  (cnt sz : Z) (it : iter) : outcome (list (bytes * bytes) * bool * iter) :=
  match fuel with
  | O => Crash
  | S fuel' =>
      match snd it with
      | [] => Ok ([], false, it)
      | e :: _ =>
          olet kv := pair_of key_only e in
          let '(full, cnt', sz') := upto_limit max_cnt max_bytes key_only cnt sz kv in
          olet it' := next_visible ts now (fst it) (snd it) in
          if full then Ok ([kv], true, it')
          else
            olet (page, more, it'') := fetch fuel' max_cnt max_bytes key_only ts now cnt' sz' it' in
            Ok (kv :: page, more, it'')
      end
  end.

(** std::min(max_fetch_cnt_, max_fetch_cnt_by_server_) converted to size_t
    (scan.cc:140, scan_filter.h:26). *)
Definition count_limit (max server : Z) : Z := Z.min max server mod 2 ^ 64.

(** ** Sessions *)

(** ScanState (scan.h), without the states a session only has while its lock is
    held and the three timeout states, which no code sets; SRecycle is
    kAllowImmediateRecycling. *)
Inductive sstate := SUninit | SOpened | SBegun | SContinued | SReleased | SError | SRecycle.

Record cfg := { c_timeout : Z; c_bytes : Z; c_count : Z }.

(** ScanContext (scan.h:62-160) *)
Record ctx := {
  x_state : sstate;
  x_id : option Z;          (* scan_id_, empty until Open *)
  x_it : option iter;
  x_ts : Z; x_now : Z;
  x_key_only : bool;
  x_no_auto : bool;
  x_last : Z
}.

Definition new_ctx (now : Z) : ctx :=
  {| x_state := SUninit; x_id := None; x_it := None; x_ts := 0; x_now := 0;
     x_key_only := false; x_no_auto := false; x_last := now |}.

Definition set_state (st : sstate) (c : ctx) : ctx :=
  {| x_state := st; x_id := x_id c; x_it := x_it c; x_ts := x_ts c; x_now := x_now c;
     x_key_only := x_key_only c; x_no_auto := x_no_auto c; x_last := x_last c |}.

Definition set_open (id : Z) (c : ctx) : ctx :=
  {| x_state := SOpened; x_id := Some id; x_it := x_it c; x_ts := x_ts c; x_now := x_now c;
     x_key_only := x_key_only c; x_no_auto := x_no_auto c; x_last := x_last c |}.

Definition set_begun (it : iter) (ts now : Z) (ko na : bool) (c : ctx) : ctx :=
  {| x_state := SBegun; x_id := x_id c; x_it := Some it; x_ts := ts; x_now := now;
     x_key_only := ko; x_no_auto := na; x_last := now |}.

Definition set_continued (it : iter) (t : Z) (c : ctx) : ctx :=
  {| x_state := SContinued; x_id := x_id c; x_it := Some it; x_ts := x_ts c; x_now := x_now c;
     x_key_only := x_key_only c; x_no_auto := x_no_auto c; x_last := t |}.

Definition set_released (t : Z) (c : ctx) : ctx :=
  {| x_state := if x_no_auto c then SReleased else SRecycle; x_id := x_id c; x_it := x_it c;
     x_ts := x_ts c; x_now := x_now c; x_key_only := x_key_only c; x_no_auto := x_no_auto c;
     x_last := if x_no_auto c then t else x_last c |}.

(** ** Requests *)

Record begin_req := {
  b_id : Z;                 (* version 1: a new GUID; version 2: given by the client *)
  b_start : bytes; b_end : bytes;
  b_ts : Z; b_max : Z; b_key_only : bool; b_no_auto : bool
}.

Inductive request :=
| RBegin (b : begin_req)
| RContinue (id : Z) (max : Z)
| RRelease (id : Z).

(** Where a request is (storage.cc:293-456). *)
Inductive pc :=
| PCreate (b : begin_req)              (* before CreateScan *)
| POpen (p : nat) (b : begin_req)      (* before ScanContext::Open *)
| PBegin (p : nat) (b : begin_req)     (* before ScanHandler::ScanBegin *)
| PFindC (id : Z) (max : Z)
| PCont (p : nat) (id : Z) (max : Z)   (* before ScanHandler::ScanContinue *)
| PFindR (id : Z)
| PRel (p : nat) (id : Z)              (* before ScanHandler::ScanRelease *)
| PTry (id : Z)                        (* before TryDeleteScan *)
| PDel (id : Z)                        (* failed, before DeleteScan *)
| PDone.

(** What is answered, in the order of the answers' steps, with the time. *)
Inductive event :=
| EBegin (p : nat) (b : begin_req) (st : store) (page : list (bytes * bytes))
| EPage (p : nat) (id : Z) (max : Z) (page : list (bytes * bytes)) (more : bool)
| EReleased (p : nat) (id : Z)
| EFailed (id : Z).

Record state := {
  s_now : Z;
  s_store : store;
  s_heap : list ctx;
  s_alive : list (Z * nat);
  s_reqs : list pc;
  s_log : list (Z * event);
  s_dead : bool
}.

Definition init (now : Z) (st : store) : state :=
  {| s_now := now; s_store := st; s_heap := []; s_alive := []; s_reqs := []; s_log := []; s_dead := false |}.

Definition with_now (t : Z) (s : state) : state :=
  {| s_now := t; s_store := s_store s; s_heap := s_heap s; s_alive := s_alive s;
     s_reqs := s_reqs s; s_log := s_log s; s_dead := s_dead s |}.
Definition with_store (st : store) (s : state) : state :=
  {| s_now := s_now s; s_store := st; s_heap := s_heap s; s_alive := s_alive s;
     s_reqs := s_reqs s; s_log := s_log s; s_dead := s_dead s |}.
Definition with_heap (h : list ctx) (s : state) : state :=
  {| s_now := s_now s; s_store := s_store s; s_heap := h; s_alive := s_alive s;
     s_reqs := s_reqs s; s_log := s_log s; s_dead := s_dead s |}.
Definition with_alive (a : list (Z * nat)) (s : state) : state :=
  {| s_now := s_now s; s_store := s_store s; s_heap := s_heap s; s_alive := a;
     s_reqs := s_reqs s; s_log := s_log s; s_dead := s_dead s |}.
Definition with_reqs (l : list pc) (s : state) : state :=
  {| s_now := s_now s; s_store := s_store s; s_heap := s_heap s; s_alive := s_alive s;
     s_reqs := l; s_log := s_log s; s_dead := s_dead s |}.
Definition emit (e : event) (s : state) : state :=
  {| s_now := s_now s; s_store := s_store s; s_heap := s_heap s; s_alive := s_alive s;
     s_reqs := s_reqs s; s_log := s_log s ++ [(s_now s, e)]; s_dead := s_dead s |}.
(** the process stops *)
Definition kill (s : state) : state :=
  {| s_now := s_now s; s_store := s_store s; s_heap := s_heap s; s_alive := s_alive s;
     s_reqs := s_reqs s; s_log := s_log s; s_dead := true |}.

Fixpoint upd {A : Type} (l : list A) (n : nat) (f : A -> A) : list A :=
  match l, n with
  | [], _ => []
  | x :: r, O => f x :: r
  | x :: r, S m => x :: upd r m f
  end.

(** std::map::find on alive_scans_ *)
Definition find_scan (id : Z) (a : list (Z * nat)) : option nat :=
  match find (fun x => fst x =? id) a with Some x => Some (snd x) | None => None end.

(** DeleteScan (scan_manager.cc:138-147, 235-244) *)
Definition delete_scan (id : Z) (a : list (Z * nat)) : list (Z * nat) :=
  filter (fun x => negb (fst x =? id)) a.

Definition set_pc (tid : nat) (p : pc) (s : state) : state := with_reqs (upd (s_reqs s) tid (fun _ => p)) s.
Definition on_ctx (p : nat) (f : ctx -> ctx) (s : state) : state := with_heap (upd (s_heap s) p f) s.

(** A request fails and is answered with an error; DeleteScan follows. *)
Definition fail (tid : nat) (id : Z) (s : state) : state := emit (EFailed id) (set_pc tid (PDel id) s).

(** The arguments ScanHandler::ScanBegin refuses (scan.cc:369-379). *)
Definition bad_range (b : begin_req) : bool :=
  is_empty (b_start b) || is_empty (b_end b) || bleb (b_end b) (b_start b).

(** NewIterator, Seek and the first page (scan.cc:425-437, iterator.cc:46-53);
    nothing is fetched when max_fetch_cnt is not positive. *)
Definition first_page (g : cfg) (b : begin_req) (st : store) (now : Z)
  : outcome (list (bytes * bytes) * bool * iter) :=
  olet it := next_visible (read_ts (b_ts b)) now []
               (raw_seek (encode_bytes (b_end b)) (encode_bytes (b_start b)) st) in
  if 0 <? b_max b
  then fetch (S (length (snd it))) (count_limit (b_max b) (c_count g)) (c_bytes g)
         (b_key_only b) (read_ts (b_ts b)) now 0 0 it
  else Ok ([], false, it).

(** ScanHandler::ScanBegin under the lock of the session (scan.cc:381-460). *)
Definition do_begin (g : cfg) (tid p : nat) (b : begin_req) (c : ctx) (s : state) : state :=
  if bad_range b then fail tid (b_id b) s
  else
    match x_state c with
    | SOpened =>
        match first_page g b (s_store s) (s_now s) with
        | Crash => kill s
        | Ok (page, _, it) =>
            emit (EBegin p b (s_store s) page)
              (set_pc tid PDone
                 (on_ctx p (set_begun it (read_ts (b_ts b)) (s_now s) (b_key_only b) (b_no_auto b)) s))
        end
    | _ => fail tid (b_id b) (on_ctx p (set_state SError) s)
    end.

(** scan_id == context->scan_id_ (scan.cc:467, 519).  The code reads scan_id_ without
    the lock; here the comparison is one step with what follows, which makes no
    difference since scan_id_ changes only once, from empty. *)
Definition is_scan_id (c : ctx) (id : Z) : bool :=
  match x_id c with Some i => i =? id | None => false end.

(** ScanHandler::ScanContinue (scan.cc:463-515). *)
Definition do_continue (g : cfg) (tid p : nat) (id max : Z) (c : ctx) (s : state) : state :=
  if negb (is_scan_id c id) then fail tid id s
  else if max =? 0 then fail tid id s
  else
    match x_state c, x_it c with
    | SBegun, Some it | SContinued, Some it =>
        match fetch (S (length (snd it))) (count_limit max (c_count g)) (c_bytes g)
                (x_key_only c) (x_ts c) (x_now c) 0 0 it with
        | Crash => kill s
        | Ok (page, more, it') =>
            emit (EPage p id max page more) (set_pc tid PDone (on_ctx p (set_continued it' (s_now s)) s))
        end
    | _, _ => fail tid id (on_ctx p (set_state SError) s)
    end.

(** ScanHandler::ScanRelease (scan.cc:517-558). *)
Definition do_release (tid p : nat) (id : Z) (c : ctx) (s : state) : state :=
  if negb (is_scan_id c id) then fail tid id s
  else
    match x_state c with
    | SBegun | SContinued =>
        emit (EReleased p id) (set_pc tid (PTry id) (on_ctx p (set_released (s_now s)) s))
    | _ => fail tid id (on_ctx p (set_state SError) s)
    end.

(** ScanContext::IsRecyclable (scan.cc:226-257), when the lock is free. *)
Definition recyclable (g : cfg) (now : Z) (c : ctx) : bool :=
  match x_state c with
  | SRecycle | SError => true
  | _ => c_timeout g <=? now - x_last c
  end.
Definition recycle (g : cfg) (now : Z) (c : ctx) : ctx :=
  match x_state c with
  | SRecycle | SError => c
  | _ => if c_timeout g <=? now - x_last c then set_state SRecycle c else c
  end.

Inductive action :=
| Arrive (r : request)
| Go (tid : nat) (busy : bool)         (* [busy]: the trylock of TryDeleteScan fails *)
| Clean (busy : list nat)              (* the sessions whose trylock fails *)
| Clock (t : Z)
| Write (st : store).

Definition start (r : request) : pc :=
  match r with
  | RBegin b => PCreate b
  | RContinue id max => PFindC id max
  | RRelease id => PFindR id
  end.

(** RegularCleaningHandler (scan_manager.cc:161-186, 258-283): under the
    manager's lock, every session that can be recycled is dropped. *)
Fixpoint clean (g : cfg) (now : Z) (busy : list nat) (a : list (Z * nat)) (h : list ctx)
  : list (Z * nat) * list ctx :=
  match a with
  | [] => ([], h)
  | (id, p) :: r =>
      match existsb (Nat.eqb p) busy, nth_error h p with
      | false, Some c =>
          let '(r', h') := clean g now busy r (upd h p (recycle g now)) in
          if recyclable g now c then (r', h') else ((id, p) :: r', h')
      | _, _ => let '(r', h') := clean g now busy r h in ((id, p) :: r', h')
      end
  end.

Definition go (g : cfg) (s : state) (tid : nat) (busy : bool) (k : pc) : option state :=
  match k with
  | PCreate b =>
      (* CreateScan (scan_manager.cc:104-126, 211-225); version 1 draws ids until
         a new one comes *)
      match find_scan (b_id b) (s_alive s) with
      | Some _ => Some (emit (EFailed (b_id b)) (set_pc tid PDone s))
      | None =>
          let p := length (s_heap s) in
          Some (set_pc tid (POpen p b)
                 (with_alive ((b_id b, p) :: s_alive s) (with_heap (s_heap s ++ [new_ctx (s_now s)]) s)))
      end
  | POpen p b =>
      (* ScanContext::Open (scan.cc:72-106) *)
      match nth_error (s_heap s) p with
      | Some c =>
          match x_state c with
          | SUninit => Some (set_pc tid (PBegin p b) (on_ctx p (set_open (b_id b)) s))
          | _ => Some (fail tid (b_id b) (on_ctx p (set_state SError) s))
          end
      | None => None
      end
  | PBegin p b =>
      match nth_error (s_heap s) p with
      | Some c => Some (do_begin g tid p b c s)
      | None => None
      end
  | PFindC id max =>
      (* the service refuses max_fetch_cnt = 0 (store_service.cc:1231, 1524) *)
      if max =? 0 then Some (emit (EFailed id) (set_pc tid PDone s))
      else
      match find_scan id (s_alive s) with
      | Some p => Some (set_pc tid (PCont p id max) s)
      | None => Some (emit (EFailed id) (set_pc tid PDone s))
      end
  | PCont p id max =>
      match nth_error (s_heap s) p with
      | Some c => Some (do_continue g tid p id max c s)
      | None => None
      end
  | PFindR id =>
      match find_scan id (s_alive s) with
      | Some p => Some (set_pc tid (PRel p id) s)
      | None => Some (emit (EFailed id) (set_pc tid PDone s))
      end
  | PRel p id =>
      match nth_error (s_heap s) p with
      | Some c => Some (do_release tid p id c s)
      | None => None
      end
  | PTry id =>
      (* TryDeleteScan (scan_manager.cc:149-159, 246-256) *)
      match busy, find_scan id (s_alive s) with
      | false, Some p =>
          match nth_error (s_heap s) p with
          | Some c =>
              let s1 := on_ctx p (recycle g (s_now s)) s in
              Some (set_pc tid PDone
                     (if recyclable g (s_now s) c then with_alive (delete_scan id (s_alive s)) s1 else s1))
          | None => None
          end
      | _, _ => Some (set_pc tid PDone s)
      end
  | PDel id => Some (set_pc tid PDone (with_alive (delete_scan id (s_alive s)) s))
  | PDone => None
  end.

Definition step (g : cfg) (s : state) (a : action) : option state :=
  if s_dead s then None
  else
    match a with
    | Arrive r => Some (with_reqs (s_reqs s ++ [start r]) s)
    | Go tid busy =>
        match nth_error (s_reqs s) tid with
        | Some k => go g s tid busy k
        | None => None
        end
    | Clean busy =>
        let '(a', h') := clean g (s_now s) busy (s_alive s) (s_heap s) in
        Some (with_alive a' (with_heap h' s))
    | Clock t => Some (with_now t s)
    | Write st => Some (with_store st s)
    end.

Fixpoint run (g : cfg) (s : state) (acts : list action) : option state :=
  match acts with
  | [] => Some s
  | a :: r => match step g s a with Some s' => run g s' r | None => None end
  end.
