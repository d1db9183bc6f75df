(** Model of the coordinator's region map and of the lookup of regions by key range.
    Sources: src/coordinator/coordinator_control_fsm.cc (ApplyMetaIncrement, BuildTempMaps),
    src/coordinator/coordinator_control_coor.cc (CreateRegionFinal, CheckRegionPrefix,
    CreateRegionForSplitInternal, DropRegionFinal, GenRegionState,
    UpdateRegionMapAndStoreOperation, ScanRegions), src/common/safe_map.h.
    Simplifications: of a region's definition only the id, the epoch, the range, the number of
    peers and the kind of store engine are kept; store selection, read-only mode and the limits on
    the number of regions are not modelled (a create that fails for such reasons is no step);
    region metrics are not modelled (they do not influence the region map). *)
From Coq Require Import ZArith List Bool.
From Verif Require Import Bytes SMap Outcome.
Import ListNotations.
Open Scope Z_scope.

(** pb::common::RegionState (the values that occur), pb::common::StoreRegionState *)
Inductive rstate := SNone | SNew | SNormal | SSplitting | SMerging | SDelete | SDeleting | SDeleted | SStandby | STombstone.
Inductive sstate := KNew | KNormal | KStandby | KSplitting | KMerging | KDeleting | KDeleted | KOrphan | KTombstone.
Definition rstate_eqb (a b : rstate) : bool :=
  match a, b with
  | SNone, SNone | SNew, SNew | SNormal, SNormal | SSplitting, SSplitting | SMerging, SMerging | SDelete, SDelete
  | SDeleting, SDeleting | SDeleted, SDeleted | SStandby, SStandby | STombstone, STombstone => true
  | _, _ => false
  end.

(** pb::common::RegionDefinition: epoch, range, peers_size, store_engine = MONO_STORE *)
Record rdef := mkD { d_version : Z; d_conf : Z; d_start : bytes; d_end : bytes; d_peers : Z; d_mono : bool }.
(** pb::coordinator_internal::RegionInternal *)
Record region := mkR { r_id : Z; r_state : rstate; r_def : rdef }.
Definition r_start (r : region) : bytes := d_start (r_def r).
Definition r_end (r : region) : bytes := d_end (r_def r).
Definition r_version (r : region) : Z := d_version (r_def r).

(** region_map_ (id -> region) and range_region_map_ (start key -> a copy of the region) *)
Definition rmap := smap Z region.
Definition xmap := smap bytes region.

(** Helper::GenMaxStartKey (src/common/helper.cc:1737): nine bytes 0xff *)
Definition max_start_key : bytes := repeat 255 9.

(** ** lookups *)

(** DingoSafeStdMap::FindIntervalValues, src/common/safe_map.h:738-787, with the value filter of
    ScanRegions (coordinator_control_coor.cc:5876-5880). [split_at] is lower_bound: the entries
    below the key, in reverse order, and the others. *)
Fixpoint split_at (seen : list (bytes * region)) (m : xmap) (k : bytes) : list (bytes * region) * xmap :=
  match m with
  | [] => (seen, [])
  | e :: t => if bltb (fst e) k then split_at (e :: seen) t k else (seen, m)
  end.
Fixpoint take_below (m : xmap) (upper : bytes) : list region :=
  match m with
  | [] => []
  | e :: t => if bleb upper (fst e) then [] else snd e :: take_below t upper
  end.
Definition find_interval (m : xmap) (lower upper : bytes) (keep : region -> bool) : list region :=
  if (match m with [] => true | _ => false end) || bleb upper lower then []
  else
    let '(before, from) := split_at [] m lower in
    match from with
    | [] =>
        (* it == end: the last entry of the map *)
        match before with
        | [] => []
        | e :: _ => if bleb upper (fst e) then [] else filter keep [snd e]
        end
    | e :: _ =>
        let from' :=
          if bltb lower (fst e) then match before with b :: _ => b :: from | [] => from end else from in
        filter keep (take_below from' upper)
    end.

(** CoordinatorControl::ScanRegions, coordinator_control_coor.cc:5856-5919; the CHECK on the start
    key of the region is [Crash] *)
Fixpoint scan_loop (start upper : bytes) (point : bool) (limit : Z) (n : Z) (l : list region) : outcome (list region) :=
  match l with
  | [] => Ok []
  | r :: t =>
      if point then
        if bleb (r_start r) start && bltb start (r_end r) then Ok [r] else scan_loop start upper point limit n t
      else if negb (bltb (r_start r) upper) then Crash
      else if (0 <? limit) && (limit <=? n + 1) then Ok [r]
      else match scan_loop start upper point limit (n + 1) t with Ok rs => Ok (r :: rs) | Crash => Crash end
  end.
Definition upper_of (start end_ : bytes) : bytes :=
  if beqb end_ [0] then max_start_key
  else match end_ with [] => start ++ [0] | _ => end_ end.
Definition scan_regions (m : xmap) (start end_ : bytes) (limit : Z) : outcome (list region) :=
  let upper := upper_of start end_ in
  scan_loop start upper (match end_ with [] => true | _ => false end) limit 0
    (find_interval m start upper (fun r => (0 <? r_id r) && bltb start (r_end r))).

(** ** applying increments *)

(** the region part of pb::coordinator_internal::MetaIncrement *)
Inductive incr := ICreate (r : region) | IUpdate (r : region) | IDelete (id : Z).

(** ApplyMetaIncrement, region section (coordinator_control_fsm.cc:1429-1690): what the loop over
    the increments collects. Both maps are read as they were before the whole increment. *)
Record work := mkW {
  w_puts : list region;            (* region_id_to_write, region_internal_to_write *)
  w_dels : list Z;                 (* region_id_to_delete *)
  w_xputs : list region;           (* region_start_key_to_write, region_start_key_internal_to_write *)
  w_xdels_update : list bytes;     (* region_start_key_to_delete_for_update *)
  w_xdels : list bytes             (* region_start_key_to_delete *)
}.
Definition no_work : work := mkW [] [] [] [] [].

Definition proper (r : region) : bool := bltb (r_start r) (r_end r).

(** is_legal_delete, :1501-1544 *)
Definition legal_delete (rm : rmap) (xm : xmap) (id : Z) (old_start : bytes) : bool :=
  match get bcmp xm old_start with
  | Some x =>
      if (0 <? r_id x) && negb (r_id x =? id) then
        match get Z.compare rm (r_id x) with
        | Some y => negb ((0 <? r_id y) && (r_id y =? r_id x) && beqb (r_start y) old_start)
        | None => true
        end
      else true
  | None => true
  end.

Definition collect1 (rm : rmap) (xm : xmap) (w : work) (i : incr) : work :=
  match i with
  | ICreate r =>
      (* :1448-1486 *)
      mkW (w_puts w ++ [r]) (w_dels w) (if proper r then w_xputs w ++ [r] else w_xputs w) (w_xdels_update w) (w_xdels w)
  | IUpdate r =>
      (* :1488-1613 *)
      match get Z.compare rm (r_id r) with
      | None => w
      | Some old =>
          if r_version r <? r_version old then w
          else
            let moved := negb (beqb (r_start r) (r_start old)) in
            if moved && (r_version r =? r_version old) then w
            else
              let need_delete := negb (existsb (fun x => beqb (r_start x) (r_start old)) (w_xputs w)) in
              mkW (w_puts w ++ [r]) (w_dels w)
                  (if proper r then w_xputs w ++ [r] else w_xputs w)
                  (if moved && (need_delete && legal_delete rm xm (r_id r) (r_start old))
                   then w_xdels_update w ++ [r_start old] else w_xdels_update w)
                  (w_xdels w)
      end
  | IDelete id =>
      (* :1614-1643 *)
      match get Z.compare rm id with
      | None => w
      | Some old => mkW (w_puts w) (w_dels w ++ [id]) (w_xputs w) (w_xdels_update w) (w_xdels w ++ [r_start old])
      end
  end.
Definition collect (rm : rmap) (xm : xmap) (l : list incr) : work := fold_left (collect1 rm xm) l no_work.

(** the writes to the maps, :1645-1690. MultiPut assigns in order; MultiEraseThenPut
    (safe_map.h:908-924, 1029-1044) builds a std::map with [insert], so that the first of several
    puts to one key counts *)
Definition put_region (m : rmap) (r : region) : rmap := put Z.compare m (r_id r) r.
Definition first_put (m : xmap) (r : region) : xmap :=
  match get bcmp m (r_start r) with Some _ => m | None => put bcmp m (r_start r) r end.
Definition xput_all (m : xmap) (l : list region) : xmap :=
  let fresh := fold_left first_put l [] in
  fold_left (fun m e => put bcmp m (fst e) (snd e)) fresh m.
Definition apply_incs (rm : rmap) (xm : xmap) (l : list incr) : rmap * xmap :=
  let w := collect rm xm l in
  (fold_left (del Z.compare) (w_dels w) (fold_left put_region (w_puts w) rm),
   fold_left (del bcmp) (w_xdels w)
     (xput_all (fold_left (del bcmp) (w_xdels_update w) xm) (w_xputs w))).

(** BuildTempMaps (coordinator_control_fsm.cc:117-126), run when a coordinator becomes leader, when
    it has loaded a snapshot and when it restarts: the index of all regions, whatever their ranges,
    put in the order in which the hash map is walked *)
Definition build_index (rm : rmap) (order : list Z) : xmap :=
  fold_left (fun m id => match get Z.compare rm id with Some r => put bcmp m (r_start r) r | None => m end) order [].

(** ** requests that produce increments *)

(** CheckRegionPrefix, coordinator_control_coor.cc:1922-1984. [None]: the range is accepted. *)
Inductive refusal := EIllegalRange | EOverlap | EPrefix | EExists | ENotFound.
Definition legal_prefix (b : Z) : bool :=
  (* Constant::kExecutorRaw 'r', kExecutorTxn 't', kClientRaw 'w', kClientTxn 'x', 0xff *)
  (b =? 114) || (b =? 116) || (b =? 119) || (b =? 120) || (b =? 255).
Definition check_range (xm : xmap) (start end_ : bytes) : outcome (option refusal) :=
  if (Z.of_nat (length start) <? 8) || (Z.of_nat (length end_) <? 8) then Ok (Some EIllegalRange)
  else if negb (hd 0 start =? hd 0 end_) && negb (beqb start max_start_key) then Ok (Some EIllegalRange)
  else if (hd 0 start =? 255) && negb (beqb start max_start_key) then Ok (Some EIllegalRange)
  else
    match scan_regions xm start end_ 0 with
    | Crash => Crash
    | Ok rs =>
        if (match rs with [] => false | _ => true end) && negb (beqb start max_start_key) then Ok (Some EOverlap)
        else if legal_prefix (hd 0 start) then Ok None else Ok (Some EPrefix)
    end.

(** CreateRegionFinal, coordinator_control_coor.cc:2176-2389, for each of the regions of a request:
    one for CreateRegion, one per partition for CreateTable and CreateIndex
    (coordinator_control_meta.cc:749-773). The checks read the maps, not the regions before it in
    the same request; the first refusal refuses the request. *)
Record newr := mkN { n_id : Z; n_start : bytes; n_end : bytes; n_peers : Z; n_mono : bool }.
Definition new_region (n : newr) : region :=
  mkR (n_id n) SNew (mkD 1 1 (n_start n) (n_end n) (n_peers n) (n_mono n)).
Fixpoint create_regions (rm : rmap) (xm : xmap) (l : list newr) : outcome (refusal + list incr) :=
  match l with
  | [] => Ok (inr [])
  | n :: t =>
      match check_range xm (n_start n) (n_end n) with
      | Crash => Crash
      | Ok (Some e) => Ok (inl e)
      | Ok None =>
          match get Z.compare rm (n_id n) with
          | Some _ => Ok (inl EExists)
          | None =>
              match create_regions rm xm t with
              | Ok (inr is) => Ok (inr (ICreate (new_region n) :: is))
              | o => o
              end
          end
      end
  end.

(** CreateRegionForSplitInternal, coordinator_control_coor.cc:1475-1536: the region a split will
    move the lower half into, created with an inverted range *)
Definition create_child (rm : rmap) (xm : xmap) (parent id : Z) : outcome (refusal + list incr) :=
  match get Z.compare rm parent with
  | None => Ok (inl ENotFound)
  | Some p => create_regions rm xm [mkN id max_start_key (r_start p) (d_peers (r_def p)) (d_mono (r_def p))]
  end.

(** DropRegionFinal, coordinator_control_coor.cc:2455-2530 *)
Definition deleted_state (s : rstate) : bool :=
  match s with SDelete | SDeleting | SDeleted => true | _ => false end.
Definition drop_region (rm : rmap) (id : Z) : list incr :=
  match get Z.compare rm id with
  | Some r => if deleted_state (r_state r) then [] else [IDelete id]
  | None => []
  end.

(** ** heartbeats *)

(** pb::common::RegionMetrics as a store reports it: whether the raft node is leader, the leader
    store it knows of, the state and the definition of the region on the store *)
Record report := mkP { p_id : Z; p_raft_leader : bool; p_leader : Z; p_state : sstate; p_def : rdef }.
(** pb::common::StoreMetrics; the reports are a map by region id, walked in some order *)
Record beat := mkB { b_store : Z; b_partial : bool; b_epoch : bool; b_reports : list report }.

(** GenRegionState, coordinator_control_coor.cc:4398-4443 *)
Definition gen_state (s : sstate) (old : rstate) : rstate :=
  if deleted_state old then
    match s with KDeleted => SDeleted | KDeleting => SDeleting | _ => SNone end
  else
    match s with
    | KNormal => SNormal | KSplitting => SSplitting | KMerging => SMerging
    | KStandby => SStandby | KTombstone => STombstone | _ => SNone
    end.

(** the body of the loop of UpdateRegionMapAndStoreOperation, coordinator_control_coor.cc:4535-4745 *)
Definition beat_region (rm : rmap) (b : beat) (p : report) : list incr :=
  match get Z.compare rm (p_id p) with
  | None => []
  | Some r =>
      let old := r_def r in let new := p_def p in
      let newer := (d_conf old <? d_conf new) || (d_version old <? d_version new) in
      let not_leader :=
        negb (d_mono old) && (negb (p_raft_leader p) || ((0 <? p_leader p) && negb (p_leader p =? b_store b))) in
      if not_leader && negb newer && negb (deleted_state (r_state r)) then []
      else
        let leader_old := negb not_leader && ((d_conf new <? d_conf old) || (d_version new <? d_version old)) in
        let st := gen_state (p_state p) (r_state r) in
        let need_state := negb (rstate_eqb st SNone) && negb (rstate_eqb st (r_state r)) in
        let need_def :=
          (newer || (negb (d_peers old =? d_peers new) && negb leader_old)) &&
          negb (b_partial b && negb (b_epoch b)) in
        if need_def || need_state then
          [IUpdate (mkR (r_id r) (if need_state then st else r_state r) (if need_def then new else old))]
        else []
  end.
(** UpdateRegionMapAndStoreOperation, coordinator_control_coor.cc:4503-4763 *)
Definition beat_incs (rm : rmap) (b : beat) : list incr :=
  if b_partial b && b_epoch b && negb (Nat.eqb (length (b_reports b)) 2) then []
  else flat_map (beat_region rm b) (b_reports b).

(** ** the coordinator *)

(** the two maps, and the increments that have been proposed and not yet applied. Requests are
    served by several worker threads (src/server/main.cc:110, 32 by default), each
    of which reads the maps, builds an increment and then waits for it to be applied: an increment
    is applied some time after it was built, in the order of the raft log, which may be any. *)
Record state := mkS { s_map : rmap; s_idx : xmap; s_pend : list (list incr) }.
Definition init : state := mkS [] [] [].

Inductive op :=
| OBeat (b : beat)                 (* StoreHeartbeat *)
| OCreate (l : list newr)          (* CreateRegion, CreateTable, CreateIndex *)
| OChild (parent id : Z)           (* SplitRegionWithJob *)
| ODrop (id : Z)                   (* DropRegion *)
| OApply (n : nat)                 (* the n-th proposed increment is applied *)
| OLose (n : nat)                  (* ... or is lost: leadership was lost before it was committed *)
| OIndex (order : list Z).         (* leader change, restart, snapshot: the index is built anew *)

Definition remove_nth {A} (n : nat) (l : list A) : list A := firstn n l ++ skipn (S n) l.
Definition propose (s : state) (l : list incr) : state := mkS (s_map s) (s_idx s) (s_pend s ++ [l]).
Definition proposed (s : state) (o : outcome (refusal + list incr)) : outcome state :=
  match o with
  | Ok (inr l) => Ok (propose s l)
  | Ok (inl _) => Ok s
  | Crash => Crash
  end.
Definition step (s : state) (o : op) : outcome state :=
  match o with
  | OBeat b => Ok (propose s (beat_incs (s_map s) b))
  | OCreate l => proposed s (create_regions (s_map s) (s_idx s) l)
  | OChild parent id => proposed s (create_child (s_map s) (s_idx s) parent id)
  | ODrop id => Ok (propose s (drop_region (s_map s) id))
  | OApply n =>
      match nth_error (s_pend s) n with
      | Some l => let '(rm, xm) := apply_incs (s_map s) (s_idx s) l in Ok (mkS rm xm (remove_nth n (s_pend s)))
      | None => Ok s
      end
  | OLose n => Ok (mkS (s_map s) (s_idx s) (remove_nth n (s_pend s)))
  | OIndex order => Ok (mkS (s_map s) (build_index (s_map s) order) (s_pend s))
  end.
Fixpoint run (s : state) (ops : list op) : outcome state :=
  match ops with
  | [] => Ok s
  | o :: t => match step s o with Ok s' => run s' t | Crash => Crash end
  end.
