(** Watches of the meta data (tables, indexes, schemas, regions) on a coordinator.

    Source: src/coordinator/coordinator_control_watch.cc; events are added by one worker, in the order of the
    log (coordinator_control.cc:122, coordinator_control_fsm.cc:2598-2599).

    Simplifications: one watch is followed (watches share the list of events only, which they do not
    change); each function takes effect at once, except that the creation of a watch from a revision is two
    steps, the registration and the look at the events held; limits on the number of watches and event types,
    and clocks, are left out (whether a watch is out of date is part of the event). *)
Require Import ZArith List Bool.
Import ListNotations.
Open Scope Z_scope.

(** An event: its type and its content. *)
Definition ev := (nat * Z)%type.

(** meta_event_map_: revisions with their events, revisions rising. *)
Definition evlist := list (Z * list ev).

(** MetaWatchNode, coordinator_control.h:91-111: start_revision, watch_bitset (the types watched),
    pending_event_revisions, watch_instances (numbers of the waiting calls).  [nnew]: the events held have not
    been looked at yet. *)
Record node := mkN { nstart : Z; ntypes : list nat; npend : list Z; nwait : list nat; nnew : bool }.

(** Answers to a progress call, and to a creation. *)
Inductive resp := REvents (l : list ev) (canceled : bool) | RNoWatch.
Inductive cresp := Created | Compacted (r : Z) | BadStart.

(** [em] is meta_event_map_, [nd] the watch, [rev] the revision reached, [ncall] the number of progress calls
    so far.  Traces for the statements: [outs] the answers to calls (those answered together as one), [cres]
    the answers to creations, [hist] all events ever. *)
Record state := mkS { em : evlist; nd : option node; rev : Z; ncall : nat;
  outs : list (list nat * resp); cres : list cresp; hist : evlist }.

Definition has (t : nat) (l : list nat) : bool := existsb (Nat.eqb t) l.

(** DingoSafeStdMap::Get. *)
Definition look (h : evlist) (r : Z) : option (list ev) :=
  match find (fun p => fst p =? r) h with Some p => Some (snd p) | None => None end.

(** MetaWatchGetEventsForRevisions, coordinator_control_watch.cc:41-74. *)
Definition get (h : evlist) (rs : list Z) : list ev * bool :=
  (flat_map (fun r => match look h r with Some l => l | None => [] end) rs,
   existsb (fun r => match look h r with Some _ => false | None => true end) rs).

(** MetaWatchSendEvents, coordinator_control_watch.cc:76-105. *)
Definition send (ts : list nat) (x : list ev * bool) : resp :=
  REvents (filter (fun e => has (fst e) ts) (fst x)) (snd x).

(** The types of a list of events against those watched: coordinator_control_watch.cc:316-328, 521-523. *)
Definition matches (ts : list nat) (l : list ev) : bool := existsb (fun e => has (fst e) ts) l.

Definition set_nd (s : state) (n : option node) : state :=
  mkS (em s) n (rev s) (ncall s) (outs s) (cres s) (hist s).
Definition out (s : state) (cs : list nat) (r : resp) : state :=
  mkS (em s) (nd s) (rev s) (ncall s) (outs s ++ [(cs, r)]) (cres s) (hist s).
Definition say (s : state) (c : cresp) : state :=
  mkS (em s) (nd s) (rev s) (ncall s) (outs s) (cres s ++ [c]) (hist s).

(** AddEventList, coordinator_control_watch.cc:510-571; the revision is that of the log entry
    (coordinator_control_fsm.cc:1109), [gap] entries that are no increments lie before it. *)
Definition add (s : state) (gap : nat) (l : list ev) : state :=
  let r := rev s + 1 + Z.of_nat gap in
  let s1 := mkS (em s ++ [(r, l)]) (nd s) r (ncall s) (outs s) (cres s) (hist s ++ [(r, l)]) in
  match nd s with
  | None => s1
  | Some n =>
      if matches (ntypes n) l then
        match nwait n with
        | [] =>
            if nstart n <? r
            then set_nd s1 (Some (mkN (nstart n) (ntypes n) (npend n ++ [r]) [] (nnew n)))
            else s1
        | ws =>
            set_nd (out s1 ws (send (ntypes n) (get (em s1) (npend n ++ [r]))))
              (Some (mkN (nstart n) (ntypes n) [] [] (nnew n)))
        end
      else s1
  end.

(** MetaWatchCancel, coordinator_control_watch.cc:362-398. *)
Definition cancel (s : state) : state :=
  match nd s with
  | None => s
  | Some n =>
      let s1 := match nwait n with [] => s | ws => out s ws (REvents [] true) end in
      set_nd s1 None
  end.

(** DingoSafeStdMap::GetFirstKey and GetLastKey on a variable that is 0, safe_map.h:572-602. *)
Definition first_key (h : evlist) : Z := match h with p :: _ => fst p | [] => 0 end.
Definition last_key (h : evlist) : Z := last (map fst h) 0.

(** MetaWatchCreate up to the registration, coordinator_control_watch.cc:181-270. *)
Definition create (s : state) (start : Z) (ts : list nat) : state :=
  if start <? 0 then say s BadStart
  else if (0 <? start) && (start <? first_key (em s)) then say s (Compacted (first_key (em s)))
  else if start =? 0 then say (set_nd s (Some (mkN 0 ts [] [] false))) Created
  else set_nd s (Some (mkN start ts [] [] true)).

(** DingoSafeStdMap::GetRangeKeyValues, safe_map.h:791-814. *)
Definition range (h : evlist) (a b : Z) : evlist := filter (fun p => (a <=? fst p) && (fst p <? b)) h.

(** The rest of MetaWatchCreate, coordinator_control_watch.cc:275-360. *)
Definition supply (s : state) : state :=
  match nd s with
  | Some n =>
      if nnew n then
        let temp := range (em s) (nstart n) (last_key (em s)) in
        let more := map fst (filter (fun p => matches (ntypes n) (snd p)) temp) in
        let s1 := say (set_nd s (Some (mkN (nstart n) (ntypes n) (more ++ npend n) (nwait n) false))) Created in
        match temp with
        | [] => s1
        | p :: _ => if nstart n <? fst p then say (cancel s) (Compacted (fst p)) else s1
        end
      else s
  | None => s
  end.

(** MetaWatchProgress, coordinator_control_watch.cc:107-179. *)
Definition progress (s : state) : state :=
  let c := ncall s in
  let s0 := mkS (em s) (nd s) (rev s) (S c) (outs s) (cres s) (hist s) in
  match nd s with
  | None => out s0 [c] RNoWatch
  | Some n =>
      match npend n with
      | [] => set_nd s0 (Some (mkN (nstart n) (ntypes n) [] (nwait n ++ [c]) (nnew n)))
      | rs =>
          let x := get (em s) rs in
          let s1 := set_nd (out s0 (c :: nwait n) (send (ntypes n) x))
                      (Some (mkN (nstart n) (ntypes n) [] [] (nnew n))) in
          if snd x then cancel s1 else s1
      end
  end.

(** RecycledMetaWatcherByTime, coordinator_control_watch.cc:578-654. *)
Definition recycle (s : state) (outdated : bool) : state :=
  match nd s with
  | None => s
  | Some n =>
      match nwait n with
      | [] => if outdated then cancel s else s
      | ws => set_nd (out s ws (send (ntypes n) (get (em s) (npend n))))
                (Some (mkN (nstart n) (ntypes n) [] [] (nnew n)))
      end
  end.

(** TrimMetaWatchEventList, coordinator_control_watch.cc:656-698. *)
Definition trim (s : state) (max : nat) : state :=
  mkS (skipn (length (em s) - max) (em s)) (nd s) (rev s) (ncall s) (outs s) (cres s) (hist s).

Inductive event :=
| EAdd (gap : nat) (l : list ev)
| ECreate (start : Z) (ts : list nat) | ESupply
| EProgress | ECancel | ERecycle (outdated : bool) | ETrim (max : nat)
| ERestart.                     (* the lists are kept in memory only *)

Definition act (s : state) (e : event) : state :=
  match e with
  | EAdd g l => add s g l
  | ECreate a ts => match nd s with None => create s a ts | Some _ => s end
  | ESupply => supply s
  | EProgress => progress s
  | ECancel => cancel s
  | ERecycle o => recycle s o
  | ETrim m => trim s m
  | ERestart => mkS [] None (rev s) (ncall s) (outs s) (cres s) (hist s)
  end.

Definition begin : state := mkS [] None 0 0 [] [] [].

Definition run (s : state) (es : list event) : state := fold_left act es s.
