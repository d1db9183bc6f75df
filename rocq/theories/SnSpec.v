(** Specification for the snapshot part: what a log says the region is, and what it means
    for a log and for a run to be proper.  Nothing here mentions the reader's or the
    replica's inner workings. *)
From Coq Require Import ZArith List Bool Arith Lia.
From Verif Require Import Bytes SnModel.
Import ListNotations.
Open Scope nat_scope.

(** * The stream *)

(** Lengths fit the eight bytes that carry them (any [size_t] does). *)
Definition fits (p : kv) : Prop :=
  (Z.of_nat (length (fst p)) < 2 ^ 64)%Z /\ (Z.of_nat (length (snd p)) < 2 ^ 64)%Z.

(** A column family as an iterator shows it: keys strictly increasing. *)
Fixpoint increasing (l : list kv) : Prop :=
  match l with
  | [] => True
  | p :: r => (match r with [] => True | q :: _ => bltb (fst p) (fst q) = true end) /\ increasing r
  end.

(** The pairs of a column family from [lo] on. *)
Definition pairs_from (lo : bytes) (l : list kv) : list kv :=
  filter (fun p => bleb lo (fst p)) l.

(** Every request of the transfer asks for [sz] bytes. *)
Definition asks (sz : nat) (l : xlabel) : Prop :=
  match l with
  | XReply s _ => s = sz
  | XLost s _ => s = sz
  | XStray _ s _ => s = sz
  end.

(** No request finds the leader's iterator abandoned for so long that it is restarted. *)
Definition in_time (l : xlabel) : bool :=
  match l with XReply _ t => negb t | XLost _ t => negb t | XStray _ _ t => negb t end.

(** The requests of one attempt, without strangers: answered or lost. *)
Definition own (l : xlabel) : bool := match l with XStray _ _ _ => false | _ => true end.

Definition is_reply (l : xlabel) : bool :=
  match l with XReply _ _ => true | _ => false end.

(** * The log *)

Definition nothing : db := fun _ _ => None.

(** The region and its data after the first [n] entries. *)
Definition after (g0 : region) (log : list entry) (n : nat) : region * db * list nat :=
  fold_left (fun s e => exec e s) (firstn n log) (g0, nothing, []).

Definition region_after g0 log n : region := fst (fst (after g0 log n)).
Definition data_after g0 log n : db := snd (fst (after g0 log n)).

Definition inside (g : region) (k : bytes) : Prop :=
  bleb (g_lo g) k = true /\ bltb k (g_hi g) = true.

Definition writes (c : cmd) (cf : nat) (k : bytes) : Prop :=
  match c with
  | CWrite ops => exists o, In o ops /\ op_at o cf k <> None
  | CSplit _ => False
  end.

(** A log as the proposers make it: an entry carries the version its proposer saw, which
    is no later than the one in force; an entry in force writes inside the region's
    range; a split key lies inside it. *)
Definition proper_log (g0 : region) (log : list entry) : Prop :=
  forall n e, nth_error log n = Some e ->
    e_ver e <= g_ver (region_after g0 log n) /\
    (e_ver e = g_ver (region_after g0 log n) ->
     (forall c k, writes (e_cmd e) c k -> inside (region_after g0 log n) k) /\
     (forall m, e_cmd e = CSplit m -> inside (region_after g0 log n) m)).

(** What a leader sends: made from a store that holds, for the region, exactly what the
    log says at the leader's position [m_index]; the snapshot's own index is not above
    it.  Outside the region's range the leader's store may hold anything. *)
Definition proper_install (ncf : nat) (g0 : region) (log : list entry) (l : label) : Prop :=
  match l with
  | LInstall j m L =>
      j <= m_index m /\ m_index m <= length log /\
      m_region m = region_after g0 log (m_index m) /\
      forall c k, c < ncf -> inside (m_region m) k ->
        L c k = data_after g0 log (m_index m) c k
  | _ => True
  end.

(** The leader's store holds nothing beyond the region it sends. *)
Definition nothing_beyond (ncf : nat) (l : label) : Prop :=
  match l with
  | LInstall _ m L => forall c k, c < ncf -> bltb k (g_hi (m_region m)) = false -> L c k = None
  | _ => True
  end.

(** A new replica's store holds nothing in the region's range. *)
Definition empty_inside (ncf : nat) (g : region) (d : db) : Prop :=
  forall c k, c < ncf -> inside g k -> d c k = None.

(** The process may stop: no installed snapshot, or its files are all still there, or the
    recorded position has reached the snapshot's. *)
Definition may_stop (s : replica) : Prop :=
  match sn_meta (r_snap s) with
  | None => True
  | Some m => sn_gone (r_snap s) = [] \/ m_index m <= r_saved s
  end.

(** A run in which the process stops only then. *)
Inductive gentle (ncf : nat) (log : list entry) : replica -> list label -> replica -> Prop :=
| g_nil s : gentle ncf log s [] s
| g_cons s l s1 ls s2 :
    step ncf log l s = Some s1 ->
    (l = LCrash -> may_stop s) ->
    gentle ncf log s1 ls s2 ->
    gentle ncf log s (l :: ls) s2.

(** A run in which no loaded snapshot has a newer version than the replica's region. *)
Definition not_newer (s : replica) (l : label) : Prop :=
  match l, r_pc s, sn_meta (r_snap s) with
  | LLoad, Loading SMeta, Some m => g_ver (m_region m) <= g_ver (r_region s)
  | _, _, _ => True
  end.
Inductive no_skip (ncf : nat) (log : list entry) : replica -> list label -> replica -> Prop :=
| n_nil s : no_skip ncf log s [] s
| n_cons s l s1 ls s2 :
    step ncf log l s = Some s1 ->
    not_newer s l ->
    no_skip ncf log s1 ls s2 ->
    no_skip ncf log s (l :: ls) s2.

(** Caught up with the whole log. *)
Definition caught_up (log : list entry) (s : replica) : Prop :=
  r_pc s = Up /\ r_applied s = length log.
