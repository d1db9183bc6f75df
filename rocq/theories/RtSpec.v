(** What a lookup of regions has to return, and when the coordinator is in a position to tell. *)
From Coq Require Import ZArith List Bool Sorted Permutation.
From Verif Require Import Bytes SMap Outcome RtModel.
Import ListNotations.
Open Scope Z_scope.

(** ** lookups *)

Definition blt (a b : bytes) : Prop := bcmp a b = Lt.
Definition ble (a b : bytes) : Prop := bcmp a b <> Gt.

(** the key ranges a lookup is about: [start, end); with end key "\0" everything from the start key
    on; with an empty end key the start key alone *)
Definition asks (start end_ k : bytes) : Prop :=
  match end_ with
  | [] => k = start
  | [0] => ble start k /\ blt k max_start_key
  | _ => ble start k /\ blt k end_
  end.
Definition holds (r : region) (k : bytes) : Prop := ble (r_start r) k /\ blt k (r_end r).

(** a range [start, end) as above and a region's range reach into each other (read as intervals
    between bounds) *)
Definition reaches (start end_ : bytes) (r : region) : Prop :=
  blt start (r_end r) /\
  match end_ with
  | [] => ble (r_start r) start
  | [0] => blt (r_start r) max_start_key
  | _ => blt (r_start r) end_
  end.

(** [rs] are the first [limit] (0 or less: all) of the regions satisfying [exist] that hold a key
    the lookup asks for, in the order of their start keys *)
Definition by_start (rs : list region) : Prop := StronglySorted (fun a b => blt (r_start a) (r_start b)) rs.
Definition answer (exist : region -> Prop) (start end_ : bytes) (limit : Z) (rs : list region) : Prop :=
  exists all, by_start all /\
    (forall r, In r all <-> exist r /\ exists k, asks start end_ k /\ holds r k) /\
    rs = (if limit <=? 0 then all else firstn (Z.to_nat limit) all).

(** ** the regions as they are on the stores *)

(** for every point in time (points of the order in which the regions of the cluster change) and
    region id the version and the range of the region, [None] if there is no such region *)
Record place := mkPl { pl_version : Z; pl_start : bytes; pl_end : bytes }.
Definition world := nat -> Z -> option place.

(** the stores: at each time the ranges of different regions have no key in common; a region that
    has no keys starts at the key of nine bytes 0xff, and no other range reaches that far; versions
    do not decrease, and with the same version goes the same range *)
Definition inhabited (p : place) : Prop := blt (pl_start p) (pl_end p) /\ blt (pl_end p) max_start_key.
Definition vacant (p : place) : Prop := pl_start p = max_start_key /\ blt (pl_end p) max_start_key.
Definition world_ok (W : world) : Prop :=
  (forall t i p, W t i = Some p -> 0 < i /\ (inhabited p \/ vacant p)) /\
  (forall t i j p q k, W t i = Some p -> W t j = Some q -> i <> j ->
     ~ (ble (pl_start p) k /\ blt k (pl_end p) /\ ble (pl_start q) k /\ blt k (pl_end q))) /\
  (forall t u i p q, (t <= u)%nat -> W t i = Some p -> W u i = Some q ->
     pl_version p <= pl_version q /\ (pl_version p = pl_version q -> p = q)).

(** the region was (with this version and range) as [r] says at time [t] *)
Definition right_at (W : world) (t : nat) (r : region) : Prop :=
  W t (r_id r) = Some (mkPl (r_version r) (r_start r) (r_end r)).
(** what [r] says was outdated at time [t] *)
Definition over_at (W : world) (t : nat) (r : region) : Prop := forall u, (t <= u)%nat -> ~ right_at W u r.

(** the coordinator has heard of everything: its regions are the regions of time [T] *)
Definition caught_up (W : world) (T : nat) (s : state) : Prop :=
  (forall i r, get Z.compare (s_map s) i = Some r -> r_id r = i /\ right_at W T r) /\
  (forall i p, W T i = Some p -> exists r, get Z.compare (s_map s) i = Some r).

(** ** calm executions *)

(** the regions an increment writes *)
Definition written (l : list incr) (r : region) : Prop := In (ICreate r) l \/ In (IUpdate r) l.

(** the provisos, for a run up to time [T]:
    - stores report what they have (or had, at some time up to [T]), at most one report per region
      in a heartbeat; a region is created on the stores as the coordinator decided;
    - an increment that says a region starts at some key is applied only when whatever the
      coordinator holds of other regions with that start key was outdated at the time the increment
      speaks of; no increment says so of two regions;
    - a region is deleted only when whatever the coordinator holds of other regions with the same
      start key is outdated; created regions have new ids;
    - the index is built anew only when no two regions the coordinator knows of share a start key. *)
Definition calm (W : world) (T : nat) (s : state) (o : op) : Prop :=
  match o with
  | OBeat b =>
      NoDup (map p_id (b_reports b)) /\
      forall p, In p (b_reports b) -> exists n, (n <= T)%nat /\ right_at W n (mkR (p_id p) SNew (p_def p))
  | OCreate l =>
      NoDup (map n_id l) /\ forall n, In n l -> exists t, (t <= T)%nat /\ right_at W t (new_region n)
  | OChild parent id =>
      forall p, get Z.compare (s_map s) parent = Some p ->
        exists t, (t <= T)%nat /\ W t id = Some (mkPl 1 max_start_key (r_start p))
  | OApply n =>
      forall l, nth_error (s_pend s) n = Some l ->
        (forall r, written l r -> blt (r_start r) (r_end r) ->
           exists t, (t <= T)%nat /\ right_at W t r /\
             forall c, In (r_id c, c) (s_map s) -> r_id c <> r_id r -> r_start c = r_start r -> over_at W t c) /\
        (forall r r', written l r -> written l r' -> blt (r_start r) (r_end r) -> blt (r_start r') (r_end r') ->
           r_start r = r_start r' -> r_id r = r_id r') /\
        (forall r, In (ICreate r) l -> get Z.compare (s_map s) (r_id r) = None) /\
        (forall i r, In (IDelete i) l -> get Z.compare (s_map s) i = Some r ->
           forall c, In (r_id c, c) (s_map s) -> r_id c <> i -> r_start c = r_start r -> blt (r_start c) (r_end c) ->
             exists t, (t <= T)%nat /\ over_at W t c)
  | OLose _ => True
  | ODrop _ => True
  | OIndex order =>
      Permutation order (map fst (s_map s)) /\
      forall c d, In (r_id c, c) (s_map s) -> In (r_id d, d) (s_map s) -> r_start c = r_start d ->
        blt (r_start c) max_start_key -> r_id c = r_id d
  end.
Fixpoint calm_run (W : world) (T : nat) (s : state) (ops : list op) : Prop :=
  match ops with
  | [] => True
  | o :: t => calm W T s o /\ forall s', step s o = Ok s' -> calm_run W T s' t
  end.

(** only the first of the provisos: stores report what they have or had *)
Definition truthful (W : world) (T : nat) (s : state) (o : op) : Prop :=
  match o with
  | OApply _ | OIndex _ => True
  | _ => calm W T s o
  end.
Fixpoint truthful_run (W : world) (T : nat) (s : state) (ops : list op) : Prop :=
  match ops with
  | [] => True
  | o :: t => truthful W T s o /\ forall s', step s o = Ok s' -> truthful_run W T s' t
  end.

(** ** histories of the regions on the stores *)

(** src/handler/raft_apply_handler.cc: a split (:240-330, :505-580) leaves the upper part of the range
    with the parent and gives the lower part to the child; the preparation of a merge (:859-861) raises
    the version of the source; a merge (:943-980) gives the source's range to the target and takes it
    from the source *)
Inductive change :=
| CNew (i : Z) (start end_ : bytes)
| CChild (i : Z) (end_ : bytes)
| CSplit (parent child : Z) (key : bytes)
| CPrepare (source : Z)
| CMerge (source target : Z)
| CGone (i : Z).

(** the ids used so far and the regions *)
Definition cluster : Type := list Z * (Z -> option place).
Definition set (f : Z -> option place) (i : Z) (p : option place) : Z -> option place :=
  fun j => if j =? i then p else f j.
(** a change that does not fit the present regions is refused *)
Inductive changes : cluster -> change -> cluster -> Prop :=
| ch_new used f i s e : 0 < i -> ~ In i used -> blt s e -> blt e max_start_key ->
    (forall j q k, f j = Some q -> ~ (ble s k /\ blt k e /\ ble (pl_start q) k /\ blt k (pl_end q))) ->
    changes (used, f) (CNew i s e) (i :: used, set f i (Some (mkPl 1 s e)))
| ch_child used f i e : 0 < i -> ~ In i used -> blt e max_start_key ->
    changes (used, f) (CChild i e) (i :: used, set f i (Some (mkPl 1 max_start_key e)))
| ch_split used f p c k v s e vc ec :
    f p = Some (mkPl v s e) -> f c = Some (mkPl vc max_start_key ec) -> p <> c -> blt s k -> blt k e -> blt e max_start_key ->
    changes (used, f) (CSplit p c k) (used, set (set f p (Some (mkPl (v + 1) k e))) c (Some (mkPl (vc + 1) s k)))
| ch_prepare used f i v s e : f i = Some (mkPl v s e) ->
    changes (used, f) (CPrepare i) (used, set f i (Some (mkPl (v + 1) s e)))
| ch_merge_below used f i j vi vj a b c :
    f i = Some (mkPl vi a b) -> f j = Some (mkPl vj b c) -> blt a b -> blt b c -> blt c max_start_key ->
    changes (used, f) (CMerge i j)
      (used, set (set f i (Some (mkPl (vi + 1) max_start_key b))) j (Some (mkPl (Z.max vi vj + 1) a c)))
| ch_merge_above used f i j vi vj a b c :
    f i = Some (mkPl vi b c) -> f j = Some (mkPl vj a b) -> blt a b -> blt b c -> blt c max_start_key ->
    changes (used, f) (CMerge i j)
      (used, set (set f i (Some (mkPl (vi + 1) max_start_key c))) j (Some (mkPl (Z.max vi vj + 1) a c)))
| ch_gone used f i : changes (used, f) (CGone i) (used, set f i None).

(** a world that comes about by such changes, one at each point in time, from nothing *)
Definition made_by_changes (W : world) : Prop :=
  exists C : nat -> cluster, C O = ([], fun _ => None) /\ (forall t, C (S t) = C t \/ exists c, changes (C t) c (C (S t))) /\
    forall t i, W t i = snd (C t) i.
