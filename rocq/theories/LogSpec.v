(** What the raft log storage is for, said without its data structures. *)
From Coq Require Import ZArith List Bool.
From Verif Require Import Bytes SMap Outcome LogModel.
Import ListNotations.
Open Scope Z_scope.

(** The log as its user sees it: the entry last appended at an index of a region and neither cut
    off by a later suffix truncation nor discarded by a reset or by destroying the region.
    Truncating the front removes nothing from it. *)
Definition log := Z -> Z -> option entry.
Definition no_log : log := fun _ _ => None.
Definition set_entry (L : log) (r : Z) (e : entry) : log :=
  fun r' i => if (r' =? r) && (i =? e_index e) then Some e else L r' i.
Definition log_step (L : log) (o : lop) : log :=
  match o with
  | LAppend r es => fold_left (fun L e => set_entry L r e) es L
  | LSuffix r keep => fun r' i => if (r' =? r) && (keep <? i) then None else L r' i
  | LReset r _ | LDestroy r => fun r' i => if r' =? r then None else L r' i
  | _ => L
  end.
Definition log_of (os : list lop) : log := fold_left log_step os no_log.

(** the largest index a client has asked to keep the log of a region from, since the log was last
    reset or destroyed *)
Definition asks := client -> Z -> Z.
Definition ask_step (A : asks) (o : lop) : asks :=
  match o with
  | LPrefix c r keep =>
      fun c' r' => if client_eqb c' c && (r' =? r) then Z.max (A c' r') keep else A c' r'
  | LReset r _ | LDestroy r => fun c' r' => if r' =? r then 0 else A c' r'
  | _ => A
  end.
Definition asked (os : list lop) : asks := fold_left ask_step os (fun _ _ => 0).

(** the index up to which (exclusively) raft has cut the front of the log off, since the region's
    log was last opened; a suffix truncation below it starts the log anew from there *)
Definition cut_step (C : Z -> Z) (o : lop) : Z -> Z :=
  match o with
  | LPrefix Raft r keep => fun r' => if r' =? r then Z.max (C r') keep else C r'
  | LSuffix r keep => fun r' => if r' =? r then Z.min (C r') (keep + 1) else C r'
  | LInit r | LReset r _ | LDestroy r => fun r' => if r' =? r then 0 else C r'
  | LRestart => fun _ => 0
  | _ => C
  end.
Definition raft_cut (os : list lop) : Z -> Z := fold_left cut_step os (fun _ => 0).

(** What braft's log manager and the region controller promise.  Entries are appended at the end
    of the log, without gaps, with terms that never decrease, and carry data.  A region's log is
    opened before it is used. *)
Definition region_ok (r : Z) : Prop := 0 < r <= kMaxIndex.
Definition entry_ok (e : entry) : Prop :=
  (e_type e = tNoOp \/ e_type e = tData \/ e_type e = tConf) /\
  0 < e_term e <= kMaxIndex /\ 0 < e_index e < kMaxIndex /\ e_data e <> [].
Fixpoint continues (i t : Z) (es : list entry) : Prop :=
  match es with
  | [] => True
  | e :: rest => e_index e = i /\ t <= e_term e /\ entry_ok e /\ continues (i + 1) (e_term e) rest
  end.
Definition opened (w : wal) (r : Z) : Prop :=
  get Z.compare (w_terms w) r <> None /\ get Z.compare (w_metas w) r <> None.

Definition lallowed (w : wal) (L : log) (o : lop) : Prop :=
  match o with
  | LInit r => region_ok r
  | LAppend r es =>
      region_ok r /\ opened w r /\ es <> [] /\
      exists last t, last_index w r = Ok last /\ continues (last + 1) t es /\
                     forall i e, L r i = Some e -> i <= last /\ e_term e <= t
  | LPrefix c r keep =>
      region_ok r /\ 0 <= keep <= kMaxIndex /\
      match c with Raft => opened w r | _ => get Z.compare (w_metas w) r <> None end
  | LSuffix r keep => region_ok r /\ opened w r /\ 0 <= keep
  | LReset r next => region_ok r /\ opened w r /\ 1 <= next < kMaxIndex
  | LDestroy r => region_ok r
  | LRestart => True
  end.

(** the states such calls lead to *)
Inductive lreach (cs : list client) (cached : bool) : list lop -> wal -> Prop :=
| lr_init : lreach cs cached [] (wal_init cs cached)
| lr_step os w o w' :
    lreach cs cached os w -> lallowed w (log_of os) o -> lstep w o = Ok w' ->
    lreach cs cached (os ++ [o]) w'.

(** ** The map from index to term on its own *)
Inductive tm_op := TmAppend (i t : Z) | TmPrefix (keep : Z) | TmSuffix (keep : Z).

(** what the code does; None is the return value -1 of Append *)
Definition tm_step (c : cache) (o : tm_op) : option cache :=
  match o with
  | TmAppend i t => cache_append c i t
  | TmPrefix keep => Some (cache_prefix c keep)
  | TmSuffix keep => Some (cache_suffix c keep)
  end.
Fixpoint tm_run (c : cache) (os : list tm_op) : option cache :=
  match os with
  | [] => Some c
  | o :: rest => match tm_step c o with Some c' => tm_run c' rest | None => None end
  end.

(** what it is for: the appended indexes and terms that no later suffix truncation removed, and
    the index from which on prefix truncations left the log *)
Definition tm_log (os : list tm_op) : list (Z * Z) :=
  fold_left (fun l o => match o with
                        | TmAppend i t => l ++ [(i, t)]
                        | TmPrefix _ => l
                        | TmSuffix keep => filter (fun x => fst x <=? keep) l
                        end) os [].
Definition tm_cut (os : list tm_op) : Z :=
  fold_left (fun c o => match o with TmPrefix keep => Z.max c keep | _ => c end) os 0.

(** appends are at the end, with terms that do not decrease *)
Definition tm_allowed (os : list tm_op) : Prop :=
  forall before i t after, os = before ++ TmAppend i t :: after ->
    forall j u, In (j, u) (tm_log before) -> j < i /\ u <= t.

(** ** Requests of a consumer *)
(** the indexes a client asked to keep a region's log from, in order *)
Fixpoint requests (c : client) (r : Z) (os : list lop) : list Z :=
  match os with
  | [] => []
  | LPrefix c' r' keep :: rest =>
      if client_eqb c c' && (r' =? r) then keep :: requests c r rest else requests c r rest
  | _ :: rest => requests c r rest
  end.
