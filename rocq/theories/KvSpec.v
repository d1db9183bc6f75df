(** What a versioned key-value store is, without generations, indexes or revision tables:
    a finite map from keys to entries, a set of leases, and a counter. *)
From Coq Require Import ZArith List Bool Sorted.
From Verif Require Import Bytes KvModel.
Import ListNotations.
Open Scope Z_scope.

Record store := mkSt { st_data : bytes -> option kvo; st_leases : Z -> bool; st_rev : Z }.

Definition set_key (d : bytes -> option kvo) (k : bytes) (v : option kvo) : bytes -> option kvo :=
  fun x => if beqb x k then v else d x.

Definition set_lease (d : Z -> bool) (k : Z) (v : bool) : Z -> bool :=
  fun x => if x =? k then v else d x.

(** a put at revision [m]: the entry keeps its create revision while the key lives, its
    version counts the puts since then *)
Definition spec_put (s : store) (m : Z) (key : bytes) (ignore_lease : bool) (lid : Z)
    (ignore_value : bool) (value : bytes) : store :=
  let old := st_data s key in
  let l := if ignore_lease then match old with Some o => o_lease o | None => 0 end else lid in
  if (0 <? l) && negb (st_leases s l) then s
  else
    let value := if ignore_value then match old with Some o => o_value o | None => [] end else value in
    let new :=
      match old with
      | Some o => mkO key value (o_create o) m (o_ver o + 1) l
      | None => mkO key value m m 1 l
      end in
    mkSt (set_key (st_data s) key (Some new)) (st_leases s) (st_rev s).

Definition spec_op (m : Z) (s : store) (o : op) : store :=
  match o with
  | OPut key il lid iv value => spec_put s m key il lid iv value
  | ODel key => mkSt (set_key (st_data s) key None) (st_leases s) (st_rev s)
  | OCompact _ _ => s
  end.

Definition spec_lop (s : store) (o : lop) : store :=
  match o with
  | LPut id _ => mkSt (st_data s) (set_lease (st_leases s) id true) (st_rev s)
  | LDel id => mkSt (st_data s) (set_lease (st_leases s) id false) (st_rev s)
  end.

(** one log entry: all its operations carry the next revision *)
Definition writes (e : incr) : bool := existsb takes_revision (in_ops e).

Definition spec_entry (s : store) (e : incr) : store :=
  let s1 := fold_left spec_lop (in_leases e) s in
  let s2 := fold_left (spec_op (st_rev s + 1)) (in_ops e) s1 in
  mkSt (st_data s2) (st_leases s2) (if writes e then st_rev s + 1 else st_rev s).

Definition spec_log (log : list incr) : store :=
  fold_left spec_entry log (mkSt (fun _ => None) (fun _ => false) 10000).

(** the store a node is in after applying [log] from the beginning *)
Definition after (log : list incr) : kvst := apply_log kv0 0 log.

(** ** Ranges *)

Definition in_range (key range_end k : bytes) : Prop :=
  match range_end with
  | [] => k = key
  | _ => if beqb range_end [0] then bleb key k = true
         else bleb key k = true /\ bltb k range_end = true
  end.

(** [l] lists exactly the entries of [d] whose key satisfies [P], in key order *)
Definition listing (d : bytes -> option kvo) (P : bytes -> Prop) (l : list kvo) : Prop :=
  StronglySorted (fun a b => bcmp (o_key a) (o_key b) = Lt) l /\
  forall kv, In kv l <-> d (o_key kv) = Some kv /\ P (o_key kv).

Definition limit_of (limit : Z) : Z := if limit <=? 0 then kInt64Max else limit.

Definition without_value (keys_only : bool) (kv : kvo) : kvo :=
  if keys_only then mkO (o_key kv) [] (o_create kv) (o_mod kv) (o_ver kv) (o_lease kv) else kv.

(** the answer to a read that finds the entries [l]: at most [lim] of them, their number, and
    whether there are more; with [count_only] none and the number 0 *)
Definition answer_of (l : list kvo) (lim : Z) (keys_only count_only : bool) : range_out :=
  let shown := firstn (Z.to_nat lim) l in
  if count_only then mkR [] 0 (lim <? Z.of_nat (length l))
  else mkR (map (without_value keys_only) shown) (Z.of_nat (length shown)) (lim <? Z.of_nat (length l)).

(** keys a put request accepts *)
Definition legal_key (k : bytes) : Prop := k <> [] /\ bytes_ok k /\ (length k <= kMaxKey)%nat.

(** the one legal key that a read to the end of the key space does not reach *)
Definition top_key : bytes := repeat 255 kMaxKey.

Definition put_keys (P : bytes -> Prop) (e : incr) : Prop :=
  forall key il lid iv value, In (OPut key il lid iv value) (in_ops e) -> P key.

(** ** Revisions in answers *)

(** the revision in the answer to entry [e] applied in [s], if it has one *)
Definition answer_rev (s : kvst) (e : incr) : option Z :=
  snd (ops_effs (performs s (map lop_eff (in_leases e))) (in_ops e) None 1).

(** the revisions answered along a log, oldest first *)
Fixpoint answers (s : kvst) (n : Z) (es : list incr) : list Z :=
  match es with
  | [] => []
  | e :: r =>
      (match answer_rev s e with Some m => [m] | None => [] end) ++ answers (apply_entry s (n + 1) e) (n + 1) r
  end.

(** ** Compaction *)

Definition is_compact (o : op) : bool := match o with OCompact _ _ => true | _ => false end.

(** the same entry without its compactions *)
Definition drop_compact (e : incr) : incr := mkInc (in_leases e) (filter (fun o => negb (is_compact o)) (in_ops e)).

(** the revisions the index of [k] lists *)
Definition listed (s : kvst) (k : bytes) : list rev :=
  match iget (k_index s) k with Some i => concat (map g_revs (i_gens i)) | None => [] end.

(** ** Crashes *)

(** the entries of the log that requests make: a put, deletions with or without changes of
    leases, changes of leases, compactions *)
Definition is_delete (o : op) : bool := match o with ODel _ => true | _ => false end.

Definition put_entry (e : incr) : Prop :=
  in_leases e = [] /\ exists key il lid iv value, in_ops e = [OPut key il lid iv value].
Definition delete_entry (e : incr) : Prop := forallb is_delete (in_ops e) = true.
Definition compact_entry (e : incr) : Prop := in_leases e = [] /\ forallb is_compact (in_ops e) = true.

(** the state after [log] and entry [e], when the process died after [j] steps of [e], was
    started again and got [e] again *)
Definition crashed (log : list incr) (e : incr) (j : nat) : kvst :=
  crash_replay (after log) (Z.of_nat (length log) + 1) e j.

(** an answer without the versions *)
Definition forget_version (kv : kvo) : kvo := mkO (o_key kv) (o_value kv) (o_create kv) (o_mod kv) 0 (o_lease kv).
Definition forget_versions (r : range_out) : range_out := mkR (map forget_version (ro_kvs r)) (ro_count r) (ro_more r).
