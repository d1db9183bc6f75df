(** Leases of the versioned key-value store, as its leader keeps them: the table from a lease
    to its keys (lease_to_key_map_, memory only), the requests that consult and change it
    before their log entry is applied, and the background task that revokes expired leases.

    Every request runs as one step: each works under lease_to_key_map_mutex_ in one or two
    critical sections (KvPut: LeaseQuery, then LeaseAddKeys), and hands its log entry to raft
    afterwards.  [n_queue] holds the entries handed over and not applied yet, so requests
    overlap freely with the entries of earlier ones.  The key counter of KvPut and the id
    counter of LeaseGrant (request id 0) are left out: a grant is called with its final id. *)
From Coq Require Import ZArith List Lia Bool.
From Verif Require Import Bytes SMap KvModel.
Import ListNotations.
Open Scope Z_scope.

(** KvLeaseWithKeys, kv_control.h; the keys are a std::set, here a list without repetitions
    in order of insertion (the order only decides sub revisions) *)
Definition l2k := list (Z * (lease * list bytes)).

Definition kget : l2k -> Z -> option (lease * list bytes) := get Z.compare.
Definition kput : l2k -> Z -> lease * list bytes -> l2k := put Z.compare.
Definition kdel : l2k -> Z -> l2k := del Z.compare.

Definition kadd (k : bytes) (ks : list bytes) : list bytes := if existsb (beqb k) ks then ks else ks ++ [k].
Definition krem (k : bytes) (ks : list bytes) : list bytes := filter (fun x => negb (beqb k x)) ks.

(** [n_kv] = the applied state, [n_index] = its log index, [n_l2k] = lease_to_key_map_,
    [n_inited] = lease_to_key_map_init_term_ is the leader's term *)
Record lnode := mkN {
  n_kv : kvst; n_index : Z; n_l2k : l2k; n_inited : bool; n_queue : list incr }.

Definition set_l2k (n : lnode) (m : l2k) : lnode := mkN (n_kv n) (n_index n) m (n_inited n) (n_queue n).
Definition propose (n : lnode) (e : incr) : lnode :=
  mkN (n_kv n) (n_index n) (n_l2k n) (n_inited n) (n_queue n ++ [e]).

(** FLAGS_version_lease_max_ttl_seconds, .._min_ttl_seconds, .._max_count, kv_control_lease.cc:36-43 *)
Definition kMaxTtl : Z := 300.
Definition kMinTtl : Z := 3.
Definition kMaxLeases : Z := 50000.

(** kv_control_lease.cc:54-64 *)
Definition clamp_ttl (ttl : Z) : Z :=
  if kMaxTtl <? ttl then kMaxTtl else if ttl <? kMinTtl then kMinTtl else ttl.

(** LeaseGrant, kv_control_lease.cc:51-118.  emplace (114) leaves an entry that is there. *)
Definition lease_grant (n : lnode) (id ttl now : Z) : lnode :=
  let ttl := clamp_ttl ttl in
  if kMaxLeases <? Z.of_nat (length (k_leases (n_kv n))) then n
  else if negb (n_inited n) then n
  else if id =? 0 then n
  else match lget (k_leases (n_kv n)) id with
       | Some _ => n
       | None =>
           let l := mkL ttl now in
           let m := match kget (n_l2k n) id with Some _ => n_l2k n | None => kput (n_l2k n) id (l, []) end in
           propose (set_l2k n m) (mkInc [LPut id l] [])
       end.

(** LeaseRenew, kv_control_lease.cc:120-161: the table is changed even when the lease turns
    out not to exist *)
Definition lease_renew (n : lnode) (id now : Z) : lnode :=
  if negb (n_inited n) then n
  else match kget (n_l2k n) id with
       | None => n
       | Some (l, ks) =>
           let n' := set_l2k n (kput (n_l2k n) id (mkL (l_ttl l) now, ks)) in
           match lget (k_leases (n_kv n)) id with
           | None => n'
           | Some l0 => propose n' (mkInc [LPut id (mkL (l_ttl l0) now)] [])
           end
       end.

(** LeaseRevoke, kv_control_lease.cc:163-221, without the mutex: what it adds to the increment
    and the table it leaves.  KvDeleteRange(key, "") deletes the key if it is live now,
    whatever its lease is now. *)
Definition revoke_one (s : kvst) (m : l2k) (id : Z) : option (lop * list op * l2k) :=
  match kget m id with
  | None => None
  | Some (_, ks) =>
      match lget (k_leases s) id with
      | None => None
      | Some _ =>
          Some (LDel id, flat_map (fun k => map (fun kv => ODel (o_key kv)) (delete_keys s k [])) ks, kdel m id)
      end
  end.

(** DoLeaseRevoke, server/version_service.cc:130-172.  The service does not test [n_inited]. *)
Definition lease_revoke (n : lnode) (id : Z) : lnode :=
  match revoke_one (n_kv n) (n_l2k n) id with
  | None => n
  | Some (o, ds, m) => propose (set_l2k n m) (mkInc [o] ds)
  end.

(** LeaseQuery, kv_control_lease.cc:233-264: is the lease usable at [now]? *)
Definition lease_ok (n : lnode) (id now : Z) : bool :=
  n_inited n &&
  match kget (n_l2k n) id with
  | None => false
  | Some (l, _) => negb (l_ttl l - (now - l_renew l) <=? 0)
  end.

(** KvPut, kv_control_kv.cc:348-483 *)
Definition kv_put (n : lnode) (key value : bytes) (lid : Z) (ignore_value ignore_lease : bool) (now : Z) : lnode :=
  match put_check (n_kv n) key value ignore_value with
  | Some _ => n
  | None =>
      if negb ignore_lease && negb (lid =? 0) && negb (lease_ok n lid now) then n
      else match put_lease (n_kv n) key lid ignore_lease with
           | inr _ => n
           | inl grant =>
               if grant =? 0 then propose n (put_incr key value grant ignore_value ignore_lease)
               else match kget (n_l2k n) grant with
                    | None => n
                    | Some (l, ks) =>
                        propose (set_l2k n (kput (n_l2k n) grant (l, kadd key ks)))
                                (put_incr key value grant ignore_value ignore_lease)
                    end
           end
  end.

(** keys_to_remove_lease, kv_control_kv.cc:529-536: insert_or_assign keeps one key per lease *)
Definition lease_keys (kvs : list kvo) : list (Z * bytes) :=
  fold_left (fun m kv => if o_lease kv =? 0 then m else put Z.compare m (o_lease kv) (o_key kv)) kvs [].

(** LeaseRemoveMultiLeaseKeys, kv_control_lease.cc:527-556 *)
Definition remove_keys (m : l2k) (l : list (Z * bytes)) : l2k :=
  fold_left (fun m p => match kget m (fst p) with
                        | None => m
                        | Some (l, ks) => kput m (fst p) (l, krem (snd p) ks)
                        end) l m.

(** DoKvDeleteRange, server/version_service.cc:546-605, and KvDeleteRange, kv_control_kv.cc:492-563 *)
Definition kv_delete (n : lnode) (key range_end : bytes) : lnode :=
  match key with
  | [] => n
  | _ => propose (set_l2k n (remove_keys (n_l2k n) (lease_keys (delete_keys (n_kv n) key range_end))))
                 (delete_incr (n_kv n) key range_end)
  end.

(** the expired leases of LeaseTask, kv_control_lease.cc:320-334 *)
Definition expired_ids (m : l2k) (now : Z) : list Z :=
  map fst (filter (fun p => l_ttl (fst (snd p)) + l_renew (fst (snd p)) <? now) m).

(** kv_control_lease.cc:336-338: the increment of all revocations *)
Fixpoint revoke_all (s : kvst) (m : l2k) (ids : list Z) : list lop * list op * l2k :=
  match ids with
  | [] => ([], [], m)
  | id :: ids' =>
      match revoke_one s m id with
      | None => revoke_all s m ids'
      | Some (o, ds, m') => let '(os, dss, m'') := revoke_all s m' ids' in (o :: os, ds ++ dss, m'')
      end
  end.

(** the entry at the head of the queue is applied *)
Definition apply_head (n : lnode) : lnode :=
  match n_queue n with
  | [] => n
  | e :: q => mkN (apply_entry (n_kv n) (n_index n + 1) e) (n_index n + 1) (n_l2k n) (n_inited n) q
  end.

Fixpoint drain (k : nat) (n : lnode) : lnode :=
  match k with O => n | Datatypes.S k => drain k (apply_head n) end.

(** LeaseTask of the leader when the table is ready, kv_control_lease.cc:313-349: the increment
    is submitted with the mutex held, and the call waits until it is applied; nothing is
    submitted when the increment is empty.  [lost]: SubmitMetaIncrementSync failed. *)
Definition lease_task (n : lnode) (now : Z) (lost : bool) : lnode :=
  if negb (n_inited n) then n
  else
    let '(os, ds, m) := revoke_all (n_kv n) (n_l2k n) (expired_ids (n_l2k n) now) in
    let n' := set_l2k n m in
    match os with
    | [] => n'
    | _ =>
        if lost then n'
        else let n2 := propose n' (mkInc os ds) in drain (length (n_queue n2)) n2
    end.

(** has_create_revision() of the latest generation, kv_control_lease.cc:403-411 *)
Definition created_idx (i : idx) : bool :=
  match last_gen (i_gens i) with
  | Some g => match g_create g with Some _ => true | None => false end
  | None => false
  end.

(** one round of kv_control_lease.cc:423-447 *)
Definition build_key (s : kvst) (m : l2k) (p : bytes * idx) : l2k :=
  if created_idx (snd p) then
    match k_revs s (i_mod (snd p)) with
    | None => m
    | Some v =>
        if v_lease v =? 0 then m
        else match kget m (v_lease v) with
             | None => m
             | Some (l, ks) => kput m (v_lease v) (l, kadd (v_key v) ks)
             end
    end
  else m.

(** BuildLeaseToKeyMap, kv_control_lease.cc:359-465 *)
Definition build_map (s : kvst) : l2k :=
  fold_left (build_key s) (k_index s) (map (fun p => (fst p, (snd p, []))) (k_leases s)).

Inductive lev :=
| EvGrant (id ttl now : Z)
| EvRenew (id now : Z)
| EvRevoke (id : Z)
| EvPutKv (key value : bytes) (lid : Z) (ignore_value ignore_lease : bool) (now : Z)
| EvDelRange (key range_end : bytes)
| EvCompactKeys (keys : list bytes) (c : Z)
| EvTask (now : Z) (lost : bool)
| EvApply                      (** raft applies the oldest entry *)
| EvLose (k : nat)             (** all but the first [k] waiting entries are lost *)
| EvElect                      (** a new term: the entries of the old one are applied first; the
                                   table of the last term this node led is still there *)
| EvBuild.                     (** the first LeaseTask of a term, kv_control_lease.cc:279-290 *)

Definition lstep (n : lnode) (e : lev) : lnode :=
  match e with
  | EvGrant id ttl now => lease_grant n id ttl now
  | EvRenew id now => lease_renew n id now
  | EvRevoke id => lease_revoke n id
  | EvPutKv key value lid iv il now => kv_put n key value lid iv il now
  | EvDelRange key range_end => kv_delete n key range_end
  | EvCompactKeys keys c => propose n (compact_incr keys c)
  | EvTask now lost => lease_task n now lost
  | EvApply => apply_head n
  | EvLose k => mkN (n_kv n) (n_index n) (n_l2k n) (n_inited n) (firstn k (n_queue n))
  | EvElect => let n' := drain (length (n_queue n)) n in
               mkN (n_kv n') (n_index n') (n_l2k n') false (n_queue n')
  | EvBuild => mkN (n_kv n) (n_index n) (build_map (n_kv n)) true (n_queue n)
  end.

Definition lsteps (n : lnode) (es : list lev) : lnode := fold_left lstep es n.

(** an empty store whose leader has built its table *)
Definition ln0 : lnode := mkN kv0 0 [] true [].
