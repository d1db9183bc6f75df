(** Theorems about leases of the versioned key-value store: C26, C62. *)
From Coq Require Import ZArith List Bool.
From Verif Require Import Bytes KvModel LeaseModel LeaseSpec LeaseProofs5.
Import ListNotations.
Open Scope Z_scope.

Definition k1 : bytes := [97].
Definition k2 : bytes := [98].
Definition k3 : bytes := [99].

(** Two leases, three keys; lease 5 holds [k1] and [k2]'s successor, [k3] has no lease; the leader changed once. *)
Definition served : list sreq :=
  [SGrant 5 10 1000; SGrant 6 100 1000; SPut k1 [1] 5 false false 1001; SPut k2 [2] 6 false false 1001;
   SPut k3 [3] 0 false false 1001; SPut k1 [4] 5 false false 1002; SDelete k2 []; SPut k2 [5] 5 false false 1003; SElect;
   SRenew 6 1004].

Lemma served_tidy : tidy served.
Proof. vm_compute. repeat split; auto. repeat constructor; simpl; tauto. Qed.

(** ** C26: requests served one at a time *)

(** Revoking a lease removes the lease and exactly the keys attached to it. *)
Theorem C26_revoke : forall h id,
  tidy h -> lease_at (state h) id <> None ->
  (forall x, lease_at (state (h ++ [SRevoke id])) x = if x =? id then None else lease_at (state h) x) /\
  (forall k, entry_of (state (h ++ [SRevoke id])) k =
     match entry_of (state h) k with Some kv => if o_lease kv =? id then None else Some kv | None => None end).
Proof. exact revoke_thm. Qed.
Print Assumptions C26_revoke.

(** A run of the background task at [now] removes exactly the leases more than their ttl past their last
    renewal, and exactly the keys attached to one of them. *)
Theorem C26_expiry : forall h now,
  tidy h ->
  (forall x, lease_at (state (h ++ [STask now])) x = if overdue (state h) now x then None else lease_at (state h) x) /\
  (forall k, entry_of (state (h ++ [STask now])) k =
     match entry_of (state h) k with Some kv => if overdue (state h) now (o_lease kv) then None else Some kv | None => None end).
Proof. exact expiry_thm. Qed.
Print Assumptions C26_expiry.

(** Renewing moves the last renewal to now, and changes nothing else. *)
Theorem C26_renew : forall h id now,
  (forall x, lease_at (state (h ++ [SRenew id now])) x =
     if x =? id then match lease_at (state h) id with Some l => Some (mkL (l_ttl l) now) | None => None end else lease_at (state h) x) /\
  (forall k, entry_of (state (h ++ [SRenew id now])) k = entry_of (state h) k).
Proof. exact renew_thm. Qed.
Print Assumptions C26_renew.

(** A grant of an unused id makes a lease with the ttl asked for, cut to 3..300 seconds. *)
Theorem C26_grant : forall h id ttl now,
  id <> 0 -> Z.of_nat (length (k_leases (state h))) <= 50000 -> lease_at (state h) id = None ->
  (forall x, lease_at (state (h ++ [SGrant id ttl now])) x =
     if x =? id then Some (mkL (Z.max 3 (Z.min 300 ttl)) now) else lease_at (state h) x) /\
  (forall k, entry_of (state (h ++ [SGrant id ttl now])) k = entry_of (state h) k).
Proof. exact grant_thm. Qed.
Print Assumptions C26_grant.

(** A put under a lease attaches the key when the lease exists and is not past its time and the key is new
    or already attached to it; otherwise the key stays as it is. *)
Theorem C26_put : forall h key value lid now,
  lid <> 0 ->
  let s := state h in
  let s' := state (h ++ [SPut key value lid false false now]) in
  (forall x, lease_at s' x = lease_at s x) /\
  (forall k, k <> key -> entry_of s' k = entry_of s k) /\
  ((exists l, lease_at s lid = Some l /\ now < l_ttl l + l_renew l) ->
   put_check s key value false = None ->
   (forall kv, entry_of s key = Some kv -> o_lease kv = lid) ->
   exists kv, entry_of s' key = Some kv /\ o_value kv = value /\ o_lease kv = lid /\ o_mod kv = k_rev s + 1) /\
  ((forall l, lease_at s lid = Some l -> l_ttl l + l_renew l <= now) \/
   (exists kv, entry_of s key = Some kv /\ o_lease kv <> lid) ->
   entry_of s' key = entry_of s key).
Proof. exact put_thm. Qed.
Print Assumptions C26_put.

Example C26_example :
  tidy served /\
  lease_at (state served) 5 = Some (mkL 10 1000) /\ lease_at (state served) 6 = Some (mkL 100 1004) /\
  option_map o_lease (entry_of (state served) k1) = Some 5 /\ option_map o_lease (entry_of (state served) k2) = Some 5 /\
  option_map o_lease (entry_of (state served) k3) = Some 0 /\
  entry_of (state (served ++ [STask 1011])) k2 = None /\ lease_at (state (served ++ [STask 1010])) 5 <> None /\
  entry_of (state (served ++ [SRevoke 5])) k1 = None /\ entry_of (state (served ++ [SRevoke 6])) k1 <> None /\
  lease_at (state (served ++ [SGrant 9 1000 7])) 9 = Some (mkL 300 7) /\
  put_check (state served) k1 [9] false = None /\
  option_map o_lease (entry_of (state (served ++ [SPut [100] [9] 6 false false 1100])) [100]) = Some 6 /\
  entry_of (state (served ++ [SPut [100] [9] 6 false false 1104])) [100] = None.
Proof. split; [exact served_tidy|]. vm_compute. repeat split; discriminate. Qed.

(** ** C62: overlapping requests, failed proposals, deletes of several keys *)

(** Served one at a time, with any deletes: no key outlives its lease. *)
Theorem C62_attached_partial : forall h k kv,
  entry_of (state h) k = Some kv -> o_lease kv <> 0 -> lease_at (state h) (o_lease kv) <> None.
Proof. exact attached_thm. Qed.
Print Assumptions C62_attached_partial.

(** Revoking and expiry remove at least the attached keys. *)
Theorem C62_complete_partial : forall h r k kv,
  entry_of (state (h ++ [r])) k = Some kv ->
  match r with
  | SRevoke id => lease_at (state h) id <> None -> o_lease kv <> id
  | STask now => overdue (state h) now (o_lease kv) = false
  | _ => True
  end.
Proof. exact complete_thm. Qed.
Print Assumptions C62_complete_partial.

(** A delete of two keys of one lease leaves one of them in the lease's table: put again without a lease,
    that key is deleted when the lease expires. *)
Definition forgotten : list sreq :=
  [SGrant 5 10 1000; SPut k1 [1] 5 false false 1001; SPut k2 [2] 5 false false 1001; SDelete k1 k3;
   SPut k1 [3] 0 false false 1002].
Theorem C62_exact_refuted : exists h now k kv,
  entry_of (state h) k = Some kv /\ o_lease kv = 0 /\ entry_of (state (h ++ [STask now])) k = None.
Proof. exists forgotten, 1011, k1. eexists. vm_compute. repeat split. Qed.

(** A put waiting to be applied while its lease is revoked: the key stays, attached to a lease that is gone,
    and no later run of the task removes it, also after a change of leader. *)
Theorem C62_orphan_refuted : exists evs k kv,
  let n := lsteps ln0 evs in
  n_queue n = [] /\ entry_of (n_kv n) k = Some kv /\ o_lease kv = 5 /\ lease_at (n_kv n) 5 = None /\
  entry_of (n_kv (lsteps n [EvTask 100000 false; EvElect; EvBuild; EvTask 200000 false])) k = Some kv.
Proof.
  exists [EvGrant 5 10 1000; EvApply; EvPutKv k1 [1] 5 false false 1001; EvRevoke 5; EvApply; EvApply], k1. eexists.
  cbv zeta. vm_compute. repeat split.
Qed.

(** Two puts of a new key, one under a lease and one without, both accepted: the key ends without a lease and
    is deleted when the lease expires. *)
Theorem C62_overlap_refuted : exists evs now k kv,
  let n := lsteps ln0 evs in
  n_queue n = [] /\ entry_of (n_kv n) k = Some kv /\ o_lease kv = 0 /\ entry_of (n_kv (lsteps n [EvTask now false])) k = None.
Proof.
  exists [EvGrant 5 10 1000; EvApply; EvPutKv k1 [1] 5 false false 1001; EvPutKv k1 [2] 0 false false 1001; EvApply; EvApply], 1011, k1.
  eexists. cbv zeta. vm_compute. repeat split.
Qed.

(** A delete whose proposal fails has already detached the key: the key outlives the lease. *)
Theorem C62_lost_delete_refuted : exists evs k kv,
  let n := lsteps ln0 evs in
  n_queue n = [] /\ entry_of (n_kv n) k = Some kv /\ o_lease kv = 5 /\ lease_at (n_kv n) 5 = None.
Proof.
  exists [EvGrant 5 10 1000; EvApply; EvPutKv k1 [1] 5 false false 1001; EvApply; EvDelRange k1 []; EvLose 0; EvTask 1011 false], k1.
  eexists. cbv zeta. vm_compute. repeat split.
Qed.

(** A revocation whose proposal fails leaves a lease that the task never expires while this leader stays. *)
Theorem C62_lost_revoke_refuted : exists evs now,
  let n := lsteps ln0 evs in
  n_queue n = [] /\ overdue (n_kv n) now 5 = true /\ lease_at (n_kv (lsteps n [EvTask now false])) 5 <> None.
Proof.
  exists [EvGrant 5 10 1000; EvApply; EvRevoke 5; EvLose 0], 100000. cbv zeta. vm_compute. repeat split. discriminate.
Qed.

(** A grant whose proposal fails leaves its entry in the table: the same id granted later for 300 seconds
    expires one second after the grant. *)
Theorem C62_lost_grant_refuted : exists evs l,
  let n := lsteps ln0 evs in
  n_queue n = [] /\ lease_at (n_kv n) 5 = Some l /\ l_ttl l = 300 /\ l_renew l = 2000 /\
  lease_at (n_kv (lsteps n [EvTask 2001 false])) 5 = None.
Proof.
  exists [EvGrant 5 10 1000; EvLose 0; EvGrant 5 300 2000; EvApply], (mkL 300 2000). cbv zeta. vm_compute. repeat split.
Qed.

(** After an election and before the table is built, a revocation works with the table this node had when it
    last led (or with none, and is refused): keys attached since stay. *)
Theorem C62_stale_refuted : exists evs k kv,
  let n := lsteps ln0 evs in
  n_queue n = [] /\ entry_of (n_kv n) k = Some kv /\ o_lease kv = 5 /\ lease_at (n_kv n) 5 = None.
Proof.
  exists [EvGrant 5 10 1000; EvApply; EvPutKv k1 [1] 5 false false 1001; EvApply; EvDelRange k1 []; EvLose 0; EvElect; EvRevoke 5; EvApply], k1.
  eexists. cbv zeta. vm_compute. repeat split.
Qed.
