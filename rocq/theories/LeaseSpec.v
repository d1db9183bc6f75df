(** Leases as a client sees them. *)
From Coq Require Import ZArith List Bool.
From Verif Require Import Bytes KvModel LeaseModel.
Import ListNotations.
Open Scope Z_scope.

(** the entry a read of key [k] returns *)
Definition entry_of (s : kvst) (k : bytes) : option kvo :=
  match do_range s k [] 0 false false with
  | Some r => hd_error (ro_kvs r)
  | None => None
  end.

(** the lease a client sees in the list of leases *)
Definition lease_at (s : kvst) (id : Z) : option lease := lget (k_leases s) id.

(** ** Requests served one at a time: each one's log entry is applied before the next starts *)

Inductive sreq :=
| SGrant (id ttl now : Z)
| SRenew (id now : Z)
| SRevoke (id : Z)
| SPut (key value : bytes) (lid : Z) (ignore_value ignore_lease : bool) (now : Z)
| SDelete (key range_end : bytes)
| SCompact (keys : list bytes) (c : Z)
| STask (now : Z)               (** a run of the background task *)
| SElect.                       (** a change of leader *)

Definition events_of (r : sreq) : list lev :=
  match r with
  | SGrant id ttl now => [EvGrant id ttl now; EvApply]
  | SRenew id now => [EvRenew id now; EvApply]
  | SRevoke id => [EvRevoke id; EvApply]
  | SPut key value lid iv il now => [EvPutKv key value lid iv il now; EvApply]
  | SDelete key range_end => [EvDelRange key range_end; EvApply]
  | SCompact keys c => [EvCompactKeys keys c; EvApply]
  | STask now => [EvTask now false]
  | SElect => [EvElect; EvBuild]
  end.

Definition serve (n : lnode) (r : sreq) : lnode := lsteps n (events_of r).
Definition serves (h : list sreq) : lnode := fold_left serve h ln0.
Definition state (h : list sreq) : kvst := n_kv (serves h).

(** no delete request of the history removed two keys of one lease at once *)
Definition apart (s : kvst) (key range_end : bytes) : Prop :=
  match do_range s key range_end 0 true false with
  | Some r => NoDup (filter (fun l => negb (l =? 0)) (map o_lease (ro_kvs r)))
  | None => True
  end.

Fixpoint tidy_from (n : lnode) (h : list sreq) : Prop :=
  match h with
  | [] => True
  | r :: h' =>
      (match r with SDelete key range_end => apart (n_kv n) key range_end | _ => True end)
      /\ tidy_from (serve n r) h'
  end.
Definition tidy (h : list sreq) : Prop := tidy_from ln0 h.

(** lease [id] is past its time at [now] *)
Definition overdue (s : kvst) (now id : Z) : bool :=
  match lease_at s id with Some l => l_ttl l + l_renew l <? now | None => false end.
