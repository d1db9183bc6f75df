(** What the in-memory lock table promises. *)
From Coq Require Import ZArith List Bool Arith.
From Verif Require Import Bytes SMap TxnModel TxnReadModel ConcModel.
Import ListNotations.
Open Scope Z_scope.

(** the read touches key k *)
Definition in_scope (sc : scope) (k : bytes) : Prop :=
  match sc with
  | Keys ks => In k ks
  | Range a b => bcmp a k <> Gt /\ bcmp k b = Lt
  end.

(** a prewrite as the store service issues it: its latches are its keys, it unpublishes them, all its
    locks carry its start timestamp *)
Definition store_service (q : wreq) : Prop :=
  (forall k, In k (all_keys q) -> In k (w_latch q)) /\ w_unlock q = true /\ 0 < w_start_ts q /\
  forall it, In it (w_items q) -> l_ts (i_lock it) = w_start_ts q.

(** for_update_ts of a pessimistic lock is covered by the request: it is checked by the request, or the
    requested min_commit_ts is larger *)
Definition covers_for_update (q : wreq) : Prop :=
  forall it, In it (w_items q) -> l_fut (i_lock it) <= i_fut it \/ l_fut (i_lock it) < l_minc (i_lock it).

(** prewrite i has published a lock on k and its write has not been applied yet (a prewrite that has
    fallen back to two-phase commit or failed is not considered any more) *)
Definition published (s : cstate) (i : nat) (k : bytes) : Prop :=
  exists w j, nth_error (wrs s) i = Some w /\ nth_error (item_keys (wq w)) j = Some k /\
    match wph w with
    | WPub n => (j < n)%nat
    | WTs n _ | WRel n _ _ => (j <= n)%nat
    | WWrite => w_final w <> 0
    | _ => False
    end.

(** a look-up of key k finds a lock of prewrite i *)
Definition visible (s : cstate) (i : nat) (k : bytes) : Prop :=
  exists e x, get bcmp (tab (tb s)) k = Some e /\ nth_error (heap (tb s)) e = Some x /\
    e_owner x = i /\ e_dead x = false /\ l_key (e_lock x) = k.
