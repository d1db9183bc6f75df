(** The timestamp oracle of the coordinator (coordinator/tso_control.cc), run by a raft group.

    The raft log is one list of committed entries that every node applies in order.  Raft guarantees
    used (braft): a node is told that it is the leader (on_leader_start) when it has applied the whole
    log; a node that still believes to be the leader of an older term applies no entry of a newer term
    before on_leader_stop; only the leader of the latest term can append.  A proposal that a deposed
    leader has put into the log and that a later leader commits is appended before the later election.
    Clocks are arbitrary: every step that reads the clock is given the value. *)
From Coq Require Import ZArith List Bool Arith.
Import ListNotations.
Open Scope Z_scope.

(** tso_control.h:32-37 *)
Definition kInterval : Z := 50.
Definition kGuard : Z := 1.
Definition kSave : Z := 3000.
Definition kMaxLogical : Z := 262144.

(** pb::meta::TsoRequest with OP_UPDATE_TSO or OP_RESET_TSO; [u_term]: term of the proposing leader *)
Inductive kind := Update | Reset (force : bool).
Record upd := mkU { u_kind : kind; u_phys : Z; u_logic : Z; u_save : Z; u_term : nat }.

(** a node: tso_obj_ (tso_control.h:84-87), is_healty_, leader_term_ ([None]: -1), the index it has
    applied.  [n_synced]: an entry of its current term has been applied.  [n_pend]: proposals computed by
    OnLeaderStart or the timer, not submitted yet.  [n_out]: proposals submitted in this term, still
    waited for (SyncTimestamp waits, 101-135). *)
Record tnode := mkN { n_phys : Z; n_logic : Z; n_save : Z; n_ok : bool; n_term : option nat; n_app : nat;
                      n_synced : bool; n_pend : list upd; n_out : nat }.

(** TsoControl::Init, 322-330 *)
Definition fresh : tnode := mkN 0 0 0 true None 0 false [] 0.

(** UpdateTso, 286-310 *)
Definition update_tso (n : tnode) (u : upd) : tnode :=
  if (u_save u <? n_save n) || (u_phys u <? n_phys n) then n
  else mkN (u_phys u) (u_logic u) (u_save u) (n_ok n) (n_term n) (n_app n) (n_synced n) (n_pend n) (n_out n).

(** ResetTso, 249-284 (the request has a current timestamp) *)
Definition reset_tso (n : tnode) (force : bool) (u : upd) : tnode :=
  if 0 <? u_save u then
    if ((u_save u <? n_save n) || (u_phys u <? n_phys n)) && negb force then n
    else mkN (u_phys u) (u_logic u) (u_save u) true (n_term n) (n_app n) (n_synced n) (n_pend n) (n_out n)
  else n.

(** ApplyMetaIncrement, 418-452 *)
Definition apply_upd (n : tnode) (u : upd) : tnode :=
  match u_kind u with Update => update_tso n u | Reset f => reset_tso n f u end.

(** OnLeaderStart, 380-391: the timestamp to synchronise *)
Definition leader_start (n : tnode) (now : Z) : upd :=
  let p := if now <? n_save n + kInterval then n_save n + kGuard else now in
  mkU Update p 0 (p + kSave) 0.

(** UpdateTimestamp, 61-99 *)
Definition update_timestamp (n : tnode) (now : Z) : option upd :=
  let delta := now - n_phys n in
  let next := if delta >? kGuard then Some now
              else if n_logic n >? kMaxLogical / 2 then Some (n_phys n + kGuard)
              else None in
  match next with
  | None => None
  | Some next =>
      let save := if n_save n - next <=? kGuard then next + kSave else n_save n in
      Some (mkU Update next 0 save 0)
  end.

(** what a client gets *)
Inductive answer := Stamp (p l c : Z) | EParam | ERetry | EFailed | ENotLeader.

(** GenTso, 137-188, one try of the loop (after 50 tries without success: EEXEC_FAIL) *)
Definition gen_tso (n : tnode) (count : Z) : tnode * answer :=
  if count =? 0 then (n, EParam)
  else if negb (n_ok n) then (n, ERetry)
  else if n_phys n =? 0 then (n, EFailed)
  else if n_logic n + count <? kMaxLogical
  then (mkN (n_phys n) (n_logic n + count) (n_save n) (n_ok n) (n_term n) (n_app n) (n_synced n) (n_pend n) (n_out n),
        Stamp (n_phys n) (n_logic n) count)
  else (n, EFailed).

(** the group *)
Record cluster := mkCl { nodes : nat -> tnode; tlog : list upd; lead : option nat; terms : nat }.

Inductive ev :=
| Elect (i : nat) (now : Z)        (* on_leader_start, meta_state_machine.cc:237-242 *)
| Submit (i : nat)                 (* the next computed proposal goes to raft, SyncTimestamp 101-121 *)
| Unhealthy (i : nat)              (* SyncTimestamp of OnLeaderStart returned an error, 394-398 *)
| Apply (i : nat)                  (* on_apply of the next entry *)
| Timer (i : nat) (now : Z)        (* UpdateTimestamp up to the submission *)
| Stop (i : nat)                   (* on_leader_stop, meta_state_machine.cc:244-250 *)
| Gen (i : nat) (count : Z)        (* Process with OP_GEN_TSO, 194-228 *)
| Client (i : nat) (u : upd)       (* Process with another operation, 229-245 *)
| Restart (i : nat) (from : option nat)  (* crash; restart from nothing or from a snapshot of a node, 461-502 *)
| Install (i j : nat).             (* node i installs a snapshot of node j *)

Definition set (f : nat -> tnode) (i : nat) (n : tnode) : nat -> tnode := fun j => if Nat.eqb j i then n else f j.

Definition with_term (n : tnode) (t : option nat) (sy : bool) (pend : list upd) (out : nat) : tnode :=
  mkN (n_phys n) (n_logic n) (n_save n) (n_ok n) t (n_app n) sy pend out.

Definition tstep (s : cluster) (e : ev) : cluster * option answer :=
  match e with
  | Elect i now =>
      let n := nodes s i in
      match n_term n with
      | Some _ => (s, None)
      | None =>
          if Nat.eqb (n_app n) (length (tlog s))
          then (mkCl (set (nodes s) i (with_term n (Some (S (terms s))) false (n_pend n ++ [leader_start n now]) 0))
                     (tlog s) (Some i) (S (terms s)), None)
          else (s, None)
      end
  | Submit i =>
      let n := nodes s i in
      match n_pend n with
      | [] => (s, None)
      | u :: r =>
          match lead s, n_term n with
          | Some j, Some t =>
              if Nat.eqb j i
              then (mkCl (set (nodes s) i (with_term n (n_term n) (n_synced n) r (S (n_out n))))
                         (tlog s ++ [mkU (u_kind u) (u_phys u) (u_logic u) (u_save u) t]) (lead s) (terms s), None)
              else (mkCl (set (nodes s) i (with_term n (n_term n) (n_synced n) r (n_out n))) (tlog s) (lead s) (terms s), None)
          | _, _ => (mkCl (set (nodes s) i (with_term n (n_term n) (n_synced n) r (n_out n))) (tlog s) (lead s) (terms s), None)
          end
      end
  | Unhealthy i =>
      let n := nodes s i in
      (mkCl (set (nodes s) i (mkN (n_phys n) (n_logic n) (n_save n) false (n_term n) (n_app n) (n_synced n) (n_pend n) (n_out n)))
            (tlog s) (lead s) (terms s), None)
  | Apply i =>
      let n := nodes s i in
      match nth_error (tlog s) (n_app n) with
      | None => (s, None)
      | Some u =>
          let own := match n_term n with Some t => Nat.eqb (u_term u) t | None => false end in
          let late := match n_term n with Some t => Nat.ltb t (u_term u) | None => false end in
          if late then (s, None)
          else let n' := apply_upd n u in
               (mkCl (set (nodes s) i (mkN (n_phys n') (n_logic n') (n_save n') (n_ok n') (n_term n') (S (n_app n'))
                                           (n_synced n' || own) (n_pend n') (if own then pred (n_out n') else n_out n')))
                     (tlog s) (lead s) (terms s), None)
      end
  | Timer i now =>
      let n := nodes s i in
      match n_term n, n_synced n, n_pend n, n_out n, update_timestamp n now with
      | Some _, true, [], O, Some u =>
          (mkCl (set (nodes s) i (with_term n (n_term n) (n_synced n) [u] O)) (tlog s) (lead s) (terms s), None)
      | _, _, _, _, _ => (s, None)
      end
  | Stop i =>
      let n := nodes s i in
      (mkCl (set (nodes s) i (with_term n None false (n_pend n) O)) (tlog s)
            (match lead s with Some j => if Nat.eqb j i then None else lead s | None => None end) (terms s), None)
  | Gen i count =>
      let n := nodes s i in
      match n_term n with
      | None => (s, Some ENotLeader)
      | Some _ => let '(n', a) := gen_tso n count in (mkCl (set (nodes s) i n') (tlog s) (lead s) (terms s), Some a)
      end
  | Client i u =>
      let n := nodes s i in
      match lead s, n_term n with
      | Some j, Some t =>
          if Nat.eqb j i
          then (mkCl (set (nodes s) i (with_term n (n_term n) (n_synced n) (n_pend n) (S (n_out n))))
                     (tlog s ++ [mkU (u_kind u) (u_phys u) (u_logic u) (u_save u) t]) (lead s) (terms s), None)
          else (s, None)
      | _, _ => (s, None)
      end
  | Restart i from =>
      let l := match lead s with Some j => if Nat.eqb j i then None else lead s | None => None end in
      let n := match from with
               | None => fresh
               | Some j => mkN 0 0 (n_save (nodes s j)) true None (n_app (nodes s j)) false [] 0
               end in
      (mkCl (set (nodes s) i n) (tlog s) l (terms s), None)
  | Install i j =>
      let n := nodes s i in
      match n_term n with
      | Some _ => (s, None)
      | None =>
          if Nat.ltb (n_app n) (n_app (nodes s j))
          then (mkCl (set (nodes s) i (mkN (n_phys n) (n_logic n) (n_save (nodes s j)) (n_ok n) None (n_app (nodes s j)) false (n_pend n) 0))
                     (tlog s) (lead s) (terms s), None)
          else (s, None)
      end
  end.

(** a run: the final state and the answers in order *)
Fixpoint trun (s : cluster) (es : list ev) : cluster * list answer :=
  match es with
  | [] => (s, [])
  | e :: r => let '(s', a) := tstep s e in
              let '(s'', l) := trun s' r in
              (s'', match a with Some a => a :: l | None => l end)
  end.

Definition tinit : cluster := mkCl (fun _ => fresh) [] None 0.
