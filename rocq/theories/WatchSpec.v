(** What a one-time watch should answer. *)
From Coq Require Import ZArith List Bool.
From Verif Require Import Bytes KvModel KvSpec WatchModel.
Import ListNotations.
Open Scope Z_scope.

(** ** The events of a log *)

(** the entry before a change, as an event shows it: its version is one too high *)
Definition before (old : option kvo) : kvo :=
  match old with
  | Some o => mkO (o_key o) (o_value o) (o_create o) (o_mod o) (o_ver o + 1) (o_lease o)
  | None => kvo0
  end.

(** the event of an operation at revision [m] on the store [a]: a put that is carried out shows
    the new entry, a delete the key and the revision *)
Definition spec_event (m : Z) (a : store) (o : op) : option (bytes * event) :=
  match o with
  | OPut key il lid iv value =>
      let old := st_data a key in
      let l := if il then match old with Some o => o_lease o | None => 0 end else lid in
      if (0 <? l) && negb (st_leases a l) then None
      else match st_data (spec_op m a (OPut key il lid iv value)) key with
           | Some new => Some (key, mkEv EvPut new (before old))
           | None => None
           end
  | ODel key =>
      let old := st_data a key in
      Some (key, mkEv EvDelete
                   (match old with Some o => mkO key [] (o_create o) m (o_ver o + 1) 0 | None => mkO key [] 0 m 0 0 end)
                   (before old))
  | OCompact _ _ => None
  end.

Fixpoint ops_events (m : Z) (a : store) (ops : list op) : list (bytes * event) :=
  match ops with
  | [] => []
  | o :: r => match spec_event m a o with Some p => [p] | None => [] end ++ ops_events m (spec_op m a o) r
  end.

Definition entry_events (a : store) (e : incr) : list (bytes * event) :=
  ops_events (st_rev a + 1) (fold_left spec_lop (in_leases e) a) (in_ops e).

Fixpoint events_from (a : store) (log : list incr) : list (bytes * event) :=
  match log with
  | [] => []
  | e :: r => entry_events a e ++ events_from (spec_entry a e) r
  end.

Definition store0 : store := spec_log [].
Definition log_events (log : list incr) : list (bytes * event) := events_from store0 log.

(** no operation deletes a key that does not exist *)
Fixpoint clean_ops (m : Z) (a : store) (ops : list op) : Prop :=
  match ops with
  | [] => True
  | o :: r => match o with ODel key => st_data a key <> None | _ => True end /\ clean_ops m (spec_op m a o) r
  end.

Definition clean_entry (a : store) (e : incr) : Prop :=
  clean_ops (st_rev a + 1) (fold_left spec_lop (in_leases e) a) (in_ops e).

Fixpoint clean_from (a : store) (log : list incr) : Prop :=
  match log with
  | [] => True
  | e :: r => clean_entry a e /\ clean_from (spec_entry a e) r
  end.

Definition clean (log : list incr) : Prop := clean_from store0 log.

(** ** What a watch asks for *)

Definition start_of (q : wreq) (a : store) : Z := if q_start q =? 0 then st_rev a else q_start q.

(** the answer at once: the key does not exist and the client does not want to wait, or it was
    changed after the start revision *)
Definition immediate (q : wreq) (a : store) : option event :=
  match st_data a (q_key q) with
  | None => if q_wait q then None else Some (mkEv EvNotExists kvo0 kvo0)
  | Some kv => if start_of q a <? o_mod kv then Some (mkEv EvPut kv kvo0) else None
  end.

(** an event of the key, of a type not filtered out, not before the start revision *)
Definition wanted (q : wreq) (start : Z) (p : bytes * event) : bool :=
  beqb (fst p) (q_key q) &&
  match ev_type (snd p) with EvPut => negb (q_noput q) | EvDelete => negb (q_nodel q) | EvNotExists => false end &&
  (start <=? o_mod (ev_kv (snd p))).

(** the event as the answer shows it *)
Definition told (q : wreq) (ev : event) : event :=
  mkEv (ev_type ev) (ev_kv ev) (if q_prev q then ev_prev ev else kvo0).

(** ** Histories of requests served one at a time *)

Inductive wserial :=
| SApply (e : incr)          (** an entry of the log is applied *)
| SWatch (q : wreq)          (** a watch is registered *)
| SCancel (id : Z)           (** the connection of watch [id] is closed *)
| SCron                      (** a run of the cleaning task *)
| SStop | SStart.            (** the node stops, or starts, being the leader *)

Definition wevents (r : wserial) : list wev :=
  match r with
  | SApply e => WEntry e :: flat_map (fun _ => [WOp; WCheck; WTrigger]) (in_ops e) ++ [WFinal]
  | SWatch q => [WRead q; WRegister]
  | SCancel id => [WCancel id]
  | SCron => [WCron]
  | SStop => [WStop]
  | SStart => [WStart]
  end.

Definition wserves (h : list wserial) : wst := wsteps ws0 (flat_map wevents h).

Definition entries (h : list wserial) : list incr := flat_map (fun r => match r with SApply e => [e] | _ => [] end) h.
Definition watches (h : list wserial) : list wreq := flat_map (fun r => match r with SWatch q => [q] | _ => [] end) h.

(** the answers to request number [t] *)
Definition answers_to (s : wst) (t : Z) : list (option event) :=
  map snd (filter (fun p => fst p =? t) (w_answers s)).

(** the answers of a watch that waits, with identity [id], over [h] *)
Fixpoint waits (q : wreq) (start id : Z) (cancelled : bool) (a : store) (h : list wserial) : list (option event) :=
  match h with
  | [] => []
  | SApply e :: h' =>
      match find (wanted q start) (entry_events a e) with
      | Some (_, ev) => [Some (told q ev)]
      | None => waits q start id cancelled (spec_entry a e) h'
      end
  | SWatch _ :: h' => waits q start id cancelled a h'
  | SCancel i :: h' => waits q start id (cancelled || (i =? id)) a h'
  | SCron :: h' => if cancelled then [None] else waits q start id cancelled a h'
  | SStop :: _ => [None]
  | SStart :: _ => []
  end.

Definition expected (q : wreq) (id : Z) (a : store) (h : list wserial) : list (option event) :=
  match immediate q a with
  | Some ev => [Some ev]
  | None => waits q (start_of q a) id false a h
  end.

(** ** All interleavings *)

(** the store in the middle of the entry [e] after the log [l0], when the operations [dn] are done *)
Definition store_at (l0 : list incr) (e : incr) (dn : list op) : store :=
  let m := st_rev (spec_log l0) + 1 in
  let a := fold_left (spec_op m) dn (fold_left spec_lop (in_leases e) (spec_log l0)) in
  mkSt (st_data a) (st_leases a) (if existsb takes_revision dn then m else m - 1).

(** [a] is the store at some moment while [log] was applied *)
Definition moment (log : list incr) (a : store) : Prop :=
  a = store0 \/ exists l0 e l1 dn todo, log = l0 ++ e :: l1 /\ in_ops e = dn ++ todo /\ a = store_at l0 e dn.
