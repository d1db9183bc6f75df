(** What id allocation promises. *)
From Coq Require Import ZArith List Bool.
From Verif Require Import IdModel.
Import ListNotations.
Open Scope Z_scope.

(** the ids handed out for one key, in order *)
Definition ids_of (k : Z) (out : list (Z * Z)) : list Z := map snd (filter (fun p => fst p =? k) out).

(** both copies of the double buffer agree, as they do initially *)
Definition consistent (d : dbuf) : Prop := forall k, fg d k = bg d k.

(** the value of the counter is at least v *)
Definition at_least (d : dbuf) (k v : Z) : Prop := exists x, fg d k = Some x /\ v <= x.

(** the key a request is about *)
Definition areq_key (q : areq) : Z := match q with ANext k => k | ANexts k _ => k | AUpdate k _ => k end.

(** the provisos of the group theorem: the leader serves requests (for real counters) only after
    OnLeaderStart has run, and an installed snapshot mentions every counter that has an initial
    value *)
Definition served (s : csys) (e : cevent) : Prop :=
  match e with
  | CRequest i qs => (is_leader s i = true -> ready s = true) /\ Forall (fun q => 0 < areq_key q) qs
  | CInstall i j => forall k f, In (k, f) floors -> disk (nodes s j) k <> None
  | _ => True
  end.

Fixpoint all_served (s : csys) (es : list cevent) : Prop :=
  match es with [] => True | e :: r => served s e /\ all_served (fst (cstep s e)) r end.

(** all ids in the answers of committed requests *)
Definition committed_ids (s : csys) : list (Z * Z) := flat_map i_ids (clog s).

(** the version-kv updates are applied in the order in which the ids were allocated *)
Fixpoint applied_in_order (es : list kevent) : Prop :=
  match es with
  | [] => True
  | KApply k v :: r => (forall w, In (KApply k w) r -> v <= w) /\ applied_in_order r
  | _ :: r => applied_in_order r
  end.

(** only the proviso about requests *)
Fixpoint requests_served (s : csys) (es : list cevent) : Prop :=
  match es with
  | [] => True
  | e :: r => match e with CRequest _ _ => served s e | _ => True end /\ requests_served (fst (cstep s e)) r
  end.
