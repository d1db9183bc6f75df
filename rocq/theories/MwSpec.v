(** What a watch of the meta data should tell. *)
Require Import ZArith List Bool.
From Verif Require Import MwModel.
Import ListNotations.
Open Scope Z_scope.

(** The events of certain types in a history, in order. *)
Definition watched (ts : list nat) (h : evlist) : list ev :=
  flat_map (fun p => filter (fun e => has (fst e) ts) (snd p)) h.

(** The part of a history after a revision, and from a revision on. *)
Definition after (r : Z) (h : evlist) : evlist := filter (fun p => r <? fst p) h.
Definition from (r : Z) (h : evlist) : evlist := filter (fun p => r <=? fst p) h.

(** The events some answers brought, one after the other. *)
Definition brought (os : list (list nat * resp)) : list ev :=
  flat_map (fun o => match snd o with REvents l _ => l | RNoWatch => [] end) os.

(** The answers given between two states. *)
Definition since (s s' : state) : list (list nat * resp) := skipn (length (outs s)) (outs s').

(** No answer said that the watch is cancelled or does not exist. *)
Definition never_cancelled (os : list (list nat * resp)) : Prop :=
  forall o, In o os -> exists l, snd o = REvents l false.

(** Neither a new watch nor a restart. *)
Definition goes_on (es : list event) : Prop :=
  forall e, In e es -> e <> ERestart /\ forall a ts, e <> ECreate a ts.

(** Calls that wait, and calls that were answered. *)
Definition waiting (s : state) : list nat := match nd s with Some n => nwait n | None => [] end.
Definition answered (s : state) : list nat := flat_map fst (outs s).

(** The watch exists and a call of its client is waiting. *)
Definition listening (s : state) : Prop := waiting s <> [].

(** A history without one revision. *)
Definition but (r : Z) (h : evlist) : evlist := filter (fun p => negb (fst p =? r)) h.

(** No restart. *)
Definition stays_up (es : list event) : Prop := ~ In ERestart es.

(** The revisions whose events the coordinator still holds. *)
Definition kept (s : state) : list Z := map fst (em s).
