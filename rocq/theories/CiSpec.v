(** What a caller may rely on when it sends a request to the coordinator. *)
Require Import List Bool PeanoNat.
From Verif Require Import CiModel.
Import ListNotations.

(** The request was answered, or handled at all, in an attempt. *)
Definition is_answer (x : nat * outcome) : bool := match snd x with OAns _ => true | _ => false end.
Definition handled (x : nat * outcome) : bool := match snd x with OAns _ | OLost => true | _ => false end.

(** How often a request was handled. *)
Definition times (l : list (nat * outcome)) : nat := length (filter handled l).

(** [L] leads: it answers, and the other coordinators below [n] say that they do not lead. *)
Definition leads (n L : nat) (w : nat -> outcome) : Prop :=
  (exists c, w L = OAns c) /\ forall a, a < n -> a <> L -> exists h, w a = ONot h.

(** [L] leads; the others cannot be reached, name [L], or say only that they do not lead. *)
Definition leads_known (L : nat) (w : nat -> outcome) : Prop :=
  (exists c, w L = OAns c) /\ forall a, a <> L -> w a = ODown \/ w a = ONot None \/ w a = ONot (Some L).

(** All replies come from servers as described. *)
Definition all_replies (P : (nat -> outcome) -> Prop) (es : list event) : Prop :=
  forall c w, In (EReply c w) es -> P w.

(** The call ended with an answer of [L], its only answer. *)
Definition answered_by (L : nat) (x : call) : Prop :=
  exists l code, x = mkC (Done (SAns code)) (l ++ [(L, OAns code)]) /\ existsb is_answer l = false.

(** One call and its attempts; for each, the server that the name of the service leads to, and what the servers do. *)
Definition attempts (ps : list (nat * (nat -> outcome))) : list event :=
  ENew :: flat_map (fun x => [ESend 0 (fst x); EReply 0 (snd x)]) ps.

(** How often the name leads to a server that is of no help: it is down or knows no leader. *)
Definition unhelped (ps : list (nat * (nat -> outcome))) : nat :=
  length (filter (fun x => match snd x (fst x) with ODown | ONot None => true | _ => false end) ps).
