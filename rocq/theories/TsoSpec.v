(** What the timestamp oracle promises. *)
From Coq Require Import ZArith List Bool Arith.
From Verif Require Import TsoModel.
Import ListNotations.
Open Scope Z_scope.

(** the timestamps of an answer: [count] consecutive numbers, physical part shifted by 18 bits *)
Definition stamps (a : answer) (t : Z) : Prop :=
  match a with Stamp p l c => p * 2 ^ 18 + l <= t < p * 2 ^ 18 + l + c | _ => False end.

(** no number is handed out twice *)
Definition unique (l : list answer) : Prop :=
  forall i j a b t, nth_error l i = Some a -> nth_error l j = Some b -> stamps a t -> stamps b t -> i = j.

(** every number is larger than all numbers handed out before *)
Definition increasing (l : list answer) : Prop :=
  forall i j a b t u, nth_error l i = Some a -> nth_error l j = Some b -> (i < j)%nat -> stamps a t -> stamps b u -> t < u.

(** the events the theorems allow: no update or reset by clients, positive counts, a leader serves only
    after an entry of its own term was applied, and no proposal computed before an earlier leadership
    ended is still on its way when a node is elected again *)
Definition no_client (s : cluster) (e : ev) : Prop := match e with Client _ _ => False | _ => True end.
Definition positive (s : cluster) (e : ev) : Prop := match e with Gen _ c => 0 < c | _ => True end.
Definition serves_synced (s : cluster) (e : ev) : Prop :=
  match e with Gen i _ => n_term (nodes s i) = None \/ n_synced (nodes s i) = true | _ => True end.
Definition no_stale (s : cluster) (e : ev) : Prop := match e with Elect i _ => n_pend (nodes s i) = [] | _ => True end.
(** a new leader is elected only when every other node knows that it is not the leader any more *)
Definition one_leader (s : cluster) (e : ev) : Prop :=
  match e with Elect i _ => forall j, j <> i -> n_term (nodes s j) = None | _ => True end.

Fixpoint all_steps (ok : cluster -> ev -> Prop) (s : cluster) (es : list ev) : Prop :=
  match es with
  | [] => True
  | e :: r => ok s e /\ all_steps ok (fst (tstep s e)) r
  end.

Definition tallowed (s : cluster) (e : ev) : Prop := no_client s e /\ positive s e /\ serves_synced s e /\ no_stale s e.

(** events that can make an unhealthy node i healthy again: a reset by a client, a restart *)
Definition keeps_unhealthy (i : nat) (e : ev) : Prop :=
  match e with Client _ _ => False | Restart j _ => j <> i | _ => True end.
