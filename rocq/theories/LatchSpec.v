(** What the latches promise. *)
From Coq Require Import ZArith List Bool Arith.
From Verif Require Import Outcome LatchModel.
Import ListNotations.
Open Scope Z_scope.

(** command c is executing with all its latches, and one of its keys has hash h *)
Definition executes_with (s : lstate) (c : nat) (h : Z) : Prop :=
  exists t, nth_error (ths s) c = Some t /\ ph t = Hold /\ In h (req t).

(** command c owns the latch of hash h: acquired and not yet released *)
Definition owns (t : thread) (h : Z) : Prop :=
  match ph t with
  | Acq i _ | Wait i => In h (firstn i (req t))
  | Hold => In h (req t)
  | Rel j _ => In h (skipn j (req t))
  | _ => False
  end.
Definition owner (s : lstate) (c : nat) (h : Z) : Prop := exists t, nth_error (ths s) c = Some t /\ owns t h.

(** command c is blocked, waiting for the latch of hash h *)
Definition waits_for (s : lstate) (c : nat) (h : Z) : Prop :=
  exists t i, nth_error (ths s) c = Some t /\ ph t = Wait i /\ nth_error (req t) i = Some h.

(** the commands that queue for hash h, in order *)
Definition queue_of (slots : Z) (s : lstate) (h : Z) : list nat :=
  map snd (filter (fun e => fst e =? h) (qs s (slot slots h))).

(** wake-ups on their way to command c: entries of wake-up lists not yet processed, and a counter
    that was decreased but not yet consumed *)
Definition wake_list (t : thread) : list nat := match ph t with Rel _ wl => wl | Sig wl _ => wl | _ => [] end.
Fixpoint in_lists (l : list thread) (c : nat) : Z :=
  match l with [] => 0 | t :: r => Z.of_nat (count_occ Nat.eq_dec (wake_list t) c) + in_lists r c end.
Definition wakeups (s : lstate) (c : nat) : Z :=
  in_lists (ths s) c - match nth_error (ths s) c with Some t => cnt t | None => 0 end.

(** a command can take a step *)
Definition can_move (slots : Z) (s : lstate) (c : nat) : Prop := exists s', lstep slots s c = Ok (Some s').

Definition all_done (s : lstate) : Prop := forall t, In t (ths s) -> ph t = Done.

(** no key hashes to 0 *)
Definition no_zero (reqs : list (list Z)) : Prop := Forall (fun hs => ~ In 0 hs) reqs.
