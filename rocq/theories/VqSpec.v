(** What a search has to answer. *)
Require Import ZArith List Permutation Sorted.
Require Import Verif.VqModel.
Import ListNotations.
Open Scope Z_scope.

(** Nearest first. *)
Definition nearest_first (l : list hit) : Prop := StronglySorted (fun x y => snd x <= snd y) l.

(** [r] is a correct answer to "the [k] nearest of [l]": as many as there are,
    up to [k]; nearest first; taken from [l]; and nothing that was left out is
    nearer than anything in it. *)
Definition the_nearest (k : nat) (l r : list hit) : Prop :=
  length r = Nat.min k (length l) /\ nearest_first r /\
  exists rest, Permutation (r ++ rest) l /\ forall x y, In x r -> In y rest -> snd x <= snd y.

(** The thread pool runs every task once, in any order. *)
Definition any_schedule {T : Type} (sched : list T -> list T) : Prop := forall l, Permutation (sched l) l.
