(** What garbage collection of transactional data must respect. *)
From Coq Require Import ZArith List Bool.
From Verif Require Import Bytes SMap Outcome TxnModel TxnSpec TxnReadModel TxnReadSpec.
Import ListNotations.
Open Scope Z_scope.

(** [s'] is a later content than [s]: nothing was committed at or below the safe point since, and no
    commit was removed *)
Definition later (sp : Z) (s s' : store) : Prop :=
  (forall k t w, t <= sp -> w_op w <> OpRollback -> write_at s' k t = Some w -> write_at s k t = Some w) /\
  (forall k t w, w_op w <> OpRollback -> write_at s k t = Some w -> write_at s' k t = Some w).

(** For a read of [k] that sees commits up to [u]: [k] has been committed between the safe point and
    [u], or not after the safe point when the collection started.  A key outside this condition has
    its newest commit above [u] and the next one at or below the safe point. *)
Definition gc_safe_read (sp : Z) (s s' : store) (k : bytes) (u : Z) : Prop :=
  sp <= u /\
  ((exists t w, write_at s' k t = Some w /\ w_op w <> OpRollback /\ sp < t <= u) \/
   (forall t w, write_at s k t = Some w -> w_op w <> OpRollback -> t <= sp)).
