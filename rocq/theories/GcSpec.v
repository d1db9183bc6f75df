(** What garbage collection of multi-version data must respect, over abstract versions. *)
From Coq Require Import ZArith List Bool Sorted.
From Verif Require Import Bytes Outcome CodecModel CodecSpec MvccModel MvccSpec.
Import ListNotations.
Open Scope Z_scope.

(** [vs2] is a later content: writers have only added versions newer than the safe point *)
Definition grown (sp : Z) (vs vs2 : list version) : Prop :=
  (forall v, vts v <= sp -> (In v vs2 <-> In v vs)) /\
  (forall v, In v vs -> In v vs2).

(** For a read of [k] up to [ts]: the key has been written between the safe point and [ts], or had
    not been written after the safe point when the collection started.  A key outside this
    condition has its newest version above [ts] and its next one at or below the safe point. *)
Definition gc_safe_read (sp : Z) (vs vs2 : list version) (k : bytes) (ts : Z) : Prop :=
  sp <= ts /\
  ((exists v, In v vs2 /\ vkey v = k /\ sp < vts v <= ts) \/
   (forall v, In v vs -> vkey v = k -> vts v <= sp)).

(** user keys are not empty *)
Definition keys_ok (vs : list version) : Prop := forall v, In v vs -> vkey v <> [].
