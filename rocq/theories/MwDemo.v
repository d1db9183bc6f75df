(** Histories of watches of the meta data for the examples and refutations. *)
Require Import ZArith List Bool.
From Verif Require Import MwModel MwSpec.
Import ListNotations.
Open Scope Z_scope.

(** Three events, then a watch. *)
Definition before : list event := [EAdd 0 [(1%nat, 10)]; EAdd 2 [(2%nat, 11); (1%nat, 12)]; EAdd 0 [(1%nat, 13)]].

(** What the watch lives through: a waiting call, events of two types, a call that finds events, a trim, and a
    call that waits again. *)
Definition life : list event :=
  [EProgress; EAdd 0 [(2%nat, 20)]; EAdd 1 [(1%nat, 21)]; EAdd 0 [(1%nat, 22); (2%nat, 23)]; EAdd 0 [(1%nat, 24)];
   ETrim 4; EProgress; EProgress; EProgress; ERecycle true; EProgress].

(** The watch is dropped with events at hand, and a call comes too late. *)
Definition ended : list event :=
  before ++ [ECreate 0 [1%nat]] ++ life ++ [EAdd 0 [(1%nat, 30)]; EProgress; ECancel; EProgress].

(** The revisions 1, 3 and 4. *)
Definition gaps : list event := [EAdd 0 [(1%nat, 10)]; EAdd 1 [(1%nat, 11)]; EAdd 0 [(1%nat, 12)]].
