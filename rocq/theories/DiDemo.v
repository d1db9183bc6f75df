(** Histories of the text index of a document region. *)
Require Import ZArith List Bool.
From Verif Require Import DiModel DiSpec.
Import ListNotations.
Open Scope nat_scope.

Definition cf : conf := mkConf 10 3 8.

Definition writes (n : nat) : list event := flat_map (fun _ => [EHandle; EFinish]) (seq 0 n).

Definition fresh : list event := [EBuild; EScan; ESwitch].

Open Scope Z_scope.
(** Documents 1 to 8 come; 2 changes, 3 goes, and after entry 11 document 4 goes and 5 changes. *)
Definition lg : list cmd :=
  [CAdd false [(1, 10); (2, 20)]; CAdd false [(3, 30)]; COther; CAdd true [(2, 21)]; CDel [3];
   CAdd false [(4, 40)]; CAdd false [(5, 50); (6, 60)]; CDel []; COther; CAdd false [(7, 70)]; CDel [6];
   CDel [4]; CAdd true [(5, 51)]; CAdd false [(8, 80)]; COther].
Close Scope Z_scope.

(** Fourteen entries, a stop, a start from the saved position 11, a switch, and the rest. *)
Definition es1 : list event := fresh ++ writes 14 ++ [EStop 13 0; ELoad; ESwitch] ++ writes 2.

(** The same with a rebuild: a round of catching up, cut short by a stop, then a new start. *)
Definition es2 : list event :=
  [EBuild; EScan] ++ writes 12 ++ [ERound] ++ writes 2 ++ [EStop 14 1; ELoad; ESwitch] ++ writes 1.

(** A write between the scan and the switch. *)
Definition es3 : list event := [EBuild; EScan] ++ writes 1 ++ [ESwitch].
(** A write whose position is stored after the switch. *)
Definition es4 : list event := [EBuild; EScan; EHandle; ESwitch; EFinish].
(** A rebuild after writes. *)
Definition es5 : list event := fresh ++ writes 5 ++ [EBuild; EScan; ESwitch].
(** A start from the saved position, with a replay. *)
Definition es6 : list event := fresh ++ writes 14 ++ [EStop 14 0; ELoad; ESwitch].

Lemma writes_only : only_writes (writes 14).
Proof.
  intros e H. unfold writes in H. apply in_flat_map in H. destruct H as [n [_ [H | [H | []]]]]; auto.
Qed.

Lemma lg_careful : careful lg.
Proof.
  intros n upd ds H.
  do 15 (destruct n as [| n];
    [vm_compute in H; first [discriminate H |
      injection H as <- <-; split;
      [cbn; repeat (apply NoDup_cons; [cbn; intuition discriminate |]); apply NoDup_nil
      | intros U; first [discriminate U | intros d I; cbn in I;
        repeat (destruct I as [<- | I]; [vm_compute; reflexivity |]); contradiction]]] |]).
  destruct n; discriminate.
Qed.
