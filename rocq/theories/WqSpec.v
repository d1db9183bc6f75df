(** * What callers of a worker set rely on

    Stated on the list of events seen from outside; the machines of [WqModel]
    appear only as what produces it. *)

From Coq Require Import ZArith List Bool Lia.
From Verif Require Import WqModel.
Import ListNotations.

(** [a] was seen before [b]. *)
Definition precedes (tr : list event) (a b : event) : Prop :=
  exists t1 t2, tr = t1 ++ t2 /\ In a t1 /\ In b t2.

Definition event_eq_dec (a b : event) : {a = b} + {a <> b}.
Proof. decide equality; try apply Nat.eq_dec; apply bool_dec. Defined.

Definition times (e : event) (tr : list event) : nat := count_occ event_eq_dec tr e.

(** Every task runs at most once, only after it was handed over and never when
    the call was refused; a call answers at most once. *)
Definition run_at_most_once (tr : list event) : Prop :=
  forall k,
    (times (Started k) tr <= 1)%nat /\ (times (Ended k) tr <= 1)%nat /\
    (In (Started k) tr -> precedes tr (Called k) (Started k)) /\
    (In (Ended k) tr -> precedes tr (Started k) (Ended k)) /\
    (In (Returned k false) tr -> ~ In (Started k) tr) /\
    (times (Returned k true) tr + times (Returned k false) tr <= 1)%nat.

(** Every call was answered, and every task accepted has run to its end. *)
Definition all_served (tr : list event) : Prop :=
  forall k, In (Called k) tr ->
    In (Returned k false) tr \/ (In (Returned k true) tr /\ In (Ended k) tr).

(** How many events of a kind were seen. *)
Definition is_called (e : event) : bool := match e with Called _ => true | _ => false end.
Definition is_refused (e : event) : bool := match e with Returned _ false => true | _ => false end.
Definition is_returned (e : event) : bool := match e with Returned _ _ => true | _ => false end.
Definition is_started (e : event) : bool := match e with Started _ => true | _ => false end.
Definition is_ended (e : event) : bool := match e with Ended _ => true | _ => false end.

Definition number (f : event -> bool) (tr : list event) : nat := length (filter f tr).

(** Tasks running now. *)
Definition running (tr : list event) : Z :=
  Z.of_nat (number is_started tr) - Z.of_nat (number is_ended tr).

(** Tasks handed over, not refused, and not finished yet. *)
Definition outstanding (tr : list event) : Z :=
  Z.of_nat (number is_called tr) - Z.of_nat (number is_refused tr)
  - Z.of_nat (number is_ended tr).

(** Calls that have not returned yet. *)
Definition inside (tr : list event) : Z :=
  Z.of_nat (number is_called tr) - Z.of_nat (number is_returned tr).

(** Actions of the set itself: not a new call, not Destroy, and not a wait that
    returns by itself. *)
Definition own_action (l : slabel) : bool :=
  match l with SCall | SDestroy | SSpurious _ => false | _ => true end.

(** Nothing is left to do. *)
Definition s_quiet (c : scfg) (s : sset) : Prop :=
  forall l, own_action l = true -> sstep c s l = None.

(** Destroy's loop is over: every worker has left (stoped_count = WorkerNum()). *)
Definition all_left (s : sset) : Prop := forall p, In p (s_workers s) -> p = WGone.

Definition e_own_action (l : elabel) : bool :=
  match l with XCall _ => false | _ => true end.

Definition e_quiet (max : Z) (s : eset) : Prop :=
  forall l, e_own_action l = true -> estep max s l = ENot.

(** How the calls of a schedule chose their worker: the k-th entry belongs to
    call k. *)
Fixpoint modes (ls : list elabel) : list emode :=
  match ls with
  | [] => []
  | XCall m :: ls' => m :: modes ls'
  | _ :: ls' => modes ls'
  end.
