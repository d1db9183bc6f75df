(** Histories used as examples and counterexamples for the lock and the pool. *)
From Coq Require Import ZArith List Bool Arith Lia.
From Verif Require Import LkModel LkSpec LkProofs LkProofs2.
Import ListNotations.
Local Open Scope nat_scope.

(** ** Lock *)
(** threads 1 and 2 read, 0 writes after them; 3 wants to read and waits behind 0 *)
Definition l_mixed : list lev :=
  [LockRead 1; LockRead 2; LockWrite 0; LockRead 3; UnlockRead 1; UnlockRead 2; Look 3; Look 0].
(** 0 wants to read, 1 writes, 2 wants to write *)
Definition l_start : list lev := [LockWrite 1; LockRead 0; LockWrite 2].
(** 1 lets go, everybody looks, 2 writes, 1 asks again; and the other way round *)
Definition l_round : list lev :=
  [UnlockWrite 1; Look 0; Look 2; LockWrite 1; UnlockWrite 2; Look 0; Look 1; LockWrite 2].
Definition rounds (k : nat) : list lev := concat (repeat l_round k).

Lemma round_back : lrun (lrun (sys0 3) l_start) l_round = lrun (sys0 3) l_start.
Proof. vm_compute. reflexivity. Qed.
Lemma l_happen_app es fs : forall s, l_all_happen s (es ++ fs) <-> l_all_happen s es /\ l_all_happen (lrun s es) fs.
Proof. induction es as [|e es IH]; intros s; cbn; [tauto|]. rewrite IH. tauto. Qed.
Lemma rounds_happen k : l_all_happen (lrun (sys0 3) l_start) (rounds k).
Proof.
  induction k as [|k IH]; [exact Logic.I|]. change (rounds (S k)) with (l_round ++ rounds k). apply l_happen_app. rewrite round_back.
  split; [|exact IH]. cbn [l_all_happen l_round]. repeat split; vm_compute; discriminate.
Qed.
Lemma rounds_wait k : forall j, wants_read (lrun (lrun (sys0 3) l_start) (firstn j (rounds k))) 0.
Proof.
  induction k as [|k IH]; intros j.
  - destruct j; left; vm_compute; reflexivity.
  - change (rounds (S k)) with (l_round ++ rounds k). destruct (le_lt_dec 8 j) as [L|L].
    + replace j with (length l_round + (j - 8)) by (cbn; lia). rewrite firstn_app_2, lrun_app, round_back. apply IH.
    + rewrite firstn_app. replace (j - length l_round) with 0 by (cbn; lia). rewrite firstn_O, app_nil_r.
      do 8 (destruct j as [|j]; [first [left; vm_compute; reflexivity|right; vm_compute; reflexivity]|]). lia.
Qed.
Lemma rounds_turns k : length (filter (fun e => match e with UnlockWrite _ => true | _ => false end) (rounds k)) = 2 * k.
Proof.
  induction k as [|k IH]; [reflexivity|]. change (rounds (S k)) with (l_round ++ rounds k). rewrite filter_app, app_length, IH. cbn. lia.
Qed.

(** ** Pool *)
(** two workers, three tasks of priorities 0, 5 and 5; one worker runs task 1 *)
Definition p_busy : list pev :=
  [EWork 0 0; ESleep 0; ESubmit 0; ESubmit 5; ESubmit 5; EPush 0; EPush 0; EPush 0; ENotify 0; EWork 0 1].
(** and the rest of their work *)
Definition p_finish : list pev :=
  [ENotify 5; EWork 1 1; ENotify 5; EEnd 0 Returns; EWork 0 0; EEnd 1 ThrowsStd; EEnd 0 Returns;
   EWork 0 0; ESleep 0; EWork 1 0; ESleep 1].
(** the worker has found nothing to do when it is told to stop and everybody is woken; it then sleeps *)
Definition p_lost : list pev := [EWork 0 0; EAdjust 0; ENotifyAll; ESleep 0].
Definition p_lost_destroy : list pev := [EWork 0 0; EDestroy; EDestroyLock; ENotifyAll; ESleep 0].
(** a call has found the pool in order, the pool is destroyed, then the call pushes its task *)
Definition p_late : list pev := [ESubmit 0; EDestroy; EDestroyLock; ENotifyAll; EWork 0 0; EJoinWorkers; EPush 0; ENotify 0].
(** the pool is shrunk to nothing *)
Definition p_none : list pev := [EAdjust 0; ENotifyAll; EWork 0 0; EJoinWorkers; ESubmit 0; EPush 0; ENotify 0].
(** the second of two workers is stopped while the first runs a task *)
Definition p_less : list pev := [ESubmit 1; EPush 0; ENotify 0; EWork 0 0; EWork 1 0; ESleep 1; EAdjust 1].
