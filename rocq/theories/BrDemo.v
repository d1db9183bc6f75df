(** Concrete histories for the examples and refutations of BrThms.v. *)
From Coq Require Import ZArith List Bool Lia.
From Verif Require Import Bytes SMap Outcome TxnModel TxnSpec TxnBase TxnDemo TxnReadModel TxnReadSpec TxnReadThms BrModel BrSpec.
Import ListNotations.
Open Scope Z_scope.

Definition files_of (r : bres) := match r with BOk fw fd => (fw, fd) | BLocked => ([], []) end.
Definition plain0 : plain :=
  SMap.put vcmp (SMap.put vcmp (SMap.put vcmp (SMap.put vcmp [] (kA, 5) [1; 0]) (kA, 9) [2]) (kB, 7) [4; 1]) (kB, 3) [3; 0].
Definition accept : nat -> wres := fun _ => WDone.
Definition flaky : nat -> wres := fun n => if Nat.eqb n 1 then WFail 5 false else WDone.
Definition one_byte (_ : wop) : Z := 1.
Definition fw27 := fst (files_of (backup_txn (rg_store gR) 27 kA kE)).
Definition fd27 := snd (files_of (backup_txn (rg_store gR) 27 kA kE)).
Definition writes27 : list batch := writes_of one_byte 100 1 fw27 fd27.
Definition reg0 (k : bytes) : nat := if beqb k kA then 0%nat else 1%nat.
Fixpoint brun (s : bk) (es : list bev) : option bk :=
  match es with [] => Some s | e :: r => match bstep s e with Some s1 => brun s1 r | None => None end end.
Lemma brun_hist s es s1 : brun s es = Some s1 -> bhist any_time s es s1.
Proof.
  revert s. induction es as [|e es IH]; intros s E; simpl in E.
  - injection E as <-. constructor.
  - destruct (bstep s e) as [s0|] eqn:S; [|discriminate]. econstructor; [exact Logic.I|exact S|auto].
Qed.
Definition torn : list bev :=
  [BBegin [kA; kB]; BPre 0 kA [7]; BPre 0 kB [8]; BTs 0; BTso 3; BCommit 0 kA; BSnap 0; BSnap 1; BCommit 0 kB].
Definition settled : list bev :=
  [BBegin [kA; kB]; BPre 0 kA [7]; BPre 0 kB [8]; BTs 0; BCommit 0 kA; BCommit 0 kB; BTso 3; BSnap 0;
   BBegin [kA; kB]; BPre 1 kA [9]; BPre 1 kB [9]; BTs 1; BCommit 1 kA; BSnap 1; BCommit 1 kB].
Fixpoint settledb (s : bk) (es : list bev) : bool :=
  match es with
  | [] => true
  | e :: r =>
      match e, b_tso s with
      | BSnap n, Some tso => forallb (fun kl => negb (Nat.eqb (reg0 (fst kl)) n) || (tso <? l_ts (snd kl))) (locks (b_store s))
      | _, _ => true
      end && match bstep s e with Some s1 => settledb s1 r | None => false end
  end.
Lemma settled_hist es : forall s, sorted bcmp (locks (b_store s)) -> settledb s es = true ->
  exists s1, bhist (locks_resolved reg0) s es s1 /\ brun s es = Some s1.
Proof.
  induction es as [|e es IH]; intros s SS E; cbn [settledb brun] in *; [exists s; split; [constructor|auto]|].
  apply andb_true_iff in E. destruct E as [E1 E2]. destruct (bstep s e) as [s0|] eqn:S; [|discriminate].
  destruct (IH s0) as (s1 & H & R); auto.
  { clear - S SS. destruct s as [cl g xs tso sn]. destruct e; cbn [bstep] in S;
      repeat match type of S with
           | match ?x with _ => _ end = _ => destruct x; try discriminate
           | (if ?x then _ else _) = _ => destruct x; try discriminate
           end; injection S as <-; simpl in *; auto using sorted_put, sorted_del, bcmp_ok. }
  exists s1. split; [|auto]. econstructor; [|exact S|exact H]. unfold locks_resolved. destruct e; auto.
  intros tso k l T R0 L. rewrite T in E1. rewrite forallb_forall in E1. specialize (E1 (k, l) (get_In bcmp bcmp_ok _ _ _ L)).
  simpl in E1. rewrite R0, Nat.eqb_refl in E1. simpl in E1. apply Z.ltb_lt. auto.
Qed.
Fixpoint srun (s : site) (es : list sev) : option site :=
  match es with [] => Some s | e :: r => match sstep s e with Some s1 => srun s1 r | None => None end end.
Lemma srun_hist s es s1 : srun s es = Some s1 -> shist any_order s es s1.
Proof.
  revert s. induction es as [|e es IH]; intros s E; simpl in E.
  - injection E as <-. constructor.
  - destruct (sstep s e) as [s0|] eqn:S; [|discriminate]. econstructor; [exact Logic.I|exact S|auto].
Qed.
Definition files0 : list (bytes * bytes * bytes) := [([1], [119], [5; 6; 7]); ([2], [100], [8])].
Definition disk0 : disk := fun n => if beqb n [1] then File [5; 6; 7] else if beqb n [2] then File [8] else Missing.
Definition disk1 : disk := fun n => if beqb n [1] then File [5; 9; 7] else if beqb n [2] then File [8] else Missing.
Definition decode0 (cs : list bytes) : option (list batch) := Some (map (fun c => [PutData c 1 c]) cs).
Definition sum0 (c : bytes) : bytes := c.
