(** Concrete histories for C83-C88. *)
From Coq Require Import ZArith List Bool Lia.
From Verif Require Import Bytes SMap Outcome NmModel NmSpec.
Import ListNotations.
Open Scope Z_scope.

(** a decidable version of [calm] *)
Definition waitb (s : state) (p : inc -> bool) : bool := existsb (fun e => existsb p (e_incs e)) (s_pend s).
Lemma waitb_no s p i : waitb s p = false -> waiting s i -> p i = false.
Proof.
  intros H (e & He & Hi). destruct (p i) eqn:E; auto. exfalso. unfold waitb in H.
  assert (existsb (fun e => existsb p (e_incs e)) (s_pend s) = true); [|congruence].
  apply existsb_exists. exists e. split; auto. apply existsb_exists. eauto.
Qed.
Definition sdelb (id : Z) (i : inc) : bool := match i with ISDel x => x =? id | _ => false end.
Definition sputb (id : Z) (i : inc) : bool := match i with ISPut x _ _ => x =? id | _ => false end.
Definition putb (k : kind) (id : Z) (i : inc) : bool := match i with ITPut k1 x _ => kind_eqb k1 k && (x =? id) | _ => false end.
Definition delb (k : kind) (id : Z) (i : inc) : bool := match i with ITDel k1 x _ => kind_eqb k1 k && (x =? id) | _ => false end.
Definition xdelb (t : Z) (i : inc) : bool := match i with IXDel x => x =? t | _ => false end.
Definition anydel (i : inc) : bool := match i with ITDel _ _ _ | ISDel _ => true | _ => false end.
Definition tabb (t : Z) (i : inc) : bool :=
  match i with
  | IXPut x _ | IXAdd x _ | IXRem x _ | IXDel x => x =? t
  | ITPut KTable x _ | ITDel KTable x _ => x =? t
  | ITPut KIndex _ x => t_table x =? t
  | _ => false
  end.
Definition schb (sid : Z) (i : inc) : bool :=
  match i with
  | ISPut id _ _ | ISDel id => id =? sid
  | ITPut _ _ t => t_schema t =? sid
  | ITDel _ _ x => x =? sid
  | _ => false
  end.
Lemma tabb_ok t i : tabb t i = false -> ~ about_table i t.
Proof. destruct i as [| | | | | |[]|[]]; simpl; intros H Q; try apply Z.eqb_neq in H; auto. Qed.
Lemma schb_ok t i : schb t i = false -> ~ about_schema i t.
Proof. destruct i as [| | | | | |[]|[]]; simpl; intros H Q; try apply Z.eqb_neq in H; auto. Qed.
Definition none {A} (o : option A) : bool := match o with None => true | _ => false end.
Definition freshb (s : state) (k : kind) (id : Z) : bool := none (get_ent s k id) && negb (waitb s (putb k id)).
Lemma freshb_ok s k id : freshb s k id = true -> fresh_id s k id.
Proof.
  unfold freshb. intros H. apply andb_true_iff in H. destruct H as [A B]. apply negb_true_iff in B. split.
  - destruct (get_ent s k id); [discriminate|auto].
  - intros t Q. apply (waitb_no _ _ _ B) in Q. simpl in Q. rewrite Z.eqb_refl in Q. destruct k; discriminate.
Qed.
Fixpoint nodupb (l : list Z) : bool := match l with [] => true | x :: t => negb (mem x t) && nodupb t end.
Lemma nodupb_ok l : nodupb l = true -> NoDup l.
Proof.
  induction l as [|x l IH]; simpl; intros H; constructor; apply andb_true_iff in H; destruct H as [A B]; auto.
  intros Q. apply negb_true_iff in A. assert (mem x l = true); [|congruence]. apply existsb_exists. exists x. split; auto. apply Z.eqb_refl.
Qed.

Definition calmb (s : state) (o : op) : bool :=
  match o with
  | OCreateSchema tenant name given fresh =>
      let id := if 0 <? given then given else fresh in
      (0 <? id) && none (get_sch s id) && negb (waitb s (sputb id))
  | ODropSchema tenant id =>
      match get_sch s id with
      | Some c => (sc_tenant c =? tenant) && match sc_indexes c with [] => true | _ => false end && negb (waitb s (schb id))
      | None => true
      end
  | OCreateTable sid id name => negb (waitb s (sdelb sid)) && freshb s KTable id && negb (waitb s (tabb id))
  | OCreateTables sid tb ixs =>
      negb (waitb s (sdelb sid)) && nodupb (map fst ixs) && forallb (fun p => freshb s KIndex (fst p)) ixs &&
      match tb with Some p => freshb s KTable (fst p) && negb (waitb s (tabb (fst p))) | None => true end
  | OCreateIndex sid id name => negb (waitb s (sdelb sid)) && freshb s KIndex id
  | OAddIndex t id name =>
      freshb s KIndex id && negb (waitb s (xdelb t)) &&
      match get_ent s KTable t with Some tb => negb (waitb s (sdelb (t_schema tb))) | None => true end
  | ODropTable sid t => true
  | ODropTables [(KTable, sid, t)] =>
      match get_ent s KTable t with Some tb => t_schema tb =? sid | None => true end && negb (waitb s (tabb t))
  | ODropTables _ => false
  | ODropIndex sid id => negb (waitb s (delb KIndex id))
  | ODropIndexOn t id => negb (waitb s (delb KIndex id)) && negb (waitb s (xdelb t))
  | OApply k => true
  | OLose k => match nth_error (s_pend s) k with Some e => match e_back e with [] => false | _ => true end | None => true end
  | OLate k => false
  | OLeader => negb (waitb s anydel)
  end.
Fixpoint calmb_hist (s : state) (l : list op) : bool :=
  match l with
  | [] => true
  | o :: t => calmb s o && match step s o with Ok s1 => calmb_hist s1 t | Crash => true end
  end.

Lemma no_wait s p i : negb (waitb s p) = true -> p i = true -> ~ waiting s i.
Proof. intros H E Q. apply negb_true_iff in H. apply (waitb_no _ _ _ H) in Q. congruence. Qed.

Ltac bools := repeat match goal with H : _ && _ = true |- _ => apply andb_true_iff in H; destruct H end.

Lemma calmb_ok s o : calmb s o = true -> calm s o.
Proof.
  destruct o as [tenant name given fresh|tenant id|sid id name|sid tb ixs|sid id name|t id name|sid t|l|sid id|t id|k|k|k|];
    cbn [calm calmb]; intros H; bools; auto; try discriminate.
  - split; [lia|]. split.
    + destruct (get_sch s (if 0 <? given then given else fresh)); [discriminate|auto].
    + intros a b. apply (no_wait s (sputb (if 0 <? given then given else fresh))); auto. apply Z.eqb_refl.
  - intros c E. rewrite E in H. bools. split; [lia|]. split; [destruct (sc_indexes c); [auto|discriminate]|].
    intros i W. apply schb_ok. eapply waitb_no; [|exact W]. apply negb_true_iff; auto.
  - split; [|split].
    + apply (no_wait s (sdelb sid)); auto. apply Z.eqb_refl.
    + apply freshb_ok; auto.
    + intros i W. apply tabb_ok. eapply waitb_no; [|exact W]. apply negb_true_iff; auto.
  - split; [apply (no_wait s (sdelb sid)); auto; apply Z.eqb_refl|]. split; [apply nodupb_ok; auto|]. split.
    + intros p Hp. apply freshb_ok. rewrite forallb_forall in *. auto.
    + intros p ->. bools. split; [apply freshb_ok; auto|].
      intros i W. apply tabb_ok. eapply waitb_no; [|exact W]. apply negb_true_iff; auto.
  - split; [apply (no_wait s (sdelb sid)); auto; apply Z.eqb_refl|]. apply freshb_ok; auto.
  - split; [apply freshb_ok; auto|]. split; [apply (no_wait s (xdelb t)); auto; apply Z.eqb_refl|].
    intros tb E. rewrite E in *. apply (no_wait s (sdelb (t_schema tb))); auto. apply Z.eqb_refl.
  - destruct l as [|[[[] sid] t] [|]]; try discriminate. bools. exists sid, t. split; auto. split.
    + intros tb E. rewrite E in *. lia.
    + intros i W. apply tabb_ok. eapply waitb_no; [|exact W]. apply negb_true_iff; auto.
  - intros [x Q]. revert Q. apply (no_wait s (delb KIndex id)); auto. apply Z.eqb_refl.
  - split; [|apply (no_wait s (xdelb t)); auto; apply Z.eqb_refl].
    intros [x Q]. revert Q. apply (no_wait s (delb KIndex id)); auto. apply Z.eqb_refl.
  - intros e E. rewrite E in H. destruct (e_back e); [discriminate|congruence].
  - split.
    + intros k id [x Q]. revert Q. apply (no_wait s anydel); auto.
    + intros id. apply (no_wait s anydel); auto.
Qed.
Lemma calmb_hist_ok l : forall s, calmb_hist s l = true -> calm_hist s l.
Proof.
  induction l as [|o l IH]; simpl; auto. intros s H. bools. split; [apply calmb_ok; auto|].
  destruct (step s o); auto.
Qed.

(** a schema with a table with indexes; then an index more and one less, a create that is lost and
    tried again under the same name, a change of leader, and things that wait *)
Definition base : list op := [OCreateSchema 0 1 0 2001; OApply 0].
Definition demo : list op :=
  base ++
  [OCreateTables 2001 (Some (3001, 10)) [(4001, 11); (4002, 12)]; OApply 0;
   OAddIndex 3001 4003 13; OApply 0; ODropIndexOn 3001 4001; OApply 0;
   OCreateIndex 2001 4004 14; OApply 0;
   OCreateTables 2001 (Some (3002, 20)) []; OLose 0;
   OCreateTables 2001 (Some (3003, 20)) [(4005, 21)]; OCreateTable 2001 3004 30; OApply 1; OApply 0;
   OLeader; OCreateTables 2001 (Some (3005, 40)) [(4006, 41)]].
Lemma demo_calm : calm_hist init demo.
Proof. apply calmb_hist_ok. vm_compute. reflexivity. Qed.

Definition after (l : list op) : state := match run init l with Ok s => s | Crash => init end.

(** an id given for a schema that exists (an uninitialised variable in DoCreateSchema) *)
Definition overwrite : list op := base ++ [OCreateTable 2001 3001 10; OApply 0; OCreateSchema 0 2 2001 2002; OApply 0].
(** DropTables of two tables of which the second does not exist; then the name of the first is free *)
Definition half_drop : list op :=
  base ++ [OCreateTables 2001 (Some (3001, 10)) []; OApply 0;
           ODropTables [(KTable, 2001, 3001); (KTable, 2001, 9999)];
           OCreateTable 2001 3002 10; OApply 0].
(** a drop is lost by a change of leader, after the name was used again *)
Definition lost_drop : list op :=
  base ++ [OCreateTables 2001 (Some (3001, 10)) []; OApply 0;
           ODropTables [(KTable, 2001, 3001)]; OCreateTable 2001 3002 10; OApply 1; OLeader].
(** the handler of CreateTables is told that its proposal failed, which is then applied *)
Definition late : list op :=
  base ++ [OCreateTables 2001 (Some (3001, 10)) []; OLate 0; OCreateTable 2001 3002 10; OApply 0; OApply 0].
(** the schema is dropped while a table is being created in it *)
Definition drop_race : list op := base ++ [OCreateTable 2001 3001 10; ODropSchema 0 2001; OApply 1; OApply 0].
(** a schema is dropped that has an index but no table, and then the index's name is needed *)
Definition orphan : list op := base ++ [OCreateIndex 2001 4001 10; OApply 0; ODropSchema 0 2001; OApply 0].
(** a schema is dropped by another tenant: the name stays taken *)
Definition other_tenant : list op := base ++ [ODropSchema 7 2001; OApply 0].
(** the same, without waiting for the index *)
Definition orphan_drop : list op := base ++ [OCreateIndex 2001 4001 10; OApply 0; ODropIndex 2001 4001; ODropSchema 0 2001; OApply 1; OApply 0].
(** DropTables with an index, given the schema as the parent *)
Definition dangling : list op :=
  base ++ [OCreateTables 2001 (Some (3001, 10)) [(4001, 11)]; OApply 0; ODropTables [(KIndex, 2001, 4001)]; OApply 0].
(** an index is added to a table while the table is being dropped *)
Definition add_race : list op :=
  base ++ [OCreateTables 2001 (Some (3001, 10)) []; OApply 0; ODropTables [(KTable, 2001, 3001)]; OAddIndex 3001 4001 11; OApply 0; OApply 0].
(** a table made by CreateTable *)
Definition plain_table : list op := base ++ [OCreateTable 2001 3001 10; OApply 0].
