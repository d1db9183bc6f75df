(** C83 - C88: schemas, tables, indexes and their names. *)
From Coq Require Import ZArith List Bool Lia.
From Verif Require Import Bytes SMap Outcome NmModel NmSpec NmProofs1 NmProofs2 NmProofs3 NmProofs4 NmProofs5 NmProofs6 NmProofs7 NmDemo.
Import ListNotations.
Open Scope Z_scope.

(** C83: in calm circumstances no two tables, indexes or schemas in use have the same name *)
Theorem C83_names_unique_partial : forall l s, calm_hist init l -> run init l = Ok s -> names_unique s.
Proof. exact names_unique_ok. Qed.
Print Assumptions C83_names_unique_partial.

Example C83_example : calm_hist init demo /\ exists s, run init demo = Ok s /\
  map fst (s_tab s) = [3001; 3003; 3004] /\ map fst (s_ind s) = [4002; 4003; 4004; 4005] /\ length (s_pend s) = 1%nat /\
  fst (create_table s 2001 3009 20) = false /\ fst (create_table s 2001 3009 21) = true.
Proof. split; [exact demo_calm|]. eexists. split; [vm_compute; reflexivity|]. vm_compute. auto 10. Qed.

(** two tables with the same name: DropTables of two tables that fails at the second one frees the
    name of the first, which stays *)
Theorem C83_half_drop_refuted : exists l s, run init l = Ok s /\ ~ names_unique s /\ s_pend s = [].
Proof.
  exists half_drop. eexists. split; [vm_compute; reflexivity|]. split; [|reflexivity]. intros [H _].
  assert (E : 3001 = 3002); [|discriminate].
  eapply (H KTable 3001 3002); try (vm_compute; reflexivity); intros (x & e & [] & _).
Qed.
Print Assumptions C83_half_drop_refuted.

(** the same when a drop is lost by a change of leader *)
Theorem C83_lost_drop_refuted : exists l s, run init (l ++ [OLeader]) = Ok s /\ ~ names_unique s /\
  calm_hist init l /\ s_pend s = [].
Proof.
  exists (base ++ [OCreateTables 2001 (Some (3001, 10)) []; OApply 0;
           ODropTables [(KTable, 2001, 3001)]; OCreateTable 2001 3002 10; OApply 1]).
  eexists. split; [vm_compute; reflexivity|]. split; [|split; [apply calmb_hist_ok; vm_compute; reflexivity|reflexivity]]. intros [H _].
  assert (E : 3001 = 3002); [|discriminate].
  eapply (H KTable 3001 3002); try (vm_compute; reflexivity); intros (x & e & [] & _).
Qed.
Print Assumptions C83_lost_drop_refuted.

(** the same when the handler of CreateTables is told of a failure of a proposal that is applied later *)
Theorem C83_late_refuted : exists l s, run init l = Ok s /\ ~ names_unique s /\ s_pend s = [].
Proof.
  exists late. eexists. split; [vm_compute; reflexivity|]. split; [|reflexivity]. intros [H _].
  assert (E : 3001 = 3002); [|discriminate].
  eapply (H KTable 3001 3002); try (vm_compute; reflexivity); intros (x & e & [] & _).
Qed.
Print Assumptions C83_late_refuted.

(** C84: in calm circumstances no coordinator aborts when it applies what was accepted *)
Theorem C84_never_aborts_partial : forall l, calm_hist init l -> run init l <> Crash.
Proof. exact never_aborts. Qed.
Print Assumptions C84_never_aborts_partial.

Example C84_example : calm_hist init demo /\ run init demo <> Crash.
Proof. split; [exact demo_calm|]. vm_compute. discriminate. Qed.

(** a schema is dropped while a table is being created in it, both accepted: applying aborts *)
Theorem C84_drop_schema_refuted : exists l, run init l = Crash /\
  exists s, run init base = Ok s /\ l = base ++ [OCreateTable 2001 3001 10; ODropSchema 0 2001; OApply 1; OApply 0].
Proof. exists drop_race. split; [vm_compute; reflexivity|]. eexists. split; [vm_compute; reflexivity|reflexivity]. Qed.
Print Assumptions C84_drop_schema_refuted.

(** the same with an index that is being dropped, which does not keep its schema alive *)
Theorem C84_index_refuted : exists l, run init l = Crash /\
  l = base ++ [OCreateIndex 2001 4001 10; OApply 0; ODropIndex 2001 4001; ODropSchema 0 2001; OApply 1; OApply 0].
Proof. exists orphan_drop. split; [vm_compute; reflexivity|reflexivity]. Qed.
Print Assumptions C84_index_refuted.

(** C85: in calm circumstances a lookup by name finds what has that name, and nothing else *)
Theorem C85_lookups_partial : forall l s, calm_hist init l -> run init l = Ok s -> lookups_right s.
Proof. exact lookups_ok. Qed.
Print Assumptions C85_lookups_partial.

Example C85_example : exists s, run init demo = Ok s /\
  by_name s KTable 2001 20 = Some (3003, mkT 2001 20 0) /\ by_name s KIndex 2001 13 = Some (4003, mkT 2001 13 3001) /\
  by_name s KIndex 2001 11 = None /\ by_name s KTable 2001 40 = None /\ option_map fst (schema_by_name s 0 1) = Some 2001.
Proof. eexists. split; [vm_compute; reflexivity|]. vm_compute. auto. Qed.

(** a refused DropTables makes a table that stays impossible to find by its name *)
Theorem C85_half_drop_refuted : exists l s s' d, run init l = Ok s /\ calm_hist init l /\
  by_name s KTable 2001 10 = Some (3001, mkT 2001 10 0) /\
  drop_tables s d = (false, s') /\ get_ent s' KTable 3001 = Some (mkT 2001 10 0) /\ s_pend s' = [] /\
  by_name s' KTable 2001 10 = None.
Proof.
  exists (base ++ [OCreateTables 2001 (Some (3001, 10)) []; OApply 0]). eexists. eexists.
  exists [(KTable, 2001, 3001); (KTable, 2001, 9999)]. split; [vm_compute; reflexivity|].
  split; [apply calmb_hist_ok; vm_compute; reflexivity|]. split; [vm_compute; reflexivity|]. split; [vm_compute; reflexivity|].
  vm_compute. auto.
Qed.
Print Assumptions C85_half_drop_refuted.

(** a schema dropped under the id of another tenant is gone, but its name stays taken *)
Theorem C85_other_tenant_refuted : exists l s, run init l = Ok s /\ s_sch s = [] /\ s_pend s = [] /\
  (forall given fresh, fst (create_schema s 0 1 given fresh) = false).
Proof.
  exists other_tenant. eexists. split; [vm_compute; reflexivity|]. split; [reflexivity|]. split; [reflexivity|].
  intros. unfold create_schema. reflexivity.
Qed.
Print Assumptions C85_other_tenant_refuted.

(** C86: in calm circumstances every schema lists exactly its tables and its indexes *)
Theorem C86_lists_partial : forall l s, calm_hist init l -> run init l = Ok s -> lists_exact s.
Proof. exact lists_ok. Qed.
Print Assumptions C86_lists_partial.

Example C86_example : exists s c, run init demo = Ok s /\ get_sch s 2001 = Some c /\
  sc_tables c = [3001; 3004; 3003] /\ sc_indexes c = [4002; 4003; 4004; 4005].
Proof. eexists. eexists. split; [vm_compute; reflexivity|]. split; [vm_compute; reflexivity|]. vm_compute. auto. Qed.

(** CreateSchema with the id of a schema that exists (the variable passed as the wanted id is not
    initialised): the schema is replaced, and its tables are in no schema's list *)
Theorem C86_overwrite_refuted : exists l s c, run init l = Ok s /\ ~ lists_exact s /\ s_pend s = [] /\
  get_sch s 2001 = Some c /\ sc_name c = 2 /\ get_ent s KTable 3001 = Some (mkT 2001 10 0) /\ sc_tables c = [].
Proof.
  exists overwrite. eexists. eexists. split; [vm_compute; reflexivity|]. split; [|vm_compute; auto 10]. intros [H _].
  destruct (H KTable 2001 _ eq_refl) as [_ L]. apply (L 3001). exists (mkT 2001 10 0). vm_compute. auto.
Qed.
Print Assumptions C86_overwrite_refuted.

(** DropSchema looks at the tables only: an index stays without a schema, and cannot be dropped any more *)
Theorem C86_orphan_refuted : exists l s, run init l = Ok s /\ ~ lists_exact s /\ s_pend s = [] /\
  get_ent s KIndex 4001 = Some (mkT 2001 10 0) /\ get_sch s 2001 = None /\
  forall sid, fst (drop_index s sid 4001) = false.
Proof.
  exists orphan. eexists. split; [vm_compute; reflexivity|]. split; [|split; [reflexivity|split; [reflexivity|split; [reflexivity|]]]].
  - intros [_ H]. destruct (H KIndex 4001 (mkT 2001 10 0) eq_refl) as [c Q]. discriminate.
  - intros sid. unfold drop_index, drop_one, get_sch. simpl. destruct (sid <? 0); reflexivity.
Qed.
Print Assumptions C86_orphan_refuted.

(** C87: in calm circumstances the list of a table's indexes is exactly the set of its indexes *)
Theorem C87_indexes_partial : forall l s, calm_hist init l -> run init l = Ok s -> indexes_exact s.
Proof. exact indexes_ok. Qed.
Print Assumptions C87_indexes_partial.

(** C87: and GetTables returns the table and exactly its indexes *)
Theorem C87_get_tables_partial : forall l s t tb ids, calm_hist init l -> run init l = Ok s ->
  get_ent s KTable t = Some tb -> get_tix s t = Some ids ->
  exists r, get_tables s (t_schema tb) t = Some (tb :: r) /\
    Forall2 (fun i x => get_ent s KIndex i = Some x /\ t_table x = t) ids r /\ NoDup ids /\
    (forall i x, get_ent s KIndex i = Some x -> t_table x = t -> In i ids).
Proof. exact get_tables_ok. Qed.
Print Assumptions C87_get_tables_partial.

Example C87_example : exists s, run init demo = Ok s /\ get_tix s 3001 = Some [4002; 4003] /\
  get_tables s 2001 3001 = Some [mkT 2001 10 0; mkT 2001 12 3001; mkT 2001 13 3001].
Proof. eexists. split; [vm_compute; reflexivity|]. vm_compute. auto. Qed.

(** DropTables of an index with the schema as parent (DropIndex's meaning of parent) drops the index but
    leaves it in the list of its table: GetTables fails from then on, and the table cannot be dropped *)
Theorem C87_dangling_refuted : exists l s, run init l = Ok s /\ ~ indexes_exact s /\ s_pend s = [] /\
  get_ent s KTable 3001 = Some (mkT 2001 10 0) /\ get_tix s 3001 = Some [4001] /\ get_ent s KIndex 4001 = None /\
  get_tables s 2001 3001 = None /\ fst (drop_tables s [(KTable, 2001, 3001)]) = false.
Proof.
  exists dangling. eexists. split; [vm_compute; reflexivity|]. split; [|vm_compute; auto 10]. intros [H _].
  destruct (H 3001 [4001] eq_refl) as (_ & B & _). destruct (B 4001) as [C _]. destruct (C (or_introl eq_refl)) as (x & Q & _). discriminate.
Qed.
Print Assumptions C87_dangling_refuted.

(** an index added to a table while the table is being dropped outlives it *)
Theorem C87_add_race_refuted : exists l s, run init l = Ok s /\ ~ indexes_exact s /\ s_pend s = [] /\
  get_ent s KTable 3001 = None /\ get_ent s KIndex 4001 = Some (mkT 2001 11 3001) /\
  fst (drop_index s 2001 4001) = false /\ fst (drop_index_on s 3001 4001) = false.
Proof.
  exists add_race. eexists. split; [vm_compute; reflexivity|]. split; [|vm_compute; auto 10]. intros [_ H].
  destruct (H 4001 (mkT 2001 11 3001) eq_refl) as [l Q]; [discriminate|]. discriminate.
Qed.
Print Assumptions C87_add_race_refuted.

(** C88: in calm circumstances a table created by CreateTables, with nothing going on about it, can be
    dropped by DropTables; when that is applied the table and all its indexes are gone, and no other
    table or index is *)
Theorem C88_drop_tables_partial : forall l s t sid tb ids, calm_hist init l -> run init l = Ok s ->
  get_ent s KTable t = Some tb -> t_schema tb = sid -> get_tix s t = Some ids ->
  (forall i, waiting s i -> ~ about_table i t) ->
  fst (drop_tables s [(KTable, sid, t)]) = true /\
  exists s', run s [ODropTables [(KTable, sid, t)]; OApply (length (s_pend s))] = Ok s' /\
    get_ent s' KTable t = None /\ get_tix s' t = None /\
    (forall i x, get_ent s' KIndex i = Some x -> t_table x <> t) /\
    (forall k i x, get_ent s k i = Some x -> i <> t -> t_table x <> t -> get_ent s' k i = Some x).
Proof. exact drop_all_gone. Qed.
Print Assumptions C88_drop_tables_partial.

Example C88_example : exists s s', run init demo = Ok s /\ (forall i, waiting s i -> ~ about_table i 3001) /\
  run s [ODropTables [(KTable, 2001, 3001)]; OApply 1] = Ok s' /\
  map fst (s_tab s') = [3003; 3004] /\ map fst (s_ind s') = [4004; 4005].
Proof.
  eexists. eexists. split; [vm_compute; reflexivity|]. split; [|split; [vm_compute; reflexivity|vm_compute; auto]].
  intros i W. apply tabb_ok. eapply waitb_no; [|exact W]. vm_compute. reflexivity.
Qed.

(** the RPC DropTable is refused for every table in every state *)
Theorem C88_drop_table_refuted : forall s sid t, drop_table s sid t = (false, s).
Proof. exact drop_table_never. Qed.
Print Assumptions C88_drop_table_refuted.

(** a table made by CreateTable can be dropped by neither request, and neither can its schema *)
Theorem C88_plain_refuted : exists l s, run init l = Ok s /\ calm_hist init l /\ s_pend s = [] /\
  get_ent s KTable 3001 = Some (mkT 2001 10 0) /\ fst (drop_schema s 0 2001) = false /\
  forall sid r, fst (drop_table s sid 3001) = false /\ fst (drop_tables s ((KTable, sid, 3001) :: r)) = false.
Proof.
  exists plain_table. eexists. split; [vm_compute; reflexivity|]. split; [apply calmb_hist_ok; vm_compute; reflexivity|].
  split; [reflexivity|]. split; [reflexivity|]. split; [reflexivity|]. intros sid r. split.
  - rewrite drop_table_never. reflexivity.
  - apply drop_tables_never. reflexivity.
Qed.
Print Assumptions C88_plain_refuted.
