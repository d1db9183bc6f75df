(** Specification for schemas, tables, indexes and their names (C83-C87). *)
From Coq Require Import ZArith List Bool.
From Verif Require Import Bytes SMap Outcome NmModel.
Import ListNotations.
Open Scope Z_scope.

(** what is proposed and not applied *)
Definition waiting (s : state) (i : inc) : Prop := exists e, In e (s_pend s) /\ In i (e_incs e).
(** a drop of the table or index is proposed and not applied; same for a schema *)
Definition dropping (s : state) (k : kind) (id : Z) : Prop := exists sid, waiting s (ITDel k id sid).
Definition dropping_schema (s : state) (id : Z) : Prop := waiting s (ISDel id).

(** the increment is about the schema, about a table of it or about an index of it *)
Definition about_schema (i : inc) (sid : Z) : Prop :=
  match i with
  | ISPut id _ _ | ISDel id => id = sid
  | ITPut _ _ t => t_schema t = sid
  | ITDel _ _ x => x = sid
  | _ => False
  end.
(** the increment is about the table or about its list of indexes *)
Definition about_table (i : inc) (t : Z) : Prop :=
  match i with
  | IXPut x _ | IXAdd x _ | IXRem x _ | IXDel x => x = t
  | ITPut KTable x _ | ITDel KTable x _ => x = t
  | ITPut KIndex _ x => t_table x = t
  | _ => False
  end.

(** the id has never been seen: not in the map, in no increment that waits *)
Definition fresh_id (s : state) (k : kind) (id : Z) : Prop :=
  get_ent s k id = None /\ forall t, ~ waiting s (ITPut k id t).
Definition fresh_schema (s : state) (id : Z) : Prop :=
  get_sch s id = None /\ forall a b, ~ waiting s (ISPut id a b).

(** the circumstances under which the names are looked after properly: ids are new, nothing is
    dropped while it is already being dropped or used, a schema is dropped by its own tenant and
    without indexes, DropTables gets one table, only lost creations are given up, and no drop is
    lost by a change of the leader *)
Definition calm (s : state) (o : op) : Prop :=
  match o with
  | OCreateSchema tenant name given fresh =>
      let id := if 0 <? given then given else fresh in 0 < id /\ fresh_schema s id
  | ODropSchema tenant id =>
      forall c, get_sch s id = Some c ->
        sc_tenant c = tenant /\ sc_indexes c = [] /\ forall i, waiting s i -> ~ about_schema i id
  | OCreateTable sid id name =>
      ~ dropping_schema s sid /\ fresh_id s KTable id /\ (forall i, waiting s i -> ~ about_table i id)
  | OCreateTables sid tb ixs =>
      ~ dropping_schema s sid /\ NoDup (map fst ixs) /\ (forall p, In p ixs -> fresh_id s KIndex (fst p)) /\
      (forall p, tb = Some p -> fresh_id s KTable (fst p) /\ (forall i, waiting s i -> ~ about_table i (fst p)))
  | OCreateIndex sid id name => ~ dropping_schema s sid /\ fresh_id s KIndex id
  | OAddIndex t id name =>
      fresh_id s KIndex id /\ ~ waiting s (IXDel t) /\
      forall tb, get_ent s KTable t = Some tb -> ~ dropping_schema s (t_schema tb)
  | ODropTable sid t => True
  | ODropTables l =>
      exists sid t, l = [(KTable, sid, t)] /\
        (forall tb, get_ent s KTable t = Some tb -> t_schema tb = sid) /\
        (forall i, waiting s i -> ~ about_table i t)
  | ODropIndex sid id => ~ dropping s KIndex id
  | ODropIndexOn t id => ~ dropping s KIndex id /\ ~ waiting s (IXDel t)
  | OApply k => True
  | OLose k => forall e, nth_error (s_pend s) k = Some e -> e_back e <> []
  | OLate k => False
  | OLeader => (forall k id, ~ dropping s k id) /\ (forall id, ~ dropping_schema s id)
  end.
Fixpoint calm_hist (s : state) (l : list op) : Prop :=
  match l with
  | [] => True
  | o :: t => calm s o /\ match step s o with Ok s1 => calm_hist s1 t | Crash => True end
  end.

(** no two tables (or indexes) that are not being dropped have the same name in the same schema, and
    no two such schemas the same name in the same tenant *)
Definition names_unique (s : state) : Prop :=
  (forall k i j t u, get_ent s k i = Some t -> get_ent s k j = Some u ->
     ~ dropping s k i -> ~ dropping s k j ->
     t_schema t = t_schema u -> t_name t = t_name u -> i = j) /\
  (forall i j c d, get_sch s i = Some c -> get_sch s j = Some d ->
     ~ dropping_schema s i -> ~ dropping_schema s j ->
     sc_tenant c = sc_tenant d -> sc_name c = sc_name d -> i = j).

(** a lookup by name finds a table or index if and only if it exists under that name in that schema
    and is not being dropped; same for schemas *)
Definition lookups_right (s : state) : Prop :=
  (forall k sid name i t, by_name s k sid name = Some (i, t) <->
     get_ent s k i = Some t /\ t_schema t = sid /\ t_name t = name /\ ~ dropping s k i) /\
  (forall tenant name i c, schema_by_name s tenant name = Some (i, c) <->
     get_sch s i = Some c /\ sc_tenant c = tenant /\ sc_name c = name /\ ~ dropping_schema s i).

(** every schema lists exactly its tables and its indexes, each once, and every table and index has
    its schema *)
Definition lists_exact (s : state) : Prop :=
  (forall k sid c, get_sch s sid = Some c ->
     NoDup (sc_ids k c) /\
     forall i, In i (sc_ids k c) <-> exists t, get_ent s k i = Some t /\ t_schema t = sid) /\
  (forall k i t, get_ent s k i = Some t -> exists c, get_sch s (t_schema t) = Some c).

(** the list of indexes of a table is exactly the set of the indexes that belong to it, and every
    index that belongs to a table has a table that lists it and is in the same schema *)
Definition indexes_exact (s : state) : Prop :=
  (forall t l, get_tix s t = Some l ->
     NoDup l /\
     (forall i, In i l <-> exists x, get_ent s KIndex i = Some x /\ t_table x = t) /\
     exists tb, get_ent s KTable t = Some tb /\
       forall i x, get_ent s KIndex i = Some x -> t_table x = t -> t_schema x = t_schema tb) /\
  (forall i x, get_ent s KIndex i = Some x -> t_table x <> 0 -> exists l, get_tix s (t_table x) = Some l).
