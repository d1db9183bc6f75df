(** Model of the coordinator's schemas, tables and indexes, of the maps from names to ids and of the
    requests that create, drop and look them up.
    Sources: src/coordinator/coordinator_control_meta.cc, src/coordinator/coordinator_control_fsm.cc
    (ApplyMetaIncrement, BuildTempMaps), src/server/meta_service.cc.
    Simplifications: names are integers (a check name is the pair of parent id and name, which
    Helper::GenNewTableCheckName, src/common/helper.cc:897-907, encodes without collision); a
    definition is its schema, its name and the table it belongs to; regions, partitions, tenants'
    existence, auto-increment, revisions, events and the limits on numbers are left out (a request
    that fails for such reasons is no step); the root schemas are left out; a handler is atomic up to
    the point where it proposes its increment, and proposals may be applied in any order, be lost
    or be applied after the handler was told that they failed. *)
From Coq Require Import ZArith List Bool.
From Verif Require Import Bytes SMap Outcome.
Import ListNotations.
Open Scope Z_scope.

(** pb::meta::EntityType: tables and indexes have the same record and separate maps *)
Inductive kind := KTable | KIndex.
Definition kind_eqb (a b : kind) : bool :=
  match a, b with KTable, KTable | KIndex, KIndex => true | _, _ => false end.

(** pb::coordinator_internal::SchemaInternal: tenant_id, name, table_ids, index_ids *)
Record schema := mkSc { sc_tenant : Z; sc_name : Z; sc_tables : list Z; sc_indexes : list Z }.
Definition sc_ids (k : kind) (c : schema) : list Z :=
  match k with KTable => sc_tables c | KIndex => sc_indexes c end.
Definition sc_set (k : kind) (c : schema) (l : list Z) : schema :=
  match k with
  | KTable => mkSc (sc_tenant c) (sc_name c) l (sc_indexes c)
  | KIndex => mkSc (sc_tenant c) (sc_name c) (sc_tables c) l
  end.

(** pb::coordinator_internal::TableInternal: schema_id, definition().name(), table_id (for an index,
    the table it belongs to; 0 for an index created on its own) *)
Record tbl := mkT { t_schema : Z; t_name : Z; t_table : Z }.

(** one element of pb::coordinator_internal::MetaIncrement *)
Inductive inc :=
| ISPut (id tenant name : Z)            (* schemas, CREATE *)
| ISDel (id : Z)                        (* schemas, DELETE *)
| IXPut (t : Z) (l : list Z)            (* table_indexes, CREATE *)
| IXAdd (t i : Z)                       (* table_indexes, UPDATE with table_ids_to_add *)
| IXRem (t i : Z)                       (* table_indexes, UPDATE with table_ids_to_del *)
| IXDel (t : Z)                         (* table_indexes, DELETE *)
| ITPut (k : kind) (id : Z) (t : tbl)   (* tables / indexes, CREATE *)
| ITDel (k : kind) (id sid : Z).        (* tables / indexes, DELETE *)

(** a proposed increment, with the names its handler gives up when it is told that it failed *)
Record entry := mkE { e_incs : list inc; e_back : list (kind * Z * Z) }.

(** a map from (parent id, name) to id: schema_name_map_safe_temp_, table_name_map_safe_temp_,
    index_name_map_safe_temp_ (src/coordinator/coordinator_control.h) *)
Definition names := Z -> Z -> option Z.
Definition no_names : names := fun _ _ => None.
Definition nm_put (f : names) (a b i : Z) : names :=
  fun x y => if (x =? a) && (y =? b) then Some i else f x y.
Definition nm_del (f : names) (a b : Z) : names :=
  fun x y => if (x =? a) && (y =? b) then None else f x y.

(** schema_map_, table_map_, index_map_, table_index_map_, the name maps of the leader, and the
    increments that are proposed and not applied *)
Record state := mkS {
  s_sch : smap Z schema;
  s_tab : smap Z tbl;
  s_ind : smap Z tbl;
  s_tix : smap Z (list Z);
  s_sn : names;
  s_tn : names;
  s_in : names;
  s_pend : list entry }.
Definition init : state := mkS [] [] [] [] no_names no_names no_names [].

Definition get_sch (s : state) (id : Z) : option schema := get Z.compare (s_sch s) id.
Definition get_ent (s : state) (k : kind) (id : Z) : option tbl :=
  get Z.compare (match k with KTable => s_tab s | KIndex => s_ind s end) id.
Definition get_tix (s : state) (t : Z) : option (list Z) := get Z.compare (s_tix s) t.
Definition nm (s : state) (k : kind) : names := match k with KTable => s_tn s | KIndex => s_in s end.

Definition set_sch (s : state) (m : smap Z schema) : state :=
  mkS m (s_tab s) (s_ind s) (s_tix s) (s_sn s) (s_tn s) (s_in s) (s_pend s).
Definition set_ent (s : state) (k : kind) (m : smap Z tbl) : state :=
  match k with
  | KTable => mkS (s_sch s) m (s_ind s) (s_tix s) (s_sn s) (s_tn s) (s_in s) (s_pend s)
  | KIndex => mkS (s_sch s) (s_tab s) m (s_tix s) (s_sn s) (s_tn s) (s_in s) (s_pend s)
  end.
Definition ents (s : state) (k : kind) : smap Z tbl := match k with KTable => s_tab s | KIndex => s_ind s end.
Definition set_tix (s : state) (m : smap Z (list Z)) : state :=
  mkS (s_sch s) (s_tab s) (s_ind s) m (s_sn s) (s_tn s) (s_in s) (s_pend s).
Definition set_sn (s : state) (f : names) : state :=
  mkS (s_sch s) (s_tab s) (s_ind s) (s_tix s) f (s_tn s) (s_in s) (s_pend s).
Definition set_nm (s : state) (k : kind) (f : names) : state :=
  match k with
  | KTable => mkS (s_sch s) (s_tab s) (s_ind s) (s_tix s) (s_sn s) f (s_in s) (s_pend s)
  | KIndex => mkS (s_sch s) (s_tab s) (s_ind s) (s_tix s) (s_sn s) (s_tn s) f (s_pend s)
  end.
Definition set_pend (s : state) (p : list entry) : state :=
  mkS (s_sch s) (s_tab s) (s_ind s) (s_tix s) (s_sn s) (s_tn s) (s_in s) p.
Definition propose (s : state) (is : list inc) (back : list (kind * Z * Z)) : state :=
  set_pend s (s_pend s ++ [mkE is back]).

(** ** applying an increment: CoordinatorControl::ApplyMetaIncrement *)

Definition mem (i : Z) (l : list Z) : bool := existsb (Z.eqb i) l.
Definition without (i : Z) (l : list Z) : list Z := filter (fun x => negb (x =? i)) l.

(** coordinator_control_fsm.cc: schemas 1367-1425 (CREATE is a Put of a schema without tables, whatever
    was there), table_indexes 1739-1836 (the order of the ids, which an UPDATE sorts, is not kept; an
    UPDATE of a missing entry is skipped, 1764-1769), indexes 1848-1972, tables 1987-2110. A table or
    an index whose schema is not in the map ends the process: LOG(FATAL), 1879-1881, 1944-1946,
    2018-2020, 2092-2094. *)
Definition apply_inc (s : state) (i : inc) : outcome state :=
  match i with
  | ISPut id tenant name => Ok (set_sch s (put Z.compare (s_sch s) id (mkSc tenant name [] [])))
  | ISDel id => Ok (set_sch s (del Z.compare (s_sch s) id))
  | IXPut t l => Ok (set_tix s (put Z.compare (s_tix s) t l))
  | IXAdd t i =>
      match get_tix s t with
      | Some l => Ok (set_tix s (put Z.compare (s_tix s) t (if mem i l then l else l ++ [i])))
      | None => Ok s
      end
  | IXRem t i =>
      match get_tix s t with
      | Some l => Ok (set_tix s (put Z.compare (s_tix s) t (without i l)))
      | None => Ok s
      end
  | IXDel t => Ok (set_tix s (del Z.compare (s_tix s) t))
  | ITPut k id t =>
      match get_sch s (t_schema t) with
      | Some c =>
          let s1 := set_ent s k (put Z.compare (ents s k) id t) in
          Ok (set_sch s1 (put Z.compare (s_sch s1) (t_schema t) (sc_set k c (sc_ids k c ++ [id]))))
      | None => Crash
      end
  | ITDel k id sid =>
      match get_sch s sid with
      | Some c =>
          let s1 := set_ent s k (del Z.compare (ents s k) id) in
          Ok (set_sch s1 (put Z.compare (s_sch s1) sid (sc_set k c (without id (sc_ids k c)))))
      | None => Crash
      end
  end.
Fixpoint apply_incs (s : state) (l : list inc) : outcome state :=
  match l with
  | [] => Ok s
  | i :: t => match apply_inc s i with Ok s1 => apply_incs s1 t | Crash => Crash end
  end.

(** the order of application inside one increment: schemas, table_indexes, indexes, tables *)
Definition is_x (i : inc) : bool := match i with IXPut _ _ | IXAdd _ _ | IXRem _ _ | IXDel _ => true | _ => false end.
Definition is_s (i : inc) : bool := match i with ISPut _ _ _ | ISDel _ => true | _ => false end.
Definition is_k (k : kind) (i : inc) : bool :=
  match i with ITPut k1 _ _ | ITDel k1 _ _ => kind_eqb k1 k | _ => false end.
Definition in_order (l : list inc) : list inc :=
  filter is_s l ++ filter is_x l ++ filter (is_k KIndex) l ++ filter (is_k KTable) l.

(** ** requests: [true] means accepted *)

(** CoordinatorControl::CreateSchema, coordinator_control_meta.cc:174-250: [given] > 0 is used as the id
    without any check, else a new id is taken. DoCreateSchema (meta_service.cc:634) passes an
    uninitialised variable as [given]. *)
Definition create_schema (s : state) (tenant name given fresh : Z) : bool * state :=
  match s_sn s tenant name with
  | Some _ => (false, s)
  | None =>
      let id := if 0 <? given then given else fresh in
      (true, propose (set_sn s (nm_put (s_sn s) tenant name id)) [ISPut id tenant name] [])
  end.

(** CoordinatorControl::DropSchema, coordinator_control_meta.cc:255-308 (COORDINATOR_ID_OF_MAP_MIN,
    coordinator_meta_storage.h:40) *)
Definition drop_schema (s : state) (tenant id : Z) : bool * state :=
  if id <=? 1000 then (false, s)
  else match get_sch s id with
       | None => (false, s)
       | Some c =>
           match sc_tables c with
           | _ :: _ => (false, s)
           | [] => (true, propose (set_sn s (nm_del (s_sn s) tenant (sc_name c))) [ISDel id] [])
           end
       end.

(** CoordinatorControl::CreateTable (548-822), CreateIndex (1211-1490): the checks, the reservation of
    the name and the increment; [None]: refused, the name map is as before *)
Definition create_one (s : state) (k : kind) (sid id name parent : Z) : option (state * inc) :=
  if sid <=? 0 then None
  else match get_sch s sid with
       | None => None
       | Some _ =>
           match nm s k sid name with
           | Some _ => None
           | None =>
               if id <=? 0 then None
               else match get_ent s k id with
                    | Some _ => None
                    | None => Some (set_nm s k (nm_put (nm s k) sid name id), ITPut k id (mkT sid name parent))
                    end
           end
       end.

(** DoCreateTable, meta_service.cc: one table, no entry in the map of table indexes, no names given up
    when the proposal fails *)
Definition create_table (s : state) (sid id name : Z) : bool * state :=
  match create_one s KTable sid id name 0 with
  | Some (s1, i) => (true, propose s1 [i] [])
  | None => (false, s)
  end.

(** DoCreateIndex, meta_service.cc:1240-1300 *)
Definition create_index (s : state) (sid id name : Z) : bool * state :=
  match create_one s KIndex sid id name 0 with
  | Some (s1, i) => (true, propose s1 [i] [])
  | None => (false, s)
  end.

Fixpoint create_list (s : state) (sid parent : Z) (l : list (Z * Z)) : option (state * list inc) :=
  match l with
  | [] => Some (s, [])
  | (id, name) :: t =>
      match create_one s KIndex sid id name parent with
      | None => None
      | Some (s1, i) =>
          match create_list s1 sid parent t with
          | None => None
          | Some (s2, is) => Some (s2, i :: is)
          end
      end
  end.

(** DoCreateTables, meta_service.cc:1517-1747: at most one table, then the indexes; with a table, the
    map of table indexes gets an entry. Refused anywhere: all reserved names are given up
    (ON_SCOPE_EXIT, 1565-1574), so the state is as before. *)
Definition backs (k : kind) (sid : Z) (l : list (Z * Z)) : list (kind * Z * Z) :=
  map (fun p => (k, sid, snd p)) l.
Definition create_tables (s : state) (sid : Z) (tb : option (Z * Z)) (ixs : list (Z * Z)) : bool * state :=
  match tb with
  | Some (id, name) =>
      match create_one s KTable sid id name 0 with
      | None => (false, s)
      | Some (s1, i) =>
          match create_list s1 sid id ixs with
          | None => (false, s)
          | Some (s2, is) =>
              (true, propose s2 (in_order (i :: is ++ [IXPut id (map fst ixs)]))
                             ((KTable, sid, name) :: backs KIndex sid ixs))
          end
      end
  | None =>
      match create_list s sid 0 ixs with
      | None => (false, s)
      | Some (s2, is) => (true, propose s2 is (backs KIndex sid ixs))
      end
  end.

(** CoordinatorControl::AddIndexOnTable, coordinator_control_meta.cc:3482-3532 *)
Definition add_index (s : state) (t id name : Z) : bool * state :=
  match get_ent s KTable t with
  | None => (false, s)
  | Some tb =>
      match get_tix s t with
      | None => (false, s)
      | Some _ =>
          match create_one s KIndex (t_schema tb) id name t with
          | None => (false, s)
          | Some (s1, i) => (true, propose s1 [IXAdd t id; i] [])
          end
      end
  end.

(** CoordinatorControl::DropTable (828-902), DropIndex (1866-1943): the checks, the increment, and the
    name given up at once *)
Definition drop_one (s : state) (k : kind) (sid id : Z) : option (state * inc) :=
  if sid <? 0 then None
  else match get_sch s sid with
       | None => None
       | Some _ =>
           match get_ent s k id with
           | None => None
           | Some t =>
               if negb (t_schema t =? sid) then None
               else Some (set_nm s k (nm_del (nm s k) sid (t_name t)), ITDel k id sid)
           end
       end.

(** DoDropIndex, meta_service.cc:1430-1470, with check_compatibility *)
Definition drop_index (s : state) (sid id : Z) : bool * state :=
  match get_ent s KIndex id with
  | Some t =>
      if 0 <? t_table t then (false, s)
      else match drop_one s KIndex sid id with
           | Some (s1, i) => (true, propose s1 [i] [])
           | None => (false, s)
           end
  | None => (false, s)
  end.

(** CoordinatorControl::DropIndexOnTable, coordinator_control_meta.cc:3534-3586 *)
Definition drop_index_on (s : state) (t id : Z) : bool * state :=
  match get_ent s KTable t, get_ent s KIndex id, get_tix s t with
  | Some tb, Some _, Some l =>
      if mem id l then
        match drop_one s KIndex (t_schema tb) id with
        | Some (s1, i) => (true, propose s1 [IXRem t id; i] [])
        | None => (false, s)
        end
      else (false, s)
  | _, _, _ => (false, s)
  end.

(** the loop over the indexes in CoordinatorControl::DropTableIndexes; the state returned on failure
    has lost the names of the indexes before the failing one *)
Fixpoint drop_list (s : state) (sid : Z) (l : list Z) : bool * state * list inc :=
  match l with
  | [] => (true, s, [])
  | id :: t =>
      match drop_one s KIndex sid id with
      | None => (false, s, [])
      | Some (s1, i) =>
          let '(ok, s2, is) := drop_list s1 sid t in (ok, s2, i :: is)
      end
  end.

(** CoordinatorControl::GetTable, coordinator_control_meta.cc:2123-2164 (and GetIndex, 2167-2212):
    whether the table belongs to the schema is not checked *)
Definition get_one (s : state) (k : kind) (sid id : Z) : option tbl :=
  if (sid <? 0) || (id <=? 0) then None
  else match get_sch s sid with Some _ => get_ent s k id | None => None end.

(** CoordinatorControl::DropTableIndexes, coordinator_control_meta.cc:3064-3109 *)
Definition drop_table_indexes (s : state) (sid t : Z) : bool * state * list inc :=
  match get_one s KTable sid t, get_tix s t with
  | Some _, Some l =>
      let '(ok, s1, is) := drop_list s sid l in
      if ok then
        match drop_one s1 KTable sid t with
        | Some (s2, i) => (true, s2, is ++ [IXDel t; i])
        | None => (false, s1, [])
        end
      else (false, s1, [])
  | _, _ => (false, s, [])
  end.

(** CoordinatorControl::RemoveTableIndex, coordinator_control_meta.cc:3111-3147: the first argument is
    used as a schema id by DropIndex and as a table id afterwards *)
Definition remove_table_index (s : state) (parent id : Z) : bool * state * list inc :=
  match drop_one s KIndex parent id with
  | None => (false, s, [])
  | Some (s1, i) =>
      match get_tix s1 parent with
      | Some l => if mem id l then (true, s1, [IXRem parent id; i]) else (true, s1, [i])
      | None => (true, s1, [i])
      end
  end.

(** DoDropTables, meta_service.cc:1785-1830: stops at the first failure, without restoring the names
    that were given up *)
Fixpoint drop_each (s : state) (l : list (kind * Z * Z)) : bool * state * list inc :=
  match l with
  | [] => (true, s, [])
  | (k, parent, id) :: r =>
      let '(ok, s1, is) := match k with
                           | KTable => drop_table_indexes s parent id
                           | KIndex => remove_table_index s parent id
                           end in
      if ok then let '(ok2, s2, is2) := drop_each s1 r in (ok2, s2, is ++ is2) else (false, s1, [])
  end.
Definition drop_tables (s : state) (l : list (kind * Z * Z)) : bool * state :=
  let '(ok, s1, is) := drop_each s l in
  if ok then (true, propose s1 (in_order is) []) else (false, s1).

(** CoordinatorControl::GetTableIndexes, coordinator_control_meta.cc:3019-3062 (the RPC GetTables): the
    table and its indexes, or an error *)
Fixpoint get_list (s : state) (sid : Z) (l : list Z) : option (list tbl) :=
  match l with
  | [] => Some []
  | i :: t => match get_one s KIndex sid i, get_list s sid t with
              | Some x, Some r => Some (x :: r)
              | _, _ => None
              end
  end.
Definition get_tables (s : state) (sid t : Z) : option (list tbl) :=
  match get_one s KTable sid t, get_tix s t with
  | Some tb, Some l => match get_list s sid l with Some r => Some (tb :: r) | None => None end
  | _, _ => None
  end.

(** DoDropTable, meta_service.cc:666-724: first GetTableIndexes, whose failure is a refusal (685-694)
    and whose non-empty answer is a refusal (696-702) *)
Definition drop_table (s : state) (sid t : Z) : bool * state :=
  match get_tables s sid t with
  | None => (false, s)
  | Some (_ :: _) => (false, s)
  | Some [] =>
      match drop_one s KTable sid t with
      | Some (s1, i) => (true, propose s1 [i] [])
      | None => (false, s)
      end
  end.

(** GetTableByName, GetIndexByName (2215-2290), GetSchemaByName (430-447) *)
Definition by_name (s : state) (k : kind) (sid name : Z) : option (Z * tbl) :=
  if sid <? 0 then None
  else match get_sch s sid with
       | None => None
       | Some _ =>
           match nm s k sid name with
           | None => None
           | Some i => match get_one s k sid i with Some t => Some (i, t) | None => None end
           end
       end.
Definition schema_by_name (s : state) (tenant name : Z) : option (Z * schema) :=
  match s_sn s tenant name with
  | None => None
  | Some i => match get_sch s i with Some c => Some (i, c) | None => None end
  end.

(** BuildTempMaps, coordinator_control_fsm.cc:65-128, when the node becomes leader: the name maps are
    cleared and filled from the applied maps (in id order; the code's order is a hash map's, which
    matters only for names that occur twice) *)
Definition name_all (m : smap Z tbl) : names :=
  fold_left (fun f e => nm_put f (t_schema (snd e)) (t_name (snd e)) (fst e)) m no_names.
Definition name_schemas (m : smap Z schema) : names :=
  fold_left (fun f e => nm_put f (sc_tenant (snd e)) (sc_name (snd e)) (fst e)) m no_names.
Definition become_leader (s : state) : state :=
  mkS (s_sch s) (s_tab s) (s_ind s) (s_tix s) (name_schemas (s_sch s)) (name_all (s_tab s)) (name_all (s_ind s)) [].

(** ** histories *)

Inductive op :=
| OCreateSchema (tenant name given fresh : Z)
| ODropSchema (tenant id : Z)
| OCreateTable (sid id name : Z)
| OCreateTables (sid : Z) (tb : option (Z * Z)) (ixs : list (Z * Z))
| OCreateIndex (sid id name : Z)
| OAddIndex (t id name : Z)
| ODropTable (sid t : Z)
| ODropTables (l : list (kind * Z * Z))
| ODropIndex (sid id : Z)
| ODropIndexOn (t id : Z)
| OApply (k : nat)   (* a proposed increment is applied *)
| OLose (k : nat)    (* a proposed increment is lost, its handler is told so *)
| OLate (k : nat)    (* a handler is told that its increment failed, which may still be applied *)
| OLeader.           (* the node becomes leader again; what was proposed and not applied is lost *)

Fixpoint remove_nth {A} (k : nat) (l : list A) : list A :=
  match k, l with
  | _, [] => []
  | O, _ :: t => t
  | S k1, x :: t => x :: remove_nth k1 t
  end.

(** the end of the scope of DoCreateTables: RollbackCreateTable, RollbackCreateIndex,
    coordinator_control_meta.cc:503-518 *)
Fixpoint give_up (s : state) (l : list (kind * Z * Z)) : state :=
  match l with
  | [] => s
  | (k, a, b) :: t => give_up (set_nm s k (nm_del (nm s k) a b)) t
  end.

Definition step (s : state) (o : op) : outcome state :=
  match o with
  | OCreateSchema tenant name given fresh => Ok (snd (create_schema s tenant name given fresh))
  | ODropSchema tenant id => Ok (snd (drop_schema s tenant id))
  | OCreateTable sid id name => Ok (snd (create_table s sid id name))
  | OCreateTables sid tb ixs => Ok (snd (create_tables s sid tb ixs))
  | OCreateIndex sid id name => Ok (snd (create_index s sid id name))
  | OAddIndex t id name => Ok (snd (add_index s t id name))
  | ODropTable sid t => Ok (snd (drop_table s sid t))
  | ODropTables l => Ok (snd (drop_tables s l))
  | ODropIndex sid id => Ok (snd (drop_index s sid id))
  | ODropIndexOn t id => Ok (snd (drop_index_on s t id))
  | OApply k =>
      match nth_error (s_pend s) k with
      | None => Ok s
      | Some e => apply_incs (set_pend s (remove_nth k (s_pend s))) (e_incs e)
      end
  | OLose k =>
      match nth_error (s_pend s) k with
      | None => Ok s
      | Some e => Ok (give_up (set_pend s (remove_nth k (s_pend s))) (e_back e))
      end
  | OLate k =>
      match nth_error (s_pend s) k with
      | None => Ok s
      | Some e => Ok (give_up s (e_back e))
      end
  | OLeader => Ok (become_leader s)
  end.
Fixpoint run (s : state) (l : list op) : outcome state :=
  match l with
  | [] => Ok s
  | o :: t => match step s o with Ok s1 => run s1 t | Crash => Crash end
  end.
