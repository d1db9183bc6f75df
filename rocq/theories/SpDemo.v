(** Histories used beside the theorems about safe points. *)
From Coq Require Import ZArith List Bool.
From Verif Require Import SpModel SpSpec.
Import ListNotations.
Open Scope Z_scope.

Definition up (sp rl : Z) (tsp trl : list (Z * Z)) : upd := mkUpd sp FNone rl tsp trl.
(** tenant 1 with safe point 10 and lock safe point 10 *)
Definition sp_base : list cev := [CNew 1 100 0; CCommit 0; CAsk (up 10 10 [(1, 10)] [(1, 10)]); CCommit 0].
Definition c_base : coor := crun coor0 sp_base.
(** the second of two creations of tenant 1 is committed after its safe point was raised *)
Definition sp_twice : list cev := [CNew 1 100 0; CNew 1 100 0; CCommit 0; CAsk (up 0 0 [(1, 10)] []); CCommit 1].
(** the answer given to an update *)
Definition told_ok (c : coor) (u : upd) : bool := match snd (ask c u) with Some _ => true | None => false end.
(** tenants 1 and 2; only 1 has a safe point *)
Definition st_base : list gev := [GFetch false 30 [(1, 20); (2, 0)]].
Definition regs3 : list (Z * Z) := [(501, 0); (502, 1); (503, 2)].
Definition one_run : list gev := [GRegion; GBatch; GEnd; GRegion; GBatch; GBatch; GEnd; GFinish].
