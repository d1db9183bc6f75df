(** Histories used as examples and witnesses. *)
Require Import ZArith List Bool.
From Verif Require Import DnModel DnSpec.
Import ListNotations.
Open Scope Z_scope.

(** Two imports: number 1 at timestamp 5, number 2 at timestamp 9. *)
Definition src : source := fun k =>
  if k =? 1 then (5, [(11, 100); (12, 200); (13, 300)])
  else if k =? 2 then (9, [(21, 400); (22, 500); (23, 600)])
  else (0, []).

Definition mk (k off : Z) (n : nat) (more : bool) : event :=
  let l := firstn n (skipn (Z.to_nat off) (snd (src k))) in
  EPush (mkPush (map snd l) (map fst l) more off (fst (src k)) k 1000 false RenOk RenOk).

Definition v0 : env := mkEnv true RenOk.
Definition jobs5 : list event := [EJob 0 v0; EJob 0 v0; EJob 0 v0; EJob 0 v0; EJob 0 v0].
Definition jobs4 : list event := [EJob 0 v0; EJob 0 v0; EJob 0 v0; EJob 0 v0].

(** The first batch comes twice after a reset in between, a push of another import interferes, then build,
    load, and a restart with a load from the files. *)
Definition demo : list event :=
  [mk 1 0 2 true; EClose; mk 1 0 2 true; mk 2 0 3 false; mk 1 2 1 false; EBuild false] ++ jobs5 ++
  [ELoad] ++ jobs4 ++ [EStop; ETryLoad] ++ jobs4.

(** A destroy cut short by a crash after the first file; a second import; a restart before its build. *)
Definition torn : list event :=
  [mk 1 0 3 false; EBuild false] ++ jobs5 ++ [EDestroy true false false; EStop; mk 2 0 3 false; EStop; ETryLoad]
  ++ jobs4.

(** A destroy between the start of a build and the library's build. *)
Definition race : list event := [mk 1 0 3 false; EBuild false; EDestroy true true true; EJob 0 v0].

(** A destroy between the end of a build and the storing of its state. *)
Definition late : list event := [mk 1 0 3 false; EBuild false] ++ jobs4.

(** A destroy none of whose renames succeed, then the no-data mark. *)
Definition unmoved : list event := [mk 1 0 3 false; EBuild false] ++ jobs5 ++ [EDestroy false false false].
