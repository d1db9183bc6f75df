(** Vocabulary for the safe point properties. *)
From Coq Require Import ZArith List Bool.
From Verif Require Import SpModel.
Import ListNotations.
Open Scope Z_scope.

(** * The coordinator *)
(** nobody drops tenant [id], and no creation or removal of it is under way *)
Definition leaves_alone (id : Z) (e : cev) : Prop := match e with CDrop i => i <> id | _ => True end.
Definition none_under_way (id : Z) (c : coor) : Prop :=
  forall i, In i (c_pend c) -> forall x, In x (i_tens i) ->
    match x with TCreate k _ => k <> id | TDelete k => k <> id | TUpdate _ _ => True end.
Definition no_change (e : cev) : Prop := e <> CChange.

(** the keys of the maps of a request are distinct *)
Definition proper (u : upd) : Prop := NoDup (map fst (u_tsp u)) /\ NoDup (map fst (u_trl u)).
Definition settled (c : coor) : coor := fold_left cstep (map (fun _ => CCommit 0) (c_pend c)) c.
(** requests come one at a time, each waiting for raft; none is refused for an unknown tenant *)
Inductive calm : coor -> Prop :=
| calm0 : calm coor0
| calm_ask c u c1 r : calm c -> proper u -> ask c u = (c1, Some r) -> calm (settled c1)
| calm_other c e : calm c -> (match e with CNew _ _ _ | CDrop _ | CRename _ _ _ => True | _ => False end) -> calm (settled (cstep c e))
| calm_change c : calm c -> calm (cstep c CChange).

(** what an update asks for: the larger of the old and the requested values, and nothing else *)
Definition raised (now : Z) (want : option Z) : Z := match want with Some v => Z.max now v | None => now end.
Definition after_update (u : upd) (id : Z) (x : tenant) : tenant :=
  mkTen (n_name x) (n_comment x)
        (if id =? 0 then n_sp x else raised (n_sp x) (zget (u_tsp u) id))
        (if id =? 0 then n_rl x else raised (n_rl x) (zget (u_trl u) id)).
Definition flag_after (f : flag) (now : bool) : bool := match f with FStop => true | FStart => false | _ => now end.
(** the request can be served: a known flag and known tenants *)
Definition servable (c : coor) (u : upd) : Prop :=
  u_flag u <> FOther /\ forall id v, (In (id, v) (u_tsp u) \/ In (id, v) (u_trl u)) -> id = 0 \/ zget (c_ten c) id <> None.

(** * The store *)
(** the answer of the coordinator gives tenant [t] the safe point [x] *)
Definition given (sp : Z) (tens : list (Z * Z)) (t x : Z) : Prop := (t = 0 /\ x = sp) \/ (t <> 0 /\ In (t, x) tens).
(** a run has read the flags, with tenant [t] among them, and has not yet used what it read *)
Definition between (s : store) (t : Z) : Prop := match g_ph s with RRead g => zget g t <> None | _ => False end.
Definition not_switched_on (e : gev) : Prop := match e with GFetch false _ _ => False | _ => True end.
(** the steps of an undisturbed run of the handler *)
Definition own_step (e : gev) : Prop := match e with GArm _ | GRegion | GBatch | GEnd | GFinish => True | _ => False end.
