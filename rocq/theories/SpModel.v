(** Model of the garbage collection safe points: the coordinator's record of them and the store's
    use of them.  Source: /repo/src, read as text.

    Left out: the contents of the regions (see [gc_txn] in TxnModel.v and GcModel.v for what one
    collection removes), times of the last update, revisions and events of tenants, and the
    debugging calls. *)
From Coq Require Import ZArith List Bool.
Import ListNotations.
Open Scope Z_scope.

(** * Maps by tenant *)
Fixpoint zget {A} (m : list (Z * A)) (k : Z) : option A :=
  match m with [] => None | (k', v) :: r => if k =? k' then Some v else zget r k end.
Definition zdel {A} (m : list (Z * A)) (k : Z) : list (Z * A) := filter (fun e => negb (fst e =? k)) m.
Definition zset {A} (m : list (Z * A)) (k : Z) (v : A) : list (Z * A) := (k, v) :: zdel m k.

(** * A. The coordinator *)

(** TenantInternal: name, comment, safe_point_ts, resolve_lock_safe_point *)
Record tenant := mkTen { n_name : Z; n_comment : Z; n_sp : Z; n_rl : Z }.
Inductive tinc := TCreate (id : Z) (t : tenant) | TUpdate (id : Z) (t : tenant) | TDelete (id : Z).
(** the parts of a MetaIncrement an update or a tenant request fills *)
Record inc := mkInc { i_sp : option Z; i_rl : option Z; i_stop : option bool; i_tens : list tinc }.
(** [c_sp], [c_rl]: the applied counters ID_GC_SAFE_POINT and ID_GC_RESOLVE_LOCK_SAFE_POINT
    (id_epoch_map_); [c_tsp], [c_trl]: the leader's copy ahead of the log (id_epoch_map_safe_temp_);
    [c_stop]: the value of kGcStopKey; [c_pend]: increments handed to raft and not committed. *)
Record coor := mkCoor { c_sp : Z; c_rl : Z; c_stop : bool; c_ten : list (Z * tenant);
                        c_tsp : Z; c_trl : Z; c_pend : list inc }.
Definition coor0 : coor := mkCoor 0 0 false [] 0 0 [].

Inductive flag := FNone | FStop | FStart | FOther.
(** UpdateGCSafePointRequest; the maps are lists of pairs with distinct keys *)
Record upd := mkUpd { u_sp : Z; u_flag : flag; u_rl : Z; u_tsp : list (Z * Z); u_trl : list (Z * Z) }.
(** UpdateGCSafePointResponse *)
Record resp := mkResp { r_new_safe_point : Z; r_stop : bool }.

(** coordinator_control_coor.cc:5987-6013, the loop over tenant_safe_points; None: a tenant is not
    known and the request is refused *)
Fixpoint raise_sp (ten : list (Z * tenant)) (l : list (Z * Z)) : option (list tinc) :=
  match l with
  | [] => Some []
  | (id, sp) :: r =>
      if id =? 0 then raise_sp ten r
      else match zget ten id with
           | None => None
           | Some t =>
               match raise_sp ten r with
               | None => None
               | Some q => if n_sp t <? sp then Some (TUpdate id (mkTen (n_name t) (n_comment t) sp (n_rl t)) :: q) else Some q
               end
           end
  end.

(** :6028-6048 the increment of the tenant is changed if there is one, else one is added *)
Fixpoint put_rl (l : list tinc) (id : Z) (t : tenant) (rl : Z) : list tinc :=
  match l with
  | [] => [TUpdate id (mkTen (n_name t) (n_comment t) (n_sp t) rl)]
  | TUpdate i x :: r => if i =? id then TUpdate i (mkTen (n_name x) (n_comment x) (n_sp x) rl) :: r
                        else TUpdate i x :: put_rl r id t rl
  | y :: r => y :: put_rl r id t rl
  end.
(** :6015-6050, the loop over tenant_resolve_lock_safe_points *)
Fixpoint raise_rl (ten : list (Z * tenant)) (l : list (Z * Z)) (q : list tinc) : option (list tinc) :=
  match l with
  | [] => Some q
  | (id, rl) :: r =>
      if id =? 0 then raise_rl ten r q
      else match zget ten id with
           | None => None
           | Some t => raise_rl ten r (if n_rl t <? rl then put_rl q id t rl else q)
           end
  end.

(** coordinator_control_coor.cc:5921-6053 UpdateGCSafePoint with server/coordinator_service.cc:2337-2397:
    the flag, the two counters (whose leader copies are changed at once, UpdatePresentId,
    coordinator_control.cc:601-621), the tenants.  The answer's new_safe_point is set twice. *)
Definition with_temp (c : coor) (sp rl : Z) : coor :=
  mkCoor (c_sp c) (c_rl c) (c_stop c) (c_ten c) (Z.max (c_tsp c) sp) (Z.max (c_trl c) rl) (c_pend c).
Definition propose (c : coor) (i : inc) : coor :=
  mkCoor (c_sp c) (c_rl c) (c_stop c) (c_ten c) (c_tsp c) (c_trl c) (c_pend c ++ [i]).
Definition ask (c : coor) (u : upd) : coor * option resp :=
  let now := c_stop c in
  match (match u_flag u with
         | FNone => Some (now, None)
         | FStop => Some (true, if now then None else Some true)
         | FStart => Some (false, if now then Some false else None)
         | FOther => None
         end) with
  | None => (c, None)
  | Some (stop, is) =>
      let new_sp := if u_sp u <=? c_tsp c then c_tsp c else u_sp u in
      let isp := if u_sp u <=? c_tsp c then None else Some (u_sp u) in
      let new_rl := if u_rl u <=? c_trl c then c_trl c else u_rl u in
      let irl := if u_rl u <=? c_trl c then None else Some (u_rl u) in
      let c1 := with_temp c (u_sp u) (u_rl u) in
      match raise_sp (c_ten c) (u_tsp u) with
      | None => (c1, None)
      | Some q =>
          match raise_rl (c_ten c) (u_trl u) q with
          | None => (c1, None)
          | Some q =>
              let answer := mkResp new_sp stop in
              let answer := mkResp new_rl (r_stop answer) in
              match isp, irl, is, q with
              | None, None, None, [] => (c1, Some answer)
              | _, _, _, _ => (propose c1 (mkInc isp irl is q), Some answer)
              end
          end
      end
  end.

(** coordinator_control_fsm.cc:1255-1330, the operation UPDATE on a tenant; None: nothing is put *)
Definition update_tenant (x t : tenant) : option tenant :=
  let x1 := if 0 <? n_sp t
            then if n_sp t <=? n_sp x then x else mkTen (n_name x) (n_comment x) (n_sp t) (n_rl x)
            else mkTen (n_name t) (n_comment t) (n_sp x) (n_rl x) in
  if 0 <? n_rl t then
    if n_rl t <? n_rl x1 then None
    else if (n_rl t =? n_rl x1) && (n_sp x1 <=? n_sp x) then None
    else Some (mkTen (n_name x1) (n_comment x1) (n_sp x1) (n_rl t))
  else Some (mkTen (n_name t) (n_comment t) (n_sp x1) (n_rl x1)).
(** coordinator_control_fsm.cc:1227-1356 the tenants of an increment *)
Definition apply_tinc (m : list (Z * tenant)) (i : tinc) : list (Z * tenant) :=
  match i with
  | TCreate id t => zset m id t
  | TUpdate id t =>
      match zget m id with
      | None => m
      | Some x => match update_tenant x t with Some y => zset m id y | None => m end
      end
  | TDelete id => zdel m id
  end.
(** coordinator_control_fsm.cc:1065-1104 and coordinator_meta_storage.h:203-220: counters only grow *)
Definition bump (now : Z) (o : option Z) : Z := match o with Some v => if now <? v then v else now | None => now end.
Definition apply_inc (c : coor) (i : inc) (pend : list inc) : coor :=
  mkCoor (bump (c_sp c) (i_sp i)) (bump (c_rl c) (i_rl i))
         (match i_stop i with Some b => b | None => c_stop c end)
         (fold_left apply_tinc (i_tens i) (c_ten c)) (c_tsp c) (c_trl c) pend.

(** What happens at the coordinator.  Increments may be handed to raft in another order than they
    were made ([CCommit] takes any), writes may fail, and a new leader starts with all that is
    committed and its copy rebuilt from it (coordinator_control_fsm.cc:65-73 BuildTempMaps).
    Tenants: coordinator_control_meta.cc:3690-3800. *)
Inductive cev :=
| CAsk (u : upd)
| CCommit (p : nat)
| CFail (p : nat)
| CChange
| CNew (id name comment : Z)
| CDrop (id : Z)
| CRename (id name comment : Z).
Fixpoint remove_nth {A} (l : list A) (n : nat) : list A :=
  match l, n with [], _ => [] | _ :: r, O => r | x :: r, S m => x :: remove_nth r m end.
Definition only (t : tinc) : inc := mkInc None None None [t].
Definition cstep (c : coor) (e : cev) : coor :=
  match e with
  | CAsk u => fst (ask c u)
  | CCommit p => match nth_error (c_pend c) p with Some i => apply_inc c i (remove_nth (c_pend c) p) | None => c end
  | CFail p => mkCoor (c_sp c) (c_rl c) (c_stop c) (c_ten c) (c_tsp c) (c_trl c) (remove_nth (c_pend c) p)
  | CChange => mkCoor (c_sp c) (c_rl c) (c_stop c) (c_ten c) (c_sp c) (c_rl c) []
  | CNew id name comment =>
      if id =? 0 then c
      else match zget (c_ten c) id with Some _ => c | None => propose c (only (TCreate id (mkTen name comment 0 0))) end
  | CDrop id =>
      if id <=? 0 then c
      else match zget (c_ten c) id with Some _ => propose c (only (TDelete id)) | None => c end
  | CRename id name comment =>
      if id <=? 0 then c
      else match zget (c_ten c) id with Some _ => propose c (only (TUpdate id (mkTen name comment 0 0))) | None => c end
  end.
Definition crun (c : coor) (es : list cev) : coor := fold_left cstep es c.

(** coordinator_control_coor.cc:6055-6090 GetGCSafePoint for all tenants: the leader's copies of the
    counters, the applied flag and tenants *)
Record answer := mkAns { w_sp : Z; w_rl : Z; w_stop : bool; w_tens : list (Z * Z) }.
Definition get_gc (c : coor) : answer :=
  mkAns (c_tsp c) (c_trl c) (c_stop c) (map (fun e => (fst e, n_sp (snd e))) (c_ten c)).

(** * B. The store *)

(** engine/gc_safe_point.h GCSafePoint with the map it is in: [e_act] is true in
    active_safe_points_ and false in all_safe_points_ (objects are moved between the two, never
    copied, so that a tenant is in one of them) *)
Record entry := mkEnt { e_act : bool; e_stop : bool; e_sp : Z }.
Definition mgr := list (Z * entry).

(** engine/gc_safe_point.cc:73-113 SetGcFlagAndSafePointTs *)
Definition set_one (stop : bool) (m : mgr) (p : Z * Z) : mgr :=
  zset m (fst p) (mkEnt (match zget m (fst p) with Some e => e_act e | None => negb stop end) stop (snd p)).
Definition sort_out (m : mgr) : mgr := map (fun e => (fst e, mkEnt (negb (e_stop (snd e))) (e_stop (snd e)) (e_sp (snd e)))) m.
Definition set_all (m : mgr) (stop : bool) (l : list (Z * Z)) : mgr := sort_out (fold_left (set_one stop) l m).

(** engine/txn_engine_helper.cc:5926-5934 RegularUpdateSafePointTsHandler: the default tenant is 0,
    emplace keeps the first *)
Definition group_of (sp : Z) (tens : list (Z * Z)) : list (Z * Z) := (0, sp) :: filter (fun e => negb (fst e =? 0)) tens.

(** engine/gc_safe_point.cc:115-124 GetAllGcFlagAndSafePointTs *)
Definition get_all (m : mgr) : list (Z * (bool * Z)) :=
  map (fun e => (fst e, (e_stop (snd e), e_sp (snd e)))) (filter (fun e => e_act (snd e)) m).
(** :154-161 RemoveSafePoint and :164-177 SetGcStop *)
Definition leave (m : mgr) (t : Z) : mgr := match zget m t with Some e => zset m t (mkEnt false (e_stop e) (e_sp e)) | None => m end.
Definition set_stop (b : bool) (m : mgr) (t : Z) : mgr := match zget m t with Some e => zset m t (mkEnt (e_act e) b (e_sp e)) | None => m end.

(** RegularDoGcHandler, engine/txn_engine_helper.cc:5953-6170, in steps; the manager is locked by
    each call on it only, so that RegularUpdateSafePointTsHandler can run between any two.
    Simplified: a look at the flag and the proposal it allows are one step, and so are the look at
    the flag before a region and what follows from it; a client's collection is one proposal. *)
Definition group := list (Z * (bool * Z)).
Inductive phase :=
| RIdle
| RRead (g : group)                                                   (* after :5971 *)
| RWork (g : group) (todo : list (Z * Z))                             (* the loop over (region, tenant), :6096 *)
| RColl (g : group) (todo : list (Z * Z)) (r t sp : Z).               (* in TxnGc for a region *)
(** a collection that began, and deletes that were proposed *)
Record act := mkAct { f_region : Z; f_tenant : Z; f_sp : Z; f_client : bool }.
Record store := mkSt { g_mgr : mgr; g_ph : phase; g_seen : list act; g_fx : list act; g_dead : bool }.
Definition store0 : store := mkSt [] RIdle [] [] false.
Inductive gev :=
| GFetch (stop : bool) (sp : Z) (tens : list (Z * Z))
| GBegin
| GArm (regs : list (Z * Z))          (* the regions the store leads, with their tenants *)
| GRegion
| GSkip                               (* no longer leader, or not NORMAL, :6102-6120 *)
| GBatch                              (* :5036-5060 and :5065-5084: the flag is checked, then deletes are proposed *)
| GEnd                                (* nothing more to delete *)
| GFinish
| GRequest (r t sp : Z).              (* TxnGc from a client, server/store_service.cc:3229-3260 *)
Definition gstep (s : store) (e : gev) : option store :=
  let '(mkSt m ph seen fx dead) := s in
  if dead then None else
  match e, ph with
  | GFetch stop sp tens, _ => Some (mkSt (set_all m stop (group_of sp tens)) ph seen fx dead)
  | GBegin, RIdle =>
      let g := get_all m in
      if forallb (fun e => fst (snd e)) g then Some s else Some (mkSt m (RRead g) seen fx dead)
  | GArm regs, RRead g =>
      let m1 := fold_left leave (map fst (filter (fun e => snd (snd e) <=? 0) g)) m in
      let g1 := filter (fun e => negb (snd (snd e) <=? 0)) g in
      let m2 := fold_left (set_stop false) (map fst g1) m1 in
      match g1 with
      | [] => Some (mkSt m2 RIdle seen fx dead)
      | _ => Some (mkSt m2 (RWork g1 (filter (fun p => match zget g1 (snd p) with Some _ => true | None => false end) regs)) seen fx dead)
      end
  | GRegion, RWork g ((r, t) :: todo) =>
      match zget m t, zget g t with
      | Some x, Some (_, sp) =>
          if e_stop x then Some (mkSt m (RWork g todo) seen fx dead)
          else Some (mkSt m (RColl g todo r t sp) (seen ++ [mkAct r t sp false]) fx dead)
      | _, _ => Some (mkSt m ph seen fx true)              (* a null pointer *)
      end
  | GSkip, RWork g (_ :: todo) => Some (mkSt m (RWork g todo) seen fx dead)
  | GBatch, RColl g todo r t sp =>
      match zget m t with
      | Some x => if e_stop x then Some (mkSt m (RWork g todo) seen fx dead)
                  else Some (mkSt m ph seen (fx ++ [mkAct r t sp false]) dead)
      | None => Some (mkSt m ph seen fx true)
      end
  | GEnd, RColl g todo _ _ _ => Some (mkSt m (RWork g todo) seen fx dead)
  | GFinish, RWork _ [] => Some (mkSt m RIdle seen fx dead)
  | GRequest r t sp, _ =>
      if sp =? 0 then Some s                               (* refused, :3216 *)
      else match zget m t with
           | None => Some (mkSt m ph seen fx true)         (* FindSafePoint: nullptr, :5065 *)
           | Some x => if e_stop x then Some s
                       else Some (mkSt m ph seen (fx ++ [mkAct r t sp true]) dead)
           end
  | _, _ => None
  end.
Fixpoint grun (s : store) (es : list gev) : option store :=
  match es with [] => Some s | e :: r => match gstep s e with Some s1 => grun s1 r | None => None end end.
