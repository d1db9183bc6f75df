(** Specification of the raw key-value API: one map from keys to values with expiry times, on
    which every request acts at one instant. *)
From Coq Require Import ZArith List Bool.
From Verif Require Import Bytes Outcome CodecModel CodecSpec MvccModel RawModel.
Import ListNotations.
Open Scope Z_scope.

(** a value and the last millisecond at which it is still there, if it expires *)
Definition amap := bytes -> option (bytes * option Z).
Definition aempty : amap := fun _ => None.
Definition aset (m : amap) (k : bytes) (x : option (bytes * option Z)) : amap :=
  fun k' => if beqb k' k then x else m k'.

(** the value of [k] at time [now] *)
Definition aview (m : amap) (now : Z) (k : bytes) : option bytes :=
  match m k with
  | None => None
  | Some (v, None) => Some v
  | Some (v, Some d) => if now <=? d then Some v else None
  end.

Definition present (m : amap) (now : Z) (k : bytes) : bool :=
  match aview m now k with Some _ => true | None => false end.

(** the expiry of a value written with time-to-live [ttl] by a request received at [t0] *)
Definition expiry (t0 ttl : Z) : option Z := if ttl =? 0 then None else Some (t0 + ttl).

Definition put_all (m : amap) (e : option Z) (kvs : list (bytes * bytes)) : amap :=
  fold_left (fun m kv => aset m (fst kv) (Some (snd kv, e))) kvs m.
Definition remove_all (m : amap) (keys : list bytes) : amap :=
  fold_left (fun m k => aset m k None) keys m.

(** compare-and-set: an empty expected value means "absent", an empty new value means "remove" *)
Definition matches (m : amap) (now : Z) (k e : bytes) : bool :=
  match aview m now k with
  | Some v => beqb v e
  | None => is_empty e
  end.
Definition cas_all (m : amap) (e : option Z) (kvs : list (bytes * bytes)) : amap :=
  fold_left (fun m kv => aset m (fst kv) (if is_empty (snd kv) then None else Some (snd kv, e))) kvs m.

(** the first key that does not have its expected value *)
Definition first_mismatch (m : amap) (now : Z) (kvs : list (bytes * bytes)) (expects : list bytes)
  : option bytes :=
  option_map (fun x => fst (fst x)) (find (fun x => negb (matches m now (fst (fst x)) (snd x))) (combine kvs expects)).

(** the answer of [q], received at [t0] and acting at [now] on the map [m], and the new map *)
Definition spec (range : bytes * bytes) (m : amap) (now t0 : Z) (q : req) : amap * resp :=
  match q with
  | RGet keys =>
      (m, PVals (flat_map (fun k => match aview m now k with Some v => [(k, v)] | None => [] end) keys))
  | RPut kvs ttl => (put_all m (expiry t0 ttl) kvs, PDone)
  | RPutIfAbsent kvs ttl true =>
      if existsb (fun kv => present m now (fst kv)) kvs then (m, PStates (map (fun _ => false) kvs))
      else (put_all m (expiry t0 ttl) kvs, PStates (map (fun _ => true) kvs))
  | RPutIfAbsent kvs ttl false =>
      (put_all m (expiry t0 ttl) (filter (fun kv => negb (present m now (fst kv))) kvs),
       PStates (map (fun kv => negb (present m now (fst kv))) kvs))
  | RDelete keys => (remove_all m keys, PStates (map (present m now) keys))
  | RDeleteRange r =>
      if negb (bltb (fst r) (snd r)) then (m, PDone)
      else let r' := intersect_range range r in
           if bltb (fst r') (snd r')
           then (fun k => if bleb (fst r') k && bltb k (snd r') then None else m k, PDone)
           else (m, PIllegal)
  | RCas kvs expects ttl true =>
      match first_mismatch m now kvs expects with
      | None => (cas_all m (expiry t0 ttl) kvs, PStates (map (fun _ => true) kvs))
      | Some k => (m, if present m now k then PStates (map (fun _ => false) kvs) else PNotFound)
      end
  | RCas kvs expects ttl false =>
      (cas_all m (expiry t0 ttl)
         (map fst (filter (fun x => matches m now (fst (fst x)) (snd x)) (combine kvs expects))),
       PStates (map (fun x => matches m now (fst (fst x)) (snd x)) (combine kvs expects)))
  end.

(** ** linearizability *)

(** a history with the instants at which requests act: [XAct id] a whole request, [XRead id] the
    next key of a read request (the keys of a batch read are read one after the other) *)
Inductive xevent :=
| XInv (id : Z) (q : req) (t : Z)
| XRes (id : Z) (r : resp)
| XTime (t : Z)
| XAct (id : Z)
| XRead (id : Z).

Fixpoint visible_events (h : list xevent) : list event :=
  match h with
  | [] => []
  | XInv id q t :: r => EInv id q t :: visible_events r
  | XRes id x :: r => ERes id x :: visible_events r
  | XTime t :: r => ETime t :: visible_events r
  | _ :: r => visible_events r
  end.

(** the state of the sequential map while going through such a history: requests that have not
    acted (with what a read has seen), and answers of requests that have acted *)
Inductive call :=
| Waiting (q : req) (t0 : Z) (seen : list (option bytes))
| Acted (r : resp).
Record lin := mkL { l_map : amap; l_now : Z; l_calls : Z -> option call }.
Definition lin0 (now : Z) : lin := mkL aempty now (fun _ => None).
Definition set_call (c : Z -> option call) (id : Z) (x : option call) : Z -> option call :=
  fun i => if i =? id then x else c i.

(** what a read request answers after seeing [seen] for its keys *)
Definition get_answer (keys : list bytes) (seen : list (option bytes)) : resp :=
  PVals (flat_map (fun x => match snd x with Some v => [(fst x, v)] | None => [] end) (combine keys seen)).

(** one event of a legal sequential explanation:
    - a request arrives once;
    - it acts at most once, after it arrived, at the time the clock shows;
    - an answer is the one it got when it acted; a refused request never acts; a request answered
      "failed" may have acted, may act later, or never *)
Inductive lin_step (range : bytes * bytes) : lin -> xevent -> lin -> Prop :=
| lin_time m now c t : now <= t ->
    lin_step range (mkL m now c) (XTime t) (mkL m t c)
| lin_inv m now c id q : c id = None ->
    lin_step range (mkL m now c) (XInv id q now) (mkL m now (set_call c id (Some (Waiting q now []))))
| lin_act m now c id q t m' r : c id = Some (Waiting q t []) -> is_get q = false ->
    spec range m now t q = (m', r) ->
    lin_step range (mkL m now c) (XAct id) (mkL m' now (set_call c id (Some (Acted r))))
| lin_read m now c id keys t seen k : c id = Some (Waiting (RGet keys) t seen) ->
    nth_error keys (length seen) = Some k ->
    lin_step range (mkL m now c) (XRead id)
      (mkL m now (set_call c id (Some (Waiting (RGet keys) t (seen ++ [aview m now k])))))
| lin_res m now c id r : c id = Some (Acted r) ->
    lin_step range (mkL m now c) (XRes id r) (mkL m now (set_call c id None))
| lin_res_get m now c id keys t seen : c id = Some (Waiting (RGet keys) t seen) -> length seen = length keys ->
    lin_step range (mkL m now c) (XRes id (get_answer keys seen)) (mkL m now (set_call c id None))
| lin_res_reject m now c id q t seen : c id = Some (Waiting q t seen) ->
    lin_step range (mkL m now c) (XRes id PReject) (mkL m now (set_call c id None))
| lin_res_unknown m now c id x : c id = Some x ->
    lin_step range (mkL m now c) (XRes id PUnknown) (mkL m now c).

Inductive lin_run (range : bytes * bytes) : lin -> list xevent -> lin -> Prop :=
| lin_nil l : lin_run range l [] l
| lin_cons l e l' h l'' : lin_step range l e l' -> lin_run range l' h l'' -> lin_run range l (e :: h) l''.

Definition linearizable (range : bytes * bytes) (now : Z) (h : list event) : Prop :=
  exists x l, visible_events x = h /\ lin_run range (lin0 now) x l.

(** ** the runs the linearizability theorem is about *)

(** keys are byte strings, expiries fit in 64 bits, no value with a time-to-live is empty
    (see C03_empty_ttl_value_refuted) *)
Definition kvs_ok (t0 ttl : Z) (kvs : list (bytes * bytes)) : Prop :=
  Forall (fun kv => bytes_ok (fst kv)) kvs /\ 0 <= t0 + ttl < 2 ^ 63 /\
  (ttl <> 0 -> 0 < t0 + ttl).
Definition req_ok (t0 : Z) (q : req) : Prop :=
  match q with
  | RGet keys | RDelete keys => Forall bytes_ok keys
  | RPut kvs ttl | RPutIfAbsent kvs ttl _ =>
      kvs_ok t0 ttl kvs /\ (ttl <> 0 -> Forall (fun kv => snd kv <> []) kvs)
  | RCas kvs _ ttl _ => kvs_ok t0 ttl kvs
  | RDeleteRange r => bytes_ok (fst r) /\ bytes_ok (snd r)
  end.

Definition leader_peer (s : rst) : option peer := nth_error (r_peers s) (r_leader s).

(** the entries of the log the leader has not applied *)
Definition unapplied (s : rst) : list cmd :=
  match leader_peer s with Some p => map snd (skipn (p_applied p) (r_log s)) | None => [] end.

Definition covers (c : cmd) (k : bytes) : Prop :=
  match c with
  | CDelRange r => bleb (fst r) k && bltb k (snd r) = true
  | CWrite _ _ => False
  end.

(** a deadline of some written value lies between the two times *)
Definition deadline_passes (s : rst) (t : Z) : Prop :=
  exists id ts items i, In (id, CWrite ts items) (r_log s) /\ In i items /\
    i_flag i = kPutTTL /\ r_now s <= i_ttl i < t.

Definition idle (s : rst) : Prop :=
  unapplied s = [] /\ forall o, In o (r_ops s) -> o_term o = r_term s -> latch_keys (o_req o) = [].

(** a step without the disturbances that break the guarantee (each one is shown to break it) *)
Definition calm (s : rst) (l : label) : Prop :=
  match l with
  | LStart id n q ts =>
      (* requests go to the leader, after its on_leader_start *)
      n = r_leader s /\ (forall p, leader_peer s = Some p -> p_ready p = true) /\
      req_ok (r_now s) q /\
      (* no range delete over the keys is being replicated *)
      (forall c k, In c (unapplied s) -> In k (latch_keys q) -> ~ covers c k)
  | LRead id | LReply id =>
      forall o, find_op s id = Some o -> o_term o = r_term s
  | LWrite id =>
      forall o, find_op s id = Some o ->
        (* the leadership did not change since the request started *)
        o_term o = r_term s /\
        (* no range delete over the keys of another request in progress *)
        forall r o' k, o_req o = RDeleteRange r -> In o' (r_ops s) -> o_term o' = r_term s ->
          In k (latch_keys (o_req o')) -> ~ covers (CDelRange (intersect_range (r_range s) r)) k
  | LReady n =>
      (* RawAppliedMaxTs is the largest applied timestamp (not so after a snapshot) *)
      forall p id ts items, nth_error (r_peers s) n = Some p ->
        In (id, CWrite ts items) (firstn (p_applied p) (r_log s)) -> ts <= p_maxts p
  | LTick t => ~ deadline_passes s t \/ idle s
  | LApply _ | LInstall _ _ | LLeader _ _ | LDeposed _ => True
  end.

Fixpoint calm_run (s : rst) (ls : list label) : Prop :=
  match ls with
  | [] => True
  | l :: r => calm s l /\ match step s l with Next s' => calm_run s' r | _ => True end
  end.

(** ** what clients rely on *)

(** can the request change what is stored under [k]? *)
Definition touches (k : bytes) (q : req) : Prop :=
  match q with
  | RGet _ => False
  | RPut kvs _ | RPutIfAbsent kvs _ _ | RCas kvs _ _ _ => In k (map fst kvs)
  | RDelete keys => In k keys
  | RDeleteRange r => bleb (fst r) k && bltb k (snd r) = true
  end.

(** can it end the presence of [k], now or by expiry? *)
Definition may_end (k : bytes) (q : req) : Prop :=
  match q with
  | RGet _ => False
  | RPut kvs ttl | RPutIfAbsent kvs ttl _ => ttl <> 0 /\ In k (map fst kvs)
  | RCas _ _ _ _ | RDelete _ | RDeleteRange _ => touches k q
  end.

(** a request received at [t0] stores nothing under [k] that is still there at [t] *)
Definition gone_by (k : bytes) (t t0 : Z) (q : req) : Prop :=
  match q with
  | RPut kvs ttl | RPutIfAbsent kvs ttl _ | RCas kvs _ ttl _ => In k (map fst kvs) -> ttl <> 0 /\ t0 + ttl < t
  | RGet _ | RDelete _ | RDeleteRange _ => True
  end.

(** an answer that tells the outcome *)
Definition definite (r : resp) : Prop := r <> PReject /\ r <> PUnknown.
