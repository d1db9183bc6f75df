(** One-time watches of the versioned key-value store, on the leader.

    Three kinds of threads: the apply thread (log entries, change of leader; raft runs these
    one after another), request threads (registration) and the cleaning crontab.  The tables
    are guarded by one_time_watch_map_mutex_, but the apply thread writes the store and tests
    whether any watch exists without it; so a registration is two steps (it reads the store,
    it registers) with the mutex held in between, and an operation is three (write, test,
    trigger).  Not modelled: the two reads of a registration (revision counter, key) are one
    step; the tests of IsLeader() and of the key before OneTimeWatch (version_service.cc:662-682)
    run without the mutex, so a registration may come at any time. *)
From Coq Require Import ZArith List Lia Bool.
From Verif Require Import Bytes SMap KvModel.
Import ListNotations.
Open Scope Z_scope.

(** OneTimeWatchRequest, proto version; filters as parsed in version_service.cc:687-698.  When both
    filters are set the service records an error in the answer and goes on (700-704). *)
Record wreq := mkQ { q_key : bytes; q_start : Z; q_noput : bool; q_nodel : bool; q_prev : bool; q_wait : bool }.

(** KvWatchNode, kv_control.h:52-69, with the key it is filed under *)
Record wnode := mkW { wn_id : Z; wn_key : bytes; wn_start : Z; wn_noput : bool; wn_nodel : bool; wn_prev : bool }.

(** DeferDone, kv_control.h:71-115: [c_ticket] names the waiting request, [c_done] = done_ is
    null, [c_resp] = the event in the response *)
Record closure := mkCl { c_id : Z; c_ticket : Z; c_key : bytes; c_done : bool; c_resp : option event }.

(** [w_nodes] = one_time_watch_map_ (all nodes, in order of registration), [w_closures] =
    one_time_watch_closure_map_, [w_status] = one_time_watch_closure_status_map_, [w_seq] =
    one_time_watch_closure_seq_ (kv_control.h:357-361).
    The apply thread: [w_busy] in the middle of an entry, [w_todo] the operations of it still to do, [w_main], [w_sub] as in
    KvModel.ops_effs, [w_pending] the event of the operation just written, [w_armed] the watch
    map was seen not empty.
    [w_lock]: the registration holding the mutex: its ticket, request, start revision and what
    it read.
    Traces for the statements: [w_log] the entries begun, [w_tick] requests so far, [w_asked] them with
    start revision and what they read, [w_answers] the answers
    sent ([None]: no event), [w_events] the events of all operations applied, [w_fatal]
    LOG(FATAL) reached. *)
Record wst := mkWS {
  w_kv : kvst; w_index : Z; w_log : list incr;
  w_busy : bool; w_todo : list op; w_main : option Z; w_sub : Z; w_pending : option (bytes * event); w_armed : bool;
  w_lock : option (Z * wreq * Z * option kvo);
  w_nodes : list wnode; w_closures : list closure; w_status : list (Z * bool); w_seq : Z;
  w_tick : Z; w_asked : list (Z * wreq * Z * option kvo); w_answers : list (Z * option event); w_events : list (bytes * event);
  w_fatal : bool }.

(** setters *)
Definition w_set_kv s kv index log busy todo main sub pending armed events := mkWS kv index log busy todo main sub pending armed
  (w_lock s) (w_nodes s) (w_closures s) (w_status s) (w_seq s) (w_tick s) (w_asked s) (w_answers s) events (w_fatal s).
Definition w_set_tables s lock nodes closures status seq tick asked answers := mkWS (w_kv s) (w_index s) (w_log s) (w_busy s) (w_todo s) (w_main s) (w_sub s)
  (w_pending s) (w_armed s) lock nodes closures status seq tick asked answers (w_events s) (w_fatal s).

(** ** The apply thread *)

(** the entry is done but for its last writes *)
Definition entry_done (s : wst) : bool :=
  w_busy s && match w_todo s, w_pending s with [], None => true | _, _ => false end.

(** a new log entry: its leases, kv_control_fsm.cc:365-436; [w_index] counts the entries *)
Definition w_entry (s : wst) (e : incr) : wst :=
  w_set_kv s (performs (w_kv s) (map lop_eff (in_leases e))) (w_index s) (w_log s ++ [e]) true (in_ops e) None 1 None false (w_events s).

(** the writes of the next operation, kv_control_fsm.cc:443-523: one round of KvModel.ops_effs *)
Definition w_op (s : wst) : wst :=
  match w_pending s, w_todo s with
  | None, o :: todo =>
      if takes_revision o then
        let m := match w_main s with Some m => m | None => k_rev (w_kv s) + 1 end in
        let es := (match w_main s with Some _ => [] | None => [EMain m] end) ++ op_effs (w_kv s) (m, w_sub s) o in
        let ev := op_event (w_kv s) (m, w_sub s) o in
        w_set_kv s (performs (w_kv s) es) (w_index s) (w_log s) true todo (Some m) (w_sub s + 1) ev false
                 (w_events s ++ match ev with Some p => [p] | None => [] end)
      else
        w_set_kv s (performs (w_kv s) (op_effs (w_kv s) (0, 0) o)) (w_index s) (w_log s) true todo (w_main s) (w_sub s) None false (w_events s)
  | _, _ => s
  end.

(** [if (!one_time_watch_map_.empty())], kv_control_kv.cc:720 and 862: without the mutex *)
Definition w_check (s : wst) : wst :=
  match w_pending s with
  | None => s
  | Some p =>
      match w_nodes s with
      | [] => w_set_kv s (w_kv s) (w_index s) (w_log s) (w_busy s) (w_todo s) (w_main s) (w_sub s) None false (w_events s)
      | _ => w_set_kv s (w_kv s) (w_index s) (w_log s) (w_busy s) (w_todo s) (w_main s) (w_sub s) (Some p) true (w_events s)
      end
  end.

(** the end of the entry, kv_control_fsm.cc:530-592 *)
Definition w_final (s : wst) : wst :=
  if entry_done s
  then w_set_kv s (perform (w_kv s) (EFinal (w_index s + 1) (w_main s))) (w_index s + 1) (w_log s) false [] None 1 None false (w_events s)
  else s.

(** ** Answers *)

Definition find_closure (l : list closure) (id : Z) : option closure := find (fun c => c_id c =? id) l.

(** every closure with [id] is done (ids are distinct) *)
Definition finish (id : Z) (l : list closure) : list closure :=
  map (fun c => if c_id c =? id then mkCl (c_id c) (c_ticket c) (c_key c) true None else c) l.

Definition set_resp (id : Z) (ev : event) (l : list closure) : list closure :=
  map (fun c => if (c_id c =? id) && negb (c_done c) then mkCl (c_id c) (c_ticket c) (c_key c) false (Some ev) else c) l.

(** DeferDone::Done, kv_control.h:95-107: sends the answer once *)
Definition done_answer (c : closure) : list (Z * option event) :=
  if c_done c then [] else [(c_ticket c, c_resp c)].

Definition status_erase (id : Z) (l : list (Z * bool)) : list (Z * bool) := filter (fun p => negb (fst p =? id)) l.

(** RemoveOneTimeWatchWithLock, kv_control_watch.cc:149-197; the closure itself stays in its map *)
Definition remove_one (s : wst) (id : Z) : wst :=
  let status := status_erase id (w_status s) in
  match find_closure (w_closures s) id with
  | None => w_set_tables s (w_lock s) (w_nodes s) (w_closures s) status (w_seq s) (w_tick s) (w_asked s) (w_answers s)
  | Some c =>
      w_set_tables s (w_lock s)
        (match c_key c with
         | [] => w_nodes s
         | _ => filter (fun n => negb ((wn_id n =? id) && beqb (wn_key n) (c_key c))) (w_nodes s)
         end)
        (finish id (w_closures s)) status (w_seq s) (w_tick s) (w_asked s) (w_answers s ++ done_answer c)
  end.

Definition remove_all (s : wst) (ids : list Z) : wst := fold_left remove_one ids s.

Definition is_put (t : etype) : bool := match t with EvPut => true | _ => false end.
Definition is_del (t : etype) : bool := match t with EvDelete => true | _ => false end.

(** the tests of TriggerOneWatch, kv_control_watch.cc:293-309 *)
Definition fires (n : wnode) (key : bytes) (ev : event) : bool :=
  beqb (wn_key n) key &&
  negb (wn_noput n && is_put (ev_type ev)) && negb (wn_nodel n && is_del (ev_type ev)) &&
  negb (o_mod (ev_kv ev) <? wn_start n).

(** kv_control_watch.cc:336-345: prev_kv only if asked for *)
Definition shown (prev : bool) (ev : event) : event := mkEv (ev_type ev) (ev_kv ev) (if prev then ev_prev ev else kvo0).

Definition fill (s : wst) (ev : event) (n : wnode) : wst :=
  match find_closure (w_closures s) (wn_id n) with
  | None => mkWS (w_kv s) (w_index s) (w_log s) (w_busy s) (w_todo s) (w_main s) (w_sub s) (w_pending s) (w_armed s) (w_lock s) (w_nodes s)
                 (w_closures s) (w_status s) (w_seq s) (w_tick s) (w_asked s) (w_answers s) (w_events s) true
  | Some _ => w_set_tables s (w_lock s) (w_nodes s) (set_resp (wn_id n) (shown (wn_prev n) ev) (w_closures s)) (w_status s)
                           (w_seq s) (w_tick s) (w_asked s) (w_answers s)
  end.

(** TriggerOneWatch, kv_control_watch.cc:271-369, under the mutex *)
Definition w_trigger (s : wst) : wst :=
  match w_lock s, w_pending s, w_armed s with
  | None, Some (key, ev), true =>
      let hit := filter (fun n => fires n key ev) (w_nodes s) in
      let s1 := fold_left (fun s n => fill s ev n) hit s in
      let s2 := remove_all s1 (map wn_id hit) in
      w_set_kv s2 (w_kv s2) (w_index s2) (w_log s2) (w_busy s2) (w_todo s2) (w_main s2) (w_sub s2) None false (w_events s2)
  | _, _, _ => s
  end.

(** ** Registration *)

(** FLAGS_version_watch_max_count, kv_control_watch.cc:35 *)
Definition kMaxWatch : Z := 50000.

Definition watched_keys (l : list wnode) : list bytes := nodup (list_eq_dec Z.eq_dec) (map wn_key l).

(** the first half of OneTimeWatch, kv_control_watch.cc:46-78, from taking the mutex.  A request with
    an empty key gets an error (version_service.cc:678-682); the answer to a request beyond the limit
    carries no event and no error, because DoWatch drops the status *)
Definition w_read (s : wst) (q : wreq) : wst :=
  match w_lock s with
  | Some _ => s
  | None =>
      let start := if q_start q =? 0 then k_rev (w_kv s) else q_start q in
      let found := current (w_kv s) (q_key q) in
      if beqb (q_key q) [] || (kMaxWatch <? Z.of_nat (length (watched_keys (w_nodes s))))
      then w_set_tables s None (w_nodes s) (w_closures s) (w_status s) (w_seq s) (w_tick s + 1) (w_asked s ++ [(w_tick s, q, start, found)]) (w_answers s ++ [(w_tick s, None)])
      else w_set_tables s (Some (w_tick s, q, start, found))
                        (w_nodes s) (w_closures s) (w_status s) (w_seq s) (w_tick s + 1) (w_asked s ++ [(w_tick s, q, start, found)]) (w_answers s)
  end.

(** kv_control_watch.cc:80-100: the answer sent at once, if any *)
Definition at_once (q : wreq) (start : Z) (found : option kvo) : option event :=
  match found with
  | None => if q_wait q then None else Some (mkEv EvNotExists kvo0 kvo0)
  | Some kv => if start <? o_mod kv then Some (mkEv EvPut kv kvo0) else None
  end.

(** the second half of OneTimeWatch, kv_control_watch.cc:80-117, and AddOneTimeWatch, 120-147 *)
Definition w_register (s : wst) : wst :=
  match w_lock s with
  | None => s
  | Some (t, q, start, found) =>
      match at_once q start found with
      | Some ev => w_set_tables s None (w_nodes s) (w_closures s) (w_status s) (w_seq s) (w_tick s) (w_asked s) (w_answers s ++ [(t, Some ev)])
      | None =>
          w_set_tables s None
            (w_nodes s ++ [mkW (w_seq s) (q_key q) start (q_noput q) (q_nodel q) (q_prev q)])
            (w_closures s ++ [mkCl (w_seq s) t (q_key q) false None])
            (status_erase (w_seq s) (w_status s) ++ [(w_seq s, false)]) (w_seq s + 1) (w_tick s) (w_asked s) (w_answers s)
      end
  end.

(** ** Cancellation and changes of leader *)

(** CancelOneTimeWatchClosure, kv_control_watch.cc:200-205; brpc calls it when the client goes away, and
    also after the answer *)
Definition w_cancel (s : wst) (id : Z) : wst :=
  w_set_tables s (w_lock s) (w_nodes s) (w_closures s) (status_erase id (w_status s) ++ [(id, true)]) (w_seq s) (w_tick s) (w_asked s) (w_answers s).

(** RemoveOneTimeWatch, kv_control_watch.cc:208-244: the copy of the status map and the removals are one step *)
Definition w_cron (s : wst) : wst :=
  match w_lock s with
  | Some _ => s
  | None => remove_all s (map fst (filter snd (w_status s)))
  end.

(** OnLeaderStart, kv_control_fsm.cc:73-92 *)
Definition w_start (s : wst) : wst :=
  match w_lock s with
  | Some _ => s
  | None => if w_busy s then s else w_set_tables s None [] [] [] (w_seq s) (w_tick s) (w_asked s) (w_answers s)
  end.

(** OnLeaderStop, kv_control_fsm.cc:94-111 *)
Definition w_stop (s : wst) : wst :=
  match w_lock s with
  | Some _ => s
  | None =>
      if w_busy s then s
      else w_set_tables s None [] [] [] (w_seq s) (w_tick s) (w_asked s) (w_answers s ++ flat_map done_answer (w_closures s))
  end.

Inductive wev :=
| WEntry (e : incr) | WOp | WCheck | WTrigger | WFinal
| WRead (q : wreq) | WRegister | WCancel (id : Z) | WCron | WStart | WStop.

Definition wstep (s : wst) (e : wev) : wst :=
  match e with
  | WEntry e => if w_busy s then s else w_entry s e
  | WOp => w_op s
  | WCheck => w_check s
  | WTrigger => w_trigger s
  | WFinal => w_final s
  | WRead q => w_read s q
  | WRegister => w_register s
  | WCancel id => w_cancel s id
  | WCron => w_cron s
  | WStart => w_start s
  | WStop => w_stop s
  end.

Definition wsteps (s : wst) (es : list wev) : wst := fold_left wstep es s.

Definition ws0 : wst := mkWS kv0 0 [] false [] None 1 None false None [] [] [] 1000 0 [] [] [] false.
