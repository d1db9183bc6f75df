(** * Jobs of the coordinator and region commands of the stores

    The coordinator keeps jobs: lists of steps, each with operations for
    stores.  A timer runs ProcessJobList, which sends the commands of every
    job's current step to the stores and writes the outcome to the raft log;
    applying the log moves the jobs on.  A store records the commands it is
    sent, answers, and runs them later.

    Simplifications.
    - Of a command only its id, its kind and its retry mark are kept; of a
      pre-check only a number that the environment's view gives a truth value
      (0: no pre-check).
    - Jobs are processed in the order of their creation; the code uses the
      order of a hash map.
    - One ProcessJobList runs at a time ([is_processing_job_]), as it does when
      only the timer calls it.
    - Times, names and error texts of jobs are left out. *)

From Coq Require Import ZArith List Bool Arith.
Import ListNotations.
Local Open Scope Z_scope.

(** ** Jobs (proto of pb::coordinator::Job, Task, StoreOperation, RegionCmd) *)

Inductive kind := KCreate | KDelete | KSplit | KMerge | KChange | KTransfer | KPurge | KOther.

Record cmd := mkCmd { c_id : Z; c_kind : kind; c_retry : bool }.

Record op := mkOp {
  o_store : Z;
  o_check : nat;       (* pre_check *)
  o_cmds : list cmd;   (* region_cmds *)
  o_ok : bool;         (* is_success *)
  o_tries : nat        (* retry_count *)
}.

(** [t_drops]: the regions of the coordinator_operations, all of type
    COORDINATOR_OP_TYPE_DROP_REGION. *)
Record task := mkTask { t_ops : list op; t_drops : list Z }.

Record job := mkJob { j_id : Z; j_next : nat; j_tasks : list task }.

(** The job table (job_map_, job_meta_) and the archive with the status:
    true "success", false "failed". *)
Record coord := mkCoord { co_jobs : list job; co_arch : list (job * bool) }.

Definition get (co : coord) (id : Z) : option job := find (fun j => j_id j =? id) (co_jobs co).

(** MetaMemMapFlat::Put (coordinator_meta_storage.h:787) without its CHECKs. *)
Fixpoint put_in (j : job) (l : list job) : list job :=
  match l with
  | [] => [j]
  | x :: r => if j_id x =? j_id j then j :: r else x :: put_in j r
  end.

Definition put (co : coord) (j : job) : coord := mkCoord (put_in j (co_jobs co)) (co_arch co).

(** MetaMemMapFlat::Erase (coordinator_meta_storage.h:872) *)
Definition erase (co : coord) (id : Z) : coord :=
  mkCoord (filter (fun j => negb (j_id j =? id)) (co_jobs co)) (co_arch co).

Definition archive (co : coord) (j : job) (ok : bool) : coord :=
  mkCoord (co_jobs co) (co_arch co ++ [(j, ok)]).

(** ** Changing a job *)

Definition has (cid : Z) (o : op) : bool := existsb (fun c => c_id c =? cid) (o_cmds o).

Fixpoint index {A} (f : A -> bool) (l : list A) : option nat :=
  match l with
  | [] => None
  | x :: r => if f x then Some 0%nat else option_map S (index f r)
  end.

Fixpoint upd {A} (n : nat) (f : A -> A) (l : list A) : list A :=
  match l, n with
  | [], _ => []
  | x :: r, O => f x :: r
  | x :: r, S n' => x :: upd n' f r
  end.

Definition on_task (n : nat) (f : task -> task) (j : job) : job :=
  mkJob (j_id j) (j_next j) (upd n f (j_tasks j)).

Definition on_ops (f : list op -> list op) (t : task) : task := mkTask (f (t_ops t)) (t_drops t).

Definition with_next (n : nat) (j : job) : job := mkJob (j_id j) n (j_tasks j).

(** coordinator_control_coor.cc:6325-6341 FindTaskByRegionCmd: the step. *)
Definition find_task (j : job) (cid : Z) : option nat :=
  index (fun t => existsb (has cid) (t_ops t)) (j_tasks j).

(** coordinator_control_coor.cc:6410-6431 UpdateJobNextStep. *)
Definition mark_ok (cid : Z) (ops : list op) : list op :=
  map (fun o => if has cid o then mkOp (o_store o) (o_check o) (o_cmds o) true (o_tries o) else o) ops.

Definition all_ok (ops : list op) : bool :=
  forallb (fun o => o_ok o || match o_cmds o with [] => true | _ => false end) ops.

Definition nth_task (j : job) (n : nat) : task := nth n (j_tasks j) (mkTask [] []).

Definition job_done (cid : Z) (step : nat) (j : job) : job :=
  let j := on_task step (on_ops (mark_ok cid)) j in
  if all_ok (t_ops (nth_task j step)) then with_next (S (j_next j)) j else j.

(** coordinator_control_coor.cc:6396-6408 UpdateTaskRegionCmdStatus, and
    :6503-6504 the retry count, on the first operation with the command
    (:6343-6355 FindExecuteStoreOperation). *)
Definition retry_cmd (cid : Z) (c : cmd) : cmd :=
  if c_id c =? cid then mkCmd (c_id c) (c_kind c) true else c.

Definition fail_op (cid : Z) (o : op) : op :=
  mkOp (o_store o) (o_check o) (map (retry_cmd cid) (o_cmds o)) (o_ok o) (S (o_tries o)).

Definition fail_ops (cid : Z) (ops : list op) : list op :=
  match index (has cid) ops with None => ops | Some i => upd i (fail_op cid) ops end.

Definition job_fail (cid : Z) (step : nat) (j : job) : job :=
  with_next step (on_task step (on_ops (fail_ops cid)) j).

(** coordinator_control_coor.cc:6304-6323 NeedAutoCleanJob. *)
Definition has_create (t : task) : bool :=
  existsb (fun o => existsb (fun c => match c_kind c with KCreate => true | _ => false end) (o_cmds o)) (t_ops t).

Definition need_clean (limit : nat) (j : job) (tries : nat) : bool :=
  if Nat.leb tries limit then false
  else negb (existsb has_create (firstn (j_next j) (j_tasks j))).

(** coordinator_control_coor.cc:6357-6394 MoveRegionCmdInStoreOperation. *)
Fixpoint add_to (s : Z) (c : cmd) (ops : list op) : list op :=
  match ops with
  | [] => [mkOp s 0 [c] false 0]
  | o :: r => if o_store o =? s then mkOp s (o_check o) (o_cmds o ++ [c]) (o_ok o) (o_tries o) :: r
              else o :: add_to s c r
  end.

Fixpoint drop_cmd (cid : Z) (l : list cmd) : list cmd :=
  match l with
  | [] => []
  | c :: r => if c_id c =? cid then r else c :: drop_cmd cid r
  end.

Definition move_ops (cid s : Z) (ops : list op) : list op :=
  match index (has cid) ops with
  | None => ops
  | Some i =>
      match find (fun c => c_id c =? cid) (o_cmds (nth i ops (mkOp 0 0 [] false 0))) with
      | None => ops
      | Some c => upd i (fun o => mkOp (o_store o) (o_check o) (drop_cmd cid (o_cmds o)) (o_ok o) (o_tries o))
                      (add_to s c ops)
      end
  end.

(** ** Applying the log *)

Inductive cstat := Done | Fail.

Inductive inc :=
| ICreate (j : job)
| IUpdate (j : job)
| IDelete (id : Z)
| IStatus (id cid : Z) (st : cstat)
| IMove (id cid s : Z).

(** coordinator_control_coor.cc:6433-6530 UpdateJobProcess. *)
Definition tries_of (j : job) (step : nat) (cid : Z) : nat :=
  match find (has cid) (t_ops (nth_task j step)) with Some o => o_tries o | None => 0%nat end.

Definition apply_status (limit : nat) (co : coord) (j : job) (cid : Z) (st : cstat) : coord :=
  match find_task j cid with
  | None => co
  | Some step =>
      match st with
      | Done => if Nat.eqb step (j_next j) then put co (job_done cid step j) else put co j
      | Fail => if need_clean limit j (tries_of j step cid)
                then erase (archive co j false) (j_id j)
                else put co (job_fail cid step j)
      end
  end.

Definition apply_move (co : coord) (j : job) (cid s : Z) : coord :=
  match find_task j cid with
  | None => co
  | Some step => put co (on_task step (on_ops (move_ops cid s)) j)
  end.

(** coordinator_control_fsm.cc:2404-2468, part 11 of ApplyMetaIncrement.  For a
    DELETE the code reads the job, gets an empty one (id 0) when there is none
    (coordinator_meta_storage.h:780-783 answers OK), and the archive's Put
    CHECKs that the id is the job's (coordinator_meta_storage.h:410-412): the
    process ends, here [None]. *)
Definition apply_inc (limit : nat) (co : coord) (i : inc) : option coord :=
  match i with
  | ICreate j | IUpdate j => if j_id j =? 0 then None else Some (put co j)
  | IDelete id =>
      match get co id with
      | None => None
      | Some j => Some (erase (archive co j true) id)
      end
  | IStatus id cid st =>
      match get co id with
      | None => Some co
      | Some j => Some (apply_status limit co j cid st)
      end
  | IMove id cid s =>
      match get co id with
      | None => Some co
      | Some j => Some (apply_move co j cid s)
      end
  end.

Fixpoint apply_all (limit : nat) (co : coord) (l : list inc) : option coord :=
  match l with
  | [] => Some co
  | i :: r => match apply_inc limit co i with None => None | Some co' => apply_all limit co' r end
  end.

(** ** Processing the jobs *)

(** What a run of ProcessJobList sees: which pre-checks hold, which stores
    exist, which regions can be dropped. *)
Record pview := mkPview { pv_check : nat -> bool; pv_store : Z -> bool; pv_drop : Z -> bool }.

(** A command on its way: its job, its step, and itself. *)
Record item := mkItem { i_job : Z; i_step : nat; i_cmd : cmd }.

(** std::map<store, StoreOperation>; coordinator_control_coor.cc:5799-5819
    GenStoreOperation: no more than the cap and one. *)
Fixpoint add_send (cap : nat) (s : Z) (x : item) (m : list (Z * list item)) : list (Z * list item) :=
  match m with
  | [] => [(s, [x])]
  | (s', l) :: r =>
      if s =? s' then (s', if Nat.ltb cap (length l) then l else l ++ [x]) :: r
      else if s <? s' then (s, [x]) :: m
      else (s', l) :: add_send cap s x r
  end.

(** The loop at coordinator_control_coor.cc:5694-5706; false: it returned an
    error, having added the commands before. *)
Fixpoint add_sends (v : pview) (cap : nat) (l : list (Z * item)) (m : list (Z * list item)) : list (Z * list item) * bool :=
  match l with
  | [] => (m, true)
  | (s, x) :: r => if pv_store v s then add_sends v cap r (add_send cap s x m) else (m, false)
  end.

(** The commands of a step. *)
Definition items (j : job) (t : task) : list (Z * item) :=
  flat_map (fun o => map (fun c => (o_store o, mkItem (j_id j) (j_next j) c)) (o_cmds o)) (t_ops t).

Definition check_ok (v : pview) (o : op) : bool :=
  match o_check o with O => true | n => pv_check v n end.

(** coordinator_control_coor.cc:5665-5738 ProcessJob. *)
Definition process_job (v : pview) (cap : nat) (j : job) (a : list inc * list (Z * list item)) : list inc * list (Z * list item) :=
  let (incs, m) := a in
  if Nat.eqb (j_next j) (length (j_tasks j)) then (incs ++ [IDelete (j_id j)], m)
  else
    match nth_error (j_tasks j) (j_next j) with
    | None => a
    | Some t =>
        if negb (forallb (check_ok v) (t_ops t)) then a
        else
          let (m', ok) := add_sends v cap (items j t) m in
          if negb ok then (incs, m')
          else if negb (forallb (pv_drop v) (t_drops t)) then (incs, m')
          else if forallb (fun o => match o_cmds o with [] => true | _ => false end) (t_ops t)
               then (incs ++ [IUpdate (with_next (S (j_next j)) j)], m')
               else (incs, m')
    end.

Definition process (v : pview) (cap : nat) (js : list job) : list inc * list (Z * list item) :=
  fold_left (fun a j => process_job v cap j a) js ([], []).

(** coordinator_control_coor.cc:6532-6593: first the creations to all stores,
    then the other commands, deletions last; nothing is sent for an empty list
    (:6613-6616). *)
Definition is_kind (k : kind) (x : item) : bool :=
  match c_kind (i_cmd x), k with KCreate, KCreate => true | KDelete, KDelete => true | _, _ => false end.

Definition creates (m : list (Z * list item)) : list (Z * list item) :=
  map (fun p => (fst p, filter (is_kind KCreate) (snd p))) m.

Definition others (m : list (Z * list item)) : list (Z * list item) :=
  map (fun p => (fst p, filter (fun x => negb (is_kind KCreate x) && negb (is_kind KDelete x)) (snd p)
                        ++ filter (is_kind KDelete) (snd p))) m.

Definition sends (m : list (Z * list item)) : list (Z * list item) :=
  filter (fun p => match snd p with [] => false | _ => true end) (creates m ++ others m).

(** ** Answers *)

Inductive code := EExist | EDeleting | ENotFound | ESplitting | EMerging | EChanging | EElse.

(** What a store says about a command.  [Accepted]: OK; [Repeat]:
    EREGION_REPEAT_COMMAND; [NotLeader s]: ERAFT_NOTLEADER, the leader is on
    store [s] (0: unknown). *)
Inductive result := Accepted | Repeat | Refused (e : code) | NotLeader (s : Z).

(** An answer: none (the store is not NORMAL, or all RPCs failed); one from a
    process with another store id, which returns an empty answer without an
    error (push_service.cc:58-62); or results for all the commands
    (push_service.cc:84-107). *)
Inductive resp := RLost | RWrong | RReply (l : list result).

(** coordinator_control_coor.cc:6178-6245 CheckStoreOperationResult. *)
Definition advances (k : kind) (r : result) : bool :=
  match r with
  | Accepted | Repeat => true
  | NotLeader _ => false
  | Refused e =>
      match k, e with
      | KCreate, EExist | KDelete, EDeleting | KDelete, ENotFound | KSplit, ESplitting
      | KMerge, EMerging | KChange, EChanging | KPurge, ENotFound => true
      | _, _ => false
      end
  end.

(** coordinator_control_coor.cc:6595-6743 SendStoreOperation: the increments
    for one result.  UpdateTaskStatus (:6278) adds none when the job is gone;
    MoveTaskRegionCmd (:6248) none when the new store does not exist. *)
Definition one_inc (co : coord) (stores : Z -> bool) (s : Z) (x : item) (r : result) : list inc :=
  match r with
  | NotLeader s' =>
      if (s' =? 0) || (s' =? s) then []
      else if stores s && stores s' then [IMove (i_job x) (c_id (i_cmd x)) s'] else []
  | _ =>
      match get co (i_job x) with
      | None => []
      | Some _ => [IStatus (i_job x) (c_id (i_cmd x))
                           (if advances (c_kind (i_cmd x)) r then Done else Fail)]
      end
  end.

Fixpoint reply_incs (co : coord) (stores : Z -> bool) (s : Z) (xs : list item) (rs : list result) : list inc :=
  match xs, rs with
  | x :: xs', r :: rs' => one_inc co stores s x r ++ reply_incs co stores s xs' rs'
  | _, _ => []
  end.

Definition send_incs (co : coord) (stores : Z -> bool) (s : Z) (xs : list item) (r : resp) : list inc :=
  match r with
  | RLost => []
  | RWrong => reply_incs co stores s xs (map (fun _ => Accepted) xs)
  | RReply rs => reply_incs co stores s xs rs
  end.

(** ** The machine *)

(** A run of ProcessJobList: idle; sending, with what is left to send and the
    increments so far; waiting for its log entry to be applied. *)
Inductive round := Idle | Sending (stores : Z -> bool) (todo : list (Z * list item)) (incs : list inc) | Waiting.

Record sys := mkSys {
  y_co : coord;
  y_round : round;
  y_log : list (bool * list inc);       (* written, not yet applied; true: by the run *)
  y_dead : bool;                        (* the process ended while applying *)
  (* what happened, for the theorems: *)
  y_born : list job;                    (* jobs created *)
  y_acked : list (Z * Z);               (* (job, command) for which a store answered that the step may go on *)
  y_sent : list (Z * Z);                (* (job, command) sent *)
  y_fails : list Z                      (* jobs, one for each refusal or reported failure *)
}.

Definition init : sys := mkSys (mkCoord [] []) Idle [] false [] [] [] [].

Inductive event :=
| ENew (j : job)                (* a request creates a job: CreateJob (:5099) *)
| EReport (id cid : Z)          (* UpdateRegionCmdStatus (:6815), a store reports a failure *)
| EClean (id : Z)               (* CleanJobList (:5821); 0: all jobs *)
| EBegin (v : pview) (cap : nat)
| ESend (r : resp)
| EEnd
| EApply
| ELose (n : nat).              (* the leader changes: all but n entries are lost *)

Definition acks_of (xs : list item) (r : resp) : list (Z * Z) :=
  match r with
  | RReply rs => flat_map (fun p => if advances (c_kind (i_cmd (fst p))) (snd p)
                                    then [(i_job (fst p), c_id (i_cmd (fst p)))] else []) (combine xs rs)
  | _ => []
  end.

Definition fails_of (xs : list item) (r : resp) : list Z :=
  match r with
  | RReply rs => flat_map (fun p => match snd p with
                                    | Refused _ => if advances (c_kind (i_cmd (fst p))) (snd p) then [] else [i_job (fst p)]
                                    | _ => []
                                    end) (combine xs rs)
  | _ => []
  end.

Section Machine.
  Variable limit : nat.        (* FLAGS_task_retry_count *)

  Definition write (s : sys) (mine : bool) (l : list inc) : sys :=
    mkSys (y_co s) (y_round s) (y_log s ++ [(mine, l)]) (y_dead s) (y_born s) (y_acked s) (y_sent s) (y_fails s).

  Definition apply_entry (s : sys) : sys :=
    match y_log s with
    | [] => s
    | (mine, l) :: r =>
        match apply_all limit (y_co s) l with
        | None => mkSys (y_co s) (y_round s) (y_log s) true (y_born s) (y_acked s) (y_sent s) (y_fails s)
        | Some co' => mkSys co' (if mine then Idle else y_round s) r (y_dead s) (y_born s) (y_acked s) (y_sent s) (y_fails s)
        end
    end.

  Fixpoint apply_entries (n : nat) (s : sys) : sys :=
    match n with O => s | S n' => if y_dead s then s else apply_entries n' (apply_entry s) end.

  Definition step (s : sys) (e : event) : option sys :=
    if y_dead s then None
    else
      match e with
      | ENew j =>
          let s' := write s false [ICreate j] in
          Some (mkSys (y_co s') (y_round s') (y_log s') false (j :: y_born s') (y_acked s') (y_sent s') (y_fails s'))
      | EReport id cid =>
          match get (y_co s) id with
          | None => Some s
          | Some _ =>
              let s' := write s false [IStatus id cid Fail] in
              Some (mkSys (y_co s') (y_round s') (y_log s') false (y_born s') (y_acked s') (y_sent s') (id :: y_fails s'))
          end
      | EClean id =>
          match map (fun j => IDelete (j_id j)) (filter (fun j => (id =? 0) || (j_id j =? id)) (co_jobs (y_co s))) with
          | [] => Some s
          | l => Some (write s false l)
          end
      | EBegin v cap =>
          match y_round s with
          | Idle =>
              let (incs, m) := process v cap (co_jobs (y_co s)) in
              Some (mkSys (y_co s) (Sending (pv_store v) (sends m) incs) (y_log s) false
                          (y_born s) (y_acked s) (y_sent s) (y_fails s))
          | _ => None
          end
      | ESend r =>
          match y_round s with
          | Sending stores ((st, xs) :: todo) incs =>
              if match r with RReply rs => Nat.eqb (length rs) (length xs) | _ => true end then
                Some (mkSys (y_co s) (Sending stores todo (incs ++ send_incs (y_co s) stores st xs r)) (y_log s) false
                            (y_born s) (acks_of xs r ++ y_acked s)
                            (map (fun x => (i_job x, c_id (i_cmd x))) xs ++ y_sent s)
                            (fails_of xs r ++ y_fails s))
              else None
          | _ => None
          end
      | EEnd =>
          match y_round s with
          | Sending _ [] [] =>
              Some (mkSys (y_co s) Idle (y_log s) false (y_born s) (y_acked s) (y_sent s) (y_fails s))
          | Sending _ [] l =>
              let s' := write s true l in
              Some (mkSys (y_co s') Waiting (y_log s') false (y_born s') (y_acked s') (y_sent s') (y_fails s'))
          | _ => None
          end
      | EApply => match y_log s with [] => None | _ => Some (apply_entry s) end
      | ELose n =>
          let s' := apply_entries n s in
          Some (mkSys (y_co s') Idle [] (y_dead s') (y_born s') (y_acked s') (y_sent s') (y_fails s'))
      end.

  Fixpoint run (s : sys) (l : list event) : option sys :=
    match l with
    | [] => Some s
    | e :: r => match step s e with None => None | Some s' => run s' r end
    end.
End Machine.

(** ** Commands on a store *)

Inductive cst := SNone | SDone | SFail.

(** A command as a store keeps it: id, retry mark, recorded status. *)
Record scmd := mkScmd { m_id : Z; m_retry : bool; m_status : cst }.

(** A handler of PushStoreOperation working on one command: the repeat check
    passed; the command is recorded in memory; and on disk. *)
Inductive hpc := HChecked (c : scmd) | HMem (c : scmd) | HDisk (c : scmd).

(** The answers to the coordinator. *)
Inductive answer := AOk | ARepeat | AError.

Record sstate := mkSstate {
  p_up : bool;
  p_mem : list Z;                     (* ids in region_commands_ *)
  p_disk : list (Z * cst);            (* the stored commands, by id *)
  p_handlers : nat -> option hpc;     (* the handlers; None: free *)
  p_queue : list scmd;                (* tasks with the executors *)
  p_running : list scmd;              (* run, status not yet stored *)
  (* what happened: *)
  p_runs : list Z;                    (* ids of the commands run *)
  p_oks : list (Z * bool)             (* (id, retry mark) of the commands answered OK *)
}.

Definition p_init : sstate := mkSstate true [] [] (fun _ => None) [] [] [] [].

Inductive sevent :=
| SPush (h : nat) (c : scmd)          (* the repeat check; a repeated command is answered *)
| SMem (h : nat)                      (* AddCommand, in memory *)
| SDisk (h : nat)                     (* AddCommand, on disk *)
| SDispatch (h : nat) (ok : bool)     (* DispatchRegionControlCommandImpl; the answer *)
| SRun (n : nat)                      (* an executor runs a task *)
| SStore (n : nat) (ok : bool)        (* UpdateCommandStatus *)
| SCrash
| SStart (ok : Z -> bool).            (* Init and Recover; whether each dispatch works *)

Definition diskget (d : list (Z * cst)) (id : Z) : option cst := option_map snd (find (fun p => fst p =? id) d).

Definition diskput (d : list (Z * cst)) (id : Z) (x : cst) : list (Z * cst) :=
  (id, x) :: filter (fun p => negb (fst p =? id)) d.

Definition set_handler (f : nat -> option hpc) (h : nat) (x : option hpc) : nat -> option hpc :=
  fun h' => if Nat.eqb h' h then x else f h'.

Definition inb (x : Z) (l : list Z) : bool := existsb (Z.eqb x) l.

Fixpoint remove_nth {A} (n : nat) (l : list A) : list A :=
  match l, n with
  | [], _ => []
  | _ :: r, O => r
  | x :: r, S n' => x :: remove_nth n' r
  end.

(** GetCommands(STATUS_NONE) (region_controller.cc:1796-1809), sorted by id. *)
Fixpoint ins_id (x : Z) (l : list Z) : list Z :=
  match l with
  | [] => [x]
  | y :: r => if x <=? y then x :: l else y :: ins_id x r
  end.

Definition unrun (d : list (Z * cst)) : list Z :=
  fold_right ins_id [] (map fst (filter (fun p => match snd p with SNone => true | _ => false end) d)).

Definition sstep (s : sstate) (e : sevent) : option (sstate * option (Z * answer)) :=
  match e with
  | SCrash =>
      Some (mkSstate false [] (p_disk s) (fun _ => None) [] [] (p_runs s) (p_oks s), None)
  | SStart ok =>
      (* region_controller.cc:1741-1752 Init, :1884-1899 Recover *)
      if p_up s then None
      else Some (mkSstate true (map fst (p_disk s)) (p_disk s) (fun _ => None)
                          (map (fun id => mkScmd id false SNone) (filter ok (unrun (p_disk s))))
                          [] (p_runs s) (p_oks s), None)
  | _ =>
      if negb (p_up s) then None
      else
        match e with
        | SPush h c =>
            (* region_controller.cc:2001-2006 *)
            match p_handlers s h with
            | Some _ => None
            | None =>
                if negb (m_retry c) && inb (m_id c) (p_mem s)
                then Some (s, Some (m_id c, ARepeat))
                else Some (mkSstate true (p_mem s) (p_disk s) (set_handler (p_handlers s) h (Some (HChecked c)))
                                    (p_queue s) (p_running s) (p_runs s) (p_oks s), None)
            end
        | SMem h =>
            (* region_controller.cc:1759-1769: a known command is left as it is,
               and not stored either *)
            match p_handlers s h with
            | Some (HChecked c) =>
                if inb (m_id c) (p_mem s)
                then Some (mkSstate true (p_mem s) (p_disk s) (set_handler (p_handlers s) h (Some (HDisk c)))
                                    (p_queue s) (p_running s) (p_runs s) (p_oks s), None)
                else Some (mkSstate true (m_id c :: p_mem s) (p_disk s) (set_handler (p_handlers s) h (Some (HMem c)))
                                    (p_queue s) (p_running s) (p_runs s) (p_oks s), None)
            | _ => None
            end
        | SDisk h =>
            (* region_controller.cc:1771 *)
            match p_handlers s h with
            | Some (HMem c) =>
                Some (mkSstate true (p_mem s) (diskput (p_disk s) (m_id c) (m_status c))
                               (set_handler (p_handlers s) h (Some (HDisk c)))
                               (p_queue s) (p_running s) (p_runs s) (p_oks s), None)
            | _ => None
            end
        | SDispatch h ok =>
            (* region_controller.cc:1962-1999 *)
            match p_handlers s h with
            | Some (HDisk c) =>
                if ok
                then Some (mkSstate true (p_mem s) (p_disk s) (set_handler (p_handlers s) h None)
                                    (p_queue s ++ [c]) (p_running s) (p_runs s) ((m_id c, m_retry c) :: p_oks s),
                           Some (m_id c, AOk))
                else Some (mkSstate true (p_mem s) (p_disk s) (set_handler (p_handlers s) h None)
                                    (p_queue s) (p_running s) (p_runs s) (p_oks s),
                           Some (m_id c, AError))
            | _ => None
            end
        | SRun n =>
            match nth_error (p_queue s) n with
            | None => None
            | Some c => Some (mkSstate true (p_mem s) (p_disk s) (p_handlers s) (remove_nth n (p_queue s))
                                       (p_running s ++ [c]) (m_id c :: p_runs s) (p_oks s), None)
            end
        | SStore n ok =>
            (* region_controller.cc:1774-1777 *)
            match nth_error (p_running s) n with
            | None => None
            | Some c => Some (mkSstate true (p_mem s) (diskput (p_disk s) (m_id c) (if ok then SDone else SFail))
                                       (p_handlers s) (p_queue s) (remove_nth n (p_running s)) (p_runs s) (p_oks s), None)
            end
        | _ => None
        end
  end.

Fixpoint srun (s : sstate) (l : list sevent) : option sstate :=
  match l with
  | [] => Some s
  | e :: r => match sstep s e with None => None | Some (s', _) => srun s' r end
  end.
