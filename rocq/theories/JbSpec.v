(** * What is asked of jobs and of region commands *)

From Coq Require Import ZArith List Bool Arith.
From Verif Require Import JbModel.
Import ListNotations.
Local Open Scope Z_scope.

(** ** Jobs *)

(** The commands of a step and of a job. *)
Definition task_cmds (t : task) : list cmd := flat_map o_cmds (t_ops t).
Definition job_cmds (j : job) : list cmd := flat_map task_cmds (j_tasks j).

(** [c] is a command of step [n] of [j]. *)
Definition cmd_at (j : job) (n : nat) (cid : Z) : Prop :=
  exists t c, nth_error (j_tasks j) n = Some t /\ In c (task_cmds t) /\ c_id c = cid.

(** Commands that only the leader of a region can do. *)
Definition leader_kind (k : kind) : bool :=
  match k with KSplit | KMerge | KChange | KTransfer => true | _ => false end.

(** A job as the coordinator creates it (the Add...Task functions): at its
    first step, nothing done, no two commands with the same id, one command an
    operation, and a command for a leader alone in its step. *)
Definition fresh_job (j : job) : Prop :=
  0 < j_id j /\ j_next j = 0%nat
  /\ NoDup (map c_id (job_cmds j))
  /\ (forall t, In t (j_tasks j) ->
        (forall o, In o (t_ops t) -> o_ok o = false /\ o_tries o = 0%nat /\ (length (o_cmds o) <= 1)%nat)
        /\ ((exists c, In c (task_cmds t) /\ leader_kind (c_kind c) = true) -> length (task_cmds t) = 1%nat)).

(** What the environment may do: new jobs are fresh and have new ids; stores
    report failures of commands they were sent; only commands for leaders are
    answered with "not the leader"; stores answer under their own ids. *)
Definition fits (s : sys) (e : event) : Prop :=
  match e with
  | ENew j => fresh_job j /\ ~ In (j_id j) (map j_id (y_born s))
  | EReport id cid => In (id, cid) (y_sent s)
  | ESend r =>
      match y_round s, r with
      | Sending _ ((_, xs) :: _) _, RReply rs =>
          forall x st, In (x, NotLeader st) (combine xs rs) -> leader_kind (c_kind (i_cmd x)) = true
      | _, RWrong => False
      | _, _ => True
      end
  | _ => True
  end.

(** Histories. *)
Inductive reach (limit : nat) (P : sys -> event -> Prop) : sys -> Prop :=
| reach_init : reach limit P init
| reach_step : forall s e s', reach limit P s -> P s e -> step limit s e = Some s' -> reach limit P s'.

(** [x] is about to be sent. *)
Definition to_send (s : sys) (x : item) : Prop :=
  exists stores todo incs st xs,
    y_round s = Sending stores todo incs /\ In (st, xs) todo /\ In x xs.

(** A store answered that command [cid] of job [id] is accepted, known, or
    already in effect. *)
Definition acked (s : sys) (id cid : Z) : Prop := In (id, cid) (y_acked s).

Definition no_clean (e : event) : Prop := match e with EClean _ => False | _ => True end.

(** ** A round in which everything works *)

(** All pre-checks hold, all stores exist, all regions can be dropped. *)
Definition all_well (v : pview) : Prop :=
  (forall n, pv_check v n = true) /\ (forall s, pv_store v s = true) /\ (forall r, pv_drop v r = true).

(** Events of one such round: it begins, every request is answered, each
    command accepted; it ends, and its entry is applied. *)
Definition good_round (l : list event) : Prop :=
  exists v cap rs,
    l = EBegin v cap :: map (fun r => ESend (RReply r)) rs ++ [EEnd; EApply]
    /\ all_well v
    /\ (forall r x, In r rs -> In x r -> x = Accepted)
    /\ cap = 100%nat.

(** ** Failures *)

Definition failures (s : sys) (id : Z) : nat := length (filter (Z.eqb id) (y_fails s)).

(** ** Commands on a store *)

Inductive sreach (P : sstate -> sevent -> Prop) : sstate -> Prop :=
| sreach_init : sreach P p_init
| sreach_step : forall s e s' a, sreach P s -> P s e -> sstep s e = Some (s', a) -> sreach P s'.

(** No request for a command comes while another one for it is being handled;
    a command that comes for the first time carries no status; after a restart
    every recovered command finds its executor. *)
Definition hpc_cmd (x : hpc) : scmd := match x with HChecked c | HMem c | HDisk c => c end.

Definition calm (s : sstate) (e : sevent) : Prop :=
  match e with
  | SPush h c => (forall h' x, p_handlers s h' = Some x -> m_id (hpc_cmd x) <> m_id c)
                 /\ (m_retry c = false -> m_status c = SNone)
  | SStart ok => forall id, ok id = true
  | _ => True
  end.

(** Besides: no retries, and no crash between the running of a command and the
    storing of its status. *)
Definition quiet (s : sstate) (e : sevent) : Prop :=
  calm s e
  /\ match e with
     | SPush _ c => m_retry c = false
     | SCrash => p_running s = []
     | _ => True
     end.

Definition queued (s : sstate) (id : Z) : Prop := exists c, In c (p_queue s) /\ m_id c = id.

(** How often a command was run. *)
Definition runs (s : sstate) (id : Z) : nat := count_occ Z.eq_dec (p_runs s) id.

(** ** Failures and later rounds *)

(** Any number of steps. *)
Inductive star (limit : nat) (P : sys -> event -> Prop) : sys -> sys -> Prop :=
| star_refl : forall s, star limit P s s
| star_step : forall s e s1 s2, P s e -> step limit s e = Some s1 -> star limit P s1 s2 -> star limit P s s2.

(** No store answers that command [cid] of job [id] is accepted, nothing more
    is reported about the job, and nobody cleans jobs. *)
Definition holds_back (id cid : Z) (s : sys) (e : event) : Prop :=
  match e with
  | EReport id' _ => id' <> id
  | EClean _ => False
  | ESend r => match y_round s with
               | Sending _ ((_, xs) :: _) _ => ~ In (id, cid) (acks_of xs r)
               | _ => True
               end
  | _ => True
  end.

(** No more commands than a store takes in one round. *)
Definition small (s : sys) : Prop := (length (flat_map job_cmds (co_jobs (y_co s))) <= 100)%nat.

(** [n] good rounds, one after the other. *)
Inductive rounds (limit : nat) : nat -> sys -> sys -> Prop :=
| rounds_0 : forall s, rounds limit 0 s s
| rounds_S : forall n s l s1 s2, small s -> good_round l -> run limit s l = Some s1 ->
               rounds limit n s1 s2 -> rounds limit (S n) s s2.
