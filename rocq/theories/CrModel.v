(** Periodic jobs of a server.

    Source: src/crontab/crontab.cc, crontab.h.

    Simplifications: one job is followed (jobs share nothing but the map they are found in); time is left out: a
    timer fires at any moment after it was set; a timer is deleted for certain if it has not fired
    (bthread_timer_del). *)
Require Import List Bool PeanoNat.
Import ListNotations.

(** Crontab, crontab.h:38-59: async (crontab.cc:71-86), immediately, max_times, run_count, pause, timer_id.
    [pend] are the timers set, [next] the number of the next one; [queued] the runs started in the background and
    not begun; [active] the runs that are in their function; [bodies] the functions of async jobs that go on after
    their run.  [gone]: the job was freed.  Traces: [runs] the functions begun, [touched]: the job was used after
    it was freed. *)
Record job := mkJ { async : bool; imm : bool; maxt : nat; count : nat; pause : bool; tid : option nat;
  pend : list nat; next : nat; queued : nat; active : nat; bodies : nat; gone : bool;
  runs : nat; touched : bool }.

Definition job0 (a i : bool) (m : nat) : job :=
  mkJ a i m 0 false None [] 0 0 0 0 false 0 false.

Definition drop (t : nat) (l : list nat) : list nat := filter (fun x => negb (Nat.eqb x t)) l.

(** The end of Run, crontab.cc:46-48. *)
Definition rearm (j : job) : job :=
  if (maxt j =? 0) || (count j <? maxt j)
  then mkJ (async j) (imm j) (maxt j) (count j) (pause j) (Some (next j)) (next j :: pend j) (S (next j))
         (queued j) (active j) (bodies j) (gone j) (runs j) (touched j || gone j)
  else mkJ (async j) (imm j) (maxt j) (count j) (pause j) (tid j) (pend j) (next j)
         (queued j) (active j) (bodies j) (gone j) (runs j) (touched j || gone j).

(** Run, crontab.cc:29-44; the function of an async job returns at once. *)
Definition begin_run (j : job) : job :=
  if pause j then
    mkJ (async j) (imm j) (maxt j) (count j) (pause j) (tid j) (pend j) (next j) (queued j) (active j) (bodies j)
      (gone j) (runs j) (touched j || gone j)
  else if imm j then
    if async j
    then rearm (mkJ (async j) (imm j) (maxt j) (S (count j)) (pause j) (tid j) (pend j) (next j) (queued j)
                  (active j) (S (bodies j)) (gone j) (S (runs j)) (touched j || gone j))
    else mkJ (async j) (imm j) (maxt j) (count j) (pause j) (tid j) (pend j) (next j) (queued j)
           (S (active j)) (bodies j) (gone j) (S (runs j)) (touched j || gone j)
  else rearm (mkJ (async j) true (maxt j) (count j) (pause j) (tid j) (pend j) (next j) (queued j) (active j)
                (bodies j) (gone j) (runs j) (touched j || gone j)).

(** The function of a run ends: crontab.cc:40, 46-48. *)
Definition end_run (j : job) : job :=
  rearm (mkJ (async j) (imm j) (maxt j) (S (count j)) (pause j) (tid j) (pend j) (next j) (queued j)
           (pred (active j)) (bodies j) (gone j) (runs j) (touched j)).

(** InnerPauseCrontab without the mark, crontab.cc:143-145; Destroy, crontab.cc:164-166. *)
Definition del_timer (j : job) : job :=
  mkJ (async j) (imm j) (maxt j) (count j) (pause j) (tid j)
    (match tid j with Some t => drop t (pend j) | None => pend j end) (next j) (queued j) (active j) (bodies j)
    (gone j) (runs j) (touched j).

Inductive event :=
| EStart | EPause | EDestroy    (* StartCrontab 112-132, PauseCrontab 134-152, Destroy 161-170;
                                   DeleteCrontab 154-159 is EPause, then EDestroy *)
| EBegin | EFire (t : nat)      (* a run started in the background begins; a timer fires *)
| EEnd | EBody.                 (* the function of a run ends; that of an async job ends *)

Definition act (j : job) (e : event) : job :=
  match e with
  | EStart =>
      if gone j then j
      else mkJ (async j) (imm j) (maxt j) (count j) false (tid j) (pend j) (next j) (S (queued j)) (active j)
             (bodies j) (gone j) (runs j) (touched j)
  | EPause =>
      if gone j then j
      else let j1 := del_timer j in
           mkJ (async j1) (imm j1) (maxt j1) (count j1) true (tid j1) (pend j1) (next j1) (queued j1) (active j1)
             (bodies j1) (gone j1) (runs j1) (touched j1)
  | EDestroy =>
      let j1 := del_timer j in
      mkJ (async j1) (imm j1) (maxt j1) (count j1) (pause j1) (tid j1) (pend j1) (next j1) (queued j1) (active j1)
        (bodies j1) true (runs j1) (touched j1)
  | EBegin =>
      match queued j with
      | 0 => j
      | S q => begin_run (mkJ (async j) (imm j) (maxt j) (count j) (pause j) (tid j) (pend j) (next j) q (active j)
                            (bodies j) (gone j) (runs j) (touched j))
      end
  | EFire t =>
      if existsb (Nat.eqb t) (pend j)
      then begin_run (mkJ (async j) (imm j) (maxt j) (count j) (pause j) (tid j) (drop t (pend j)) (next j)
                        (queued j) (active j) (bodies j) (gone j) (runs j) (touched j))
      else j
  | EEnd => match active j with 0 => j | S _ => end_run j end
  | EBody =>
      mkJ (async j) (imm j) (maxt j) (count j) (pause j) (tid j) (pend j) (next j) (queued j) (active j)
        (pred (bodies j)) (gone j) (runs j) (touched j)
  end.

Definition run (j : job) (es : list event) : job := fold_left act es j.
