(** What one may expect of a periodic job. *)
Require Import List Bool PeanoNat.
From Verif Require Import CrModel.
Import ListNotations.

(** How many times the function of the job is being run now. *)
Definition at_once (j : job) : nat := active j + bodies j.

(** The job is not started again. *)
Definition no_start (es : list event) : Prop := ~ In EStart es.

(** The job of a server: added and started once. *)
Definition started (async imm : bool) (times : nat) : job := act (job0 async imm times) EStart.

(** No run is being started or under way. *)
Definition quiet (j : job) : Prop := queued j = 0 /\ active j = 0.

(** Time passes: timers fire, runs begin and end, but nobody pauses, starts or destroys the job. *)
Definition by_itself (es : list event) : Prop := ~ In EStart es /\ ~ In EPause es /\ ~ In EDestroy es.

(** The job is to be run again: it has no largest number of runs, or not as many have begun. *)
Definition wanted (times : nat) (j : job) : Prop := times = 0 \/ runs j < times.
