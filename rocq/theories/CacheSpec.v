(** Words for the statements about the timestamp cache. *)
From Coq Require Import ZArith List Bool.
From Verif Require Import CacheModel.
Import ListNotations.
Open Scope Z_scope.

(** the timestamps [fst r .. snd r - 1] *)
Definition within (ts : Z) (r : Z * Z) : Prop := fst r <= ts < snd r.

(** the batches the oracle hands to this store during the schedule, in order *)
Fixpoint ranges (sched : list choice) : list (Z * Z) :=
  match sched with
  | [] => []
  | CBatch p l count _ :: r => (compose p l, compose p (l + count)) :: ranges r
  | _ :: r => ranges r
  end.

(** what the oracle guarantees (C22): batches share no timestamp; each batch is above the earlier ones *)
Definition apart (r r' : Z * Z) : Prop := forall ts, within ts r -> within ts r' -> False.
Definition below (r r' : Z * Z) : Prop := forall ts ts', within ts r -> within ts' r' -> ts < ts'.

(** call [i] returned [ts]; 0 is the failure *)
Definition answered (s : cache) (i : nat) (ts : Z) : Prop :=
  exists a, nth_error (gets s) i = Some (mkGt a (GDone ts)).
(** call [i], with argument [after], has not read anything yet *)
Definition fresh (s : cache) (i : nat) (after : Z) : Prop := nth_error (gets s) i = Some (mkGt after GStart).

(** the lower bound [v] has been set by a call that returned *)
Definition bound_set (s : cache) (v : Z) : Prop := exists i, nth_error (sets s) i = Some (mkSt v SDone).
(** no two calls of SetMinValidTs are between their read and their write *)
Definition storing (s : cache) (i : nat) : Prop := exists v, nth_error (sets s) i = Some (mkSt v SStore).
Definition calm (s : cache) : Prop := forall i j, storing s i -> storing s j -> i = j.
Fixpoint calm_run (s : cache) (sched : list choice) : Prop :=
  calm s /\ match sched with
            | [] => True
            | c :: r => calm_run (match cstep s c with Some s' => s' | None => s end) r
            end.
