(** What auto-increment ids promise. *)
From Coq Require Import ZArith List Bool Arith.
From Verif Require Import Outcome AutoModel.
Import ListNotations.
Open Scope Z_scope.

(** the answer hands out id x of table t *)
Definition hands_out (a : resp) (t x : Z) : Prop :=
  (exists c inc off, r_req a = QGen t c inc off) /\ r_start a <= x < r_end a.

(** no id of a table is handed out by two answers *)
Definition disjoint (l : list resp) : Prop :=
  forall i j a b t x, nth_error l i = Some a -> nth_error l j = Some b -> hands_out a t x -> hands_out b t x -> i = j.

(** the committed changes of one table *)
Definition creates (t : Z) (e : entry) : bool := match e with ECreate t' _ => t' =? t | _ => false end.
(** every table id is created at most once *)
Definition created_once (log : list (list entry)) : Prop :=
  forall t, (length (filter (creates t) (concat log)) <= 1)%nat.

(** the number a table stands at after the committed changes, by the plain meaning of the operations;
    [next] is how far a generate request moves it *)
Definition moved (next : Z -> Z -> Z -> Z -> Z) (t : Z) (c : option Z) (e : entry) : option Z :=
  match e with
  | ECreate t' s => if t' =? t then Some s else c
  | EUpdate t' s => if t' =? t then match c with Some _ => Some s | None => None end else c
  | EGen t' n i o => if t' =? t then match c with Some s => Some (next s n i o) | None => None end else c
  | EDelete t' => if t' =? t then None else c
  end.
(** where the code moves it *)
Definition code_next (s n i o : Z) : Z := match end_id s n i o with Ok e => e | Crash => s end.
Definition stands (log : list (list entry)) (t : Z) : option Z := fold_left (moved code_next t) (concat log) None.

(** no committed update lowers a table's number *)
Definition never_lowered (log : list (list entry)) : Prop :=
  forall pre t s post c, concat log = pre ++ EUpdate t s :: post -> fold_left (moved code_next t) pre None = Some c -> c <= s.

(** x is on the grid offset, offset + increment, ... (an offset above the increment counts as 1) *)
Definition on_grid (inc off x : Z) : Prop := x mod inc = (if inc <? off then 1 else off) mod inc.
