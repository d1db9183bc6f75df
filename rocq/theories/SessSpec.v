(** Specification of scan sessions, over the answers given to the clients. *)
From Coq Require Import ZArith List Bool.
From Verif Require Import Bytes Outcome CodecModel CodecSpec MvccModel MvccSpec SessModel.
Import ListNotations.
Open Scope Z_scope.

(** What a session reports for a version. *)
Definition reported (key_only : bool) (v : version) : bytes * bytes :=
  (vkey v, if key_only then [] else vval v).

(** Everything delivered under a session id, in the order of the answers. *)
Definition delivered_by (id : Z) (e : event) : list (bytes * bytes) :=
  match e with
  | EBegin _ b _ page => if b_id b =? id then page else []
  | EPage _ i _ page _ => if i =? id then page else []
  | _ => []
  end.
Definition delivered (id : Z) (log : list (Z * event)) : list (bytes * bytes) :=
  flat_map (fun te => delivered_by id (snd te)) log.

(** The id is begun at most once: no second session takes it. *)
Definition is_begin (id : Z) (te : Z * event) : bool :=
  match snd te with EBegin _ b _ _ => b_id b =? id | _ => false end.
Definition begun_once (id : Z) (log : list (Z * event)) : Prop :=
  (length (filter (is_begin id) log) <= 1)%nat.

(** The stores scanned hold versions of keys, the bounds are byte strings, and the
    page sizes asked for are 64-bit integers. *)
Definition int64 (z : Z) : Prop := - 2 ^ 63 <= z < 2 ^ 63.
Definition store_ok (st : store) : Prop := exists vs, represents st vs.
Definition action_ok (a : action) : Prop :=
  match a with
  | Write st => store_ok st
  | Arrive (RBegin b) => bytes_ok (b_start b) /\ bytes_ok (b_end b) /\ int64 (b_max b)
  | Arrive (RContinue _ max) => int64 max
  | _ => True
  end.

(** The size of a page in bytes. *)
Definition page_bytes (page : list (bytes * bytes)) : Z :=
  fold_right (fun kv n => Z.of_nat (length (fst kv)) + Z.of_nat (length (snd kv)) + n) 0 page.

(** A page respects the limits: at most [limit] pairs, and it has not reached the
    byte limit before its last pair; it ends early only for one of these. *)
Definition page_fits (limit max_bytes : Z) (page : list (bytes * bytes)) : Prop :=
  Z.of_nat (length page) <= limit /\
  ((length page <= 1)%nat \/ page_bytes (removelast page) < max_bytes).
Definition page_full (limit max_bytes : Z) (page : list (bytes * bytes)) : Prop :=
  Z.of_nat (length page) = limit \/ max_bytes <= page_bytes page.

(** ** How long a session lives *)

(** The time never goes back. *)
Fixpoint clock_forward (now : Z) (acts : list action) : Prop :=
  match acts with
  | [] => True
  | Clock t :: r => now <= t /\ clock_forward t r
  | _ :: r => clock_forward now r
  end.

(** When the session was used: begun or continued. *)
Definition is_use (id : Z) (te : Z * event) : bool :=
  match snd te with
  | EBegin _ b _ _ => b_id b =? id
  | EPage _ i _ _ _ => i =? id
  | _ => false
  end.
Definition uses (id : Z) (log : list (Z * event)) : list Z := map fst (filter (is_use id) log).

(** Two uses, and the last use and now, are less than [timeout] apart. *)
Fixpoint used_within (timeout : Z) (times : list Z) (now : Z) : Prop :=
  match times with
  | [] => True
  | t :: r => match r with [] => now - t < timeout | t' :: _ => t' - t < timeout end
              /\ used_within timeout r now
  end.

Definition failed (id : Z) (log : list (Z * event)) : Prop := exists t, In (t, EFailed id) log.
Definition released (id : Z) (log : list (Z * event)) : Prop := exists t p, In (t, EReleased p id) log.

(** Every request has been answered and finished. *)
Definition quiet (s : state) : Prop := Forall (fun k => k = PDone) (s_reqs s).

(** An answer given in the session. *)
Definition of_session (id : Z) (e : event) : Prop :=
  match e with
  | EBegin _ b _ _ => b_id b = id
  | EPage _ i _ _ _ => i = id
  | EReleased _ i => i = id
  | EFailed _ => False
  end.

(** The largest page a request may get: the smaller of what it asks for and what
    the server allows; a negative number asks for as many as 2^64 - |max|. *)
Definition page_limit (max server : Z) : Z := if 0 <? max then Z.min max server else 2 ^ 64 + max.

(** The client has been told that the scan is over: no more to come, or an empty page. *)
Definition told_the_end (id : Z) (log : list (Z * event)) : Prop :=
  exists t p max page more, In (t, EPage p id max page more) log /\ (more = false \/ page = []).
