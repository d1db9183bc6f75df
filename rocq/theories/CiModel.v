(** Requests to the coordinator, from stores and other coordinators.

    Source: src/coordinator/coordinator_interaction.h, coordinator_interaction.cc.

    Simplifications: the look-up of the method is left out (it fails or succeeds before anything is sent);
    coordinators are numbered; what a coordinator does with a request is part of the event; reading an answer
    and the change of what is remembered are one step (the answer is the caller's own); the case of an empty
    channel in the map is left out (the map never holds one). *)
Require Import List Bool PeanoNat.
Import ListNotations.

(** What comes of one attempt: the server cannot be reached; it handled the request but the answer was lost; it
    handled the request and answered with a code (0 is OK); it says that it is not the leader and may name one;
    no channel could be made (coordinator_interaction.h:154-159). *)
Inductive outcome := ODown | OLost | OAns (code : nat) | ONot (hint : option nat) | ONoChan.

(** The status returned: that of an answer, that of the failed call, EINTERNAL. *)
Inductive status := SAns (code : nat) | SRpc | SInternal.

(** A list of addresses (its length), or the name of a service: coordinator_interaction.h:94-103. *)
Inductive mode := MList (n : nat) | MName.

(** A call: to be sent, sent to a server (by the name of the service or not), done.  [log] are its attempts. *)
Inductive phase := Ready | Sent (a : nat) (ns : bool) | Done (st : status).
Record call := mkC { ph : phase; log : list (nat * outcome) }.

(** [mem] is leader_index_ or leader_addr_ (none: IP_ANY); [cs] the calls so far. *)
Record state := mkS { mem : option nat; cs : list call }.

(** kMaxRetry, coordinator_interaction.h:41. *)
Definition max_retry : nat := 5.

(** The server an attempt goes to: coordinator_interaction.h:258-259 and 138-151, 211; [p] is the one that the
    name of the service leads to. *)
Definition target (m : option nat) (p : nat) : nat * bool :=
  match m with Some a => (a, false) | None => (p, true) end.

(** NextLeader, coordinator_interaction.cc:70-73. *)
Definition next_leader (n : nat) (m : option nat) (a : nat) : option nat :=
  match m with
  | Some i => if Nat.eqb i a then Some ((a + 1) mod n) else m
  | None => m
  end.

(** The rest of an attempt; no status: try again.
    List: SendRequestByList, coordinator_interaction.h:262-280.
    Name: SendRequestByService, coordinator_interaction.h:154-159, 171-208 and 212-242. *)
Definition reply (md : mode) (m : option nat) (a : nat) (ns : bool) (o : outcome) : option nat * option status :=
  match md with
  | MList n =>
      match o with
      | OAns c => (m, Some (SAns c))
      | ONot _ => (next_leader n m a, None)
      | _ => (m, Some SRpc)
      end
  | MName =>
      match o with
      | ODown | OLost => (if ns then m else None, None)
      | ONoChan => (m, None)
      | OAns c => (if ns then Some a else m, Some (SAns c))
      | ONot (Some h) => (Some h, None)
      | ONot None => (if ns then m else None, None)
      end
  end.

(** A new call; an attempt is sent; it comes back, [w] saying what each server does. *)
Inductive event := ENew | ESend (c p : nat) | EReply (c : nat) (w : nat -> outcome).

Definition set_call (l : list call) (c : nat) (x : call) : list call :=
  firstn c l ++ x :: skipn (S c) l.

(** The loops of SendRequestByService and SendRequestByList, coordinator_interaction.h:122-236, 251-286. *)
Definition act (md : mode) (s : state) (e : event) : state :=
  match e with
  | ENew => mkS (mem s) (cs s ++ [mkC Ready []])
  | ESend c p =>
      match nth_error (cs s) c with
      | Some (mkC Ready l) =>
          let (a, ns) := target (mem s) p in mkS (mem s) (set_call (cs s) c (mkC (Sent a ns) l))
      | _ => s
      end
  | EReply c w =>
      match nth_error (cs s) c with
      | Some (mkC (Sent a ns) l) =>
          let (m', v) := reply md (mem s) a ns (w a) in
          let l' := l ++ [(a, w a)] in
          let q := match v with
                   | Some st => Done st
                   | None => if length l' <? max_retry then Ready else Done SInternal
                   end in
          mkS m' (set_call (cs s) c (mkC q l'))
      | _ => s
      end
  end.

Definition run (md : mode) (s : state) (es : list event) : state := fold_left (act md) es s.

(** No calls yet. *)
Definition start (m : option nat) : state := mkS m [].
