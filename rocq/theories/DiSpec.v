(** What the text index of a document region should hold. *)
Require Import ZArith List Bool Sorted Permutation.
From Verif Require Import DiModel.
Import ListNotations.
Open Scope nat_scope.

(** What a command says about a document: nothing, a new content, or that it is gone. *)
Definition says (id : Z) (c : cmd) : option (option Z) :=
  match c with
  | CAdd _ ds => match find (fun d : doc => Z.eqb (fst d) id) (rev ds) with Some d => Some (Some (snd d)) | None => None end
  | CDel l => if mem id l then Some None else None
  | COther => None
  end.

(** The content of a document after some commands, if it exists. *)
Definition stored (cs : list cmd) (id : Z) : option Z :=
  fold_left (fun acc c => match says id c with Some v => v | None => acc end) cs None.

(** The index is in use and the region is at rest: every entry written to the store is applied. *)
Definition at_rest (w : world) : Prop := ready w = true /\ busy w = false /\ applied w = kv w.

(** The rows a search can find. *)
Definition found (w : world) : list doc := match own w with Some o => rows o | None => [] end.

(** Something holds whenever a certain event happens. *)
Fixpoint whenever (x : event) (ok : world -> Prop) (c : conf) (log : list cmd) (w : world) (es : list event) : Prop :=
  match es with
  | [] => True
  | e :: es => (e = x -> ok w) /\ whenever x ok c log (act c log w e) es
  end.

(** No entry is between its handler and the advance of the applied position. *)
Definition idle (w : world) : Prop := busy w = false.

(** The new index is not exactly one entry behind. *)
Definition not_one_behind (w : world) : Prop := forall o, bld w = Some o -> applied w <> S (oapply o).

(** Every document ever written to the store is still there. *)
Definition none_deleted (log : list cmd) (w : world) : Prop :=
  forall d, In d (scan log (kv w)) -> stored (firstn (kv w) log) (fst d) <> None.

(** Only the handlers run. *)
Definition only_writes (es : list event) : Prop := forall e, In e es -> e = EHandle \/ e = EFinish.

(** Additions without is_update are of new documents, and no addition names a document twice. *)
Definition careful (log : list cmd) : Prop :=
  forall n upd ds, nth_error log n = Some (CAdd upd ds) ->
    NoDup (map fst ds) /\
    (upd = false -> forall d, In d ds -> stored (firstn n log) (fst d) = None).

(** The index holds each document once, with its content, and no other. *)
Definition exact (r : list doc) (cs : list cmd) : Prop :=
  forall id, filter (fun d : doc => Z.eqb (fst d) id) r = match stored cs id with Some c => [(id, c)] | None => [] end.

(** Commands one after the other on an index, additions never replacing. *)
Definition one_by_one (r : list doc) (cs : list cmd) : list doc :=
  fold_left (fun r c => match c with CAdd _ ds => r ++ ds
                                   | CDel l => filter (fun d => negb (mem (fst d) l)) r
                                   | COther => r end) cs r.

(** Best first. *)
Definition best_first (l : list hit) : Prop := StronglySorted (fun x y => (snd y <= snd x)%Z) l.

(** The answer is the best [n] of the hits, best first. *)
Definition best_of (n : nat) (hits answer : list hit) : Prop :=
  best_first answer /\ length answer = Nat.min n (length hits) /\
  exists rest, Permutation hits (answer ++ rest) /\
    forall x y, In x answer -> In y rest -> (snd y <= snd x)%Z.

(** Every document of the hits once, with one of its hits. *)
Definition each_once (hits answer : list hit) : Prop :=
  NoDup (map fst answer) /\ (forall x, In x answer -> In x hits) /\
  (forall x, In x hits -> In (fst x) (map fst answer)).
