(** What a user of the DiskANN server relies on, in terms of requests, answers and files. *)
Require Import ZArith List Bool.
From Verif Require Import DnModel.
Import ListNotations.
Open Scope Z_scope.

(** The imports: for the number (tso) that names an import, its timestamp and its rows (id, vector). *)
Definition source := Z -> Z * list (Z * Z).

(** A push belongs to the import it names: its vectors and ids are a stretch of the import's rows, its
    count of rows already sent is where the stretch begins, and only the stretch that ends the import says
    that nothing follows.  Nothing is said about order, repetition or loss. *)
Definition honest (S : source) (q : push) : Prop :=
  pts q = fst (S (ptso q)) /\
  exists a b c,
    snd (S (ptso q)) = a ++ b ++ c /\
    pids q = map fst b /\ pvecs q = map snd b /\
    poff q = Z.of_nat (length a) /\
    (pmore q = false -> c = []).

Definition pushes_honest (S : source) (es : list event) : Prop :=
  forall q, In (EPush q) es -> honest S q.

(** Every destroy moves all the files away: no rename fails, no crash in the middle. *)
Definition whole_destroys (es : list event) : Prop :=
  forall f1 f2 f3, In (EDestroy f1 f2 f3) es -> f1 = true /\ f2 = true /\ f3 = true.

Definition is_reset (e : event) : bool :=
  match e with EClose | EDestroy _ _ _ => true | _ => false end.

(** No reset is handled while a build or a load is under way. *)
Fixpoint calm (tmo : Z) (w : world) (es : list event) : Prop :=
  match es with
  | [] => True
  | e :: es => (is_reset e = true -> wjobs w = []) /\ calm tmo (fst (act tmo w e)) es
  end.

(** The files hold exactly this import: the header counts, the timestamp, the vectors and the ids in
    order. *)
Definition holds (S : source) (k : Z) (d : disk) : Prop :=
  ddata d = Some (Z.of_nat (length (snd (S k))), map snd (snd (S k))) /\
  did d = Some (Z.of_nat (length (snd (S k))), fst (S k), map fst (snd (S k))).

(** An answer's rows are the rows of one import, at the positions found, with that import's timestamp. *)
Definition rows_of (S : source) (k : Z) (ps : list nat) (rows : list (Z * Z)) : Prop :=
  Forall2 (fun p r => nth_error (snd (S k)) p = Some r)
    (filter (fun p => Nat.ltb p (length (snd (S k)))) ps) rows.

(** The answers to a list of requests, in order. *)
Fixpoint answers (tmo : Z) (w : world) (es : list event) : list rep :=
  match es with
  | [] => []
  | e :: es => snd (act tmo w e) :: answers tmo (fst (act tmo w e)) es
  end.

(** The requests that carry on an index after an error. *)
Definition is_work (e : event) : bool :=
  match e with EPush _ | EBuild _ | ELoad | ETryLoad => true | _ => false end.

(** Resets and restarts: what ends an error. *)
Definition is_fresh (e : event) : bool :=
  match e with EClose | EDestroy _ _ _ | EStop => true | _ => false end.

Definition is_destroy (e : event) : bool :=
  match e with EDestroy _ _ _ => true | _ => false end.
