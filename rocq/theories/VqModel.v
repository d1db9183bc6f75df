(** Model of the search side of the vector index wrapper: merging the answers of
    two sibling indexes, and searching in parallel batches
    (src/vector/vector_index.cc). *)
Require Import ZArith List Bool.
Import ListNotations.
Open Scope Z_scope.

(** One element of a search result: vector id and distance
    (pb::common::VectorWithDistance).  Simplification: distances are integers,
    so NaN, which no comparison accepts, is not covered. *)
Definition hit : Type := Z * Z.

(** MergeSearchResult (vector_index.cc:1056-1095): two cursors, the smaller
    distance first, the first list at a tie, and at most [k] elements. *)
Fixpoint merge_hits (k : nat) (a b : list hit) : list hit :=
  match k with
  | O => []
  | S k' =>
      match a, b with
      | x :: a', y :: b' =>
          if snd x <=? snd y then x :: merge_hits k' a' b else y :: merge_hits k' a b'
      | x :: a', [] => x :: merge_hits k' a' []
      | [], y :: b' => y :: merge_hits k' [] b'
      | [], [] => []
      end
  end.

(** MergeSearchResults (vector_index.cc:1097-1106): query by query.  [None]: the
    assertion on the two sizes fails. *)
Definition merge_results (k : nat) (ra rb : list (list hit)) : option (list (list hit)) :=
  if (length ra =? length rb)%nat
  then Some (map (fun p => merge_hits k (fst p) (snd p)) (combine ra rb))
  else None.

(** SplitVectorWithId (vector_index.cc:59-71): slices of [n], the last one
    shorter; [fuel] bounds the loop and is never short of it when [n > 0]. *)
Fixpoint slices {A : Type} (fuel n : nat) (l : list A) : list (list A) :=
  match fuel, l with
  | O, _ => []
  | _, [] => []
  | S f, _ => firstn n l :: slices f n (skipn n l)
  end.

Definition split_queries {A : Type} (n : nat) (l : list A) : list (list A) :=
  slices (length l) n l.

(** One element of a result list replaced. *)
Fixpoint put_at {R : Type} (l : list R) (n : nat) (x : R) : list R :=
  match l, n with
  | [], _ => []
  | _ :: r, O => x :: r
  | y :: r, S m => y :: put_at r m x
  end.

(** The loop over part_results (vector_index.cc:266-268): results[index + i]. *)
Fixpoint place {R : Type} (res : list R) (index : nat) (part : list R) : list R :=
  match part with
  | [] => res
  | x :: r => place (put_at res index x) (S index) r
  end.

(** The tasks of ParallelRun (vector_index.cc:73-104): every batch together with
    its number. *)
Definition number {A : Type} (l : list A) : list (nat * A) := combine (seq 0 (length l)) l.

(** VectorIndex::SearchByParallel and RangeSearchByParallel for an index that is
    not HNSW (vector_index.cc:244-300).  [f] answers one query; [sched] is the
    order in which the thread pool runs the tasks.  Simplification: a task runs
    as one step. *)
Definition search_by_parallel {Q R : Type} (f : Q -> R) (none : R) (batch : nat)
  (sched : list (nat * list Q) -> list (nat * list Q)) (qs : list Q) : list R :=
  fold_left (fun res t => place res (fst t) (map f (snd t)))
    (sched (number (split_queries batch qs)))
    (map (fun _ => none) qs).
