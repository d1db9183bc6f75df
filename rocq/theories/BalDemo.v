(** Clusters for the examples and the refutations. *)
From Coq Require Import ZArith QArith List Bool.
From Verif Require Import BalModel BalSpec.
Import ListNotations.
Local Open Scope Z_scope.

Definition ok_rm : rmetrics := mkRm true true true true false 0 false 0 10 [].
Definition ok_sm : smetrics := mkSm 100 100 1000 [].

Definition p3 : list peer := [mkPeer 1 true; mkPeer 2 true; mkPeer 3 true].

(** Store 1 leads all six regions; stores 2 and 3 follow. *)
Definition six : list region := map (fun i => mkRegion i 1 p3) [11; 12; 13; 14; 15; 16].
Definition three : list store := [mkStore 1 true 0; mkStore 2 true 0; mkStore 3 true 0].

Definition calm (pick : nat -> nat) (n : nat) : view :=
  mkView (pick n) (fun _ => Some p3) (fun _ => Some ok_rm) (fun _ => Some ok_sm) [].

(** *** A final filter that sees other reports than the planner

    Store 1 leads many, store 2 (weight 1) one, store 3 (weight 10) nine
    regions.  The plan gives store 2 a leader and then hands one of its own to
    store 3; the first of these is dropped when its region becomes unhealthy
    before the last look. *)
Definition p12 : list peer := [mkPeer 1 true; mkPeer 2 true].
Definition p23 : list peer := [mkPeer 2 true; mkPeer 3 true].
Definition p3only : list peer := [mkPeer 3 true].
Definition fifteen : list region :=
  [mkRegion 11 1 p12; mkRegion 12 1 p12; mkRegion 13 1 p12; mkRegion 14 1 p12] ++
  [mkRegion 21 2 p23] ++
  map (fun i => mkRegion i 3 p3only) [31; 32; 33; 34; 35; 36; 37; 38; 39].
Definition weighted : list store := [mkStore 1 true 1; mkStore 2 true 1; mkStore 3 true 10].
Definition cur15 (r : Z) : option (list peer) := Some (if r <? 20 then p12 else if r <? 30 then p23 else p3only).
Definition turning (n : nat) : view :=
  mkView 0 cur15
         (fun r => if (r <? 20) && Nat.leb 6 n then None else Some ok_rm)
         (fun _ => Some ok_sm) [].

(** *** Vector index regions, learners, running jobs *)
Definition vec_rm : rmetrics := mkRm true true true true false 0 true 50 10 [].
Definition small_sm : smetrics := mkSm 20 100 1000 [].

(** Index of 50 bytes, 20 bytes free on every store. *)
Definition tight (n : nat) : view :=
  mkView 0 (fun _ => Some p3) (fun _ => Some vec_rm) (fun _ => Some small_sm) [].

(** Store 2 has a learner. *)
Definition p_learner : list peer := [mkPeer 1 true; mkPeer 2 false].
Definition learning : list region := map (fun i => mkRegion i 1 p_learner) [11; 12; 13; 14].
Definition two : list store := [mkStore 1 true 0; mkStore 2 true 0].
Definition learner_view (n : nat) : view :=
  mkView 0 (fun _ => Some p_learner) (fun _ => Some vec_rm) (fun _ => Some small_sm) [].

(** All six regions are named by unfinished jobs. *)
Definition busy (n : nat) : view :=
  mkView 0 (fun _ => Some p3) (fun _ => Some ok_rm) (fun _ => Some ok_sm) [11; 12; 13; 14; 15; 16].

(** *** An unlucky pick: region 11 has no other replica *)
Definition p1 : list peer := [mkPeer 1 true].
Definition lonely : list region := mkRegion 11 1 p1 :: map (fun i => mkRegion i 1 p12) [12; 13; 14; 15].
Definition unlucky (pick : nat) (n : nat) : view :=
  mkView pick (fun r => Some (if r =? 11 then p1 else p12)) (fun _ => Some ok_rm) (fun _ => Some ok_sm) [].

(** *** Moves of replicas *)
Definition cfg0 : rcfg := mkRcfg 10 0 15.

Definition one_region : list region := [mkRegion 11 2 p3].
Definition four : list store := [mkStore 1 true 0; mkStore 2 true 0; mkStore 3 true 0; mkStore 4 true 0].
Definition size_rm : rmetrics := mkRm true true true true false 0 false 0 10 [1; 2; 3].

(** Store 1 is full, store 4 empty. *)
Definition fill (s : Z) : smetrics :=
  if s =? 1 then mkSm 0 10 100 [11]
  else if s =? 4 then mkSm 0 90 100 []
  else mkSm 0 50 100 [11].
Definition full_view (n : nat) : view :=
  mkView 0 (fun _ => Some p3) (fun _ => Some size_rm) (fun s => Some (fill s)) [].

(** The region is anything but healthy. *)
Definition sick_rm : rmetrics := mkRm false false false false true 99 false 0 10 [1; 2; 3].
Definition sick_view (n : nat) : view :=
  mkView 0 (fun _ => Some p3) (fun _ => Some sick_rm) (fun s => Some (fill s)) [].

(** A store that has not measured its disk. *)
Definition blank_view (n : nat) : view :=
  mkView 0 (fun _ => Some p1) (fun _ => Some size_rm) (fun _ => Some (mkSm 0 0 0 [])) [].

(** Store 3 is a replica and has sent a store heartbeat but no region report. *)
Definition full_map (s : Z) : option (option smetrics * list Z) :=
  if s =? 3 then None else Some (Some (fill s), sm_regions (fill s)).
Definition own_map (s : Z) : option smetrics :=
  if s =? 3 then Some (mkSm 0 90 100 []) else None.
Definition unreported (n : nat) : view :=
  mkView 0 (fun _ => Some p3) (fun _ => Some size_rm) (get_store_metrics full_map own_map) [].

(** Stores 1, 2 and 3 are 90, 30 and 20 per cent full; the fullest store
    follows nothing that can move, the next follows region 11. *)
Definition p2lead : list peer := [mkPeer 2 true; mkPeer 5 true].
Definition near : list region := [mkRegion 11 5 p2lead].
Definition near_stores : list store := [mkStore 1 true 0; mkStore 2 true 0; mkStore 3 true 0].
Definition near_view (n : nat) : view :=
  mkView 0 (fun _ => Some p2lead) (fun _ => Some (mkRm true true true true false 0 false 0 10 [2; 5]))
    (fun s => Some (if s =? 1 then mkSm 0 10 100 [] else if s =? 2 then mkSm 0 70 100 [11] else mkSm 0 80 100 [])) [].
