(** Garbage collection of multi-version key-value data: C20, and C47 for that data. *)
From Coq Require Import ZArith List Bool Sorted.
From Verif Require Import Bytes Outcome CodecModel CodecSpec MvccModel MvccSpec MvccProofs GcModel GcSpec GcProofs.
Import ListNotations.
Open Scope Z_scope.

(** A content the theorems below apply to: [gc_demo] is collected at safe point 20 while [gc_demo2]
    (one more write, at 22) is what the deletes reach; two deletes per batch.  Key [a] was written
    after the safe point, [b] was deleted before it, [c] has an expired newest version. *)
Example C20_example :
  represents (map enc gc_demo) gc_demo /\ represents (map enc gc_demo2) gc_demo2 /\
  keys_ok gc_demo /\ grown 20 gc_demo gc_demo2 /\
  gc_safe_read 20 gc_demo gc_demo2 [97] 25 /\ gc_safe_read 20 gc_demo gc_demo2 [99] 20 /\
  (exists bs, gc_kv 2 1 20 2000 (map enc gc_demo) = Ok bs /\ length bs = 3%nat /\
     kv_get (kv_deletes (map enc gc_demo2) bs) 25 2000 [97] = Ok (ROk [6]) /\
     kv_deletes (map enc gc_demo2) bs = map enc [vA30; vA22]) /\
  (exists bs, gc_kv 2 1 20 900 (map enc gc_demo) = Ok bs /\
     kv_deletes (map enc gc_demo2) bs = map enc [vA30; vA22; vC7]).
Proof.
  refine (conj (proj1 demo_reps) (conj (proj2 demo_reps) (conj demo_keys (conj demo_grown _)))).
  split; [|split; [|split]].
  - split; [discriminate|]. left. exists vA22. vm_compute. intuition discriminate.
  - split; [discriminate|]. right. intros v I.
    repeat (destruct I as [<-|I]; [vm_compute; discriminate || (vm_compute; intros; discriminate)|]). destruct I.
  - eexists. split; [vm_compute; reflexivity|]. vm_compute. auto.
  - eexists. split; [vm_compute; reflexivity|]. vm_compute. auto.
Qed.
Print Assumptions C20_example.

(** The collection never aborts on well-formed data. *)
Theorem C20_total : forall limit per sp now st vs, represents st vs -> keys_ok vs ->
  exists bs, gc_kv limit per sp now st = Ok bs.
Proof. exact gc_total. Qed.
Print Assumptions C20_total.

(** A completed collection leaves a point read at or above the safe point unchanged, for a key that
    was written between the safe point and the read, or not written after the safe point.
    Missing for the full claim: the remaining keys, see C20_reads_refuted. *)
Theorem C20_reads_partial : forall limit per sp now0 st vs bs st2 vs2,
  represents st vs -> keys_ok vs -> represents st2 vs2 -> grown sp vs vs2 ->
  gc_kv limit per sp now0 st = Ok bs ->
  forall k ts now, bytes_ok k -> now0 <= now -> gc_safe_read sp vs vs2 k (effective_ts ts) ->
  kv_get (kv_deletes st2 bs) ts now k = kv_get st2 ts now k.
Proof. exact kv_get_gc. Qed.
Print Assumptions C20_reads_partial.

(** The same for scans, when it holds of every key of the range. *)
Theorem C20_scan_partial : forall limit per sp now0 st vs bs st2 vs2,
  represents st vs -> keys_ok vs -> represents st2 vs2 -> grown sp vs vs2 ->
  gc_kv limit per sp now0 st = Ok bs ->
  forall a b ts now, bytes_ok a -> bytes_ok b -> now0 <= now ->
  (forall k, in_range (a, b) k -> gc_safe_read sp vs vs2 k (effective_ts ts)) ->
  kv_scan (kv_deletes st2 bs) ts now a b = kv_scan st2 ts now a b.
Proof. exact kv_scan_gc. Qed.
Print Assumptions C20_scan_partial.

(** If only some of the batches take effect (stop, crash, failed proposal), every value that could
    be read before can still be read, under the same condition.  Missing for the full claim: a key
    that could not be read may reappear, see C20_interrupted_refuted. *)
Theorem C20_interrupted_partial : forall limit per sp now0 st vs bs st2 vs2,
  represents st vs -> keys_ok vs -> represents st2 vs2 -> grown sp vs vs2 ->
  gc_kv limit per sp now0 st = Ok bs ->
  forall part k ts now x, incl part bs -> bytes_ok k -> now0 <= now ->
  gc_safe_read sp vs vs2 k (effective_ts ts) ->
  kv_get st2 ts now k = Ok (ROk x) -> kv_get (kv_deletes st2 part) ts now k = Ok (ROk x).
Proof. exact kv_get_part. Qed.
Print Assumptions C20_interrupted_partial.

(** C47: whichever batches take effect, nothing is invented and no version newer than the safe point
    is removed. *)
Theorem C47_newer_kept : forall limit per sp now0 st vs bs st2 vs2 part,
  represents st vs -> keys_ok vs -> represents st2 vs2 -> grown sp vs vs2 ->
  gc_kv limit per sp now0 st = Ok bs -> incl part bs ->
  exists vs', represents (kv_deletes st2 part) vs' /\
    (forall v, In v vs' -> In v vs2) /\ (forall v, sp < vts v -> In v vs2 -> In v vs').
Proof. exact newer_kept. Qed.
Print Assumptions C47_newer_kept.

(** C47: a completed collection leaves, at or below the safe point, exactly the versions that are
    the newest of their key and neither deletes nor expired. *)
Theorem C47_contents : forall limit per sp now0 st vs bs st2 vs2,
  represents st vs -> keys_ok vs -> represents st2 vs2 -> grown sp vs vs2 ->
  gc_kv limit per sp now0 st = Ok bs ->
  exists vs', represents (kv_deletes st2 bs) vs' /\
    (forall v, In v vs' -> In v vs2) /\
    (forall v, sp < vts v -> In v vs2 -> In v vs') /\
    (forall v, In v vs' -> vts v <= sp ->
       live now0 v /\ forall v', In v' vs -> vkey v' = vkey v -> vts v' <= vts v) /\
    (forall v, In v vs2 -> vts v <= sp -> live now0 v ->
       (forall v', In v' vs -> vkey v' = vkey v -> vts v' <= vts v) -> In v vs').
Proof. exact contents. Qed.
Print Assumptions C47_contents.

(** C47: after a completed collection every point read, at any timestamp, answers as before or
    "not found"; an older value never comes back. *)
Theorem C47_never_stale : forall limit per sp now0 st vs bs st2 vs2 k ts now,
  represents st vs -> keys_ok vs -> represents st2 vs2 -> grown sp vs vs2 ->
  gc_kv limit per sp now0 st = Ok bs -> bytes_ok k ->
  kv_get (kv_deletes st2 bs) ts now k = kv_get st2 ts now k \/
  kv_get (kv_deletes st2 bs) ts now k = Ok RNotFound.
Proof. exact never_stale. Qed.
Print Assumptions C47_never_stale.

(** The unrestricted claim is false: key [a] was written at 10 and 30; after a collection at 20 a
    read at 25 no longer finds the value of 10. *)
Theorem C20_reads_refuted : exists limit per sp now st vs bs k ts x,
  represents st vs /\ keys_ok vs /\ gc_kv limit per sp now st = Ok bs /\ 0 < sp <= ts /\
  kv_get st ts now k = Ok (ROk x) /\ kv_get (kv_deletes st bs) ts now k = Ok RNotFound.
Proof.
  exists 1024, 1, 20, 900, (map enc gc_demo), gc_demo. eexists. exists [97], 25, [1; 1].
  split; [apply demo_reps|]. split; [apply demo_keys|]. split; [vm_compute; reflexivity|].
  split; [split; [reflexivity|discriminate]|]. vm_compute. auto.
Qed.
Print Assumptions C20_reads_refuted.

(** Stopped between two batches the collection brings back a deleted key: the delete of [b] at 12
    is gone, the write at 8 is not. *)
Theorem C20_interrupted_refuted : exists limit per sp now st vs bs part k ts x,
  represents st vs /\ keys_ok vs /\ gc_kv limit per sp now st = Ok bs /\
  (exists rest, bs = part ++ rest) /\ 0 < sp <= ts /\ gc_safe_read sp vs vs k ts /\
  kv_get st ts now k = Ok RNotFound /\ kv_get (kv_deletes st part) ts now k = Ok (ROk x).
Proof.
  exists 2, 1, 20, 900, (map enc gc_demo), gc_demo. eexists.
  exists [[fst (enc vA10); fst (enc vB12)]], [98], 25, [3].
  split; [apply demo_reps|]. split; [apply demo_keys|]. split; [vm_compute; reflexivity|].
  split; [eexists; vm_compute; reflexivity|].
  split; [split; [reflexivity|discriminate]|]. split; [|vm_compute; auto].
  split; [discriminate|]. right. intros v I.
  repeat (destruct I as [<-|I]; [vm_compute; discriminate || (vm_compute; intros; discriminate)|]). destruct I.
Qed.
Print Assumptions C20_interrupted_refuted.
