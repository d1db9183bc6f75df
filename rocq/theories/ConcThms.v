(** The in-memory lock table: C32. *)
From Coq Require Import ZArith List Bool Arith Lia.
From Verif Require Import Bytes SMap TxnModel TxnReadModel ConcModel ConcSpec ConcProofs ConcProofs2.
Import ListNotations.
Open Scope Z_scope.

(** A lock of the transaction that started at [ts]. *)
Definition lk (k : bytes) (ts fut minc : Z) : lock := mkLock k ts fut k 0 0 OpPut [] [] minc true [].
Definition pw (items : list item) (ts : Z) (latch : list bytes) (un : bool) : wreq := mkWr items [] ts 0 latch un.

(** Two prewrites of the store service on the keys [1;1], [2] and [2], [3], and four reads. *)
Definition ws2 : list wreq :=
  [pw [mkI (lk [1; 1] 5 0 6) 0; mkI (lk [2] 5 0 6) 0] 5 [[1; 1]; [2]] true;
   pw [mkI (lk [2] 7 8 8) 8; mkI (lk [3] 7 0 8) 0] 7 [[2]; [3]] true].
Definition rs2 : list rreq := [mkR 20 (Range [1] [2]) []; mkR 20 (Keys [[2]]) []; mkR 30 (Keys [[1; 1]]) []; mkR 30 (Range [1] [4]) []].
Definition w0 := CWriter 0. Definition w1 := CWriter 1.
Definition r_ i := CReader i.
(** read 0 looks before prewrite 0 publishes, read 1 meets its lock and passes (it will commit at 21 or
    later), read 2 sees what it wrote, read 3 is refused because of prewrite 1 *)
Definition sched2 : list choice :=
  [r_ 0; r_ 0; w0; w0; w0; w0; w1; r_ 0; r_ 0; w0; r_ 1; r_ 1; r_ 1; w0; w0; r_ 1; w0; w1; w0; w0; w1; w1; w1; w1;
   r_ 1; r_ 1; r_ 2; r_ 2; r_ 2; r_ 2; r_ 3; r_ 3; r_ 3; r_ 3].
Example C32_example :
  Forall store_service ws2 /\ Forall covers_for_update ws2 /\
  let s := crun (cinit 10 rs2 ws2) sched2 in
  map rph (rds s) = [RDone []; RDone [0%nat]; RDone [0%nat]; RRefused 2] /\
  map wph (wrs s) = [WEnd; WPub 1] /\ map w_final (wrs s) = [21; 21] /\ maxts s = 30 /\
  published s 1 [2] /\ visible s 1 [2].
Proof.
  assert (G : forall q, store_service q <-> (forall k, In k (all_keys q) -> In k (w_latch q)) /\ w_unlock q = true /\ 0 < w_start_ts q /\
    forall it, In it (w_items q) -> l_ts (i_lock it) = w_start_ts q) by (intros q; reflexivity).
  split.
  { constructor; [|constructor; [|constructor]]; apply G; (split; [cbn; tauto|]); (split; [reflexivity|]); (split; [reflexivity|]);
      intros it I; cbn in I; intuition (subst; reflexivity). }
  split; [constructor; [|constructor; [|constructor]]; intros it I; cbn in I; intuition (subst; cbn; lia)|].
  cbv zeta.
  split; [vm_compute; reflexivity|]. split; [vm_compute; reflexivity|]. split; [vm_compute; reflexivity|]. split; [vm_compute; reflexivity|].
  split.
  - eexists. exists 0%nat. split; [vm_compute; reflexivity|]. split; [reflexivity|]. cbn. lia.
  - do 2 eexists. split; [vm_compute; reflexivity|]. split; [vm_compute; reflexivity|]. repeat split.
Qed.
Print Assumptions C32_example.

(** A read that was answered misses no prewrite: if a prewrite that has written may commit at or below
    the read's timestamp, and one of its locked keys is read, the snapshot of the read contains it. *)
Theorem C32_no_missed : forall ts rs ws sched,
  Forall store_service ws -> Forall covers_for_update ws ->
  let s := crun (cinit ts rs ws) sched in
  forall r snap i w k,
    In r (rds s) -> rph r = RDone snap ->
    nth_error (wrs s) i = Some w -> In i (applied s) -> w_final w <> 0 -> w_final w <= r_ts (rq r) ->
    In k (item_keys (wq w)) -> in_scope (r_scope (rq r)) k -> ~ In (w_start_ts (wq w)) (r_resolved (rq r)) ->
    In i snap.
Proof.
  intros ts rs ws sched F1 F2 s r snap i w k Ir P Hw Ia F0 Fr Ik Sc Nr.
  rewrite Forall_forall in F1, F2.
  exact (no_missed s r i w k snap (run_inv sched _ (init_inv ts rs ws (fun q Iq => conj (F1 q Iq) (F2 q Iq)))) Ir P Hw Ia F0 Fr Ik Sc Nr).
Qed.
Print Assumptions C32_no_missed.

(** A published lock is found by every look-up until the prewrite has written. *)
Theorem C32_visible : forall ts rs ws sched,
  Forall store_service ws -> Forall covers_for_update ws ->
  let s := crun (cinit ts rs ws) sched in
  forall i k, published s i k -> visible s i k.
Proof.
  intros ts rs ws sched F1 F2 s i k P. rewrite Forall_forall in F1, F2.
  exact (visible_published s i k (run_inv sched _ (init_inv ts rs ws (fun q Iq => conj (F1 q Iq) (F2 q Iq)))) P).
Qed.
Print Assumptions C32_visible.

(** When no prewrite is in progress, nothing is published. *)
Theorem C32_unpublished : forall ts rs ws sched,
  Forall store_service ws -> Forall covers_for_update ws ->
  let s := crun (cinit ts rs ws) sched in
  (forall w, In w (wrs s) -> wph w = WIdle \/ wph w = WEnd) -> forall i k, ~ visible s i k.
Proof.
  intros ts rs ws sched F1 F2 s O i k [e [x [G _]]]. rewrite Forall_forall in F1, F2.
  rewrite (empty_when_over s (run_inv sched _ (init_inv ts rs ws (fun q Iq => conj (F1 q Iq) (F2 q Iq))))) in G; [discriminate|].
  intros w Iw. unfold active. destruct (O w Iw) as [-> | ->]; reflexivity.
Qed.
Print Assumptions C32_unpublished.

(** A read is refused only because of a prewrite of one of the keys it reads, whose transaction is not
    among the resolved ones, and which could commit at or below the read's timestamp. *)
Theorem C32_refused : forall ts rs ws sched,
  Forall store_service ws -> Forall covers_for_update ws ->
  let s := crun (cinit ts rs ws) sched in
  forall r e, In r (rds s) -> rph r = RRefused e ->
  exists x w, nth_error (heap (tb s)) e = Some x /\ nth_error (wrs s) (e_owner x) = Some w /\
    In (l_key (e_lock x)) (item_keys (wq w)) /\ in_scope (r_scope (rq r)) (l_key (e_lock x)) /\
    ~ In (w_start_ts (wq w)) (r_resolved (rq r)) /\
    (if 0 <? l_fut (e_lock x) then l_fut (e_lock x) else w_start_ts (wq w)) < r_ts (rq r) /\ l_minc (e_lock x) <= r_ts (rq r).
Proof.
  intros ts rs ws sched F1 F2 s r e Ir P. rewrite Forall_forall in F1, F2.
  exact (refused s r e (run_inv sched _ (init_inv ts rs ws (fun q Iq => conj (F1 q Iq) (F2 q Iq))))
    (run_scoped sched _ (init_inv ts rs ws (fun q Iq => conj (F1 q Iq) (F2 q Iq))) (proj1 (init_scoped ts rs ws)) (proj2 (init_scoped ts rs ws))) Ir P).
Qed.
Print Assumptions C32_refused.

(** A read that has found the lock of a prewrite which has ended in the meantime goes on to the next
    lock: what is over refuses nobody, even if it was found before (no key twice in one request). *)
Theorem C32_over : forall ts rs ws sched,
  Forall store_service ws -> Forall covers_for_update ws -> Forall (fun q => NoDup (item_keys q)) ws ->
  let s := crun (cinit ts rs ws) sched in
  forall i r e es x w, nth_error (rds s) i = Some r -> rph r = RCheck (e :: es) ->
    nth_error (heap (tb s)) e = Some x -> nth_error (wrs s) (e_owner x) = Some w -> wph w = WEnd ->
    exists s', cstep s (CReader i) = Some s' /\ nth_error (rds s') i = Some (mkRd (rq r) (RCheck es)).
Proof.
  intros ts rs ws sched F1 F2 F3 s i r e es x w Hr Pr Hx Hw Pw. rewrite Forall_forall in F1, F2.
  exact (over s i r e es x w (run_inv sched _ (init_inv ts rs ws (fun q Iq => conj (F1 q Iq) (F2 q Iq))))
    (run_live sched _ (init_inv ts rs ws (fun q Iq => conj (F1 q Iq) (F2 q Iq))) (proj1 (init_scoped ts rs ws))
       (proj1 (init_live ts rs ws F3)) (proj2 (init_live ts rs ws F3))) Hr Pr Hx Hw Pw).
Qed.
Print Assumptions C32_over.

Example C32_over_example : let s := crun (cinit 10 rs2 ws2) [w0; w0; w0; w0; w0; r_ 2; r_ 2; w0; w0; w0; w0; w0] in
  map rph (rds s) = [RStart; RStart; RCheck [0%nat]; RStart] /\ map wph (wrs s) = [WEnd; WIdle] /\
  map e_owner (heap (tb s)) = [0%nat; 0%nat] /\ Forall (fun q => NoDup (item_keys q)) ws2.
Proof.
  cbv zeta. split; [vm_compute; reflexivity|]. split; [vm_compute; reflexivity|]. split; [vm_compute; reflexivity|].
  repeat constructor; cbn; intuition discriminate.
Qed.

(** ** outside the provisos *)

(** A prewrite of the vector or document service takes the latch of the decimal id of its mutations (of
    "0" for a delete; index_service.cc:3004-3007, document_service.cc:1676), not of their keys.  A put
    and a delete of the same key then run together, the second hides the lock of the first, and a read
    misses what the first writes at a smaller timestamp. *)
Theorem C32_vector_latch_refuted : exists ts rs ws sched r w k,
  let s := crun (cinit ts rs ws) sched in
  Forall (fun q => w_unlock q = true /\ 0 < w_start_ts q /\ forall it, In it (w_items q) -> l_ts (i_lock it) = w_start_ts q) ws /\
  Forall covers_for_update ws /\
  In r (rds s) /\ rph r = RDone [] /\ nth_error (wrs s) 0 = Some w /\ In 0%nat (applied s) /\
  0 < w_final w /\ w_final w <= r_ts (rq r) /\ In k (item_keys (wq w)) /\ in_scope (r_scope (rq r)) k /\ r_resolved (rq r) = [].
Proof.
  exists 10, [mkR 20 (Keys [[2]]) []],
    [pw [mkI (lk [2] 5 0 6) 0] 5 [[49]] true; pw [mkI (lk [2] 7 0 8) 0] 7 [[48]] true],
    [w0; w0; w0; w0; r_ 0; w1; w1; w1; w1; r_ 0; r_ 0; r_ 0; r_ 0; r_ 0; w0; w0],
    (mkRd (mkR 20 (Keys [[2]]) []) (RDone [])), (mkWt (pw [mkI (lk [2] 5 0 6) 0] 5 [[49]] true) WUnpub 11), [2].
  cbv zeta. split.
  { constructor; [|constructor; [|constructor]]; (split; [reflexivity|]); (split; [reflexivity|]); intros it I; cbn in I; intuition (subst; reflexivity). }
  split; [constructor; [|constructor; [|constructor]]; intros it I; cbn in I; intuition (subst; cbn; lia)|].
  split; [vm_compute; auto|]. split; [reflexivity|]. split; [vm_compute; reflexivity|]. split; [vm_compute; auto|].
  cbn. repeat split; auto; lia.
Qed.
Print Assumptions C32_vector_latch_refuted.

(** The vector and document services never unpublish: after the prewrite is over its lock stays, and
    reads of the key are refused from then on. *)
Theorem C32_vector_unpublish_refuted : exists ts rs ws sched k,
  let s := crun (cinit ts rs ws) sched in
  Forall (fun q => (forall k, In k (all_keys q) -> In k (w_latch q)) /\ 0 < w_start_ts q /\ forall it, In it (w_items q) -> l_ts (i_lock it) = w_start_ts q) ws /\
  Forall covers_for_update ws /\
  map wph (wrs s) = [WEnd] /\ visible s 0 k /\ map rph (rds s) = [RStart] /\
  forall more r, In r (rds (crun s (more ++ [r_ 0; r_ 0; r_ 0; r_ 0]))) -> exists e, rph r = RRefused e.
Proof.
  exists 10, [mkR 20 (Keys [[2]]) []], [pw [mkI (lk [2] 5 0 6) 0] 5 [[2]] false],
    [w0; w0; w0; w0; w0; w0; w0], [2].
  cbv zeta. split.
  { constructor; [|constructor]; (split; [cbn; tauto|]); (split; [reflexivity|]); intros it I; cbn in I; intuition (subst; reflexivity). }
  split; [constructor; [|constructor]; intros it I; cbn in I; intuition (subst; cbn; lia)|].
  split; [vm_compute; reflexivity|].
  split; [do 2 eexists; split; [vm_compute; reflexivity|]; split; [vm_compute; reflexivity|]; repeat split|].
  split; [vm_compute; reflexivity|].
  intros more r I. refine (stuck_refused _ _ _ [2] _ _ _ _ _ _ more r _ I).
  6: { repeat match goal with |- stuck _ _ _ _ _ _ => unfold stuck end.
       split; [vm_compute; reflexivity|]. split; [vm_compute; reflexivity|]. eexists. split; [vm_compute; reflexivity|]. reflexivity. }
  - intros w [<-|[]]. reflexivity.
  - reflexivity.
  - reflexivity.
  - reflexivity.
  - reflexivity.
Qed.
Print Assumptions C32_vector_unpublish_refuted.

(** A prewrite over a pessimistic lock whose for_update_ts is not among the checks of the request: the
    lock's for_update_ts is above the read's timestamp, so the read passes, although the minimal commit
    timestamp, computed without it, is below. *)
Theorem C32_for_update_refuted : exists ts rs ws sched r w k,
  let s := crun (cinit ts rs ws) sched in
  Forall store_service ws /\
  In r (rds s) /\ rph r = RDone [] /\ nth_error (wrs s) 0 = Some w /\ In 0%nat (applied s) /\
  0 < w_final w /\ w_final w <= r_ts (rq r) /\ In k (item_keys (wq w)) /\ in_scope (r_scope (rq r)) k /\ r_resolved (rq r) = [].
Proof.
  exists 10, [mkR 20 (Keys [[2]]) []], [pw [mkI (lk [2] 5 30 6) 0] 5 [[2]] true],
    [w0; w0; w0; w0; r_ 0; r_ 0; r_ 0; r_ 0; r_ 0; r_ 0; w0; w0],
    (mkRd (mkR 20 (Keys [[2]]) []) (RDone [])), (mkWt (pw [mkI (lk [2] 5 30 6) 0] 5 [[2]] true) WUnpub 11), [2].
  cbv zeta. split.
  { constructor; [|constructor]; (split; [cbn; tauto|]); (split; [reflexivity|]); (split; [reflexivity|]); intros it I; cbn in I; intuition (subst; reflexivity). }
  split; [vm_compute; auto|]. split; [reflexivity|]. split; [vm_compute; reflexivity|]. split; [vm_compute; auto|].
  cbn. repeat split; auto; lia.
Qed.
Print Assumptions C32_for_update_refuted.
