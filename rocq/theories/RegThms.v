(** C29, C33-C35, C56-C58: applying the logs of regions. *)
From Coq Require Import ZArith List Bool Lia.
From Verif Require Import Bytes RegModel RegSpec RegProofs RegProofs2 RegProofs3 RegProofs4 RegProofs5 RegProofs6.
Import ListNotations.
Local Open Scope Z_scope.

(** ** A store for the examples *)

Definition ka : bytes := [97].  Definition kb : bytes := [98].  Definition kg : bytes := [103].
Definition kh : bytes := [104]. Definition km : bytes := [109]. Definition kn : bytes := [110].
Definition kz : bytes := [122].

(** Region 1 has [a, m), region 3 has [m, z), region 2 waits to be split off. *)
Definition regs0 : Z -> option region := fun id =>
  if id =? 1 then Some (mkR SNormal 1 5 ka km 0)
  else if id =? 2 then Some (mkR SStandby 1 1 [] [] 0)
  else if id =? 3 then Some (mkR SNormal 1 7 km kz 0) else None.
Definition node0 : node := mkN (fun _ _ => None) regs0 (fun _ => 8) (fun _ => 8).

Definition put (i ver : Z) (k v : bytes) : entry := mkE i 1 ver [QData (DPut 0 [(k, v)])].
Definition split1 : split_req := mkSplit 77 2 kg 5 true.
Definition esplit : entry := mkE 9 1 5 [QSplit split1].
Definition split1p : split_req := mkSplit 77 4 kg 5 false.
Definition esplitp : entry := mkE 9 1 5 [QSplit split1p].

Definition effects (r : ares) : list eff :=
  match r with ADone es _ => es | AAbort es => es | AWait => [] end.

Lemma exclusive0 : exclusive node0.
Proof.
  assert (O : forall i k, owns node0 i k -> (i = 1 /\ inside ka km k) \/ (i = 3 /\ inside km kz k)).
  { intros i k (r & R & A & B). cbn in R. unfold regs0 in R.
    destruct (Z.eqb_spec i 1) as [->|]; [injection R as <-; auto|].
    destruct (Z.eqb_spec i 2) as [->|]; [injection R as <-; destruct A as [A|[A|A]]; discriminate|].
    destruct (Z.eqb_spec i 3) as [->|]; [injection R as <-; auto|discriminate]. }
  intros k i j A B. apply O in A, B.
  destruct (inside_split ka km kz k) as [_ D]; [reflexivity|reflexivity|].
  destruct A as [[-> A]|[-> A]], B as [[-> B]|[-> B]]; auto; exfalso; apply D; auto.
Qed.

Definition after (n : node) (v : event) : node := match step n v with Some x => x | None => n end.

Lemma calm_cons n v rest :
  calm (after n v) rest ->
  match v with
  | VApply _ id e =>
      well_formed e /\ (forall c, e_reqs e = [QCommit c] -> merge_fits n id c) /\
      (forall r, nd_regs n id = Some r -> r_state r <> SNew)
  | VCrash _ _ _ _ => False
  | VCreate _ _ _ _ _ => True
  end -> calm n (v :: rest).
Proof.
  intros A B. cbn [calm]. split; [exact B|]. unfold after in A. destruct (step n v); auto.
Qed.

(** ** C29: crashes while applying data commands *)

(** However often the process dies while applying the log, at whatever write, and is restarted, applying the
    log from its start then gives the data and the regions of one undisturbed pass. *)
Theorem C29_replay_partial : forall id es n nf ctx ps r,
  nd_regs n id = Some r -> Forall plain_data es ->
  nd_applied n id = nd_saved n id -> increasing (nd_applied n id) es ->
  apply_log ctx id es n = Some nf ->
  exists nc nr, crashes id es n ps = Some nc /\ (forall ctx', apply_log ctx' id es nc = Some nr) /\
    same_data nf nr /\ (forall i, nd_regs nr i = nd_regs nf i).
Proof. exact replay_same. Qed.
Print Assumptions C29_replay_partial.

(** Entries 9 to 11 with a put, an overwrite, a range delete and a batch; crashes inside the first and the third. *)
Definition log29 : list entry :=
  [put 9 5 kb [1]; mkE 10 1 5 [QData (DDelRange 0 [(ka, kg)]); QData (DPut 0 [(kh, [2])])];
   mkE 11 1 5 [QData (DMulti [(3, kb, [7])] [(0, kh)]); QData (DPut 0 [(kb, [3])])]].
Example C29_example :
  nd_regs node0 1 <> None /\ Forall plain_data log29 /\ increasing 8 log29 /\
  (exists nf, apply_log (fun _ => true) 1 log29 node0 = Some nf /\ nd_db nf 0 kb = Some [3] /\ nd_db nf 3 kb = Some [7] /\ nd_db nf 0 kh = None) /\
  (exists nc, crashes 1 log29 node0 [(0%nat, 1%nat); (2%nat, 1%nat)] = Some nc /\ nd_db nc 3 kb = Some [7] /\ nd_db nc 0 kb = None /\ nd_applied nc 1 = 10).
Proof.
  split; [discriminate|]. split.
  { repeat (constructor; [repeat (constructor; [eexists; split; [reflexivity|intros ? ?; discriminate]|]); constructor|]). constructor. }
  split; [cbn; lia|]. split; eexists; (split; [reflexivity|]); repeat split; vm_compute; reflexivity.
Qed.

(** A transactional delete-range reads the closure of its proposer.  The leader applies it; after a restart
    (and on every follower) the same entry stops the process. *)
Theorem C29_delete_range_refuted : exists n id e,
  (exists es, on_apply true id e n = ADone es StOk) /\
  forall k es, on_apply true id e n = ADone es StOk -> nd_applied (crash_at n es k) id < e_index e ->
    exists es', on_apply false id e (crash_at n es k) = AAbort es'.
Proof.
  exists node0, 1, (mkE 9 1 5 [QData (DTxnDelRange ka kg)]). split.
  - eexists. vm_compute. reflexivity.
  - intros k es H L. vm_compute in H. injection H as <-.
    destruct k as [|[|[|k]]]; eexists; vm_compute; reflexivity.
Qed.
Print Assumptions C29_delete_range_refuted.

(** ** C33: splits *)

(** An applied split: the data stay, the new region owns exactly the keys below the split key, the old one
    the rest, every key of the old range has exactly one owner, no other owner changes, versions go up. *)
Theorem C33_split : forall ctx id s e n es p,
  e_reqs e = [QSplit s] -> on_apply ctx id e n = ADone es StOk ->
  nd_regs n id = Some p -> sp_ver s = r_ver p ->
  let n' := performs n es in
  same_data n n' /\
  (forall k, owns n' (sp_to s) k <-> inside (r_start p) (sp_key s) k) /\
  (forall k, owns n' id k <-> inside (sp_key s) (r_end p) k) /\
  (forall j k, j <> id -> j <> sp_to s -> (owns n' j k <-> owns n j k)) /\
  (forall k, inside (r_start p) (r_end p) k ->
     (owns n' id k /\ ~ owns n' (sp_to s) k) \/ (owns n' (sp_to s) k /\ ~ owns n' id k)) /\
  (exists p', nd_regs n' id = Some p' /\ r_ver p' = r_ver p + 1) /\
  (forall c0, nd_regs n (sp_to s) = Some c0 ->
     exists c', nd_regs n' (sp_to s) = Some c' /\ r_ver c' = r_ver c0 + 1).
Proof. exact split_owners. Qed.
Print Assumptions C33_split.

(** A split computed for another version of the region changes neither data nor regions. *)
Theorem C33_rejected : forall ctx id s e n es p,
  e_reqs e = [QSplit s] -> on_apply ctx id e n = ADone es StOk ->
  nd_regs n id = Some p -> sp_ver s <> r_ver p ->
  same_data n (performs n es) /\ same_regions n (performs n es).
Proof. exact split_other_version. Qed.
Print Assumptions C33_rejected.

(** Over any sequence of data commands, splits, merges and region creations on a store: if no key had two
    owners, none ever has, and the keys that have an owner stay the same. *)
Theorem C33_partition : forall vs n n', exclusive n -> calm n vs -> run n vs = Some n' ->
  exclusive n' /\ forall k, covered n' k <-> covered n k.
Proof. exact run_partition. Qed.
Print Assumptions C33_partition.

(** Split region 1 at g, create region 5, merge region 1 ([g, m)) into region 3. *)
Definition commit1 : commit_req := mkCommit 88 1 7 kg km [].
Definition events33 : list event :=
  [VApply true 1 (put 9 5 kb [1]); VApply false 1 (mkE 10 1 5 [QSplit split1]);
   VApply false 2 (put 9 2 kb [2]); VCreate 5 1 1 [] [];
   VApply true 1 (mkE 11 1 6 [QPrepare (mkPrep 88 3 1 7)]);
   VApply true 3 (mkE 9 1 7 [QCommit commit1])].
Example C33_example : exclusive node0 /\ calm node0 events33 /\ exists n', run node0 events33 = Some n' /\
  nd_regs n' 1 = Some (mkR STombstone 1 8 (repeat 255 9) km 88) /\
  nd_regs n' 2 = Some (mkR SNormal 1 2 ka kg 0) /\ nd_regs n' 3 = Some (mkR SNormal 1 8 kg kz 88) /\
  nd_db n' 0 kb = Some [2].
Proof.
  split; [exact exclusive0|]. split.
  - repeat (apply calm_cons; [|first [exact I | split; [right; eexists; reflexivity|split;
      [intros c0 C0; try discriminate C0 | intros r0 R0; vm_compute in R0; injection R0 as <-; discriminate]]]]).
    { exact I. }
    { injection C0 as <-. split; [discriminate|]. eexists. eexists. split; [vm_compute; reflexivity|].
      split; [vm_compute; reflexivity|]. split; [right; right; reflexivity|]. split; [left; reflexivity|].
      repeat split; try (vm_compute; reflexivity). left. reflexivity. }
  - eexists. split; [vm_compute; reflexivity|]. repeat split; vm_compute; reflexivity.
Qed.

(** ** C34: merges *)

(** PrepareMerge changes no owner and no data. *)
Theorem C34_prepare : forall ctx id p e n es,
  e_reqs e = [QPrepare p] -> on_apply ctx id e n = ADone es StOk ->
  same_data n (performs n es) /\ forall j k, owns (performs n es) j k <-> owns n j k.
Proof. exact prepare_entry. Qed.
Print Assumptions C34_prepare.

(** CommitMerge: the target owns exactly what the two owned, the source nothing, no other owner changes, and
    the version of the target exceeds its old one and the one of the source. *)
Theorem C34_union : forall ctx id c e n es,
  e_reqs e = [QCommit c] -> on_apply ctx id e n = ADone es StOk -> merge_fits n id c ->
  exists s t, nd_regs n (cm_source c) = Some s /\ nd_regs n id = Some t /\
  let n' := performs n es in
  (forall k, owns n' id k <-> owns n id k \/ owns n (cm_source c) k) /\
  (forall k, ~ owns n' (cm_source c) k) /\
  (forall j k, j <> id -> j <> cm_source c -> (owns n' j k <-> owns n j k)) /\
  (exists t', nd_regs n' id = Some t' /\ r_ver t < r_ver t' /\ cm_ver c < r_ver t').
Proof. exact commit_entry. Qed.
Print Assumptions C34_union.

(** Region 1 is merged into region 3 (the source lies left of the target), and the other way round. *)
Definition commit3 : commit_req := mkCommit 88 1 6 ka km [mkD 9 1 5 [DPut 0 [(kb, [1])]]; mkD 10 1 5 [DPut 0 [(kh, [2])]]].
Definition ecommit : entry := mkE 9 1 7 [QCommit commit3].
Definition commit31 : commit_req := mkCommit 88 3 8 km kz [].
Example C34_example : merge_fits node0 3 commit3 /\ merge_fits node0 1 commit31 /\
  (exists es, on_apply false 3 ecommit node0 = ADone es StOk /\ nd_regs (performs node0 es) 3 = Some (mkR SNormal 1 8 ka kz 88) /\
     nd_db (performs node0 es) 0 kh = Some [2]) /\
  (exists es, on_apply false 1 (mkE 9 1 5 [QCommit commit31]) node0 = ADone es StOk /\
     nd_regs (performs node0 es) 1 = Some (mkR SNormal 1 9 ka kz 88)) /\
  (exists es, on_apply false 1 (mkE 9 1 5 [QPrepare (mkPrep 88 3 1 7)]) node0 = ADone es StOk /\
     nd_regs (performs node0 es) 1 = Some (mkR SMerging 1 6 ka km 88)).
Proof.
  split; [|split; [|split; [|split]]].
  - split; [discriminate|]. do 2 eexists. split; [reflexivity|]. split; [reflexivity|].
    repeat split; try reflexivity; left; reflexivity.
  - split; [discriminate|]. do 2 eexists. split; [reflexivity|]. split; [reflexivity|].
    split; [left; reflexivity|]. split; [left; reflexivity|]. repeat split; try reflexivity. right. reflexivity.
  - eexists. split; [vm_compute; reflexivity|]. split; vm_compute; reflexivity.
  - eexists. split; vm_compute; reflexivity.
  - eexists. split; vm_compute; reflexivity.
Qed.

(** ** C56: what the source had not applied yet *)

(** A replica has applied only [a] of the source's entries [a ++ b] when CommitMerge brings them: it ends with
    the data of a replica that applied them all one by one, and applies none of them again. *)
Theorem C56_hand_over_partial : forall ctx ctx' id c e a b n nf n1 es r,
  cm_source c <> id -> nd_regs n (cm_source c) = Some r -> alive (r_state r) ->
  cm_entries c = a ++ b ->
  Forall (takes r) (a ++ b) -> increasing (nd_applied n (cm_source c)) (map entry_of (a ++ b)) ->
  apply_log ctx (cm_source c) (map entry_of (a ++ b)) n = Some nf ->
  apply_log ctx (cm_source c) (map entry_of a) n = Some n1 ->
  e_reqs e = [QCommit c] -> on_apply ctx' id e n1 = ADone es StOk ->
  same_data nf (performs n1 es) /\
  apply_log ctx (cm_source c) (map entry_of (a ++ b)) (performs n1 es) = Some (performs n1 es).
Proof. exact merge_hands_over. Qed.
Print Assumptions C56_hand_over_partial.

Example C56_example : let r := mkR SNormal 1 5 ka km 0 in
  nd_regs node0 1 = Some r /\ Forall (takes r) (cm_entries commit3) /\
  increasing 8 (map entry_of (cm_entries commit3)) /\
  exists n1 es, apply_log (fun _ => false) 1 (map entry_of (firstn 1 (cm_entries commit3))) node0 = Some n1 /\
    on_apply false 3 ecommit n1 = ADone es StOk /\ nd_db n1 0 kh = None /\
    nd_db (performs n1 es) 0 kb = Some [1] /\ nd_db (performs n1 es) 0 kh = Some [2].
Proof.
  cbv zeta. split; [reflexivity|]. split.
  { repeat (constructor; [split; [reflexivity|]; split; [discriminate|]; split; [reflexivity|]; split; [reflexivity|];
      constructor; [intros ? ?; discriminate|constructor]|]). constructor. }
  split; [cbn; lia|].
  do 2 eexists. split; [vm_compute; reflexivity|]. split; [vm_compute; reflexivity|]. repeat split; vm_compute; reflexivity.
Qed.

(** Without the condition that the entries carry the source's epoch: the source (region 1, already split, now
    [g, m)) has in its log a put for key b that was proposed before the split.  A replica that applies it from
    the log refuses it; one that gets it with CommitMerge writes it, over the data of region 2, which owns b. *)
Definition node56 : node :=
  mkN (fun cf k => if (cf =? 0) && beqb k kb then Some [5] else None)
      (fun id => if id =? 1 then Some (mkR SNormal 1 6 kg km 0)
                 else if id =? 2 then Some (mkR SNormal 1 2 ka kg 0)
                 else if id =? 3 then Some (mkR SNormal 1 7 km kz 0) else None)
      (fun _ => 8) (fun _ => 8).
Theorem C56_stale_refuted : exists n c e, merge_fits n 3 c /\ e_reqs e = [QCommit c] /\ owns n 2 kb /\
  (let early := fold_left (fun m x => after m (VApply false 1 x)) (map entry_of (cm_entries c)) n in
   nd_db (after early (VApply false 3 e)) 0 kb = nd_db n 0 kb /\
   nd_db (after n (VApply false 3 e)) 0 kb <> nd_db n 0 kb).
Proof.
  exists node56, (mkCommit 88 1 7 kg km [mkD 9 1 5 [DPut 0 [(kb, [1])]]]),
    (mkE 9 1 7 [QCommit (mkCommit 88 1 7 kg km [mkD 9 1 5 [DPut 0 [(kb, [1])]]])]).
  split; [|split; [reflexivity|split]].
  - split; [discriminate|]. do 2 eexists. split; [reflexivity|]. split; [reflexivity|].
    repeat split; try reflexivity; left; reflexivity.
  - eexists. split; [reflexivity|]. split; [left; reflexivity|]. split; [discriminate|reflexivity].
  - cbv zeta. split; [vm_compute; reflexivity|]. vm_compute. discriminate.
Qed.
Print Assumptions C56_stale_refuted.

(** ** C35: stale commands *)

(** A command with another epoch, or for a region that is being merged away or deleted, writes nothing and is
    not answered OK. *)
Theorem C35_refused : forall ctx id e n r es st,
  nd_regs n id = Some r ->
  (refused_state (r_state r) = true \/ e_conf e <> r_conf r \/ e_ver e <> r_ver r) ->
  on_apply ctx id e n = ADone es st ->
  st <> StOk /\ same_data n (performs n es) /\ (forall j, nd_regs (performs n es) j = nd_regs n j).
Proof. exact refused_changes_nothing. Qed.
Print Assumptions C35_refused.

(** Over any events, crashes included, a region's version never goes down, and its range changes only with it. *)
Theorem C35_version : forall n vs n' id r r', run n vs = Some n' ->
  nd_regs n id = Some r -> nd_regs n' id = Some r' ->
  r_ver r <= r_ver r' /\ (r_ver r' = r_ver r -> r_start r' = r_start r /\ r_end r' = r_end r).
Proof. exact version_fixes_range. Qed.
Print Assumptions C35_version.

(** So a command checked against the range when it was proposed, and applied after any other events, writes
    only keys that the region owns when it is applied. *)
Theorem C35_inside : forall n vs n' ctx id e r es cf k,
  nd_regs n id = Some r -> e_conf e = r_conf r -> e_ver e = r_ver r -> data_entry e ->
  (forall d x, In (QData d) (e_reqs e) -> names d x -> inside (r_start r) (r_end r) x) ->
  run n vs = Some n' -> on_apply ctx id e n' = ADone es StOk ->
  exists r', nd_regs n' id = Some r' /\
    (~ inside (r_start r') (r_end r') k -> nd_db (performs n' es) cf k = nd_db n' cf k).
Proof. exact writes_stay_inside. Qed.
Print Assumptions C35_inside.

(** A put to b proposed at version 5 is refused after the split, and so is any command of a merging region;
    a put is accepted after an unrelated crash. *)
Example C35_example :
  (let n' := after node0 (VApply false 1 esplit) in
   on_apply true 1 (put 10 5 kb [1]) n' = ADone [EMem 1 10; ESaved 1 10] StVersion /\
   (exists es, on_apply true 1 (put 10 6 kh [1]) n' = ADone es StOk /\ nd_db (performs n' es) 0 kh = Some [1])) /\
  (let n' := after node0 (VApply false 1 (mkE 9 1 5 [QPrepare (mkPrep 88 3 1 7)])) in
   on_apply true 1 (put 11 6 kb [1]) n' = ADone [EMem 1 11] StUnavailable) /\
  (exists n', run node0 [VCrash true 3 (put 9 7 kn [4]) 1] = Some n' /\ exists es, on_apply false 1 (put 9 5 kb [1]) n' = ADone es StOk).
Proof.
  split; [|split]; cbv zeta.
  - split; [vm_compute; reflexivity|]. eexists. split; vm_compute; reflexivity.
  - vm_compute. reflexivity.
  - eexists. split; [vm_compute; reflexivity|]. eexists. vm_compute. reflexivity.
Qed.

(** ** C57: crashes inside a split or a merge *)

(** A crash inside a split that comes before any version was written, or after all regions were, is repaired
    by applying the entry again. *)
Theorem C57_split_partial : forall ctx ctx' id s e n es p k,
  e_reqs e = [QSplit s] -> sp_pre s = true -> on_apply ctx id e n = ADone es StOk ->
  nd_regs n id = Some p -> r_state p = SNormal -> sp_ver s = r_ver p ->
  nd_saved n id <= nd_applied n id ->
  let nc := crash_at n es k in let nf := performs n es in
  ((forall j r r', nd_regs n j = Some r -> nd_regs nc j = Some r' -> r_ver r' = r_ver r) \/
   (forall j, nd_regs nc j = nd_regs nf j)) ->
  exists n', apply ctx' id e nc = Some n' /\ (forall j, nd_regs n' j = nd_regs nf j) /\ same_data nf n'.
Proof. exact split_crash. Qed.
Print Assumptions C57_split_partial.

Definition nf57 : node := after node0 (VApply true 1 esplit).
Definition nc57 (k : nat) : node := after node0 (VCrash true 1 esplit k).
Example C57_example : (exists es, on_apply true 1 esplit node0 = ADone es StOk /\ (length es = 8)%nat) /\
  (forall j r r', nd_regs node0 j = Some r -> nd_regs (nc57 2) j = Some r' -> r_ver r' = r_ver r) /\
  nd_regs (nc57 2) 1 = Some (mkR SSplitting 1 5 ka km 77) /\
  (forall j, nd_regs (nc57 6) j = nd_regs nf57 j).
Proof.
  split; [eexists; split; vm_compute; reflexivity|]. split; [|split; [vm_compute; reflexivity|intros j; reflexivity]].
  intros j r r' H H'. cbn in H, H'. unfold zput, regs0 in *.
  destruct (j =? 1); [injection H as <-; injection H' as <-; reflexivity|].
  destruct (j =? 2); [congruence|]. destruct (j =? 3); congruence.
Qed.

(** The crash comes after the new region's version was written: the replay writes it again, the new region has
    version 3 here and 2 elsewhere, and the commands of all its other replicas are refused here. *)
Theorem C57_version_refuted : let n' := after (nc57 3) (VApply false 1 esplit) in
  nd_regs nf57 2 = Some (mkR SNormal 1 2 ka kg 0) /\ nd_regs n' 2 = Some (mkR SNormal 1 3 ka kg 0) /\
  nd_db (after nf57 (VApply false 2 (put 9 2 kb [1]))) 0 kb = Some [1] /\
  nd_db (after n' (VApply false 2 (put 9 2 kb [1]))) 0 kb = None.
Proof. cbv zeta. split; [|split; [|split]]; vm_compute; reflexivity. Qed.
Print Assumptions C57_version_refuted.

(** The crash comes after the old region's version was written: the replay is refused for its version, the new
    region stays standby and applies nothing, and the keys below the split key have no owner. *)
Theorem C57_standby_refuted : let n' := after (nc57 5) (VApply false 1 esplit) in
  owns node0 1 kb /\ owns nf57 2 kb /\ ~ covered n' kb /\
  nd_regs n' 2 = Some (mkR SStandby 1 2 ka kg 0) /\ on_apply false 2 (put 9 2 kb [1]) n' = AWait.
Proof.
  cbv zeta. split; [|split; [|split; [|split; vm_compute; reflexivity]]].
  - eexists. split; [reflexivity|]. split; [left; reflexivity|]. split; [discriminate|reflexivity].
  - eexists. split; [vm_compute; reflexivity|]. split; [left; reflexivity|]. split; [discriminate|reflexivity].
  - intros (j & r & R & A & B). 
    assert (E : nd_regs (after (nc57 5) (VApply false 1 esplit)) j =
                if j =? 2 then Some (mkR SStandby 1 2 ka kg 0)
                else if j =? 1 then Some (mkR SNormal 1 6 kg km 77) else regs0 j).
    { cbn. unfold zput, regs0. destruct (Z.eqb_spec j 2) as [->|]; [reflexivity|]. destruct (j =? 1); reflexivity. }
    rewrite E in R. destruct (Z.eqb_spec j 2).
    { injection R as <-. destruct A as [A|[A|A]]; discriminate. }
    unfold regs0 in R. destruct (Z.eqb_spec j 1).
    { injection R as <-. destruct B as [B _]. apply B. reflexivity. }
    destruct (Z.eqb_spec j 2); [contradiction|]. destruct (Z.eqb_spec j 3); [|discriminate].
    injection R as <-. destruct B as [B _]. apply B. reflexivity.
Qed.
Print Assumptions C57_standby_refuted.

(** A split that creates its region: the crash comes after the region was created; at every replay the process
    stops, because the region is there already. *)
Theorem C57_abort_refuted : let nc := after node0 (VCrash true 1 esplitp 5) in
  (exists es, on_apply true 1 esplitp node0 = ADone es StOk) /\
  forall k, exists es, on_apply false 1 esplitp nc = AAbort es /\
    exists es', on_apply false 1 esplitp (crash_at nc es k) = AAbort es'.
Proof.
  cbv zeta. split; [eexists; vm_compute; reflexivity|].
  intros k. eexists. split; [vm_compute; reflexivity|].
  destruct k as [|[|k]]; eexists; vm_compute; reflexivity.
Qed.
Print Assumptions C57_abort_refuted.

(** CommitMerge: the crash comes after the target's range was written: the replay is refused for its version,
    the source stays merging with its range, and its keys have two owners for good. *)
Definition node57 : node := after node0 (VApply true 1 (mkE 9 1 5 [QPrepare (mkPrep 88 3 1 7)])).
Definition ecommit57 : entry := mkE 9 1 7 [QCommit (mkCommit 88 1 6 ka km [])].
Theorem C57_merge_refuted : exists k, let n' := after (after node57 (VCrash true 3 ecommit57 k)) (VApply false 3 ecommit57) in
  (exists es, on_apply true 3 ecommit57 node57 = ADone es StOk) /\
  ~ owns (after node57 (VApply true 3 ecommit57)) 1 kb /\ owns n' 1 kb /\ owns n' 3 kb.
Proof.
  exists 2%nat. cbv zeta. split; [eexists; vm_compute; reflexivity|]. split; [|split].
  - intros (r & R & A & _). vm_compute in R. injection R as <-. destruct A as [A|[A|A]]; discriminate.
  - eexists. split; [vm_compute; reflexivity|]. split; [right; right; reflexivity|]. split; [discriminate|reflexivity].
  - eexists. split; [vm_compute; reflexivity|]. split; [left; reflexivity|]. split; [discriminate|reflexivity].
Qed.
Print Assumptions C57_merge_refuted.

(** ** C58: replicas that apply the logs of several regions in different orders *)

(** Data commands: two stores that apply the same logs, interleaved differently, end with the same data. *)
Theorem C58_data_partial : forall n vs1 vs2 n1 n2, exclusive n ->
  Forall (in_range n) vs1 -> Forall (in_range n) vs2 ->
  (forall j, log_of j vs1 = log_of j vs2) ->
  run n vs1 = Some n1 -> run n vs2 = Some n2 -> same_data n1 n2.
Proof. exact interleavings_agree. Qed.
Print Assumptions C58_data_partial.

Example C58_example : let vs1 := [VApply true 1 (put 9 5 kb [1]); VApply false 3 (put 9 7 kn [2]); VApply true 1 (put 10 5 kb [3])] in
  let vs2 := [VApply false 1 (put 9 5 kb [1]); VApply false 1 (put 10 5 kb [3]); VApply true 3 (put 9 7 kn [2])] in
  exclusive node0 /\ Forall (in_range node0) vs1 /\ Forall (in_range node0) vs2 /\ (forall j, log_of j vs1 = log_of j vs2) /\
  exists n1, run node0 vs1 = Some n1 /\ nd_db n1 0 kb = Some [3] /\ nd_db n1 0 kn = Some [2].
Proof.
  assert (X : forall ctx id i ver k v r, nd_regs node0 id = Some r -> r_state r <> SNew -> inside (r_start r) (r_end r) k ->
    in_range node0 (VApply ctx id (put i ver k v))).
  { intros ctx id i ver k v r R S B. split.
    - constructor; [|constructor]. eexists. split; [reflexivity|]. intros ? ?; discriminate.
    - exists r. split; auto. split; auto. intros d x [D|[]] N. injection D as <-.
      destruct N as (w & [E|[]]). injection E as <- <-. auto. }
  cbv zeta. split; [exact exclusive0|]. split; [|split; [|split]].
  - repeat (constructor; [eapply X; [reflexivity|discriminate|split; [discriminate|reflexivity]]|]). constructor.
  - repeat (constructor; [eapply X; [reflexivity|discriminate|split; [discriminate|reflexivity]]|]). constructor.
  - intros j. cbn [log_of]. destruct (Z.eqb_spec 1 j), (Z.eqb_spec 3 j); auto; congruence.
  - eexists. split; [vm_compute; reflexivity|]. split; vm_compute; reflexivity.
Qed.

(** PrepareMerge looks at the target's epoch, which another log moves: a store that has applied the split of
    the target first ignores the merge, one that has not stops the source; the next put differs. *)
Theorem C58_prepare_refuted : exists n vs1 vs2 n1 n2 e,
  (forall j, log_of j vs1 = log_of j vs2) /\ run n vs1 = Some n1 /\ run n vs2 = Some n2 /\
  nd_db (after n1 (VApply false 1 e)) 0 kb <> nd_db (after n2 (VApply false 1 e)) 0 kb.
Proof.
  pose (p := VApply false 1 (mkE 9 1 5 [QPrepare (mkPrep 88 3 1 7)])).
  pose (q := VApply false 3 (mkE 9 1 7 [QSplit (mkSplit 77 2 kn 7 true)])).
  exists node0, [p; q], [q; p]. do 2 eexists. exists (put 10 5 kb [1]).
  split; [|split; [vm_compute; reflexivity|split; [vm_compute; reflexivity|vm_compute; discriminate]]].
  intros j. unfold p, q. cbn [log_of]. destruct (Z.eqb_spec 1 j), (Z.eqb_spec 3 j); auto; congruence.
Qed.
Print Assumptions C58_prepare_refuted.
