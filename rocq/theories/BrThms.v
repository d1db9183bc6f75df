(** Backup and restore: the properties C125-C133. *)
From Coq Require Import ZArith List Bool Lia.
From Verif Require Import Bytes SMap Outcome TxnModel TxnSpec TxnBase TxnDemo TxnReadModel TxnReadSpec TxnReadThms
  BrModel BrSpec BrProofs BrProofs2 BrProofs3 BrProofs4 BrDemo.
Import ListNotations.
Open Scope Z_scope.

(** ** C125 what the backup of a region holds *)
(** The record file holds exactly, for each key of the range, the record a read at the backup's
    timestamp would use; the data file holds exactly the values these records refer to. *)
Theorem C125_backup_exact : forall s tso a b fw fd, store_ok s -> a <> [] -> backup_txn s tso a b = BOk fw fd ->
  (forall k t w, get vcmp fw (k, t) = Some w <-> in_range a b k /\ newest s SI tso k t w) /\
  (forall k st v, get vcmp fd (k, st) = Some v <->
     data_at s k st = Some v /\ exists t w, in_range a b k /\ newest s SI tso k t w /\ w_start w = st).
Proof. exact backup_exact. Qed.
Print Assumptions C125_backup_exact.

(** It is refused exactly when such a record's transaction still holds the key's lock ... *)
Theorem C125_backup_refused : forall s tso a b, store_ok s -> a <> [] ->
  (backup_txn s tso a b = BLocked <->
   exists k t w, in_range a b k /\ newest s SI tso k t w /\ holds s k (w_start w)).
Proof. exact backup_refused. Qed.
Print Assumptions C125_backup_refused.

(** ... which requests cannot bring about. *)
Theorem C125_backup_succeeds : forall c P g tso a b, plan_ok P -> reachable c P g -> a <> [] ->
  exists fw fd, backup_txn (rg_store g) tso a b = BOk fw fd.
Proof. exact backup_succeeds. Qed.
Print Assumptions C125_backup_succeeds.

(** The file of a plain region holds exactly the newest stored version at or below the timestamp
    of each key, deletions and expiring values included. *)
Theorem C125_plain_exact : forall m tso a b f, sorted vcmp m -> a <> [] -> backup_plain m tso a b = Ok f ->
  forall k t v, get vcmp f (k, t) = Some v <-> in_range a b k /\ newest_plain m tso k t v.
Proof. exact backup_plain_exact. Qed.
Print Assumptions C125_plain_exact.
Theorem C125_plain_runs : forall m tso a b, sorted vcmp m -> a <> [] ->
  (forall k t v, get vcmp m (k, t) = Some v -> flag_ok v = true) -> exists f, backup_plain m tso a b = Ok f.
Proof. exact backup_plain_runs. Qed.
Print Assumptions C125_plain_runs.

(** a region with a large value, a deletion and a later overwrite; at 27 and at 60 *)
Example C125_example : reachable default_cfg PR gR /\
  files_of (backup_txn (rg_store gR) 27 kA kE) <> files_of (backup_txn (rg_store gR) 60 kA kE) /\
  get vcmp (fst (files_of (backup_txn (rg_store gR) 27 kA kE))) (kC, 15) = Some (mkW 10 OpPut []) /\
  get vcmp (snd (files_of (backup_txn (rg_store gR) 27 kA kE))) (kC, 10) = Some big /\
  (exists w, get vcmp (fst (files_of (backup_txn (rg_store gR) 60 kA kE))) (kC, 35) = Some w /\ w_op w = OpDelete).
Proof.
  split; [exact reach_R|]. split; [vm_compute; discriminate|]. split; [vm_compute; reflexivity|]. split; [vm_compute; reflexivity|].
  eexists. split; vm_compute; reflexivity.
Qed.
Example C125_plain_example : sorted vcmp plain0 /\
  backup_plain plain0 8 kA kE = Ok [((kA, 5), [1; 0]); ((kB, 7), [4; 1])] /\
  backup_plain plain0 9 kA kE = Ok [((kA, 9), [2]); ((kB, 7), [4; 1])].
Proof.
  split; [repeat apply (sorted_put vcmp vcmp_ok); constructor|]. split; vm_compute; reflexivity.
Qed.

(** ** C126 backup and restore *)
(** After a restore whose raft writes were all accepted - the first one, or one after any number of
    attempts that failed anywhere - the region holds the files and otherwise what it held. *)
Theorem C126_restored : forall sz ms mc s tso a b fw fd envs env r,
  backup_txn s tso a b = BOk fw fd -> all_accepted (writes_of sz ms mc fw fd) env ->
  exists y, read_and_restore true (writes_of sz ms mc fw fd) env (attempts (writes_of sz ms mc fw fd) envs r) = (y, 0) /\
            holds_files fw fd r y.
Proof. exact restore_after_attempts. Qed.
Print Assumptions C126_restored.

(** A region that holds the files of a backup in an otherwise blank range answers every read at or
    after the backup's timestamp as the source answers one at that timestamp. *)
Theorem C126_reads : forall s tso a b fw fd r y, store_ok s -> a <> [] -> backup_txn s tso a b = BOk fw fd ->
  blank r a b -> holds_files fw fd r y ->
  forall i ts k v, in_range a b k -> tso <= sees_up_to i ts -> (reads y i ts k v <-> reads s SI tso k v).
Proof. exact restored_reads. Qed.
Print Assumptions C126_reads.

(** The same for the answers themselves: what a get of the source at the timestamp returned, a get
    of the restored region returns. *)
Theorem C126_get : forall sz ms mc c P g tso a b fw fd env envs r y i ts rs rs' k v,
  plan_ok P -> reachable c P g -> a <> [] -> tso <= kMaxVer ->
  backup_txn (rg_store g) tso a b = BOk fw fd ->
  store_ok r -> values_there r -> blank r a b ->
  all_accepted (writes_of sz ms mc fw fd) env ->
  read_and_restore true (writes_of sz ms mc fw fd) env (attempts (writes_of sz ms mc fw fd) envs r) = (y, 0) ->
  in_range a b k -> tso <= sees_up_to i ts -> ts <= kMaxVer ->
  get_key (rg_store g) SI tso rs k = RdVal v -> get_key y i ts rs' k = RdVal v.
Proof. exact restored_get. Qed.
Print Assumptions C126_get.

Example C126_example :
  backup_txn (rg_store gR) 27 kA kE = BOk fw27 fd27 /\ (3 <= length writes27)%nat /\
  store_ok empty_store /\ values_there empty_store /\ blank empty_store kA kE /\ all_accepted writes27 accept /\
  (exists v, v <> [] /\ get_key (rg_store gR) SI 27 [] kC = RdVal v /\
     get_key (fst (read_and_restore true writes27 accept (attempts writes27 [flaky] empty_store))) SI 90 [] kC = RdVal v /\
     get_key (rg_store gR) SI 90 [] kC <> RdVal v).
Proof.
  split; [vm_compute; reflexivity|]. split; [vm_compute; lia|]. split; [exact store_ok_empty|].
  split; [intros k t w H; discriminate|]. split; [intros k _; split; [reflexivity|intros t; split; reflexivity]|].
  split; [intros n _; reflexivity|]. exists big. split; [discriminate|]. split; [vm_compute; reflexivity|].
  split; [vm_compute; reflexivity|]. vm_compute. discriminate.
Qed.

(** ** C127 the backups of several regions are one state of the database *)
(** When each region's snapshot is taken after the locks of transactions that started by the
    backup's timestamp are gone from it, the backup of a region shows what a read at the timestamp
    shows at any later time, whatever was committed in between. *)
Theorem C127_consistent_partial : forall reg es s r g tso k v, bhist (locks_resolved reg) init_bk es s ->
  In (r, g) (b_snaps s) -> b_tso s = Some tso -> reg k = r ->
  (reads g SI tso k v <-> reads (b_store s) SI tso k v).
Proof. exact cut_reads. Qed.
Print Assumptions C127_consistent_partial.

(** A transaction is in the backups of all its regions or of none. *)
Theorem C127_all_or_nothing_partial : forall reg es s tso i x c, bhist (locks_resolved reg) init_bk es s -> b_tso s = Some tso ->
  nth_error (b_txns s) i = Some x -> x_ct x = Some c -> x_done x <> [] ->
  (c <= tso -> forall k g, In k (x_keys x) -> In (reg k, g) (b_snaps s) -> has_write g tso k c) /\
  (tso < c -> forall k g t w, In (reg k, g) (b_snaps s) -> newest g SI tso k t w -> w_start w <> x_start x).
Proof.
  exact (fun reg es s tso i x c H T X C N =>
    conj (cut_shown reg es s tso i x c H T X C N) (proj2 (cut_whole reg es s tso i x c H T X C N))).
Qed.
Print Assumptions C127_all_or_nothing_partial.

(** the full claim, and why the locks have to be gone: both backups succeed, the transaction's
    commit timestamp is not above theirs, and only one of them has it *)
Definition always_consistent : Prop := forall reg es s r g tso k v, bhist any_time init_bk es s ->
  In (r, g) (b_snaps s) -> b_tso s = Some tso -> reg k = r -> (reads g SI tso k v <-> reads (b_store s) SI tso k v).
Theorem C127_torn_refuted : exists s g0 g1, bhist any_time init_bk torn s /\ b_tso s = Some 3 /\
  In (0%nat, g0) (b_snaps s) /\ In (1%nat, g1) (b_snaps s) /\
  (exists fw fd, backup_txn g0 3 kA kE = BOk fw fd /\ get vcmp fw (kA, 3) = Some (mkW 2 OpPut [])) /\
  (exists fw fd, backup_txn g1 3 kB kE = BOk fw fd /\ get vcmp fw (kB, 3) = None) /\
  write_at (b_store s) kB 3 = Some (mkW 2 OpPut []).
Proof.
  destruct (brun init_bk torn) as [s|] eqn:E; [|vm_compute in E; discriminate].
  exists s. assert (H := brun_hist _ _ _ E). vm_compute in E. injection E as <-.
  eexists. eexists. split; [exact H|]. split; [reflexivity|]. split; [left; reflexivity|]. split; [right; left; reflexivity|].
  split; [do 2 eexists; split; vm_compute; reflexivity|]. split; [do 2 eexists; split; vm_compute; reflexivity|]. vm_compute. reflexivity.
Qed.
Print Assumptions C127_torn_refuted.
Theorem C127_consistent_refuted : ~ always_consistent.
Proof.
  intros A. destruct (brun init_bk torn) as [s|] eqn:E; [|vm_compute in E; discriminate].
  assert (H := brun_hist _ _ _ E). vm_compute in E. injection E as <-.
  specialize (A reg0 torn _ 1%nat _ 3 kB [8] H (or_intror (or_introl eq_refl)) eq_refl eq_refl). destruct A as [_ A].
  destruct A as [(t & w & (W & _) & _)|[(t & w & (W & _) & _)|[_ B]]].
  - left. exists 3, (mkW 2 OpPut []). split.
    + split; [vm_compute; reflexivity|]. split; [simpl; lia|]. split; [discriminate|].
      intros t' w' W B. simpl in B. lia.
    + split; [reflexivity|]. right. split; vm_compute; reflexivity.
  - unfold write_at in W. simpl in W. destruct (bcmp kB kA) eqn:Q in W; vm_compute in Q; discriminate.
  - unfold write_at in W. simpl in W. destruct (bcmp kB kA) eqn:Q in W; vm_compute in Q; discriminate.
  - discriminate.
Qed.
Print Assumptions C127_consistent_refuted.

(** a history within the proviso: one transaction below, one above the timestamp, two regions *)
Example C127_example : exists s g0 g1, bhist (locks_resolved reg0) init_bk settled s /\ b_tso s = Some 3 /\
  In (0%nat, g0) (b_snaps s) /\ In (1%nat, g1) (b_snaps s) /\ length (b_txns s) = 2%nat /\
  write_at g0 kA 3 = Some (mkW 2 OpPut []) /\ write_at g1 kB 3 = Some (mkW 2 OpPut []) /\ write_at (b_store s) kB 5 = Some (mkW 4 OpPut []).
Proof.
  destruct (settled_hist settled init_bk) as (s & H & R); [constructor|vm_compute; reflexivity|].
  exists s. vm_compute in R. injection R as <-. eexists. eexists. split; [exact H|]. split; [reflexivity|].
  split; [left; reflexivity|]. split; [right; left; reflexivity|]. split; [reflexivity|].
  split; [vm_compute; reflexivity|]. split; [vm_compute; reflexivity|]. vm_compute. reflexivity.
Qed.

(** ** C128 a restore that answers OK has restored *)
Definition restore_complete_if_ok : Prop := forall sz ms mc s tso a b fw fd env r y,
  backup_txn s tso a b = BOk fw fd -> read_and_restore true (writes_of sz ms mc fw fd) env r = (y, 0) -> holds_files fw fd r y.
(** It has when no raft write was refused. *)
Theorem C128_restored_partial : forall sz ms mc s tso a b fw fd env r y,
  backup_txn s tso a b = BOk fw fd -> all_accepted (writes_of sz ms mc fw fd) env ->
  read_and_restore true (writes_of sz ms mc fw fd) env r = (y, 0) -> holds_files fw fd r y.
Proof.
  exact (fun sz ms mc s tso a b fw fd env r y B A E =>
    match restore_after_attempts sz ms mc s tso a b fw fd [] env r B A with
    | ex_intro _ y' (conj E' H) => eq_ind y' (holds_files fw fd r) H y (f_equal fst (eq_trans (eq_sym E') E)) end).
Qed.
Print Assumptions C128_restored_partial.
(** But the answer is OK whatever becomes of the writes, even when every one of them is refused. *)
Theorem C128_always_ok : forall bs env r, snd (read_and_restore true bs env r) = 0.
Proof. exact always_ok. Qed.
Print Assumptions C128_always_ok.
Theorem C128_restored_refuted : ~ restore_complete_if_ok.
Proof.
  intros A. specialize (A one_byte 100 1 (rg_store gR) 27 kA kE fw27 fd27 (fun _ => WFail EPERM false) empty_store empty_store eq_refl eq_refl).
  destruct A as (_ & W & _). specialize (W kC 15). vm_compute in W. discriminate.
Qed.
Print Assumptions C128_restored_refuted.
(** even inside: a refused write that is not the last is passed over unless the error is EPERM *)
Theorem C128_passed_over_refuted : exists y, send writes27 flaky 0 empty_store = (y, 0) /\ ~ holds_files fw27 fd27 empty_store y.
Proof.
  exists (fst (send writes27 flaky 0 empty_store)). split; [vm_compute; reflexivity|]. intros (_ & W & _).
  specialize (W kC 15). vm_compute in W. discriminate.
Qed.
Print Assumptions C128_passed_over_refuted.

(** ** C129 files that changed are refused *)
(** If a listed file is missing, is not a regular file or has another content, the restore is
    refused before anything is written.  [sum] is the checksum; what is asked of it is that the
    content found does not collide with the one backed up. *)
Theorem C129_altered_refused : forall sum cfs decode d files env s n cf c,
  In (n, cf, c) files -> d n <> File c -> (forall c', d n = File c' -> sum c' = sum c -> c' = c) ->
  restore_request sum cfs decode d (metas_of sum files) env s = (s, EBACKUP).
Proof. exact altered_refused. Qed.
Print Assumptions C129_altered_refused.
(** Files that did not change are read. *)
Theorem C129_intact_read : forall sum cfs decode d files env s,
  (forall f, In f files -> intact d f /\ In (snd (fst f)) cfs) ->
  restore_request sum cfs decode d (metas_of sum files) env s =
  match decode (map snd files) with
  | Some bs => read_and_restore true bs env s
  | None => read_and_restore false [] env s
  end.
Proof. exact intact_passes. Qed.
Print Assumptions C129_intact_read.
(** A restore that answers OK has read the contents that were backed up. *)
Theorem C129_accepted_intact : forall sum cfs decode d files env s s1,
  (forall f c', In f files -> d (fst (fst f)) = File c' -> sum c' = sum (snd f) -> c' = snd f) ->
  restore_request sum cfs decode d (metas_of sum files) env s = (s1, 0) ->
  forall f, In f files -> intact d f.
Proof. exact accepted_intact. Qed.
Print Assumptions C129_accepted_intact.
Example C129_example :
  (forall f, In f files0 -> intact disk0 f /\ In (snd (fst f)) [[119]; [100]]) /\
  data_at (fst (restore_request sum0 [[119]; [100]] decode0 disk0 (metas_of sum0 files0) accept empty_store)) [8] 1 = Some [8] /\
  disk1 [1] <> File [5; 6; 7] /\
  restore_request sum0 [[119]; [100]] decode0 disk1 (metas_of sum0 files0) accept empty_store = (empty_store, EBACKUP).
Proof.
  split; [intros f [<-|[<-|[]]]; split; simpl; auto; vm_compute; reflexivity|]. split; [vm_compute; reflexivity|].
  split; [vm_compute; discriminate|]. vm_compute. reflexivity.
Qed.

(** ** C130 a backup that ends well has every region *)
(** If no request failed, the tool ends well and has saved exactly the regions it was given;
    if it reports an error, a request failed. *)
Theorem C130_covers_partial : forall jobs es s, lrun (init_tool jobs) es = Some s -> no_request_failed es -> forall b, l_ret s = Some b ->
  b = true /\ forall r, In r (l_saved s) <-> In r (concat jobs).
Proof. exact tool_covers. Qed.
Print Assumptions C130_covers_partial.
Theorem C130_error_partial : forall jobs es s, lrun (init_tool jobs) es = Some s -> l_ret s = Some false -> exists t, In (LAnswer t false) es.
Proof. exact tool_error. Qed.
Print Assumptions C130_error_partial.
Definition ok_means_all : Prop := forall jobs es s, lrun (init_tool jobs) es = Some s -> l_ret s = Some true ->
  forall r, In r (concat jobs) -> In r (l_saved s).
(** A thread that ends well after another one failed overwrites the error ... *)
Theorem C130_overwritten_refuted : ~ ok_means_all.
Proof.
  intros A. specialize (A [[1]; [2]] [LNext 0; LAnswer 0 false; LSay 0; LWrite 0; LNext 1; LSay 1; LWrite 1; LReturn] _ eq_refl eq_refl 1).
  simpl in A. destruct A; auto.
Qed.
Print Assumptions C130_overwritten_refuted.
(** ... and the result may be read before the failed thread has written its error. *)
Theorem C130_early_refuted : exists es s, lrun (init_tool [[1]]) es = Some s /\ l_ret s = Some true /\ In (LAnswer 0 false) es /\ l_saved s = [].
Proof.
  exists [LNext 0; LAnswer 0 false; LSay 0; LReturn]. eexists. split; [vm_compute; reflexivity|]. split; [reflexivity|].
  split; [right; left; reflexivity|reflexivity].
Qed.
Print Assumptions C130_early_refuted.
(** Which regions the two passes take: never one twice, and never those of the executor's raw keys. *)
Theorem C130_kinds : forall start, sql_region start = true -> sdk_region start = false.
Proof. exact kinds_apart. Qed.
Print Assumptions C130_kinds.
Theorem C130_raw_refuted : exists start, start <> [] /\ sql_region start = false /\ sdk_region start = false.
Proof. exists [114; 0; 1]. split; [discriminate|]. split; reflexivity. Qed.
Print Assumptions C130_raw_refuted.
Example C130_example : exists es s, lrun (init_tool [[1; 2]; [3]; []]) es = Some s /\ no_request_failed es /\ l_ret s = Some true /\ length (l_saved s) = 3%nat.
Proof.
  exists [LNext 0; LNext 1; LAnswer 1 true; LNext 2; LSay 2; LAnswer 0 true; LNext 0; LAnswer 0 true; LNext 1; LSay 1; LWrite 1; LNext 0; LSay 0; LReturn].
  eexists. split; [vm_compute; reflexivity|]. split; [|split; reflexivity].
  intros t I. simpl in I. repeat (destruct I as [I|I]; [discriminate|]). destruct I.
Qed.

(** ** C131 the backup of a region covers the range that was asked for *)
(** It does when the region is not split or merged between the check of the request and the scan. *)
Theorem C131_range_partial : forall hist asked checked scanned s tso fw fd, store_ok s -> sh_a asked <> [] ->
  (forall x y, In x hist -> In y hist -> sh_ver x = sh_ver y -> x = y) ->
  In asked hist -> In checked hist -> In scanned hist -> sh_ver scanned = sh_ver checked ->
  backup_region checked scanned (sh_ver asked) (sh_a asked) (sh_b asked) s tso = Some (BOk fw fd) ->
  forall k t w, get vcmp fw (k, t) = Some w <-> in_range (sh_a asked) (sh_b asked) k /\ newest s SI tso k t w.
Proof. exact shape_covered. Qed.
Print Assumptions C131_range_partial.
Example C131_example : exists asked checked fw fd, sh_ver checked = sh_ver asked /\ length fw = 3%nat /\
  (forall x y, In x [asked; mkShape 2 kA kB] -> In y [asked; mkShape 2 kA kB] -> sh_ver x = sh_ver y -> x = y) /\
  backup_region checked checked (sh_ver asked) (sh_a asked) (sh_b asked) (rg_store gR) 27 = Some (BOk fw fd).
Proof.
  exists (mkShape 1 kA kE), (mkShape 1 kA kE), fw27, fd27. split; [reflexivity|]. split; [vm_compute; reflexivity|].
  split; [intros x y [<-|[<-|[]]] [<-|[<-|[]]] E; try reflexivity; discriminate|]. vm_compute. reflexivity.
Qed.
(** Otherwise the request succeeds with part of the range. *)
Theorem C131_split_refuted : exists asked scanned s tso fw fd k t w, store_ok s /\ sh_ver asked < sh_ver scanned /\
  backup_region asked scanned (sh_ver asked) (sh_a asked) (sh_b asked) s tso = Some (BOk fw fd) /\
  in_range (sh_a asked) (sh_b asked) k /\ newest s SI tso k t w /\ get vcmp fw (k, t) = None.
Proof.
  exists (mkShape 1 kA kE), (mkShape 2 kA kB), (rg_store gR), 27, (fst (files_of (backup_txn (rg_store gR) 27 kA kB))),
    (snd (files_of (backup_txn (rg_store gR) 27 kA kB))), kC, 15, (mkW 10 OpPut []).
  assert (OKR : store_ok (rg_store gR)) by (apply (TxnReadProofs3.reachable_values _ _ _ plan_R reach_R)).
  split; [exact OKR|]. split; [simpl; lia|]. split; [vm_compute; reflexivity|].
  assert (X : in_range kA kE kC /\ newest (rg_store gR) SI 27 kC 15 (mkW 10 OpPut [])).
  { eapply (proj1 (backup_exact (rg_store gR) 27 kA kE fw27 fd27 OKR ltac:(discriminate) ltac:(vm_compute; reflexivity))). vm_compute. reflexivity. }
  split; [apply X|]. split; [apply X|]. vm_compute. reflexivity.
Qed.
Print Assumptions C131_split_refuted.
(** A request made with an old version of the region is refused. *)
Theorem C131_stale_refused : forall checked scanned ver a b s tso, ver <> sh_ver checked ->
  backup_region checked scanned ver a b s tso = None.
Proof. exact stale_refused. Qed.
Print Assumptions C131_stale_refused.

(** ** C132 at most one backup is registered *)
(** From a successful registration until the tool unregisters or is not heard of for its timeout,
    nobody else can register or unregister it, and the coordinator says that a backup runs. *)
Theorem C132_exclusive : forall es n a to now es2 m a' to' now2, m <> n ->
  (forall i, drun None es = Some i -> i_name i <> n) ->
  snd (dstep (drun None es) (DReg n a to now)) = true ->
  (forall e, In e es2 -> within_lease n a to e) ->
  now2 <= a + to ->
  let d := drun None (es ++ DReg n a to now :: es2) in
  dstep d (DReg m a' to' now2) = (d, false) /\ (forall k, k <> n -> dstep d (DUnreg k) = (d, false)) /\ backing_up d now2 = true.
Proof. exact dog_exclusive. Qed.
Print Assumptions C132_exclusive.
(** Unregistering or silence makes room. *)
Theorem C132_free : forall d n, snd (unregister d n) = true ->
  fst (unregister d n) = None /\ forall m a to now, register (fst (unregister d n)) m a to now = (Some (mkInfo m a to), true).
Proof. exact dog_free. Qed.
Print Assumptions C132_free.
Theorem C132_expired : forall d i m a to now, d = Some i -> i_at i + i_for i < now -> i_name i <> m ->
  register d m a to now = (Some (mkInfo m a to), true) /\ backing_up d now = false.
Proof. exact dog_expired. Qed.
Print Assumptions C132_expired.
Example C132_example : snd (dstep (drun None []) (DReg 1 100 30 100)) = true /\
  (forall e, In e [DReg 1 110 30 110; DReg 2 125 30 125; DUnreg 2] -> within_lease 1 100 30 e) /\
  snd (dstep (drun None [DReg 1 100 30 100; DReg 1 110 30 110]) (DReg 2 135 30 135)) = false /\
  snd (dstep (drun None [DReg 1 100 30 100; DReg 1 110 30 110]) (DReg 2 141 30 141)) = true.
Proof.
  split; [reflexivity|]. split; [intros e [<-|[<-|[<-|[]]]]; simpl; try split; intros; lia|]. split; reflexivity.
Qed.

(** ** C133 garbage collection stays stopped while a backup runs *)
(** It does, and is as it was before when all have ended, if the tools work one after the other;
    two tools never run at the same time in any case. *)
Theorem C133_stopped_partial : forall g0 n es s p m, shist one_by_one (init_site g0 n) es s ->
  nth_error (s_tools s) p = Some (QRun m) -> s_gc_stopped s = true.
Proof. exact gc_stays_stopped. Qed.
Print Assumptions C133_stopped_partial.
Theorem C133_given_back_partial : forall g0 n es s, shist one_by_one (init_site g0 n) es s ->
  (forall p c, nth_error (s_tools s) p = Some c -> c = QNew \/ c = QOver) -> s_gc_stopped s = g0.
Proof. exact gc_given_back. Qed.
Print Assumptions C133_given_back_partial.
Theorem C133_one_runs : forall g0 n es s p q m m', shist any_order (init_site g0 n) es s ->
  nth_error (s_tools s) p = Some (QRun m) -> nth_error (s_tools s) q = Some (QRun m') -> p = q.
Proof. exact one_runs. Qed.
Print Assumptions C133_one_runs.
(** A tool that looks while another one runs and registers after it has ended runs without. *)
Theorem C133_stopped_refuted : exists es s, shist any_order (init_site false 2) es s /\
  nth_error (s_tools s) 1 = Some (QRun false) /\ s_gc_stopped s = false.
Proof.
  exists [SLook 0; SRegister 0; SStop 0; SLook 1; SUnregister 0; SStart 0; SRegister 1; SStop 1]. eexists.
  split; [apply srun_hist; vm_compute; reflexivity|]. split; reflexivity.
Qed.
Print Assumptions C133_stopped_refuted.
Example C133_example : exists es s, shist one_by_one (init_site false 2) es s /\ nth_error (s_tools s) 1 = Some (QRun true) /\
  nth_error (s_tools s) 0 = Some QOver /\ s_gc_stopped s = true.
Proof.
  exists [SLook 0; SRegister 0; SStop 0; SUnregister 0; SStart 0; SLook 1; SRegister 1; SStop 1]. eexists.
  split; [|split; [|split]].
  - econstructor; [|reflexivity|]; [intros q c N H; simpl in H; destruct q as [|[|[|q]]]; simpl in H; try congruence; injection H as <-; auto|].
    econstructor; [exact Logic.I|reflexivity|]. econstructor; [exact Logic.I|reflexivity|]. econstructor; [exact Logic.I|reflexivity|].
    econstructor; [exact Logic.I|reflexivity|].
    econstructor; [|reflexivity|]; [intros q c N H; simpl in H; destruct q as [|[|[|q]]]; simpl in H; try congruence; injection H as <-; auto|].
    econstructor; [exact Logic.I|reflexivity|]. econstructor; [exact Logic.I|reflexivity|]. constructor.
  - reflexivity.
  - reflexivity.
  - reflexivity.
Qed.
