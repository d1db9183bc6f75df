(** C79 - C82: finding the regions for a key range. *)
From Coq Require Import ZArith List Bool Lia Sorted Permutation.
From Verif Require Import Bytes SMap Outcome LogProofs2 RtModel RtSpec RtProofs1 RtProofs2 RtProofs3 RtProofs4 RtDemo.
Import ListNotations.
Open Scope Z_scope.

(** C79: whatever has happened, no lookup aborts the coordinator; it returns regions in the order of
    their start keys, no more than asked for, and only such as reach into the range asked for *)
Theorem C79_lookup_sound : forall ops start end_ limit, exists s rs,
  run init ops = Ok s /\ scan_regions (s_idx s) start end_ limit = Ok rs /\
  by_start rs /\ (0 < limit -> Z.of_nat (length rs) <= limit) /\ (end_ = [] -> (length rs <= 1)%nat) /\
  forall r, In r rs -> In (r_start r, r) (s_idx s) /\ reaches start end_ r.
Proof. exact lookup_sound. Qed.
Print Assumptions C79_lookup_sound.

(** C79: in calm circumstances, when the coordinator has heard of everything, a lookup returns exactly
    the regions that hold a key of the range, in order, up to the limit *)
Theorem C79_lookup_exact : forall W T ops s start end_ limit,
  world_ok W -> calm_run W T init ops -> run init ops = Ok s -> caught_up W T s -> ble end_ max_start_key ->
  exists rs, scan_regions (s_idx s) start end_ limit = Ok rs /\
    answer (fun r => get Z.compare (s_map s) (r_id r) = Some r) start end_ limit rs.
Proof. exact lookup_exact. Qed.
Print Assumptions C79_lookup_exact.

(** C79: the assumption about the stores holds of every history of creates, splits, merges and deletes *)
Theorem C79_worlds : forall W, made_by_changes W -> world_ok W.
Proof. exact made_ok. Qed.
Print Assumptions C79_worlds.

(** a split, then the index is built anew: lookups of one key, of a range and up to the end *)
Example C79_example :
  made_by_changes demo_world /\ calm_run demo_world 3 init demo_ops /\
  exists s, run init demo_ops = Ok s /\ caught_up demo_world 3 s /\
    scan_regions (s_idx s) (key 100) [] 0 = Ok [r2] /\ scan_regions (s_idx s) ka kz 0 = Ok [r2; r1] /\
    scan_regions (s_idx s) (key 100) [0] 1 = Ok [r2].
Proof.
  split; [exact demo_made|]. split; [exact demo_calm|]. eexists. split; [exact demo_run|]. split; [exact demo_caught|].
  split; [|split]; vm_compute; reflexivity.
Qed.

(** with an end key beyond the nine bytes 0xff a lookup can return a region without any keys *)
Theorem C79_far_end_refuted : exists ops s rs r start end_,
  run init ops = Ok s /\ scan_regions (s_idx s) start end_ 0 = Ok rs /\ In r rs /\ ~ exists k, holds r k.
Proof.
  exists far_ops. eexists. eexists. exists (mkR 2 SNew (mkD 1 1 max_start_key ka 3 false)). exists (key 96), (repeat 255 10).
  split; [vm_compute; reflexivity|]. split; [vm_compute; reflexivity|]. split; [right; left; reflexivity|].
  intros (k & A & B). unfold r_start, r_end in A, B. simpl in A, B. exact (blt_nle _ _ (blt_trans _ _ _ B (eq_refl : blt ka max_start_key)) A).
Qed.
Print Assumptions C79_far_end_refuted.

(** C80: once a heartbeat that reports a region as it is at time [T] has been taken into account, the
    coordinator knows the region as it is at [T], and goes on knowing it *)
Theorem C80_catches_up : forall W T i p b ops1 ops2 k ops3 s1 s2 s3,
  world_ok W -> calm_run W T init (ops1 ++ OBeat b :: ops2 ++ OApply k :: ops3) ->
  run init ops1 = Ok s1 -> run init (ops1 ++ OBeat b :: ops2) = Ok s2 ->
  run init (ops1 ++ OBeat b :: ops2 ++ OApply k :: ops3) = Ok s3 ->
  ~ In (ODrop i) (ops1 ++ OBeat b :: ops2 ++ OApply k :: ops3) ->
  (exists r, get Z.compare (s_map s1) i = Some r) ->
  In p (b_reports b) -> p_id p = i -> right_at W T (mkR i SNew (p_def p)) ->
  (b_partial b = true -> b_epoch b = true /\ length (b_reports b) = 2%nat) ->
  nth_error (s_pend s2) k = Some (beat_incs (s_map s1) b) ->
  exists r, get Z.compare (s_map s3) i = Some r /\ right_at W T r.
Proof. exact catches_up. Qed.
Print Assumptions C80_catches_up.

Example C80_example : exists s1 s2 s3,
  run init before_split = Ok s1 /\ run init (before_split ++ OBeat beat2 :: []) = Ok s2 /\ run init demo_ops = Ok s3 /\
  get Z.compare (s_map s1) 2 = Some (mkR 2 SNew (mkD 1 1 max_start_key ka 3 false)) /\
  nth_error (s_pend s2) 0 = Some (beat_incs (s_map s1) beat2) /\
  right_at demo_world 3 (mkR 2 SNew d22) /\ get Z.compare (s_map s3) 2 = Some r2.
Proof. do 3 eexists. repeat (split; [vm_compute; reflexivity|]). vm_compute. reflexivity. Qed.

(** C80: the version of a region the coordinator knows never decreases, in any circumstances, as long as
    no region is created a second time *)
Theorem C80_versions : forall ops s o s' i r r', run init ops = Ok s -> step s o = Ok s' ->
  get Z.compare (s_map s) i = Some r -> get Z.compare (s_map s') i = Some r' ->
  (forall n l q, o = OApply n -> nth_error (s_pend s) n = Some l -> In (ICreate q) l -> r_id q <> i) ->
  r_version r <= r_version r'.
Proof.
  intros ops s o s' i r r' H. apply step_version. eapply run_sorted; [| |exact H]; constructor.
Qed.
Print Assumptions C80_versions.

(** C81, full statement: when the coordinator has heard of everything, lookups return exactly the regions
    that hold a key of the range, whatever the order of events. False: *)
Theorem C81_race_refuted : exists W T ops s r k,
  made_by_changes W /\ truthful_run W T init ops /\ run init ops = Ok s /\ caught_up W T s /\
  get Z.compare (s_map s) (r_id r) = Some r /\ holds r k /\ scan_regions (s_idx s) k [] 0 = Ok [] /\
  forall b, (forall p, In p (b_reports b) -> p_state p = KNormal /\ (p_id p = 1 /\ p_def p = d12 \/ p_id p = 2 /\ p_def p = d22)) ->
    beat_incs (s_map s) b = [].
Proof.
  exists demo_world, 3%nat, race_ops. eexists. exists r2, ka.
  split; [exact demo_made|]. split; [exact race_truthful|]. split; [exact race_run|]. split; [exact race_caught|].
  split; [reflexivity|]. split; [split; [discriminate|reflexivity]|]. split; [vm_compute; reflexivity|]. exact race_stuck.
Qed.
Print Assumptions C81_race_refuted.
Theorem C81_drop_refuted : exists W T ops s r k,
  made_by_changes W /\ truthful_run W T init ops /\ run init ops = Ok s /\ caught_up W T s /\
  get Z.compare (s_map s) (r_id r) = Some r /\ holds r k /\ scan_regions (s_idx s) k [] 0 = Ok [].
Proof.
  exists merge_world, 4%nat, drop_ops. eexists. exists t2, ka.
  split; [exact merge_made|]. split; [exact drop_truthful|]. split; [exact drop_run|]. split; [exact drop_caught|].
  split; [reflexivity|]. split; [split; [discriminate|reflexivity]|]. vm_compute; reflexivity.
Qed.
Print Assumptions C81_drop_refuted.

(** C81, the part that holds: when the index has been built anew since (a change of the leader, a
    restart), whatever happened before. Missing: the index as it is kept up to date. *)
Theorem C81_rebuilt_partial : forall W T ops s order s' start end_ limit,
  world_ok W -> run init ops = Ok s -> caught_up W T s ->
  Permutation order (map fst (s_map s)) -> step s (OIndex order) = Ok s' -> ble end_ max_start_key ->
  exists rs, scan_regions (s_idx s') start end_ limit = Ok rs /\
    answer (fun r => get Z.compare (s_map s') (r_id r) = Some r) start end_ limit rs.
Proof. exact rebuilt_exact. Qed.
Print Assumptions C81_rebuilt_partial.

Example C81_example : exists s s', run init race_ops = Ok s /\ caught_up demo_world 3 s /\
  step s (OIndex [2; 1]) = Ok s' /\ Permutation [2; 1] (map fst (s_map s)) /\ scan_regions (s_idx s') ka [] 0 = Ok [r2].
Proof.
  do 2 eexists. split; [exact race_run|]. split; [exact race_caught|]. split; [vm_compute; reflexivity|].
  split; [apply perm_swap|]. vm_compute. reflexivity.
Qed.

(** C82, full statement: two regions the coordinator has created never hold the same key. False for the
    partitions of one request and for two requests at a time; and a range the wrong way round is taken: *)
Theorem C82_one_request_refuted : exists ops s r q k, run init ops = Ok s /\
  get Z.compare (s_map s) (r_id r) = Some r /\ get Z.compare (s_map s) (r_id q) = Some q /\ r_id r <> r_id q /\
  holds r k /\ holds q k /\ exists n m, ops = [OCreate [n; m]; OApply 0].
Proof.
  exists one_request. eexists. exists (new_region (mkN 1 ka kz 3 false)), (new_region (mkN 2 ka km 3 false)), ka.
  split; [vm_compute; reflexivity|]. split; [reflexivity|]. split; [reflexivity|]. split; [discriminate|].
  split; [split; [discriminate|reflexivity]|]. split; [split; [discriminate|reflexivity]|]. do 2 eexists. reflexivity.
Qed.
Print Assumptions C82_one_request_refuted.
Theorem C82_two_requests_refuted : exists ops s r q k, run init ops = Ok s /\
  get Z.compare (s_map s) (r_id r) = Some r /\ get Z.compare (s_map s) (r_id q) = Some q /\ r_id r <> r_id q /\
  holds r k /\ holds q k /\ exists n m, ops = [OCreate [n]; OCreate [m]; OApply 0; OApply 0].
Proof.
  exists two_requests. eexists. exists (new_region (mkN 1 ka kz 3 false)), (new_region (mkN 2 ka km 3 false)), ka.
  split; [vm_compute; reflexivity|]. split; [reflexivity|]. split; [reflexivity|]. split; [discriminate|].
  split; [split; [discriminate|reflexivity]|]. split; [split; [discriminate|reflexivity]|]. do 2 eexists. reflexivity.
Qed.
Print Assumptions C82_two_requests_refuted.
(** ... and hides a region from lookups *)
Theorem C82_inverted_refuted : exists ops s r q k order, run init (ops ++ [OIndex order]) = Ok s /\
  Permutation order (map fst (s_map s)) /\
  get Z.compare (s_map s) (r_id r) = Some r /\ get Z.compare (s_map s) (r_id q) = Some q /\
  blt (r_end q) (r_start q) /\ holds r k /\ ~ holds q k /\ scan_regions (s_idx s) k [] 0 = Ok [].
Proof.
  exists (firstn 4 inverted). eexists.
  exists (new_region (mkN 1 ka kz 3 false)), (new_region (mkN 2 ka (key 96) 3 false)), ka, [1; 2].
  split; [vm_compute; reflexivity|]. split; [apply Permutation_refl|]. split; [reflexivity|]. split; [reflexivity|]. split; [reflexivity|].
  split; [split; [discriminate|reflexivity]|]. split; [intros [_ C]; discriminate|]. vm_compute; reflexivity.
Qed.
Print Assumptions C82_inverted_refuted.

(** C82, the part that holds: one region per request, one request at a time, in calm circumstances when
    the coordinator has heard of everything; and only an overlap is refused as one *)
Theorem C82_alone_partial : forall W T ops s n s1 s2,
  world_ok W -> calm_run W T init ops -> run init ops = Ok s -> caught_up W T s ->
  step s (OCreate [n]) = Ok s1 -> step s1 (OApply (length (s_pend s))) = Ok s2 ->
  forall r q k, get Z.compare (s_map s2) (r_id r) = Some r -> get Z.compare (s_map s2) (r_id q) = Some q -> r_id r <> r_id q ->
    ~ (holds r k /\ holds q k).
Proof. exact create_alone. Qed.
Print Assumptions C82_alone_partial.
Theorem C82_refused_partial : forall W T ops s n,
  world_ok W -> calm_run W T init ops -> run init ops = Ok s -> caught_up W T s -> ble (n_end n) max_start_key ->
  create_regions (s_map s) (s_idx s) [n] = Ok (inl EOverlap) ->
  exists r k, get Z.compare (s_map s) (r_id r) = Some r /\ holds r k /\ holds (new_region n) k.
Proof. exact create_refused. Qed.
Print Assumptions C82_refused_partial.

(** beside the two regions of the demo: a range next to theirs is taken, one inside is refused *)
Example C82_example : exists s s1 s2, run init demo_ops = Ok s /\
  step s (OCreate [mkN 3 kz (key 124) 3 false]) = Ok s1 /\ step s1 (OApply (length (s_pend s))) = Ok s2 /\
  get Z.compare (s_map s2) 3 = Some (new_region (mkN 3 kz (key 124) 3 false)) /\
  create_regions (s_map s) (s_idx s) [mkN 3 (key 121) (key 124) 3 false] = Ok (inl EOverlap).
Proof. do 3 eexists. repeat (split; [vm_compute; reflexivity|]). vm_compute. reflexivity. Qed.
