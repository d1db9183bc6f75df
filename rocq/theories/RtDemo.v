(** A small cluster whose history meets the provisos, and histories outside them. *)
From Coq Require Import ZArith List Bool Lia Sorted Permutation.
From Verif Require Import Bytes SMap Outcome LogProofs2 RtModel RtSpec RtProofs1 RtProofs2 RtProofs3 RtProofs4.
Import ListNotations.
Open Scope Z_scope.

Definition key (c : Z) : bytes := [119; 0; 0; 0; 0; 0; 0; c].
Definition ka := key 97.  Definition km := key 109.  Definition kz := key 122.

(** region 1 is created for [a, z), region 2 as its child, then 1 is split at m *)
Definition c1 : cluster := ([1], set (fun _ => None) 1 (Some (mkPl 1 ka kz))).
Definition c2 : cluster := ([2; 1], set (snd c1) 2 (Some (mkPl 1 max_start_key ka))).
Definition c3 : cluster := ([2; 1], set (set (snd c2) 1 (Some (mkPl 2 km kz))) 2 (Some (mkPl 2 ka km))).
Definition demo_clusters (t : nat) : cluster :=
  match t with O => ([], fun _ => None) | 1%nat => c1 | 2%nat => c2 | _ => c3 end.
Definition demo_world : world := fun t i => snd (demo_clusters t) i.

Lemma demo_made : made_by_changes demo_world.
Proof.
  exists demo_clusters. split; [reflexivity|]. split; [|reflexivity].
  intros [|[|[|t]]]; [right|right|right|left; reflexivity].
  - exists (CNew 1 ka kz). unfold c1. apply ch_new; try reflexivity; [intros []|]. intros; discriminate.
  - exists (CChild 2 ka). change (demo_clusters 1) with ([1], snd c1). change (demo_clusters 2) with c2. unfold c2. apply ch_child; try reflexivity.
    intros [C|[]]; lia.
  - exists (CSplit 1 2 km). change (demo_clusters 2) with ([2; 1], snd c2). change (demo_clusters 3) with c3. unfold c3.
    apply (ch_split [2;1] (snd c2) 1 2 km 1 ka kz 1 ka); try reflexivity. lia.
Qed.

Definition d11 := mkD 1 1 ka kz 3 false.   Definition d12 := mkD 2 1 km kz 3 false.
Definition d22 := mkD 2 1 ka km 3 false.
(** store 1 leads both regions *)
Definition beat1 := mkB 1 false false [mkP 1 true 1 KNormal d11].
Definition beat2 := mkB 1 true true [mkP 2 true 1 KNormal d22; mkP 1 true 1 KNormal d12].
Definition before_split : list op :=
  [OCreate [mkN 1 ka kz 3 false]; OApply 0; OChild 1 2; OApply 0; OBeat beat1; OApply 0].
Definition demo_ops : list op := before_split ++ OBeat beat2 :: [] ++ OApply 0 :: [OIndex [1; 2]].
Definition r1 := mkR 1 SNormal d12.   Definition r2 := mkR 2 SNormal d22.

Lemma demo_run : run init demo_ops = Ok (mkS [(1, r1); (2, r2)] [(ka, r2); (km, r1)] []).
Proof. vm_compute. reflexivity. Qed.

Lemma demo_caught : caught_up demo_world 3%nat (mkS [(1, r1); (2, r2)] [(ka, r2); (km, r1)] []).
Proof.
  split.
  - intros i r H. apply get_In in H; [|apply zcmp_ok]. destruct H as [H|[H|[]]]; injection H as <- <-; split; reflexivity.
  - intros i p H. cbn [s_map]. unfold demo_world, demo_clusters, c3 in H. cbn [snd] in H.
    apply set_cases in H. destruct H as [[-> _]|[_ H]]; [eexists; reflexivity|].
    apply set_cases in H. destruct H as [[-> _]|[_ H]]; [eexists; reflexivity|].
    unfold c2 in H. cbn [snd] in H. apply set_cases in H. destruct H as [[-> _]|[_ H]]; [eexists; reflexivity|].
    unfold c1 in H. cbn [snd] in H. apply set_cases in H. destruct H as [[-> _]|[_ H]]; [eexists; reflexivity|]. discriminate.
Qed.

Ltac go H := injection H as <-.

Lemma over_from3 r : (forall p, demo_world 3%nat (r_id r) = Some p -> pl_version p <> r_version r) -> over_at demo_world 3 r.
Proof.
  intros H u L R. unfold right_at in R.
  assert (E : demo_world u (r_id r) = demo_world 3%nat (r_id r)) by (destruct u as [|[|[|u]]]; try lia; reflexivity).
  rewrite E in R. eapply H; eauto.
Qed.

Lemma demo_calm : calm_run demo_world 3 init demo_ops.
Proof.
  unfold demo_ops, before_split. cbn [app calm_run].
  (* create 1 *) split.
  { split; [repeat constructor; simpl; tauto|]. intros n [<-|[]]. exists 1%nat. split; [lia|reflexivity]. }
  intros s H. vm_compute in H. go H. split.
  { intros l E. injection E as <-. repeat split.
    - intros r [[Q|[]]|[Q|[]]] P; [injection Q as <-|discriminate]. exists 1%nat. split; [lia|]. split; [reflexivity|]. intros c [].
    - intros r r' [[Q|[]]|[Q|[]]] [[Q'|[]]|[Q'|[]]] _ _ _; congruence.
    - intros i r [Q|[]]; discriminate. }
  intros s H. vm_compute in H. go H. split.
  { intros p Q. vm_compute in Q. injection Q as <-. exists 2%nat. split; [lia|reflexivity]. }
  intros s H. vm_compute in H. go H. split.
  { intros l E. injection E as <-. repeat split.
    - intros r [[Q|[]]|[Q|[]]] P; [injection Q as <-|discriminate]. vm_compute in P. discriminate.
    - intros r r' [[Q|[]]|[Q|[]]] [[Q'|[]]|[Q'|[]]] _ _ _; congruence.
    - intros r [Q|[]]. injection Q as <-. reflexivity.
    - intros i r [Q|[]]; discriminate. }
  intros s H. vm_compute in H. go H. split.
  { split; [repeat constructor; simpl; tauto|]. intros n [<-|[]]. exists 1%nat. split; [lia|reflexivity]. }
  intros s H. vm_compute in H. go H. split.
  { intros l E. injection E as <-. repeat split.
    - intros r [[Q|[]]|[Q|[]]] P; [discriminate|injection Q as <-]. exists 1%nat. split; [lia|]. split; [reflexivity|].
      intros c [Q|[Q|[]]] N Es; injection Q as E <-; [vm_compute in N; congruence|discriminate].
    - intros r r' [[Q|[]]|[Q|[]]] [[Q'|[]]|[Q'|[]]] _ _ _; congruence.
    - intros r [Q|[]]; discriminate.
    - intros i r [Q|[]]; discriminate. }
  intros s H. vm_compute in H. go H. split.
  { split; [repeat constructor; simpl; intuition lia|]. intros n [<-|[<-|[]]]; exists 3%nat; (split; [lia|reflexivity]). }
  intros s H. vm_compute in H. go H. split.
  { intros l E. injection E as <-. repeat split.
    - intros r [[Q|[Q|[]]]|[Q|[Q|[]]]] P; try discriminate; injection Q as <-; exists 3%nat; (split; [lia|]); (split; [reflexivity|]);
        intros c [Q|[Q|[]]] N Es; injection Q as E <-; try discriminate; try (vm_compute in N; congruence).
      apply over_from3. intros p Q. vm_compute in Q. injection Q as <-. discriminate.
    - intros r r' [[Q|[Q|[]]]|[Q|[Q|[]]]] [[Q'|[Q'|[]]]|[Q'|[Q'|[]]]] _ _; try discriminate; injection Q as <-; injection Q' as <-; intros Es; auto; discriminate.
    - intros r [Q|[Q|[]]]; discriminate.
    - intros i r [Q|[Q|[]]]; discriminate. }
  intros s H. vm_compute in H. go H. split.
  { split; [apply Permutation_refl|]. intros c d [Q|[Q|[]]] [Q'|[Q'|[]]]; injection Q as E <-; injection Q' as E' <-; intros Es; auto; discriminate. }
  auto.
Qed.

(** ** outside the provisos *)

(** a state in which every region is known as it is and every store reports it so: nothing changes
    any more *)
Definition slow_beat := mkB 1 false false [mkP 1 true 1 KNormal d11].
Definition mixed_beat := mkB 2 false false [mkP 1 false 1 KNormal d11; mkP 2 true 2 KNormal d22].
Definition late_beat := mkB 2 false false [mkP 1 false 1 KNormal d12; mkP 2 true 2 KNormal d22].
Definition race_ops : list op :=
  [OCreate [mkN 1 ka kz 3 false]; OApply 0; OChild 1 2; OApply 0;
   OBeat slow_beat; OBeat mixed_beat; OApply 1; OApply 0; OBeat late_beat; OApply 0].
Lemma race_run : run init race_ops = Ok (mkS [(1, r1); (2, r2)] [(km, r1)] []).
Proof. vm_compute. reflexivity. Qed.
Lemma race_truthful : truthful_run demo_world 3 init race_ops.
Proof.
  unfold race_ops. cbn [truthful_run truthful].
  split. { split; [repeat constructor; simpl; tauto|]. intros n [<-|[]]. exists 1%nat. split; [lia|reflexivity]. }
  intros s H. vm_compute in H. go H. split; auto.
  intros s H. vm_compute in H. go H. split. { intros p Q. vm_compute in Q. injection Q as <-. exists 2%nat. split; [lia|reflexivity]. }
  intros s H. vm_compute in H. go H. split; auto.
  intros s H. vm_compute in H. go H. split.
  { split; [repeat constructor; simpl; tauto|]. intros n [<-|[]]. exists 1%nat. split; [lia|reflexivity]. }
  intros s H. vm_compute in H. go H. split.
  { split; [repeat constructor; simpl; intuition lia|]. intros n [<-|[<-|[]]]; [exists 2%nat|exists 3%nat]; (split; [lia|reflexivity]). }
  intros s H. vm_compute in H. go H. split; auto.
  intros s H. vm_compute in H. go H. split; auto.
  intros s H. vm_compute in H. go H. split.
  { split; [repeat constructor; simpl; intuition lia|]. intros n [<-|[<-|[]]]; exists 3%nat; (split; [lia|reflexivity]). }
  intros s H. vm_compute in H. go H. split; auto.
Qed.
Lemma race_caught : caught_up demo_world 3 (mkS [(1, r1); (2, r2)] [(km, r1)] []).
Proof. exact demo_caught. Qed.
(** every store may go on reporting the regions as they are: the coordinator has nothing to do *)
Lemma race_stuck b : (forall p, In p (b_reports b) -> p_state p = KNormal /\ (p_id p = 1 /\ p_def p = d12 \/ p_id p = 2 /\ p_def p = d22)) ->
  beat_incs (s_map (mkS [(1, r1); (2, r2)] [(km, r1)] [])) b = [].
Proof.
  intros H. unfold beat_incs. destruct (_ && _); auto. cbn [s_map].
  induction (b_reports b) as [|p l IH]; auto. cbn [flat_map]. rewrite IH by (intros q Hq; apply H; right; auto).
  rewrite app_nil_r. destruct (H p (or_introl eq_refl)) as (A & [[B C]|[B C]]); destruct p as [i rl ld st df]; simpl in A, B, C; subst i st df;
    unfold beat_region; cbn; destruct rl; cbn; try reflexivity; destruct (_ && _); reflexivity.
Qed.

(** *** a merge, then the source is dropped *)

Definition m2 : cluster := ([2; 1], set (snd (([1], set (fun _ => None) 1 (Some (mkPl 1 ka km))) : cluster)) 2 (Some (mkPl 1 km kz))).
Definition m3 : cluster := ([2; 1], set (set (snd m2) 1 (Some (mkPl 2 max_start_key km))) 2 (Some (mkPl 2 ka kz))).
Definition m4 : cluster := ([2; 1], set (snd m3) 1 None).
Definition merge_clusters (t : nat) : cluster :=
  match t with O => ([], fun _ => None) | 1%nat => ([1], set (fun _ => None) 1 (Some (mkPl 1 ka km))) | 2%nat => m2 | 3%nat => m3 | _ => m4 end.
Definition merge_world : world := fun t i => snd (merge_clusters t) i.
Lemma merge_made : made_by_changes merge_world.
Proof.
  exists merge_clusters. split; [reflexivity|]. split; [|reflexivity].
  intros [|[|[|[|t]]]]; [right|right|right|right|left; reflexivity].
  - exists (CNew 1 ka km). apply ch_new; try reflexivity; [intros []|]. intros; discriminate.
  - exists (CNew 2 km kz). change (merge_clusters 2) with m2. unfold m2, merge_clusters. cbn [snd]. apply ch_new; try reflexivity.
    + intros [C|[]]; lia.
    + intros j q k Hq (A & B & C & D). apply set_cases in Hq. destruct Hq as [[-> Hq]|[_ Hq]]; [|discriminate]. injection Hq as <-.
      simpl in D. exact (blt_nle _ _ D A).
  - exists (CMerge 1 2). change (merge_clusters 2) with ([2; 1], snd m2). change (merge_clusters 3) with m3.
    exact (ch_merge_below [2; 1] (snd m2) 1 2 1 1 ka km kz eq_refl eq_refl eq_refl eq_refl eq_refl).
  - exists (CGone 1). change (merge_clusters 3) with ([2; 1], snd m3). apply ch_gone.
Qed.
Definition t2 := mkR 2 SNew (mkD 2 1 ka kz 3 false).
Definition drop_ops : list op :=
  [OCreate [mkN 1 ka km 3 false]; OApply 0; OCreate [mkN 2 km kz 3 false]; OApply 0;
   OBeat (mkB 1 false false [mkP 1 true 1 KNew (mkD 1 1 ka km 3 false); mkP 2 true 1 KNew (mkD 2 1 ka kz 3 false)]); OApply 0;
   ODrop 1; OApply 0].
Lemma drop_run : run init drop_ops = Ok (mkS [(2, t2)] [] []).
Proof. vm_compute. reflexivity. Qed.
Lemma drop_truthful : truthful_run merge_world 4 init drop_ops.
Proof.
  unfold drop_ops. cbn [truthful_run truthful].
  split. { split; [repeat constructor; simpl; tauto|]. intros n [<-|[]]. exists 1%nat. split; [lia|reflexivity]. }
  intros s H. vm_compute in H. go H. split; auto.
  intros s H. vm_compute in H. go H. split. { split; [repeat constructor; simpl; tauto|]. intros n [<-|[]]. exists 2%nat. split; [lia|reflexivity]. }
  intros s H. vm_compute in H. go H. split; auto.
  intros s H. vm_compute in H. go H. split.
  { split; [repeat constructor; simpl; intuition lia|]. intros n [<-|[<-|[]]]; [exists 2%nat|exists 3%nat]; (split; [lia|reflexivity]). }
  intros s H. vm_compute in H. go H. split; auto.
  intros s H. vm_compute in H. go H. split; simpl; auto.
Qed.
Lemma drop_caught : caught_up merge_world 4 (mkS [(2, t2)] [] []).
Proof.
  split.
  - intros i r H. apply get_In in H; [|apply zcmp_ok]. destruct H as [H|[]]; injection H as <- <-; split; reflexivity.
  - intros i p H. cbn [s_map]. unfold merge_world, merge_clusters, m4 in H. cbn [snd] in H.
    apply set_cases in H. destruct H as [[-> C]|[N H]]; [discriminate|]. unfold m3 in H. cbn [snd] in H.
    apply set_cases in H. destruct H as [[-> _]|[_ H]]; [eexists; reflexivity|].
    apply set_cases in H. destruct H as [[-> _]|[_ H]]; [congruence|].
    unfold m2 in H. cbn [snd] in H. apply set_cases in H. destruct H as [[-> _]|[_ H]]; [eexists; reflexivity|].
    apply set_cases in H. destruct H as [[-> _]|[_ H]]; [congruence|]. discriminate.
Qed.

(** *** creates *)

Definition one_request : list op := [OCreate [mkN 1 ka kz 3 false; mkN 2 ka km 3 false]; OApply 0].
Definition two_requests : list op := [OCreate [mkN 1 ka kz 3 false]; OCreate [mkN 2 ka km 3 false]; OApply 0; OApply 0].
Definition inverted : list op :=
  [OCreate [mkN 1 ka kz 3 false]; OApply 0; OCreate [mkN 2 ka (key 96) 3 false]; OApply 0; OIndex [1; 2]].
(** the demo, with a look at a vacant region *)
Definition far_ops : list op := [OCreate [mkN 1 ka kz 3 false]; OApply 0; OChild 1 2; OApply 0; OIndex [1; 2]].
