(** Proofs: merges, and the partition of the keys over any run. *)
From Coq Require Import ZArith List Bool Lia.
From Verif Require Import Bytes RegModel RegSpec RegProofs RegProofs2 RegProofs3.
Import ListNotations.
Local Open Scope Z_scope.

Lemma metas_app a : forall b f, metas (a ++ b) f = metas b (metas a f).
Proof. induction a as [|e a IH]; intros b f; auto. destruct e; cbn [app metas]; apply IH. Qed.

Lemma metas_none es : Forall no_meta es -> forall f, metas es f = f.
Proof. induction 1 as [|e es H F IH]; intros f; auto. destruct e; cbn [metas]; auto. contradiction. Qed.

Lemma ROk_inj a b : ROk a = ROk b -> a = b.
Proof. congruence. Qed.

(** ** Prepare *)

Lemma prepare_owners id p n es : prepare_handler id p n = ROk es ->
  Forall meta_only es /\ forall j k, owns (performs n es) j k <-> owns n j k.
Proof.
  intros H. unfold prepare_handler in H.
  destruct (nd_regs n id) as [s|] eqn:S.
  2:{ unfold op_job in H. rewrite S in H. cbn in H. rewrite S in H. discriminate. }
  rewrite (op_job_hit _ _ _ _ S) in H.
  set (n0 := performs n [EMeta id (with_job s (pm_job p))]) in *.
  assert (R0 : nd_regs n0 = zput (nd_regs n) id (Some (with_job s (pm_job p)))) by reflexivity.
  rewrite R0 in H. rewrite zput_same in H. cbn [with_job r_start r_end] in H.
  assert (KEEP : forall st v j k, (alive st <-> alive (r_state s)) ->
     (owns (performs n [EMeta id (mkR st (r_conf s) v (r_start s) (r_end s) (pm_job p))]) j k <-> owns n j k)).
  { intros st v j k AL. unfold owns. cbn [performs fold_left perform nd_regs]. unfold zput.
    destruct (Z.eqb_spec j id) as [->|N].
    - rewrite S. split.
      + intros (r & R & A & B). injection R as <-. cbn in *. exists s. rewrite <- AL. auto.
      + intros (r & R & A & B). injection R as <-. eexists. split; [reflexivity|]. cbn. rewrite AL. auto.
    - tauto. }
  assert (JOB : ROk [EMeta id (with_job s (pm_job p))] = ROk es ->
    Forall meta_only es /\ forall j k, owns (performs n es) j k <-> owns n j k).
  { intros E. injection E as <-. split; [repeat constructor|].
    intros j k. apply (KEEP (r_state s) (r_ver s)). tauto. }
  assert (GO : ROk ([EMeta id (with_job s (pm_job p))] ++
       seq [op_state id SMerging; op_bump id (r_start s) (r_end s)] n0) = ROk es ->
    Forall meta_only es /\ forall j k, owns (performs n es) j k <-> owns n j k).
  { intros E. apply ROk_inj in E. subst es.
    assert (RI : nd_regs n0 id = Some (with_job s (pm_job p))) by (rewrite R0; apply zput_same).
    destruct (can_move (r_state s) SMerging) eqn:CM.
    - rewrite seq_cons, (op_state_hit id SMerging n0 _ RI CM).
      cbn [app with_state with_job r_conf r_ver r_start r_end r_job].
      set (s1 := mkR SMerging (r_conf s) (r_ver s) (r_start s) (r_end s) (pm_job p)).
      rewrite seq_cons, (op_bump_hit id _ _ _ s1); [|cbn; apply zput_same].
      cbn [seq app]. split; [repeat constructor|]. intros j k.
      rewrite <- (KEEP SMerging (r_ver s + 1) j k).
      + apply owns_regs. cbn. unfold zput. destruct (j =? id); reflexivity.
      + unfold alive. destruct (r_state s); simpl in CM; try discriminate; intuition congruence.
    - rewrite seq_cons, (op_state_miss id SMerging n0 _ RI CM). cbn [app]. rewrite performs_nil.
      rewrite seq_cons, (op_bump_hit id _ _ _ _ RI).
      cbn [seq app with_epoch with_job r_conf r_ver r_start r_end r_job r_state].
      split; [repeat constructor|]. intros j k.
      rewrite <- (KEEP (r_state s) (r_ver s + 1) j k) by tauto.
      apply owns_regs. cbn. unfold zput. destruct (j =? id); reflexivity. }
  destruct (zput (nd_regs n) id (Some (with_job s (pm_job p))) (pm_target p)) as [t|]; [|exact (GO H)].
  destruct (_ =? 0); [exact (GO H)|]. destruct (_ <? 0); [discriminate|exact (JOB H)].
Qed.

(** ** Commit *)

Lemma commit_result id c n es s t : cm_source c <> id ->
  nd_regs n (cm_source c) = Some s -> nd_regs n id = Some t ->
  can_move (r_state s) STombstone = true ->
  commit_handler id c n = ROk es ->
  exists cu n1,
    nd_db n1 = nd_db n /\ nd_applied n1 = nd_applied n /\ nd_saved n1 = nd_saved n /\
    nd_regs n1 = zput (nd_regs n) id (Some (with_job t (cm_job c))) /\
    catch_up (cm_source c) (cm_entries c) n1 = ROk cu /\
    ops_of es = ops_of cu /\
    (forall j, nd_applied (performs n es) j = nd_applied (performs n1 cu) j) /\
    forall j, nd_regs (performs n es) j =
      if j =? id then Some (mkR (r_state t) (r_conf t) (Z.max (cm_ver c) (r_ver t) + 1)
                                (fst (merged_range c t)) (snd (merged_range c t)) (cm_job c))
      else if j =? cm_source c
      then Some (mkR STombstone (r_conf s) (r_ver s + 1) max_start_key (r_end s) (r_job s))
      else nd_regs n j.
Proof.
  intros N S T CM H. unfold commit_handler in H. rewrite (op_job_hit _ _ _ _ T) in H.
  set (n0 := performs n [EMeta id (with_job t (cm_job c))]) in *.
  assert (R0 : nd_regs n0 = zput (nd_regs n) id (Some (with_job t (cm_job c)))) by reflexivity.
  rewrite R0 in H. rewrite zput_same in H. rewrite zput_other in H by auto. rewrite S in H.
  cbn [then_run] in H. fold n0 in H.
  pose proof (catch_up_no_meta (cm_source c) (cm_entries c) n0) as NM.
  destruct (catch_up (cm_source c) (cm_entries c) n0) as [cu|cu|] eqn:CU; cbn [then_run] in H; try discriminate.
  exists cu, n0. split; [reflexivity|]. split; [reflexivity|]. split; [reflexivity|]. split; [exact R0|].
  split; auto.
  set (n2 := performs n0 cu) in *.
  assert (R2 : nd_regs n2 = zput (nd_regs n) id (Some (with_job t (cm_job c)))).
  { unfold n2. rewrite no_meta_regs by auto. exact R0. }
  set (t1 := with_job t (cm_job c)) in *.
  assert (MR : merged_range c t1 = merged_range c t) by reflexivity.
  set (V := Z.max (cm_ver c) (r_ver t1) + 1) in *.
  assert (VL : r_ver t1 < V) by (unfold V; lia).
  set (t2 := with_epoch t1 V (fst (merged_range c t)) (snd (merged_range c t))).
  assert (X : exists pre s1, Forall meta_only pre /\ Forall no_meta pre = Forall no_meta pre /\
     (s1 = s \/ s1 = with_state s SMerging) /\
     (pre = [] \/ pre = [EMeta (cm_source c) s1]) /\
     seq [op_state (cm_source c) SMerging;
          op_epoch id V (fst (merged_range c t1)) (snd (merged_range c t1));
          op_bump (cm_source c) max_start_key (r_end s);
          op_state (cm_source c) STombstone] n2 =
     pre ++ [EMeta id t2;
             EMeta (cm_source c) (with_epoch s1 (r_ver s + 1) max_start_key (r_end s));
             EMeta (cm_source c) (mkR STombstone (r_conf s) (r_ver s + 1) max_start_key (r_end s) (r_job s))]).
  { assert (TAIL : forall m s1, (s1 = s \/ s1 = with_state s SMerging) ->
       nd_regs m id = Some t1 -> nd_regs m (cm_source c) = Some s1 ->
       seq [op_epoch id V (fst (merged_range c t1)) (snd (merged_range c t1));
            op_bump (cm_source c) max_start_key (r_end s);
            op_state (cm_source c) STombstone] m =
       [EMeta id t2;
        EMeta (cm_source c) (with_epoch s1 (r_ver s + 1) max_start_key (r_end s));
        EMeta (cm_source c) (mkR STombstone (r_conf s) (r_ver s + 1) max_start_key (r_end s) (r_job s))]).
    { intros m s1 S1 M1 M2.
      rewrite seq_cons, (op_epoch_hit id V _ _ m t1 M1 VL), MR. fold t2. cbn [app].
      set (m1 := performs m _).
      rewrite seq_cons, (op_bump_hit (cm_source c) _ _ m1 s1);
        [|unfold m1; cbn; rewrite zput_other by auto; auto].
      assert (V1 : r_ver s1 = r_ver s) by (destruct S1 as [-> | ->]; reflexivity). rewrite V1.
      cbn [app]. set (m2 := performs m1 _).
      rewrite seq_cons, (op_state_hit (cm_source c) STombstone m2 (with_epoch s1 (r_ver s + 1) max_start_key (r_end s)));
        [| unfold m2; cbn; rewrite zput_same; auto
         | destruct S1 as [-> | ->]; [exact CM | reflexivity]].
      cbn [seq app]. destruct S1 as [-> | ->]; reflexivity. }
    assert (MS : nd_regs n2 (cm_source c) = Some s) by (rewrite R2, zput_other; auto).
    destruct (can_move (r_state s) SMerging) eqn:CM1.
    - exists [EMeta (cm_source c) (with_state s SMerging)], (with_state s SMerging).
      split; [repeat constructor|]. split; auto. split; auto. split; auto.
      rewrite seq_cons, (op_state_hit (cm_source c) SMerging n2 s MS CM1). cbn [app]. f_equal.
      apply TAIL; auto; cbn.
      + rewrite zput_other by auto. rewrite R2. apply zput_same.
      + apply zput_same.
    - exists [], s. split; [constructor|]. split; auto. split; auto. split; auto.
      rewrite seq_cons, (op_state_miss (cm_source c) SMerging n2 s MS CM1). cbn [app]. rewrite performs_nil.
      apply TAIL; auto. rewrite R2. apply zput_same. }
  destruct X as (pre & s1 & F & _ & S1 & PRE & E). rewrite E in H. apply (f_equal (fun r => match r with ROk x => x | _ => [] end)) in H.
  cbn [app] in H. subst es.
  set (tail := [EMeta id t2;
             EMeta (cm_source c) (with_epoch s1 (r_ver s + 1) max_start_key (r_end s));
             EMeta (cm_source c) (mkR STombstone (r_conf s) (r_ver s + 1) max_start_key (r_end s) (r_job s))]).
  assert (OP : ops_of (pre ++ tail) = []).
  { rewrite ops_app, (meta_only_db pre F). reflexivity. }
  split.
  { change (EMeta id t1 :: cu ++ pre ++ tail) with ([EMeta id t1] ++ cu ++ (pre ++ tail)).
    rewrite !ops_app. rewrite ops_app in OP. rewrite OP. cbn. apply app_nil_r. }
  split.
  { intros j. change (EMeta id t1 :: cu ++ pre ++ tail) with ([EMeta id t1] ++ cu ++ (pre ++ tail)).
    rewrite performs_app. fold n0. rewrite performs_app. fold n2.
    destruct PRE as [-> | ->]; reflexivity. }
  intros j. change (EMeta id t1 :: cu ++ pre ++ tail) with ([EMeta id t1] ++ cu ++ (pre ++ tail)).
  rewrite performs_regs, !metas_app. cbn [metas]. rewrite (metas_none cu NM).
  assert (PJ : forall f x, x <> cm_source c -> metas pre f x = f x).
  { intros f x Hx. destruct PRE as [-> | ->]; cbn [metas]; auto. apply zput_other; auto. }
  unfold tail. cbn [metas]. unfold zput at 1 2 3.
  destruct (Z.eqb_spec j (cm_source c)) as [J|J].
  - subst j. destruct (Z.eqb_spec (cm_source c) id); [contradiction|]. reflexivity.
  - destruct (Z.eqb_spec j id) as [J2|J2]; [reflexivity|].
    rewrite PJ by auto. apply zput_other; auto.
Qed.

Lemma alive_tombstone s : alive s -> can_move s STombstone = true.
Proof. intros [-> | [-> | ->]]; reflexivity. Qed.

Lemma commit_owners id c n es : merge_fits n id c -> commit_handler id c n = ROk es ->
  exists s t, nd_regs n (cm_source c) = Some s /\ nd_regs n id = Some t /\
  let n' := performs n es in
  (forall k, owns n' id k <-> owns n id k \/ owns n (cm_source c) k) /\
  (forall k, ~ owns n' (cm_source c) k) /\
  (forall j k, j <> id -> j <> cm_source c -> (owns n' j k <-> owns n j k)) /\
  (exists t', nd_regs n' id = Some t' /\ r_ver t < r_ver t' /\ cm_ver c < r_ver t').
Proof.
  intros (N & s & t & S & T & AS & AT & E1 & E2 & LS & LT & ADJ) H.
  exists s, t. split; auto. split; auto. cbv zeta.
  destruct (commit_result id c n es s t N S T (alive_tombstone _ AS) H)
    as (cu & n1 & _ & _ & _ & _ & _ & _ & _ & G).
  split; [|split; [|split]].
  - intros k.
    assert (U : inside (fst (merged_range c t)) (snd (merged_range c t)) k <->
                inside (r_start t) (r_end t) k \/ inside (r_start s) (r_end s) k).
    { unfold merged_range. rewrite <- E1, <- E2. destruct (beqb (r_end s) (r_start t)) eqn:B.
      - apply beqb_true in B. cbn [fst snd]. rewrite B in *.
        destruct (inside_split _ _ _ k LS LT) as [X _]. tauto.
      - destruct ADJ as [ADJ|ADJ].
        + apply beqb_true in ADJ. congruence.
        + cbn [fst snd]. rewrite <- ADJ in *.
          destruct (inside_split _ _ _ k LT LS) as [X _]. tauto. }
    unfold owns at 1. rewrite G, Z.eqb_refl. split.
    + intros (r & R & A & B). injection R as <-. cbn in B. apply U in B. destruct B as [B|B].
      * left. exists t. auto.
      * right. exists s. auto.
    + intros O. eexists. split; [reflexivity|]. cbn. split; auto. apply U.
      destruct O as [(r & R & _ & B)|(r & R & _ & B)]; [left|right]; congruence.
  - intros k (r & R & A & _). rewrite G in R. destruct (Z.eqb_spec (cm_source c) id); [contradiction|].
    rewrite Z.eqb_refl in R. injection R as <-. destruct A as [A|[A|A]]; discriminate.
  - intros j k J1 J2. apply owns_regs. rewrite G. destruct (Z.eqb_spec j id); [contradiction|].
    destruct (Z.eqb_spec j (cm_source c)); [contradiction|auto].
  - rewrite G, Z.eqb_refl. eexists. split; [reflexivity|]. cbn. lia.
Qed.

(** ** The partition over runs *)

Lemma data_regs ctx id e n es : data_entry e -> on_apply ctx id e n = ADone es StOk ->
  forall j, nd_regs (performs n es) j = nd_regs n j.
Proof.
  intros D A j. destruct (accepted_means _ _ _ _ _ A) as (r & _ & _ & _ & _ & _ & _ & ws & W & ->).
  pose proof (run_reqs_data ctx id (e_reqs e) D n) as X. rewrite W in X. cbn in X.
  rewrite performs_regs, metas_app, finish_metas, metas_none; auto. apply batch_no_meta; auto.
Qed.

Lemma not_ok ctx id e n es st : on_apply ctx id e n = ADone es st -> st <> StOk ->
  forall j, nd_regs (performs n es) j = nd_regs n j.
Proof.
  intros H S j. unfold on_apply in H. destruct (nd_regs n id); try discriminate.
  destruct (_ <=? _); [injection H as <- <-; auto|].
  destruct (rstate_eqb _ _); try discriminate.
  destruct (refused_state _); [injection H as <- <-; rewrite performs_regs, finish_metas; auto|].
  destruct (negb _); [injection H as <- <-; rewrite performs_regs, finish_metas; auto|].
  destruct (run_reqs ctx id (e_reqs e) n); try discriminate. injection H as <- <-. contradiction.
Qed.

Definition same_owners (n n' : node) : Prop := forall j k, owns n' j k <-> owns n j k.

Lemma same_owners_ok n n' : same_owners n n' -> exclusive n ->
  exclusive n' /\ forall k, covered n' k <-> covered n k.
Proof.
  intros S X. split.
  - intros k i j A B. apply (X k); apply S; auto.
  - intros k. split; intros (j & O); exists j; apply S; auto.
Qed.

Lemma regs_same_owners n n' : (forall j, nd_regs n' j = nd_regs n j) -> same_owners n n'.
Proof. intros H j k. apply owns_regs. auto. Qed.

Lemma same_regions_owners n n' : same_regions n n' -> same_owners n n'.
Proof.
  intros H j k. specialize (H j). unfold owns.
  destruct (nd_regs n j) as [r|], (nd_regs n' j) as [r'|]; try contradiction.
  - destruct H as (H1 & H2 & H3 & H4 & H5). split; intros (x & X & A & B); injection X as <-.
    + exists r. rewrite <- H1, <- H4, <- H5. auto.
    + exists r'. rewrite H1, H4, H5. auto.
  - tauto.
Qed.

Lemma apply_partition ctx id e n n' : exclusive n -> well_formed e ->
  (forall c, e_reqs e = [QCommit c] -> merge_fits n id c) ->
  (forall r, nd_regs n id = Some r -> r_state r <> SNew) ->
  apply ctx id e n = Some n' ->
  exclusive n' /\ forall k, covered n' k <-> covered n k.
Proof.
  intros X WF MF NN A. unfold apply in A.
  destruct (on_apply ctx id e n) as [es st|es|] eqn:H; try discriminate. injection A as <-.
  assert (ST : {st = StOk} + {st <> StOk}) by (destruct st; auto; right; discriminate).
  destruct ST as [-> | ST].
  2:{ apply same_owners_ok; auto. apply regs_same_owners. eapply not_ok; eauto. }
  destruct WF as [D|(q & Q)].
  { apply same_owners_ok; auto. apply regs_same_owners. eapply data_regs; eauto. }
  destruct q as [d|s|p|c].
  - apply same_owners_ok; auto. apply regs_same_owners. eapply data_regs; eauto.
    unfold data_entry. rewrite Q. constructor; [eexists; reflexivity|constructor].
  - destruct (accepted_means _ _ _ _ _ H) as (p & P & RS & SB & _).
    destruct (Z.eq_dec (sp_ver s) (r_ver p)) as [V|V].
    2:{ apply same_owners_ok; auto. apply same_regions_owners. eapply split_other_version; eauto. }
    destruct (split_owners ctx id s e n es p Q H P V) as (_ & OT & OI & OO & PART & _).
    destruct (split_effect ctx id s e n es p Q H P V) as (c & T & L1 & L2 & NT & _ & CS & _).
    assert (AL : alive (r_state p)).
    { destruct CS as [CS|[CS|CS]]; [exfalso; apply (NN p P CS)|left; auto|right; left; auto]. }
    assert (OLD : forall k, owns n id k <-> inside (r_start p) (r_end p) k).
    { intros k. split; [intros (r & R & _ & B); congruence | intros B; exists p; auto]. }
    pose proof (fun k => inside_split _ _ _ k L1 L2) as SP.
    set (n' := performs n es) in *.
    (* each new owner of a key stands for an old owner *)
    assert (MAP : forall j k, owns n' j k -> owns n (if j =? sp_to s then id else j) k).
    { intros j k O. destruct (Z.eqb_spec j (sp_to s)) as [->|J].
      - apply OT in O. apply OLD. apply SP. auto.
      - destruct (Z.eq_dec j id) as [->|J2].
        + apply OI in O. apply OLD. apply SP. auto.
        + apply OO in O; auto. }
    split.
    + intros k i j A B. pose proof (X k _ _ (MAP i k A) (MAP j k B)) as E.
      destruct (Z.eqb_spec i (sp_to s)) as [->|I1], (Z.eqb_spec j (sp_to s)) as [->|J1]; auto.
      * subst j. exfalso. apply OT in A. apply OI in B. apply (proj2 (SP k)). auto.
      * subst i. exfalso. apply OT in B. apply OI in A. apply (proj2 (SP k)). auto.
    + intros k. split.
      * intros (j & O). eexists. eapply MAP; eauto.
      * intros (j & O). destruct (Z.eq_dec j id) as [->|J].
        -- apply OLD in O. destruct (PART k O) as [[O' _]|[O' _]]; eexists; eauto.
        -- destruct (Z.eq_dec j (sp_to s)) as [->|J2]; [exfalso; eapply NT; eauto|].
           exists j. apply OO; auto.
  - destruct (accepted_means _ _ _ _ _ H) as (r & R & _ & _ & _ & _ & _ & ws & W & ->).
    rewrite Q in W. cbn [run_reqs handler] in W.
    destruct (prepare_handler id p n) as [e1|e1|] eqn:PH; cbn [then_run] in W; try discriminate.
    injection W as <-. rewrite app_nil_r. apply same_owners_ok; auto.
    destruct (prepare_owners id p n e1 PH) as [_ O].
    intros j k. rewrite <- (O j k). apply owns_regs.
    rewrite performs_app, performs_regs, finish_metas. auto.
  - destruct (accepted_means _ _ _ _ _ H) as (r & R & _ & _ & _ & _ & _ & ws & W & ->).
    rewrite Q in W. cbn [run_reqs handler] in W.
    destruct (commit_handler id c n) as [e1|e1|] eqn:CH; cbn [then_run] in W; try discriminate.
    injection W as <-. rewrite app_nil_r.
    pose proof (MF c Q) as FIT.
    destruct (commit_owners id c n e1 FIT CH) as (s & t & _ & _ & OI & OS & OO & _).
    assert (SAME : same_owners (performs n e1) (performs n (e1 ++ finish id (e_index e)))).
    { intros j k. apply owns_regs. rewrite performs_app, performs_regs, finish_metas. auto. }
    set (n1 := performs n e1) in *.
    assert (MAP : forall j k, owns n1 j k -> owns n j k \/ (j = id /\ owns n (cm_source c) k)).
    { intros j k O. destruct (Z.eq_dec j id) as [->|J].
      - apply OI in O. tauto.
      - destruct (Z.eq_dec j (cm_source c)) as [->|J2]; [exfalso; eapply OS; eauto|].
        left. apply OO in O; auto. }
    assert (X1 : exclusive n1).
    { intros k i j A B.
      destruct (Z.eq_dec i (cm_source c)) as [->|I0]; [exfalso; eapply OS; eauto|].
      destruct (Z.eq_dec j (cm_source c)) as [->|J0]; [exfalso; eapply OS; eauto|].
      destruct (MAP i k A) as [A1|[-> A1]], (MAP j k B) as [B1|[-> B1]]; auto.
      - apply (X k); auto.
      - exfalso. apply I0. apply (X k); auto.
      - exfalso. apply J0. apply (X k); auto. }
    destruct (same_owners_ok _ _ SAME X1) as [Y1 Y2]. split; auto.
    intros k. rewrite Y2. split.
    + intros (j & O). destruct (MAP j k O) as [O1|[_ O1]]; eexists; eauto.
    + intros (j & O). destruct (Z.eq_dec j id) as [->|J]; [exists id; apply OI; auto|].
      destruct (Z.eq_dec j (cm_source c)) as [->|J2]; [exists id; apply OI; auto|].
      exists j. apply OO; auto.
Qed.

Lemma run_partition vs : forall n n', exclusive n -> calm n vs -> run n vs = Some n' ->
  exclusive n' /\ forall k, covered n' k <-> covered n k.
Proof.
  induction vs as [|v vs IH]; intros n n' X C R; cbn [run calm] in *.
  - injection R as <-. split; auto. tauto.
  - destruct C as [C1 C2]. destruct (step n v) as [m|] eqn:S; try discriminate.
    assert (M : exclusive m /\ forall k, covered m k <-> covered n k).
    { destruct v as [ctx id e|ctx id e k|id conf ver a b]; cbn [step] in S.
      - destruct C1 as (W & MF & NN). eapply apply_partition; eauto.
      - contradiction.
      - destruct (nd_regs n id) eqn:E; try discriminate. injection S as <-.
        apply same_owners_ok; auto. intros j k. unfold owns. cbn. unfold zput.
        destruct (Z.eqb_spec j id) as [->|]; [|tauto]. rewrite E. split.
        + intros (r & Q & A & _). injection Q as <-. destruct A as [A|[A|A]]; discriminate.
        + intros (r & Q & _). discriminate. }
    destruct M as [M1 M2]. destruct (IH m n' M1 C2 R) as [Y1 Y2]. split; auto.
    intros k. rewrite Y2. auto.
Qed.

(** ** As entries *)

Lemma prepare_entry ctx id p e n es : e_reqs e = [QPrepare p] -> on_apply ctx id e n = ADone es StOk ->
  same_data n (performs n es) /\ forall j k, owns (performs n es) j k <-> owns n j k.
Proof.
  intros Q H. destruct (accepted_means _ _ _ _ _ H) as (r & R & _ & _ & _ & _ & _ & ws & W & ->).
  rewrite Q in W. cbn [run_reqs handler] in W.
  destruct (prepare_handler id p n) as [e1|e1|] eqn:PH; cbn [then_run] in W; try discriminate.
  injection W as <-. rewrite app_nil_r. destruct (prepare_owners id p n e1 PH) as [M O]. split.
  - intros cf k. rewrite performs_db, ops_app, finish_ops, app_nil_r, (meta_only_db e1 M). reflexivity.
  - intros j k. rewrite <- (O j k). apply owns_regs. rewrite performs_app, performs_regs, finish_metas. auto.
Qed.

Lemma commit_entry ctx id c e n es : e_reqs e = [QCommit c] -> on_apply ctx id e n = ADone es StOk ->
  merge_fits n id c ->
  exists s t, nd_regs n (cm_source c) = Some s /\ nd_regs n id = Some t /\
  let n' := performs n es in
  (forall k, owns n' id k <-> owns n id k \/ owns n (cm_source c) k) /\
  (forall k, ~ owns n' (cm_source c) k) /\
  (forall j k, j <> id -> j <> cm_source c -> (owns n' j k <-> owns n j k)) /\
  (exists t', nd_regs n' id = Some t' /\ r_ver t < r_ver t' /\ cm_ver c < r_ver t').
Proof.
  intros Q H F. destruct (accepted_means _ _ _ _ _ H) as (r & R & _ & _ & _ & _ & _ & ws & W & ->).
  rewrite Q in W. cbn [run_reqs handler] in W.
  destruct (commit_handler id c n) as [e1|e1|] eqn:CH; cbn [then_run] in W; try discriminate.
  injection W as <-. rewrite app_nil_r.
  destruct (commit_owners id c n e1 F CH) as (s & t & S & T & A & B & C & t' & D & E).
  exists s, t. split; auto. split; auto. cbv zeta.
  assert (O : forall j k, owns (performs n (e1 ++ finish id (e_index e))) j k <-> owns (performs n e1) j k).
  { intros j k. apply owns_regs. rewrite performs_app, performs_regs, finish_metas. auto. }
  split; [intros k; rewrite O; apply A|]. split; [intros k; rewrite O; apply B|].
  split; [intros j k J1 J2; rewrite O; apply C; auto|].
  exists t'. split; auto. rewrite performs_app, performs_regs, finish_metas. auto.
Qed.
