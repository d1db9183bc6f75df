(** Proofs: a crash in a split. *)
From Coq Require Import ZArith List Bool Lia.
From Verif Require Import Bytes RegModel RegSpec RegProofs RegProofs2 RegProofs3.
Import ListNotations.
Local Open Scope Z_scope.

Lemma pre_split_total id s n p c : nd_regs n id = Some p -> nd_regs n (sp_to s) = Some c ->
  sp_to s <> id -> sp_ver s = r_ver p -> r_state c = SStandby ->
  lt (r_start p) (sp_key s) -> lt (sp_key s) (r_end p) -> exists es, pre_split id s n = ROk es.
Proof.
  intros P C T V SC L1 L2. unfold pre_split. rewrite (op_job_hit _ _ _ _ P).
  set (n0 := performs n [EMeta id (with_job p (sp_job s))]).
  assert (R0 : nd_regs n0 = zput (nd_regs n) id (Some (with_job p (sp_job s)))) by reflexivity.
  rewrite R0, zput_same, zput_other by auto. rewrite C. cbn [with_job r_ver r_start r_end].
  rewrite (proj2 (Z.eqb_eq _ _) V), SC. cbn [negb rstate_eqb].
  assert (L3 : lt (r_start p) (r_end p)) by (unfold lt in *; eapply bcmp_trans; eauto).
  apply bleb_lt in L1, L2, L3. rewrite L1, L2, L3. cbn [orb]. eauto.
Qed.

Lemma pre_split_list id s n p c : nd_regs n id = Some p -> nd_regs n (sp_to s) = Some c ->
  sp_to s <> id -> sp_ver s = r_ver p -> r_state p = SNormal -> r_state c = SStandby ->
  lt (r_start p) (sp_key s) -> lt (sp_key s) (r_end p) ->
  pre_split id s n = ROk
    [EMeta id (mkR SNormal (r_conf p) (r_ver p) (r_start p) (r_end p) (sp_job s));
     EMeta id (mkR SSplitting (r_conf p) (r_ver p) (r_start p) (r_end p) (sp_job s));
     EMeta (sp_to s) (mkR SStandby (r_conf c) (r_ver c + 1) (r_start p) (sp_key s) (r_job c));
     EMeta id (mkR SSplitting (r_conf p) (r_ver p + 1) (sp_key s) (r_end p) (sp_job s));
     EMeta id (mkR SNormal (r_conf p) (r_ver p + 1) (sp_key s) (r_end p) (sp_job s));
     EMeta (sp_to s) (mkR SNormal (r_conf c) (r_ver c + 1) (r_start p) (sp_key s) (r_job c));
     ESaved id (nd_applied n id)].
Proof.
  intros P C T V SP SC L1 L2. unfold pre_split. rewrite (op_job_hit _ _ _ _ P).
  set (n0 := performs n [EMeta id (with_job p (sp_job s))]).
  assert (R0 : nd_regs n0 = zput (nd_regs n) id (Some (with_job p (sp_job s)))) by reflexivity.
  rewrite R0, zput_same, zput_other by auto. rewrite C. cbn [with_job r_ver r_start r_end].
  rewrite (proj2 (Z.eqb_eq _ _) V), SC. cbn [negb rstate_eqb].
  assert (L3 : lt (r_start p) (r_end p)) by (unfold lt in *; eapply bcmp_trans; eauto).
  apply bleb_lt in L1, L2, L3. rewrite L1, L2, L3. cbn [orb]. f_equal.
  destruct p as [ps pc pv pa pb pj], c as [cs cc cv ca cb cj]. cbn [r_state r_conf r_ver r_start r_end r_job] in *.
  subst ps cs. cbn [with_job r_state r_conf r_ver r_start r_end r_job app] in *. f_equal.
  assert (N1 : nd_regs n0 id = Some (mkR SNormal pc pv pa pb (sp_job s))) by (rewrite R0; apply zput_same).
  assert (N2 : nd_regs n0 (sp_to s) = Some (mkR SStandby cc cv ca cb cj)) by (rewrite R0, zput_other; auto).
  rewrite seq_cons, (op_state_miss _ _ n0 _ N2) by reflexivity. cbn [app]. rewrite performs_nil.
  rewrite seq_cons, (op_state_hit _ _ n0 _ N1) by reflexivity. cbn [app with_state r_state r_conf r_ver r_start r_end r_job].
  f_equal. set (n1 := performs n0 _).
  rewrite seq_cons, (op_bump_hit _ _ _ n1 (mkR SStandby cc cv ca cb cj)) by (unfold n1; cbn; zsimp; auto).
  cbn [app with_epoch r_state r_conf r_ver r_start r_end r_job]. f_equal. set (n2 := performs n1 _).
  rewrite seq_cons, (op_bump_hit _ _ _ n2 (mkR SSplitting pc pv pa pb (sp_job s))) by (unfold n2, n1; cbn; zsimp; auto).
  cbn [app with_epoch r_state r_conf r_ver r_start r_end r_job]. f_equal. set (n3 := performs n2 _).
  rewrite seq_cons, (op_state_hit _ _ n3 (mkR SSplitting pc (pv + 1) (sp_key s) pb (sp_job s)))
    by (unfold n3, n2, n1; cbn; zsimp; auto).
  cbn [app with_state r_state r_conf r_ver r_start r_end r_job]. f_equal. set (n4 := performs n3 _).
  rewrite seq_cons, (op_state_hit _ _ n4 (mkR SStandby cc (cv + 1) pa (sp_key s) cj))
    by (unfold n4, n3, n2, n1; cbn; zsimp; auto).
  reflexivity.
Qed.

Lemma metas_fin id i k f : metas (firstn k (finish id i)) f = f.
Proof.
  unfold finish. destruct (i mod save_step =? 0); destruct k as [|[|[|k]]]; reflexivity.
Qed.

(** A crash before any version changed, or after all regions were written, is
    repaired by applying the entry again. *)
Lemma split_crash ctx ctx' id s e n es p k :
  e_reqs e = [QSplit s] -> sp_pre s = true -> on_apply ctx id e n = ADone es StOk ->
  nd_regs n id = Some p -> r_state p = SNormal -> sp_ver s = r_ver p ->
  nd_saved n id <= nd_applied n id ->
  let nc := crash_at n es k in let nf := performs n es in
  ((forall j r r', nd_regs n j = Some r -> nd_regs nc j = Some r' -> r_ver r' = r_ver r) \/
   (forall j, nd_regs nc j = nd_regs nf j)) ->
  exists n', apply ctx' id e nc = Some n' /\ (forall j, nd_regs n' j = nd_regs nf j) /\ same_data nf n'.
Proof.
  intros Q PRE A P SP V SV nc nf CR.
  destruct (accepted_means _ _ _ _ _ A) as (r & R & RS & SB & C1 & C2 & IX & ws & W & E).
  rewrite P in R. injection R as <-.
  rewrite Q in W. cbn [run_reqs handler] in W. unfold split_handler in W. rewrite PRE in W.
  destruct (pre_split id s n) as [e1|e1|] eqn:H; cbn [then_run] in W; try discriminate.
  injection W as <-. rewrite app_nil_r in E.
  destruct (pre_split_result id s n p e1 P (not_refused _ RS SB) V H)
    as (c & C & SC & T & L1 & L2 & MO & RG).
  assert (RF : forall j, nd_regs nf j = split_regs id s p c (nd_regs n) j).
  { intros j. unfold nf. rewrite E, performs_app, performs_regs, finish_metas. apply RG. }
  assert (DF : nd_db nf = nd_db n).
  { unfold nf. rewrite performs_db, E, ops_app, finish_ops, app_nil_r, (meta_only_db e1 MO). reflexivity. }
  (* applying again on a node that agrees on what the split looks at *)
  assert (AGAIN : forall m p', nd_db m = nd_db n -> nd_applied m id < e_index e ->
     nd_regs m id = Some p' -> refused_state (r_state p') = false -> r_state p' <> SStandby ->
     r_conf p' = r_conf p -> r_ver p' = r_ver p -> r_start p' = r_start p -> r_end p' = r_end p ->
     nd_regs m (sp_to s) = Some c -> (forall j, j <> id -> j <> sp_to s -> nd_regs m j = nd_regs n j) ->
     exists n', apply ctx' id e m = Some n' /\ (forall j, nd_regs n' j = nd_regs nf j) /\ same_data nf n').
  { intros m p' MD MA MP MR MS PC PV PA PB MC MO'.
    destruct (pre_split_total id s m p' c MP MC T) as (e2 & H2); try congruence.
    destruct (pre_split_result id s m p' e2 MP (not_refused _ MR MS)) as (c2 & C2' & _ & _ & _ & _ & MO2 & RG2); try congruence.
    rewrite MC in C2'. injection C2' as <-.
    exists (performs m (e2 ++ finish id (e_index e))). split; [|split].
    - unfold apply, on_apply. rewrite MP. destruct (Z.leb_spec (e_index e) (nd_applied m id)); [lia|].
      destruct (rstate_eqb (r_state p') SStandby) eqn:X.
      { destruct (r_state p'); try discriminate. contradiction. }
      rewrite MR, PC, PV, <- C1, <- C2, !Z.eqb_refl. cbn [andb negb].
      rewrite Q. cbn [run_reqs handler]. unfold split_handler. rewrite PRE, H2. cbn [then_run].
      rewrite app_nil_r. reflexivity.
    - intros j. rewrite performs_app, performs_regs, finish_metas, RG2, RF.
      unfold split_regs. rewrite PC, PV, PA, PB.
      destruct (Z.eqb_spec j id); auto. destruct (Z.eqb_spec j (sp_to s)); auto.
    - intros cf x. rewrite performs_db, ops_app, finish_ops, app_nil_r, (meta_only_db e2 MO2), MD, DF. reflexivity. }
  rewrite (pre_split_list id s n p c P C T V SP SC L1 L2) in H. injection H as <-.
  assert (AP : nd_applied nc id < e_index e \/ e_index e <= nd_applied nc id) by lia.
  assert (DC : nd_db nc = nd_db n).
  { unfold nc, crash_at. cbn [restart nd_db]. rewrite performs_db.
    replace (ops_of (firstn k es)) with (@nil wop); auto. symmetry. apply meta_only_db.
    apply Forall_firstn. rewrite E. apply Forall_app. split; auto.
    unfold finish. destruct (_ =? 0); repeat constructor. }
  subst es. cbn [app] in nc.
  destruct k as [|[|[|k]]].
  - apply (AGAIN nc p); auto.
    unfold nc. cbn. lia.
  - apply (AGAIN nc (mkR SNormal (r_conf p) (r_ver p) (r_start p) (r_end p) (sp_job s))); auto; try discriminate.
    + unfold nc. cbn. lia.
    + unfold nc. cbn. zsimp. auto.
    + unfold nc. cbn. zsimp. auto.
    + intros j J1 J2. unfold nc. cbn. zsimp. auto.
  - apply (AGAIN nc (mkR SSplitting (r_conf p) (r_ver p) (r_start p) (r_end p) (sp_job s))); auto; try discriminate.
    + unfold nc. cbn. lia.
    + unfold nc. cbn. zsimp. auto.
    + unfold nc. cbn. zsimp. auto.
    + intros j J1 J2. unfold nc. cbn. zsimp. auto.
  - destruct CR as [CR|CR].
    { (* the child's version has been written *)
      exfalso.
      assert (X : exists r', nd_regs nc (sp_to s) = Some r' /\ r_ver r' = r_ver c + 1).
      { unfold nc, crash_at. cbn [restart nd_regs]. rewrite performs_regs.
        destruct k as [|[|[|[|k]]]]; cbn [firstn metas]; try (eexists; split; [zsimp; reflexivity|reflexivity]).
        eexists. split.
        - rewrite metas_fin. zsimp. reflexivity.
        - reflexivity. }
      destruct X as (r' & X1 & X2). specialize (CR _ _ _ C X1). lia. }
    destruct AP as [AP|AP].
    + exists (performs nc (finish id (e_index e))). split; [|split].
      * unfold apply, on_apply. rewrite CR, RF. unfold split_regs. rewrite Z.eqb_refl.
        destruct (Z.leb_spec (e_index e) (nd_applied nc id)); [lia|]. cbn [r_state rstate_eqb refused_state r_conf r_ver].
        rewrite C2. destruct (Z.eqb_spec (r_ver p) (r_ver p + 1)); [lia|]. rewrite andb_false_r. reflexivity.
      * intros j. rewrite performs_regs, finish_metas. auto.
      * intros cf x. rewrite performs_db, finish_ops, DF, <- DC. reflexivity.
    + exists nc. split; [|split].
      * unfold apply, on_apply. rewrite CR, RF. unfold split_regs. rewrite Z.eqb_refl.
        rewrite (proj2 (Z.leb_le _ _)) by auto. reflexivity.
      * auto.
      * intros cf x. rewrite DF, <- DC. reflexivity.
Qed.
