(** Proofs: a region's version never falls and fixes its range; refused entries change nothing. *)
From Coq Require Import ZArith List Bool Lia.
From Verif Require Import Bytes RegModel RegSpec RegProofs.
Import ListNotations.
Local Open Scope Z_scope.

Lemma zput_same {A} (f : Z -> A) k v : zput f k v k = v.
Proof. unfold zput. rewrite Z.eqb_refl. auto. Qed.

Lemma zput_other {A} (f : Z -> A) k v x : x <> k -> zput f k v x = f x.
Proof. unfold zput. intros H. destruct (Z.eqb_spec x k); [contradiction|auto]. Qed.

(** ** Growth of versions *)

Definition grown (r r' : region) : Prop :=
  r_conf r' = r_conf r /\
  (r_ver r < r_ver r' \/ (r_ver r' = r_ver r /\ r_start r' = r_start r /\ r_end r' = r_end r)).

Definition grows (n n' : node) : Prop :=
  forall id r, nd_regs n id = Some r -> exists r', nd_regs n' id = Some r' /\ grown r r'.

Lemma grown_refl r : grown r r.
Proof. split; auto. Qed.

Lemma grown_trans a b c : grown a b -> grown b c -> grown a c.
Proof.
  intros [A1 A2] [B1 B2]. split; [congruence|].
  destruct A2 as [A2|(A2 & A3 & A4)], B2 as [B2|(B2 & B3 & B4)]; [left; lia|left; lia|left; lia|].
  right. repeat split; congruence.
Qed.

Lemma grows_refl n : grows n n.
Proof. intros id r H. exists r. split; auto. apply grown_refl. Qed.

Lemma grows_trans a b c : grows a b -> grows b c -> grows a c.
Proof.
  intros A B id r H. destruct (A id r H) as (r1 & H1 & G1). destruct (B id r1 H1) as (r2 & H2 & G2).
  exists r2. split; auto. eapply grown_trans; eauto.
Qed.

Lemma grows_regs n n' : nd_regs n' = nd_regs n -> grows n n'.
Proof. intros E id r H. exists r. rewrite E. split; auto. apply grown_refl. Qed.

Lemma grows_meta n id r0 r : nd_regs n id = Some r0 -> grown r0 r -> grows n (perform n (EMeta id r)).
Proof.
  intros H G j rj Hj. cbn [perform nd_regs]. destruct (Z.eq_dec j id) as [->|N].
  - rewrite zput_same. exists r. split; auto. congruence.
  - rewrite zput_other by auto. exists rj. split; auto. apply grown_refl.
Qed.

Lemma grows_new n id r : nd_regs n id = None -> grows n (perform n (EMeta id r)).
Proof.
  intros H j rj Hj. cbn [perform nd_regs]. destruct (Z.eq_dec j id) as [->|N]; [congruence|].
  rewrite zput_other by auto. exists rj. split; auto. apply grown_refl.
Qed.

(** Every effect of a list, performed in order, lets the versions grow. *)
Fixpoint tame (n : node) (es : list eff) : Prop :=
  match es with
  | [] => True
  | e :: rest => grows n (perform n e) /\ tame (perform n e) rest
  end.

Lemma tame_app a : forall n b, tame n a -> tame (performs n a) b -> tame n (a ++ b).
Proof.
  induction a as [|e a IH]; intros n b A B; cbn [app tame] in *; auto.
  destruct A as [A1 A2]. split; auto.
Qed.

Lemma tame_firstn k : forall n es, tame n es -> grows n (performs n (firstn k es)).
Proof.
  induction k as [|k IH]; intros n [|e es] T; cbn [firstn]; try apply grows_refl.
  destruct T as [T1 T2]. change (performs n (e :: firstn k es)) with (performs (perform n e) (firstn k es)).
  eapply grows_trans; [exact T1|]. apply IH; auto.
Qed.

Lemma tame_all n es : tame n es -> grows n (performs n es).
Proof. intros T. rewrite <- (firstn_all es) at 1. apply tame_firstn; auto. Qed.

Lemma tame_no_meta es : forall n, Forall no_meta es -> tame n es.
Proof.
  induction es as [|e es IH]; intros n F; cbn [tame]; auto. inversion F; subst. split; auto.
  apply grows_regs. destruct e; auto. contradiction.
Qed.

Lemma batch_no_meta es : Forall is_batch es -> Forall no_meta es.
Proof. apply Forall_impl. intros e (ws & ->). exact I. Qed.

Lemma finish_no_meta id i : Forall no_meta (finish id i).
Proof. unfold finish. destruct (i mod save_step =? 0); repeat (constructor; [exact I|]); constructor. Qed.

Lemma tame_state id s n : tame n (op_state id s n).
Proof.
  unfold op_state. destruct (nd_regs n id) as [r|] eqn:E; cbn; auto.
  destruct (can_move (r_state r) s); cbn [tame]; auto. split; auto.
  eapply grows_meta; eauto. split; auto.
Qed.

Lemma tame_epoch id v a b n : tame n (op_epoch id v a b n).
Proof.
  unfold op_epoch. destruct (nd_regs n id) as [r|] eqn:E; cbn; auto.
  destruct (Z.leb_spec v (r_ver r)); cbn [tame]; auto. split; auto.
  eapply grows_meta; eauto. split; auto.
Qed.

Lemma tame_bump id a b n : tame n (op_bump id a b n).
Proof. unfold op_bump. destruct (nd_regs n id) as [r|] eqn:E; cbn; auto. apply tame_epoch. Qed.

Lemma tame_job id j n : tame n (op_job id j n).
Proof.
  unfold op_job. destruct (nd_regs n id) as [r|] eqn:E; cbn [tame]; auto. split; auto.
  eapply grows_meta; eauto. split; auto.
Qed.

Lemma tame_create id r n : nd_regs n id = None -> tame n (op_create id r n).
Proof.
  intros H. unfold op_create. cbn [tame]. split; [apply grows_regs; auto|].
  split; [apply grows_regs; auto|]. split; auto. apply grows_new. auto.
Qed.

Lemma seq_cons o ops n : seq (o :: ops) n = o n ++ seq ops (performs n (o n)).
Proof. reflexivity. Qed.

Lemma tame_seq ops : forall n, Forall (fun o => forall m, tame m (o m)) ops -> tame n (seq ops n).
Proof.
  induction ops as [|o ops IH]; intros n F; cbn [seq]; [exact I|].
  inversion F; subst. apply tame_app; auto.
Qed.

Lemma op_state_regs id s n j : j <> id -> nd_regs (performs n (op_state id s n)) j = nd_regs n j.
Proof.
  intros H. unfold op_state. destruct (nd_regs n id) as [r|]; auto.
  destruct (can_move (r_state r) s); auto. cbn. apply zput_other; auto.
Qed.

Definition tame_res (n : node) (r : res) : Prop :=
  match r with ROk es => tame n es | RAbort es => tame n es | RWait => True end.

Lemma data_res_tame n r : data_res r -> tame_res n r.
Proof. destruct r; simpl; auto; intros; apply tame_no_meta; apply batch_no_meta; auto. Qed.

Lemma then_run_tame n a f : tame_res n a -> (forall m, tame_res m (f m)) -> tame_res n (then_run n a f).
Proof.
  intros A F. destruct a as [es|es|]; cbn [then_run]; auto.
  specialize (F (performs n es)). destruct (f (performs n es)); simpl in *; auto; apply tame_app; auto.
Qed.

Lemma tame_saved id i n : tame n [ESaved id i].
Proof. apply tame_no_meta. constructor; [exact I|constructor]. Qed.

Lemma pre_split_tame id s n : tame_res n (pre_split id s n).
Proof.
  unfold pre_split. pose proof (tame_job id (sp_job s) n) as J.
  destruct (nd_regs (performs n (op_job id (sp_job s) n)) id) as [p|]; [|exact J].
  destruct (negb (sp_ver s =? r_ver p)); [exact J|].
  destruct (nd_regs (performs n (op_job id (sp_job s) n)) (sp_to s)) as [c|]; [|exact J].
  destruct (negb (rstate_eqb (r_state c) SStandby)); [exact J|].
  destruct (bleb (r_end p) (r_start p)); [exact J|].
  destruct (bleb (sp_key s) (r_start p) || bleb (r_end p) (sp_key s)); [exact J|].
  apply tame_app; [exact J|]. apply tame_app; [|apply tame_saved].
  apply tame_seq.
  repeat (apply Forall_cons; [intros m; first [apply tame_state|apply tame_bump]|]). constructor.
Qed.

Lemma op_job_none id j n x : nd_regs n x = None -> nd_regs (performs n (op_job id j n)) x = None.
Proof.
  intros H. unfold op_job. destruct (nd_regs n id) as [r|] eqn:E; auto. cbn.
  rewrite zput_other; auto. congruence.
Qed.

Lemma post_split_tame id s n : tame_res n (post_split id s n).
Proof.
  unfold post_split. pose proof (tame_job id (sp_job s) n) as J.
  destruct (nd_regs (performs n (op_job id (sp_job s) n)) id) as [p|] eqn:EP; [|exact J].
  destruct (negb (sp_ver s =? r_ver p)); [exact J|].
  destruct (bleb (r_end p) (r_start p)); [exact J|].
  destruct (bleb (sp_key s) (r_start p) || bleb (r_end p) (sp_key s)); [exact J|].
  destruct (nd_regs (performs n (op_job id (sp_job s) n)) (sp_to s)) as [c|] eqn:EC.
  - apply tame_app; auto. apply tame_state.
  - apply tame_app; [exact J|]. apply tame_app; [|apply tame_saved].
    rewrite seq_cons. apply tame_app; [apply tame_state|].
    rewrite seq_cons. apply tame_app.
    + apply tame_create. rewrite op_state_regs; auto. intros E. rewrite E in EC. congruence.
    + apply tame_seq.
      repeat (apply Forall_cons; [intros m; first [apply tame_state|apply tame_bump]|]). constructor.
Qed.

Lemma prepare_tame id p n : tame_res n (prepare_handler id p n).
Proof.
  unfold prepare_handler. pose proof (tame_job id (pm_job p) n) as J.
  destruct (nd_regs (performs n (op_job id (pm_job p) n)) id) as [s|]; [|exact J].
  assert (G : tame n (op_job id (pm_job p) n ++
    seq [op_state id SMerging; op_bump id (r_start s) (r_end s)] (performs n (op_job id (pm_job p) n)))).
  { apply tame_app; [exact J|]. apply tame_seq.
    repeat (apply Forall_cons; [intros m; first [apply tame_state|apply tame_bump]|]). constructor. }
  destruct (nd_regs (performs n (op_job id (pm_job p) n)) (pm_target p)) as [t|]; [|exact G].
  destruct (_ =? 0); [exact G|]. destruct (_ <? 0); [exact I|exact J].
Qed.

Lemma catch_up_loop_no_meta id es : forall n,
  match catch_up_loop id es n with
  | ROk ef => Forall no_meta ef | RAbort ef => Forall no_meta ef | RWait => False end.
Proof.
  induction es as [|e es IH]; intros n; cbn [catch_up_loop]; auto.
  destruct (de_index e <=? nd_applied n id); [exact (IH n)|].
  pose proof (run_data_data false (de_reqs e) n) as D.
  destruct (run_data false n (de_reqs e)) as [ws|ws|]; cbn [then_run] in *; try contradiction.
  - specialize (IH (performs n (ws ++ finish id (de_index e)))).
    destruct (catch_up_loop id es (performs n (ws ++ finish id (de_index e)))); try contradiction;
      (apply Forall_app; split; [|exact IH]; apply Forall_app; split;
       [apply batch_no_meta; auto | apply finish_no_meta]).
  - apply batch_no_meta; auto.
Qed.

Lemma catch_up_no_meta id es n :
  match catch_up id es n with
  | ROk ef => Forall no_meta ef | RAbort ef => Forall no_meta ef | RWait => False end.
Proof.
  unfold catch_up. destruct es as [|e es]; auto.
  destruct (_ <=? _); auto. apply catch_up_loop_no_meta.
Qed.

Lemma commit_tame id c n : tame_res n (commit_handler id c n).
Proof.
  unfold commit_handler. pose proof (tame_job id (cm_job c) n) as J.
  destruct (nd_regs (performs n (op_job id (cm_job c) n)) id) as [t|]; [|exact J].
  destruct (nd_regs (performs n (op_job id (cm_job c) n)) (cm_source c)) as [s|]; [|exact J].
  apply then_run_tame; [exact J|]. intros m. apply then_run_tame.
  - pose proof (catch_up_no_meta (cm_source c) (cm_entries c) m) as K.
    destruct (catch_up (cm_source c) (cm_entries c) m); cbn [tame_res]; auto; apply tame_no_meta; auto.
  - intros m'. cbn [tame_res]. apply tame_seq.
    repeat (apply Forall_cons;
            [intros m0; first [apply tame_state|apply tame_bump|apply tame_epoch]|]). constructor.
Qed.

Lemma handler_tame ctx id q n : tame_res n (handler ctx id q n).
Proof.
  destruct q; cbn [handler].
  - apply data_res_tame. apply data_handler_data.
  - unfold split_handler. destruct (sp_pre s); [apply pre_split_tame|apply post_split_tame].
  - apply prepare_tame.
  - apply commit_tame.
Qed.

Lemma run_reqs_tame ctx id qs : forall n, tame_res n (run_reqs ctx id qs n).
Proof.
  induction qs as [|q qs IH]; intros n; cbn [run_reqs]; [exact I|].
  apply then_run_tame; auto. apply handler_tame.
Qed.

Lemma on_apply_tame ctx id e n :
  match on_apply ctx id e n with ADone es _ => tame n es | AAbort es => tame n es | AWait => True end.
Proof.
  unfold on_apply. destruct (nd_regs n id) as [r|]; [|exact I].
  destruct (e_index e <=? nd_applied n id); [exact I|].
  destruct (rstate_eqb (r_state r) SStandby); [exact I|].
  pose proof (tame_no_meta (finish id (e_index e)) n (finish_no_meta _ _)) as F.
  destruct (refused_state (r_state r)); [exact F|].
  destruct (negb ((e_conf e =? r_conf r) && (e_ver e =? r_ver r))); [exact F|].
  pose proof (run_reqs_tame ctx id (e_reqs e) n) as T.
  destruct (run_reqs ctx id (e_reqs e) n); cbn [tame_res] in T; auto.
  apply tame_app; auto. apply tame_no_meta. apply finish_no_meta.
Qed.

Lemma restart_grows n n' : grows n n' -> grows n (restart n').
Proof. intros G id r H. exact (G id r H). Qed.

Lemma step_grows n v n' : step n v = Some n' -> grows n n'.
Proof.
  intros H. destruct v as [ctx id e|ctx id e k|id conf ver a b]; cbn [step] in H.
  - unfold apply in H. pose proof (on_apply_tame ctx id e n) as T.
    destruct (on_apply ctx id e n); try discriminate. injection H as <-. apply tame_all; auto.
  - pose proof (on_apply_tame ctx id e n) as T.
    destruct (on_apply ctx id e n); injection H as <-.
    + apply restart_grows. apply tame_firstn; auto.
    + apply restart_grows. apply tame_firstn; auto.
    + apply restart_grows. apply grows_refl.
  - destruct (nd_regs n id) eqn:E; try discriminate. injection H as <-.
    exact (tame_all n _ (tame_create id (mkR SStandby conf ver a b 0) n E)).
Qed.

Lemma run_grows vs : forall n n', run n vs = Some n' -> grows n n'.
Proof.
  induction vs as [|v vs IH]; intros n n' H; cbn [run] in H.
  - injection H as ->. apply grows_refl.
  - destruct (step n v) as [m|] eqn:E; try discriminate.
    eapply grows_trans; [eapply step_grows; eauto | eauto].
Qed.

Lemma version_fixes_range n vs n' id r r' : run n vs = Some n' ->
  nd_regs n id = Some r -> nd_regs n' id = Some r' ->
  r_ver r <= r_ver r' /\ (r_ver r' = r_ver r -> r_start r' = r_start r /\ r_end r' = r_end r).
Proof.
  intros H A B. destruct (run_grows vs n n' H id r A) as (x & X & _ & G).
  rewrite B in X. injection X as <-. destruct G as [G|(G1 & G2 & G3)]; split; intros; try lia; auto.
Qed.

(** ** Refused entries *)

Lemma refused_changes_nothing ctx id e n r es st :
  nd_regs n id = Some r ->
  (refused_state (r_state r) = true \/ e_conf e <> r_conf r \/ e_ver e <> r_ver r) ->
  on_apply ctx id e n = ADone es st ->
  st <> StOk /\ same_data n (performs n es) /\ (forall j, nd_regs (performs n es) j = nd_regs n j).
Proof.
  intros R C H. unfold on_apply in H. rewrite R in H.
  destruct (e_index e <=? nd_applied n id).
  { injection H as <- <-. split; [discriminate|]. split; intros ?; auto. }
  destruct (rstate_eqb (r_state r) SStandby); try discriminate.
  assert (F : forall s, s <> StOk -> ADone (finish id (e_index e)) s = ADone es st ->
    st <> StOk /\ same_data n (performs n es) /\ (forall j, nd_regs (performs n es) j = nd_regs n j)).
  { intros s S E. injection E as <- <-. destruct (finish_mem id (e_index e) n) as (_ & X & Y).
    split; auto. split; [intros cf k; rewrite Y; auto | intros j; rewrite X; auto]. }
  destruct (refused_state (r_state r)) eqn:RS.
  { apply (F StUnavailable); [discriminate|auto]. }
  destruct (negb ((e_conf e =? r_conf r) && (e_ver e =? r_ver r))) eqn:NE.
  { apply (F StVersion); [discriminate|auto]. }
  exfalso. apply negb_false_iff, andb_true_iff in NE. destruct NE as [N1 N2].
  apply Z.eqb_eq in N1, N2. destruct C as [C|[C|C]]; [discriminate|contradiction|contradiction].
Qed.

(** The converse: the status tells what happened. *)
Lemma accepted_means ctx id e n es : on_apply ctx id e n = ADone es StOk ->
  exists r, nd_regs n id = Some r /\ refused_state (r_state r) = false /\ r_state r <> SStandby /\
    e_conf e = r_conf r /\ e_ver e = r_ver r /\ nd_applied n id < e_index e /\
    exists ws, run_reqs ctx id (e_reqs e) n = ROk ws /\ es = ws ++ finish id (e_index e).
Proof.
  intros H. unfold on_apply in H. destruct (nd_regs n id) as [r|] eqn:R; try discriminate.
  destruct (Z.leb_spec (e_index e) (nd_applied n id)); try discriminate.
  destruct (rstate_eqb (r_state r) SStandby) eqn:SB; try discriminate.
  destruct (refused_state (r_state r)) eqn:RS; try discriminate.
  destruct (negb ((e_conf e =? r_conf r) && (e_ver e =? r_ver r))) eqn:NE; try discriminate.
  apply negb_false_iff, andb_true_iff in NE. destruct NE as [N1 N2]. apply Z.eqb_eq in N1, N2.
  destruct (run_reqs ctx id (e_reqs e) n) as [ws|ws|] eqn:RR; try discriminate. injection H as <-.
  exists r. split; auto. split; auto. split.
  { intros E. rewrite E in SB. discriminate. }
  split; auto. split; auto. split; auto. exists ws. auto.
Qed.

(** ** Writes stay inside the range *)

Lemma put_ops_named cf kvs ws w c k : put_ops cf kvs = Some ws -> In w ws -> touches w c k ->
  exists v, In (k, v) kvs.
Proof.
  unfold put_ops. destruct (_ && _); try discriminate. intros H. injection H as <-.
  intros I T. apply in_map_iff in I. destruct I as ([x v] & <- & I). cbn in T. destruct T as [_ <-].
  exists v. auto.
Qed.

Lemma delr_ops_named cf rs ws w c k : delr_ops cf rs = Some ws -> In w ws -> touches w c k ->
  exists a b, In (a, b) rs /\ inside a b k.
Proof.
  unfold delr_ops. destruct (forallb _ rs); try discriminate. intros H. injection H as <-.
  intros I T. apply in_map_iff in I. destruct I as ([a b] & <- & I). cbn in T. destruct T as [_ T].
  exists a, b. auto.
Qed.

Lemma data_handler_names ctx d es cf k : data_handler ctx d = ROk es ->
  touched (ops_of es) cf k -> names d k.
Proof.
  intros H (w & I & T).
  assert (ON : forall o es0, write_or_nothing o = ROk es0 -> In w (ops_of es0) -> exists ws, o = Some ws /\ In w ws).
  { intros [ws|] es0 E J; injection E as <-; cbn in J; try contradiction.
    rewrite app_nil_r in J. eauto. }
  assert (OA : forall o es0, write_or_abort o = ROk es0 -> In w (ops_of es0) -> exists ws, o = Some ws /\ In w ws).
  { intros [ws|] es0 E J; try discriminate; injection E as <-; cbn in J.
    rewrite app_nil_r in J. eauto. }
  destruct d as [c kvs|c keys|c ranges|puts dels|a b]; cbn [data_handler names] in *.
  - destruct (ON _ _ H I) as (ws & E & J). eapply put_ops_named; eauto.
  - destruct (ON _ _ H I) as (ws & E & J). destruct (put_ops_named _ _ _ _ _ _ E J T) as (v & V).
    apply in_map_iff in V. destruct V as (x & X & Y). injection X as -> _. auto.
  - destruct (ON _ _ H I) as (ws & E & J). eapply delr_ops_named; eauto.
  - assert (M : exists ws, multi_ops puts dels = Some ws /\ In w ws).
    { destruct puts, dels; try (apply (OA _ _ H I)). injection H as <-. destruct I. }
    destruct M as (ws & E & J). unfold multi_ops in E. destruct (_ && _); try discriminate.
    injection E as <-. apply in_app_or in J. destruct J as [J|J]; apply in_map_iff in J.
    + destruct J as ([[c x] v] & <- & J). cbn in T. destruct T as [_ <-]. left. eauto.
    + destruct J as ([c x] & <- & J). cbn in T. destruct T as [_ <-]. right. eauto.
  - destruct ctx; try discriminate.
    destruct (OA _ _ H I) as (ws & E & J).
    destruct (delr_ops CF_DATA [(a, b)]) as [x|] eqn:X; try discriminate.
    destruct (delr_ops CF_LOCK [(a, b)]) as [y|] eqn:Y; try discriminate.
    destruct (delr_ops CF_WRITE [(a, b)]) as [z|] eqn:Z0; try discriminate.
    injection E as <-. apply in_app_or in J.
    assert (G : forall c o, delr_ops c [(a, b)] = Some o -> In w o -> inside a b k).
    { intros c o O J'. destruct (delr_ops_named _ _ _ _ _ _ O J' T) as (a' & b' & [E'|[]] & IN).
      injection E' as <- <-. auto. }
    destruct J as [J|J]; [exact (G _ _ X J)|]. apply in_app_or in J.
    destruct J as [J|J]; [exact (G _ _ Y J)|exact (G _ _ Z0 J)].
Qed.

Lemma run_reqs_names ctx id qs : Forall is_data qs -> forall n es cf k,
  run_reqs ctx id qs n = ROk es -> touched (ops_of es) cf k ->
  exists d, In (QData d) qs /\ names d k.
Proof.
  induction 1 as [|q qs (d & ->) F IH]; intros n es cf k H T; cbn [run_reqs handler] in H.
  - injection H as <-. destruct T as (w & [] & _).
  - destruct (data_handler ctx d) as [e1|e1|] eqn:E1; cbn [then_run] in H; try discriminate.
    destruct (run_reqs ctx id qs (performs n e1)) as [e2|e2|] eqn:E2; try discriminate.
    injection H as <-. rewrite ops_app in T. apply touched_app in T. destruct T as [T|T].
    + exists d. split; [left; auto|]. eapply data_handler_names; eauto.
    + destruct (IH _ _ _ _ E2 T) as (d' & I & N). exists d'. split; [right; auto|auto].
Qed.

Lemma finish_ops id i : ops_of (finish id i) = [].
Proof. unfold finish. destruct (i mod save_step =? 0); reflexivity. Qed.

(** A command accepted long after it was checked still writes inside the range. *)
Lemma writes_stay_inside n vs n' ctx id e r es cf k :
  nd_regs n id = Some r -> e_conf e = r_conf r -> e_ver e = r_ver r ->
  data_entry e ->
  (forall d x, In (QData d) (e_reqs e) -> names d x -> inside (r_start r) (r_end r) x) ->
  run n vs = Some n' -> on_apply ctx id e n' = ADone es StOk ->
  exists r', nd_regs n' id = Some r' /\
    (~ inside (r_start r') (r_end r') k -> nd_db (performs n' es) cf k = nd_db n' cf k).
Proof.
  intros R C V D N H A. destruct (accepted_means _ _ _ _ _ A) as (r' & R' & _ & _ & _ & V' & _ & ws & W & ->).
  exists r'. split; auto. intros O.
  destruct (version_fixes_range n vs n' id r r' H R R') as [_ F].
  destruct F as [F1 F2]; [congruence|].
  rewrite performs_db, ops_app, finish_ops, app_nil_r. apply batch_other.
  intros T. apply O. destruct (run_reqs_names ctx id (e_reqs e) D n' ws cf k W T) as (d & I & M).
  rewrite F1, F2. eauto.
Qed.
