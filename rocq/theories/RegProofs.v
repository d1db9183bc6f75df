(** Proofs about applying data commands: effects, and replay after crashes. *)
From Coq Require Import ZArith List Bool Lia.
From Verif Require Import Bytes RegModel RegSpec.
Import ListNotations.
Local Open Scope Z_scope.

Lemma performs_app n a b : performs n (a ++ b) = performs (performs n a) b.
Proof. unfold performs. apply fold_left_app. Qed.

Lemma performs_nil n : performs n [] = n.
Proof. reflexivity. Qed.

(** ** Batches *)

Lemma inside_dec a b k : between a b k = true <-> inside a b k.
Proof.
  unfold between, inside, le, lt, bleb, bltb.
  destruct (bcmp a k), (bcmp k b); simpl; split; intuition congruence.
Qed.

Lemma beqb_true a b : beqb a b = true <-> a = b.
Proof. unfold beqb. rewrite <- bcmp_eq. destruct (bcmp a b); split; congruence. Qed.

Lemma touches_dec w cf k : {touches w cf k} + {~ touches w cf k}.
Proof.
  destruct w as [c x v|c x|c a b]; cbn [touches].
  - destruct (Z.eq_dec c cf); [|right; tauto]. destruct (beqb x k) eqn:E.
    + left. apply beqb_true in E. auto.
    + right. intros [_ H]. apply beqb_true in H. congruence.
  - destruct (Z.eq_dec c cf); [|right; tauto]. destruct (beqb x k) eqn:E.
    + left. apply beqb_true in E. auto.
    + right. intros [_ H]. apply beqb_true in H. congruence.
  - destruct (Z.eq_dec c cf); [|right; tauto]. destruct (between a b k) eqn:E.
    + left. apply inside_dec in E. auto.
    + right. intros [_ H]. apply inside_dec in H. congruence.
Qed.

Lemma wop_other d w cf k : ~ touches w cf k -> do_wop d w cf k = d cf k.
Proof.
  destruct w as [c x v|c x|c a b]; cbn [touches do_wop]; intros H.
  - destruct (Z.eqb_spec cf c) as [->|]; simpl; auto. destruct (beqb k x) eqn:E; auto.
    apply beqb_true in E. subst. tauto.
  - destruct (Z.eqb_spec cf c) as [->|]; simpl; auto. destruct (beqb k x) eqn:E; auto.
    apply beqb_true in E. subst. tauto.
  - destruct (Z.eqb_spec cf c) as [->|]; simpl; auto. destruct (between a b k) eqn:E; auto.
    apply inside_dec in E. tauto.
Qed.

Lemma wop_same d d' w cf k : touches w cf k -> do_wop d w cf k = do_wop d' w cf k.
Proof.
  destruct w as [c x v|c x|c a b]; cbn [touches do_wop]; intros [-> H].
  - subst. rewrite Z.eqb_refl. rewrite (proj2 (beqb_true _ _) eq_refl). reflexivity.
  - subst. rewrite Z.eqb_refl. rewrite (proj2 (beqb_true _ _) eq_refl). reflexivity.
  - rewrite Z.eqb_refl. rewrite (proj2 (inside_dec _ _ _) H). reflexivity.
Qed.

Lemma wop_ext d d' w cf k : d cf k = d' cf k -> do_wop d w cf k = do_wop d' w cf k.
Proof.
  intros E. destruct (touches_dec w cf k) as [H|H]; [apply wop_same; auto|].
  rewrite !wop_other; auto.
Qed.

Definition touched (ws : list wop) (cf : Z) (k : bytes) : Prop :=
  exists w, In w ws /\ touches w cf k.

Lemma touched_dec ws cf k : {touched ws cf k} + {~ touched ws cf k}.
Proof.
  induction ws as [|w ws IH].
  - right. intros (x & [] & _).
  - destruct (touches_dec w cf k) as [H|H]; [left; exists w; simpl; auto|].
    destruct IH as [T|T].
    + left. destruct T as (x & I & T). exists x. simpl; auto.
    + right. intros (x & [->|I] & X); [tauto|]. apply T. exists x; auto.
Qed.

Lemma touched_app a b cf k : touched (a ++ b) cf k <-> touched a cf k \/ touched b cf k.
Proof.
  split.
  - intros (w & I & T). apply in_app_or in I. destruct I; [left|right]; exists w; auto.
  - intros [(w & I & T)|(w & I & T)]; exists w; split; auto; apply in_or_app; auto.
Qed.

Lemma batch_app d a b : do_batch d (a ++ b) = do_batch (do_batch d a) b.
Proof. apply fold_left_app. Qed.

Lemma batch_ext ws : forall d d' cf k, d cf k = d' cf k -> do_batch d ws cf k = do_batch d' ws cf k.
Proof.
  induction ws as [|w ws IH]; cbn [do_batch fold_left]; intros; auto.
  apply IH. apply wop_ext; auto.
Qed.

Lemma batch_other ws : forall d cf k, ~ touched ws cf k -> do_batch d ws cf k = d cf k.
Proof.
  induction ws as [|w ws IH]; intros d cf k H; auto.
  change (do_batch d (w :: ws)) with (do_batch (do_wop d w) ws).
  rewrite IH.
  - apply wop_other. intros T. apply H. exists w; simpl; auto.
  - intros (x & I & T). apply H. exists x; simpl; auto.
Qed.

Lemma batch_same ws : forall d d' cf k, touched ws cf k -> do_batch d ws cf k = do_batch d' ws cf k.
Proof.
  induction ws as [|w ws IH]; intros d d' cf k T.
  - destruct T as (x & [] & _).
  - change (do_batch (do_wop d w) ws cf k = do_batch (do_wop d' w) ws cf k).
    destruct (touched_dec ws cf k) as [Y|N]; [apply IH; auto|].
    rewrite !batch_other by auto. apply wop_same.
    destruct T as (x & [->|I] & X); auto. exfalso. apply N. exists x; auto.
Qed.

(** ** Effects that only write data *)

Definition is_batch (e : eff) : Prop := exists ws, e = EBatch ws.

Definition ops_of (es : list eff) : list wop :=
  flat_map (fun e => match e with EBatch ws => ws | _ => [] end) es.

Lemma ops_app a b : ops_of (a ++ b) = ops_of a ++ ops_of b.
Proof. apply flat_map_app. Qed.

Lemma performs_db es : forall n, nd_db (performs n es) = do_batch (nd_db n) (ops_of es).
Proof.
  induction es as [|e es IH]; intros n; auto.
  change (performs n (e :: es)) with (performs (perform n e) es). rewrite IH.
  destruct e; cbn [perform nd_db ops_of flat_map]; auto.
  fold (ops_of es). rewrite batch_app. reflexivity.
Qed.

Lemma batches_keep es : forall n, Forall is_batch es ->
  nd_regs (performs n es) = nd_regs n /\ nd_applied (performs n es) = nd_applied n /\
  nd_saved (performs n es) = nd_saved n.
Proof.
  induction es as [|e es IH]; intros n F; auto.
  inversion F as [|? ? (ws & ->) F']; subst.
  change (performs n (EBatch ws :: es)) with (performs (perform n (EBatch ws)) es).
  destruct (IH (perform n (EBatch ws)) F') as (A & B & C). rewrite A, B, C. auto.
Qed.

Definition data_res (r : res) : Prop :=
  match r with ROk es => Forall is_batch es | RAbort es => Forall is_batch es | RWait => False end.

Lemma write_or_nothing_data o : data_res (write_or_nothing o).
Proof. destruct o; simpl; auto. constructor; auto. eexists; eauto. Qed.

Lemma write_or_abort_data o : data_res (write_or_abort o).
Proof. destruct o; simpl; auto. constructor; auto. eexists; eauto. Qed.

Lemma data_handler_data ctx d : data_res (data_handler ctx d).
Proof.
  destruct d; cbn [data_handler].
  - apply write_or_nothing_data.
  - apply write_or_nothing_data.
  - apply write_or_nothing_data.
  - destruct puts, dels; try apply write_or_abort_data. simpl; auto.
  - destruct ctx; [apply write_or_abort_data | simpl; auto].
Qed.

Lemma then_run_data n a f : data_res a -> (forall m, data_res (f m)) -> data_res (then_run n a f).
Proof.
  intros A F. destruct a as [es|es|]; simpl in *; auto.
  specialize (F (performs n es)). destruct (f (performs n es)); simpl in *; auto; apply Forall_app; auto.
Qed.

Lemma run_data_data ctx ds : forall n, data_res (run_data ctx n ds).
Proof.
  induction ds as [|d ds IH]; intros n; simpl; auto.
  apply then_run_data; auto. apply data_handler_data.
Qed.

(** A data entry's handlers do not look at the node. *)
Lemma run_reqs_data ctx id qs : Forall is_data qs -> forall n, data_res (run_reqs ctx id qs n).
Proof.
  induction 1 as [|q qs (d & ->) F IH]; intros n; simpl; auto.
  apply then_run_data; auto. apply data_handler_data.
Qed.

Lemma plain_ctx d : plain d -> forall c c', data_handler c d = data_handler c' d.
Proof. intros P c c'. destruct d; auto. exfalso. eapply P; eauto. Qed.

Lemma run_reqs_plain id qs : Forall (fun q => exists d, q = QData d /\ plain d) qs ->
  forall c c' n n', run_reqs c id qs n = run_reqs c' id qs n'.
Proof.
  induction 1 as [|q qs (d & -> & P) F IH]; intros c c' n n'; auto.
  cbn [run_reqs handler]. rewrite (plain_ctx d P c c').
  destruct (data_handler c' d) as [es|es|]; cbn [then_run]; auto.
  rewrite (IH c c' _ (performs n' es)). reflexivity.
Qed.

Lemma plain_is_data e : plain_data e -> data_entry e.
Proof.
  unfold plain_data, data_entry. intros F. eapply Forall_impl; [|exact F].
  intros q (d & -> & _). exists d; auto.
Qed.

(** ** Effects of one entry, for a region that does not change *)

Definition n_zero : node := mkN (fun _ _ => None) (fun _ => None) (fun _ => 0) (fun _ => 0).

Definition body (id : Z) (r : region) (e : entry) : ares :=
  if rstate_eqb (r_state r) SStandby then AWait
  else if refused_state (r_state r) then ADone (finish id (e_index e)) StUnavailable
  else if negb ((e_conf e =? r_conf r) && (e_ver e =? r_ver r))
  then ADone (finish id (e_index e)) StVersion
  else match run_reqs false id (e_reqs e) n_zero with
       | ROk es => ADone (es ++ finish id (e_index e)) StOk
       | RAbort es => AAbort es
       | RWait => AWait
       end.

Lemma on_apply_body ctx id e n r : nd_regs n id = Some r -> plain_data e ->
  on_apply ctx id e n =
  if e_index e <=? nd_applied n id then ADone [] StSkipped else body id r e.
Proof.
  intros R P. unfold on_apply, body. rewrite R.
  rewrite (run_reqs_plain id (e_reqs e) P ctx false n n_zero). reflexivity.
Qed.

(** The effects of a data entry: batches, then [finish]. *)
Lemma body_shape id r e es st : plain_data e -> body id r e = ADone es st ->
  exists bs, Forall is_batch bs /\ es = bs ++ finish id (e_index e).
Proof.
  intros P H. unfold body in H.
  destruct (rstate_eqb (r_state r) SStandby); [discriminate|].
  destruct (refused_state (r_state r)).
  { injection H as <- <-. exists []. auto. }
  destruct (negb ((e_conf e =? r_conf r) && (e_ver e =? r_ver r))).
  { injection H as <- <-. exists []. auto. }
  pose proof (run_reqs_data false id (e_reqs e) (plain_is_data e P) n_zero) as D.
  destruct (run_reqs false id (e_reqs e) n_zero) as [bs|bs|]; try discriminate.
  injection H as <- <-. exists bs. auto.
Qed.

Definition effs (id : Z) (r : region) (e : entry) : list eff :=
  match body id r e with ADone es _ => es | _ => [] end.

Definition stream (id : Z) (r : region) (es : list entry) : list eff :=
  flat_map (effs id r) es.

Lemma finish_mem id i n : nd_applied (performs n (finish id i)) id = i /\
  nd_regs (performs n (finish id i)) = nd_regs n /\
  nd_db (performs n (finish id i)) = nd_db n.
Proof.
  unfold finish. destruct (i mod save_step =? 0); cbn; unfold zput; rewrite Z.eqb_refl; auto.
Qed.

Lemma finish_saved id i n : nd_saved (performs n (finish id i)) id =
  if i mod save_step =? 0 then i else nd_saved n id.
Proof.
  unfold finish. destruct (i mod save_step =? 0); cbn; unfold zput; auto. rewrite Z.eqb_refl; auto.
Qed.

Lemma effs_keep id r e es st n : plain_data e -> body id r e = ADone es st ->
  nd_regs (performs n es) = nd_regs n /\ nd_applied (performs n es) id = e_index e.
Proof.
  intros P B. destruct (body_shape _ _ _ _ _ P B) as (bs & F & ->).
  rewrite performs_app. destruct (batches_keep bs n F) as (A1 & A2 & A3).
  destruct (finish_mem id (e_index e) (performs n bs)) as (X & Y & Z0). rewrite Y. auto.
Qed.

Lemma increasing_mono lo lo' es : lo' <= lo -> increasing lo es -> increasing lo' es.
Proof. destruct es; simpl; auto. intros ? [? ?]; split; auto; lia. Qed.

Lemma increasing_above lo es : increasing lo es -> Forall (fun e => lo < e_index e) es.
Proof.
  revert lo. induction es as [|e es IH]; intros lo H; constructor.
  - apply H.
  - destruct H as [A B]. eapply Forall_impl; [|apply IH; exact B]. intros x Hx. simpl in Hx. lia.
Qed.

Lemma increasing_app lo a b : increasing lo (a ++ b) -> increasing lo a /\ increasing lo b.
Proof.
  revert lo. induction a as [|e a IH]; intros lo H; simpl in *; auto.
  destruct H as [A B]. destruct (IH _ B) as [X Y]. split; auto.
  eapply increasing_mono; [|exact Y]. lia.
Qed.

(** Entries at or below the applied index change nothing. *)
Lemma apply_log_skip ctx id es : forall n r, nd_regs n id = Some r ->
  Forall plain_data es -> Forall (fun e => e_index e <= nd_applied n id) es ->
  apply_log ctx id es n = Some n.
Proof.
  induction es as [|e es IH]; intros n r R P F; auto.
  inversion P; inversion F; subst. cbn [apply_log]. unfold apply.
  rewrite (on_apply_body _ id e n r R) by auto.
  rewrite (proj2 (Z.leb_le _ _)) by auto. rewrite performs_nil. eapply IH; eauto.
Qed.

(** Entries above it perform the stream. *)
Lemma apply_log_stream ctx id es : forall n r n', nd_regs n id = Some r ->
  Forall plain_data es -> increasing (nd_applied n id) es ->
  (apply_log ctx id es n = Some n' <->
   (Forall (fun e => exists ef st, body id r e = ADone ef st) es /\ n' = performs n (stream id r es))).
Proof.
  induction es as [|e es IH]; intros n r n' R P I.
  - cbn. split; [intros H; injection H as ->; auto | intros [_ ->]; auto].
  - inversion P; subst. destruct I as [I1 I2]. cbn [apply_log]. unfold apply.
    rewrite (on_apply_body _ id e n r R) by auto.
    destruct (Z.leb_spec (e_index e) (nd_applied n id)); [lia|].
    destruct (body id r e) as [ef st|ef|] eqn:B.
    + destruct (effs_keep id r e ef st n H1 B) as [K1 K2].
      rewrite (IH (performs n ef) r n'); [| rewrite K1; auto | auto | rewrite K2; auto].
      assert (EF : effs id r e = ef) by (unfold effs; rewrite B; auto).
      change (stream id r (e :: es)) with (effs id r e ++ stream id r es).
      rewrite EF, performs_app.
      split; intros [X ->]; split; auto.
      * constructor; eauto.
      * inversion X; auto.
    + split; [discriminate|]. intros [X _]. inversion X as [|? ? (? & ? & ?) ?]. congruence.
    + split; [discriminate|]. intros [X _]. inversion X as [|? ? (? & ? & ?) ?]. congruence.
Qed.

Lemma effs_batches id r e ef st : plain_data e -> body id r e = ADone ef st ->
  exists bs, Forall is_batch bs /\ ef = bs ++ finish id (e_index e) /\ effs id r e = ef.
Proof.
  intros P B. destruct (body_shape id r e ef st P B) as (bs & F & E).
  exists bs. split; auto. split; auto. unfold effs. rewrite B. auto.
Qed.

(** A crash performs a prefix of the stream. *)
Lemma crashed_prefix id : forall es n r j k,
  nd_regs n id = Some r -> Forall plain_data es ->
  increasing (nd_applied n id) es ->
  Forall (fun e => exists ef st, body id r e = ADone ef st) es ->
  exists q, crashed id es n j k = Some (restart (performs n (firstn q (stream id r es)))).
Proof.
  induction es as [|e es IH]; intros n r j k R P I B.
  - exists 0%nat. unfold crashed. rewrite firstn_nil. simpl. destruct j; reflexivity.
  - inversion P; subst. inversion B as [|? ? (ef & st & E) B']; subst. destruct I as [I1 I2].
    destruct (effs_batches id r e ef st H1 E) as (bs & F & EE & EF).
    destruct j as [|j].
    + exists (min k (length ef)). unfold crashed. cbn [firstn apply_log nth_error].
      rewrite (on_apply_body _ id e n r R) by auto.
      destruct (Z.leb_spec (e_index e) (nd_applied n id)); [lia|]. rewrite E.
      unfold crash_at. do 2 f_equal. cbn [stream flat_map]. rewrite EF.
      rewrite firstn_app. replace (min k (length ef) - length ef)%nat with 0%nat by lia.
      cbn [firstn]. rewrite app_nil_r. f_equal.
      destruct (Nat.le_gt_cases k (length ef)).
      * f_equal. lia.
      * rewrite (firstn_all2 ef) by lia. rewrite firstn_all2; auto. lia.
    + destruct (effs_keep id r e ef st n H1 E) as [K1 K2].
      destruct (IH (performs n ef) r j k) as (q & Q); auto; [rewrite K1; auto | rewrite K2; auto |].
      exists (length ef + q)%nat. unfold crashed in *. cbn [firstn apply_log nth_error].
      unfold apply at 1. rewrite (on_apply_body _ id e n r R) by auto.
      destruct (Z.leb_spec (e_index e) (nd_applied n id)); [lia|]. rewrite E.
      rewrite Q. do 2 f_equal. cbn [stream flat_map]. rewrite EF.
      rewrite firstn_app_2. rewrite performs_app. reflexivity.
Qed.

Lemma in_firstn {A} (x : A) j l : In x (firstn j l) -> In x l.
Proof. intros H. rewrite <- (firstn_skipn j l). apply in_or_app; auto. Qed.

Lemma crashed_skip id pre es n r j k : nd_regs n id = Some r ->
  Forall plain_data (pre ++ es) -> Forall (fun e => e_index e <= nd_applied n id) pre ->
  increasing (nd_applied n id) es ->
  Forall (fun e => exists ef st, body id r e = ADone ef st) es ->
  exists q, crashed id (pre ++ es) n j k = Some (restart (performs n (firstn q (stream id r es)))).
Proof.
  intros R P F I B. apply Forall_app in P. destruct P as [P1 P2].
  destruct (Nat.lt_ge_cases j (length pre)) as [L|L].
  - exists 0%nat. unfold crashed. rewrite firstn_app. replace (j - length pre)%nat with 0%nat by lia.
    cbn [firstn]. rewrite app_nil_r.
    rewrite (apply_log_skip _ id (firstn j pre) n r R).
    + rewrite nth_error_app1 by auto. destruct (nth_error pre j) as [e|] eqn:N.
      * apply nth_error_In in N. rewrite Forall_forall in F, P1.
        rewrite (on_apply_body _ id e n r R) by auto.
        rewrite (proj2 (Z.leb_le _ _)) by auto. unfold crash_at. rewrite firstn_nil. reflexivity.
      * apply nth_error_None in N. lia.
    + apply Forall_forall. intros x Hx. rewrite Forall_forall in P1. apply P1.
      eapply in_firstn; eauto.
    + apply Forall_forall. intros x Hx. rewrite Forall_forall in F. apply F.
      eapply in_firstn; eauto.
  - destruct (crashed_prefix id es n r (j - length pre) k R P2 I B) as (q & Q).
    exists q. rewrite <- Q. unfold crashed. rewrite firstn_app. rewrite (firstn_all2 pre) by lia.
    rewrite nth_error_app2 by auto.
    assert (X : forall c b m, apply_log c id (pre ++ b) m =
      match apply_log c id pre m with Some m' => apply_log c id b m' | None => None end).
    { clear. induction pre as [|e pre IH]; intros c b m; auto. cbn [app apply_log].
      destruct (apply (c e) id e m); auto. }
    rewrite X. rewrite (apply_log_skip _ id pre n r R P1 F). reflexivity.
Qed.

(** ** The data after crashes *)

Lemma stream_app id r a b : stream id r (a ++ b) = stream id r a ++ stream id r b.
Proof. apply flat_map_app. Qed.

Lemma stream_regs id r es : forall n, Forall plain_data es ->
  nd_regs (performs n (stream id r es)) = nd_regs n.
Proof.
  induction es as [|e es IH]; intros n P; auto. inversion P; subst.
  change (stream id r (e :: es)) with (effs id r e ++ stream id r es).
  rewrite performs_app, IH by auto. unfold effs.
  destruct (body id r e) as [ef st|ef|] eqn:B; auto.
  apply (effs_keep id r e ef st n H1 B).
Qed.

Definition no_meta (e : eff) : Prop := match e with EMeta _ _ => False | _ => True end.

Lemma no_meta_regs es : forall n, Forall no_meta es -> nd_regs (performs n es) = nd_regs n.
Proof.
  induction es as [|e es IH]; intros n F; auto. inversion F; subst.
  change (performs n (e :: es)) with (performs (perform n e) es). rewrite IH by auto.
  destruct e; auto. contradiction.
Qed.

Lemma stream_no_meta id r es : Forall plain_data es -> Forall no_meta (stream id r es).
Proof.
  induction 1 as [|e es P F IH]; [constructor|].
  change (stream id r (e :: es)) with (effs id r e ++ stream id r es).
  apply Forall_app. split; auto. unfold effs.
  destruct (body id r e) as [ef st|ef|] eqn:B; auto.
  destruct (body_shape id r e ef st P B) as (bs & Fb & ->). apply Forall_app. split.
  - eapply Forall_impl; [|exact Fb]. intros x (ws & ->). exact I.
  - unfold finish. destruct (e_index e mod save_step =? 0); repeat (constructor; simpl; auto).
Qed.

Lemma Forall_firstn {A} (P : A -> Prop) q l : Forall P l -> Forall P (firstn q l).
Proof. intros F. apply Forall_forall. intros x I. rewrite Forall_forall in F. apply F. eapply in_firstn; eauto. Qed.

(** Cutting the stream anywhere: whole entries up to the last saved index, and
    effects of later entries that save nothing. *)
Lemma cut id r : forall es lo n q, Forall plain_data es -> increasing lo es ->
  Forall (fun e => exists ef st, body id r e = ADone ef st) es ->
  nd_saved n id = lo ->
  exists a b q', es = a ++ b /\ firstn q (stream id r es) = stream id r a ++ firstn q' (stream id r b) /\ (let s := nd_saved (performs n (firstn q (stream id r es))) id in
     Forall (fun e => e_index e <= s) a /\ increasing s b /\ lo <= s /\ (a = [] -> s = lo)).
Proof.
  induction es as [|e es IH]; intros lo n q P I B S.
  - exists [], [], 0%nat. cbn [stream flat_map app]. rewrite firstn_nil. cbn. split; auto. split; auto.
    split; auto. split; auto. split; auto. lia.
  - inversion P; subst. inversion B as [|? ? (ef & st & E) B']; subst. destruct I as [I1 I2].
    destruct (effs_batches id r e ef st H1 E) as (bs & F & EE & EF).
    assert (ST : stream id r (e :: es) = ef ++ stream id r es).
    { change (effs id r e ++ stream id r es = ef ++ stream id r es). rewrite EF. reflexivity. }
    assert (SB : forall m, nd_saved (performs m bs) = nd_saved m) by (intros m; apply (batches_keep bs m F)).
    destruct (Nat.lt_ge_cases q (length ef)) as [L|L].
    + (* cut inside the entry, before its last effect *)
      exists [], (e :: es), q. cbn [app stream flat_map]. split; auto. split; auto. cbv zeta.
      change (effs id r e ++ flat_map (effs id r) es) with (stream id r (e :: es)).
      rewrite ST, firstn_app. replace (q - length ef)%nat with 0%nat by lia. cbn [firstn].
      rewrite app_nil_r.
      assert (X : nd_saved (performs n (firstn q ef)) id = nd_saved n id).
      { rewrite EE in L |- *. rewrite firstn_app, performs_app.
        destruct (Nat.le_gt_cases q (length bs)) as [L1|L1].
        - replace (q - length bs)%nat with 0%nat by lia. cbn [firstn].
          rewrite performs_nil.
          destruct (batches_keep (firstn q bs) n (Forall_firstn _ _ _ F)) as (_ & _ & K). rewrite K. auto.
        - rewrite (firstn_all2 bs) by lia. rewrite app_length in L. unfold finish in *.
          destruct (e_index e mod save_step =? 0); cbn [length] in L.
          + replace (q - length bs)%nat with 1%nat by lia. cbn [firstn]. cbn. rewrite SB. auto.
          + exfalso. lia. }
      rewrite X. split; [constructor|]. split; [split; auto|]. split; [lia|auto].
    + destruct (Z.eqb_spec (e_index e mod save_step) 0) as [Z0|Z0].
      * (* the entry is saved *)
        assert (S1 : nd_saved (performs n ef) id = e_index e).
        { rewrite EE, performs_app, finish_saved. rewrite (proj2 (Z.eqb_eq _ _) Z0). auto. }
        destruct (IH (e_index e) (performs n ef) (q - length ef)%nat H2 I2 B' S1)
          as (a & b & q' & -> & X & Y).
        exists (e :: a), b, q'. split; auto.
        assert (FN : firstn q (stream id r (e :: a ++ b)) =
                     ef ++ firstn (q - length ef) (stream id r (a ++ b))).
        { rewrite ST, firstn_app, (firstn_all2 ef) by lia. reflexivity. }
        split.
        { rewrite FN, X. change (stream id r (e :: a)) with (effs id r e ++ stream id r a).
          rewrite EF, app_assoc. reflexivity. }
        cbv zeta in *. rewrite FN, performs_app. destruct Y as (Y1 & Y2 & Y3 & _).
        split; [constructor; [lia|auto]|]. split; [auto|]. split; [lia|discriminate].
      * (* not saved: look further *)
        assert (S1 : nd_saved (performs n ef) id = nd_saved n id).
        { rewrite EE, performs_app, finish_saved. destruct (Z.eqb_spec (e_index e mod save_step) 0); [contradiction|].
          rewrite SB. auto. }
        assert (I3 : increasing (nd_saved n id) es) by (eapply increasing_mono; [|exact I2]; lia).
        destruct (IH (nd_saved n id) (performs n ef) (q - length ef)%nat H2 I3 B' S1)
          as (a & b & q' & -> & X & Y).
        assert (FN : firstn q (stream id r (e :: a ++ b)) =
                     ef ++ firstn (q - length ef) (stream id r (a ++ b))).
        { rewrite ST, firstn_app, (firstn_all2 ef) by lia. reflexivity. }
        destruct a as [|x a].
        -- exists [], (e :: b), q. cbn [app]. split; auto. split; auto.
           cbv zeta in *. cbn [app] in *. rewrite FN, performs_app.
           destruct Y as (Y1 & Y2 & Y3 & Y4). specialize (Y4 eq_refl). rewrite Y4.
           split; [constructor|]. split; [split; auto|]. split; [lia|auto].
        -- exists (e :: x :: a), b, q'. split; auto.
           split.
           { rewrite FN, X. change (stream id r (e :: x :: a)) with (effs id r e ++ stream id r (x :: a)).
             rewrite EF, app_assoc. reflexivity. }
           cbv zeta in *. rewrite FN, performs_app. destruct Y as (Y1 & Y2 & Y3 & Y4).
           split; [|split; [auto|split; [lia|discriminate]]]. constructor; auto.
           inversion Y1; subst. destruct I2 as [I4 _]. lia.
Qed.

(** The data of a node that has lost its memory: as after the saved entries,
    except where later entries write. *)
Definition behind (id : Z) (r : region) (n : node) (a b : list entry) (m : node) : Prop :=
  nd_regs m = nd_regs n /\ nd_applied m id = nd_saved m id /\
  Forall (fun e => e_index e <= nd_saved m id) a /\ increasing (nd_saved m id) b /\
  forall cf k, nd_db m cf k = do_batch (nd_db n) (ops_of (stream id r a)) cf k \/
               touched (ops_of (stream id r b)) cf k.

Lemma ops_firstn_touched q es cf k : touched (ops_of (firstn q es)) cf k -> touched (ops_of es) cf k.
Proof.
  intros H. rewrite <- (firstn_skipn q es), ops_app. apply touched_app. auto.
Qed.

Lemma behind_crash id r n a b m j k : nd_regs n id = Some r ->
  Forall plain_data (a ++ b) ->
  Forall (fun e => exists ef st, body id r e = ADone ef st) (a ++ b) ->
  behind id r n a b m ->
  exists m' a' b', crashed id (a ++ b) m j k = Some m' /\ a ++ b = a' ++ b' /\ behind id r n a' b' m'.
Proof.
  intros R P B (H1 & H2 & H3 & H4 & H5).
  assert (RM : nd_regs m id = Some r) by (rewrite H1; auto).
  rewrite <- H2 in H3, H4.
  pose proof (proj1 (Forall_app _ _ _) P) as [Pa Pb]. pose proof (proj1 (Forall_app _ _ _) B) as [Ba Bb].
  destruct (crashed_skip id a b m r j k RM P H3 H4 Bb) as (q & Q).
  destruct (cut id r b (nd_applied m id) m q Pb H4 Bb) as (b1 & b2 & q' & -> & C & C1); [auto|].
  cbv zeta in C1. destruct C1 as (C1 & C2 & C3 & C4).
  eexists. exists (a ++ b1), b2. split; [exact Q|]. split; [rewrite app_assoc; auto|].
  assert (NM : nd_regs (performs m (firstn q (stream id r (b1 ++ b2)))) = nd_regs m).
  { apply no_meta_regs. apply Forall_firstn. apply stream_no_meta; auto. }
  unfold behind. cbn [restart nd_regs nd_applied nd_saved nd_db].
  split; [congruence|]. split; auto. split.
  { apply Forall_app. split; auto. eapply Forall_impl; [|exact H3]. intros e He. simpl in *. lia. }
  split; auto. intros cf x.
  rewrite performs_db, C, ops_app, batch_app, stream_app, ops_app, batch_app.
  destruct (touched_dec (ops_of (stream id r b2)) cf x) as [T2|T2]; [right; auto|left].
  rewrite batch_other by (intros T; apply T2; eapply ops_firstn_touched; eauto).
  destruct (touched_dec (ops_of (stream id r b1)) cf x) as [T1|T1].
  - apply batch_same; auto.
  - rewrite !batch_other by auto. destruct (H5 cf x) as [E|T]; auto.
    exfalso. rewrite stream_app, ops_app in T. apply touched_app in T. tauto.
Qed.

Lemma behind_replay id r n a b m : nd_regs n id = Some r ->
  Forall plain_data (a ++ b) ->
  Forall (fun e => exists ef st, body id r e = ADone ef st) (a ++ b) ->
  behind id r n a b m ->
  exists m', (forall ctx, apply_log ctx id (a ++ b) m = Some m') /\ nd_regs m' = nd_regs n /\
    forall cf k, nd_db m' cf k = do_batch (nd_db n) (ops_of (stream id r (a ++ b))) cf k.
Proof.
  intros R P B (H1 & H2 & H3 & H4 & H5).
  assert (RM : nd_regs m id = Some r) by (rewrite H1; auto).
  rewrite <- H2 in H3, H4.
  pose proof (proj1 (Forall_app _ _ _) P) as [Pa Pb]. pose proof (proj1 (Forall_app _ _ _) B) as [Ba Bb].
  exists (performs m (stream id r b)). split.
  - intros ctx.
    assert (X : forall c a b m, apply_log c id (a ++ b) m =
      match apply_log c id a m with Some m' => apply_log c id b m' | None => None end).
    { clear. intros c a. induction a as [|e pre IH]; intros b m; auto. cbn [app apply_log].
      destruct (apply (c e) id e m); auto. }
    rewrite X, (apply_log_skip _ id a m r RM Pa H3).
    apply (apply_log_stream ctx id b m r _ RM Pb H4). auto.
  - split; [rewrite stream_regs; auto|]. intros cf k.
    rewrite performs_db, stream_app, ops_app, batch_app.
    destruct (touched_dec (ops_of (stream id r b)) cf k) as [T|T]; [apply batch_same; auto|].
    rewrite !batch_other by auto. destruct (H5 cf k); tauto.
Qed.

Lemma behind_crashes id r n : nd_regs n id = Some r -> forall ps a b m,
  Forall plain_data (a ++ b) ->
  Forall (fun e => exists ef st, body id r e = ADone ef st) (a ++ b) ->
  behind id r n a b m ->
  exists m' a' b', crashes id (a ++ b) m ps = Some m' /\ a ++ b = a' ++ b' /\ behind id r n a' b' m'.
Proof.
  intros R ps. induction ps as [|[j k] ps IH]; intros a b m P B H.
  - exists m, a, b. auto.
  - destruct (behind_crash id r n a b m j k R P B H) as (m1 & a1 & b1 & C & E & H').
    cbn [crashes]. rewrite C. rewrite E in P, B.
    destruct (IH a1 b1 m1 P B H') as (m2 & a2 & b2 & C2 & E2 & H2). rewrite <- E in C2.
    exists m2, a2, b2. split; auto. split; [congruence|auto].
Qed.

Lemma replay_same id es n nf ctx ps r :
  nd_regs n id = Some r ->
  Forall plain_data es -> nd_applied n id = nd_saved n id -> increasing (nd_applied n id) es ->
  apply_log ctx id es n = Some nf ->
  exists nc nr, crashes id es n ps = Some nc /\ (forall ctx', apply_log ctx' id es nc = Some nr) /\
    same_data nf nr /\ (forall i, nd_regs nr i = nd_regs nf i).
Proof.
  intros R P S I A.
  pose proof (proj1 (apply_log_stream ctx id es n r nf R P I) A) as [B ->].
  assert (H : behind id r n [] es n).
  { split; auto. split; auto. split; [constructor|]. split; [rewrite <- S; auto|]. intros; left; reflexivity. }
  destruct (behind_crashes id r n R ps [] es n P B H) as (nc & a & b & C & E & H').
  cbn [app] in *. rewrite E in P, B.
  destruct (behind_replay id r n a b nc R P B H') as (nr & X & Y & Z0).
  exists nc, nr. split; auto. rewrite E. split; auto. split.
  - intros cf k. rewrite Z0, performs_db. reflexivity.
  - intros i. rewrite Y, stream_regs; auto.
Qed.
