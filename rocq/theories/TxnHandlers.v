(** Every handler makes only the moves of TxnMoves. *)
From Coq Require Import ZArith List Lia Bool.
From Verif Require Import Bytes SMap Outcome TxnModel TxnSpec TxnBase TxnMoves.
Import ListNotations.
Open Scope Z_scope.

Lemma in_dec_b (k : bytes) l : {In k l} + {~ In k l}.
Proof. apply in_dec. apply bytes_eq_dec. Qed.

Lemma writable_iff k l : lock_wf k l -> (writable_type (l_type l) = true <-> is_write (l_type l)).
Proof.
  intros (_ & _ & _ & T & _). unfold is_write.
  destruct T as [-> | [-> | ->]]; simpl; intuition congruence.
Qed.

(** * DoTxnCommit *)
Lemma in_commit_batch st ct ls o :
  In o (commit_writes st ct ls ++ map (fun l => DelLock (l_key l)) ls) <->
  (exists l, In l ls /\ l_type l <> OpPutIfAbsent /\
             o = PutWrite (l_key l) ct (mkW st (l_type l) (l_short l))) \/
  (exists l, In l ls /\ o = DelLock (l_key l)).
Proof.
  unfold commit_writes. rewrite in_app_iff, in_flat_map, in_map_iff. split; intros [(l & A & B)|(l & A & B)].
  - destruct (op_eqb (l_type l) OpPutIfAbsent) eqn:E; simpl in B; [tauto|].
    destruct B as [B|[]]. apply op_eqb_neq in E. left; exists l; auto.
  - right; exists l; auto.
  - left; exists l. destruct B as (B & ->). apply op_eqb_neq in B. rewrite B. simpl; auto.
  - right; exists l; auto.
Qed.

Definition commit_entry (r : req) (s : store) (st ct : Z) (l : lock) : Prop :=
  lock_at s (l_key l) = Some l /\ l_ts l = st /\ is_write (l_type l) /\
  (forall st' ct' keys, r = RCommit st' ct' keys -> l_minc l <= ct \/ l_minc l <= 0).

Lemma do_commit_moves r a s st ct ls :
  store_ok s -> (forall l, In l ls -> commit_entry r s st ct l) ->
  In (st, ct) (commits_of r) -> st < ct ->
  moves r a s (do_commit st ct ls).
Proof.
  intros H E IC L. unfold do_commit. destruct ls as [|l1 lr] eqn:EL; [exact I|]. rewrite <- EL in *.
  clear EL l1 lr. set (b := commit_writes st ct ls ++ map (fun l => DelLock (l_key l)) ls).
  cbn [moves]. split; [|split; [|exact I]].
  - apply Forall_forall. intros o Ho. apply in_commit_batch in Ho.
    destruct Ho as [(l & I1 & I2 & ->)|(l & I1 & ->)]; [|exact I].
    destruct (E l I1) as (E1 & E2 & E3 & _). simpl.
    destruct (ok_lock _ H _ _ E1) as (_ & _ & P & _). split; [simpl; lia|].
    right; split; [exact E3|simpl; lia].
  - intros k. destruct (in_dec_b k (map l_key ls)) as [i|n].
    + apply in_map_iff in i. destruct i as (l & K & I1). subst k.
      destruct (E l I1) as (E1 & E2 & E3 & E4).
      apply KCommit with (ct := ct) (l0 := l); auto; try (rewrite E2; auto; fail); try lia.
      * destruct (batch_lock b s (l_key l) H) as [(l' & Q & _)|[(Q & G)|(Q1 & Q2 & _)]]; auto.
        -- apply in_commit_batch in Q. destruct Q as [(? & _ & _ & Q)|(? & _ & Q)]; discriminate.
        -- exfalso. apply Q2. apply in_commit_batch. right. exists l; auto.
      * split.
        -- destruct (batch_write b s (l_key l) ct H) as [(w & Q & G)|[(Q & G)|(Q1 & Q2 & G)]].
           ++ rewrite G. apply in_commit_batch in Q. destruct Q as [(l' & Q1 & _ & Q)|(? & _ & Q)]; [|discriminate].
              inversion Q; subst. destruct (E l' Q1) as (F1 & F2 & _). congruence.
           ++ apply in_commit_batch in Q. destruct Q as [(? & _ & _ & Q)|(? & _ & Q)]; discriminate.
           ++ exfalso. apply (Q1 (mkW st (l_type l) (l_short l))). apply in_commit_batch. left. exists l.
              split; [auto|split; [|auto]]. destruct E3; congruence.
        -- intros t' Nt. destruct (batch_write b s (l_key l) t' H) as [(w & Q & G)|[(Q & G)|(Q1 & Q2 & G)]]; auto.
           ++ apply in_commit_batch in Q. destruct Q as [(l' & Q1 & _ & Q)|(? & _ & Q)]; [|discriminate].
              inversion Q; subst. congruence.
           ++ apply in_commit_batch in Q. destruct Q as [(? & _ & _ & Q)|(? & _ & Q)]; discriminate.
      * intros t. destruct (batch_data b s (l_key l) t H) as [(w & Q & G)|[(Q & G)|(Q1 & Q2 & G)]]; auto;
          apply in_commit_batch in Q; destruct Q as [(? & _ & _ & Q)|(? & _ & Q)]; discriminate.
    + apply KStay.
      * destruct (batch_lock b s k H) as [(l' & Q & _)|[(Q & G)|(Q1 & Q2 & G)]]; auto;
          apply in_commit_batch in Q; destruct Q as [(l2 & I2 & _ & Q)|(l2 & I2 & Q)]; try discriminate.
        inversion Q; subst. exfalso; apply n. apply in_map; auto.
      * intros t. destruct (batch_write b s k t H) as [(w & Q & G)|[(Q & G)|(Q1 & Q2 & G)]]; auto;
          apply in_commit_batch in Q; destruct Q as [(l2 & I2 & _ & Q)|(l2 & I2 & Q)]; try discriminate.
        inversion Q; subst. exfalso; apply n. apply in_map; auto.
      * intros t. destruct (batch_data b s k t H) as [(w & Q & G)|[(Q & G)|(Q1 & Q2 & G)]]; auto;
          apply in_commit_batch in Q; destruct Q as [(? & _ & _ & Q)|(? & _ & Q)]; discriminate.
Qed.

(** * DoRollback *)
Definition rb_batch (st : Z) (wd wo miss : list bytes) : batch :=
  map (fun k => PutWrite k st (rb_record st)) (wo ++ wd ++ miss) ++
  map DelLock (wo ++ wd) ++ map (fun k => DelData k st) wd.

Lemma do_rollback_eq st wd wo miss :
  do_rollback st wd wo miss = match wo ++ wd ++ miss with [] => [] | _ => [rb_batch st wd wo miss] end.
Proof.
  unfold do_rollback, rb_batch. destruct (wo ++ wd ++ miss) eqn:E; auto.
Qed.

Lemma in_rb_batch st wd wo miss o :
  In o (rb_batch st wd wo miss) <->
  (exists k, (In k wo \/ In k wd \/ In k miss) /\ o = PutWrite k st (rb_record st)) \/
  (exists k, (In k wo \/ In k wd) /\ o = DelLock k) \/
  (exists k, In k wd /\ o = DelData k st).
Proof.
  unfold rb_batch. rewrite !in_app_iff, !in_map_iff. split.
  - intros [(k & A & B)|[(k & A & B)|(k & A & B)]]; rewrite ?in_app_iff in B; subst; eauto 10.
  - intros [(k & A & B)|[(k & A & B)|(k & A & B)]]; subst.
    + left. exists k. rewrite !in_app_iff. auto.
    + right; left. exists k. rewrite !in_app_iff. auto.
    + right; right. exists k. auto.
Qed.

Definition rb_entry (r : req) (s : store) (st : Z) (k : bytes) : Prop :=
  exists l, lock_at s k = Some l /\ l_ts l = st /\
    (forall p lk cl cu fs rm, r = RCheckStatus p lk cl cu fs rm -> l_ttl l < Z.shiftr cu 18) /\
    (is_write (l_type l) \/ (exists p lk cl cu fs rm, r = RCheckStatus p lk cl cu fs rm)) /\
    (forall p lk cl cu fs rm, r = RCheckStatus p lk cl cu fs rm -> l_async l = false \/ fs = true).
Definition miss_entry (s : store) (st : Z) (k : bytes) : Prop :=
  ~ holds s k st /\ (forall ct, ct <= kMaxVer -> ~ committed s k st ct) /\ ~ rolled_back s k st.

Lemma do_rollback_moves r a s st wd wo miss :
  store_ok s -> 0 < st -> In st (txns_of r) ->
  (forall k, In k wo \/ In k wd -> rb_entry r s st k) ->
  (forall k, In k miss -> miss_entry s st k) ->
  (forall k, In k wo \/ In k wd \/ In k miss -> rolls r st k) ->
  moves r a s (do_rollback st wd wo miss).
Proof.
  intros H P IT E M RO. rewrite do_rollback_eq. destruct (wo ++ wd ++ miss) as [|k0 kr] eqn:EL; [exact I|]. clear EL k0 kr.
  set (b := rb_batch st wd wo miss). cbn [moves]. split; [|split; [|exact I]].
  - apply Forall_forall. intros o Ho. apply in_rb_batch in Ho.
    destruct Ho as [(k & I1 & ->)|[(k & I1 & ->)|(k & I1 & ->)]]; try exact I.
    simpl. split; [simpl; auto|left; auto].
  - intros k.
    assert (W : In k wo \/ In k wd \/ In k miss -> writes_add s (apply_batch s b) k st (rb_record st)).
    { intros Hk. split.
      - destruct (batch_write b s k st H) as [(w & Q & G)|[(Q & G)|(Q1 & Q2 & G)]].
        + apply in_rb_batch in Q. destruct Q as [(? & _ & Q)|[(? & _ & Q)|(? & _ & Q)]]; try discriminate.
          inversion Q; subst. rewrite G; auto.
        + apply in_rb_batch in Q. destruct Q as [(? & _ & Q)|[(? & _ & Q)|(? & _ & Q)]]; discriminate.
        + exfalso. apply (Q1 (rb_record st)). apply in_rb_batch. left; exists k; auto.
      - intros t' Nt. destruct (batch_write b s k t' H) as [(w & Q & G)|[(Q & G)|(Q1 & Q2 & G)]]; auto;
          apply in_rb_batch in Q; destruct Q as [(? & _ & Q)|[(? & _ & Q)|(? & _ & Q)]]; try discriminate.
        inversion Q; subst; congruence. }
    assert (NL : ~ In k wo -> ~ In k wd -> lock_at (apply_batch s b) k = lock_at s k).
    { intros N1 N2. destruct (batch_lock b s k H) as [(l' & Q & _)|[(Q & G)|(Q1 & Q2 & G)]]; auto;
        apply in_rb_batch in Q; destruct Q as [(? & _ & Q)|[(? & X & Q)|(? & _ & Q)]]; try discriminate.
      inversion Q; subst. tauto. }
    assert (ND : ~ In k wd -> data_same s (apply_batch s b) k).
    { intros N1 t. destruct (batch_data b s k t H) as [(l' & Q & _)|[(Q & G)|(Q1 & Q2 & G)]]; auto;
        apply in_rb_batch in Q; destruct Q as [(? & _ & Q)|[(? & X & Q)|(? & X & Q)]]; try discriminate.
      inversion Q; subst. tauto. }
    assert (D : data_but s (apply_batch s b) k st).
    { intros t Nt. destruct (batch_data b s k t H) as [(l' & Q & _)|[(Q & G)|(Q1 & Q2 & G)]]; auto;
        apply in_rb_batch in Q; destruct Q as [(? & _ & Q)|[(? & X & Q)|(? & X & Q)]]; try discriminate.
      inversion Q; subst. congruence. }
    destruct (in_dec_b k (wo ++ wd)) as [i|n].
    + apply in_app_iff in i. destruct (E k i) as (l & E1 & E2 & E3 & E4 & E5).
      apply KRollback with (l0 := l); try rewrite E2; auto.
      * destruct (batch_lock b s k H) as [(l' & Q & _)|[(Q & G)|(Q1 & Q2 & _)]]; auto.
        -- apply in_rb_batch in Q. destruct Q as [(? & _ & Q)|[(? & _ & Q)|(? & _ & Q)]]; discriminate.
        -- exfalso. apply Q2. apply in_rb_batch. right; left. exists k; auto.
      * apply W. tauto.
      * apply RO. tauto.
    + rewrite in_app_iff in n. destruct (in_dec_b k miss) as [i|n2].
      * destruct (M k i) as (M1 & M2 & M3). apply KMark with (st := st); auto.
      * apply KStay.
        -- apply NL; tauto.
        -- intros t. destruct (batch_write b s k t H) as [(w & Q & G)|[(Q & G)|(Q1 & Q2 & G)]]; auto;
             apply in_rb_batch in Q; destruct Q as [(? & X & Q)|[(? & _ & Q)|(? & _ & Q)]]; try discriminate.
           inversion Q; subst; tauto.
        -- apply ND; tauto.
Qed.

Lemma mark_rollback_moves r a s st k :
  store_ok s -> 0 < st -> In st (txns_of r) -> miss_entry s st k -> rolls r st k -> moves r a s (mark_rollback st k).
Proof.
  intros H P IT M RO.
  assert (E : mark_rollback st k = do_rollback st [] [] [k]) by reflexivity.
  rewrite E. apply do_rollback_moves; auto.
  - simpl; tauto.
  - intros k' [->|[]]; auto.
  - simpl. intros k' [[]|[[]|[<-|[]]]]; auto.
Qed.

(** reading "not committed" *)
Lemma not_committed_of_found s st k : store_ok s ->
  found_ts (get_write_info s st kMaxVer st k false true true) = 0 -> 0 < st ->
  forall ct, ct <= kMaxVer -> ~ committed s k st ct.
Proof.
  intros H F P ct L (w & W1 & W2 & W3).
  assert (Q : st < ct).
  { destruct (ok_write _ H _ _ _ W1) as (_ & [[? _]|[_ X]]); [congruence|lia]. }
  assert (X := found_ts_le s st st k ct w H ltac:(lia) W1 W3 Q (or_intror W2)). lia.
Qed.

Lemma no_lock_no_holds s k st : lock_at s k = None -> ~ holds s k st.
Proof. intros E (l & A & _). congruence. Qed.

(** * Commit *)
Lemma commit_loop_spec r s st ct : store_ok s -> (exists keys0, r = RCommit st ct keys0) -> 0 < st ->
  forall keys acc o, commit_loop s st ct keys acc = Ok o ->
  (forall l, In l acc -> commit_entry r s st ct l) ->
  match o with inl _ => True | inr ls => forall l, In l ls -> commit_entry r s st ct l end.
Proof.
  intros H (keys0 & R) P. induction keys as [|k keys IH]; intros acc o; cbn [commit_loop].
  - intros X A. apply Ok_inj in X. subst o. auto.
  - destruct (l_ts (get_lock s k) =? st) eqn:E1.
    + destruct (get_lock_spec s k H) as [(l & G1 & G2 & G3 & G4)|(G1 & G2)].
      2:{ rewrite G2 in E1. apply Z.eqb_eq in E1. cbn [no_lock l_ts] in E1. lia. }
      rewrite G2 in *. destruct (writable_type (l_type l)) eqn:E2; simpl.
      2:{ intros X A. apply Ok_inj in X. subst; auto. }
      destruct ((0 <? l_minc l) && (ct <? l_minc l)) eqn:E3.
      { intros X A. apply Ok_inj in X. subst; auto. }
      intros X A. apply (IH _ _ X). intros l'. rewrite in_app_iff. intros [I1|[<-|[]]]; auto.
      destruct G4 as (K & G4). split; [rewrite K; auto|]. apply Z.eqb_eq in E1. split; [auto|].
      split; [apply (writable_iff k); [split; auto|auto]|].
      intros _ _ _ _. apply andb_false_iff in E3. rewrite !Z.ltb_ge in E3. lia.
    + destruct (found_ts _ =? ct) eqn:E2; [apply IH|].
      destruct (get_rollback_ok s st k H) as (b & B & _). rewrite B. cbn [obind].
      destruct (b || _); [intros X A; apply Ok_inj in X; subst; auto|].
      destruct (0 <? _); intros X A; apply Ok_inj in X; subst; auto.
Qed.

Lemma commit_loop_ok s st ct : store_ok s -> forall keys acc, exists o, commit_loop s st ct keys acc = Ok o.
Proof.
  intros H. induction keys as [|k keys IH]; intros acc; cbn [commit_loop]; [eauto|].
  destruct (_ =? st). { destruct (negb _); [eauto|]. destruct (_ && _); eauto. }
  destruct (_ =? ct); [eauto|]. destruct (get_rollback_ok s st k H) as (b & -> & _). cbn [obind].
  destruct (_ || _); [eauto|]. destruct (0 <? _); eauto.
Qed.

Lemma commit_moves c s st ct keys a bs : store_ok s -> 0 < st ->
  commit c s st ct keys = Ok (a, bs) -> moves (RCommit st ct keys) a s bs.
Proof.
  intros H P. unfold commit.
  destruct (_ <? _); [intros X; apply Ok_inj in X; inversion X; subst; exact I|].
  destruct (ct <=? st) eqn:L; [intros X; apply Ok_inj in X; inversion X; subst; exact I|].
  apply Z.leb_gt in L.
  destruct (commit_loop_ok s st ct H keys []) as (o & O). rewrite O. cbn [obind].
  assert (S := commit_loop_spec (RCommit st ct keys) s st ct H (ex_intro _ keys eq_refl) P keys [] o O).
  destruct o as [t|ls]; intros X; apply Ok_inj in X; inversion X; subst; [exact I|].
  apply do_commit_moves; auto.
  - apply S. intros ? [].
  - simpl; auto.
Qed.

(** * BatchRollback *)
Definition rb_acc_ok (r : req) (s : store) (st : Z) (x : rb_acc) : Prop :=
  (forall k, In k (rb_without x) \/ In k (rb_with x) -> rb_entry r s st k) /\
  (forall k, In k (rb_miss x) -> miss_entry s st k).

Lemma rb_add_ok r s st x l k : rb_acc_ok r s st x -> rb_entry r s st k -> rb_acc_ok r s st (rb_add l k x).
Proof.
  intros [A B] E. unfold rb_add. destruct (beqb _ _); split; simpl; auto; intros k'; rewrite in_app_iff; simpl.
  - intros [X|[X|[X|[]]]]; [apply A; auto | apply A; auto | subst; auto].
  - intros [[X|[X|[]]]|X]; [apply A; auto | subst; auto | apply A; auto].
Qed.

Lemma rollback_loop_spec r s st : store_ok s -> 0 < st ->
  (forall p lk cl cu fs rm, r <> RCheckStatus p lk cl cu fs rm) ->
  forall keys x o, rollback_loop s st keys x = Ok o -> rb_acc_ok r s st x ->
  match o with inl _ => True | inr y => rb_acc_ok r s st y end.
Proof.
  intros H P R. induction keys as [|k keys IH]; intros x o; cbn [rollback_loop].
  - intros X A. apply Ok_inj in X. subst; auto.
  - destruct (get_lock_spec s k H) as [(l & G1 & G2 & G3 & G4)|(G1 & G2)]; rewrite G2.
    + rewrite G3. cbn [negb]. destruct (l_ts l =? st) eqn:E1; cbn [negb].
      2:{ intros X A. apply Ok_inj in X. subst; auto. }
      destruct (writable_type (l_type l)) eqn:E2; cbn [negb].
      2:{ intros X A. apply Ok_inj in X. subst; auto. }
      intros X A. apply (IH _ _ X). apply rb_add_ok; auto. exists l. apply Z.eqb_eq in E1.
      split; [auto|split; [auto|split; [|split]]].
      * intros. exfalso. eapply R; eauto.
      * left. apply (writable_iff k); auto.
      * intros. exfalso. eapply R; eauto.
    + cbn [has_lock no_lock l_primary negb beqb bcmp].
      destruct (get_rollback_ok s st k H) as (b & B & Bi). rewrite B. cbn [obind].
      destruct b; [apply IH|].
      destruct (found_ts _ =? 0) eqn:E; [|apply IH].
      intros X [A1 A2]. apply (IH _ _ X). split; simpl; auto.
      intros k'. rewrite in_app_iff. intros [I1|[<-|[]]]; auto.
      apply Z.eqb_eq in E. split; [apply no_lock_no_holds; auto|]. split.
      * apply not_committed_of_found; auto.
      * intros C. apply Bi in C. discriminate.
Qed.

Lemma rollback_loop_ok s st : store_ok s -> forall keys x, exists o, rollback_loop s st keys x = Ok o.
Proof.
  intros H. induction keys as [|k keys IH]; intros x; cbn [rollback_loop]; [eauto|].
  destruct (has_lock _); cbn [negb].
  - destruct (_ =? st); cbn [negb]; [|eauto]. destruct (writable_type _); cbn [negb]; eauto.
  - destruct (get_rollback_ok s st k H) as (b & -> & _). cbn [obind].
    destruct b; [auto|]. destruct (_ =? 0); auto.
Qed.

Lemma batch_rollback_moves c s st keys a bs : store_ok s -> 0 < st ->
  batch_rollback c s st keys = Ok (a, bs) -> moves (RBatchRollback st keys) a s bs.
Proof.
  intros H P. unfold batch_rollback.
  destruct (_ <? _); [intros X; apply Ok_inj in X; inversion X; subst; exact I|].
  destruct (rollback_loop_ok s st H keys (mkRb [] [] [])) as (o & O). rewrite O. cbn [obind].
  assert (S := rollback_loop_spec (RBatchRollback st keys) s st H P ltac:(discriminate) keys _ o O).
  destruct o as [t|y]; intros X; apply Ok_inj in X; inversion X; subst; [exact I|].
  assert (Y : rb_acc_ok (RBatchRollback st keys) s st y).
  { apply S. split; simpl; tauto. }
  destruct Y as [Y1 Y2]. apply do_rollback_moves; auto; simpl; auto.
Qed.
