(** Proofs of the transaction theorems, part 4: acknowledged requests took effect, and sending
    them again changes nothing. *)
From Coq Require Import ZArith List Lia Bool.
From Verif Require Import Bytes SMap Outcome TxnModel TxnSpec TxnBase TxnMoves TxnHandlers TxnHandlers2 TxnHandlers3 TxnInv TxnRun TxnProofs TxnProofs2 TxnProofs3.
Import ListNotations.
Open Scope Z_scope.

Lemma succeeded0 : succeeded resp0.
Proof. split; [reflexivity|split; reflexivity]. Qed.

(** reaching the handler *)
Lemma handle_some c s mx r a bs : handle c s mx r = Ok (a, bs) -> r_err a = None ->
  validate r = None /\ existsb (fun t => t <? 0) (encoded_ts r) = false.
Proof.
  unfold handle. destruct (validate r); [intros X N; ok_reply X; discriminate|].
  destruct (existsb _ _) eqn:E; [discriminate|]. auto.
Qed.

Lemma commit_start c s mx st ct keys a bs : handle c s mx (RCommit st ct keys) = Ok (a, bs) -> r_err a = None ->
  0 < st < ct /\ (Z.of_nat (length keys) <= max_commit_count c).
Proof.
  intros X N. destruct (handle_some _ _ _ _ _ _ X N) as [V E]. unfold handle in X. rewrite V, E in X.
  unfold commit in X. destruct (_ <? _) eqn:E1; [ok_reply X; discriminate|].
  destruct (_ <=? _) eqn:E2; [ok_reply X; discriminate|]. apply Z.leb_gt in E2. apply Z.ltb_ge in E1.
  simpl in V. destruct (_ || _) eqn:Q in V; [discriminate|]. rewrite !orb_false_iff, !Z.eqb_neq in Q.
  simpl in E. rewrite orb_false_r, Z.ltb_ge in E. split; lia.
Qed.

(** * Commit *)
Lemma commit_loop_effect s st ct : store_ok s -> 0 < st < ct -> forall keys acc ls,
  commit_loop s st ct keys acc = Ok (inr ls) ->
  (forall l, In l acc -> In l ls) /\
  forall k, In k keys -> committed s k st ct \/
    exists l, lock_at s k = Some l /\ In l ls /\ l_ts l = st /\ is_write (l_type l).
Proof.
  intros H LT. induction keys as [|k keys IH]; intros acc ls X; cbn [commit_loop] in X.
  - apply Ok_inj in X. inversion X; subst. split; [auto|intros k []].
  - destruct (get_lock_spec s k H) as [(l & L1 & L2 & L3 & L4)|(L1 & L2)]; rewrite L2 in X; clear L2.
    + destruct (l_ts l =? st) eqn:E.
      * apply Z.eqb_eq in E. destruct (writable_type (l_type l)) eqn:W; simpl in X; [|apply Ok_inj in X; discriminate].
        destruct (_ && _); [apply Ok_inj in X; discriminate|].
        destruct (IH _ _ X) as [A B]. split.
        -- intros l' Q. apply A. rewrite in_app_iff; auto.
        -- intros k' [<-|Q]; auto. right. exists l. split; [auto|split; [apply A; rewrite in_app_iff; simpl; auto|]].
           split; auto. eapply writable_iff; eauto.
      * destruct (found_ts _ =? ct) eqn:E2.
        -- destruct (IH _ _ X) as [A B]. split; [auto|]. intros k' [<-|Q]; auto. left.
           apply Z.eqb_eq in E2. destruct (get_write_info s st ct st k false true true) as [[t w]|] eqn:G; simpl in E2; [|lia].
           subst t. apply gwi_some in G; auto. destruct G as (G1 & (G2 & G3 & G4) & _). exists w.
           split; [auto|split; [lia|]]. destruct G4 as [[_ G4]|[[G4 _]|[G4 _]]]; congruence.
        -- destruct (get_rollback _ _ _) as [b|]; cbn [obind] in X; [|discriminate].
           destruct (_ || _); [apply Ok_inj in X; discriminate|]. destruct (_ <? _); apply Ok_inj in X; discriminate.
    + cbn [l_ts no_lock] in X. destruct (0 =? st) eqn:E; [apply Z.eqb_eq in E; lia|].
      destruct (found_ts _ =? ct) eqn:E2.
      -- destruct (IH _ _ X) as [A B]. split; [auto|]. intros k' [<-|Q]; auto. left.
           apply Z.eqb_eq in E2. destruct (get_write_info s st ct st k false true true) as [[t w]|] eqn:G; simpl in E2; [|lia].
           subst t. apply gwi_some in G; auto. destruct G as (G1 & (G2 & G3 & G4) & _). exists w.
           split; [auto|split; [lia|]]. destruct G4 as [[_ G4]|[[G4 _]|[G4 _]]]; congruence.
      -- destruct (get_rollback _ _ _) as [b|]; cbn [obind] in X; [|discriminate].
         destruct (_ || _); [apply Ok_inj in X; discriminate|]. destruct (_ <? _); apply Ok_inj in X; discriminate.
Qed.

(** what an entry of a commit batch does to its key *)
Lemma do_commit_effect s st ct ls : store_ok s ->
  (forall l, In l ls -> lock_at s (l_key l) = Some l /\ is_write (l_type l)) ->
  forall l, In l ls -> committed (apply_batches s (do_commit st ct ls)) (l_key l) st ct /\
                       lock_at (apply_batches s (do_commit st ct ls)) (l_key l) = None.
Proof.
  intros H E l I. unfold do_commit. destruct ls as [|x r] eqn:EL; [destruct I|]. rewrite <- EL in *. clear EL x r.
  set (b := commit_writes st ct ls ++ map (fun l => DelLock (l_key l)) ls).
  assert (INB : forall o, In o b <-> _) by (intros o; apply in_commit_batch).
  unfold apply_batches. cbn [fold_left]. destruct (E l I) as [E1 E2]. split.
  - destruct (batch_write b s (l_key l) ct H) as [(w & Q & G)|[(Q & G)|(Q1 & Q2 & G)]].
    + apply INB in Q. destruct Q as [(l' & A & B & C)|(l' & A & B)]; [|discriminate]. inversion C; subst w.
      exists (mkW st (l_type l') (l_short l')). split; [auto|split; [auto|]]. simpl. destruct (E l' A) as [_ [T|T]]; congruence.
    + apply INB in Q. destruct Q as [(l' & A & B & C)|(l' & A & B)]; discriminate.
    + exfalso. eapply Q1. apply INB. left. exists l. split; [auto|split; [|reflexivity]]. destruct E2; congruence.
  - destruct (batch_lock b s (l_key l) H) as [(w & Q & G)|[(Q & G)|(Q1 & Q2 & G)]]; auto.
    + apply INB in Q. destruct Q as [(l' & A & B & C)|(l' & A & B)]; discriminate.
    + exfalso. apply Q2. apply INB. right. exists l; auto.
Qed.

Lemma commit_effect c s mx st ct keys a bs : store_ok s -> handle c s mx (RCommit st ct keys) = Ok (a, bs) ->
  succeeded a -> forall k, In k keys -> committed (apply_batches s bs) k st ct.
Proof.
  intros H X SU k IN. destruct (commit_start _ _ _ _ _ _ _ _ X (proj1 SU)) as [LT LE].
  assert (M := handle_moves _ _ _ _ _ _ H X).
  destruct (handle_some _ _ _ _ _ _ X (proj1 SU)) as [V E]. unfold handle in X. rewrite V, E in X.
  unfold commit in X. destruct (_ <? _); [ok_reply X; destruct SU; discriminate|].
  destruct (_ <=? _); [ok_reply X; destruct SU; discriminate|].
  destruct (commit_loop_ok s st ct H keys []) as ([t|ls] & O); rewrite O in X; cbn [obind] in X; ok_reply X.
  { destruct SU as (_ & Q & _). discriminate. }
  assert (SP := commit_loop_spec (RCommit st ct keys) s st ct H (ex_intro _ keys eq_refl) ltac:(lia) keys [] _ O ltac:(simpl; tauto)).
  cbn beta iota in SP.
  destruct (commit_loop_effect s st ct H LT keys [] ls O) as [_ EF].
  destruct (EF k IN) as [C|(l & L1 & L2 & L3 & L4)].
  - (* already committed: the batch writes at ct only records of st *)
    unfold do_commit in *. destruct ls as [|x r] eqn:EL; [auto|]. rewrite <- EL in *. clear EL x r.
    set (b := commit_writes st ct ls ++ map (fun l => DelLock (l_key l)) ls) in *.
    unfold apply_batches. cbn [fold_left].
    destruct (batch_write b s k ct H) as [(w & Q & G)|[(Q & G)|(Q1 & Q2 & G)]].
    + apply in_commit_batch in Q. destruct Q as [(l' & A & B & D)|(l' & A & B)]; [|discriminate]. inversion D; subst w.
      exists (mkW st (l_type l') (l_short l')). split; [congruence|split; [auto|]]. simpl.
      destruct (SP l' A) as (_ & _ & [T|T] & _); congruence.
    + apply in_commit_batch in Q. destruct Q as [(l' & A & B & D)|(l' & A & B)]; discriminate.
    + destruct C as (w & C1 & C2). exists w. rewrite G. auto.
  - assert (K : l_key l = k) by (destruct (ok_lock _ H _ _ L1); auto). rewrite <- K.
    apply do_commit_effect; auto. intros l' Q. destruct (SP l' Q) as (A & B & C & _). auto.
Qed.

(** asking again for a commit that is recorded *)
Lemma commit_loop_again s st ct : store_ok s -> 0 < st < ct -> ct <= kMaxVer -> forall keys acc,
  (forall k, In k keys -> committed s k st ct /\ ~ holds s k st) -> commit_loop s st ct keys acc = Ok (inr acc).
Proof.
  intros H LT MX. induction keys as [|k keys IH]; intros acc C; cbn [commit_loop]; auto.
  destruct (C k) as [C1 C2]; [simpl; auto|].
  assert (E : l_ts (get_lock s k) =? st = false).
  { destruct (get_lock_spec s k H) as [(l & L1 & L2 & L3 & L4)|(L1 & L2)]; rewrite L2; apply Z.eqb_neq.
    - intros E. apply C2. exists l; auto.
    - cbn [l_ts no_lock]. lia. }
  rewrite E. destruct C1 as (w & W1 & W2 & W3).
  assert (F : found_ts (get_write_info s st ct st k false true true) = ct).
  { assert (HIT : gwi_hit st ct st ct w false true true).
    { split; [lia|split; [auto|]]. destruct (ok_write _ H _ _ _ W1) as (_ & [[Q _]|[[Q|Q] _]]); [congruence|auto|auto]. }
    destruct (get_write_info s st ct st k false true true) as [[t w']|] eqn:G.
    - apply gwi_some in G; auto. destruct G as (G1 & (G2 & _) & G3). simpl. specialize (G3 _ _ W1 HIT). lia.
    - exfalso. eapply gwi_none; eauto. }
  rewrite F, Z.eqb_refl. apply IH. intros k' Q. apply C. simpl; auto.
Qed.

Lemma commit_again c s mx st ct keys a bs s' mx' : store_ok s' -> ct <= kMaxVer ->
  handle c s mx (RCommit st ct keys) = Ok (a, bs) -> succeeded a ->
  (forall k, In k keys -> committed s' k st ct /\ ~ holds s' k st) ->
  handle c s' mx' (RCommit st ct keys) = Ok (resp0, []).
Proof.
  intros H MX X SU C. destruct (commit_start _ _ _ _ _ _ _ _ X (proj1 SU)) as [LT LE].
  destruct (handle_some _ _ _ _ _ _ X (proj1 SU)) as [V E]. unfold handle. rewrite V, E. unfold commit.
  destruct (_ <? _) eqn:E1; [apply Z.ltb_lt in E1; lia|]. destruct (_ <=? _) eqn:E2; [apply Z.leb_le in E2; lia|].
  rewrite commit_loop_again by auto. reflexivity.
Qed.

(** C11 for commit: at any later time *)
Lemma commit_retry c P g1 g1' es g2 st ct keys a bs n :
  plan_ok P -> reachable c P g1 -> serve c g1 (RCommit st ct keys) = Ok (a, bs) -> succeeded a -> (length bs <= n)%nat ->
  allowed c P g1 (EReq (RCommit st ct keys) n) -> step c g1 (EReq (RCommit st ct keys) n) = Ok g1' ->
  run c P g1' es g2 -> rg_safe g2 < ct ->
  serve c g2 (RCommit st ct keys) = Ok (resp0, []).
Proof.
  intros HP RE S SU N AL ST RN SF.
  assert (RE1 : reachable c P g1') by (eapply reachable_run; eauto; econstructor; eauto; constructor).
  assert (I1 := reachable_inv _ _ _ HP RE). assert (I2 := reachable_inv _ _ _ HP (reachable_run _ _ _ _ _ RE1 RN)).
  cbn [step] in ST. rewrite S in ST. cbn [obind snd] in ST. apply Ok_inj in ST.
  assert (CF : commit_for P ct st) by (destruct AL as (_ & A & _); apply A; simpl; auto).
  assert (MX : ct <= kMaxVer) by (destruct HP as (_ & Q & _); destruct (Q _ _ CF) as (_ & ? & _); lia).
  unfold serve in *. eapply commit_again; eauto; [apply I2|].
  intros k IN.
  assert (C1 : committed (rg_store g1') k st ct).
  { subst g1'. cbn [rg_store with_store]. rewrite firstn_all2 by auto. eapply commit_effect; eauto. apply I1. }
  destruct (commit_stays _ _ _ _ _ _ _ _ HP RE1 RN C1 SF) as [C2 _]. split; auto.
  intros (l & L1 & L2). eapply (ki_nocommit _ _ _ (gi_k _ _ _ _ I2 k)); eauto. rewrite L2. eauto.
Qed.

(** * Batch rollback *)
Definition rb_effect (x y : rb_acc) : Prop :=
  (forall k, In k (rb_with x) -> In k (rb_with y)) /\ (forall k, In k (rb_without x) -> In k (rb_without y)) /\
  (forall k, In k (rb_miss x) -> In k (rb_miss y)).

Lemma rb_effect_refl x : rb_effect x x.
Proof. split; [|split]; auto. Qed.
Lemma rb_effect_trans x y z : rb_effect x y -> rb_effect y z -> rb_effect x z.
Proof. intros (A & B & C) (D & E & F). split; [|split]; auto. Qed.
Lemma rb_effect_add l k x : rb_effect x (rb_add l k x).
Proof. unfold rb_add. destruct (beqb _ _); (split; [|split]); simpl; intros; rewrite ?in_app_iff; auto. Qed.

Lemma rollback_loop_effect s st : store_ok s -> 0 < st -> forall keys x y,
  rollback_loop s st keys x = Ok (inr y) -> rb_effect x y /\
  forall k, In k keys -> rolled_back s k st \/ (exists ct, committed s k st ct) \/
     In k (rb_with y) \/ In k (rb_without y) \/ In k (rb_miss y).
Proof.
  intros H P. induction keys as [|k keys IH]; intros x y X; cbn [rollback_loop] in X.
  - apply Ok_inj in X. inversion X; subst. split; [apply rb_effect_refl|intros k []].
  - destruct (has_lock (get_lock s k)) eqn:HL; cbn [negb] in X.
    + destruct (l_ts (get_lock s k) =? st); cbn [negb] in X; [|apply Ok_inj in X; discriminate].
      destruct (writable_type (l_type (get_lock s k))); cbn [negb] in X; [|apply Ok_inj in X; discriminate].
      destruct (IH _ _ X) as [A B]. split; [eapply rb_effect_trans; [apply rb_effect_add|exact A]|].
      intros k' [<-|Q]; auto. right; right. destruct A as (A1 & A2 & A3). unfold rb_add in A1, A2.
      destruct (beqb _ _); simpl in A1, A2; [left; apply A1|right; left; apply A2]; rewrite in_app_iff; simpl; auto.
    + destruct (get_rollback_ok s st k H) as (b & Q & RB). rewrite Q in X. cbn [obind] in X. destruct b.
      * destruct (IH _ _ X) as [A B]. split; auto. intros k' [<-|Q']; auto. left. apply RB; auto.
      * destruct (found_ts _ =? 0) eqn:E.
        -- destruct (IH _ _ X) as [A B]. split.
           ++ eapply rb_effect_trans; [|exact A]. split; [|split]; simpl; auto. intros; rewrite in_app_iff; auto.
           ++ intros k' [<-|Q']; auto. right; right; right; right. apply A. simpl. rewrite in_app_iff; simpl; auto.
        -- destruct (IH _ _ X) as [A B]. split; auto. intros k' [<-|Q']; auto. right; left.
           apply Z.eqb_neq in E. destruct (get_write_info s st kMaxVer st k false true true) as [[t w]|] eqn:G;
             [|simpl in E; congruence].
           apply gwi_some in G; auto. destruct G as (G1 & (G2 & G3 & G4) & _). exists t, w.
           split; [auto|split; [lia|]]. destruct G4 as [[_ G4]|[[G4 _]|[G4 _]]]; congruence.
Qed.

Lemma do_rollback_effect s st wd wo miss k : store_ok s -> In k wd \/ In k wo \/ In k miss ->
  rolled_back (apply_batches s (do_rollback st wd wo miss)) k st.
Proof.
  intros H IN. rewrite do_rollback_eq. destruct (wo ++ wd ++ miss) as [|x r] eqn:EL.
  { exfalso. assert (Q : In k (wo ++ wd ++ miss)) by (rewrite !in_app_iff; tauto). rewrite EL in Q. destruct Q. }
  unfold apply_batches. cbn [fold_left]. set (b := rb_batch _ _ _ _).
  destruct (batch_write b s k st H) as [(w & Q & G)|[(Q & G)|(Q1 & Q2 & G)]].
  - apply in_rb_batch in Q. destruct Q as [(k' & A & B)|[(k' & A & B)|(k' & A & B)]]; try discriminate.
    inversion B; subst. exists (rb_record st). simpl. auto.
  - apply in_rb_batch in Q. destruct Q as [(k' & A & B)|[(k' & A & B)|(k' & A & B)]]; discriminate.
  - exfalso. eapply Q1. apply in_rb_batch. left. exists k. split; [tauto|reflexivity].
Qed.

(** a record of st outside the rolled back keys is not touched *)
Lemma do_rollback_keeps s st wd wo miss k t : store_ok s -> t <> st ->
  write_at (apply_batches s (do_rollback st wd wo miss)) k t = write_at s k t.
Proof.
  intros H N. rewrite do_rollback_eq. destruct (wo ++ wd ++ miss) as [|x r]; [auto|].
  unfold apply_batches. cbn [fold_left]. set (b := rb_batch _ _ _ _).
  destruct (batch_write b s k t H) as [(w & Q & G)|[(Q & G)|(Q1 & Q2 & G)]]; auto;
  apply in_rb_batch in Q; destruct Q as [(k' & A & B)|[(k' & A & B)|(k' & A & B)]]; try discriminate.
  inversion B; congruence.
Qed.

Lemma rollback_start c s mx st keys a bs : handle c s mx (RBatchRollback st keys) = Ok (a, bs) -> r_err a = None ->
  0 < st /\ batch_rollback c s st keys = Ok (a, bs).
Proof.
  intros X N. destruct (handle_some _ _ _ _ _ _ X N) as [V E]. unfold handle in X. rewrite V, E in X. split; auto.
  simpl in V. destruct (_ || _) eqn:Q in V; [discriminate|]. rewrite !orb_false_iff, !Z.eqb_neq in Q.
  simpl in E. rewrite orb_false_r, Z.ltb_ge in E. lia.
Qed.

Lemma rollback_effect c s mx st keys a bs : store_ok s -> handle c s mx (RBatchRollback st keys) = Ok (a, bs) ->
  succeeded a -> forall k, In k keys ->
  rolled_back (apply_batches s bs) k st \/ exists ct, committed s k st ct /\ committed (apply_batches s bs) k st ct.
Proof.
  intros H X SU k IN. destruct (rollback_start _ _ _ _ _ _ _ X (proj1 SU)) as [P Y]. clear X.
  unfold batch_rollback in Y. destruct (_ <? _); [ok_reply Y; destruct SU; discriminate|].
  destruct (rollback_loop s st keys (mkRb [] [] [])) as [[t|y]|] eqn:L; cbn [obind] in Y; [| |discriminate]; ok_reply Y.
  { destruct SU as (_ & Q & _); discriminate. }
  destruct (rollback_loop_effect _ _ H P _ _ _ L) as [_ EF].
  destruct (EF k IN) as [R|[(ct & C)|Q]].
  - left. rewrite do_rollback_eq. destruct (rb_without y ++ rb_with y ++ rb_miss y); [auto|].
    unfold apply_batches. cbn [fold_left].
    destruct (batch_write (rb_batch st (rb_with y) (rb_without y) (rb_miss y)) s k st H) as [(w' & Q & G)|[(Q & G)|(Q1 & Q2 & G)]].
    + apply in_rb_batch in Q; destruct Q as [(k' & A & B)|[(k' & A & B)|(k' & A & B)]]; try discriminate.
      inversion B; subst. exists (rb_record st). simpl; auto.
    + apply in_rb_batch in Q; destruct Q as [(k' & A & B)|[(k' & A & B)|(k' & A & B)]]; discriminate.
    + destruct R as (w & R1 & R2). exists w. rewrite G. auto.
  - right. exists ct. split; auto. destruct C as (w & C1 & C2 & C3). exists w. split; [|auto].
    rewrite do_rollback_keeps; auto. destruct (ok_write _ H _ _ _ C1) as (_ & [[Q _]|[_ Q]]); [congruence|lia].
  - left. apply do_rollback_effect; auto.
Qed.

Lemma rollback_loop_again s st : store_ok s -> 0 < st -> forall keys x,
  (forall k, In k keys ->
     (rolled_back s k st \/ exists ct, ct <= kMaxVer /\ committed s k st ct) /\
     (forall l, lock_at s k = Some l -> l_ts l = st -> ~ is_write (l_type l))) ->
  (exists t, rollback_loop s st keys x = Ok (inl t)) \/ rollback_loop s st keys x = Ok (inr x).
Proof.
  intros H P. induction keys as [|k keys IH]; intros x C; cbn [rollback_loop]; auto.
  destruct (C k) as [C1 C2]; [simpl; auto|].
  assert (C' : forall k, In k keys ->
     (rolled_back s k st \/ exists ct, ct <= kMaxVer /\ committed s k st ct) /\
     (forall l, lock_at s k = Some l -> l_ts l = st -> ~ is_write (l_type l))) by (intros; apply C; simpl; auto).
  destruct (get_lock_spec s k H) as [(l & L1 & L2 & L3 & L4)|(L1 & L2)]; rewrite L2.
  - rewrite L3. cbn [negb]. destruct (l_ts l =? st) eqn:E; cbn [negb]; [|left; eauto].
    destruct (writable_type (l_type l)) eqn:W; cbn [negb]; [|left; eauto].
    exfalso. apply Z.eqb_eq in E. apply (C2 _ L1 E). eapply writable_iff; eauto.
  - change (has_lock no_lock) with false. cbn [negb]. destruct (get_rollback_ok s st k H) as (b & -> & RB). cbn [obind].
    destruct b; [auto|]. destruct C1 as [C1|(ct & C0 & C1)]; [apply RB in C1; discriminate|].
    destruct (found_ts _ =? 0) eqn:E; [|auto].
    apply Z.eqb_eq in E. exfalso. eapply not_committed_of_found; eauto.
Qed.

Lemma rollback_again c s mx st keys a bs : store_ok s ->
  handle c s mx (RBatchRollback st keys) = Ok (a, bs) ->
  (forall k, In k keys ->
     (rolled_back s k st \/ exists ct, ct <= kMaxVer /\ committed s k st ct) /\
     (forall l, lock_at s k = Some l -> l_ts l = st -> ~ is_write (l_type l))) ->
  bs = [].
Proof.
  intros H X C. unfold handle in X. destruct (validate (RBatchRollback st keys)) eqn:V; [ok_reply X; auto|].
  destruct (existsb _ _) eqn:E; [discriminate|].
  assert (P : 0 < st).
  { simpl in V. destruct (_ || _) eqn:Q in V; [discriminate|]. rewrite !orb_false_iff, !Z.eqb_neq in Q.
    simpl in E. rewrite orb_false_r, Z.ltb_ge in E. lia. }
  unfold batch_rollback in X. destruct (_ <? _); [ok_reply X; auto|].
  destruct (rollback_loop_again s st H P keys (mkRb [] [] []) C) as [(t & L)|L]; rewrite L in X; cbn [obind] in X; ok_reply X; auto.
Qed.

Lemma rollback_retry c P g1 g1' es g2 st keys a bs n a2 bs2 :
  plan_ok P -> reachable c P g1 -> serve c g1 (RBatchRollback st keys) = Ok (a, bs) -> succeeded a -> (length bs <= n)%nat ->
  allowed c P g1 (EReq (RBatchRollback st keys) n) -> step c g1 (EReq (RBatchRollback st keys) n) = Ok g1' ->
  run c P g1' es g2 -> rg_safe g2 < st ->
  serve c g2 (RBatchRollback st keys) = Ok (a2, bs2) -> bs2 = [].
Proof.
  intros HP RE S SU N AL ST RN SF S2.
  assert (RE1 : reachable c P g1') by (eapply reachable_run; eauto; econstructor; eauto; constructor).
  assert (I1 := reachable_inv _ _ _ HP RE). assert (I2 := reachable_inv _ _ _ HP (reachable_run _ _ _ _ _ RE1 RN)).
  cbn [step] in ST. rewrite S in ST. cbn [obind snd] in ST. apply Ok_inj in ST.
  unfold serve in *. eapply rollback_again; eauto; [apply I2|].
  intros k IN.
  destruct (rollback_effect _ _ _ _ _ _ _ (gi_ok _ _ _ _ I1) S SU k IN) as [R|(ct & _ & C)].
  - assert (R1 : rolled_back (rg_store g1') k st).
    { subst g1'. cbn [rg_store with_store]. rewrite firstn_all2 by auto. auto. }
    assert (R2 := rollback_stays _ _ _ _ _ _ _ HP RE1 RN R1 SF). split; [auto|].
    intros l L T W. apply (ki_norb _ _ _ (gi_k _ _ _ _ I2 k) l L W). rewrite T. auto.
  - assert (C1 : committed (rg_store g1') k st ct).
    { subst g1'. cbn [rg_store with_store]. rewrite firstn_all2 by auto. auto. }
    assert (I1' := reachable_inv _ _ _ HP RE1).
    assert (CF := committed_for _ _ _ _ _ (gi_k _ _ _ _ I1' k) C1).
    destruct (proj1 (proj2 HP) _ _ CF) as (IS & LT & _). destruct (proj1 HP _ IS).
    destruct (commit_stays _ _ _ _ _ _ _ _ HP RE1 RN C1 ltac:(lia)) as [C2 _]. split.
    + right. exists ct. split; [lia|auto].
    + intros l L T W. apply (ki_nocommit _ _ _ (gi_k _ _ _ _ I2 k) l ct L). rewrite T. auto.
Qed.

(** sent again at once, it also gets the same answer *)
Lemma do_rollback_locks s st wd wo miss k : store_ok s ->
  lock_at (apply_batches s (do_rollback st wd wo miss)) k =
  if in_dec_b k (wo ++ wd) then None else lock_at s k.
Proof.
  intros H. rewrite do_rollback_eq. destruct (wo ++ wd ++ miss) as [|x r] eqn:EL.
  { destruct (in_dec_b k (wo ++ wd)) as [i|n]; auto. exfalso.
    assert (Q : In k (wo ++ wd ++ miss)) by (rewrite in_app_iff in i; rewrite !in_app_iff; tauto). rewrite EL in Q. destruct Q. }
  unfold apply_batches. cbn [fold_left]. clear EL. set (b := rb_batch _ _ _ _).
  destruct (batch_lock b s k H) as [(w & Q & G)|[(Q & G)|(Q1 & Q2 & G)]].
  - apply in_rb_batch in Q. destruct Q as [(k' & A & B)|[(k' & A & B)|(k' & A & B)]]; discriminate.
  - apply in_rb_batch in Q. destruct Q as [(k' & A & B)|[(k' & A & B)|(k' & A & B)]]; try discriminate.
    inversion B; subst k'. destruct (in_dec_b k (wo ++ wd)) as [i|n]; auto. exfalso. apply n. rewrite in_app_iff; auto.
  - destruct (in_dec_b k (wo ++ wd)) as [i|n]; auto. exfalso. apply Q2. apply in_rb_batch.
    right; left. exists k. rewrite in_app_iff in i. auto.
Qed.

Lemma rollback_loop_locks s st : store_ok s -> forall keys x y, rollback_loop s st keys x = Ok (inr y) ->
  rb_effect x y /\ forall k, In k keys -> lock_at s k = None \/ In k (rb_with y) \/ In k (rb_without y).
Proof.
  intros H. induction keys as [|k keys IH]; intros x y X; cbn [rollback_loop] in X.
  - apply Ok_inj in X. inversion X; subst. split; [apply rb_effect_refl|intros k []].
  - destruct (get_lock_spec s k H) as [(l & L1 & L2 & L3 & L4)|(L1 & L2)]; rewrite L2 in X.
    + rewrite L3 in X. cbn [negb] in X.
      destruct (l_ts l =? st); cbn [negb] in X; [|apply Ok_inj in X; discriminate].
      destruct (writable_type (l_type l)); cbn [negb] in X; [|apply Ok_inj in X; discriminate].
      destruct (IH _ _ X) as [A B]. split; [eapply rb_effect_trans; [apply rb_effect_add|exact A]|].
      intros k' [<-|Q]; auto. right. destruct A as (A1 & A2 & A3). unfold rb_add in A1, A2.
      destruct (beqb _ _); simpl in A1, A2; [left; apply A1|right; apply A2]; rewrite in_app_iff; simpl; auto.
    + change (has_lock no_lock) with false in X. cbn [negb] in X.
      destruct (get_rollback_ok s st k H) as (b & Q & RB). rewrite Q in X. cbn [obind] in X. destruct b.
      * destruct (IH _ _ X) as [A B]. split; auto. intros k' [<-|Q']; auto.
      * destruct (found_ts _ =? 0) eqn:E.
        -- destruct (IH _ _ X) as [A B]. split.
           ++ eapply rb_effect_trans; [|exact A]. split; [|split]; simpl; auto. intros; rewrite in_app_iff; auto.
           ++ intros k' [<-|Q']; auto.
        -- destruct (IH _ _ X) as [A B]. split; auto. intros k' [<-|Q']; auto.
Qed.

Lemma rollback_twice c s mx mx' st keys a bs : store_ok s ->
  (forall k ct, In k keys -> committed s k st ct -> ct <= kMaxVer) ->
  handle c s mx (RBatchRollback st keys) = Ok (a, bs) -> succeeded a ->
  handle c (apply_batches s bs) mx' (RBatchRollback st keys) = Ok (a, []).
Proof.
  intros H BD X SU. assert (X' := X).
  assert (H' : store_ok (apply_batches s bs)) by (eapply moves_store_ok; eauto; eapply handle_moves; eauto).
  destruct (rollback_start _ _ _ _ _ _ _ X (proj1 SU)) as [P Y].
  destruct (handle_some _ _ _ _ _ _ X (proj1 SU)) as [V E].
  assert (NL : forall k, In k keys -> lock_at (apply_batches s bs) k = None).
  { intros k IN. unfold batch_rollback in Y. destruct (_ <? _); [ok_reply Y; destruct SU; discriminate|].
    destruct (rollback_loop s st keys (mkRb [] [] [])) as [[t|y]|] eqn:L; cbn [obind] in Y; [| |discriminate]; ok_reply Y.
    { destruct SU as (_ & Q & _); discriminate. }
    destruct (rollback_loop_locks _ _ H _ _ _ L) as [_ EF]. rewrite do_rollback_locks by auto.
    destruct (in_dec_b k (rb_without y ++ rb_with y)) as [i|n]; auto.
    destruct (EF k IN) as [Q|Q]; auto. exfalso. apply n. rewrite in_app_iff. tauto. }
  assert (A : a = resp0 /\ Z.of_nat (length keys) <= max_rollback_count c).
  { unfold batch_rollback in Y. destruct (_ <? _) eqn:E1; [ok_reply Y; destruct SU; discriminate|].
    destruct (rollback_loop s st keys (mkRb [] [] [])) as [[t|y]|] eqn:L; cbn [obind] in Y; [| |discriminate]; ok_reply Y.
    { destruct SU as (_ & Q & _); discriminate. }
    apply Z.ltb_ge in E1. auto. }
  destruct A as [-> LE]. unfold handle. rewrite V, E. unfold batch_rollback.
  destruct (_ <? _) eqn:E1; [apply Z.ltb_lt in E1; lia|].
  destruct (rollback_loop_again _ st H' P keys (mkRb [] [] [])) as [(t & L)|L].
  - intros k IN. split; [|intros l L; rewrite NL in L by auto; discriminate].
    destruct (rollback_effect _ _ _ _ _ _ _ H X' SU k IN) as [R|(ct & C0 & C)]; [auto|].
    right. exists ct. split; auto. eapply BD; eauto.
  - exfalso. clear -L NL H'. revert L. generalize (mkRb [] [] []).
    induction keys as [|k keys IH]; intros x; cbn [rollback_loop]; [intros Q; apply Ok_inj in Q; discriminate|].
    destruct (get_lock_spec _ k H') as [(l & L1 & _)|(L1 & L2)]; [rewrite NL in L1 by (simpl; auto); discriminate|].
    rewrite L2. change (has_lock no_lock) with false. cbn [negb].
    destruct (get_rollback_ok _ st k H') as (b & -> & RB). cbn [obind].
    destruct b; [apply IH; intros; apply NL; simpl; auto|]. destruct (_ =? 0); apply IH; intros; apply NL; simpl; auto.
  - rewrite L. reflexivity.
Qed.

(** * Pessimistic rollback, heartbeat, resolve with keys *)
Lemma pess_rollback_loop_effect s st fut : store_ok s -> forall keys res dels res' dels',
  pess_rollback_loop s st fut keys res dels = (res', dels') -> res' = [] ->
  res = [] /\ (forall k, In k dels -> In k dels') /\
  forall k, In k keys -> lock_at s k = None \/ In k dels'.
Proof.
  intros H. induction keys as [|k keys IH]; intros res dels res' dels' X N; cbn [pess_rollback_loop] in X.
  - inversion X; subst. split; [auto|split; [auto|intros k []]].
  - assert (BAD : forall l dels0, pess_rollback_loop s st fut keys (res ++ [TLocked l]) dels0 = (res', dels') -> False).
    { intros l d Q. destruct (IH _ _ _ _ Q N) as [Q' _]. destruct res; discriminate. }
    destruct (get_lock_spec s k H) as [(l & L1 & L2 & L3 & L4)|(L1 & L2)]; rewrite L2 in X; clear L2.
    + rewrite L3 in X. destruct (negb (op_eqb _ _)); [exfalso; eauto|].
      destruct (l_ts l =? st); [|exfalso; eauto]. destruct (l_fut l <=? fut); [|exfalso; eauto].
      destruct (IH _ _ _ _ X N) as (A & B & C). split; [auto|split].
      * intros k' Q. apply B. rewrite in_app_iff; auto.
      * intros k' [<-|Q]; auto. right. apply B. rewrite in_app_iff; simpl; auto.
    + change (has_lock no_lock) with false in X. destruct (IH _ _ _ _ X N) as (A & B & C). split; [auto|split; auto].
      intros k' [<-|Q]; auto.
Qed.

Lemma pess_rollback_loop_again s st fut : store_ok s -> forall keys res dels,
  (forall k, In k keys -> lock_at s k = None) -> pess_rollback_loop s st fut keys res dels = (res, dels).
Proof.
  intros H. induction keys as [|k keys IH]; intros res dels N; cbn [pess_rollback_loop]; auto.
  destruct (get_lock_spec s k H) as [(l & L1 & _)|(L1 & ->)]; [rewrite N in L1 by (simpl; auto); discriminate|].
  change (has_lock no_lock) with false. apply IH. intros; apply N; simpl; auto.
Qed.

Lemma del_locks s ks k : store_ok s -> lock_at (apply_batch s (map DelLock ks)) k = if in_dec_b k ks then None else lock_at s k.
Proof.
  intros H. destruct (batch_lock (map DelLock ks) s k H) as [(w & Q & G)|[(Q & G)|(Q1 & Q2 & G)]].
  - apply in_map_iff in Q. destruct Q as (? & Q & _). discriminate.
  - apply in_map_iff in Q. destruct Q as (k' & Q & I). inversion Q; subst k'. destruct (in_dec_b k ks); [auto|contradiction].
  - destruct (in_dec_b k ks) as [i|n]; auto. exfalso. apply Q2. apply in_map; auto.
Qed.

Lemma pess_rollback_twice c s mx mx' st fut keys a bs : store_ok s ->
  handle c s mx (RPessRollback st fut keys) = Ok (a, bs) -> succeeded a ->
  (forall k, In k keys -> lock_at (apply_batches s bs) k = None) /\
  handle c (apply_batches s bs) mx' (RPessRollback st fut keys) = Ok (a, []).
Proof.
  intros H X SU. assert (H' : store_ok (apply_batches s bs)) by (eapply moves_store_ok; eauto; eapply handle_moves; eauto).
  destruct (handle_some _ _ _ _ _ _ X (proj1 SU)) as [V E]. unfold handle in X. rewrite V, E in X.
  unfold pessimistic_rollback in X. destruct (_ <? _) eqn:E1; [ok_reply X; destruct SU; discriminate|].
  destruct (pess_rollback_loop s st fut keys [] []) as [res dels] eqn:L.
  destruct res as [|t res]; cbn [is_nil negb] in X.
  2:{ ok_reply X. destruct SU as (_ & Q & _). discriminate. }
  assert (NL : (forall k, In k keys -> lock_at (apply_batches s bs) k = None) /\ a = resp0).
  { destruct (pess_rollback_loop_effect s st fut H keys [] [] _ _ L eq_refl) as (_ & _ & EF).
    destruct dels as [|d dels]; ok_reply X.
    - split; auto. intros k IN. simpl. destruct (EF k IN) as [Q|[]]; auto.
    - split; auto. intros k IN. unfold apply_batches. cbn [fold_left].
      change (lock_at (apply_batch s (map DelLock (d :: dels))) k = None). rewrite del_locks by auto.
      destruct (in_dec_b k (d :: dels)); auto. destruct (EF k IN); [auto|contradiction]. }
  destruct NL as [NL ->]. split; auto. unfold handle. rewrite V, E. unfold pessimistic_rollback. rewrite E1.
  rewrite pess_rollback_loop_again by auto. reflexivity.
Qed.

Lemma heartbeat_twice c s mx mx' k st adv a bs : store_ok s ->
  handle c s mx (RHeartBeat k st adv) = Ok (a, bs) -> succeeded a ->
  handle c (apply_batches s bs) mx' (RHeartBeat k st adv) = Ok (a, []).
Proof.
  intros H X SU. destruct (handle_some _ _ _ _ _ _ X (proj1 SU)) as [V E]. unfold handle in *. rewrite V, E in *.
  unfold heartbeat in *. destruct (get_lock_spec s k H) as [(l & L1 & L2 & L3 & L4)|(L1 & L2)]; rewrite L2 in X.
  2:{ change (has_lock no_lock) with false in X. ok_reply X. destruct SU as (_ & Q & _). discriminate. }
  rewrite L3 in X. cbn [negb] in X. destruct (l_ts l =? st) eqn:E1; cbn [negb] in X.
  2:{ ok_reply X. destruct SU as (_ & Q & _). discriminate. }
  destruct (adv <=? l_ttl l) eqn:E2; ok_reply X.
  - unfold apply_batches. cbn [fold_left]. rewrite L3, E1, E2. reflexivity.
  - unfold apply_batches, apply_batch. cbn [fold_left].
    assert (Q : get_lock (apply_wop s (PutLock k (with_ttl (get_lock s k) adv))) k = with_ttl (get_lock s k) adv).
    { unfold get_lock at 1. change (get bcmp (locks ?x) k) with (lock_at x k). rewrite lock_at_put.
      destruct (bytes_eq_dec k k); congruence. }
    rewrite Q. change (has_lock (with_ttl (get_lock s k) adv)) with (has_lock (get_lock s k)). rewrite L3.
    cbn [negb l_ts with_ttl l_ttl]. rewrite E1. cbn [negb]. rewrite Z.leb_refl. reflexivity.
Qed.

Lemma resolve_loop_effect s st : store_ok s -> forall keys acc ls, resolve_loop s st keys acc = inr ls ->
  (forall l, In l acc -> In l ls) /\
  forall k l, In k keys -> lock_at s k = Some l -> l_ts l = st -> In l ls.
Proof.
  intros H. induction keys as [|k keys IH]; intros acc ls X; cbn [resolve_loop] in X.
  - inversion X; subst. split; [auto|intros k l []].
  - destruct (get_lock_spec s k H) as [(l & L1 & L2 & L3 & L4)|(L1 & L2)]; rewrite L2 in X; clear L2.
    + rewrite L3 in X. cbn [negb] in X. destruct (l_ts l =? st) eqn:E; cbn [negb] in X.
      * destruct (negb _); [discriminate|]. destruct (IH _ _ X) as [A B]. split.
        -- intros l' Q. apply A. rewrite in_app_iff; auto.
        -- intros k' l' [<-|Q] L T; [|eauto]. assert (l' = l) by congruence. subst. apply A. rewrite in_app_iff; simpl; auto.
      * destruct (IH _ _ X) as [A B]. split; auto. intros k' l' [<-|Q] L T; [|eauto].
        assert (l' = l) by congruence. subst. apply Z.eqb_neq in E. congruence.
    + change (has_lock no_lock) with false in X. cbn [negb] in X. destruct (IH _ _ X) as [A B]. split; auto.
      intros k' l' [<-|Q] L T; [congruence|eauto].
Qed.

Lemma resolve_loop_again s st : store_ok s -> forall keys acc, (forall k, In k keys -> ~ holds s k st) ->
  resolve_loop s st keys acc = inr acc.
Proof.
  intros H. induction keys as [|k keys IH]; intros acc N; cbn [resolve_loop]; auto.
  assert (N' : forall k, In k keys -> ~ holds s k st) by (intros; apply N; simpl; auto).
  destruct (get_lock_spec s k H) as [(l & L1 & L2 & L3 & L4)|(L1 & L2)]; rewrite L2; clear L2.
  - rewrite L3. cbn [negb]. destruct (l_ts l =? st) eqn:E; cbn [negb]; auto.
    exfalso. apply (N k); [simpl; auto|]. exists l. apply Z.eqb_eq in E. auto.
  - change (has_lock no_lock) with false. cbn [negb]. auto.
Qed.

Lemma fold_rb_add_with ls : forall x k,
  (In k (rb_with (fold_left (fun a l => rb_add l (l_key l) a) ls x)) \/
   In k (rb_without (fold_left (fun a l => rb_add l (l_key l) a) ls x))) <->
  (In k (rb_with x) \/ In k (rb_without x) \/ exists l, In l ls /\ l_key l = k).
Proof.
  induction ls as [|l ls IH]; intros x k; simpl.
  - firstorder.
  - rewrite IH. unfold rb_add. destruct (beqb _ _); simpl; rewrite ?in_app_iff; simpl; split.
    + intros [[A|[A|[]]]|[A|(l' & A & B)]]; eauto 6.
    + intros [A|[A|(l' & [A|A] & B)]]; subst; eauto 6.
    + intros [A|[[A|[A|[]]]|(l' & A & B)]]; eauto 6.
    + intros [A|[A|(l' & [A|A] & B)]]; subst; eauto 6.
Qed.

Lemma commit_locks s st ct ls k : store_ok s ->
  lock_at (apply_batches s (do_commit st ct ls)) k = if in_dec_b k (map l_key ls) then None else lock_at s k.
Proof.
  intros H. unfold do_commit. destruct ls as [|l0 lr] eqn:EL; [destruct (in_dec_b k (map l_key [])) as [[]|]; reflexivity|]. rewrite <- EL. clear EL.
  unfold apply_batches. cbn [fold_left]. set (b := _ ++ _).
  destruct (batch_lock b s k H) as [(w & Q & G)|[(Q & G)|(Q1 & Q2 & G)]].
  - apply in_commit_batch in Q. destruct Q as [(? & _ & _ & Q)|(? & _ & Q)]; discriminate.
  - apply in_commit_batch in Q. destruct Q as [(? & _ & _ & Q)|(l & I & Q)]; [discriminate|]. inversion Q; subst k.
    destruct (in_dec_b (l_key l) (map l_key ls)) as [i|n]; auto. exfalso. apply n. apply in_map; auto.
  - destruct (in_dec_b k (map l_key ls)) as [i|n]; auto. exfalso. apply Q2. apply in_map_iff in i.
    destruct i as (l & <- & I). apply in_commit_batch. right. eauto.
Qed.

(** the locks after one resolve batch *)
Lemma resolve_batches_locks s st ct ls k : store_ok s ->
  lock_at (apply_batches s (resolve_batches st ct ls)) k = if in_dec_b k (map l_key ls) then None else lock_at s k.
Proof.
  intros H. unfold resolve_batches. destruct (0 <? ct); [apply commit_locks; auto|].
  rewrite do_rollback_locks by auto. set (y := fold_left _ _ _).
  assert (Q : In k (rb_without y ++ rb_with y) <-> In k (map l_key ls)).
  { rewrite in_app_iff, in_map_iff. assert (F := fold_rb_add_with ls (mkRb [] [] []) k). fold y in F. simpl in F.
    split.
    - intros A. destruct F as [F _]. destruct F as [[]|[[]|(l & B & C)]]; [tauto|]. eauto.
    - intros (l & A & B). destruct F as [_ F]. destruct F; [right; right; eauto|auto|auto]. }
  destruct (in_dec_b k (rb_without y ++ rb_with y)), (in_dec_b k (map l_key ls)); auto; exfalso; tauto.
Qed.

Lemma resolve_twice c s mx mx' st ct keys txns a bs : store_ok s -> keys <> [] ->
  handle c s mx (RResolve st ct keys txns) = Ok (a, bs) -> succeeded a ->
  (forall k, In k keys -> ~ holds (apply_batches s bs) k st) /\
  handle c (apply_batches s bs) mx' (RResolve st ct keys txns) = Ok (a, []).
Proof.
  intros H NE X SU. assert (H' : store_ok (apply_batches s bs)) by (eapply moves_store_ok; eauto; eapply handle_moves; eauto).
  destruct (handle_some _ _ _ _ _ _ X (proj1 SU)) as [V E]. unfold handle in X. rewrite V, E in X.
  unfold resolve_lock in X. destruct (max_resolve_count c <? Z.of_nat (length keys)) eqn:E1; [ok_reply X; destruct SU; discriminate|].
  destruct keys as [|k0 kr] eqn:EK; [congruence|]. rewrite <- EK in *.
  destruct (bad_commit (st, ct)) eqn:BC; [ok_reply X; destruct SU; discriminate|].
  destruct (resolve_loop s st keys []) as [t|ls] eqn:L.
  { ok_reply X. destruct SU as (_ & Q & _); discriminate. }
  assert (NH : (forall k, In k keys -> ~ holds (apply_batches s bs) k st) /\ a = resp0).
  { apply Ok_inj in X. injection X as <- <-. split; auto. intros k IN (l & A & B).
    rewrite resolve_batches_locks in A by auto. destruct (in_dec_b k (map l_key ls)) as [i|n]; [discriminate|].
    destruct (resolve_loop_effect s st H keys [] ls L) as [_ EF]. apply n.
    destruct (ok_lock _ H _ _ A) as (K & _). rewrite <- K. apply in_map. eapply EF; eauto. }
  destruct NH as [NH ->]. split; auto. unfold handle. rewrite V, E. unfold resolve_lock. rewrite E1. rewrite EK. rewrite <- EK.
  rewrite BC, resolve_loop_again by auto.
  unfold resolve_batches. destruct (0 <? ct); reflexivity.
Qed.
