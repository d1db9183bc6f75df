(** Every handler makes only the moves of TxnMoves: locks, status checks, resolve, heartbeat. *)
From Coq Require Import ZArith List Lia Bool.
From Verif Require Import Bytes SMap Outcome TxnModel TxnSpec TxnBase TxnMoves TxnHandlers.
Import ListNotations.
Open Scope Z_scope.

(** * PessimisticLock *)
Definition pess_entry (s : store) (p : pess_req) (k : bytes) (l : lock) : Prop :=
  l_ts l = pl_start p /\ l_type l = OpLock /\ l_fut l = pl_fut p /\ lock_wf k l /\
  ((lock_at s k = None /\
    (forall t w, write_at s k t = Some w -> w_op w <> OpRollback ->
                 pl_start p < t <= kMaxVer -> t < pl_fut p)) \/
   (exists l0, lock_at s k = Some l0 /\ l_ts l0 = pl_start p /\ l_fut l0 < pl_fut p)) /\
  l_primary l = pl_primary p /\
  (l_async l = true -> exists l0, lock_at s k = Some l0 /\ l_ts l0 = pl_start p /\ l_async l0 = true).

Lemma put_locks_in ls (o : wop) :
  In o (map (fun kl : bytes * lock => PutLock (fst kl) (snd kl)) ls) <->
  exists k l, In (k, l) ls /\ o = PutLock k l.
Proof.
  rewrite in_map_iff. split.
  - intros ([k l] & A & B). simpl in A. eauto.
  - intros (k & l & A & B). exists (k, l). auto.
Qed.

Lemma lock_batch_moves a s p ls : store_ok s ->
  (forall k l, In (k, l) ls -> pess_entry s p k l) ->
  moves (RPessLock p) a s (lock_batch ls).
Proof.
  intros H E. unfold lock_batch. destruct ls as [|x0 xr] eqn:EL; [exact I|]. rewrite <- EL in *. clear EL x0 xr.
  set (b := map _ ls). cbn [moves]. split; [|split; [|exact I]].
  - apply Forall_forall. intros o Ho. apply put_locks_in in Ho. destruct Ho as (k & l & A & ->).
    simpl. apply (E k l A).
  - intros k.
    assert (W : writes_same s (apply_batch s b) k).
    { intros t. destruct (batch_write b s k t H) as [(w & Q & G)|[(Q & G)|(Q1 & Q2 & G)]]; auto;
        apply put_locks_in in Q; destruct Q as (? & ? & _ & Q); discriminate. }
    assert (D : data_same s (apply_batch s b) k).
    { intros t. destruct (batch_data b s k t H) as [(w & Q & G)|[(Q & G)|(Q1 & Q2 & G)]]; auto;
        apply put_locks_in in Q; destruct Q as (? & ? & _ & Q); discriminate. }
    destruct (batch_lock b s k H) as [(l & Q & G)|[(Q & G)|(Q1 & Q2 & G)]].
    + apply put_locks_in in Q. destruct Q as (k' & l' & A & Q). inversion Q; subst k' l'.
      destruct (E k l A) as (E1 & E2 & E3 & E4 & E5 & E6 & E7).
      apply KPessLock with (p := p) (l := l); auto.
    + apply put_locks_in in Q; destruct Q as (? & ? & _ & Q); discriminate.
    + apply KStay; auto.
Qed.

Lemma pess_loop_spec s p : store_ok s -> 0 < pl_start p -> pl_primary p <> [] -> pl_fut p <> 0 ->
  forall ms x y, pess_loop s p ms x = inr y ->
  (forall k l, In (k, l) (pa_locks x) -> pess_entry s p k l) ->
  (forall k l, In (k, l) (pa_locks y) -> pess_entry s p k l).
Proof.
  intros H P P1 P2. induction ms as [|m ms IH]; intros x y; cbn [pess_loop].
  - intros X; inversion X; subst; auto.
  - destruct (op_eqb (m_op m) OpLock); cbn [negb]; [|discriminate].
    destruct (get_lock_spec s (m_key m) H) as [(l & G1 & G2 & G3 & G4)|(G1 & G2)]; rewrite G2.
    + rewrite G3. destruct (l_fut l =? 0); [intros X A; exact (IH _ _ X A)|].
      destruct (l_ts l =? pl_start p) eqn:E1; [|intros X A; exact (IH _ _ X A)].
      destruct (l_fut l =? pl_fut p); [intros X A; exact (IH _ _ X A)|].
      destruct (l_fut l <? pl_fut p) eqn:E2; [|intros X A; exact (IH _ _ X A)].
      intros X A. apply (IH _ _ X). cbn [pa_locks]. intros k l'. rewrite in_app_iff.
      intros [I1|[I1|[]]]; auto. inversion I1; subst k l'. apply Z.eqb_eq in E1. apply Z.ltb_lt in E2.
      split; [|split; [|split; [|split; [|split; [|split]]]]]; auto.
      * destruct G4 as (K1 & K2 & K3 & K4 & K5).
        split; [|split; [|split; [|split]]]; simpl; auto.
      * right. exists l. auto.
      * cbn [l_async pess_lock_on]. intros Q. exists l. auto.
    + cbn [has_lock no_lock l_primary negb beqb bcmp].
      destruct (pl_fut p <=? _) eqn:E1; [intros X A; exact (IH _ _ X A)|].
      intros X A. apply (IH _ _ X). cbn [pa_locks]. intros k l'. rewrite in_app_iff.
      intros [I1|[I1|[]]]; auto. inversion I1; subst k l'. apply Z.leb_gt in E1.
      split; [|split; [|split; [|split; [|split; [|split]]]]]; auto; [| |discriminate].
      * split; [|split; [|split; [|split]]]; simpl; auto.
      * left. split; [auto|]. intros t w W1 W2 W3.
        assert (M : (if pl_ret p then 0 else pl_start p) < t) by (destruct (pl_ret p); lia).
        assert (X1 := found_ts_le s (if pl_ret p then 0 else pl_start p) 0 (m_key m) t w H ltac:(lia) W1 W2 M
                        (or_introl (Z.le_refl 0))).
        lia.
Qed.

Lemma pess_lock_moves c s p a bs : store_ok s -> 0 < pl_start p -> pl_primary p <> [] -> pl_fut p <> 0 ->
  pessimistic_lock c s p = Ok (a, bs) -> moves (RPessLock p) a s bs.
Proof.
  intros H P P1 P2. unfold pessimistic_lock.
  destruct (_ <? _); [intros X; apply Ok_inj in X; inversion X; subst a bs; exact I|].
  destruct (pess_loop _ _ _ _) as [e|y] eqn:E; [intros X; apply Ok_inj in X; inversion X; subst a bs; exact I|].
  destruct (negb _); intros X; apply Ok_inj in X; inversion X; subst a bs; [exact I|].
  apply lock_batch_moves; auto. eapply pess_loop_spec; eauto. simpl. tauto.
Qed.

(** * PessimisticRollback *)
Lemma pess_rollback_loop_spec s st fut : store_ok s -> forall keys res dels res' dels',
  pess_rollback_loop s st fut keys res dels = (res', dels') ->
  forall k, In k dels' -> In k dels \/
    (In k keys /\ exists l, lock_at s k = Some l /\ l_ts l = st /\ l_type l = OpLock /\ l_fut l <= fut).
Proof.
  intros H. induction keys as [|k0 keys IH]; intros res dels res' dels'; cbn [pess_rollback_loop].
  - intros X k I1. inversion X; subst; auto.
  - destruct (get_lock_spec s k0 H) as [(l & G1 & G2 & G3 & G4)|(G1 & G2)]; rewrite G2.
    + rewrite G3. destruct (op_eqb (l_type l) OpLock) eqn:E1; cbn [negb].
      2:{ intros X k I1. destruct (IH _ _ _ _ X k I1) as [|(? & ?)]; auto. right; split; simpl; auto. }
      destruct (l_ts l =? st) eqn:E2.
      2:{ intros X k I1. destruct (IH _ _ _ _ X k I1) as [|(? & ?)]; auto. right; split; simpl; auto. }
      destruct (l_fut l <=? fut) eqn:E3.
      2:{ intros X k I1. destruct (IH _ _ _ _ X k I1) as [|(? & ?)]; auto. right; split; simpl; auto. }
      intros X k I1. destruct (IH _ _ _ _ X k I1) as [I2|(? & ?)]; [|right; split; simpl; auto].
      rewrite in_app_iff in I2. destruct I2 as [I2|[<-|[]]]; auto. right. split; [simpl; auto|].
      exists l. apply op_eqb_eq in E1. apply Z.eqb_eq in E2. apply Z.leb_le in E3. auto.
    + cbn [has_lock no_lock l_primary negb beqb bcmp].
      intros X k I1. destruct (IH _ _ _ _ X k I1) as [|(? & ?)]; auto. right; split; simpl; auto.
Qed.

Lemma pess_rollback_moves c s st fut keys a bs : store_ok s ->
  pessimistic_rollback c s st fut keys = Ok (a, bs) -> moves (RPessRollback st fut keys) a s bs.
Proof.
  intros H. unfold pessimistic_rollback.
  destruct (_ <? _); [intros X; apply Ok_inj in X; inversion X; subst a bs; exact I|].
  destruct (pess_rollback_loop _ _ _ _ _ _) as [res dels] eqn:E.
  assert (S := pess_rollback_loop_spec s st fut H _ _ _ _ _ E). clear E.
  destruct (negb _); [intros X; apply Ok_inj in X; inversion X; subst a bs; exact I|].
  destruct dels as [|d0 dr] eqn:ED; [intros X; apply Ok_inj in X; inversion X; subst a bs; exact I|].
  rewrite <- ED in *. clear ED d0 dr. intros X; apply Ok_inj in X; inversion X; subst a bs. clear X.
  set (b := map DelLock dels). cbn [moves].
  assert (IN : forall o, In o b -> exists k, In k dels /\ o = DelLock k).
  { intros o Ho. apply in_map_iff in Ho. destruct Ho as (k & <- & I1). eauto. }
  split; [|split; [|exact I]].
  - apply Forall_forall. intros o Ho. destruct (IN o Ho) as (? & _ & ->). exact I.
  - intros k.
    assert (W : writes_same s (apply_batch s b) k).
    { intros t. destruct (batch_write b s k t H) as [(w & Q & G)|[(Q & G)|(Q1 & Q2 & G)]]; auto;
        apply IN in Q; destruct Q as (? & _ & Q); discriminate. }
    assert (D : data_same s (apply_batch s b) k).
    { intros t. destruct (batch_data b s k t H) as [(w & Q & G)|[(Q & G)|(Q1 & Q2 & G)]]; auto;
        apply IN in Q; destruct Q as (? & _ & Q); discriminate. }
    destruct (batch_lock b s k H) as [(l & Q & G)|[(Q & G)|(Q1 & Q2 & G)]].
    + apply IN in Q; destruct Q as (? & _ & Q); discriminate.
    + apply IN in Q. destruct Q as (k' & I1 & Q). inversion Q; subst k'.
      destruct (S k I1) as [[]|(I2 & l & L1 & L2 & L3 & L4)].
      eapply KUnlock with (l0 := l); eauto.
    + apply KStay; auto.
Qed.

(** * single lock updates *)
Lemma touch_moves r a s k l0 l : store_ok s -> lock_at s k = Some l0 -> In (l_ts l0) (txns_of r) ->
  l_ts l = l_ts l0 -> l_type l = l_type l0 -> l_short l = l_short l0 -> l_key l = l_key l0 ->
  l_primary l = l_primary l0 -> l_fut l = l_fut l0 -> l_async l = l_async l0 -> l_secs l = l_secs l0 ->
  l_minc l0 <= l_minc l -> l_ttl l0 <= l_ttl l ->
  l_minc l = l_minc l0 \/
    (exists p lk cl cu fs rm, r = RCheckStatus p lk cl cu fs rm /\ (l_async l0 = false \/ fs = true)) ->
  moves r a s [[PutLock k l]].
Proof.
  intros H E IT E1 E2 E3 E4 E5 E6 E7 E8 E9 E10 E11. cbn [moves]. split; [|split; [|exact I]].
  - constructor; [|constructor]. simpl. destruct (ok_lock _ H _ _ E) as (W1 & W2 & W3 & W4 & W5).
    repeat split; try congruence. rewrite E2; auto. intros. rewrite E6. apply W5. congruence.
  - intros k'. destruct (bytes_eq_dec k k') as [<-|n].
    + apply KTouch with (l0 := l0) (l := l); auto; intros; try (intros t; reflexivity).
      unfold apply_batch; cbn [fold_left]. rewrite lock_at_put. destruct (bytes_eq_dec k k); congruence.
    + apply KStay; try (intros t; reflexivity).
      unfold apply_batch; cbn [fold_left]. rewrite lock_at_put. destruct (bytes_eq_dec k k'); congruence.
Qed.

(** * HeartBeat *)
Lemma heartbeat_moves s k st adv a bs : store_ok s ->
  heartbeat s k st adv = Ok (a, bs) -> moves (RHeartBeat k st adv) a s bs.
Proof.
  intros H. unfold heartbeat.
  destruct (get_lock_spec s k H) as [(l & G1 & G2 & G3 & G4)|(G1 & G2)]; rewrite G2.
  - rewrite G3. cbn [negb]. destruct (l_ts l =? st) eqn:E1; cbn [negb].
    2:{ intros X; apply Ok_inj in X; inversion X; subst a bs; exact I. }
    destruct (adv <=? l_ttl l) eqn:E2; intros X; apply Ok_inj in X; inversion X; subst a bs; [exact I|].
    apply Z.eqb_eq in E1. apply Z.leb_gt in E2.
    apply touch_moves with (l0 := l); auto; simpl; auto; lia.
  - cbn. intros X; apply Ok_inj in X; inversion X; subst a bs; exact I.
Qed.

(** * CheckTxnStatus *)
Lemma check_status_moves s k lk cl cu fs rm a bs : store_ok s -> 0 < lk ->
  check_status s k lk cl cu fs rm = Ok (a, bs) -> moves (RCheckStatus k lk cl cu fs rm) a s bs.
Proof.
  intros H P. unfold check_status.
  destruct (l_ts (get_lock s k) =? lk) eqn:E1.
  - destruct (get_lock_spec s k H) as [(l & G1 & G2 & G3 & G4)|(G1 & G2)].
    2:{ rewrite G2 in E1. apply Z.eqb_eq in E1. cbn [no_lock l_ts] in E1. lia. }
    rewrite G2 in *. apply Z.eqb_eq in E1.
    destruct (negb (beqb _ _)); [intros X; apply Ok_inj in X; inversion X; subst a bs; exact I|].
    destruct (l_async l && _) eqn:AS; [intros X; apply Ok_inj in X; inversion X; subst a bs; exact I|].
    assert (AF : l_async l = false \/ fs = true) by (destruct (l_async l), fs; auto; discriminate).
    destruct (negb (op_eqb _ _) && _); [intros X; apply Ok_inj in X; inversion X; subst a bs; exact I|].
    destruct (Z.shiftr cu 18 <=? l_ttl l) eqn:E2.
    + destruct (l_minc l <? cl) eqn:E3; intros X; apply Ok_inj in X; inversion X; subst a bs; [|exact I].
      apply Z.ltb_lt in E3. destruct G4 as (K & G4). rewrite K.
      apply touch_moves with (l0 := l); auto; simpl; auto; try lia. right. do 6 eexists. split; [reflexivity|auto].
    + apply Z.leb_gt in E2. intros X; apply Ok_inj in X; inversion X; subst a bs. clear X.
      assert (RE : rb_entry (RCheckStatus k lk cl cu fs rm) s lk k).
      { exists l. split; [auto|split; [auto|split; [|split]]].
        - intros p lk' cl' cu' fs' rm' Q. inversion Q; subst; auto.
        - right. repeat eexists.
        - intros p lk' cl' cu' fs' rm' Q. inversion Q; subst; auto. }
      destruct (beqb (l_short l) []); apply do_rollback_moves; auto; simpl; try tauto;
        intros k' Hk; destruct Hk as [Hk|Hk]; try tauto; repeat (destruct Hk as [<-|Hk]; [auto|]); try tauto.
  - destruct (get_rollback_ok s lk k H) as (b & B & Bi). rewrite B. cbn [obind].
    destruct b; [intros X; apply Ok_inj in X; inversion X; subst a bs; exact I|].
    destruct (found_ts _ =? 0) eqn:E2; [|intros X; apply Ok_inj in X; inversion X; subst a bs; exact I].
    destruct rm; intros X; apply Ok_inj in X; inversion X; subst a bs; [|exact I].
    apply mark_rollback_moves; auto; [simpl; auto| |simpl; auto]. apply Z.eqb_eq in E2. split; [|split].
    + intros (l & L1 & L2). apply Z.eqb_neq in E1. unfold get_lock in E1.
      change (get bcmp (locks s) k) with (lock_at s k) in E1. rewrite L1 in E1. congruence.
    + apply not_committed_of_found; auto.
    + intros C; apply Bi in C; discriminate.
Qed.

(** * TxnCheckSecondaryLocks *)
Lemma secondary_loop_moves s st keys0 : store_ok s -> 0 < st ->
  forall keys acc a bs, secondary_loop s st keys acc = Ok (a, bs) -> moves (RCheckSecondary st keys0) a s bs.
Proof.
  intros H P. induction keys as [|k keys IH]; intros acc a bs; cbn [secondary_loop].
  - intros X; apply Ok_inj in X; inversion X; subst a bs; exact I.
  - destruct (l_ts (get_lock s k) =? st) eqn:E1.
    + destruct (negb _); [intros X; apply Ok_inj in X; inversion X; subst a bs; exact I|]. apply IH.
    + destruct (get_rollback_ok s st k H) as (b & B & Bi). rewrite B. cbn [obind].
      destruct b; [intros X; apply Ok_inj in X; inversion X; subst a bs; exact I|].
      destruct (found_ts _ =? 0) eqn:E2; intros X; apply Ok_inj in X; inversion X; subst a bs; [|exact I].
      apply mark_rollback_moves; auto; [simpl; auto| |simpl; auto]. apply Z.eqb_eq in E2. split; [|split].
      * intros (l & L1 & L2). apply Z.eqb_neq in E1. unfold get_lock in E1.
        change (get bcmp (locks s) k) with (lock_at s k) in E1. rewrite L1 in E1. congruence.
      * apply not_committed_of_found; auto.
      * intros C; apply Bi in C; discriminate.
Qed.

Lemma check_secondary_moves c s st keys a bs : store_ok s -> 0 < st ->
  check_secondary c s st keys = Ok (a, bs) -> moves (RCheckSecondary st keys) a s bs.
Proof.
  intros H P. unfold check_secondary.
  destruct (_ <? _); [intros X; apply Ok_inj in X; inversion X; subst a bs; exact I|].
  apply secondary_loop_moves; auto.
Qed.

(** * ResolveLock *)
Lemma resolve_fold_ok r s st : forall ls x,
  rb_acc_ok r s st x -> (forall l, In l ls -> rb_entry r s st (l_key l)) ->
  rb_acc_ok r s st (fold_left (fun x l => rb_add l (l_key l) x) ls x).
Proof.
  induction ls as [|l ls IH]; intros x A E; simpl; auto.
  apply IH; [apply rb_add_ok; auto; apply E; simpl; auto | intros; apply E; simpl; auto].
Qed.

Definition resolvable (s : store) (st : Z) (l : lock) : Prop :=
  lock_at s (l_key l) = Some l /\ l_ts l = st /\ is_write (l_type l).

Lemma resolve_batches_moves r a s st ct ls : store_ok s ->
  (exists st0 ct0 keys txns, r = RResolve st0 ct0 keys txns) ->
  (forall l, In l ls -> resolvable s st l) -> In st (txns_of r) ->
  (0 < ct -> In (st, ct) (commits_of r) /\ st < ct) ->
  (ct <= 0 -> forall k, rolls r st k) ->
  moves r a s (resolve_batches st ct ls).
Proof.
  intros H (st0 & ct0 & keys & txns & R) E IT C RO. unfold resolve_batches.
  destruct (0 <? ct) eqn:E1.
  - apply Z.ltb_lt in E1. destruct (C E1) as [C1 C2]. apply do_commit_moves; auto.
    intros l I1. destruct (E l I1) as (A1 & A2 & A3). split; [auto|split; [auto|split; [auto|]]].
    intros; subst; discriminate.
  - destruct ls as [|l1 lr] eqn:EL; [exact I|].
    assert (PS : 0 < st).
    { destruct (E l1 (or_introl eq_refl)) as (A1 & A2 & _).
      destruct (ok_lock _ H _ _ A1) as (_ & _ & W & _). lia. }
    rewrite <- EL in *.
    assert (Y : rb_acc_ok r s st (fold_left (fun x l => rb_add l (l_key l) x) ls (mkRb [] [] []))).
    { apply resolve_fold_ok; [split; simpl; tauto|]. intros l I1. destruct (E l I1) as (A1 & A2 & A3).
      exists l. split; [auto|split; [auto|split; [|split; [auto|]]]]; intros; subst; discriminate. }
    destruct Y as [Y1 Y2]. apply do_rollback_moves; auto; [simpl; tauto|].
    intros k _. apply RO. apply Z.ltb_ge in E1. auto.
Qed.

Lemma scan_locks_In c s lo hi l : store_ok s -> In l (scan_locks c s lo hi) ->
  lock_at s (l_key l) = Some l /\ lo <= l_ts l < hi /\ l_ts l <> 0.
Proof.
  intros H. unfold scan_locks. intros I1.
  assert (I2 : In l (filter (lock_in_ts lo hi) (map snd (locks s)))).
  { rewrite <- (firstn_skipn (Z.to_nat (scan_lock_limit c))). apply in_app_iff; auto. }
  apply filter_In in I2. destruct I2 as [I2 I3]. apply in_map_iff in I2. destruct I2 as ([k l'] & Q & I2).
  simpl in Q; subst l'.
  assert (G : lock_at s k = Some l) by (apply In_get; auto using bcmp_ok, ok_ls).
  destruct (ok_lock _ H _ _ G) as (K & _). rewrite K. split; [auto|].
  unfold lock_in_ts in I3. rewrite !andb_true_iff, negb_true_iff, Z.eqb_neq, Z.leb_le, Z.ltb_lt in I3. lia.
Qed.

Lemma first_bad_none ls : first_bad ls = None -> forall l, In l ls -> writable_type (l_type l) = true.
Proof.
  intros F l I1. apply (find_none _ _ F) in I1. apply negb_false_iff in I1. auto.
Qed.

Lemma batch_resolve_moves c r a0 : (exists st0 ct0 txns, r = RResolve st0 ct0 [] txns) ->
  forall txns s a bs, store_ok s ->
  (forall st, In st (map fst txns) -> In st (txns_of r)) ->
  (forall st ct, In (st, ct) txns -> 0 < ct -> In (st, ct) (commits_of r) /\ st < ct) ->
  (forall st ct, In (st, ct) txns -> ct <= 0 -> forall k, rolls r st k) ->
  batch_resolve c s txns = (a, bs) -> moves r a0 s bs.
Proof.
  intros (st0 & ct0 & txns0 & R). induction txns as [|[st ct] txns IH]; intros s a bs H IT C RO; cbn [batch_resolve].
  - intros X; inversion X; subst a bs; exact I.
  - destruct (first_bad _) as [l|] eqn:F; [intros X; inversion X; subst a bs; exact I|].
    destruct (batch_resolve c _ txns) as [r' bs'] eqn:B.
    intros X; inversion X; subst a bs. clear X.
    assert (M : moves r a0 s (resolve_batches st ct (scan_locks c s st (st + 1)))).
    { apply resolve_batches_moves; eauto.
      - intros l I1. assert (W := first_bad_none _ F l I1).
        destruct (scan_locks_In _ _ _ _ _ H I1) as (A1 & A2 & _).
        split; [auto|split; [lia|]]. apply (writable_iff (l_key l)); auto. apply (ok_lock _ H _ _ A1).
      - apply IT; simpl; auto.
      - apply C; simpl; auto.
      - apply RO; simpl; auto. }
    apply moves_app; auto. eapply IH; [ | | | |exact B].
    + eapply moves_store_ok; eauto.
    + intros; apply IT; simpl; auto.
    + intros; apply C; simpl; auto.
    + intros st' ct' I1. apply (RO st' ct'); simpl; auto.
Qed.

Lemma resolve_loop_spec s st : store_ok s -> forall keys acc o,
  resolve_loop s st keys acc = o -> (forall l, In l acc -> resolvable s st l) ->
  match o with inl _ => True | inr ls => forall l, In l ls -> resolvable s st l end.
Proof.
  intros H. induction keys as [|k keys IH]; intros acc o; cbn [resolve_loop].
  - intros <-; auto.
  - destruct (get_lock_spec s k H) as [(l & G1 & G2 & G3 & G4)|(G1 & G2)]; rewrite G2.
    + rewrite G3. cbn [negb]. destruct (l_ts l =? st) eqn:E1; cbn [negb]; [|apply IH].
      destruct (writable_type _) eqn:E2; cbn [negb]; [|intros <-; auto].
      intros X A. apply (IH _ _ X). intros l'. rewrite in_app_iff. intros [I1|[<-|[]]]; auto.
      apply Z.eqb_eq in E1. split; [destruct G4 as [-> _]; auto|split; auto]. apply (writable_iff k); auto.
    + cbn [has_lock no_lock l_primary negb beqb bcmp]. apply IH.
Qed.

Lemma resolve_moves c s st ct keys txns a bs : store_ok s ->
  resolve_lock c s st ct keys txns = Ok (a, bs) -> moves (RResolve st ct keys txns) a s bs.
Proof.
  intros H. unfold resolve_lock.
  destruct (_ <? _); [intros X; apply Ok_inj in X; inversion X; subst a bs; exact I|].
  destruct keys as [|k0 kr].
  - destruct (existsb bad_commit txns) eqn:E; intros X; apply Ok_inj in X; [inversion X; subst a bs; exact I|].
    eapply batch_resolve_moves; [ | |  | | |exact X]; eauto.
    2:{ intros st' ct' I1 L k. simpl. exists ct'. auto. }
    intros st' ct' I1 L. split.
    + apply filter_In. split; auto. apply Z.ltb_lt; auto.
    + destruct (bad_commit (st', ct')) eqn:B.
      * assert (existsb bad_commit txns = true) by (apply existsb_exists; eauto). congruence.
      * unfold bad_commit in B. simpl in B. apply orb_false_iff in B. destruct B as [_ B].
        apply Z.ltb_lt in L. rewrite L in B. simpl in B. apply Z.leb_gt in B. auto.
  - destruct (bad_commit (st, ct)) eqn:B; [intros X; apply Ok_inj in X; inversion X; subst a bs; exact I|].
    destruct (resolve_loop s st (k0 :: kr) []) as [t|ls] eqn:E; intros X; apply Ok_inj in X; inversion X; subst a bs; [exact I|].
    assert (S := resolve_loop_spec s st H _ _ _ E ltac:(intros ? [])). simpl in S.
    apply resolve_batches_moves; auto; [repeat eexists|simpl; auto| |intros L k; simpl; exists ct; auto].
    intros L. split.
    + apply filter_In. split; [simpl; auto|]. apply Z.ltb_lt; auto.
    + unfold bad_commit in B. simpl in B. apply orb_false_iff in B. destruct B as [_ B].
      apply Z.ltb_lt in L. rewrite L in B. simpl in B. apply Z.leb_gt in B. auto.
Qed.
