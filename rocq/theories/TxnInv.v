(** Invariants of every history of requests that keeps the promises of TxnSpec. *)
From Coq Require Import ZArith List Lia Bool.
From Verif Require Import Bytes SMap Outcome TxnModel TxnSpec TxnBase TxnMoves TxnHandlers TxnHandlers2 TxnHandlers3.
Import ListNotations.
Open Scope Z_scope.

(** * Without any promise: no request aborts the process *)
Lemma serve_moves c g r a bs : store_ok (rg_store g) -> serve c g r = Ok (a, bs) -> moves r a (rg_store g) bs.
Proof. intros H. unfold serve. apply handle_moves; auto. Qed.

Lemma handle_total c s mx r : store_ok s -> (forall t, In t (encoded_ts r) -> 0 <= t) ->
  exists x, handle c s mx r = Ok x.
Proof.
  intros H T. unfold handle, reply. destruct (validate r); [eauto|].
  destruct (existsb _ _) eqn:E.
  { apply existsb_exists in E. destruct E as (t & A & B). apply Z.ltb_lt in B. specialize (T _ A). lia. }
  destruct r as [p|st ct keys|st keys|p|st fut keys|k lk cl cu fs rm|st keys|st ct keys txns|k st adv].
  - unfold prewrite, reply. destruct (_ <? _); [eauto|]. destruct (_ && _); [eauto|].
    match goal with |- context [prewrite_loop _ _ _ _ _ _ ?a0] =>
      destruct (prewrite_loop_ok c s mx p H (pw_muts p) 0 a0) as (o & ->) end. cbn [obind].
    destruct o as [a|ct a|e]; eauto. destruct (negb _); [eauto|]. destruct (negb _); [eauto|]. destruct (a_try1 a); eauto.
  - unfold commit, reply. destruct (_ <? _); [eauto|]. destruct (_ <=? _); [eauto|].
    destruct (commit_loop_ok s st ct H keys []) as (o & ->). cbn [obind]. destruct o; eauto.
  - unfold batch_rollback, reply. destruct (_ <? _); [eauto|].
    destruct (rollback_loop_ok s st H keys (mkRb [] [] [])) as (o & ->). cbn [obind]. destruct o; eauto.
  - unfold pessimistic_lock, reply. destruct (_ <? _); [eauto|]. destruct (pess_loop _ _ _ _); [eauto|].
    destruct (negb _); eauto.
  - unfold pessimistic_rollback, reply. destruct (_ <? _); [eauto|]. destruct (pess_rollback_loop _ _ _ _ _ _).
    destruct (negb _); [eauto|]. destruct l0; eauto.
  - unfold check_status, reply. destruct (_ =? lk).
    + destruct (negb _); [eauto|]. destruct (_ && _); [eauto|]. destruct (_ && _); [eauto|].
      destruct (_ <=? _); [|eauto]. destruct (_ <? _); eauto.
    + destruct (get_rollback_ok s lk k H) as (b & -> & _). cbn [obind]. destruct b; [eauto|].
      destruct (_ =? 0); [|eauto]. destruct rm; eauto.
  - unfold check_secondary, reply. destruct (_ <? _); [eauto|]. generalize (@nil lock).
    clear T E. induction keys as [|k keys IH]; intros acc; cbn [secondary_loop]; unfold reply; [eauto|].
    destruct (_ =? st). { destruct (negb _); [eauto|apply IH]. }
    destruct (get_rollback_ok s st k H) as (b & -> & _). cbn [obind]. destruct b; [eauto|]. destruct (_ =? 0); eauto.
  - unfold resolve_lock, reply. destruct (_ <? _); [eauto|]. destruct keys.
    + destruct (existsb bad_commit _); eauto.
    + destruct (bad_commit _); [eauto|]. destruct (resolve_loop _ _ _ _); eauto.
  - unfold heartbeat, reply. destruct (negb _); [eauto|]. destruct (negb _); [eauto|]. destruct (_ <=? _); eauto.
Qed.

(** * Under the promises: what is recorded about one key *)
Record kinv (P : plan) (s : store) (k : bytes) : Prop := {
  ki_commit : forall t w, write_at s k t = Some w -> w_op w <> OpRollback -> commit_for P t (w_start w);
  ki_rb : forall t w, write_at s k t = Some w -> w_op w = OpRollback -> is_start P t;
  ki_start : forall l, lock_at s k = Some l -> is_start P (l_ts l);
  ki_nocommit : forall l ct, lock_at s k = Some l -> ~ committed s k (l_ts l) ct;
  ki_norb : forall l, lock_at s k = Some l -> is_write (l_type l) -> ~ rolled_back s k (l_ts l);
  ki_excl : forall st ct, committed s k st ct -> ~ rolled_back s k st;
  ki_lp : forall l st ct, lock_at s k = Some l -> committed s k st ct -> ct < lock_point P (l_ts l);
  ki_disj : forall s1 c1 s2 c2, committed s k s1 c1 -> committed s k s2 c2 -> c1 <> c2 ->
     c1 < lock_point P s2 \/ c2 < lock_point P s1 }.

Lemma committed_for P s k st ct : kinv P s k -> committed s k st ct -> commit_for P ct st.
Proof. intros K (w & W1 & W2 & W3). rewrite <- W2. eapply ki_commit; eauto. Qed.
Lemma rolled_back_start P s k st : kinv P s k -> rolled_back s k st -> is_start P st.
Proof. intros K (w & W1 & W2 & W3). eapply ki_rb; eauto. Qed.

(** the promises a request must keep, at the store it meets *)
Definition req_ok (P : plan) (r : req) (a : resp) (s : store) (safe : Z) : Prop :=
  (forall st, In st (txns_of r) -> is_start P st) /\
  (forall st ct, In (st, ct) (commits_of r) -> commit_for P ct st) /\
  match r with
  | RPrewrite p =>
      safe < pw_start p /\
      (forall i m, nth_error (pw_muts p) i = Some m -> pess_checked p i -> holds s (m_key m) (pw_start p)) /\
      (r_1pc a <> 0 -> commit_for P (r_1pc a) (pw_start p))
  | RPessLock p => safe < pl_start p /\ pl_fut p <= lock_point P (pl_start p)
  | _ => True
  end.

Lemma committed_same s s' k st ct : writes_same s s' k -> (committed s' k st ct <-> committed s k st ct).
Proof. intros W. unfold committed. rewrite (W ct). tauto. Qed.
Lemma rolled_back_same s s' k st : writes_same s s' k -> (rolled_back s' k st <-> rolled_back s k st).
Proof. intros W. unfold rolled_back. rewrite (W st). tauto. Qed.

Lemma committed_add s s' k t w st ct : writes_add s s' k t w -> committed s' k st ct ->
  (ct = t /\ w_start w = st /\ w_op w <> OpRollback) \/ (ct <> t /\ committed s k st ct).
Proof.
  intros [A B] (w' & W1 & W2 & W3). destruct (Z.eq_dec ct t) as [->|n].
  - left. rewrite A in W1. inversion W1; subst. auto.
  - right. split; auto. rewrite B in W1 by auto. exists w'; auto.
Qed.
Lemma rolled_back_add s s' k t w st : writes_add s s' k t w -> rolled_back s' k st ->
  (st = t /\ w_op w = OpRollback /\ w_start w = st) \/ (st <> t /\ rolled_back s k st).
Proof.
  intros [A B] (w' & W1 & W2 & W3). destruct (Z.eq_dec st t) as [->|n].
  - left. rewrite A in W1. inversion W1; subst. auto.
  - right. split; auto. rewrite B in W1 by auto. exists w'; auto.
Qed.

Section Preservation.
  Variable P : plan.
  Hypothesis HP : plan_ok P.

  Let start_pos : forall s, is_start P s -> 0 < s <= lock_point P s := proj1 HP.
  Let commit_facts : forall c s, commit_for P c s -> is_start P s /\ lock_point P s < c <= kMaxVer /\ ~ is_start P c
    := proj1 (proj2 HP).
  Let commit_inj : forall c s s', commit_for P c s -> commit_for P c s' -> s = s' := proj2 (proj2 HP).

  (** a new lock of [st] over the same versions *)
  Lemma kinv_new_lock s s' k l : kinv P s k -> writes_same s s' k -> lock_at s' k = Some l ->
    is_start P (l_ts l) -> (forall ct, ~ committed s k (l_ts l) ct) ->
    (is_write (l_type l) -> ~ rolled_back s k (l_ts l)) ->
    (forall st ct, committed s k st ct -> ct < lock_point P (l_ts l)) -> kinv P s' k.
  Proof.
    intros K W E A1 A2 A3 A4. destruct K as [K1 K2 K3 K4 K5 K6 K7 K8]. constructor.
    - intros t w. rewrite (W t). apply K1.
    - intros t w. rewrite (W t). apply K2.
    - intros l' Q. rewrite E in Q. inversion Q; subst; auto.
    - intros l' ct Q. rewrite E in Q. inversion Q; subst. rewrite (committed_same s s') by auto. auto.
    - intros l' Q. rewrite E in Q. inversion Q; subst. rewrite (rolled_back_same s s') by auto. auto.
    - intros st ct. rewrite (committed_same s s'), (rolled_back_same s s') by auto. apply K6.
    - intros l' st ct Q. rewrite E in Q. inversion Q; subst. rewrite (committed_same s s') by auto. apply A4.
    - intros s1 c1 s2 c2. rewrite !(committed_same s s') by auto. apply K8.
  Qed.

  Lemma kinv_no_lock s s' k : kinv P s k -> writes_same s s' k -> lock_at s' k = None -> kinv P s' k.
  Proof.
    intros K W E. destruct K as [K1 K2 K3 K4 K5 K6 K7 K8].
    constructor; try (intros; congruence).
    - intros t w. rewrite (W t). apply K1.
    - intros t w. rewrite (W t). apply K2.
    - intros st ct. rewrite (committed_same s s'), (rolled_back_same s s') by auto. apply K6.
    - intros s1 c1 s2 c2. rewrite !(committed_same s s') by auto. apply K8.
  Qed.

  (** a new commit record of [st] at [c] *)
  Lemma kinv_new_commit s s' k c w st : kinv P s k -> commit_for P c st ->
    writes_add s s' k c w -> w_start w = st -> is_write (w_op w) -> lock_at s' k = None ->
    ~ rolled_back s k st -> (forall s0 ct, committed s k s0 ct -> ct < lock_point P st) -> kinv P s' k.
  Proof.
    intros K C W E1 E2 L NR LP. destruct (commit_facts _ _ C) as (F1 & F2 & F3).
    assert (E2' : w_op w <> OpRollback) by (destruct E2; congruence).
    constructor; try (intros; congruence).
    - intros t w' Q. destruct W as [Wa Wb]. destruct (Z.eq_dec t c) as [->|n].
      + rewrite Wa in Q. inversion Q; subst. auto.
      + rewrite Wb in Q by auto. eapply ki_commit; eauto.
    - intros t w' Q. destruct W as [Wa Wb]. destruct (Z.eq_dec t c) as [->|n].
      + rewrite Wa in Q. inversion Q; subst. intros; contradiction.
      + rewrite Wb in Q by auto. eapply ki_rb; eauto.
    - intros st' ct C' R'.
      apply (rolled_back_add _ _ _ _ _ _ W) in R'. destruct R' as [(_ & R' & _)|(_ & R')]; [congruence|].
      apply (committed_add _ _ _ _ _ _ _ W) in C'. destruct C' as [(-> & <- & _)|(_ & C')].
      + rewrite E1 in R'. auto.
      + eapply ki_excl; eauto.
    - intros s1 c1 s2 c2 C1 C2 N.
      apply (committed_add _ _ _ _ _ _ _ W) in C1. apply (committed_add _ _ _ _ _ _ _ W) in C2.
      destruct C1 as [(-> & <- & _)|(_ & C1)]; destruct C2 as [(-> & <- & _)|(_ & C2)]; try congruence.
      + right. rewrite E1. eapply LP; eauto.
      + left. rewrite E1. eapply LP; eauto.
      + eapply ki_disj; eauto.
  Qed.

  (** a new rollback record of [st] *)
  Lemma kinv_new_rollback s s' k st : store_ok s -> kinv P s k -> is_start P st ->
    writes_add s s' k st (rb_record st) -> (forall ct, ~ committed s k st ct) ->
    (lock_at s' k = None \/ (lock_at s' k = lock_at s k /\ ~ holds s k st)) -> kinv P s' k.
  Proof.
    intros H K S W NC L. constructor.
    - intros t w Q. destruct W as [Wa Wb]. destruct (Z.eq_dec t st) as [->|n].
      + rewrite Wa in Q. inversion Q; subst. simpl. intros; congruence.
      + rewrite Wb in Q by auto. eapply ki_commit; eauto.
    - intros t w Q. destruct W as [Wa Wb]. destruct (Z.eq_dec t st) as [->|n]; auto.
      rewrite Wb in Q by auto. eapply ki_rb; eauto.
    - intros l Q. destruct L as [L|[L1 L2]]; [congruence|]. rewrite L1 in Q. eapply ki_start; eauto.
    - intros l ct Q C. destruct L as [L|[L1 L2]]; [congruence|]. rewrite L1 in Q.
      apply (committed_add _ _ _ _ _ _ _ W) in C. destruct C as [(_ & _ & C)|(_ & C)]; [simpl in C; congruence|].
      eapply ki_nocommit; eauto.
    - intros l Q T R. destruct L as [L|[L1 L2]]; [congruence|]. rewrite L1 in Q.
      apply (rolled_back_add _ _ _ _ _ _ W) in R. destruct R as [(R & _)|(_ & R)].
      + apply L2. exists l. auto.
      + eapply ki_norb; eauto.
    - intros st' ct C R. apply (committed_add _ _ _ _ _ _ _ W) in C.
      destruct C as [(_ & _ & C)|(_ & C)]; [simpl in C; congruence|].
      apply (rolled_back_add _ _ _ _ _ _ W) in R. destruct R as [(-> & _)|(_ & R)].
      + eapply NC; eauto.
      + eapply ki_excl; eauto.
    - intros l st' ct Q C. destruct L as [L|[L1 L2]]; [congruence|]. rewrite L1 in Q.
      apply (committed_add _ _ _ _ _ _ _ W) in C. destruct C as [(_ & _ & C)|(_ & C)]; [simpl in C; congruence|].
      eapply ki_lp; eauto.
    - intros s1 c1 s2 c2 C1 C2 N.
      apply (committed_add _ _ _ _ _ _ _ W) in C1. apply (committed_add _ _ _ _ _ _ _ W) in C2.
      destruct C1 as [(_ & _ & C1)|(_ & C1)]; [simpl in C1; congruence|].
      destruct C2 as [(_ & _ & C2)|(_ & C2)]; [simpl in C2; congruence|].
      eapply ki_disj; eauto.
  Qed.

  (** what a passed prewrite check implies *)
  Lemma prewrite_ok_facts s p k : store_ok s -> kinv P s k -> is_start P (pw_start p) -> prewrite_ok s p k ->
    (forall i m, nth_error (pw_muts p) i = Some m -> pess_checked p i -> holds s (m_key m) (pw_start p)) ->
    ~ rolled_back s k (pw_start p) /\ (forall ct, ~ committed s k (pw_start p) ct) /\
    (forall st ct, committed s k st ct -> ct < lock_point P (pw_start p)).
  Proof.
    intros H K S (NR & i & m & N & M & [(O1 & O2 & O3)|(O1 & O2)]) PH.
    - assert (B : forall st ct, committed s k st ct -> ct < pw_start p).
      { intros st ct C. assert (CF := committed_for _ _ _ _ _ K C).
        destruct (commit_facts _ _ CF) as (F1 & F2 & _). destruct (start_pos _ F1).
        destruct C as (w & W1 & W2 & W3). apply (O3 ct w); auto. lia. }
      split; [auto|split].
      + intros ct C. assert (B' := B _ _ C). destruct C as (w & W1 & W2 & W3).
        destruct (ok_write _ H _ _ _ W1) as (_ & [[? _]|[_ X]]); [congruence|lia].
      + intros st ct C. assert (B' := B _ _ C). destruct (start_pos _ S). lia.
    - destruct (PH i m N O1) as (l & L1 & L2). rewrite M in L1. subst k.
      split; [auto|split].
      + intros ct C. rewrite <- L2 in C. eapply ki_nocommit; eauto.
      + intros st ct C. rewrite <- L2. eapply ki_lp; eauto.
  Qed.

  Lemma kmove_kinv r a s safe s' k : store_ok s -> req_ok P r a s safe -> kinv P s k -> kmove r a s s' k -> kinv P s' k.
  Proof.
    intros H (R1 & R2 & R3) K M. destruct M as
      [ L W D
      | l0 l L0 L IT E1 E2 E3 E4 E5 E6 E7 E8 E9 E10 W D
      | p l E L E1 E2 E3 WF X W D
      | p l E L E1 E2 WF X W D D2
      | st fut keys l0 E L0 E1 E2 E3 IK L W D
      | ct l0 IC L0 T LT L MC W D
      | p w E X N1 N2 E1 E2 L W D D2
      | l0 L0 IT L W D TT TY
      | st IT NH L NC NR W D ].
    - destruct (lock_at s k) as [l|] eqn:E.
      + eapply kinv_new_lock; eauto.
        * eapply ki_start; eauto.
        * intros ct. eapply ki_nocommit; eauto.
        * intros T. eapply ki_norb; eauto.
        * intros st ct. eapply ki_lp; eauto.
      + eapply kinv_no_lock; eauto.
    - eapply kinv_new_lock; eauto; rewrite ?E1, ?E2.
      + eapply ki_start; eauto.
      + intros ct. eapply ki_nocommit; eauto.
      + intros T. eapply ki_norb; eauto.
      + intros st ct. eapply ki_lp; eauto.
    - subst r. destruct R3 as [_ R3]. assert (S : is_start P (pl_start p)) by (apply R1; simpl; auto).
      destruct (start_pos _ S) as [S1 S2].
      assert (CB : forall st ct, committed s k st ct -> ct < lock_point P (pl_start p)).
      { intros st ct C. assert (CF := committed_for _ _ _ _ _ K C). destruct (commit_facts _ _ CF) as (F1 & F2 & F3).
        destruct X as [(X1 & X2)|(l0 & X1 & X2 & X3)].
        - destruct (Z_lt_dec (pl_start p) ct) as [Q|Q].
          + destruct C as (w & W1 & W2 & W3). specialize (X2 ct w W1 W3). lia.
          + assert (ct <> pl_start p) by (intros ->; auto). lia.
        - rewrite <- X2. eapply ki_lp; eauto. }
      eapply kinv_new_lock; eauto; rewrite ?E1; auto.
      + intros ct C. assert (CF := committed_for _ _ _ _ _ K C). destruct (commit_facts _ _ CF) as (F1 & F2 & F3).
        specialize (CB _ _ C). lia.
      + rewrite E2. intros [Q|Q]; discriminate.
    - subst r. destruct R3 as (_ & R3 & _). assert (S : is_start P (pw_start p)) by (apply R1; simpl; auto).
      destruct (prewrite_ok_facts s p k H K S X R3) as (A1 & A2 & A3).
      eapply kinv_new_lock; eauto; rewrite ?E1; auto.
    - eapply kinv_no_lock; eauto.
    - eapply kinv_new_commit with (st := l_ts l0); eauto.
      + eapply ki_norb; eauto.
      + intros s0 ct0. eapply ki_lp; eauto.
    - subst r. destruct R3 as (_ & R3 & R4). assert (S : is_start P (pw_start p)) by (apply R1; simpl; auto).
      destruct (prewrite_ok_facts s p k H K S X R3) as (A1 & A2 & A3).
      eapply kinv_new_commit with (st := pw_start p); eauto.
    - eapply kinv_new_rollback with (st := l_ts l0); eauto.
      intros ct. eapply ki_nocommit; eauto.
    - eapply kinv_new_rollback with (st := st); eauto.
      intros ct C. assert (CF := committed_for _ _ _ _ _ K C). destruct (commit_facts _ _ CF) as (F1 & F2 & F3).
      apply (NC ct); auto. lia.
  Qed.

  (** records are permanent *)
  Lemma kmove_permanent r a s safe s' k : store_ok s -> req_ok P r a s safe -> kinv P s k -> kmove r a s s' k ->
    (forall st ct, committed s k st ct -> committed s' k st ct) /\
    (forall st, rolled_back s k st -> rolled_back s' k st) /\
    (forall t w, write_at s k t = Some w -> exists w', write_at s' k t = Some w' /\ w_start w' = w_start w /\
        (w_op w <> OpRollback -> w' = w)).
  Proof.
    intros H (R1 & R2 & R3) K M.
    assert (G : forall t w, write_at s k t = Some w -> exists w', write_at s' k t = Some w' /\
                  w_start w' = w_start w /\ (w_op w' = OpRollback <-> w_op w = OpRollback) /\ (w_op w <> OpRollback -> w' = w)).
    { intros t w E.
      assert (NEWC : forall c w0 st, writes_add s s' k c w0 -> commit_for P c st ->
                (forall ct, ~ committed s k st ct) ->
                exists w', write_at s' k t = Some w' /\ w_start w' = w_start w /\
                  (w_op w' = OpRollback <-> w_op w = OpRollback) /\ (w_op w <> OpRollback -> w' = w)).
      { intros c w0 st [Wa Wb] C NC. destruct (Z.eq_dec t c) as [->|n].
        - exfalso. destruct (commit_facts _ _ C) as (F1 & F2 & F3).
          assert (Q : w_op w = OpRollback \/ w_op w <> OpRollback) by (destruct (w_op w); auto; right; discriminate).
          destruct Q as [Q|Q].
          + apply F3. eapply ki_rb; eauto.
          + assert (C2 := ki_commit _ _ _ K _ _ E Q). assert (w_start w = st) by (eapply commit_inj; eauto).
            apply (NC c). exists w. auto.
        - exists w. rewrite Wb by auto. split; [auto|split; [auto|split; [tauto|auto]]]. }
      assert (NEWR : forall st, writes_add s s' k st (rb_record st) -> is_start P st ->
                exists w', write_at s' k t = Some w' /\ w_start w' = w_start w /\
                  (w_op w' = OpRollback <-> w_op w = OpRollback) /\ (w_op w <> OpRollback -> w' = w)).
      { intros st [Wa Wb] S. destruct (Z.eq_dec t st) as [->|n].
        - destruct (ok_write _ H _ _ _ E) as (_ & [[Q1 Q2]|[Q1 _]]).
          + exists (rb_record st). split; [auto|]. simpl. split; [auto|split; [tauto|congruence]].
          + exfalso. assert (Q : w_op w <> OpRollback) by (destruct Q1; congruence).
            assert (C2 := ki_commit _ _ _ K _ _ E Q). destruct (commit_facts _ _ C2) as (_ & _ & F3). auto.
        - exists w. rewrite Wb by auto. split; [auto|split; [auto|split; [tauto|auto]]]. }
      assert (SAME : writes_same s s' k -> exists w', write_at s' k t = Some w' /\ w_start w' = w_start w /\
                  (w_op w' = OpRollback <-> w_op w = OpRollback) /\ (w_op w <> OpRollback -> w' = w)).
      { intros W. exists w. rewrite (W t). split; [auto|split; [auto|split; [tauto|auto]]]. }
      destruct M as
      [ L W D
      | l0 l L0 L IT E1 E2 E3 E4 E5 E6 E7 E8 E9 E10 W D
      | p l E' L E1 E2 E3 WF X W D
      | p l E' L E1 E2 WF X W D D2
      | st fut keys l0 E' L0 E1 E2 E3 IK L W D
      | ct l0 IC L0 T LT L MC W D
      | p w0 E' X N1 N2 E1 E2 L W D D2
      | l0 L0 IT L W D TT TY
      | st IT NH L NC NR W D ]; auto.
      - eapply NEWC; eauto. intros ct'. eapply ki_nocommit; eauto.
      - subst r. destruct R3 as (_ & R3 & R4). assert (S : is_start P (pw_start p)) by (apply R1; simpl; auto).
        destruct (prewrite_ok_facts s p k H K S X R3) as (A1 & A2 & A3). eapply NEWC; eauto.
      - eapply NEWR; eauto.
      - eapply NEWR; eauto. }
    split; [|split].
    - intros st ct (w & W1 & W2 & W3). destruct (G _ _ W1) as (w' & A & B & C & D).
      specialize (D W3). subst w'. exists w; auto.
    - intros st (w & W1 & W2 & W3). destruct (G _ _ W1) as (w' & A & B & C & D).
      exists w'. split; [auto|split; [congruence|apply C; auto]].
    - intros t w W. destruct (G _ _ W) as (w' & A & B & C & D). eauto.
  Qed.
End Preservation.

(** * Whole histories *)
Definition inv (P : plan) (s : store) : Prop := store_ok s /\ forall k, kinv P s k.

Lemma inv_empty P : inv P empty_store.
Proof.
  split; [apply store_ok_empty|]. intros k.
  assert (A : forall st ct, ~ committed empty_store k st ct) by (intros st ct (w & W & _); discriminate).
  assert (B : forall st, ~ rolled_back empty_store k st) by (intros st (w & W & _); discriminate).
  constructor; try discriminate; intros; try (exfalso; eapply A; eauto; fail); auto.
Qed.

Definition is_resolve (r : req) : Prop := exists st ct keys txns, r = RResolve st ct keys txns.
Lemma resolve_dec r : is_resolve r \/ ~ is_resolve r.
Proof.
  destruct r; try (left; repeat eexists; fail); right; intros (? & ? & ? & ? & Q); discriminate.
Qed.

(** only a resolve request makes more than one write *)
Lemma secondary_one s st : forall keys acc a bs, secondary_loop s st keys acc = Ok (a, bs) -> (length bs <= 1)%nat.
Proof.
  induction keys as [|k keys IH]; intros acc a bs; cbn [secondary_loop].
  - intros X; apply Ok_inj in X; inversion X; subst; simpl; lia.
  - destruct (_ =? st).
    + destruct (negb _); [intros X; apply Ok_inj in X; inversion X; subst; simpl; lia|apply IH].
    + destruct (get_rollback s st k) as [b|]; cbn [obind]; [|discriminate].
      destruct b; [intros X; apply Ok_inj in X; inversion X; subst; simpl; lia|].
      destruct (_ =? 0); intros X; apply Ok_inj in X; inversion X; subst; simpl; lia.
Qed.

Lemma handle_one c s mx r a bs : handle c s mx r = Ok (a, bs) -> ~ is_resolve r -> (length bs <= 1)%nat.
Proof.
  unfold handle. destruct (validate r); [intros X _; apply Ok_inj in X; inversion X; subst; simpl; lia|].
  destruct (existsb _ _); [discriminate|].
  assert (RB : forall st wd wo mi, (length (do_rollback st wd wo mi) <= 1)%nat).
  { intros. rewrite do_rollback_eq. destruct (_ ++ _); simpl; lia. }
  destruct r as [p|st ct keys|st keys|p|st fut keys|k lk cl cu fs rm|st keys|st ct keys txns|k st adv]; intros X N.
  - unfold prewrite in X. destruct (_ <? _); [apply Ok_inj in X; inversion X; subst; simpl; lia|].
    destruct (_ && _); [apply Ok_inj in X; inversion X; subst; simpl; lia|].
    destruct (prewrite_loop _ _ _ _ _ _ _) as [[a'|ct' a'|e]|]; cbn [obind] in X;
      [| | |discriminate]; try (apply Ok_inj in X; inversion X; subst; simpl; lia).
    destruct (negb _); [apply Ok_inj in X; inversion X; subst; simpl; lia|].
    destruct (negb _); [apply Ok_inj in X; inversion X; subst; simpl; lia|].
    destruct (a_try1 a'); apply Ok_inj in X; inversion X; subst; simpl.
    + unfold one_pc. destruct (_ ++ _); simpl; lia.
    + unfold do_prewrite. destruct (_ ++ _); simpl; lia.
  - unfold commit in X. destruct (_ <? _); [apply Ok_inj in X; inversion X; subst; simpl; lia|].
    destruct (_ <=? _); [apply Ok_inj in X; inversion X; subst; simpl; lia|].
    destruct (commit_loop _ _ _ _ _) as [[t|ls]|]; cbn [obind] in X; [| |discriminate];
      apply Ok_inj in X; inversion X; subst; simpl; [lia|]. unfold do_commit. destruct ls; simpl; lia.
  - unfold batch_rollback in X. destruct (_ <? _); [apply Ok_inj in X; inversion X; subst; simpl; lia|].
    destruct (rollback_loop _ _ _ _) as [[t|ls]|]; cbn [obind] in X; [| |discriminate];
      apply Ok_inj in X; inversion X; subst; simpl; [lia|]. apply RB.
  - unfold pessimistic_lock in X. destruct (_ <? _); [apply Ok_inj in X; inversion X; subst; simpl; lia|].
    destruct (pess_loop _ _ _ _) as [e|y]; [apply Ok_inj in X; inversion X; subst; simpl; lia|].
    destruct (negb _); apply Ok_inj in X; inversion X; subst; simpl; [lia|]. unfold lock_batch. destruct (pa_locks y); simpl; lia.
  - unfold pessimistic_rollback in X. destruct (_ <? _); [apply Ok_inj in X; inversion X; subst; simpl; lia|].
    destruct (pess_rollback_loop _ _ _ _ _ _) as [res dels].
    destruct (negb _); [apply Ok_inj in X; inversion X; subst; simpl; lia|].
    destruct dels; apply Ok_inj in X; inversion X; subst; simpl; lia.
  - unfold check_status in X. destruct (_ =? lk).
    + destruct (negb _); [apply Ok_inj in X; inversion X; subst; simpl; lia|].
      destruct (_ && _); [apply Ok_inj in X; inversion X; subst; simpl; lia|].
      destruct (_ && _); [apply Ok_inj in X; inversion X; subst; simpl; lia|].
      destruct (_ <=? _).
      * destruct (_ <? _); apply Ok_inj in X; inversion X; subst; simpl; lia.
      * apply Ok_inj in X; inversion X; subst. destruct (beqb _ _); apply RB.
    + destruct (get_rollback _ _ _) as [b|]; cbn [obind] in X; [|discriminate].
      destruct b; [apply Ok_inj in X; inversion X; subst; simpl; lia|].
      destruct (_ =? 0); [|apply Ok_inj in X; inversion X; subst; simpl; lia].
      destruct rm; apply Ok_inj in X; inversion X; subst; simpl; lia.
  - unfold check_secondary in X. destruct (_ <? _); [apply Ok_inj in X; inversion X; subst; simpl; lia|].
    eapply secondary_one; eauto.
  - exfalso. apply N. repeat eexists.
  - unfold heartbeat in X. destruct (negb _); [apply Ok_inj in X; inversion X; subst; simpl; lia|].
    destruct (negb _); [apply Ok_inj in X; inversion X; subst; simpl; lia|].
    destruct (_ <=? _); apply Ok_inj in X; inversion X; subst; simpl; lia.
Qed.

