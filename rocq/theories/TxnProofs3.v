(** Proofs of the transaction theorems, part 3: requests that must fail. *)
From Coq Require Import ZArith List Lia Bool.
From Verif Require Import Bytes SMap Outcome TxnModel TxnSpec TxnBase TxnMoves TxnHandlers TxnHandlers2 TxnHandlers3 TxnInv TxnRun TxnProofs TxnProofs2.
Import ListNotations.
Open Scope Z_scope.

Lemma push_lock_res mx p fut np l v a : a_res (push_lock mx p fut np l v a) = a_res a /\
  a_exist (push_lock mx p fut np l v a) = a_exist a.
Proof.
  unfold push_lock. destruct (_ || _); [|auto]. destruct (_ =? 0); [auto|]. destruct (a_try1 a); auto.
Qed.

Lemma gen_prewrite_res c mx p m prev w fut ex np a a' : gen_prewrite c mx p m prev w fut ex np a = inr a' ->
  a_res a' = a_res a /\ a_exist a' = a_exist a.
Proof.
  unfold gen_prewrite. intros X.
  destruct (m_op m); try discriminate.
  - destruct (beqb _ _); [discriminate|]. inversion X; subst. clear X.
    destruct (push_lock_res mx p fut np (gen_lock p prev (m_key m) OpPut
      (if max_short_value c <? Z.of_nat (length (m_value m)) then None else Some (m_value m)) ex (a_async a)) (m_value m)
      (if max_short_value c <? Z.of_nat (length (m_value m)) then add_data a (m_key m) (m_value m) else a)) as [E1 E2].
    rewrite E1, E2. destruct (_ <? _); auto.
  - inversion X; subst. apply push_lock_res.
  - destruct (op_eqb w OpPut).
    + inversion X; subst. apply push_lock_res.
    + destruct (beqb _ _); [discriminate|]. inversion X; subst. clear X.
      destruct (push_lock_res mx p fut np (gen_lock p prev (m_key m) OpPut
      (if max_short_value c <? Z.of_nat (length (m_value m)) then None else Some (m_value m)) ex (a_async a)) (m_value m)
      (if max_short_value c <? Z.of_nat (length (m_value m)) then add_data a (m_key m) (m_value m) else a)) as [E1 E2].
      rewrite E1, E2. destruct (_ <? _); auto.
  - inversion X; subst. destruct (_ || _); auto.
Qed.

Definition noted (a : pw_acc) : Prop := a_res a <> [] \/ a_exist a <> [].
Lemma noted_res a x : noted (add_res a x).
Proof. left. simpl. destruct (a_res a); discriminate. Qed.
Lemma noted_exist a x : noted (add_exist a x).
Proof. right. simpl. destruct (a_exist a); discriminate. Qed.

Definition blocked (s : store) (st : Z) (k : bytes) : Prop :=
  rolled_back s k st \/ exists l, lock_at s k = Some l /\ l_ts l <> st.

Lemma prewrite_loop_blocked c s mx p : store_ok s -> 0 < pw_start p -> forall ms i a o,
  prewrite_loop c s mx p i ms a = Ok o -> noted a \/ (exists m, In m ms /\ blocked s (pw_start p) (m_key m)) ->
  match o with
  | PwEnd a' => noted a'
  | PwCommitted ct _ => exists m, In m ms /\ committed s (m_key m) (pw_start p) ct
  | PwError _ => True
  end.
Proof.
  intros H SP. induction ms as [|m ms IH]; intros i a o; cbn [prewrite_loop].
  - intros X [N|(m & [] & _)]. apply Ok_inj in X; subst; auto.
  - set (k := m_key m). set (st := pw_start p). intros X N.
    assert (CONT : forall i' a' o', prewrite_loop c s mx p i' ms a' = Ok o' -> 
       noted a' \/ (exists m, In m ms /\ blocked s (pw_start p) (m_key m)) ->
       match o' with
       | PwEnd a' => noted a'
       | PwCommitted ct _ => exists m0, In m0 (m :: ms) /\ committed s (m_key m0) (pw_start p) ct
       | PwError _ => True
       end).
    { intros i' a' o' Y Z. specialize (IH i' a' o' Y Z). destruct o'; auto.
      destruct IH as (m0 & A & B). exists m0; simpl; auto. }
    assert (CC : forall ct, check_committed s st k = Some ct -> exists m0, In m0 (m :: ms) /\ committed s (m_key m0) (pw_start p) ct).
    { intros ct E. apply check_committed_some in E; auto. exists m. simpl. split; [auto|apply E]. }
    destruct (prewrite_check_lock s st k (get_lock s k) (nth (Z.to_nat i) (pw_checks p) 0 =? 1) (zassoc i (pw_futs p)))
      as [rep| |ct] eqn:PL.
    + (* go on *)
      destruct (get_rollback_ok s st k H) as (b & Q & RB). rewrite Q in X. cbn [obind] in X.
      destruct b; [apply Ok_inj in X; subst; apply noted_res|].
      assert (NRB : ~ rolled_back s k st) by (intros Z; apply RB in Z; discriminate).
      assert (NL : forall l, lock_at s k = Some l -> l_ts l = st).
      { intros l L. destruct (get_lock_spec s k H) as [(l0 & L1 & L2 & L3 & L4)|(L1 & L2)]; [|congruence].
        rewrite L2 in PL; clear L2. assert (l0 = l) by congruence. subst l0. unfold prewrite_check_lock in PL. rewrite L3 in PL.
        destruct (l_ts l =? st) eqn:E; [apply Z.eqb_eq in E; auto|].
        exfalso. destruct (negb _).
        - destruct (op_eqb _ _); destruct (check_committed _ _ _); discriminate.
        - destruct (check_committed _ _ _); discriminate. }
      assert (N' : noted a \/ (exists m, In m ms /\ blocked s (pw_start p) (m_key m))).
      { destruct N as [N|(m0 & [<-|N1] & N2)]; auto.
        - exfalso. destruct N2 as [N2|(l & L & N2)]; [apply NRB; auto|]. apply N2. apply NL; auto.
        - right; exists m0; auto. }
      clear N NRB NL.
      destruct (_ && _).
      { destruct (check_committed s st k) as [ct|] eqn:E; apply Ok_inj in X; subst; [apply CC; auto|apply noted_res]. }
      destruct (_ && _); [apply Ok_inj in X; subst; apply noted_exist|].
      destruct (op_eqb (m_op m) OpCheckNotExists && _); [apply Ok_inj in X; subst; auto|].
      set (a1 := if op_eqb (m_op m) OpCheckNotExists && _ then _ else _) in X.
      assert (N1 : noted a1 \/ (exists m, In m ms /\ blocked s (pw_start p) (m_key m))).
      { destruct N' as [N'|N']; [left|right; auto]. subst a1. destruct (_ && _); [apply noted_exist|auto]. }
      destruct rep.
      { eapply CONT; eauto. }
      destruct (gen_prewrite _ _ _ _ _ _ _ _ _ _) as [e|a2] eqn:G; [apply Ok_inj in X; subst; auto|].
      apply gen_prewrite_res in G. destruct G as [G1 G2]. eapply CONT; eauto.
      destruct N1 as [N1|N1]; [left|right; auto]. unfold noted. rewrite G1, G2. auto.
    + eapply CONT; eauto. left. apply noted_res.
    + apply Ok_inj in X; subst.
      unfold prewrite_check_lock in PL. destruct (check_committed s st k) as [ct'|] eqn:E.
      * assert (ct' = ct).
        { destruct (negb _).
          - destruct (op_eqb _ _); [congruence|]. destruct (has_lock _); [|discriminate].
            destruct (_ =? _); [discriminate|congruence].
          - destruct (has_lock _); [|discriminate]. destruct (_ =? _); [|congruence].
            destruct (negb _); [discriminate|]. destruct (zassoc _ _); [|discriminate]. destruct (_ =? _); discriminate. }
        subst. apply CC; auto.
      * exfalso. destruct (negb _).
          -- destruct (op_eqb _ _); [congruence|]. destruct (has_lock _); [|discriminate].
            destruct (_ =? _); discriminate.
          -- destruct (has_lock _); [|discriminate]. destruct (_ =? _); [|discriminate].
            destruct (negb _); [discriminate|]. destruct (zassoc _ _); [|discriminate]. destruct (_ =? _); discriminate.
Qed.

Lemma validate_prewrite p : validate (RPrewrite p) = None -> pw_start p <> 0.
Proof. simpl. destruct (_ || _) eqn:E; [discriminate|]. rewrite !orb_false_iff, Z.eqb_neq in E. tauto. Qed.

(** a prewrite that names a blocked key changes nothing *)
Lemma prewrite_blocked c s mx p a bs k : store_ok s -> handle c s mx (RPrewrite p) = Ok (a, bs) ->
  In k (keys_of (RPrewrite p)) -> blocked s (pw_start p) k ->
  bs = [] /\ (succeeded a -> exists k' ct, In k' (keys_of (RPrewrite p)) /\ committed s k' (pw_start p) ct).
Proof.
  intros H X IN B. unfold handle in X. destruct (validate (RPrewrite p)) eqn:V.
  { ok_reply X. split; auto. intros (Q & _). discriminate. }
  destruct (existsb _ _) eqn:NEG; [discriminate|].
  assert (SP : 0 < pw_start p).
  { apply validate_prewrite in V. simpl in NEG. rewrite orb_false_r, Z.ltb_ge in NEG. lia. }
  simpl in IN. apply in_map_iff in IN. destruct IN as (m & E & IN). subst k.
  unfold prewrite in X. destruct (_ <? _); [ok_reply X; split; auto; intros (Q & _); discriminate|].
  destruct (_ && _); [ok_reply X; split; auto; intros (Q & _); discriminate|].
  destruct (prewrite_loop _ _ _ _ _ _ _) as [o|] eqn:L; cbn [obind] in X; [|discriminate].
  apply prewrite_loop_blocked in L; auto; [|right; eauto].
  destruct o as [a'|ct a'|e].
  - destruct L as [L|L].
    + destruct (is_nil (a_res a')) eqn:E1; simpl in X; [apply is_nil_iff in E1; contradiction|].
      ok_reply X. split; auto. intros (_ & Q & _). simpl in Q. contradiction.
    + destruct (is_nil (a_res a')) eqn:E1; simpl in X; [|ok_reply X; split; auto; intros (_ & Q & _); simpl in Q;
        rewrite Q in E1; discriminate].
      destruct (is_nil (a_exist a')) eqn:E2; simpl in X; [apply is_nil_iff in E2; contradiction|].
      ok_reply X. split; auto. intros (_ & _ & Q). simpl in Q. contradiction.
  - ok_reply X. split; auto. intros _. destruct L as (m0 & A & C). exists (m_key m0), ct.
    split; [simpl; apply in_map; auto|auto].
  - ok_reply X. split; auto. intros (Q & _). discriminate.
Qed.

(** a pessimistic lock request on a key somebody else holds *)
Lemma pess_loop_blocked s p : store_ok s -> forall ms x y, pess_loop s p ms x = inr y ->
  pa_res x <> [] \/ (exists m l, In m ms /\ lock_at s (m_key m) = Some l /\ l_ts l <> pl_start p) -> pa_res y <> [].
Proof.
  intros H. induction ms as [|m ms IH]; intros x y; cbn [pess_loop].
  - intros X [N|(m & l & [] & _)]. inversion X; subst; auto.
  - intros X N. destruct (negb (op_eqb _ _)); [discriminate|].
    assert (CF : forall t (q : list (bytes * lock)) kv, pess_loop s p ms (mkPa (pa_res x ++ [t]) q kv) = inr y -> pa_res y <> []).
    { intros t q kv Y. eapply IH; eauto. left. simpl. destruct (pa_res x); discriminate. }
    destruct (get_lock_spec s (m_key m) H) as [(l & L1 & L2 & L3 & L4)|(L1 & L2)]; rewrite L2 in X; clear L2.
    + rewrite L3 in X. destruct (l_fut l =? 0); [eapply CF; eauto|].
      destruct (l_ts l =? pl_start p) eqn:E; [|eapply CF; eauto]. apply Z.eqb_eq in E.
      assert (N' : pa_res x <> [] \/ (exists m l, In m ms /\ lock_at s (m_key m) = Some l /\ l_ts l <> pl_start p)).
      { destruct N as [N|(m0 & l0 & [<-|N1] & N2 & N3)]; [auto| |right; exists m0, l0; auto].
        exfalso. congruence. }
      destruct (_ =? _); [eapply IH; eauto|]. destruct (_ <? _); [eapply IH; eauto|]. eapply CF; eauto.
    + simpl in X. 
      assert (N' : pa_res x <> [] \/ (exists m l, In m ms /\ lock_at s (m_key m) = Some l /\ l_ts l <> pl_start p)).
      { destruct N as [N|(m0 & l0 & [<-|N1] & N2 & N3)]; [auto| |right; exists m0, l0; auto].
        exfalso. congruence. }
      destruct (_ <=? _); [eapply CF; eauto|eapply IH; eauto].
Qed.

Lemma pess_lock_blocked c s mx p a bs k l : store_ok s -> handle c s mx (RPessLock p) = Ok (a, bs) ->
  In k (keys_of (RPessLock p)) -> lock_at s k = Some l -> l_ts l <> pl_start p -> bs = [] /\ ~ succeeded a.
Proof.
  intros H X IN L N. unfold handle in X. destruct (validate (RPessLock p)) eqn:V.
  { ok_reply X. split; auto. intros (Q & _). discriminate. }
  destruct (existsb _ _); [discriminate|]. simpl in IN. apply in_map_iff in IN. destruct IN as (m & E & IN). subst k.
  unfold pessimistic_lock in X. destruct (_ <? _); [ok_reply X; split; auto; intros (Q & _); discriminate|].
  destruct (pess_loop _ _ _ _) as [e|y] eqn:PL; [ok_reply X; split; auto; intros (Q & _); discriminate|].
  apply pess_loop_blocked in PL; auto; [|right; eauto].
  destruct (is_nil (pa_res y)) eqn:E1; simpl in X; [apply is_nil_iff in E1; contradiction|].
  ok_reply X. split; auto. intros (_ & Q & _). simpl in Q. contradiction.
Qed.

(** a commit of a key somebody else holds *)
Lemma commit_loop_blocked s st ct : store_ok s -> 0 < st -> st < ct -> forall keys acc ls, commit_loop s st ct keys acc = Ok (inr ls) ->
  forall k l, In k keys -> lock_at s k = Some l -> l_ts l <> st -> committed s k st ct.
Proof.
  intros H SP LT. induction keys as [|k keys IH]; intros acc ls X k0 l0 IN L N; [destruct IN|].
  cbn [commit_loop] in X.
  destruct (get_lock_spec s k H) as [(l & L1 & L2 & L3 & L4)|(L1 & L2)]; rewrite L2 in X; clear L2.
  - destruct (l_ts l =? st) eqn:E.
    + apply Z.eqb_eq in E. destruct (negb _); [apply Ok_inj in X; discriminate|].
      destruct (_ && _); [apply Ok_inj in X; discriminate|].
      destruct IN as [<-|IN]; [congruence|]. eapply IH; eauto.
    + destruct (found_ts _ =? ct) eqn:E2.
      * destruct IN as [<-|IN]; [|eapply IH; eauto]. apply Z.eqb_eq in E2.
        destruct (get_write_info s st ct st k false true true) as [[t w]|] eqn:G; simpl in E2; [|lia].
        subst t. apply gwi_some in G; auto. destruct G as (G1 & (G2 & G3 & G4) & _). exists w.
        split; [auto|split; [lia|]]. destruct G4 as [[_ G4]|[[G4 _]|[G4 _]]]; congruence.
      * destruct (get_rollback _ _ _) as [b|]; cbn [obind] in X; [|discriminate].
        destruct (_ || _); [apply Ok_inj in X; discriminate|]. destruct (_ <? _); apply Ok_inj in X; discriminate.
  - simpl l_ts in X. destruct (0 =? st) eqn:E; [apply Z.eqb_eq in E; lia|].
    destruct (found_ts _ =? ct) eqn:E2.
    + destruct IN as [<-|IN]; [congruence|]. eapply IH; eauto.
    + destruct (get_rollback _ _ _) as [b|]; cbn [obind] in X; [|discriminate].
      destruct (_ || _); [apply Ok_inj in X; discriminate|]. destruct (_ <? _); apply Ok_inj in X; discriminate.
Qed.

Lemma commit_blocked c s mx st ct keys a bs k l : store_ok s -> handle c s mx (RCommit st ct keys) = Ok (a, bs) ->
  In k keys -> lock_at s k = Some l -> l_ts l <> st ->
  succeeded a -> committed s k st ct.
Proof.
  intros H X IN L N SU. unfold handle in X. destruct (validate (RCommit st ct keys)) eqn:V.
  { ok_reply X. destruct SU as (Q & _). discriminate. }
  destruct (existsb _ _) eqn:NEG; [discriminate|].
  assert (SP : 0 < st).
  { simpl in V. destruct (_ || _) eqn:Q in V; [discriminate|]. rewrite !orb_false_iff, Z.eqb_neq in Q.
    simpl in NEG. rewrite orb_false_r, Z.ltb_ge in NEG. lia. }
  unfold commit in X. destruct (_ <? _); [ok_reply X; destruct SU as (Q & _); discriminate|].
  destruct (ct <=? st) eqn:E; [ok_reply X; destruct SU as (Q & _); discriminate|]. apply Z.leb_gt in E.
  destruct (commit_loop _ _ _ _ _) as [[t|ls]|] eqn:CL; cbn [obind] in X; [| |discriminate]; ok_reply X.
  - destruct SU as (_ & Q & _). discriminate.
  - eapply commit_loop_blocked; eauto.
Qed.

(** * Verdicts of a status check *)
Lemma handle_status c s mx k lk cl cu fs rm a bs : handle c s mx (RCheckStatus k lk cl cu fs rm) = Ok (a, bs) ->
  r_err a = None -> 0 < lk /\ check_status s k lk cl cu fs rm = Ok (a, bs).
Proof.
  intros X N. unfold handle in X. destruct (validate _) eqn:V; [ok_reply X; discriminate|].
  destruct (existsb _ _) eqn:NEG; [discriminate|]. split; auto.
  simpl in V. destruct (_ || _) eqn:Q in V; [discriminate|]. rewrite !orb_false_iff, !Z.eqb_neq in Q.
  simpl in NEG. rewrite orb_false_r, Z.ltb_ge in NEG. lia.
Qed.

(** no lock of lk on the key: the answer comes from the records *)
Lemma check_status_nolock s k lk cl cu fs rm a bs : store_ok s -> 0 < lk ->
  ~ holds s k lk -> check_status s k lk cl cu fs rm = Ok (a, bs) ->
  (rolled_back s k lk /\ a = status_resp [] 0 0 ALockNotExistRollback /\ bs = []) \/
  (exists ct, ~ rolled_back s k lk /\ committed s k lk ct /\ lk < ct <= kMaxVer /\
              a = status_resp [] 0 ct ALockNotExistDoNothing /\ bs = []) \/
  (~ rolled_back s k lk /\ (forall ct, ct <= kMaxVer -> ~ committed s k lk ct) /\
   ((rm = true /\ a = status_resp [] 0 0 ALockNotExistRollback /\ bs = mark_rollback lk k) \/
    (rm = false /\ a = rres [TNotFound lk k] /\ bs = []))).
Proof.
  intros H P NH. unfold check_status.
  assert (E : l_ts (get_lock s k) =? lk = false).
  { destruct (get_lock_spec s k H) as [(l & L1 & L2 & L3 & L4)|(L1 & L2)]; rewrite L2.
    - apply Z.eqb_neq. intros E. apply NH. exists l; auto.
    - apply Z.eqb_neq. cbn [l_ts no_lock]. lia. }
  rewrite E. destruct (get_rollback_ok s lk k H) as (b & -> & RB). cbn [obind]. destruct b.
  { intros X; ok_reply X. left. split; [apply RB; auto|auto]. }
  assert (NR : ~ rolled_back s k lk) by (intros Q; apply RB in Q; discriminate).
  destruct (get_write_info s lk kMaxVer lk k false true true) as [[t w]|] eqn:G; cbn [found_ts].
  - apply gwi_some in G; auto. destruct G as (G1 & (G2 & G3 & G4) & _).
    destruct (t =? 0) eqn:E0; [apply Z.eqb_eq in E0; lia|]. intros X; ok_reply X.
    right; left. exists t. split; [auto|split; [|split; [lia|auto]]]. exists w.
    split; [auto|split; [lia|]]. destruct G4 as [[_ G4]|[[G4 _]|[G4 _]]]; congruence.
  - cbn [Z.eqb]. intros X. right; right. split; [auto|split].
    + intros ct L (w & W1 & W2 & W3). apply (gwi_none _ _ _ _ _ _ _ _ G _ _ W1).
      destruct (ok_write _ H _ _ _ W1) as (_ & [[Q _]|[Q1 Q2]]); [congruence|].
      split; [lia|split; [auto|]]. destruct Q1; auto.
    + destruct rm; ok_reply X; auto.
Qed.

(** with a lock of lk, a verdict means the rollback has been written *)
Lemma check_status_lock s k lk cl cu fs rm a bs l : store_ok s -> lock_at s k = Some l -> l_ts l = lk ->
  check_status s k lk cl cu fs rm = Ok (a, bs) ->
  r_commit a = 0 /\ (says_rolled_back a -> rolled_back (apply_batches s bs) k lk /\ lock_at (apply_batches s bs) k = None).
Proof.
  intros H L T X. unfold check_status in X.
  destruct (get_lock_spec s k H) as [(l0 & L1 & L2 & L3 & L4)|(L1 & L2)]; [|congruence].
  rewrite L2 in X; clear L2. assert (l0 = l) by congruence. subst l0. rewrite T, Z.eqb_refl in X.
  destruct (negb (beqb _ _)); [ok_reply X; split; [auto|intros (_ & _ & [Q|Q]); discriminate]|].
  destruct (l_async l && negb fs); [ok_reply X; split; [auto|intros (_ & _ & [Q|Q]); discriminate]|].
  destruct (_ && _); [ok_reply X; split; [auto|intros (_ & _ & [Q|Q]); discriminate]|].
  destruct (_ <=? _).
  { destruct (_ <? _); ok_reply X; (split; [auto|intros (_ & _ & [Q|Q]); discriminate]). }
  ok_reply X. split; [auto|intros _].
  assert (E : exists b, (if beqb (l_short l) [] then do_rollback (l_ts l) [k] [] [] else do_rollback (l_ts l) [] [k] []) = [b] /\
    In (PutWrite k (l_ts l) (rb_record (l_ts l))) b /\ In (DelLock k) b /\ (forall w t, In (PutWrite k t w) b -> w = rb_record (l_ts l)) /\
    (forall t, ~ In (DelWrite k t) b) /\ (forall l', ~ In (PutLock k l') b)).
  { unfold do_rollback. destruct (beqb _ _); simpl; eexists; (split; [reflexivity|]); simpl;
    (split; [auto|split; [auto|split; [|split]]]); intros; intuition (try congruence; try discriminate). }
  destruct E as (b & -> & B1 & B2 & B3 & B4 & B5). unfold apply_batches. cbn [fold_left]. split.
  - destruct (batch_write b s k (l_ts l) H) as [(w & A & B)|[(A & B)|(A & _ & B)]].
    + exists w. apply B3 in A. subst w. simpl. auto.
    + exfalso. eapply B4; eauto.
    + exfalso. eapply A; eauto.
  - destruct (batch_lock b s k H) as [(w & A & B)|[(A & B)|(_ & A & B)]]; auto.
    + exfalso. eapply B5; eauto.
    + contradiction.
Qed.

Lemma mark_rollback_rolled s st k : store_ok s -> rolled_back (apply_batches s (mark_rollback st k)) k st.
Proof.
  intros H. unfold mark_rollback, apply_batches, apply_batch. cbn [fold_left].
  exists (rb_record st). rewrite write_at_put. destruct (kt_dec (k, st) (k, st)); [|congruence]. simpl; auto.
Qed.

Lemma committed_verdict_permanent c P g1 es g2 k lk cl1 cu1 fs1 rm1 a1 bs1 cl2 cu2 fs2 rm2 a2 bs2 ct :
  plan_ok P -> reachable c P g1 -> run c P g1 es g2 ->
  serve c g1 (RCheckStatus k lk cl1 cu1 fs1 rm1) = Ok (a1, bs1) -> says_committed a1 ct ->
  rg_safe g2 < lk ->
  serve c g2 (RCheckStatus k lk cl2 cu2 fs2 rm2) = Ok (a2, bs2) -> r_err a2 = None ->
  says_committed a2 ct /\ bs2 = [].
Proof.
  intros HP RE RN S1 (V1 & V2 & V3 & V4) SF S2 NE. unfold serve in S1, S2.
  destruct (handle_status _ _ _ _ _ _ _ _ _ _ _ S1 V1) as [LK C1]. destruct (handle_status _ _ _ _ _ _ _ _ _ _ _ S2 NE) as [_ C2].
  assert (I1 := reachable_inv _ _ _ HP RE). assert (I2 := reachable_inv _ _ _ HP (reachable_run _ _ _ _ _ RE RN)).
  assert (NH1 : ~ holds (rg_store g1) k lk).
  { intros (l & L1 & L2). destruct (check_status_lock _ _ _ _ _ _ _ _ _ _ (gi_ok _ _ _ _ I1) L1 L2 C1). lia. }
  destruct (check_status_nolock _ _ _ _ _ _ _ _ _ (gi_ok _ _ _ _ I1) LK NH1 C1)
    as [(_ & -> & _)|[(ct' & _ & CM & LT & -> & _)|(_ & _ & [(_ & -> & _)|(_ & -> & _)])]]; simpl in V3; try lia.
  subst ct'. destruct (commit_stays _ _ _ _ _ _ _ _ HP RE RN CM) as [CM2 NR2]; [lia|].
  assert (NH2 : ~ holds (rg_store g2) k lk).
  { intros (l & L1 & L2). apply (ki_nocommit _ _ _ (gi_k _ _ _ _ I2 k) l ct L1). rewrite L2. auto. }
  destruct (check_status_nolock _ _ _ _ _ _ _ _ _ (gi_ok _ _ _ _ I2) LK NH2 C2)
    as [(R & _)|[(ct' & _ & CM' & LT' & -> & ->)|(_ & Q & _)]].
  - contradiction.
  - assert (ct = ct') by (eapply commit_once with (g1 := g2) (g2 := g2); eauto using run_nil, reachable_run). subst ct'.
    split; auto. split; [reflexivity|split; [reflexivity|split; [reflexivity|lia]]].
  - exfalso. apply (Q ct); auto. lia.
Qed.

Lemma rollback_verdict_permanent c P g1 es g2 k lk cl1 cu1 fs1 rm1 a1 bs1 cl2 cu2 fs2 rm2 a2 bs2 n :
  plan_ok P -> reachable c P g1 ->
  is_start P lk ->
  serve c g1 (RCheckStatus k lk cl1 cu1 fs1 rm1) = Ok (a1, bs1) -> says_rolled_back a1 -> (length bs1 <= n)%nat ->
  run c P g1 (EReq (RCheckStatus k lk cl1 cu1 fs1 rm1) n :: es) g2 ->
  rg_safe g2 < lk ->
  serve c g2 (RCheckStatus k lk cl2 cu2 fs2 rm2) = Ok (a2, bs2) -> r_err a2 = None -> ~ holds (rg_store g2) k lk ->
  says_rolled_back a2 /\ bs2 = [].
Proof.
  intros HP RE IS S1 V N RN SF S2 NE NH2. inversion RN as [|g e g1' es' g2' AL ST RN' E1 E2]; subst.
  cbn [step] in ST. rewrite S1 in ST. cbn [obind snd] in ST. apply Ok_inj in ST.
  assert (RE1 : reachable c P g1').
  { eapply reachable_run; eauto. econstructor; eauto; [|constructor]. cbn [step]. rewrite S1. cbn [obind snd]. rewrite ST; auto. }
  unfold serve in S1, S2.
  destruct (handle_status _ _ _ _ _ _ _ _ _ _ _ S1 (proj1 V)) as [LK C1].
  destruct (handle_status _ _ _ _ _ _ _ _ _ _ _ S2 NE) as [_ C2].
  assert (I1 := reachable_inv _ _ _ HP RE). assert (I2 := reachable_inv _ _ _ HP (reachable_run _ _ _ _ _ RE1 RN')).
  assert (RB1 : rolled_back (rg_store g1') k lk).
  { subst g1'. cbn [rg_store with_store]. rewrite firstn_all2 by auto.
    assert (D : holds (rg_store g1) k lk \/ ~ holds (rg_store g1) k lk).
    { unfold holds. destruct (lock_at (rg_store g1) k) as [l|] eqn:L; [|right; intros (l & Q & _); discriminate].
      destruct (Z.eq_dec (l_ts l) lk); [left; eauto|right; intros (l' & Q & Q'); inversion Q; congruence]. }
    destruct D as [(l & L1 & L2)|NH].
    - eapply check_status_lock; eauto. apply I1.
    - destruct (check_status_nolock _ _ _ _ _ _ _ _ _ (gi_ok _ _ _ _ I1) LK NH C1)
        as [(R & _ & ->)|[(ct' & _ & CM & LT & -> & _)|(_ & _ & [(_ & -> & ->)|(_ & -> & _)])]]; auto.
      + destruct V as (_ & V & _). simpl in V. lia.
      + apply mark_rollback_rolled. apply I1.
      + destruct V as (_ & _ & [Q|Q]); discriminate. }
  assert (RB2 := rollback_stays _ _ _ _ _ _ _ HP RE1 RN' RB1 SF).
  destruct (check_status_nolock _ _ _ _ _ _ _ _ _ (gi_ok _ _ _ _ I2) LK NH2 C2)
    as [(R & -> & ->)|[(ct' & Q & _)|(Q & _)]]; try contradiction.
  split; auto. split; [reflexivity|split; [reflexivity|right; reflexivity]].
Qed.
