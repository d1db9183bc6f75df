(** Proofs of the transaction theorems, part 5: prewritten locks, prewrite sent again, and
    resolving a whole region. *)
From Coq Require Import ZArith List Lia Bool.
From Verif Require Import Bytes SMap Outcome TxnModel TxnSpec TxnBase TxnMoves TxnHandlers TxnHandlers2 TxnHandlers3 TxnInv TxnRun TxnProofs TxnProofs2 TxnProofs3 TxnProofs4.
Import ListNotations.
Open Scope Z_scope.

(** * A prewritten key stays locked until it is decided *)
Definition settled (s : store) (k : bytes) (st : Z) : Prop :=
  prewritten s k st \/ (exists ct, committed s k st ct) \/ rolled_back s k st.

Lemma kmove_settled P r a s safe s' k st : plan_ok P -> store_ok s -> req_ok P r a s safe -> kinv P s k ->
  kmove r a s s' k -> (forall p, r = RPessLock p -> pl_start p <> st) ->
  settled s k st -> settled s' k st.
Proof.
  intros HP H RO K M NP S.
  destruct (kmove_permanent P HP r a s safe s' k H RO K M) as (PC & PR & _).
  destruct S as [(l & L0 & T0 & W0)|[(ct & C)|R]]; [|right; left; eauto|right; right; auto].
  destruct M as
      [ L W D
      | l0 l' L1 L IT E1 E2 E3 E4 E5 E6 E7 E8 E9 E10 W D
      | p l' E' L E1 E2 E3 WF X W D
      | p l' E' L E1 E2 WF X W D DN
      | st' fut keys l0 E' L1 E1 E2 E3 IK L W D
      | ct l0 IC L1 T LT L MC W D
      | p w E' X N1 N2 E1 E2 L W D DN
      | l0 L1 IT L W D TT TY
      | st' IT NH' L NC NR W D ]; try (assert (l0 = l) by congruence; subst l0).
  - left. exists l. rewrite L; auto.
  - left. exists l'. split; [auto|split; congruence].
  - exfalso. destruct X as [(X1 & _)|(l0 & X1 & X2 & X3)]; [congruence|].
    assert (l0 = l) by congruence. subst l0. apply (NP p); auto. congruence.
  - exfalso. destruct X as (_ & i & m & _ & _ & [(_ & Q & _)|(_ & [Q|(l0 & Q & Q1 & Q2)])]); try congruence.
    assert (l0 = l) by congruence. subst l0. destruct W0; congruence.
  - exfalso. destruct W0; congruence.
  - right; left. exists ct. destruct W as [W _]. rewrite T0 in W. eexists. split; [exact W|]. simpl. split; auto.
    destruct T; congruence.
  - exfalso. destruct X as (_ & i & m & _ & _ & [(_ & Q & _)|(_ & [Q|(l0 & Q & Q1 & Q2)])]); try congruence.
    assert (l0 = l) by congruence. subst l0. destruct W0; congruence.
  - right; right. destruct W as [W _]. rewrite T0 in W. eexists. split; [exact W|]. simpl. auto.
  - left. exists l. rewrite L; auto.
Qed.

Lemma moves_settled P r a safe pool k st : plan_ok P -> (forall p, r = RPessLock p -> pl_start p <> st) ->
  forall bs s, ginv P s safe pool -> moves r a s bs ->
  req_ok P r a s safe -> (is_resolve r \/ (length bs <= 1)%nat) -> settled s k st -> settled (apply_batches s bs) k st.
Proof.
  intros HP NP. induction bs as [|b bs IH]; intros s I M RO L S; simpl; auto.
  destruct M as (M1 & M2 & M3).
  assert (I1 : ginv P (apply_batch s b) safe pool /\ forall n, grow n s (apply_batch s b)).
  { apply (moves_inv P r a safe pool HP [b] s I); simpl; auto. }
  destruct I as [H K D PO]. destruct I1 as [I1 _].
  assert (S' := kmove_settled P r a s safe (apply_batch s b) k st HP H RO (K k) (M2 k) NP S).
  destruct L as [L|L].
  - apply IH; auto. eapply req_ok_resolve; eauto.
  - destruct bs as [|b' bs']; [auto|simpl in L; lia].
Qed.

Lemma step_settled c P g e g' k st : plan_ok P -> rinv P g -> allowed c P g e -> step c g e = Ok g' ->
  (forall p n, e = EReq (RPessLock p) n -> pl_start p <> st) -> rg_safe g' < st ->
  settled (rg_store g) k st -> settled (rg_store g') k st.
Proof.
  intros HP I A. destruct e as [r n|ts| |sp|st' ct|n]; cbn [step].
  - destruct (serve c g r) as [[a bs]|] eqn:E; cbn [obind]; [|discriminate].
    intros X NP SF S; apply Ok_inj in X; subst g'. cbn [snd rg_store rg_safe rg_pool with_store bump].
    apply (moves_settled P r a (rg_safe g) (rg_pool g) k st HP); auto.
    + intros p ->. eapply NP; eauto.
    + apply moves_firstn. eapply serve_moves; eauto. apply I.
    + eapply allowed_req_ok; eauto.
    + destruct (resolve_dec r) as [Q|Q]; auto. right.
      unfold serve in E. assert (Q' := handle_one _ _ _ _ _ _ E Q). rewrite firstn_length. lia.
  - intros X _ _; apply Ok_inj in X; subst; auto.
  - intros X _ _; apply Ok_inj in X; subst; auto.
  - intros X _ _; apply Ok_inj in X; subst; auto.
  - destruct A.
  - destruct (nth_error (rg_pool g) n) as [b|] eqn:E; intros X NP SF S; apply Ok_inj in X; subst; auto.
    cbn [rg_store]. cbn [rg_safe] in SF. apply nth_error_In in E.
    destruct (pool_sub P _ _ _ b I E k) as (A1 & A2 & A3).
    destruct S as [(l & L0 & T0 & W0)|[(ct & w & C1 & C2 & C3)|(w & R1 & R2)]].
    + left. exists l. rewrite A1. auto.
    + right; left. exists ct, w. split; auto. apply A3; auto.
      destruct (ok_write _ (gi_ok _ _ _ _ I) _ _ _ C1) as (_ & [[Q _]|[_ Q]]); [congruence|lia].
    + right; right. exists w. split; auto.
Qed.

Lemma run_settled c P k st : plan_ok P -> forall g es g', run c P g es g' -> rinv P g ->
  (forall p n, In (EReq (RPessLock p) n) es -> pl_start p <> st) -> rg_safe g' < st ->
  settled (rg_store g) k st -> settled (rg_store g') k st.
Proof.
  intros HP g es g' RN. induction RN as [g|g e g1 es g2 A S RN IH]; intros I NP SF ST; auto.
  destruct (step_inv _ _ _ _ _ HP I A S) as (I1 & _). destruct (run_inv _ _ HP _ _ _ RN I1) as (_ & LE & _).
  apply IH; auto.
  - intros p n Q. eapply NP. simpl; eauto.
  - apply (step_settled c P g e g1 k st HP I A S); [|lia|auto]. intros p n ->. eapply NP. simpl; eauto.
Qed.

Lemma prewritten_until_decided c P g1 es g2 k st : plan_ok P -> reachable c P g1 -> run c P g1 es g2 ->
  (forall p n, In (EReq (RPessLock p) n) es -> pl_start p <> st) -> rg_safe g2 < st ->
  prewritten (rg_store g1) k st ->
  prewritten (rg_store g2) k st \/ (exists ct, committed (rg_store g2) k st ct) \/ rolled_back (rg_store g2) k st.
Proof.
  intros HP RE RN NP SF PR. eapply run_settled; eauto; [eapply reachable_inv; eauto|left; auto].
Qed.

(** * What the prewrite loop leaves in its accumulator *)
Definition pushed (a : pw_acc) (k : bytes) : Prop :=
  (exists l, In (k, l) (a_locks a)) \/ (exists v l b, In (k, v, l, b) (a_1pc a)).

Lemma push_lock_keeps mx p fut np l v a k : pushed a k -> pushed (push_lock mx p fut np l v a) k.
Proof.
  intros [(l0 & A)|(v0 & l0 & b & A)]; unfold push_lock; destruct (_ || _).
  - destruct (_ =? 0); [left; exists l0; simpl; rewrite in_app_iff; auto|].
    destruct (a_try1 a); [left; exists l0; auto|left; exists l0; simpl; rewrite in_app_iff; auto].
  - left; exists l0; simpl; rewrite in_app_iff; auto.
  - destruct (_ =? 0); [right; exists v0, l0, b; auto|].
    destruct (a_try1 a); [right; exists v0, l0, b; simpl; rewrite in_app_iff; auto|right; exists v0, l0, b; auto].
  - right; exists v0, l0, b; auto.
Qed.
Lemma push_lock_pushes mx p fut np l v a : pushed (push_lock mx p fut np l v a) (l_key l).
Proof.
  unfold push_lock; destruct (_ || _).
  - destruct (_ =? 0); [left; eexists; simpl; rewrite in_app_iff; simpl; eauto|].
    destruct (a_try1 a); [right; do 3 eexists; simpl; rewrite in_app_iff; simpl; eauto|left; eexists; simpl; rewrite in_app_iff; simpl; eauto].
  - left; eexists; simpl; rewrite in_app_iff; simpl; eauto.
Qed.
Lemma pushed_data a k v k' : pushed a k' -> pushed (add_data a k v) k'.
Proof. auto. Qed.

Lemma gen_prewrite_pushes c mx p m prev w fut ex np a a' : gen_prewrite c mx p m prev w fut ex np a = inr a' ->
  (forall k, pushed a k -> pushed a' k) /\ (m_op m <> OpCheckNotExists -> pushed a' (m_key m)).
Proof.
  unfold gen_prewrite. intros X.
  assert (PUT : forall y, (if beqb (m_value m) [] then inl EVALUE_EMPTY else inr
      (push_lock mx p fut np (gen_lock p prev (m_key m) OpPut
      (if max_short_value c <? Z.of_nat (length (m_value m)) then None else Some (m_value m)) ex (a_async a)) (m_value m)
      (if max_short_value c <? Z.of_nat (length (m_value m)) then add_data a (m_key m) (m_value m) else a))) = @inr errno pw_acc y ->
      (forall k, pushed a k -> pushed y k) /\ pushed y (m_key m)).
  { intros y Y. destruct (beqb _ _); [discriminate|]. inversion Y; subst. split; [|apply push_lock_pushes].
    intros k Q. apply push_lock_keeps. destruct (_ <? _); auto. }
  destruct (m_op m); try discriminate.
  - destruct (PUT _ X). auto.
  - inversion X; subst. split; [intros; apply push_lock_keeps; auto|intros _; apply push_lock_pushes].
  - destruct (op_eqb w OpPut); [|destruct (PUT _ X); auto].
    inversion X; subst. split; [intros; apply push_lock_keeps; auto|intros _; apply push_lock_pushes].
  - inversion X; subst. split; [|congruence]. intros k Q. destruct (_ || _); auto.
Qed.

(** every mutation of a prewrite that ran to its end without complaint was checked, and either
    was locked already or got an entry *)
Lemma prewrite_loop_done c s mx p : store_ok s -> 0 < pw_start p -> forall ms i a a',
  prewrite_loop c s mx p i ms a = Ok (PwEnd a') -> ~ noted a' ->
  ~ noted a /\ (forall k, pushed a k -> pushed a' k) /\
  forall m, In m ms -> (m_op m <> OpCheckNotExists -> prewritten s (m_key m) (pw_start p) \/ pushed a' (m_key m)).
Proof.
  intros H SP. induction ms as [|m ms IH]; intros i a a' X N; cbn [prewrite_loop] in X.
  - apply Ok_inj in X. inversion X; subst. split; [auto|split; [auto|intros m []]].
  - set (k := m_key m) in *. set (st := pw_start p) in *.
    destruct (prewrite_check_lock s st k (get_lock s k) (nth (Z.to_nat i) (pw_checks p) 0 =? 1) (zassoc i (pw_futs p)))
      as [rep| |ct] eqn:PL.
    + destruct (get_rollback_ok s st k H) as (b & Q & RB). rewrite Q in X. cbn [obind] in X.
      destruct b; [apply Ok_inj in X; inversion X; subst; exfalso; apply N, noted_res|].
      destruct (_ && _).
      { destruct (check_committed s st k) as [ct|] eqn:E; apply Ok_inj in X; inversion X; subst. exfalso; apply N, noted_res. }
      destruct (_ && _); [apply Ok_inj in X; inversion X; subst; exfalso; apply N, noted_exist|].
      destruct (op_eqb (m_op m) OpCheckNotExists && _); [apply Ok_inj in X; discriminate|].
      set (a1 := if op_eqb (m_op m) OpCheckNotExists && _ then _ else _) in X.
      assert (A1 : (~ noted a1 -> ~ noted a) /\ (forall k, pushed a k -> pushed a1 k)).
      { subst a1. destruct (_ && _); [|auto]. split; [intros Q1; exfalso; apply Q1, noted_exist|auto]. }
      destruct A1 as [A1 A2].
      destruct rep.
      * destruct (IH _ _ _ X N) as (B1 & B2 & B3). split; [apply A1; exact B1|split].
        -- intros k' Q1. apply B2. exact (A2 _ Q1).
        -- intros m' [<-|Q1]; [|auto]. intros NC. left.
           destruct (get_lock_spec s k H) as [(l & L1 & L2 & L3 & L4)|(L1 & L2)]; unfold prewrite_check_lock in PL; rewrite L2 in PL; clear L2.
           ++ exists l. rewrite L3 in PL. destruct L4 as (_ & _ & _ & T & _).
              assert (Y : l_ts l = st /\ l_type l <> OpLock).
              { destruct (negb _).
                - destruct (op_eqb (l_type l) OpLock) eqn:O; [destruct (check_committed _ _ _); discriminate|].
                  apply op_eqb_neq in O. destruct (l_ts l =? st) eqn:E; [apply Z.eqb_eq in E; auto|].
                  destruct (check_committed _ _ _); discriminate.
                - destruct (l_ts l =? st) eqn:E; [apply Z.eqb_eq in E|destruct (check_committed _ _ _); discriminate].
                  destruct (op_eqb (l_type l) OpLock) eqn:O; cbn [negb] in PL.
                  + destruct (zassoc _ _); [|discriminate]. destruct (_ =? _); discriminate.
                  + apply op_eqb_neq in O. auto. }
              destruct Y as [Y1 Y2]. split; [auto|split; [auto|]]. unfold is_write. tauto.
           ++ exfalso. change (has_lock no_lock) with false in PL. destruct (negb _); [|discriminate].
              change (l_type no_lock) with OpNone in PL. discriminate.
      * destruct (gen_prewrite _ _ _ _ _ _ _ _ _ _) as [e|a2] eqn:G; [apply Ok_inj in X; discriminate|].
        destruct (gen_prewrite_res _ _ _ _ _ _ _ _ _ _ _ G) as [G1 G2].
        destruct (gen_prewrite_pushes _ _ _ _ _ _ _ _ _ _ _ G) as [G3 G4].
        destruct (IH _ _ _ X N) as (B1 & B2 & B3). split; [|split].
        -- apply A1. intros Q1. apply B1. unfold noted in *. rewrite G1, G2. auto.
        -- intros k' Q1. apply B2. auto.
        -- intros m' [<-|Q1]; [|auto]. intros NC. right. apply B2. auto.
    + destruct (IH _ _ _ X N) as (B1 & _). exfalso. apply B1, noted_res.
    + apply Ok_inj in X. discriminate.
Qed.

Lemma push_lock_try mx p fut np l v a : a_try1 a = false -> a_try1 (push_lock mx p fut np l v a) = false.
Proof. intros E. unfold push_lock. rewrite E. destruct (_ || _); [|auto]. destruct (_ =? 0); auto. Qed.

Lemma gen_prewrite_try c mx p m prev w fut ex np a a' : gen_prewrite c mx p m prev w fut ex np a = inr a' ->
  a_try1 a = false -> a_try1 a' = false.
Proof.
  unfold gen_prewrite. intros X E.
  destruct (m_op m); try discriminate.
  - destruct (beqb _ _); [discriminate|]. inversion X; subst. apply push_lock_try. destruct (_ <? _); auto.
  - inversion X; subst. apply push_lock_try; auto.
  - destruct (op_eqb w OpPut); [inversion X; subst; apply push_lock_try; auto|].
    destruct (beqb _ _); [discriminate|]. inversion X; subst. apply push_lock_try. destruct (_ <? _); auto.
  - inversion X; subst. destruct (_ || _); auto.
Qed.

Lemma prewrite_loop_try c s mx p : forall ms i a a', prewrite_loop c s mx p i ms a = Ok (PwEnd a') ->
  a_try1 a = false -> a_try1 a' = false.
Proof.
  induction ms as [|m ms IH]; intros i a a' X E; cbn [prewrite_loop] in X.
  - apply Ok_inj in X. inversion X; subst; auto.
  - destruct (prewrite_check_lock _ _ _ _ _ _) as [rep| |ct]; [|eapply IH; eauto|apply Ok_inj in X; discriminate].
    destruct (get_rollback _ _ _) as [[|]|]; cbn [obind] in X; [apply Ok_inj in X; inversion X; subst; auto| |discriminate].
    destruct (_ && _).
    { destruct (check_committed _ _ _); apply Ok_inj in X; inversion X; subst; auto. }
    destruct (_ && _); [apply Ok_inj in X; inversion X; subst; auto|].
    destruct (_ && _); [apply Ok_inj in X; discriminate|].
    destruct rep; [eapply IH; eauto|].
    destruct (gen_prewrite _ _ _ _ _ _ _ _ _ _) as [e|a2] eqn:G; [apply Ok_inj in X; discriminate|].
    eapply IH; eauto. eapply gen_prewrite_try; eauto. destruct (_ && _); auto.
Qed.

(** ** the two kinds of batches *)
Lemma do_prewrite_effect s p a k : store_ok s -> acc_ok s p a ->
  pushed a k \/ prewritten s k (pw_start p) ->
  prewritten (apply_batches s (do_prewrite (pw_start p) (a_data a) (a_locks a) (a_1pc a))) k (pw_start p).
Proof.
  intros H [L O D T F] S. unfold do_prewrite.
  set (all := a_locks a ++ map (fun e => let '(k, _, l, _) := e in (k, l)) (a_1pc a)).
  assert (EA : forall k l, In (k, l) all -> pw_entry s p (a_data a) k l).
  { intros k0 l. unfold all. rewrite in_app_iff, in_map_iff. intros [X|([[[k' v] l'] b] & X & Y)]; auto.
    inversion X; subst. apply (O _ _ _ _ Y). }
  assert (PU : pushed a k -> exists l, In (k, l) all).
  { intros [(l & A)|(v & l & b & A)]; exists l; unfold all; rewrite in_app_iff; auto. right. apply in_map_iff. exists (k, v, l, b); auto. }
  set (b := map _ (a_data a) ++ map _ all).
  assert (G : prewritten (apply_batch s b) k (pw_start p)).
  { destruct (batch_lock b s k H) as [(l & Q & G)|[(Q & G)|(Q1 & Q2 & G)]].
    - apply in_prewrite_batch in Q. destruct Q as [(? & ? & _ & Q)|(k' & l' & X & Q)]; [discriminate|].
      inversion Q; subst k' l'. destruct (EA _ _ X) as (E1 & E2 & _). exists l. auto.
    - apply in_prewrite_batch in Q. destruct Q as [(? & ? & _ & Q)|(? & ? & _ & Q)]; discriminate.
    - destruct S as [S|S].
      + exfalso. destruct (PU S) as (l & X). apply (Q1 l). apply in_prewrite_batch. right; eauto.
      + destruct S as (l & S). exists l. rewrite G. auto. }
  destruct b; [exact G|exact G].
Qed.

Lemma one_pc_effect s p a k : store_ok s -> 0 < pw_start p -> acc_ok s p a -> a_try1 a = true -> pushed a k ->
  let s' := apply_batches s (one_pc (pw_start p) (a_final a) (a_1pc a) (a_data a)) in
  committed s' k (pw_start p) (a_final a) /\ lock_at s' k = None /\
  (forall t, t <> a_final a -> write_at s' k t = write_at s k t).
Proof.
  intros H P A T1 PU.
  destruct A as [L O D T F]. assert (T' := T T1).
  destruct PU as [(l & X)|(v & l & bb & X)]; [rewrite T' in X; destruct X|].
  change (one_pc (pw_start p) (a_final a) (a_1pc a) (a_data a)) with
    (match opc_batch (pw_start p) (a_final a) (a_1pc a) (a_data a) with [] => [] | _ =>
      [opc_batch (pw_start p) (a_final a) (a_1pc a) (a_data a)] end).
  set (b := opc_batch _ _ _ _).
  destruct (O _ _ _ _ X) as ((E1 & E2 & E3 & E4 & E5) & E6 & E7).
  assert (G : let s' := apply_batch s b in committed s' k (pw_start p) (a_final a) /\ lock_at s' k = None /\
     (forall t, t <> a_final a -> write_at s' k t = write_at s k t)).
  { cbv zeta. split; [|split].
    - destruct (batch_write b s k (a_final a) H) as [(w & Q & G)|[(Q & G)|(Q1 & Q2 & G)]].
      + apply in_opc_batch in Q.
        destruct Q as [(? & ? & _ & Q)|[(k2 & v2 & l2 & b2 & X2 & NT & Q)|(? & ? & ? & _ & Q)]]; try discriminate.
        inversion Q; subst k2 w. destruct (O _ _ _ _ X2) as ((_ & E2' & _) & _).
        eexists. split; [exact G|]. simpl. split; auto. destruct E2'; congruence.
      + apply in_opc_batch in Q.
        destruct Q as [(? & ? & _ & Q)|[(? & ? & ? & ? & _ & _ & Q)|(? & ? & ? & _ & Q)]]; discriminate.
      + exfalso. eapply Q1. apply in_opc_batch. right; left. exists k, v, l, bb. split; [eauto|split; [|reflexivity]].
        destruct E2; congruence.
    - destruct (batch_lock b s k H) as [(l' & Q & G')|[(Q & G')|(Q1 & Q2 & G')]]; auto.
      + apply in_opc_batch in Q.
        destruct Q as [(? & ? & _ & Q)|[(? & ? & ? & ? & _ & _ & Q)|(? & ? & ? & _ & Q)]]; discriminate.
      + rewrite G'. destruct E6 as [->|E6]; auto. exfalso. apply Q2. apply in_opc_batch. right; right. eauto.
    - intros t N. destruct (batch_write b s k t H) as [(w & Q & G)|[(Q & G)|(Q1 & Q2 & G)]]; auto;
        apply in_opc_batch in Q;
        destruct Q as [(? & ? & _ & Q)|[(? & ? & ? & ? & _ & _ & Q)|(? & ? & ? & _ & Q)]]; try discriminate.
      inversion Q; subst; congruence. }
  assert (NB : b <> []).
  { intros Q. assert (I : In (PutWrite k (a_final a) (mkW (pw_start p) (l_type l) (if beqb (l_short l) [] then [] else v))) b).
    { apply in_opc_batch. right; left. exists k, v, l, bb. split; [auto|split; [|reflexivity]]. destruct E2; congruence. }
    rewrite Q in I. destruct I. }
  destruct b as [|o b']; [congruence|exact G].
Qed.

Lemma one_pc_other s p a k : store_ok s -> acc_ok s p a -> a_try1 a = true -> ~ pushed a k ->
  let s' := apply_batches s (one_pc (pw_start p) (a_final a) (a_1pc a) (a_data a)) in
  lock_at s' k = lock_at s k /\ (forall t, write_at s' k t = write_at s k t).
Proof.
  intros H [L O D T F] T1 N.
  assert (N' : forall v l b, ~ In (k, v, l, b) (a_1pc a)) by (intros v l b Q; apply N; right; eauto).
  change (one_pc (pw_start p) (a_final a) (a_1pc a) (a_data a)) with
    (match opc_batch (pw_start p) (a_final a) (a_1pc a) (a_data a) with [] => [] | _ =>
      [opc_batch (pw_start p) (a_final a) (a_1pc a) (a_data a)] end).
  set (b := opc_batch _ _ _ _).
  assert (G : let s' := apply_batch s b in lock_at s' k = lock_at s k /\ (forall t, write_at s' k t = write_at s k t)).
  { cbv zeta. split.
    - destruct (batch_lock b s k H) as [(l' & Q & G')|[(Q & G')|(Q1 & Q2 & G')]]; auto;
        apply in_opc_batch in Q;
        destruct Q as [(? & ? & _ & Q)|[(? & ? & ? & ? & X & _ & Q)|(? & ? & ? & X & Q)]]; try discriminate.
      inversion Q; subst. exfalso; eapply N'; eauto.
    - intros t. destruct (batch_write b s k t H) as [(w & Q & G)|[(Q & G)|(Q1 & Q2 & G)]]; auto;
        apply in_opc_batch in Q;
        destruct Q as [(? & ? & _ & Q)|[(? & ? & ? & ? & X & _ & Q)|(? & ? & ? & X & Q)]]; try discriminate.
      inversion Q; subst. exfalso; eapply N'; eauto. }
  destruct b; [simpl; auto|exact G].
Qed.

(** ** what a successful prewrite went through *)
Lemma check_lock_committed s st k prev np f ct : prewrite_check_lock s st k prev np f = LkCommitted ct ->
  check_committed s st k = Some ct.
Proof.
  unfold prewrite_check_lock. cbv zeta.
  destruct (check_committed s st k) as [c'|]; intros X;
    repeat (match type of X with context [if ?b then _ else _] => destruct b | context [match ?z with Some _ => _ | None => _ end] => destruct z end);
    congruence.
Qed.

Lemma prewrite_cases c s mx p a bs : store_ok s -> handle c s mx (RPrewrite p) = Ok (a, bs) -> succeeded a ->
  0 < pw_start p /\
  ((bs = [] /\ exists k ct, In k (keys_of (RPrewrite p)) /\ committed s k (pw_start p) ct) \/
   exists ac, acc_ok s p ac /\ ~ noted ac /\
     prewrite_loop c s mx p 0 (pw_muts p) (mkAcc [] [] [] [] [] (pw_try1 p) (negb (is_nil (pw_secs p))) 0) = Ok (PwEnd ac) /\
     ((a_try1 ac = true /\ r_1pc a = a_final ac /\ bs = one_pc (pw_start p) (a_final ac) (a_1pc ac) (a_data ac)) \/
      (a_try1 ac = false /\ r_1pc a = 0 /\ bs = do_prewrite (pw_start p) (a_data ac) (a_locks ac) (a_1pc ac)))).
Proof.
  intros H X SU. destruct (handle_some _ _ _ _ _ _ X (proj1 SU)) as [V E]. unfold handle in X. rewrite V, E in X.
  assert (P : 0 < pw_start p).
  { apply validate_prewrite in V. simpl in E. rewrite orb_false_r, Z.ltb_ge in E. lia. }
  assert (PP : pw_primary p <> []).
  { simpl in V. destruct (_ || _) eqn:V1 in V; [discriminate|]. rewrite !orb_false_iff in V1.
    destruct V1 as ((((_ & V1) & V2) & _) & _). apply beqb_false in V1. auto. }
  split; auto. unfold prewrite in X.
  destruct (_ <? _); [ok_reply X; destruct SU; discriminate|]. destruct (_ && _); [ok_reply X; destruct SU; discriminate|].
  set (a0 := mkAcc _ _ _ _ _ _ _ _) in *.
  destruct (prewrite_loop c s mx p 0 (pw_muts p) a0) as [o|] eqn:L; cbn [obind] in X; [|discriminate].
  assert (S : match o with PwEnd a' => acc_ok s p a' | PwCommitted _ _ => True | PwError _ => True end).
  { eapply prewrite_loop_spec with (i := 0) (a := a0); eauto; [lia|].
    unfold a0. constructor; simpl; try tauto. }
  destruct o as [ac|ct ac|e].
  - destruct (is_nil (a_res ac)) eqn:E1; cbn [negb] in X.
    2:{ ok_reply X. destruct SU as (_ & Q & _). simpl in Q. rewrite Q in E1. discriminate. }
    destruct (is_nil (a_exist ac)) eqn:E2; cbn [negb] in X.
    2:{ ok_reply X. destruct SU as (_ & _ & Q). simpl in Q. rewrite Q in E2. discriminate. }
    apply is_nil_iff in E1, E2. right. exists ac. split; [auto|split; [intros [Q|Q]; congruence|split; [auto|]]].
    destruct (a_try1 ac) eqn:T1; ok_reply X; [left|right]; auto.
  - left. ok_reply X. split; auto.
    assert (C : exists m, In m (pw_muts p) /\ committed s (m_key m) (pw_start p) ct).
    { clear -H L P. revert L. generalize a0. generalize 0 at 1. induction (pw_muts p) as [|m ms IH]; intros i a1; cbn [prewrite_loop].
      - intros X. apply Ok_inj in X. discriminate.
      - assert (CC : forall ct, check_committed s (pw_start p) (m_key m) = Some ct -> exists m0, In m0 (m :: ms) /\ committed s (m_key m0) (pw_start p) ct).
        { intros ct0 E. apply check_committed_some in E; auto. exists m. simpl. split; [auto|apply E]. }
        assert (CONT : forall i a1, prewrite_loop c s mx p i ms a1 = Ok (PwCommitted ct ac) -> exists m0, In m0 (m :: ms) /\ committed s (m_key m0) (pw_start p) ct).
        { intros i' a1' Q. destruct (IH _ _ Q) as (m0 & A & B). exists m0. simpl; auto. }
        destruct (prewrite_check_lock _ _ _ _ _ _) as [rep| |ct'] eqn:PL; [|apply CONT|].
        + destruct (get_rollback _ _ _) as [[|]|]; cbn [obind]; [intros X; apply Ok_inj in X; discriminate| |discriminate].
          destruct (_ && _).
          { destruct (check_committed _ _ _) eqn:Q; intros X; apply Ok_inj in X; inversion X; subst. apply CC; auto. }
          destruct (_ && _); [intros X; apply Ok_inj in X; discriminate|].
          destruct (_ && _); [intros X; apply Ok_inj in X; discriminate|].
          destruct rep; [apply CONT|].
          destruct (gen_prewrite _ _ _ _ _ _ _ _ _ _) as [e|a2] eqn:G; [intros X; apply Ok_inj in X; discriminate|apply CONT].
        + intros X. apply Ok_inj in X. inversion X; subst. apply CC.
          eapply check_lock_committed; exact PL. }
    destruct C as (m & A & B). exists (m_key m), ct. split; auto. simpl. apply in_map; auto.
  - ok_reply X. destruct SU; discriminate.
Qed.

Lemma prewrite_loop_done1 c s mx p : store_ok s -> 0 < pw_start p -> forall ms i a a',
  prewrite_loop c s mx p i ms a = Ok (PwEnd a') -> ~ noted a' -> a_try1 a' = true ->
  forall m, In m ms -> m_op m <> OpCheckNotExists -> pushed a' (m_key m).
Proof.
  intros H SP. induction ms as [|m ms IH]; intros i a a' X N T; [intros m []|]. assert (X0 := X).
  assert (DONE := prewrite_loop_done c s mx p H SP). cbn [prewrite_loop] in X.
  destruct (prewrite_check_lock _ _ _ _ _ _) as [rep| |ct] eqn:PL; [| |apply Ok_inj in X; discriminate].
  2:{ destruct (DONE _ _ _ _ X N) as (B1 & _). exfalso. apply B1, noted_res. }
  destruct (get_rollback_ok s (pw_start p) (m_key m) H) as (b & Q & RB). rewrite Q in X. cbn [obind] in X.
  destruct b; [apply Ok_inj in X; inversion X; subst; exfalso; apply N, noted_res|].
  destruct (_ && _).
  { destruct (check_committed _ _ _); apply Ok_inj in X; inversion X; subst. exfalso; apply N, noted_res. }
  destruct (_ && _); [apply Ok_inj in X; inversion X; subst; exfalso; apply N, noted_exist|].
  destruct (op_eqb (m_op m) OpCheckNotExists && _); [apply Ok_inj in X; discriminate|].
  destruct rep.
  { apply prewrite_loop_try in X; [congruence|reflexivity]. }
  destruct (gen_prewrite _ _ _ _ _ _ _ _ _ _) as [e|a2] eqn:G; [apply Ok_inj in X; discriminate|].
  destruct (gen_prewrite_pushes _ _ _ _ _ _ _ _ _ _ _ G) as [G3 G4].
  destruct (DONE _ _ _ _ X N) as (B1 & B2 & B3).
  intros m' [<-|Q1] NC; [apply B2; auto|]. eapply IH; eauto.
Qed.

Lemma prewrite_effect c s mx p a bs : store_ok s -> handle c s mx (RPrewrite p) = Ok (a, bs) -> succeeded a ->
  let s' := apply_batches s bs in
  (exists k ct, In k (keys_of (RPrewrite p)) /\ committed s k (pw_start p) ct) \/
  (forall m, In m (pw_muts p) -> m_op m <> OpCheckNotExists -> prewritten s' (m_key m) (pw_start p)) \/
  (forall m, In m (pw_muts p) -> m_op m <> OpCheckNotExists ->
     committed s' (m_key m) (pw_start p) (r_1pc a) /\ lock_at s' (m_key m) = None).
Proof.
  intros H X SU. destruct (prewrite_cases _ _ _ _ _ _ H X SU) as (P & [(-> & C)|(ac & A & N & L & [(T & R & ->)|(T & R & ->)])]).
  - left. auto.
  - right; right. intros m IN NC. rewrite R.
    destruct (one_pc_effect s p ac (m_key m) H P A T) as (E1 & E2 & _); auto.
    eapply prewrite_loop_done1; eauto.
  - right; left. intros m IN NC. apply do_prewrite_effect; auto.
    destruct (prewrite_loop_done _ _ _ _ H P _ _ _ _ L N) as (_ & _ & D). destruct (D m IN NC); auto.
Qed.
