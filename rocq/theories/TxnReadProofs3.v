(** Lock scans, and reads repeated later. *)
From Coq Require Import ZArith List Lia Bool Sorted.
From Verif Require Import Bytes SMap Outcome TxnModel TxnSpec TxnBase TxnMoves TxnHandlers TxnHandlers2 TxnHandlers3 TxnInv TxnRun TxnProofs
     TxnReadModel TxnReadSpec TxnReadProofs TxnReadProofs2.
Import ListNotations.
Open Scope Z_scope.

(** * Reachable stores can be read *)
Lemma reachable_values c P g : plan_ok P -> reachable c P g ->
  store_ok (rg_store g) /\ values_there (rg_store g) /\ bounded_commits (rg_store g).
Proof.
  intros HP R. destruct (reachable_inv _ _ _ HP R) as [H K D _]. split; [auto|split].
  - intros k t w. apply (di_rec _ _ (D k)).
  - intros k t w W N. assert (C := ki_commit _ _ _ (K k) t w W N). destruct HP as (_ & HP & _). apply HP in C. lia.
Qed.

(** * Commit timestamps chosen by the store *)
Definition fast_ok (mx : Z) (s : store) (a : pw_acc) : Prop :=
  (a_try1 a = true -> a_1pc a <> [] -> mx < a_final a) /\
  (forall k l, In (k, l) (a_locks a) -> l_async l = true -> mx < l_minc l \/ l_async (get_lock s k) = true) /\
  (forall k v l b, In (k, v, l, b) (a_1pc a) -> l_async l = true -> mx < l_minc l).

Lemma gen_final_mx mx minc st fut maxc :
  gen_final_min_commit mx minc st fut maxc <> 0 -> mx < gen_final_min_commit mx minc st fut maxc.
Proof. unfold gen_final_min_commit. destruct (_ && _); lia. Qed.

Lemma push_lock_fast mx s p fut np l v a : fast_ok mx s a -> 0 <= mx -> l_key l = l_key l ->
  (l_async l = true -> a_async a = true \/ l_async (get_lock s (l_key l)) = true) ->
  fast_ok mx s (push_lock mx p fut np l v a).
Proof.
  intros (F1 & F2 & F3) M _ HA. unfold push_lock.
  destruct (a_try1 a || a_async a) eqn:TA.
  - set (f := gen_final_min_commit _ _ _ _ _). destruct (f =? 0) eqn:Ef.
    + split; [discriminate|split]; cbn [a_locks a_1pc]; auto.
      intros k l0. rewrite in_snoc. intros [X|X]; [auto|]. inversion X; subst. discriminate.
    + apply Z.eqb_neq in Ef. assert (G := gen_final_mx mx (l_minc l) (pw_start p) fut (pw_maxc p) Ef). fold f in G.
      rewrite (proj2 (Z.ltb_lt 0 f)) by lia.
      destruct (a_try1 a) eqn:T.
      * split; [|split]; cbn [a_try1 a_locks a_1pc a_final]; auto.
        -- intros _ _. destruct (Z.ltb_spec (a_final a) f); lia.
        -- intros k v0 l0 b. rewrite in_snoc. intros [X|X]; [eauto|]. inversion X; subst. simpl. auto.
      * split; [|split]; cbn [a_try1 a_locks a_1pc a_final]; auto; [discriminate|].
        intros k l0. rewrite in_snoc. intros [X|X]; [auto|]. inversion X; subst. simpl. auto.
  - apply orb_false_iff in TA. destruct TA as [T1 T2].
    split; [|split]; cbn [a_try1 a_locks a_1pc a_final]; auto; [congruence|].
    intros k l0. rewrite in_snoc. intros [X|X]; [auto|]. inversion X; subst. intros Y.
    destruct (HA Y); [congruence|auto].
Qed.

Lemma gen_prewrite_fast c mx s p m w fut extra np a a' : fast_ok mx s a -> 0 <= mx ->
  gen_prewrite c mx p m (get_lock s (m_key m)) w fut extra np a = inr a' -> fast_ok mx s a'.
Proof.
  intros F M. unfold gen_prewrite.
  assert (HL : forall ty short, let l := gen_lock p (get_lock s (m_key m)) (m_key m) ty short extra (a_async a) in
     l_async l = true -> a_async a = true \/ l_async (get_lock s (l_key l)) = true).
  { intros ty short. cbn. destruct (a_async a); auto. }
  assert (FD : fast_ok mx s (add_data a (m_key m) (m_value m))) by exact F.
  assert (PUT : (if beqb (m_value m) [] then inl EVALUE_EMPTY else
      let a1 := if max_short_value c <? Z.of_nat (length (m_value m)) then add_data a (m_key m) (m_value m) else a in
      inr (push_lock mx p fut np (gen_lock p (get_lock s (m_key m)) (m_key m) OpPut
            (if max_short_value c <? Z.of_nat (length (m_value m)) then None else Some (m_value m)) extra (a_async a))
             (m_value m) a1)) = inr a' -> fast_ok mx s a').
  { destruct (beqb (m_value m) []); [discriminate|]. cbv zeta. intros X; inversion X; subst a'.
    destruct (max_short_value c <? Z.of_nat (length (m_value m))); apply push_lock_fast; auto. }
  destruct (m_op m); try discriminate; auto.
  - intros X; inversion X; subst. apply push_lock_fast; auto.
  - destruct (op_eqb w OpPut); auto. intros X; inversion X; subst. apply push_lock_fast; auto.
  - intros X; inversion X; subst. destruct F as (F1 & F2 & F3).
    destruct (a_try1 a || a_async a) eqn:TA; split; cbn [set_final a_try1 a_final a_1pc a_locks]; auto.
    + intros A B. specialize (F1 A B). destruct (Z.ltb_spec (a_final a) (pw_start p + 1)); lia.
    + apply orb_false_iff in TA. destruct TA as [-> _]. discriminate.
Qed.

Lemma prewrite_loop_fast c s mx p : store_ok s -> 0 <= mx -> forall ms i a a', fast_ok mx s a ->
  prewrite_loop c s mx p i ms a = Ok (PwEnd a') -> fast_ok mx s a'.
Proof.
  intros H M. induction ms as [|m ms IH]; intros i a a' F; cbn [prewrite_loop].
  - intros X; apply Ok_inj in X; inversion X; subst; auto.
  - destruct (prewrite_check_lock _ _ _ _ _ _) as [rep| |ct].
    + destruct (get_rollback_ok s (pw_start p) (m_key m) H) as (b & -> & _). cbn [obind]. destruct b.
      { intros X; apply Ok_inj in X; inversion X; subst. exact F. }
      destruct ((_ <=? _) && _).
      { destruct (check_committed s (pw_start p) (m_key m)); intros X; apply Ok_inj in X; inversion X; subst. exact F. }
      destruct (op_eqb (m_op m) OpPutIfAbsent && _).
      { intros X; apply Ok_inj in X; inversion X; subst. exact F. }
      match goal with |- context [if ?c then Ok (PwError EILLEGAL) else _] => destruct c end.
      { intros X; apply Ok_inj in X; inversion X. }
      set (a1 := if op_eqb (m_op m) OpCheckNotExists && _ then add_exist a (m_key m) else a).
      assert (F1 : fast_ok mx s a1) by (unfold a1; match goal with |- context [if ?c then _ else _] => destruct c end; exact F).
      destruct rep.
      { apply IH. destruct F1 as (A & B & C). split; [discriminate|auto]. }
      match goal with |- context [gen_prewrite ?a ?b ?c ?d ?e ?f ?g ?h ?i ?j] => destruct (gen_prewrite a b c d e f g h i j) as [e0|a2] eqn:G end.
      { intros X; apply Ok_inj in X; inversion X. }
      apply IH. eapply gen_prewrite_fast; eauto.
    + apply IH. exact F.
    + intros X; apply Ok_inj in X; inversion X.
Qed.

Lemma one_pc_nonempty st final es d : one_pc st final es d <> [] -> es <> [] \/ d <> [].
Proof. destruct es; [|left; discriminate]. destruct d; [|right; discriminate]. intros X. exfalso. apply X. reflexivity. Qed.

Lemma prewrite_fast c s mx p a bs : store_ok s -> 0 <= mx -> 0 < pw_start p -> pw_primary p <> [] ->
  prewrite c s mx p = Ok (a, bs) ->
  (bs = [] \/ r_1pc a = 0 \/ mx < r_1pc a) /\
  (forall b k l, In b bs -> In (PutLock k l) b -> l_async l = true -> mx < l_minc l \/ l_async (get_lock s k) = true).
Proof.
  intros H M P P1. unfold prewrite.
  assert (NO : forall x : resp, Ok (x, @nil batch) = Ok (a, bs) -> (bs = [] \/ r_1pc a = 0 \/ mx < r_1pc a) /\
     (forall b k l, In b bs -> In (PutLock k l) b -> l_async l = true -> mx < l_minc l \/ l_async (get_lock s k) = true)).
  { intros x X. apply Ok_inj in X; inversion X; subst. split; [auto|intros b k l []]. }
  destruct (_ <? _); [apply NO|]. destruct (_ && _); [apply NO|].
  set (ac := mkAcc _ _ _ _ _ _ _ _).
  assert (F0 : fast_ok mx s ac) by (split; [intros _ X; exfalso; apply X; reflexivity|split; simpl; tauto]).
  assert (A0 : acc_ok s p ac) by (unfold ac; constructor; simpl; try tauto).
  destruct (prewrite_loop_ok c s mx p H (pw_muts p) 0 ac) as (o & OO). rewrite OO. cbn [obind].
  assert (S := prewrite_loop_spec c s mx p H P P1 (pw_muts p) 0 ac o ltac:(lia) (fun j => eq_refl) A0 OO).
  destruct o as [x|ct x|e]; [|apply NO|apply NO].
  assert (F := prewrite_loop_fast c s mx p H M _ _ _ _ F0 OO). destruct F as (F1 & F2 & F3).
  destruct (negb (is_nil (a_res x))); [apply NO|]. destruct (negb (is_nil (a_exist x))); [apply NO|].
  destruct (a_try1 x) eqn:T1; intros X; apply Ok_inj in X; inversion X; subst a bs; clear X.
  - cbn [r_1pc]. split.
    + destruct (one_pc (pw_start p) (a_final x) (a_1pc x) (a_data x)) as [|b0 r0] eqn:E; auto. right; right. apply F1; auto.
      assert (NE : one_pc (pw_start p) (a_final x) (a_1pc x) (a_data x) <> []) by congruence.
      apply one_pc_nonempty in NE. destruct NE as [NE|NE]; auto. intros Z.
      destruct (a_data x) as [|[k v] d] eqn:ED; [congruence|].
      destruct (ao_data _ _ _ S k v) as (_ & [(l & Q)|(v' & l & b & Q)]); [rewrite ED; left; auto| |].
      * rewrite (ao_try _ _ _ S T1) in Q. destruct Q.
      * rewrite Z in Q. destruct Q.
    + intros b k l IB IL. exfalso. unfold one_pc in IB.
      match type of IB with In _ (match ?c with _ => _ end) => destruct c as [|o0 b0] eqn:E; [destruct IB|] end.
      destruct IB as [<-|[]]. rewrite <- E in IL. fold (opc_batch (pw_start p) (a_final x) (a_1pc x) (a_data x)) in IL.
      apply in_opc_batch in IL. destruct IL as [(? & ? & _ & Q)|[(? & ? & ? & ? & _ & _ & Q)|(? & ? & ? & _ & Q)]]; discriminate.
  - cbn [r_1pc]. split; auto. intros b k l IB IL AL. unfold do_prewrite in IB.
    match type of IB with In _ (match ?c with _ => _ end) => destruct c as [|o0 b0] eqn:E; [destruct IB|] end.
    destruct IB as [<-|[]]. rewrite <- E in IL. apply in_prewrite_batch in IL. destruct IL as [(? & ? & _ & Q)|(k1 & l1 & I1 & Q)]; [discriminate|].
    inversion Q; subst k1 l1. apply in_app_iff in I1. destruct I1 as [I1|I1]; auto.
    apply in_map_iff in I1. destruct I1 as ([[[k2 v2] l2] b2] & E2 & I2). inversion E2; subst. left. eapply F3; eauto.
Qed.

Lemma handle_prewrite c s mx p a bs : store_ok s -> 0 <= mx -> handle c s mx (RPrewrite p) = Ok (a, bs) ->
  (bs = [] \/ r_1pc a = 0 \/ mx < r_1pc a) /\
  (forall b k l, In b bs -> In (PutLock k l) b -> l_async l = true -> mx < l_minc l \/ l_async (get_lock s k) = true).
Proof.
  intros H M. unfold handle. destruct (validate (RPrewrite p)) as [e|] eqn:V.
  { intros X; apply Ok_inj in X; inversion X; subst. split; [auto|intros b k l []]. }
  destruct (existsb _ _) eqn:T; [discriminate|]. cbn [validate] in V.
  destruct (_ || _) eqn:V1 in V; [discriminate|]. rewrite !orb_false_iff in V1.
  destruct V1 as ((((_ & V1) & V2) & _) & _). apply beqb_false in V1. apply Z.eqb_neq in V2.
  assert (T2 : 0 <= pw_start p).
  { destruct (Z.ltb_spec (pw_start p) 0) as [Q|Q]; [|lia].
    assert (X : existsb (fun t => t <? 0) (encoded_ts (RPrewrite p)) = true).
    { apply existsb_exists. exists (pw_start p). split; [simpl; auto|]. apply Z.ltb_lt; auto. }
    congruence. }
  apply prewrite_fast; auto. lia.
Qed.

(** a commit record of the store's own choosing, and an async lock, are newer than all reads *)
Lemma store_chosen c P g p n a bs k ts : plan_ok P -> rinv P g -> 0 <= ts <= rg_max g ->
  allowed c P g (EReq (RPrewrite p) n) -> serve c g (RPrewrite p) = Ok (a, bs) ->
  (forall ct, committed (apply_batches (rg_store g) bs) k (pw_start p) ct -> ~ committed (rg_store g) k (pw_start p) ct -> ts < ct) /\
  (forall l, lock_at (apply_batches (rg_store g) bs) k = Some l -> l_async l = true ->
     (forall l0, lock_at (rg_store g) k = Some l0 -> l_async l0 = false) -> ts < l_minc l).
Proof.
  intros HP I M A E. destruct I as [H K D PO].
  assert (E' := E). unfold serve in E'.
  assert (LM : ts <= rg_max (bump g (touch_ts (RPrewrite p)))) by (cbn; lia).
  destruct (handle_prewrite _ _ _ _ _ _ H (Z.le_trans _ _ _ (proj1 M) LM) E') as [F1 F2].
  assert (MV : moves (RPrewrite p) a (rg_store g) bs) by (eapply handle_moves; eauto).
  assert (L1 : (length bs <= 1)%nat).
  { apply (handle_one _ _ _ _ _ _ E'). intros (x1 & x2 & x3 & x4 & X). discriminate. }
  assert (R := allowed_req_ok _ _ _ _ _ _ _ A E).
  destruct bs as [|b bs].
  - simpl. split; [intros ct C N; contradiction|]. intros l L AS NA. rewrite (NA l L) in AS. discriminate.
  - destruct bs as [|b' bs]; [|simpl in L1; lia]. simpl. destruct MV as (_ & MV & _). split.
    + intros ct C N. destruct F1 as [F1|[F1|F1]]; [discriminate| |].
      * exfalso. apply N. specialize (MV k). clear -MV C F1 H. destruct MV as
          [ L W D
          | l0 l L0 L IT E1 E2 E3 E4 E5 E6 E7 E8 E9 E10 W D
          | p' l E L E1 E2 E3 WF X W D
          | p' l E L E1 E2 WF X W D DN
          | st fut keys l0 E L0 E1 E2 E3 IK L W D
          | ct' l0 IC L0 T LT L MC W D
          | p' w E X N1 N2 E1 E2 L W D DN
          | l0 L0 IT L W D TT TY
          | st IT NH L NC NR W D ]; try (apply (committed_same _ _ _ _ _ W); exact C); try discriminate.
        -- destruct IC.
        -- congruence.
        -- destruct (committed_add _ _ _ _ _ _ _ W C) as [(_ & _ & Q)|(_ & Q)]; [exfalso; apply Q; reflexivity|auto].
        -- destruct (committed_add _ _ _ _ _ _ _ W C) as [(_ & _ & Q)|(_ & Q)]; [exfalso; apply Q; reflexivity|auto].
      * specialize (MV k). assert (ct = r_1pc a \/ committed (rg_store g) k (pw_start p) ct); [|destruct H0; [lia|contradiction]].
        clear -MV C F1 H. destruct MV as
          [ L W D
          | l0 l L0 L IT E1 E2 E3 E4 E5 E6 E7 E8 E9 E10 W D
          | p' l E L E1 E2 E3 WF X W D
          | p' l E L E1 E2 WF X W D DN
          | st fut keys l0 E L0 E1 E2 E3 IK L W D
          | ct' l0 IC L0 T LT L MC W D
          | p' w E X N1 N2 E1 E2 L W D DN
          | l0 L0 IT L W D TT TY
          | st IT NH L NC NR W D ]; try (right; apply (committed_same _ _ _ _ _ W); exact C); try discriminate.
        -- destruct IC.
        -- destruct (committed_add _ _ _ _ _ _ _ W C) as [(Q & _)|(_ & Q)]; auto.
        -- destruct (committed_add _ _ _ _ _ _ _ W C) as [(_ & _ & Q)|(_ & Q)]; [exfalso; apply Q; reflexivity|auto].
        -- destruct (committed_add _ _ _ _ _ _ _ W C) as [(_ & _ & Q)|(_ & Q)]; [exfalso; apply Q; reflexivity|auto].
    + intros l L AS NA. destruct (batch_lock b (rg_store g) k H) as [(l1 & Q & G)|[(Q & G)|(Q1 & Q2 & G)]].
      * change (lock_at (apply_batch (rg_store g) b) k = Some l) in L. rewrite L in G. inversion G; subst l1.
        destruct (F2 b k l (or_introl eq_refl) Q AS) as [X|X]; [lia|].
        destruct (get_lock_spec (rg_store g) k H) as [(l0 & G1 & G2 & _)|(G1 & G2)].
        -- rewrite G2 in X. rewrite (NA l0 G1) in X. discriminate.
        -- rewrite G2 in X. discriminate.
      * change (lock_at (apply_batch (rg_store g) b) k = Some l) in L. congruence.
      * change (lock_at (apply_batch (rg_store g) b) k = Some l) in L. rewrite G in L. rewrite (NA l L) in AS. discriminate.
Qed.

(** * Reading again *)
Section Again.
Variables (P : plan) (s1 : store) (rs : list Z) (ts : Z) (k : bytes) (D : Z -> Prop).
Hypothesis HP : plan_ok P.
Hypothesis NC : no_conflict s1 SI ts rs k.

Definition again (s : store) : Prop :=
  (forall t w, write_at s k t = Some w -> w_op w <> OpRollback -> t <= ts -> write_at s1 k t = Some w) /\
  (forall l, lock_at s k = Some l -> is_write (l_type l) -> ~ D (l_ts l) ->
     exists l1, lock_at s1 k = Some l1 /\ l_ts l1 = l_ts l /\ l_fut l1 = l_fut l /\ l_minc l1 <= l_minc l) /\
  (forall t w, write_at s k t = Some w -> w_op w <> OpRollback -> t <= ts ->
     data_at s k (w_start w) = data_at s1 k (w_start w)).

Definition calm (r : req) (a : resp) : Prop :=
  (forall p, r = RPrewrite p -> D (pw_start p) /\ (r_1pc a <> 0 -> ts < r_1pc a)) /\
  (forall st ct, In (st, ct) (commits_of r) -> ct <= ts -> ~ D st /\ ~ In st rs /\
     forall l, lock_at s1 k = Some l -> l_ts l = st -> l_fut l < ct /\ (forall st' ct' keys txns, r = RResolve st' ct' keys txns -> l_minc l <= ct)).

Lemma again_move r a s s' safe : store_ok s -> kinv P s k -> req_ok P r a s safe -> calm r a -> again s -> kmove r a s s' k -> again s'.
Proof.
  intros H K (R1 & R2 & R3) [C1 C2] (J1 & J2 & J3) M. destruct M as
      [ L W DD
      | l0 l L0 L IT E1 E2 E3 E4 E5 E6 E7 E8 E9 E10 W DD
      | p l E L E1 E2 E3 WF X W DD
      | p l E L E1 E2 WF X W DD DN
      | st fut keys l0 E L0 E1 E2 E3 IK L W DD
      | ct l0 IC L0 T LT L MC W DD
      | p w E X N1 N2 E1 E2 L W DD DN
      | l0 L0 IT L W DD TT TY
      | st IT NH L NCM NR W DD ].
  - split; [|split].
    + intros t w. rewrite (W t). auto.
    + intros l. rewrite L. auto.
    + intros t w. rewrite (W t), (DD (w_start w)). eauto.
  - split; [|split].
    + intros t w. rewrite (W t). auto.
    + intros l'. rewrite L. intros Q. inversion Q; subst l'. rewrite E2, E1. intros T N.
      destruct (J2 l0 L0 T N) as (l1 & A1 & A2 & A3 & A4). exists l1. split; [auto|split; [auto|split; [congruence|lia]]].
    + intros t w. rewrite (W t), (DD (w_start w)). eauto.
  - split; [|split].
    + intros t w. rewrite (W t). auto.
    + intros l'. rewrite L. intros Q. inversion Q; subst l'. rewrite E2. intros [T|T]; discriminate.
    + intros t w. rewrite (W t), (DD (w_start w)). eauto.
  - subst r. destruct R3 as (_ & R3 & _). assert (S : is_start P (pw_start p)) by (apply R1; simpl; auto).
    destruct (prewrite_ok_facts P HP s p k H K S X R3) as (A1 & A2 & A3).
    split; [|split].
    + intros t w. rewrite (W t). auto.
    + intros l'. rewrite L. intros Q. inversion Q; subst l'. rewrite E1. intros _ N. exfalso. apply N. apply (C1 p eq_refl).
    + intros t w Q O Q1. rewrite (W t) in Q. rewrite DD; [eauto|]. intros Y. apply (A2 t). rewrite <- Y. exists w; auto.
  - split; [|split].
    + intros t w. rewrite (W t). auto.
    + intros l'. congruence.
    + intros t w. rewrite (W t), (DD (w_start w)). eauto.
  - assert (GT : ts < ct).
    { destruct (Z_lt_dec ts ct) as [Q|Q]; auto. exfalso. destruct (C2 _ _ IC ltac:(lia)) as (B1 & B2 & B3).
      destruct (J2 l0 L0 T B1) as (l1 & A1 & A2 & A3 & A4). destruct (B3 l1 A1 A2) as [B4 B5].
      assert (PS : 0 < l_ts l0) by (assert (I0 := ki_start _ _ _ K l0 L0); destruct HP as (HP1 & _); apply HP1 in I0; lia).
      apply (NC l1 A1). split; [rewrite A2; auto|split; [|split; [lia|]]].
      - destruct r as [p|st ct' keys|st keys|p|st fut keys|kk lk cl cu fs rm|st keys|st ct' keys txns|kk st adv]; try (destruct IC; fail).
        + destruct (MC _ _ _ eq_refl); lia.
        + assert (B := B5 _ _ _ _ eq_refl). lia.
      - split; intros; lia. }
    destruct W as [Wa Wb]. split; [|split].
    + intros t w Q O LE. assert (t <> ct) by lia. rewrite Wb in Q by auto. auto.
    + intros l'. congruence.
    + intros t w Q O Q1. rewrite (DD (w_start w)). assert (t <> ct) by lia. rewrite Wb in Q by auto. eauto.
  - subst r. destruct R3 as (_ & R3 & _). assert (S : is_start P (pw_start p)) by (apply R1; simpl; auto).
    destruct (prewrite_ok_facts P HP s p k H K S X R3) as (A1 & A2 & A3).
    assert (GT : ts < r_1pc a) by (apply (C1 p eq_refl); auto). destruct W as [Wa Wb].
    split; [|split].
    + intros t w' Q O LE. assert (t <> r_1pc a) by lia. rewrite Wb in Q by auto. auto.
    + intros l'. congruence.
    + intros t w' Q O LE. assert (t <> r_1pc a) by lia. rewrite Wb in Q by auto. rewrite DD; [eauto|].
      intros Y. apply (A2 t). rewrite <- Y. exists w'; auto.
  - destruct W as [Wa Wb]. split; [|split].
    + intros t w Q O LE. assert (t <> l_ts l0) by (intros ->; rewrite Wa in Q; inversion Q; subst; apply O; reflexivity). rewrite Wb in Q by auto. auto.
    + intros l'. congruence.
    + intros t w Q O LE. assert (t <> l_ts l0) by (intros ->; rewrite Wa in Q; inversion Q; subst; apply O; reflexivity). rewrite Wb in Q by auto.
      rewrite DD; [eauto|]. intros Y. apply (ki_nocommit _ _ _ K l0 t L0). exists w. auto.
  - destruct W as [Wa Wb]. split; [|split].
    + intros t w Q O LE. assert (t <> st) by (intros ->; rewrite Wa in Q; inversion Q; subst; apply O; reflexivity). rewrite Wb in Q by auto. auto.
    + intros l'. rewrite L. auto.
    + intros t w Q O LE. rewrite (DD (w_start w)). assert (t <> st) by (intros ->; rewrite Wa in Q; inversion Q; subst; apply O; reflexivity). rewrite Wb in Q by auto. eauto.
Qed.

Lemma again_moves r a safe pool : (forall p, r = RPrewrite p -> True) -> forall bs s, ginv P s safe pool -> moves r a s bs ->
  req_ok P r a s safe -> (is_resolve r \/ (length bs <= 1)%nat) -> (bs <> [] -> calm r a) -> again s -> again (apply_batches s bs).
Proof.
  intros _. induction bs as [|b bs IH]; intros s G M R L C A; simpl; auto. destruct M as (M1 & M2 & M3).
  assert (C' := C ltac:(discriminate)).
  assert (A1 : again (apply_batch s b)).
  { eapply again_move; [apply G|apply (gi_k _ _ _ _ G)|exact R|exact C'|exact A|apply M2]. }
  destruct L as [L|L].
  - apply IH; auto.
    + refine (proj1 (moves_inv P r a safe pool HP [b] s G _ R (or_introl L))). split; [auto|split; [auto|exact I]].
    + eapply req_ok_resolve; eauto.
  - destruct bs as [|b' bs]; [exact A1|simpl in L; lia].
Qed.

Lemma again_pool s safe pool b : ginv P s safe pool -> In b pool -> again s -> again (apply_batch s b).
Proof.
  intros [H K DI PO] Hb (J1 & J2 & J3).
  assert (DO : deletes_only b).
  { intros o Ho. destruct (PO b o Hb Ho) as [(k0 & t & -> & _)|(k0 & st & -> & _)]; eauto. }
  split; [|split].
  - intros t w W. apply J1. eapply del_write; eauto.
  - intros l. rewrite del_lock by auto. auto.
  - intros t w W O LE. destruct (del_write _ _ _ _ _ H DO W) as [W1 W2]. rewrite keep_data; eauto.
    intros Ho. destruct (PO b _ Hb Ho) as [(k' & t' & E & Q)|(k' & t' & E & Q1 & Q2 & Q3)]; [discriminate|].
    inversion E; subst. apply W2. apply Q3. exists w; auto.
Qed.

Lemma again_refl : again s1.
Proof.
  split; [auto|split]; auto. intros l L _ _. exists l. split; [auto|split; [auto|split; [auto|lia]]].
Qed.
End Again.

Definition has_prewrite (es : list event) (st : Z) : Prop := exists p n, In (EReq (RPrewrite p) n) es /\ pw_start p = st.

Lemma again_run c P s1 rs ts k all : plan_ok P -> no_conflict s1 SI ts rs k -> 0 <= ts -> undisturbed s1 rs ts k all ->
  forall g es g', run c P g es g' -> incl es all -> rinv P g -> ts <= rg_max g ->
  again s1 ts k (has_prewrite all) (rg_store g) -> again s1 ts k (has_prewrite all) (rg_store g').
Proof.
  intros HP NC P0 [U1 U2] g es g' R. induction R as [g|g e g1 es g2 A S R IH]; intros IN I M J; auto.
  destruct (step_inv _ _ _ _ _ HP I A S) as (I1 & _).
  assert (IN' : incl es all) by (intros x X; apply IN; right; auto).
  assert (IE : In e all) by (apply IN; left; auto).
  assert (K : ts <= rg_max g1 /\ again s1 ts k (has_prewrite all) (rg_store g1)).
  { destruct e as [r n|t| |sp|st ct|n]; cbn [step] in S.
    - destruct (serve c g r) as [[a bs]|] eqn:E; cbn [obind] in S; [|discriminate]. apply Ok_inj in S; subst g1.
      cbn [snd with_store bump rg_store rg_max]. split; [lia|].
      assert (RO := allowed_req_ok _ _ _ _ _ _ _ A E).
      assert (MV : moves r a (rg_store g) bs) by (eapply serve_moves; eauto; apply I).
      assert (LEN : is_resolve r \/ (length bs <= 1)%nat).
      { destruct (resolve_dec r) as [Q|Q]; auto. right. unfold serve in E. exact (handle_one _ _ _ _ _ _ E Q). }
      apply again_moves with (P := P) (rs := rs) (r := r) (a := a) (safe := rg_safe g) (pool := rg_pool g); auto.
      + apply moves_firstn; auto.
      + destruct LEN as [Q|Q]; auto. right. rewrite firstn_length. lia.
      + intros NE. split.
        * intros p ->. split; [exists p, n; auto|]. intros N1. unfold serve in E.
          assert (LM : 0 <= rg_max (bump g (touch_ts (RPrewrite p)))) by (cbn; lia).
          destruct (handle_prewrite _ _ _ _ _ _ (gi_ok _ _ _ _ I) LM E) as [[F|[F|F]] _].
          -- subst bs. exfalso. apply NE. destruct n; reflexivity.
          -- contradiction.
          -- cbn in F. lia.
        * intros st ct IC LE. destruct (U2 r n st ct IE IC LE) as (B1 & B2 & B3). split; [|split; auto].
          intros (p & m & IP & EP). apply (B2 p m IP EP).
    - apply Ok_inj in S; subst g1. cbn. split; [lia|auto].
    - exfalso. apply U1. exact IE.
    - apply Ok_inj in S; subst g1. cbn. auto.
    - destruct A.
    - destruct (nth_error (rg_pool g) n) as [b|] eqn:E; apply Ok_inj in S; subst g1; auto.
      cbn. split; auto. apply nth_error_In in E. eapply again_pool; eauto. }
  destruct K as [K1 K2]. apply IH; auto.
Qed.

Lemma repeat_read c P g rs ts k es g' v : plan_ok P -> reachable c P g -> 0 <= ts -> ts <= kMaxVer ->
  no_conflict (rg_store g) SI ts rs k -> reads (rg_store g) SI ts k v ->
  run c P g (ERead ts :: es) g' -> undisturbed (rg_store g) rs ts k es ->
  (forall t w, newest (rg_store g) SI ts k t w -> rg_safe g' < t) ->
  reads (rg_store g') SI ts k v.
Proof.
  intros HP RE P0 LT NC RD RU U GC. assert (I := reachable_inv _ _ _ HP RE).
  inversion RU as [|? ? g1 ? ? A S R]; subst. cbn [step] in S. apply Ok_inj in S. subst g1.
  assert (I1 : rinv P (bump g ts)) by exact I.
  assert (AG := again_run c P (rg_store g) rs ts k es HP NC P0 U _ _ _ R (incl_refl _) I1 ltac:(cbn; lia) (again_refl _ _ _ _)).
  destruct (run_inv _ _ HP _ _ _ R I1) as (I2 & _ & GR). cbn [bump rg_store] in GR.
  destruct AG as (J1 & _ & J3).
  assert (NEW : forall t w, newest (rg_store g) SI ts k t w -> newest (rg_store g') SI ts k t w).
  { intros t w N. assert (G0 := GC t w N). destruct N as (N1 & N2 & N3 & N4). split; [|split; [auto|split; auto]].
    - apply (GR k); auto.
    - intros t' w' W' L'. destruct (op_eqb (w_op w') OpRollback) eqn:O; [apply op_eqb_eq; auto|]. apply op_eqb_neq in O.
      exfalso. apply O. apply (N4 t' w'); auto. apply J1; auto. simpl in L'. lia. }
  destruct RD as [(t & w & N & O & V)|[(t & w & N & O & V)|[N V]]].
  - left. exists t, w. assert (N' := NEW t w N). split; [auto|split; [auto|]]. destruct V as [V|[V1 V2]]; [left; auto|right].
    split; auto. rewrite J3 with (t := t); auto; try apply N'. 
  - right; left. exists t, w. auto.
  - right; right. split; auto. intros t w W L. destruct (op_eqb (w_op w) OpRollback) eqn:O; [apply op_eqb_eq; auto|]. apply op_eqb_neq in O.
    apply (N t w); auto.
Qed.

Lemma repeat_get c P g rs rs' ts k es g' v v' : plan_ok P -> reachable c P g -> 0 <= ts -> ts <= kMaxVer ->
  get_key (rg_store g) SI ts rs k = RdVal v ->
  run c P g (ERead ts :: es) g' -> undisturbed (rg_store g) rs ts k es ->
  (forall t w, newest (rg_store g) SI ts k t w -> rg_safe g' < t) ->
  get_key (rg_store g') SI ts rs' k = RdVal v' -> v' = v.
Proof.
  intros HP RE P0 LT G1 RU U GC G2.
  destruct (reachable_values _ _ _ HP RE) as (H & V & _).
  assert (RE2 : reachable c P g').
  { eapply reachable_run; eauto. }
  destruct (reachable_values _ _ _ HP RE2) as (H2 & V2 & _).
  destruct (get_key_spec _ SI ts rs k H V LT) as [(l & E & _)|(v0 & E & N & R)]; [congruence|].
  destruct (get_key_spec _ SI ts rs' k H2 V2 LT) as [(l & E2 & _)|(v2 & E2 & N2 & R2)]; [congruence|].
  rewrite G1 in E. inversion E; subst v0. rewrite G2 in E2. inversion E2; subst v2.
  eapply reads_unique; [exact R2|]. exact (repeat_read c P g rs ts k es g' v HP RE P0 LT N R RU U GC).
Qed.

(** * Lock scans *)
Lemma lock_in_ts_iff lo hi l : lock_in_ts lo hi l = true <-> l_ts l <> 0 /\ lo <= l_ts l < hi.
Proof. unfold lock_in_ts. rewrite !andb_true_iff, negb_true_iff, Z.eqb_neq, Z.leb_le, Z.ltb_lt. lia. Qed.

Definition wanted (lo hi : Z) (ls : list (bytes * lock)) : list lock := map snd (filter (fun e => lock_in_ts lo hi (snd e)) ls).

Lemma scan_lock_loop_spec lo hi limit full : forall ls acc, exists got more rest,
  scan_lock_loop lo hi limit full ls acc = (acc ++ got, more, rest) /\
  (more = false -> got = wanted lo hi ls /\ rest = []) /\
  (more = true -> exists e, rest = e :: tl rest /\ lock_in_ts lo hi (snd e) = true /\
      exists pre, got = pre ++ [snd e] /\ wanted lo hi ls = pre ++ wanted lo hi rest /\ (exists sk, ls = sk ++ rest) /\
      stop limit full (length (acc ++ got)) = true).
Proof.
  induction ls as [|[k l] ls IH]; intros acc; cbn [scan_lock_loop].
  - exists [], false, []. rewrite app_nil_r. split; [auto|split; [auto|discriminate]].
  - unfold wanted. cbn [filter snd]. destruct (lock_in_ts lo hi l) eqn:E.
    + destruct (stop limit full (length (acc ++ [l]))) eqn:ST.
      * exists [l], true, ((k, l) :: ls). split; [auto|split; [discriminate|]]. intros _. exists (k, l). split; [auto|split; [auto|]].
        exists []. split; [auto|split; [cbn [filter snd]; rewrite E; auto|split; [exists []; auto|auto]]].
      * destruct (IH (acc ++ [l])) as (got & more & rest & A & B & C). exists (l :: got), more, rest. rewrite A, <- app_assoc. split; [auto|split].
        -- intros M. destruct (B M) as [-> ->]. auto.
        -- intros M. destruct (C M) as (e & C1 & C2 & pre & C3 & C4 & (sk & C5) & C6). exists e. split; [auto|split; [auto|]].
           exists (l :: pre). split; [rewrite C3; auto|split; [|split]].
           ++ cbn [map]. unfold wanted in C4. rewrite C4. auto.
           ++ exists ((k, l) :: sk). rewrite C5. auto.
           ++ rewrite <- app_assoc in C6. exact C6.
    + destruct (IH acc) as (got & more & rest & A & B & C). exists got, more, rest. split; [auto|split; auto].
      intros M. destruct (C M) as (e & C1 & C2 & pre & C3 & C4 & (sk & C5) & C6). exists e. split; [auto|split; [auto|]].
      exists pre. split; [auto|split; [auto|split; auto]]. exists ((k, l) :: sk). rewrite C5. auto.
Qed.

Lemma wanted_between s lo hi a b : store_ok s -> locks_between s lo hi a b (wanted lo hi (scan_lock_init s a b)).
Proof.
  intros H. unfold wanted, scan_lock_init.
  assert (S : sorted bcmp (filter (fun e => lock_in_ts lo hi (snd e)) (filter (fun e => bleb a (fst e) && bltb (fst e) b) (locks s))))
    by (apply sorted_filter, sorted_filter, H).
  assert (KEY : forall e, In e (filter (fun e => lock_in_ts lo hi (snd e)) (filter (fun e => bleb a (fst e) && bltb (fst e) b) (locks s))) ->
     lock_at s (fst e) = Some (snd e) /\ l_key (snd e) = fst e /\ in_range a b (fst e) /\ lo <= l_ts (snd e) < hi).
  { intros [k l] I. apply filter_In in I. destruct I as [I E]. apply filter_In in I. destruct I as [I R]. simpl in *.
    rewrite andb_true_iff, bleb_iff, bltb_iff in R. apply lock_in_ts_iff in E.
    assert (L : lock_at s k = Some l) by (apply (In_get bcmp bcmp_ok); [apply H|auto]).
    split; [auto|split; [|split; [auto|lia]]]. destruct (ok_lock _ H _ _ L) as (W & _). auto. }
  split.
  - revert S KEY. generalize (filter (fun e : bytes * lock => lock_in_ts lo hi (snd e)) (filter (fun e => bleb a (fst e) && bltb (fst e) b) (locks s))).
    induction l as [|e m IH]; intros S KEY; simpl; constructor; apply sorted_cons in S; destruct S as [S F].
    + apply IH; auto. intros x X. apply KEY. right; auto.
    + apply Forall_forall. intros x X. apply in_map_iff in X. destruct X as (y & <- & X). apply in_map_iff in X. destruct X as (z & <- & X).
      rewrite Forall_forall in F. specialize (F z X). unfold klt in F.
      rewrite (proj1 (proj2 (KEY e (or_introl eq_refl)))), (proj1 (proj2 (KEY z (or_intror X)))). exact F.
  - intros l. rewrite in_map_iff. split.
    + intros (e & <- & I). destruct (KEY e I) as (A & B & C & D). exists (fst e). auto.
    + intros (k & L & R & T). exists (k, l). split; auto. apply filter_In. split; [|apply lock_in_ts_iff; simpl; destruct (ok_lock _ H _ _ L) as (_ & _ & W & _); lia].
      apply filter_In. split; [apply get_In in L; auto; apply bcmp_ok|]. simpl. rewrite andb_true_iff, bleb_iff, bltb_iff. exact R.
Qed.

(** an unlimited scan is complete *)
Lemma scan_lock_all s lo hi limit full a b got rest : store_ok s ->
  scan_lock_page lo hi limit full (scan_lock_init s a b) = (got, false, rest) -> locks_between s lo hi a b got.
Proof.
  intros H E. unfold scan_lock_page in E. destruct (scan_lock_loop_spec lo hi limit full (scan_lock_init s a b) []) as (g & m & r & A & B & _).
  rewrite A in E. inversion E; subst. destruct (B eq_refl) as [-> _]. apply wanted_between; auto.
Qed.

(** later pages start with the last lock of the page before *)
Lemma lock_pages_spec lo hi : forall ps ls pages,
  lock_pages lo hi ps ls = (pages, true) -> ls <> [] \/ True ->
  exists p0 rest, pages = p0 :: rest /\ wanted lo hi ls = p0 ++ concat (map (@tl lock) rest).
Proof.
  induction ps as [|[limit full] ps IH]; intros ls pages E _; cbn [lock_pages] in E; [discriminate|].
  unfold scan_lock_page in E. destruct (scan_lock_loop_spec lo hi limit full ls []) as (got & more & rest & A & B & C).
  rewrite A in E. simpl in E. destruct more.
  - destruct (lock_pages lo hi ps rest) as [pg fl] eqn:Q. simpl in E. inversion E; subst.
    destruct (IH rest pg Q (or_intror I)) as (p0 & r & -> & W). exists got, (p0 :: r). split; auto.
    destruct (C eq_refl) as (e & C1 & C2 & pre & C3 & C4 & _). rewrite C4, W, C3. cbn [map concat]. rewrite <- !app_assoc. f_equal.
    rewrite C1 in W. unfold wanted in W. cbn [filter] in W. rewrite C2 in W. cbn [map] in W.
    (* a page is never empty here *)
    destruct p0 as [|x p0].
    + exfalso. clear -Q C1 C2. destruct ps as [|[limit full] ps]; [discriminate|]. cbn [lock_pages] in Q. unfold scan_lock_page in Q.
      rewrite C1 in Q. destruct e as [ke le]. cbn [scan_lock_loop] in Q. simpl in C2. rewrite C2 in Q.
      destruct (stop limit full (length ([] ++ [le]))).
      * destruct (lock_pages lo hi ps _) in Q. simpl in Q. inversion Q.
      * destruct (scan_lock_loop_spec lo hi limit full (tl rest) ([] ++ [le])) as (got' & more' & rest' & A' & _). rewrite A' in Q.
        destruct more'; [destruct (lock_pages lo hi ps rest'); simpl in Q; inversion Q|inversion Q].
    + simpl in W. inversion W. subst. simpl. auto.
  - inversion E; subst. exists got, []. split; auto. destruct (B eq_refl) as [-> _]. simpl. rewrite app_nil_r. auto.
Qed.

(** a limit of one: every page is the first lock, for ever *)
Lemma limit_one_stuck lo hi full : forall n ls l0 k rest, filter (fun e => lock_in_ts lo hi (snd e)) ls = (k, l0) :: rest ->
  lock_pages lo hi (repeat (1, full) n) ls = (repeat [l0] n, false).
Proof.
  induction n as [|n IH]; intros ls l0 k rest E; cbn [repeat lock_pages]; auto.
  assert (SC : exists ls', scan_lock_page lo hi 1 full ls = ([l0], true, ls') /\ filter (fun e => lock_in_ts lo hi (snd e)) ls' = (k, l0) :: rest).
  { unfold scan_lock_page. clear IH n. induction ls as [|[k1 l1] ls IHl]; cbn [filter snd] in E; [discriminate|]. cbn [scan_lock_loop].
    destruct (lock_in_ts lo hi l1) eqn:T.
    - inversion E; subst. simpl. exists ((k, l0) :: ls). split; auto. cbn [filter snd]. rewrite T. auto.
    - apply IHl; auto. }
  destruct SC as (ls' & -> & E'). rewrite (IH ls' l0 k rest E'). reflexivity.
Qed.
