(** Where values come from; the read theorems for reachable regions. *)
From Coq Require Import ZArith List Lia Bool.
From Verif Require Import Bytes SMap Outcome TxnModel TxnSpec TxnBase TxnMoves TxnHandlers TxnHandlers2 TxnHandlers3
  TxnInv TxnRun TxnProofs2 TxnProofs7 TxnReadModel TxnReadSpec TxnReadProofs TxnReadProofs2 TxnReadProofs3.
Import ListNotations.
Open Scope Z_scope.

(** * Provenance *)
Definition put_in (p : prewrite_req) (k v : bytes) : Prop :=
  exists o, In (mkMut o k v) (pw_muts p) /\ (o = OpPut \/ o = OpPutIfAbsent).
Definition del_in (p : prewrite_req) (k : bytes) : Prop := exists v, In (mkMut OpDelete k v) (pw_muts p).

Definition lk_from (s : store) (p : prewrite_req) (k : bytes) (l : lock) : Prop :=
  l_ts l = pw_start p /\
  (l_short l <> [] -> put_in p k (l_short l) \/
     exists l0, lock_at s k = Some l0 /\ l_ts l0 = pw_start p /\ l_short l = l_short l0) /\
  (l_type l = OpDelete -> del_in p k).

Record acc_from (s : store) (p : prewrite_req) (a : pw_acc) : Prop := {
  af_data : forall k v, In (k, v) (a_data a) -> put_in p k v;
  af_locks : forall k l, In (k, l) (a_locks a) -> lk_from s p k l;
  af_1pc : forall k v l b, In (k, v, l, b) (a_1pc a) -> lk_from s p k l /\ (l_type l = OpPut -> put_in p k v) }.

Lemma push_lock_from mx s p fut np l v a : acc_from s p a -> lk_from s p (l_key l) l ->
  (l_type l = OpPut -> put_in p (l_key l) v) -> acc_from s p (push_lock mx p fut np l v a).
Proof.
  intros [A B C] L V. unfold push_lock.
  assert (LM : forall f, lk_from s p (l_key l) (with_minc l f)) by (intros f; exact L).
  assert (LA : lk_from s p (l_key l) (without_async l)) by exact L.
  destruct (a_try1 a || a_async a).
  - set (f := gen_final_min_commit _ _ _ _ _). destruct (f =? 0).
    + constructor; cbn [a_data a_locks a_1pc]; auto. intros k l'. rewrite in_snoc. intros [X|X]; auto. inversion X; subst; auto.
    + assert (LF : lk_from s p (l_key l) (if 0 <? f then with_minc l f else l)) by (destruct (0 <? f); auto).
      assert (TF : l_type (if 0 <? f then with_minc l f else l) = l_type l) by (destruct (0 <? f); auto).
      destruct (a_try1 a); constructor; cbn [a_data a_locks a_1pc]; auto.
      * intros k v' l' b. rewrite in_snoc. intros [X|X]; [eapply C; eauto|]. inversion X; subst. rewrite TF. auto.
      * intros k l'. rewrite in_snoc. intros [X|X]; auto. inversion X; subst; auto.
  - constructor; cbn [a_data a_locks a_1pc]; auto. intros k l'. rewrite in_snoc. intros [X|X]; auto. inversion X; subst; auto.
Qed.

Lemma add_data_from s p a k v : acc_from s p a -> put_in p k v -> acc_from s p (add_data a k v).
Proof.
  intros [A B C] V. constructor; cbn [add_data a_data a_locks a_1pc]; auto. intros k' v'. rewrite in_snoc. intros [X|X]; auto. inversion X; subst; auto.
Qed.

Lemma gen_prewrite_from c mx s p m w fut extra np a a' : acc_from s p a -> In m (pw_muts p) -> store_ok s ->
  (forall l0, lock_at s (m_key m) = Some l0 -> l_ts l0 = pw_start p) ->
  gen_prewrite c mx p m (get_lock s (m_key m)) w fut extra np a = inr a' ->
  (m_op m = OpPutIfAbsent -> w <> OpPut) -> acc_from s p a'.
Proof.
  intros A IM H OWN. unfold gen_prewrite.
  destruct m as [o k v]. cbn [m_key m_value m_op] in *.
  assert (SH : l_short (get_lock s k) <> [] -> exists l0, lock_at s k = Some l0 /\ l_ts l0 = pw_start p /\ l_short (get_lock s k) = l_short l0).
  { destruct (get_lock_spec s k H) as [(l & G1 & G2 & _)|(G1 & G2)]; rewrite G2.
    - intros _. exists l. auto.
    - intros X. exfalso. apply X. reflexivity. }
  assert (PUT : (o = OpPut \/ o = OpPutIfAbsent) -> (if beqb v [] then inl EVALUE_EMPTY else
      let a1 := if max_short_value c <? Z.of_nat (length v) then add_data a k v else a in
      inr (push_lock mx p fut np (gen_lock p (get_lock s k) k OpPut (if max_short_value c <? Z.of_nat (length v) then None else Some v) extra (a_async a))
             v a1)) = inr a' -> acc_from s p a').
  { intros O. destruct (beqb v []); [discriminate|]. cbv zeta. intros X; inversion X; subst a'; clear X.
    assert (PI : put_in p k v) by (exists o; auto).
    apply push_lock_from.
    - destruct (_ <? _); auto. apply add_data_from; auto.
    - split; [reflexivity|split].
      + cbn [gen_lock l_short l_key]. destruct (_ <? _); auto.
      + discriminate.
    - intros _. exact PI. }
  destruct o; try discriminate.
  - intros X _. apply PUT; auto.
  - intros X _. inversion X; subst a'; clear X. apply push_lock_from; auto; [|discriminate].
    split; [reflexivity|split; [cbn [gen_lock l_short l_key]; auto|]]. intros _. exists v. exact IM.
  - intros X Q. destruct (op_eqb w OpPut) eqn:E; [apply op_eqb_eq in E; exfalso; apply Q; auto|]. apply PUT; auto.
  - intros X _. inversion X; subst a'. destruct A as [A B C]. destruct (_ || _); constructor; auto.
Qed.

Lemma prewrite_loop_from c s mx p : store_ok s -> forall ms i a o, incl ms (pw_muts p) -> acc_from s p a ->
  prewrite_loop c s mx p i ms a = Ok o -> match o with PwEnd a' => acc_from s p a' | _ => True end.
Proof.
  intros H. induction ms as [|m ms IH]; intros i a o IN A; cbn [prewrite_loop].
  - intros X; apply Ok_inj in X; subst; auto.
  - assert (IN' : incl ms (pw_muts p)) by (intros x X; apply IN; right; auto).
    assert (IM : In m (pw_muts p)) by (apply IN; left; auto).
    set (np := nth (Z.to_nat i) (pw_checks p) 0 =? 1).
    assert (RES : forall x, acc_from s p (add_res a x)) by (intros x; destruct A; constructor; auto).
    assert (EX : forall x, acc_from s p (add_exist a x)) by (intros x; destruct A; constructor; auto).
    destruct (prewrite_check_lock s (pw_start p) (m_key m) (get_lock s (m_key m)) np (zassoc i (pw_futs p)))
      as [rep| |ct] eqn:LK.
    + destruct (get_rollback_ok s (pw_start p) (m_key m) H) as (b & B & Bi). rewrite B. cbn [obind].
      destruct b.
      { intros X; apply Ok_inj in X; subst. auto. }
      set (w := get_write_info s 0 kMaxVer 0 (m_key m) false true true).
      destruct ((pw_start p <=? found_ts w) && negb np) eqn:C1.
      { destruct (check_committed s (pw_start p) (m_key m)); intros X; apply Ok_inj in X; subst; auto. }
      destruct (op_eqb (m_op m) OpPutIfAbsent && op_eqb (found_op w) OpPut) eqn:C2.
      { intros X; apply Ok_inj in X; subst. auto. }
      destruct (op_eqb (m_op m) OpCheckNotExists && np) eqn:C3.
      { intros X; apply Ok_inj in X; subst. auto. }
      set (a1 := if op_eqb (m_op m) OpCheckNotExists && op_eqb (found_op w) OpPut then add_exist a (m_key m) else a).
      assert (A1 : acc_from s p a1) by (unfold a1; destruct (op_eqb (m_op m) OpCheckNotExists && op_eqb (found_op w) OpPut); auto).
      destruct rep.
      { intros X. eapply (IH (i + 1)); [| |exact X]; auto. destruct A1; constructor; auto. }
      destruct (gen_prewrite c mx p m (get_lock s (m_key m)) (found_op w)
                (match zassoc i (pw_futs p) with Some f => f | None => 0 end)
                (match zassoc i (pw_extra p) with Some e => e | None => [] end) np a1) as [e|a2] eqn:G.
      { intros X; apply Ok_inj in X; subst. auto. }
      intros X. eapply (IH (i + 1)); [| |exact X]; auto.
      refine (gen_prewrite_from c mx s p m _ _ _ _ _ _ A1 IM H _ G _).
      * intros l0 L0. unfold prewrite_check_lock in LK.
        destruct (get_lock_spec s (m_key m) H) as [(l & G1 & G2 & G3 & G4)|(G1 & G2)]; [|congruence].
        assert (EQ : get_lock s (m_key m) = l0) by congruence. rewrite EQ in LK. rewrite <- G2, EQ in G3. rewrite G3 in LK.
        destruct (l_ts l0 =? pw_start p) eqn:E1; [apply Z.eqb_eq; auto|]. exfalso.
        destruct (negb np); [destruct (op_eqb (l_type l0) OpLock)|]; destruct (check_committed s (pw_start p) (m_key m)); discriminate LK.
      * intros Q. rewrite Q in C2. simpl in C2. apply op_eqb_neq in C2. auto.
    + intros X. eapply (IH (i + 1)); [| |exact X]; auto.
    + intros X; apply Ok_inj in X; subst; auto.
Qed.

(** what the write operations of a prewrite carry *)
Definition op_from (s : store) (p : prewrite_req) (o : wop) : Prop :=
  match o with
  | PutData k t v => t = pw_start p /\ put_in p k v
  | PutLock k l => lk_from s p k l
  | PutWrite k t w => w_start w = pw_start p /\
      (w_op w = OpPut -> w_short w <> [] -> put_in p k (w_short w)) /\ (w_op w = OpDelete -> del_in p k)
  | _ => True
  end.

Lemma prewrite_from c s mx p a bs : store_ok s -> prewrite c s mx p = Ok (a, bs) ->
  forall b o, In b bs -> In o b -> op_from s p o.
Proof.
  intros H. unfold prewrite.
  assert (NO : forall x : resp, Ok (x, @nil batch) = Ok (a, bs) -> forall b o, In b bs -> In o b -> op_from s p o).
  { intros x X. apply Ok_inj in X; inversion X; subst. intros b o []. }
  destruct (_ <? _); [apply NO|]. destruct (_ && _); [apply NO|].
  set (ac := mkAcc _ _ _ _ _ _ _ _).
  assert (F0 : acc_from s p ac) by (constructor; simpl; tauto).
  destruct (prewrite_loop_ok c s mx p H (pw_muts p) 0 ac) as (o & OO). rewrite OO. cbn [obind].
  assert (S := prewrite_loop_from c s mx p H (pw_muts p) 0 ac o (incl_refl _) F0 OO).
  destruct o as [x|ct x|e]; [|apply NO|apply NO]. destruct S as [S1 S2 S3].
  destruct (negb (is_nil (a_res x))); [apply NO|]. destruct (negb (is_nil (a_exist x))); [apply NO|].
  destruct (a_try1 x) eqn:T1; intros X; apply Ok_inj in X; inversion X; subst a bs; clear X; intros b o IB IL.
  - unfold one_pc in IB.
    match type of IB with In _ (match ?c with _ => _ end) => destruct c as [|o0 b0] eqn:E; [destruct IB|] end.
    destruct IB as [<-|[]]. rewrite <- E in IL. fold (opc_batch (pw_start p) (a_final x) (a_1pc x) (a_data x)) in IL.
    apply in_opc_batch in IL. destruct IL as [(k & v & Q1 & ->)|[(k & v & l & bb & Q1 & Q2 & ->)|(k & v & l & _ & ->)]]; simpl; auto.
    destruct (S3 _ _ _ _ Q1) as ((B1 & B2 & B3) & B4). split; [auto|split; auto].
    intros T N. destruct (beqb (l_short l) []); [exfalso; apply N; reflexivity|]. auto.
  - unfold do_prewrite in IB.
    match type of IB with In _ (match ?c with _ => _ end) => destruct c as [|o0 b0] eqn:E; [destruct IB|] end.
    destruct IB as [<-|[]]. rewrite <- E in IL. apply in_prewrite_batch in IL. destruct IL as [(k & v & Q1 & ->)|(k & l & Q1 & ->)]; simpl; auto.
    apply in_app_iff in Q1. destruct Q1 as [Q1|Q1]; auto.
    apply in_map_iff in Q1. destruct Q1 as ([[[k2 v2] l2] b2] & E2 & I2). inversion E2; subst. eapply S3; eauto.
Qed.

Lemma pess_loop_short s p : store_ok s -> forall ms x y, pess_loop s p ms x = inr y ->
  (forall k l, In (k, l) (pa_locks x) -> l_short l = [] \/ exists l0, lock_at s k = Some l0 /\ l_ts l0 = l_ts l /\ l_short l = l_short l0) ->
  (forall k l, In (k, l) (pa_locks y) -> l_short l = [] \/ exists l0, lock_at s k = Some l0 /\ l_ts l0 = l_ts l /\ l_short l = l_short l0).
Proof.
  intros H. induction ms as [|m ms IH]; intros x y; cbn [pess_loop].
  - intros X; inversion X; subst; auto.
  - destruct (op_eqb (m_op m) OpLock); cbn [negb]; [|discriminate].
    destruct (get_lock_spec s (m_key m) H) as [(l & G1 & G2 & G3 & G4)|(G1 & G2)]; rewrite G2.
    + rewrite G3. destruct (l_fut l =? 0); [intros X A; exact (IH _ _ X A)|].
      destruct (l_ts l =? pl_start p) eqn:E1; [|intros X A; exact (IH _ _ X A)].
      destruct (l_fut l =? pl_fut p); [intros X A; exact (IH _ _ X A)|].
      destruct (l_fut l <? pl_fut p) eqn:E2; [|intros X A; exact (IH _ _ X A)].
      intros X A. apply (IH _ _ X). cbn [pa_locks]. intros k l'. rewrite in_app_iff.
      intros [I1|[I1|[]]]; auto. inversion I1; subst k l'. right. exists l. split; [auto|split; [apply Z.eqb_eq; auto|reflexivity]].
    + change (has_lock no_lock) with false. cbv iota.
      destruct (pl_fut p <=? _) eqn:E1; [intros X A; exact (IH _ _ X A)|].
      intros X A. apply (IH _ _ X). cbn [pa_locks]. intros k l'. rewrite in_app_iff.
      intros [I1|[I1|[]]]; auto. inversion I1; subst k l'. left. reflexivity.
Qed.

Section Origin.
Variable WP : Z -> bytes -> bytes -> Prop.   (* asked to put *)
Variable WD : Z -> bytes -> Prop.            (* asked to delete *)

Record origin (s : store) : Prop := {
  og_short : forall k l, lock_at s k = Some l -> l_short l <> [] -> WP (l_ts l) k (l_short l);
  og_del : forall k l, lock_at s k = Some l -> l_type l = OpDelete -> WD (l_ts l) k;
  og_data : forall k t v, data_at s k t = Some v -> WP t k v;
  og_put : forall k t w, write_at s k t = Some w -> w_op w = OpPut -> w_short w <> [] -> WP (w_start w) k (w_short w);
  og_wdel : forall k t w, write_at s k t = Some w -> w_op w = OpDelete -> WD (w_start w) k }.

(** requests other than prewrite and pessimistic lock only move values about *)
Lemma origin_move r a s s' : (forall p, r <> RPrewrite p) -> (forall p, r <> RPessLock p) -> origin s ->
  (forall k t v, data_at s' k t = Some v -> data_at s k t = Some v) ->
  (forall k, kmove r a s s' k) -> origin s'.
Proof.
  intros N1 N2 [A B C D E] DT M. constructor; [| |intros k t v Q; apply C; apply DT; auto| |].
  - intros k l' Q S. destruct (M k) as
      [ L W DD
      | l0 l L0 L IT E1 E2 E3 E4 E5 E6 E7 E8 E9 E10 W DD
      | p l E0 L E1 E2 E3 WF X W DD
      | p l E0 L E1 E2 WF X W DD DN
      | st fut keys l0 E0 L0 E1 E2 E3 IK L W DD
      | ct l0 IC L0 T LT L MC W DD
      | p w E0 X N3 N4 E1 E2 L W DD DN
      | l0 L0 IT L W DD TT TY
      | st IT NH L NCM NR W DD ]; try (rewrite L in Q; auto; fail); try congruence; try (exfalso; eapply N1; eauto; fail); try (exfalso; eapply N2; eauto; fail).
    rewrite L in Q. inversion Q; subst l'. rewrite E1, E3. apply A; auto. congruence.
  - intros k l' Q S. destruct (M k) as
      [ L W DD
      | l0 l L0 L IT E1 E2 E3 E4 E5 E6 E7 E8 E9 E10 W DD
      | p l E0 L E1 E2 E3 WF X W DD
      | p l E0 L E1 E2 WF X W DD DN
      | st fut keys l0 E0 L0 E1 E2 E3 IK L W DD
      | ct l0 IC L0 T LT L MC W DD
      | p w E0 X N3 N4 E1 E2 L W DD DN
      | l0 L0 IT L W DD TT TY
      | st IT NH L NCM NR W DD ]; try (rewrite L in Q; auto; fail); try congruence; try (exfalso; eapply N1; eauto; fail); try (exfalso; eapply N2; eauto; fail).
    rewrite L in Q. inversion Q; subst l'. rewrite E1. apply B; auto. congruence.
  - intros k t w' Q O S. destruct (M k) as
      [ L W DD
      | l0 l L0 L IT E1 E2 E3 E4 E5 E6 E7 E8 E9 E10 W DD
      | p l E0 L E1 E2 E3 WF X W DD
      | p l E0 L E1 E2 WF X W DD DN
      | st fut keys l0 E0 L0 E1 E2 E3 IK L W DD
      | ct l0 IC L0 T LT L MC W DD
      | p w E0 X N3 N4 E1 E2 L W DD DN
      | l0 L0 IT L W DD TT TY
      | st IT NH L NCM NR W DD ]; try (rewrite (W t) in Q; eauto; fail); try congruence; try (exfalso; eapply N1; eauto; fail); try (exfalso; eapply N2; eauto; fail);
      destruct W as [Wa Wb].
    + destruct (Z.eq_dec t ct) as [->|N]; [|rewrite Wb in Q by auto; eauto].
      rewrite Wa in Q. inversion Q; subst w'. cbn [w_start w_short w_op] in *. apply A; auto.
    + destruct (Z.eq_dec t (l_ts l0)) as [->|N]; [|rewrite Wb in Q by auto; eauto]. rewrite Wa in Q. inversion Q; subst w'. discriminate.
    + destruct (Z.eq_dec t st) as [->|N]; [|rewrite Wb in Q by auto; eauto]. rewrite Wa in Q. inversion Q; subst w'. discriminate.
  - intros k t w' Q O. destruct (M k) as
      [ L W DD
      | l0 l L0 L IT E1 E2 E3 E4 E5 E6 E7 E8 E9 E10 W DD
      | p l E0 L E1 E2 E3 WF X W DD
      | p l E0 L E1 E2 WF X W DD DN
      | st fut keys l0 E0 L0 E1 E2 E3 IK L W DD
      | ct l0 IC L0 T LT L MC W DD
      | p w E0 X N3 N4 E1 E2 L W DD DN
      | l0 L0 IT L W DD TT TY
      | st IT NH L NCM NR W DD ]; try (rewrite (W t) in Q; eauto; fail); try congruence; try (exfalso; eapply N1; eauto; fail); try (exfalso; eapply N2; eauto; fail);
      destruct W as [Wa Wb].
    + destruct (Z.eq_dec t ct) as [->|N]; [|rewrite Wb in Q by auto; eauto].
      rewrite Wa in Q. inversion Q; subst w'. cbn [w_start w_short w_op] in *. apply B; auto.
    + destruct (Z.eq_dec t (l_ts l0)) as [->|N]; [|rewrite Wb in Q by auto; eauto]. rewrite Wa in Q. inversion Q; subst w'. discriminate.
    + destruct (Z.eq_dec t st) as [->|N]; [|rewrite Wb in Q by auto; eauto]. rewrite Wa in Q. inversion Q; subst w'. discriminate.
Qed.

(** batches whose operations carry only known values *)
Definition known (s : store) (o : wop) : Prop :=
  match o with
  | PutData k t v => WP t k v
  | PutLock k l => (l_short l <> [] -> WP (l_ts l) k (l_short l)) /\ (l_type l = OpDelete -> WD (l_ts l) k)
  | PutWrite k t w => (w_op w = OpPut -> w_short w <> [] -> WP (w_start w) k (w_short w)) /\ (w_op w = OpDelete -> WD (w_start w) k)
  | _ => True
  end.
Lemma origin_batch s b : store_ok s -> origin s -> (forall o, In o b -> known s o) -> origin (apply_batch s b).
Proof.
  intros H [A B C D E] K. constructor.
  - intros k l Q S. destruct (batch_lock b s k H) as [(l1 & I1 & G)|[(I1 & G)|(_ & _ & G)]]; rewrite G in Q; [|discriminate|auto].
    inversion Q; subst. apply (K _ I1); auto.
  - intros k l Q S. destruct (batch_lock b s k H) as [(l1 & I1 & G)|[(I1 & G)|(_ & _ & G)]]; rewrite G in Q; [|discriminate|auto].
    inversion Q; subst. apply (K _ I1); auto.
  - intros k t v Q. destruct (batch_data b s k t H) as [(v1 & I1 & G)|[(I1 & G)|(_ & _ & G)]]; rewrite G in Q; [|discriminate|auto].
    inversion Q; subst. apply (K _ I1).
  - intros k t w Q O S. destruct (batch_write b s k t H) as [(w1 & I1 & G)|[(I1 & G)|(_ & _ & G)]]; rewrite G in Q; [|discriminate|eauto].
    inversion Q; subst. apply (K _ I1); auto.
  - intros k t w Q O. destruct (batch_write b s k t H) as [(w1 & I1 & G)|[(I1 & G)|(_ & _ & G)]]; rewrite G in Q; [|discriminate|eauto].
    inversion Q; subst. apply (K _ I1); auto.
Qed.
End Origin.

(** only prewrites write data *)
Definition no_pd (bs : list batch) : Prop := forall b k t v, In b bs -> ~ In (PutData k t v) b.
Lemma no_pd_nil : no_pd []. Proof. intros b k t v []. Qed.
Lemma no_pd_app x y : no_pd x -> no_pd y -> no_pd (x ++ y).
Proof. intros A B b k t v Q. apply in_app_iff in Q. destruct Q; eauto. Qed.
Lemma no_pd_commit st ct ls : no_pd (do_commit st ct ls).
Proof.
  unfold do_commit. destruct ls as [|l0 lr] eqn:E; [apply no_pd_nil|]. rewrite <- E. intros b k t v [<-|[]] Q.
  apply in_commit_batch in Q. destruct Q as [(l & _ & _ & Q)|(l & _ & Q)]; discriminate.
Qed.
Lemma no_pd_rollback st a b c : no_pd (do_rollback st a b c).
Proof.
  rewrite do_rollback_eq. destruct (_ ++ _); [apply no_pd_nil|]. intros bb k t v [<-|[]] Q.
  apply in_rb_batch in Q. destruct Q as [(? & _ & Q)|[(? & _ & Q)|(? & _ & Q)]]; discriminate.
Qed.
Lemma no_pd_one o : (forall k t v, o <> PutData k t v) -> no_pd [[o]].
Proof. intros N b k t v [<-|[]] [Q|[]]. eapply N; eauto. Qed.
Lemma no_pd_resolve st ct ls : no_pd (resolve_batches st ct ls).
Proof. unfold resolve_batches. destruct (0 <? ct); [apply no_pd_commit|apply no_pd_rollback]. Qed.

Lemma handle_no_pd c s mx r a bs : store_ok s -> (forall p, r <> RPrewrite p) -> handle c s mx r = Ok (a, bs) -> no_pd bs.
Proof.
  intros H N. unfold handle. destruct (validate r) as [e|]; [intros X; apply Ok_inj in X; inversion X; apply no_pd_nil|].
  destruct (existsb _ _); [discriminate|].
  assert (NO : forall x, Ok (x, @nil batch) = Ok (a, bs) -> no_pd bs) by (intros x X; apply Ok_inj in X; inversion X; apply no_pd_nil).
  destruct r as [p|st ct keys|st keys|p|st fut keys|k lk cl cu fs rm|st keys|st ct keys txns|k st adv].
  - exfalso. eapply N; eauto.
  - unfold commit. destruct (_ <? _); [apply NO|]. destruct (_ <=? _); [apply NO|].
    destruct (commit_loop_ok s st ct H keys []) as (o & ->). cbn [obind]. destruct o; [apply NO|].
    intros X; apply Ok_inj in X; inversion X; subst. apply no_pd_commit.
  - unfold batch_rollback. destruct (_ <? _); [apply NO|].
    destruct (rollback_loop_ok s st H keys (mkRb [] [] [])) as (o & ->). cbn [obind]. destruct o; [apply NO|].
    intros X; apply Ok_inj in X; inversion X; subst. apply no_pd_rollback.
  - unfold pessimistic_lock. destruct (_ <? _); [apply NO|]. destruct (pess_loop _ _ _ _); [apply NO|].
    destruct (negb _); [apply NO|]. intros X; apply Ok_inj in X; inversion X; subst. unfold lock_batch.
    destruct (pa_locks p0) as [|x xs] eqn:E; [apply no_pd_nil|]. rewrite <- E. intros b k t v [<-|[]] Q. apply put_locks_in in Q.
    destruct Q as (? & ? & _ & Q). discriminate.
  - unfold pessimistic_rollback. destruct (_ <? _); [apply NO|]. destruct (pess_rollback_loop _ _ _ _ _ _) as [res dels].
    destruct (negb _); [apply NO|]. destruct dels as [|x xs] eqn:E; [apply NO|]. rewrite <- E.
    intros X; apply Ok_inj in X; inversion X; subst a bs. intros b k t v [<-|[]] Q. apply in_map_iff in Q. destruct Q as (? & Q & _). discriminate.
  - unfold check_status. destruct (_ =? _).
    + destruct (negb _); [apply NO|]. destruct (l_async (get_lock s k) && negb fs); [apply NO|]. destruct (negb (op_eqb (l_type (get_lock s k)) OpLock) && negb (writable_type (l_type (get_lock s k)))); [apply NO|].
      cbv zeta. destruct (_ <=? _).
      * destruct (_ <? _); [|apply NO]. intros X; apply Ok_inj in X; inversion X; subst. apply no_pd_one. discriminate.
      * intros X; apply Ok_inj in X; inversion X; subst. destruct (beqb _ _); apply no_pd_rollback.
    + destruct (get_rollback_ok s lk k H) as (b & -> & _). cbn [obind]. destruct b; [apply NO|]. cbv zeta. destruct (_ =? _); [|apply NO].
      destruct rm; [|apply NO]. intros X; apply Ok_inj in X; inversion X; subst. apply no_pd_one. discriminate.
  - unfold check_secondary. destruct (_ <? _); [apply NO|]. generalize (@nil lock).
    induction keys as [|key keys IH]; intros acc; cbn [secondary_loop]; [apply NO|].
    destruct (_ =? _); [destruct (negb _); [apply NO|apply IH; discriminate]|].
    destruct (get_rollback_ok s st key H) as (b & -> & _). cbn [obind]. destruct b; [apply NO|]. destruct (_ =? _); [|apply NO].
    intros X; apply Ok_inj in X; inversion X; subst. apply no_pd_one. discriminate.
  - unfold resolve_lock. destruct (_ <? _); [apply NO|]. destruct keys as [|key keys].
    + destruct (existsb _ _); [apply NO|]. intros X; apply Ok_inj in X. destruct (batch_resolve c s txns) as [r1 b1] eqn:E. inversion X; subst.
      clear -E. revert s a bs E. induction txns as [|[x y] txns IH]; intros s a bs; cbn [batch_resolve]; [intros Q; inversion Q; apply no_pd_nil|].
      destruct (first_bad _); [intros Q; inversion Q; apply no_pd_nil|].
      destruct (batch_resolve c _ txns) as [r2 b2] eqn:E2. intros Q; inversion Q; subst. apply no_pd_app; [apply no_pd_resolve|eapply IH; eauto].
    + destruct (bad_commit _); [apply NO|]. destruct (resolve_loop _ _ _ _); [apply NO|].
      intros X; apply Ok_inj in X; inversion X; subst. apply no_pd_resolve.
  - unfold heartbeat. destruct (negb _); [apply NO|]. destruct (negb _); [apply NO|]. destruct (_ <=? _); [apply NO|].
    intros X; apply Ok_inj in X; inversion X; subst. apply no_pd_one. discriminate.
Qed.

Lemma origin_moves WP WD r a : (forall p, r <> RPrewrite p) -> (forall p, r <> RPessLock p) -> forall bs s, store_ok s ->
  no_pd bs -> moves r a s bs -> origin WP WD s -> origin WP WD (apply_batches s bs).
Proof.
  intros N1 N2. induction bs as [|b bs IH]; intros s H ND M O; simpl; auto. destruct M as (M1 & M2 & M3).
  apply IH; auto.
  - apply apply_batch_ok; auto.
  - intros b0 k t v Q. apply ND. right; auto.
  - eapply origin_move; [exact N1|exact N2|exact O| |exact M2].
    intros k t v Q. destruct (batch_data b s k t H) as [(v1 & I1 & G)|[(I1 & G)|(_ & _ & G)]]; rewrite G in Q; [|discriminate|auto].
    exfalso. eapply ND; [left; reflexivity|exact I1].
Qed.

Lemma firstn_incl {A} n (l : list A) x : In x (firstn n l) -> In x l.
Proof. revert l. induction n; intros [|y l]; simpl; auto; try tauto. intros [->|Q]; auto. Qed.

Lemma origin_run c P all : plan_ok P -> forall g es g', run c P g es g' -> incl es all -> rinv P g ->
  origin (asked_put all) (asked_delete all) (rg_store g) -> origin (asked_put all) (asked_delete all) (rg_store g').
Proof.
  intros HP g es g' R. induction R as [g|g e g1 es g2 A S R IH]; intros IN I O; auto.
  destruct (step_inv _ _ _ _ _ HP I A S) as (I1 & _).
  assert (IN' : incl es all) by (intros x X; apply IN; right; auto).
  assert (IE : In e all) by (apply IN; left; auto).
  apply IH; auto. clear IH R. destruct e as [r n|t| |sp|st ct|n]; cbn [step] in S.
  - destruct (serve c g r) as [[a bs]|] eqn:E; cbn [obind] in S; [|discriminate]. apply Ok_inj in S; subst g1.
    cbn [snd with_store bump rg_store].
    assert (H : store_ok (rg_store g)) by apply I.
    assert (MV : moves r a (rg_store g) (firstn n bs)) by (apply moves_firstn; eapply serve_moves; eauto).
    destruct r as [p| | |p| | | | | ] eqn:Er.
    + (* prewrite *)
      assert (L1 : (length bs <= 1)%nat).
      { unfold serve in E. apply (handle_one _ _ _ _ _ _ E). intros (x1 & x2 & x3 & x4 & X). discriminate. }
      destruct bs as [|b [|b' bs]]; [destruct n; exact O| |simpl in L1; lia].
      destruct n as [|n]; [exact O|]. replace (firstn (S n) [b]) with [b] by (destruct n; reflexivity). simpl.
      apply origin_batch; auto. intros o Ho. unfold serve, handle in E.
      destruct (validate _); [apply Ok_inj in E; inversion E|]. destruct (existsb _ _); [discriminate|].
      assert (F := prewrite_from _ _ _ _ _ _ H E b o (or_introl eq_refl) Ho).
      assert (PI : forall k v, put_in p k v -> asked_put all (pw_start p) k v).
      { intros k v (o' & Q1 & Q2). exists p, (S n), o'. auto. }
      assert (DI : forall k, del_in p k -> asked_delete all (pw_start p) k).
      { intros k (v & Q1). exists p, (S n), v. auto. }
      destruct o as [k l|k t w|k t v|k|k t|k t]; simpl in *; auto.
      * destruct F as (F1 & F2 & F3). rewrite F1. split; [|auto]. intros Q. destruct (F2 Q) as [F|(l0 & G1 & G2 & G3)]; auto.
        rewrite G3, <- G2. apply (og_short _ _ _ O _ _ G1). congruence.
      * destruct F as (F1 & F2 & F3). rewrite F1. auto.
      * destruct F as (F1 & F2). subst t. auto.
    + apply origin_moves with (r := r) (a := a); subst r; auto; try discriminate. unfold serve in E.
      intros b k t v Q. refine (handle_no_pd _ _ _ _ _ _ H _ E b k t v (firstn_incl _ _ _ Q)); discriminate.
    + apply origin_moves with (r := r) (a := a); subst r; auto; try discriminate. unfold serve in E.
      intros b k t v Q. refine (handle_no_pd _ _ _ _ _ _ H _ E b k t v (firstn_incl _ _ _ Q)); discriminate.
    + (* pessimistic lock *)
      assert (L1 : (length bs <= 1)%nat).
      { unfold serve in E. apply (handle_one _ _ _ _ _ _ E). intros (x1 & x2 & x3 & x4 & X). discriminate. }
      destruct bs as [|b [|b' bs]]; [destruct n; exact O| |simpl in L1; lia].
      destruct n as [|n]; [exact O|]. replace (firstn (S n) [b]) with [b] by (destruct n; reflexivity). simpl.
      apply origin_batch; auto. unfold serve, handle in E.
      destruct (validate _); [apply Ok_inj in E; inversion E|]. destruct (existsb _ _); [discriminate|].
      unfold pessimistic_lock in E. destruct (_ <? _); [apply Ok_inj in E; inversion E|]. destruct (pess_loop _ _ _ _) as [e0|x] eqn:PL; [apply Ok_inj in E; inversion E|].
      destruct (negb _); [apply Ok_inj in E; inversion E|]. apply Ok_inj in E. inversion E as [[X1 X2]]. clear E X1.
      assert (SH := pess_loop_short (rg_store g) p H _ _ _ PL ltac:(simpl; tauto)).
      unfold lock_batch in X2. destruct (pa_locks x) as [|q qs] eqn:EQ; [discriminate|]. rewrite <- EQ in *. inversion X2; subst b. clear X2.
      intros o Ho. apply put_locks_in in Ho. destruct Ho as (k & l & Q & ->). simpl.
      split.
      * intros NE. destruct (SH k l Q) as [X|(l0 & G1 & G2 & G3)]; [contradiction|]. rewrite G3, <- G2. apply (og_short _ _ _ O _ _ G1). congruence.
      * intros T. exfalso. assert (M2 := proj1 (proj2 MV) k). clear -T Q PL.
        assert (TY : forall ms x y, pess_loop (rg_store g) p ms x = inr y -> (forall k l, In (k, l) (pa_locks x) -> l_type l = OpLock) ->
           forall k l, In (k, l) (pa_locks y) -> l_type l = OpLock).
        { clear. induction ms as [|m ms IH]; intros x y; cbn [pess_loop]; [intros X; inversion X; auto|].
          destruct (negb _); [discriminate|].
          destruct (has_lock _).
          - destruct (_ =? _); [intros X A; exact (IH _ _ X A)|]. destruct (_ =? _); [|intros X A; exact (IH _ _ X A)].
            destruct (_ =? _); [intros X A; exact (IH _ _ X A)|]. destruct (_ <? _); [|intros X A; exact (IH _ _ X A)].
            intros X A. apply (IH _ _ X). cbn [pa_locks]. intros k l. rewrite in_snoc. intros [Q|Q]; eauto. inversion Q; reflexivity.
          - destruct (_ <=? _); [intros X A; exact (IH _ _ X A)|].
            intros X A. apply (IH _ _ X). cbn [pa_locks]. intros k l. rewrite in_snoc. intros [Q|Q]; eauto. inversion Q; reflexivity. }
        assert (X := TY _ _ _ PL ltac:(simpl; tauto) k l Q). congruence.
    + apply origin_moves with (r := r) (a := a); subst r; auto; try discriminate. unfold serve in E.
      intros b k t v Q. refine (handle_no_pd _ _ _ _ _ _ H _ E b k t v (firstn_incl _ _ _ Q)); discriminate.
    + apply origin_moves with (r := r) (a := a); subst r; auto; try discriminate. unfold serve in E.
      intros b k t v Q. refine (handle_no_pd _ _ _ _ _ _ H _ E b k t v (firstn_incl _ _ _ Q)); discriminate.
    + apply origin_moves with (r := r) (a := a); subst r; auto; try discriminate. unfold serve in E.
      intros b k t v Q. refine (handle_no_pd _ _ _ _ _ _ H _ E b k t v (firstn_incl _ _ _ Q)); discriminate.
    + apply origin_moves with (r := r) (a := a); subst r; auto; try discriminate. unfold serve in E.
      intros b k t v Q. refine (handle_no_pd _ _ _ _ _ _ H _ E b k t v (firstn_incl _ _ _ Q)); discriminate.
    + apply origin_moves with (r := r) (a := a); subst r; auto; try discriminate. unfold serve in E.
      intros b k t v Q. refine (handle_no_pd _ _ _ _ _ _ H _ E b k t v (firstn_incl _ _ _ Q)); discriminate.
  - apply Ok_inj in S; subst g1. exact O.
  - apply Ok_inj in S; subst g1. exact O.
  - apply Ok_inj in S; subst g1. exact O.
  - destruct A.
  - destruct (nth_error (rg_pool g) n) as [b|] eqn:E; apply Ok_inj in S; subst g1; auto.
    cbn. apply nth_error_In in E. destruct I as [H K D PO]. apply origin_batch; auto. intros o Ho.
    destruct (PO b o E Ho) as [(k0 & t & -> & _)|(k0 & st & -> & _)]; exact Logic.I.
Qed.

Lemma written_by c P es g k t w : plan_ok P -> run c P init_region es g -> write_at (rg_store g) k t = Some w ->
  (w_op w = OpPut /\ exists v, value_of (rg_store g) k w v /\ asked_put es (w_start w) k v) \/
  (w_op w = OpDelete /\ asked_delete es (w_start w) k) \/
  w_op w = OpRollback.
Proof.
  intros HP R W.
  assert (RE : reachable c P g) by (exists es; auto).
  destruct (reachable_values _ _ _ HP RE) as (H & V & _).
  assert (O : origin (asked_put es) (asked_delete es) (rg_store g)).
  { eapply origin_run; [exact HP|exact R|apply incl_refl|apply reachable_inv with (c := c); auto; exists []; constructor|].
    constructor; simpl; discriminate. }
  destruct (ok_write _ H _ _ _ W) as (_ & [(X & _)|([X|X] & _)]); auto.
  - left. split; auto. destruct (w_short w) as [|z zs] eqn:E.
    + destruct (V k t w W X E) as (v & N & D). exists v. split; [right; auto|]. apply (og_data _ _ _ O _ _ _ D).
    + exists (w_short w). split; [left; split; [auto|congruence]|]. apply (og_put _ _ _ O _ _ _ W X). congruence.
  - right; left. split; auto. apply (og_wdel _ _ _ O _ _ _ W X).
Qed.

Lemma value_of_unique s k w v v' : value_of s k w v -> value_of s k w v' -> v = v'.
Proof. intros [(A & A')|(A & A')] [(B & B')|(B & B')]; congruence. Qed.

Lemma read_asked c P es g i ts rs k v : plan_ok P -> run c P init_region es g -> ts <= kMaxVer ->
  get_key (rg_store g) i ts rs k = RdVal v ->
  (v <> [] /\ exists t w, newest (rg_store g) i ts k t w /\ w_op w = OpPut /\ asked_put es (w_start w) k v) \/
  (v = [] /\ ((exists t w, newest (rg_store g) i ts k t w /\ asked_delete es (w_start w) k) \/ nothing_visible (rg_store g) i ts k)).
Proof.
  intros HP R LT G. assert (RE : reachable c P g) by (exists es; auto).
  destruct (reachable_values _ _ _ HP RE) as (H & V & _).
  destruct (get_key_spec (rg_store g) i ts rs k H V LT) as [(l & E & _)|(v0 & E & N & RD)]; [congruence|].
  assert (v0 = v) by congruence; subst v0.
  destruct RD as [(t & w & NW & O & VO)|[(t & w & NW & O & ->)|(NV & ->)]].
  - left. destruct (written_by c P es g k t w HP R (proj1 NW)) as [(_ & v' & V1 & V2)|[(X & _)|X]]; try congruence.
    assert (v' = v) by (eapply value_of_unique; eauto). subst v'. split; [|exists t, w; auto].
    destruct VO as [[_ VO]|[VO1 VO2]]; auto. destruct (V k t w (proj1 NW) O VO1) as (v' & N' & D'). congruence.
  - right. split; auto. left. exists t, w. split; auto.
    destruct (written_by c P es g k t w HP R (proj1 NW)) as [(X & _)|[(_ & X)|X]]; congruence.
  - right. auto.
Qed.

(** * Reads of reachable regions *)
Lemma get_of_reachable c P g i ts rs k : plan_ok P -> reachable c P g -> ts <= kMaxVer ->
  match get_key (rg_store g) i ts rs k with
  | RdVal v => no_conflict (rg_store g) i ts rs k /\ reads (rg_store g) i ts k v
  | RdConflict l => lock_at (rg_store g) k = Some l /\ conflicting i ts rs l
  | RdErr => False
  end.
Proof.
  intros HP RE LT. destruct (reachable_values _ _ _ HP RE) as (H & V & _).
  destruct (get_key_spec (rg_store g) i ts rs k H V LT) as [(l & -> & A)|(v & -> & A)]; auto.
Qed.

Lemma batch_get_of_reachable c P g i ts rs keys kvs e : plan_ok P -> reachable c P g -> ts <= kMaxVer ->
  batch_get (rg_store g) i ts rs keys [] = (kvs, e) ->
  Forall2 (fun k kv => fst kv = k /\ no_conflict (rg_store g) i ts rs k /\ reads (rg_store g) i ts k (snd kv))
          (firstn (length kvs) keys) kvs /\
  match e with
  | RdVal _ => length kvs = length keys
  | RdConflict l => exists k, nth_error keys (length kvs) = Some k /\ lock_at (rg_store g) k = Some l /\ conflicting i ts rs l
  | RdErr => False
  end.
Proof.
  intros HP RE LT. destruct (reachable_values _ _ _ HP RE) as (H & V & _). apply batch_get_spec; auto.
Qed.

(** a scan in pages, told by its complete result *)
Lemma pages_of_reachable c P g i ts rs a b limit full ps : plan_ok P -> reachable c P g -> a <> [] ->
  (forall p, In p ps -> same_values (rg_store g) (snd p)) ->
  exists pages kvs oc n, scan_pages (rg_store g) i ts rs a b limit full ps = Ok pages /\
    match oc with None => full_scan (rg_store g) i ts rs a b kvs | Some l => stopped_scan (rg_store g) i ts rs a b kvs l end /\
    concat (map pg_kvs pages) = firstn n kvs /\
    (forall p, In p pages -> pg_err p = false /\ (pg_more p = true -> pg_kvs p <> [] \/ pg_conf p <> None) /\
       (pg_more p = false \/ pg_conf p <> None -> concat (map pg_kvs pages) = kvs /\ pg_conf p = oc)) /\
    ((length pages <= length ps)%nat -> exists p, In p pages /\ (pg_more p = false \/ pg_conf p <> None)).
Proof.
  intros HP RE NA SV. destruct (reachable_values _ _ _ HP RE) as (H & V & B).
  assert (X := sRows_spec (rg_store g) i ts rs a b H V (fun _ => B) NA).
  destruct (scan_pages_spec (rg_store g) i ts rs a b H V (fun _ => B) NA limit full ps SV) as (pages & n & E & C & L & F & T).
  exists pages, (fst (sRows (rg_store g) i ts rs a b)), (snd (sRows (rg_store g) i ts rs a b)), n.
  split; [auto|split; [auto|split; [auto|split; [|auto]]]].
  intros p Ip. destruct (F p Ip) as (F1 & F2 & F3). split; [auto|split; [auto|]]. intros Q. destruct (F3 Q) as [F4 F5]. split; auto.
  rewrite C, F4. apply firstn_all.
Qed.

Lemma length_put {K V} cmp (m : smap K V) k v : (length (put cmp m k v) <= S (length m))%nat.
Proof. induction m as [|[k0 v0] m IH]; simpl; auto. destruct (cmp k k0); simpl; lia. Qed.

Lemma filter_le {A} (f : A -> bool) l : (length (filter f l) <= length l)%nat.
Proof. induction l as [|x l IH]; simpl; auto. destruct (f x); simpl; lia. Qed.

Lemma sRows_short s i ts rs a b : (length (fst (sRows s i ts rs a b)) <= length (locks s) + length (writes s))%nat.
Proof.
  unfold sRows, sR.
  refine (Nat.le_trans _ _ _ (rows_le _ _ _ _ _ _) (Nat.le_trans _ _ _ (filter_le _ _) _)).
  unfold all_keys. rewrite map_length.
  replace (length (locks s) + length (writes s))%nat with (length (map fst (locks s) ++ map (fun e => fst (fst e)) (writes s)))
    by (rewrite app_length, !map_length; auto).
  induction (map fst (locks s) ++ map (fun e => fst (fst e)) (writes s)) as [|x l IH]; simpl; auto.
  refine (Nat.le_trans _ _ _ (length_put _ _ _ _) _). lia.
Qed.

Lemma scan_of_reachable c P g i ts rs a b limit : plan_ok P -> reachable c P g -> a <> [] ->
  Z.of_nat (length (locks (rg_store g)) + length (writes (rg_store g))) < limit ->
  exists p x, scan_first (rg_store g) i ts rs false limit (fun _ => false) a b = Ok (p, x) /\ pg_err p = false /\
    match pg_conf p with
    | None => full_scan (rg_store g) i ts rs a b (pg_kvs p) /\ pg_more p = false
    | Some l => stopped_scan (rg_store g) i ts rs a b (pg_kvs p) l
    end.
Proof.
  intros HP RE NA LI. destruct (reachable_values _ _ _ HP RE) as (H & V & B).
  assert (X := sRows_spec (rg_store g) i ts rs a b H V (fun _ => B) NA).
  assert (SH : forall l, map (shown false) l = l) by (induction l as [|[? ?] l IHl]; simpl; [auto|rewrite IHl; auto]).
  destruct (scan_first_spec (rg_store g) i ts rs a b H V (fun _ => B) NA false limit (fun _ => false))
    as (p & ox & n & A1 & A2 & A3 & A4 & A5 & A6 & A7 & A8 & _ & A9). rewrite SH in A3.
  destruct A9 as (E1 & E2 & E3).
  { intros m [_ M]. unfold stop. rewrite orb_false_r. apply Z.leb_gt.
    assert (Q := sRows_short (rg_store g) i ts rs a b). lia. }
  exists p, ox. split; [auto|split; [auto|]]. rewrite E1, firstn_all in A3. rewrite E2, A3.
  destruct (snd (sRows (rg_store g) i ts rs a b)); auto.
Qed.

Lemma page_limit c P g i ts rs a b limit full p x : plan_ok P -> reachable c P g -> a <> [] -> 0 < limit ->
  scan_first (rg_store g) i ts rs false limit full a b = Ok (p, x) -> Z.of_nat (length (pg_kvs p)) <= limit.
Proof.
  intros HP RE NA LI E. destruct (reachable_values _ _ _ HP RE) as (H & V & B).
  destruct (scan_first_spec (rg_store g) i ts rs a b H V (fun _ => B) NA false limit full)
    as (p' & ox & n & A1 & A2 & A3 & A4 & A5 & A6 & A7 & A8 & A9 & _).
  rewrite A1 in E. apply Ok_inj in E. inversion E; subst p' ox. rewrite A3, map_length.
  destruct n as [|n]; [simpl; lia|]. rewrite firstn_length, Nat.min_l by auto.
  destruct n as [|n]; [lia|]. specialize (A9 (S n) ltac:(lia)). unfold stop in A9. apply orb_false_iff in A9. destruct A9 as [A9 _].
  apply Z.leb_gt in A9. lia.
Qed.

(** * Lock scans of reachable regions *)
Lemma lock_scan_reachable c P g lo hi limit full a b got rest : plan_ok P -> reachable c P g ->
  scan_lock_page lo hi limit full (scan_lock_init (rg_store g) a b) = (got, false, rest) ->
  locks_between (rg_store g) lo hi a b got.
Proof. intros HP RE E. destruct (reachable_values _ _ _ HP RE) as (H & _ & _). eapply scan_lock_all; eauto. Qed.

Lemma lock_pages_reachable c P g lo hi a b ps pages : plan_ok P -> reachable c P g ->
  scan_lock_pages (rg_store g) lo hi a b ps = (pages, true) ->
  exists p0 rest, pages = p0 :: rest /\ locks_between (rg_store g) lo hi a b (p0 ++ concat (map (@tl lock) rest)).
Proof.
  intros HP RE E. destruct (reachable_values _ _ _ HP RE) as (H & _ & _).
  destruct (lock_pages_spec lo hi ps _ _ E (or_intror I)) as (p0 & rest & E1 & W). exists p0, rest. split; auto.
  rewrite <- W. apply wanted_between; auto.
Qed.

Lemma store_chosen_reachable c P g p n a bs k ts : plan_ok P -> reachable c P g -> 0 <= ts <= rg_max g ->
  allowed c P g (EReq (RPrewrite p) n) -> serve c g (RPrewrite p) = Ok (a, bs) ->
  (forall ct, committed (apply_batches (rg_store g) bs) k (pw_start p) ct -> ~ committed (rg_store g) k (pw_start p) ct -> ts < ct) /\
  (forall l, lock_at (apply_batches (rg_store g) bs) k = Some l -> l_async l = true ->
     (forall l0, lock_at (rg_store g) k = Some l0 -> l_async l0 = false) -> ts < l_minc l).
Proof. intros HP RE. apply store_chosen; auto. apply reachable_inv with (c := c); auto. Qed.
