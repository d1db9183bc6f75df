(** Proofs of the transaction theorems, part 2: what single requests do. *)
From Coq Require Import ZArith List Lia Bool.
From Verif Require Import Bytes SMap Outcome TxnModel TxnSpec TxnBase TxnMoves TxnHandlers TxnHandlers2 TxnHandlers3 TxnInv TxnRun.
Import ListNotations.
Open Scope Z_scope.

Ltac ok_reply X := apply Ok_inj in X; inversion X; subst; clear X.

Lemma is_nil_iff {A} (l : list A) : is_nil l = true <-> l = [].
Proof. destruct l; simpl; split; congruence. Qed.

(** * C10 *)
Lemma rejected_no_effect c s mx r a bs : keyed r -> handle c s mx r = Ok (a, bs) -> ~ succeeded a -> bs = [].
Proof.
  intros K X N. unfold handle in X. destruct (validate r) eqn:V; [ok_reply X; auto|].
  destruct (existsb _ _); [discriminate|].
  assert (S0 : succeeded resp0) by (split; [reflexivity|split; reflexivity]).
  destruct r as [p|st ct keys|st keys|p|st fut keys|k lk cl cu fs rm|st keys|st ct keys txns|k st adv];
    try (destruct K; fail).
  - unfold prewrite in X. destruct (_ <? _); [ok_reply X; auto|]. destruct (_ && _); [ok_reply X; auto|].
    destruct (prewrite_loop _ _ _ _ _ _ _) as [[a'|ct' a'|e]|]; cbn [obind] in X;
      [| | |discriminate]; try (ok_reply X; auto; fail).
    destruct (is_nil (a_res a')) eqn:E1; simpl in X; [|ok_reply X; auto].
    destruct (is_nil (a_exist a')) eqn:E2; simpl in X; [|ok_reply X; auto].
    apply is_nil_iff in E1, E2. destruct (a_try1 a'); ok_reply X.
    + exfalso. apply N. split; [reflexivity|split; reflexivity].
    + exfalso. apply N. split; [reflexivity|split; simpl; auto].
  - unfold commit in X. destruct (_ <? _); [ok_reply X; auto|]. destruct (_ <=? _); [ok_reply X; auto|].
    destruct (commit_loop _ _ _ _ _) as [[t|ls]|]; cbn [obind] in X; [| |discriminate]; ok_reply X; auto.
    contradiction.
  - unfold batch_rollback in X. destruct (_ <? _); [ok_reply X; auto|].
    destruct (rollback_loop _ _ _ _) as [[t|ls]|]; cbn [obind] in X; [| |discriminate]; ok_reply X; auto.
    contradiction.
  - unfold pessimistic_lock in X. destruct (_ <? _); [ok_reply X; auto|].
    destruct (pess_loop _ _ _ _) as [e|y]; [ok_reply X; auto|].
    destruct (is_nil (pa_res y)) eqn:E1; simpl in X; ok_reply X; auto. apply is_nil_iff in E1.
    exfalso. apply N. split; [reflexivity|split; simpl; auto].
  - unfold pessimistic_rollback in X. destruct (_ <? _); [ok_reply X; auto|].
    destruct (pess_rollback_loop _ _ _ _ _ _) as [res dels].
    destruct (negb _); [ok_reply X; auto|]. destruct dels; ok_reply X; auto. contradiction.
  - unfold resolve_lock in X. destruct (_ <? _); [ok_reply X; auto|].
    destruct keys as [|k0 keys]; [destruct K; reflexivity|].
    destruct (bad_commit _); [ok_reply X; auto|]. destruct (resolve_loop _ _ _ _); ok_reply X; auto. contradiction.
  - unfold heartbeat in X. destruct (negb _); [ok_reply X; auto|]. destruct (negb _); [ok_reply X; auto|].
    destruct (_ <=? _); ok_reply X; auto. exfalso. apply N. split; [reflexivity|split; reflexivity].
Qed.

Lemma same_store_refl s : same_store s s.
Proof. split; [|split]; auto. Qed.

(** * C13 *)
Lemma kmove_other r a s s' k l : lock_at s k = Some l -> ~ In (l_ts l) (txns_of r) -> kmove r a s s' k ->
  lock_at s' k = Some l.
Proof.
  intros E N M. destruct M as
      [ L W D
      | l0 l' L0 L IT E1 E2 E3 E4 E5 E6 E7 E8 E9 E10 W D
      | p l' E' L E1 E2 E3 WF X W D
      | p l' E' L E1 E2 WF X W D DN
      | st' fut keys l0 E' L0 E1 E2 E3 IK L W D
      | ct l0 IC L0 T LT L MC W D
      | p w E' X N1 N2 E1 E2 L W D DN
      | l0 L0 IT L W D TT TY
      | st' IT NH' L NC NR W D ].
  - congruence.
  - exfalso. apply N. congruence.
  - exfalso. apply N. subst r. destruct X as [(X1 & X2)|(l0 & X1 & X2 & X3)]; [congruence|].
    assert (l0 = l) by congruence. subst. simpl. auto.
  - exfalso. apply N. subst r. destruct X as (_ & i & m & _ & _ & [(_ & Q & _)|(_ & [Q|(l0 & Q & Q1 & _)])]); try congruence.
    assert (l0 = l) by congruence. subst. simpl; auto.
  - exfalso. apply N. subst r. assert (l0 = l) by congruence. subst. simpl; auto.
  - exfalso. apply N. assert (l0 = l) by congruence. subst l0.
    destruct r; simpl in IC; try contradiction.
    + destruct IC as [IC|[]]. inversion IC; subst. simpl; auto.
    + apply filter_In in IC. destruct IC as [IC _]. simpl. destruct keys.
      * apply in_map_iff. exists (l_ts l, ct); auto.
      * destruct IC as [IC|[]]. inversion IC; subst; simpl; auto.
  - exfalso. apply N. subst r. destruct X as (_ & i & m & _ & _ & [(_ & Q & _)|(_ & [Q|(l0 & Q & Q1 & _)])]); try congruence.
    assert (l0 = l) by congruence. subst. simpl; auto.
  - exfalso. apply N. congruence.
  - congruence.
Qed.

Lemma moves_other r a k l : ~ In (l_ts l) (txns_of r) -> forall bs s, moves r a s bs ->
  lock_at s k = Some l -> lock_at (apply_batches s bs) k = Some l.
Proof.
  intros N. induction bs as [|b bs IH]; intros s M E; simpl; auto.
  destruct M as (_ & M2 & M3). apply IH; auto. eapply kmove_other; eauto.
Qed.

Lemma lock_kept c g r n a bs k l : store_ok (rg_store g) -> serve c g r = Ok (a, bs) ->
  lock_at (rg_store g) k = Some l -> ~ In (l_ts l) (txns_of r) ->
  lock_at (apply_batches (rg_store g) (firstn n bs)) k = Some l.
Proof.
  intros H E L N. eapply moves_other with (r := r) (a := a); eauto. apply moves_firstn. eapply serve_moves; eauto.
Qed.

Lemma kmove_gone r a s s' k l : lock_at s k = Some l -> lock_at s' k = None -> kmove r a s s' k ->
  lock_gone r a s' k l.
Proof.
  intros E G M. destruct M as
      [ L W D
      | l0 l' L0 L IT E1 E2 E3 E4 E5 E6 E7 E8 E9 E10 W D
      | p l' E' L E1 E2 E3 WF X W D
      | p l' E' L E1 E2 WF X W D DN
      | st' fut keys l0 E' L0 E1 E2 E3 IK L W D
      | ct l0 IC L0 T LT L MC W D
      | p w E' X N1 N2 E1 E2 L W D DN
      | l0 L0 IT L W D TT TY
      | st' IT NH' L NC NR W D ]; try congruence; try (assert (l0 = l) by congruence; subst l0).
  - right; right; right. exists fut, keys. subst st'. auto.
  - left. exists ct. split; auto. destruct W as [W _]. eexists. split; [exact W|]. simpl. split; auto.
    destruct T; congruence.
  - right; left. exists p. split; auto.
    destruct X as (_ & i & m & _ & _ & [(_ & Q & _)|(_ & [Q|(l0 & Q & Q1 & _)])]); try congruence.
    assert (l0 = l) by congruence. subst l0. split; auto. destruct W as [W _]. exists w.
    split; [auto|split; [congruence|]]. destruct E2; congruence.
  - right; right; left. split; [|split; auto].
    + destruct W as [W _]. eexists. split; [exact W|]. simpl. auto.
    + intros. unfold physical_ms. erewrite <- (Z.shiftr_div_pow2 _ 18) by lia. eapply TT; eauto.
Qed.

(** * C16 *)
Lemma heartbeat_only_ttl c s mx k st adv a bs : store_ok s -> handle c s mx (RHeartBeat k st adv) = Ok (a, bs) ->
  (forall k' t, write_at (apply_batches s bs) k' t = write_at s k' t) /\
  (forall k' t, data_at (apply_batches s bs) k' t = data_at s k' t) /\
  (forall k', k' <> k -> lock_at (apply_batches s bs) k' = lock_at s k') /\
  (forall l', lock_at (apply_batches s bs) k = Some l' ->
     exists l, lock_at s k = Some l /\ same_lock_but_ttl l l' /\ l_ttl l <= l_ttl l' /\
               (l' <> l -> l_ts l = st /\ l_ttl l' = adv)) /\
  (lock_at (apply_batches s bs) k = None -> lock_at s k = None).
Proof.
  intros H X. unfold handle in X.
  assert (NOP : bs = [] ->  (forall k' t, write_at (apply_batches s bs) k' t = write_at s k' t) /\
  (forall k' t, data_at (apply_batches s bs) k' t = data_at s k' t) /\
  (forall k', k' <> k -> lock_at (apply_batches s bs) k' = lock_at s k') /\
  (forall l', lock_at (apply_batches s bs) k = Some l' ->
     exists l, lock_at s k = Some l /\ same_lock_but_ttl l l' /\ l_ttl l <= l_ttl l' /\
               (l' <> l -> l_ts l = st /\ l_ttl l' = adv)) /\
  (lock_at (apply_batches s bs) k = None -> lock_at s k = None)).
  { intros ->. simpl. split; [auto|split; [auto|split; [auto|split; auto]]].
    intros l' Q. exists l'. split; [auto|split; [|split; [lia|congruence]]].
    unfold same_lock_but_ttl. repeat split. }
  destruct (validate _); [ok_reply X; apply NOP; auto|].
  destruct (existsb _ _); [discriminate|]. unfold heartbeat in X.
  destruct (get_lock_spec s k H) as [(l & L1 & L2 & L3 & L4)|(L1 & L2)]; rewrite L2 in X; clear L2.
  2:{ simpl in X. ok_reply X. apply NOP; auto. }
  rewrite L3 in X. cbn [negb] in X. destruct (l_ts l =? st) eqn:E; cbn [negb] in X; [|ok_reply X; apply NOP; auto].
  destruct (adv <=? l_ttl l) eqn:E2; ok_reply X; [apply NOP; auto|]. clear NOP.
  apply Z.eqb_eq in E. apply Z.leb_gt in E2. unfold apply_batches, apply_batch. cbn [fold_left].
  split; [auto|split; [auto|split; [|split]]].
  - intros k' N. rewrite lock_at_put. destruct (bytes_eq_dec k k'); congruence.
  - intros l' Q. rewrite lock_at_put in Q. destruct (bytes_eq_dec k k); [|congruence]. inversion Q; subst l'.
    exists l. split; [auto|split; [|split; [simpl; lia|simpl; auto]]].
    unfold same_lock_but_ttl. simpl. repeat split.
  - intros Q. rewrite lock_at_put in Q. destruct (bytes_eq_dec k k); congruence.
Qed.

(** * C17 *)
Lemma no_premature_rollback c s mx k lk cl cu fs rm a bs n l : store_ok s ->
  handle c s mx (RCheckStatus k lk cl cu fs rm) = Ok (a, bs) ->
  lock_at s k = Some l -> l_ts l = lk -> physical_ms cu <= l_ttl l ->
  let s' := apply_batches s (firstn n bs) in
  (forall k' t, write_at s' k' t = write_at s k' t) /\
  (forall k' t, data_at s' k' t = data_at s k' t) /\
  (forall k', k' <> k -> lock_at s' k' = lock_at s k') /\
  exists l', lock_at s' k = Some l' /\ l_ts l' = lk /\ l_type l' = l_type l /\ l_short l' = l_short l /\
             l_ttl l' = l_ttl l /\ l_minc l <= l_minc l'.
Proof.
  intros H X L1 T PM s'. unfold handle in X.
  assert (NOP : bs = [] -> (forall k' t, write_at s' k' t = write_at s k' t) /\
  (forall k' t, data_at s' k' t = data_at s k' t) /\
  (forall k', k' <> k -> lock_at s' k' = lock_at s k') /\
  exists l', lock_at s' k = Some l' /\ l_ts l' = lk /\ l_type l' = l_type l /\ l_short l' = l_short l /\
             l_ttl l' = l_ttl l /\ l_minc l <= l_minc l').
  { intros ->. subst s'. rewrite firstn_nil. simpl. split; [auto|split; [auto|split; [auto|]]].
    exists l. split; [auto|split; [auto|split; [auto|split; [auto|split; [auto|lia]]]]]. }
  destruct (validate _); [ok_reply X; apply NOP; auto|].
  destruct (existsb _ _); [discriminate|]. unfold check_status in X.
  destruct (get_lock_spec s k H) as [(l0 & A1 & A2 & A3 & A4)|(A1 & A2)]; [|congruence].
  rewrite A2 in X; clear A2. assert (l0 = l) by congruence. subst l0. rewrite T, Z.eqb_refl in X.
  destruct (negb _); [ok_reply X; apply NOP; auto|]. destruct (l_async l && negb fs); [ok_reply X; apply NOP; auto|].
  destruct (_ && _); [ok_reply X; apply NOP; auto|].
  unfold physical_ms in PM. rewrite <- (Z.shiftr_div_pow2 cu 18) in PM by lia.
  apply Z.leb_le in PM. rewrite PM in X.
  destruct (l_minc l <? cl) eqn:E; ok_reply X; [|apply NOP; auto].
  clear NOP. destruct n as [|n]; subst s'; cbn [firstn].
  { simpl. split; [auto|split; [auto|split; [auto|]]].
    exists l. split; [auto|split; [auto|split; [auto|split; [auto|split; [auto|lia]]]]]. }
  rewrite firstn_nil.
  apply Z.ltb_lt in E. destruct A4 as (K & _). unfold apply_batches, apply_batch. cbn [fold_left]. rewrite K.
  split; [auto|split; [auto|split]].
  - intros k' N. rewrite lock_at_put. destruct (bytes_eq_dec k k'); congruence.
  - exists (with_minc l cl). rewrite lock_at_put. destruct (bytes_eq_dec k k); [|congruence].
    simpl. split; [auto|split; [auto|split; [auto|split; [auto|split; [auto|lia]]]]].
Qed.
