(** Lemmas about stores, batches and the reader functions of TxnModel. *)
From Coq Require Import ZArith List Lia Bool Sorted.
From Verif Require Import Bytes SMap Outcome TxnModel TxnSpec.
Import ListNotations.
Open Scope Z_scope.

Lemma vcmp_ok : cmp_ok vcmp.
Proof.
  constructor.
  - intros [a x] [b y]; unfold vcmp; simpl. destruct (bcmp a b) eqn:E.
    + apply bcmp_eq in E; subst. rewrite Z.compare_eq_iff. split; congruence.
    + split; [discriminate|]. intros H; inversion H; subst. rewrite bcmp_refl in E; discriminate.
    + split; [discriminate|]. intros H; inversion H; subst. rewrite bcmp_refl in E; discriminate.
  - intros [a x] [b y]; unfold vcmp; simpl. rewrite (bcmp_opp a b). destruct (bcmp a b); simpl; auto.
    apply Z.compare_antisym.
  - intros [a x] [b y] [c z]; unfold vcmp; simpl. intros H1 H2.
    destruct (bcmp a b) eqn:E1; try discriminate; destruct (bcmp b c) eqn:E2; try discriminate.
    + apply bcmp_eq in E1; apply bcmp_eq in E2; subst. rewrite bcmp_refl.
      rewrite Z.compare_lt_iff in *. lia.
    + apply bcmp_eq in E1; subst. rewrite E2; auto.
    + apply bcmp_eq in E2; subst. rewrite E1; auto.
    + rewrite (bcmp_trans a b c); auto.
Qed.

(** * Structural well-formedness of a store *)
Definition lock_wf (k : bytes) (l : lock) : Prop :=
  l_key l = k /\ l_primary l <> [] /\ 0 < l_ts l /\
  (l_type l = OpPut \/ l_type l = OpDelete \/ l_type l = OpLock) /\
  (l_type l = OpLock -> l_fut l <> 0).
Definition write_wf (t : Z) (w : wrec) : Prop :=
  0 < w_start w /\
  ((w_op w = OpRollback /\ t = w_start w) \/
   ((w_op w = OpPut \/ w_op w = OpDelete) /\ w_start w < t)).

Record store_ok (s : store) : Prop := mkSok {
  ok_ls : sorted bcmp (locks s);
  ok_ws : sorted vcmp (writes s);
  ok_ds : sorted vcmp (datas s);
  ok_lock : forall k l, lock_at s k = Some l -> lock_wf k l;
  ok_write : forall k t w, write_at s k t = Some w -> write_wf t w }.

Lemma store_ok_empty : store_ok empty_store.
Proof. constructor; simpl; try constructor; discriminate. Qed.

(** * Point updates *)
Lemma lock_at_put s k l k' :
  lock_at (apply_wop s (PutLock k l)) k' = if bytes_eq_dec k k' then Some l else lock_at s k'.
Proof.
  unfold lock_at; simpl. destruct (bytes_eq_dec k k') as [->|n].
  - apply get_put_same, bcmp_ok. - apply get_put_other; auto using bcmp_ok.
Qed.
Lemma lock_at_del s k k' : sorted bcmp (locks s) ->
  lock_at (apply_wop s (DelLock k)) k' = if bytes_eq_dec k k' then None else lock_at s k'.
Proof.
  intros. unfold lock_at; simpl. destruct (bytes_eq_dec k k') as [->|n].
  - apply get_del_same; auto using bcmp_ok. - apply get_del_other; auto using bcmp_ok.
Qed.
Definition kt_dec : forall a b : bytes * Z, {a = b} + {a <> b} := cmp_dec vcmp vcmp_ok.
Lemma write_at_put s k t w k' t' :
  write_at (apply_wop s (PutWrite k t w)) k' t' =
  if kt_dec (k, t) (k', t') then Some w else write_at s k' t'.
Proof. apply (get_put vcmp vcmp_ok). Qed.
Lemma write_at_del s k t k' t' : sorted vcmp (writes s) ->
  write_at (apply_wop s (DelWrite k t)) k' t' =
  if kt_dec (k, t) (k', t') then None else write_at s k' t'.
Proof. intros. apply (get_del vcmp vcmp_ok); auto. Qed.
Lemma data_at_put s k t w k' t' :
  data_at (apply_wop s (PutData k t w)) k' t' =
  if kt_dec (k, t) (k', t') then Some w else data_at s k' t'.
Proof. apply (get_put vcmp vcmp_ok). Qed.
Lemma data_at_del s k t k' t' : sorted vcmp (datas s) ->
  data_at (apply_wop s (DelData k t)) k' t' =
  if kt_dec (k, t) (k', t') then None else data_at s k' t'.
Proof. intros. apply (get_del vcmp vcmp_ok); auto. Qed.

Definition wop_ok (o : wop) : Prop :=
  match o with
  | PutLock k l => lock_wf k l
  | PutWrite _ t w => write_wf t w
  | _ => True
  end.

Lemma apply_wop_ok s o : store_ok s -> wop_ok o -> store_ok (apply_wop s o).
Proof.
  intros [A B C D E] H.
  destruct o; simpl in H; constructor;
    try (simpl; auto using sorted_put, sorted_del, bcmp_ok, vcmp_ok; fail);
    try (intros; first [eapply D | eapply E]; eassumption).
  - intros k' l' G. rewrite lock_at_put in G.
    destruct (bytes_eq_dec k k'); [inversion G; subst; auto | apply D; auto].
  - intros k' t' w' G. rewrite write_at_put in G.
    destruct (kt_dec (k, ts) (k', t')) as [e|e]; [inversion G; inversion e; subst; auto | eapply E; eauto].
  - intros k' l' G. rewrite lock_at_del in G; auto.
    destruct (bytes_eq_dec k k'); [discriminate | apply D; auto].
  - intros k' t' w' G. rewrite write_at_del in G; auto.
    destruct (kt_dec (k, ts) (k', t')); [discriminate | eapply E; eauto].
Qed.

Lemma apply_batch_ok b : forall s, store_ok s -> Forall wop_ok b -> store_ok (apply_batch s b).
Proof.
  induction b as [|o b IH]; intros s H F; simpl; auto. inversion F; subst.
  apply IH; auto. apply apply_wop_ok; auto.
Qed.

(** * The effect of a batch, by membership *)
Lemma sorted_wop s o :
  sorted bcmp (locks s) /\ sorted vcmp (writes s) /\ sorted vcmp (datas s) ->
  let s' := apply_wop s o in
  sorted bcmp (locks s') /\ sorted vcmp (writes s') /\ sorted vcmp (datas s').
Proof. intros (A & B & C). destruct o; simpl; auto using sorted_put, sorted_del, bcmp_ok, vcmp_ok. Qed.
Lemma sorted_batch b : forall s,
  sorted bcmp (locks s) /\ sorted vcmp (writes s) /\ sorted vcmp (datas s) ->
  let s' := apply_batch s b in
  sorted bcmp (locks s') /\ sorted vcmp (writes s') /\ sorted vcmp (datas s').
Proof.
  induction b as [|o b IH]; intros s H; simpl in *; auto. apply IH. apply sorted_wop; auto.
Qed.

Lemma apply_batch_snoc s b o : apply_batch s (b ++ [o]) = apply_wop (apply_batch s b) o.
Proof. unfold apply_batch. rewrite fold_left_app. reflexivity. Qed.

Lemma batch_lock b : forall s k, store_ok s ->
  (exists l, In (PutLock k l) b /\ lock_at (apply_batch s b) k = Some l) \/
  (In (DelLock k) b /\ lock_at (apply_batch s b) k = None) \/
  ((forall l, ~ In (PutLock k l) b) /\ ~ In (DelLock k) b /\
   lock_at (apply_batch s b) k = lock_at s k).
Proof.
  induction b as [|o b IH] using rev_ind; intros s k H.
  - right; right. simpl. auto.
  - assert (HS := sorted_batch b s (conj (ok_ls _ H) (conj (ok_ws _ H) (ok_ds _ H)))).
    simpl in HS. destruct HS as (S1 & S2 & S3).
    rewrite apply_batch_snoc. specialize (IH s k H).
    destruct o as [k0 l0|k0 t0 w0|k0 t0 v0|k0|k0 t0|k0 t0];
      [rewrite lock_at_put; destruct (bytes_eq_dec k0 k) as [->|n]
      | | |rewrite lock_at_del by auto; destruct (bytes_eq_dec k0 k) as [->|n] | | ];
      [left; exists l0; rewrite in_app_iff; simpl; auto
      | | | |right; left; rewrite in_app_iff; simpl; auto| | | ];
      (destruct IH as [(l & I1 & I2)|[(I1 & I2)|(I1 & I2 & I3)]];
       [left; exists l; rewrite in_app_iff; auto
       |right; left; rewrite in_app_iff; auto
       |right; right; split; [intros l; rewrite in_app_iff; simpl; intros [X|[X|[]]];
                              [eapply I1; eauto|congruence]
                             |split; [rewrite in_app_iff; simpl; intros [X|[X|[]]]; [auto|congruence]|auto]]]).
Qed.

Lemma batch_write b : forall s k t, store_ok s ->
  (exists w, In (PutWrite k t w) b /\ write_at (apply_batch s b) k t = Some w) \/
  (In (DelWrite k t) b /\ write_at (apply_batch s b) k t = None) \/
  ((forall w, ~ In (PutWrite k t w) b) /\ ~ In (DelWrite k t) b /\
   write_at (apply_batch s b) k t = write_at s k t).
Proof.
  induction b as [|o b IH] using rev_ind; intros s k t H.
  - right; right. simpl. auto.
  - assert (HS := sorted_batch b s (conj (ok_ls _ H) (conj (ok_ws _ H) (ok_ds _ H)))).
    simpl in HS. destruct HS as (S1 & S2 & S3).
    rewrite apply_batch_snoc. specialize (IH s k t H).
    destruct o as [k0 l0|k0 t0 w0|k0 t0 v0|k0|k0 t0|k0 t0];
      [ |rewrite write_at_put; destruct (kt_dec (k0, t0) (k, t)) as [e|n]
      | | |rewrite write_at_del by auto; destruct (kt_dec (k0, t0) (k, t)) as [e|n] | ];
      [ |left; exists w0; inversion e; subst; rewrite in_app_iff; simpl; auto
      | | | |right; left; inversion e; subst; rewrite in_app_iff; simpl; auto| | ];
      (destruct IH as [(l & I1 & I2)|[(I1 & I2)|(I1 & I2 & I3)]];
       [left; exists l; rewrite in_app_iff; auto
       |right; left; rewrite in_app_iff; auto
       |right; right; split; [intros l; rewrite in_app_iff; simpl; intros [X|[X|[]]];
                              [eapply I1; eauto|congruence]
                             |split; [rewrite in_app_iff; simpl; intros [X|[X|[]]]; [auto|congruence]|auto]]]).
Qed.

Lemma batch_data b : forall s k t, store_ok s ->
  (exists v, In (PutData k t v) b /\ data_at (apply_batch s b) k t = Some v) \/
  (In (DelData k t) b /\ data_at (apply_batch s b) k t = None) \/
  ((forall v, ~ In (PutData k t v) b) /\ ~ In (DelData k t) b /\
   data_at (apply_batch s b) k t = data_at s k t).
Proof.
  induction b as [|o b IH] using rev_ind; intros s k t H.
  - right; right. simpl. auto.
  - assert (HS := sorted_batch b s (conj (ok_ls _ H) (conj (ok_ws _ H) (ok_ds _ H)))).
    simpl in HS. destruct HS as (S1 & S2 & S3).
    rewrite apply_batch_snoc. specialize (IH s k t H).
    destruct o as [k0 l0|k0 t0 w0|k0 t0 v0|k0|k0 t0|k0 t0];
      [ | |rewrite data_at_put; destruct (kt_dec (k0, t0) (k, t)) as [e|n]
      | | |rewrite data_at_del by auto; destruct (kt_dec (k0, t0) (k, t)) as [e|n] ];
      [ | |left; exists v0; inversion e; subst; rewrite in_app_iff; simpl; auto
      | | | |right; left; inversion e; subst; rewrite in_app_iff; simpl; auto| ];
      (destruct IH as [(l & I1 & I2)|[(I1 & I2)|(I1 & I2 & I3)]];
       [left; exists l; rewrite in_app_iff; auto
       |right; left; rewrite in_app_iff; auto
       |right; right; split; [intros l; rewrite in_app_iff; simpl; intros [X|[X|[]]];
                              [eapply I1; eauto|congruence]
                             |split; [rewrite in_app_iff; simpl; intros [X|[X|[]]]; [auto|congruence]|auto]]]).
Qed.

(** * The reader *)
Lemma op_eqb_eq a b : op_eqb a b = true <-> a = b.
Proof. destruct a, b; simpl; split; congruence. Qed.
Lemma op_eqb_neq a b : op_eqb a b = false <-> a <> b.
Proof. destruct a, b; simpl; split; congruence. Qed.

Lemma get_lock_spec s k : store_ok s ->
  (exists l, lock_at s k = Some l /\ get_lock s k = l /\ has_lock l = true /\ lock_wf k l) \/
  (lock_at s k = None /\ get_lock s k = no_lock).
Proof.
  intros H. unfold get_lock. change (get bcmp (locks s) k) with (lock_at s k).
  destruct (lock_at s k) as [l|] eqn:E; [left; exists l | right; auto].
  assert (W := ok_lock _ H _ _ E). split; [|split; [|split]]; auto.
  unfold has_lock. destruct W as (_ & W & _). apply negb_true_iff. apply beqb_false; auto.
Qed.

Lemma sorted_desc (P : bytes * Z * wrec -> bool) m k t w :
  sorted vcmp m -> find P m = Some ((k, t), w) ->
  In ((k, t), w) m /\ P ((k, t), w) = true /\
  (forall t' w', In ((k, t'), w') m -> P ((k, t'), w') = true -> t' <= t).
Proof.
  induction m as [|[[k0 t0] w0] m IH]; simpl; [discriminate|]. intros S F.
  apply sorted_cons in S. destruct S as [S Fo].
  destruct (P (k0, t0, w0)) eqn:E.
  - inversion F; subst. split; [auto|split; [auto|]]. intros t' w' [X|X] Q.
    + inversion X; subst; lia.
    + rewrite Forall_forall in Fo. specialize (Fo _ X). unfold klt, vcmp in Fo; simpl in Fo.
      rewrite bcmp_refl in Fo. rewrite Z.compare_lt_iff in Fo. lia.
  - destruct (IH S F) as (A & B & C). split; [auto|split; [auto|]].
    intros t' w' [X|X] Q; [inversion X; subst; congruence | eapply C; eauto].
Qed.

Definition gwi_hit (min max start t : Z) (w : wrec) (rb dl pt : bool) : Prop :=
  min < t <= max /\ (start <= 0 \/ w_start w = start) /\
  ((w_op w = OpRollback /\ rb = true) \/ (w_op w = OpDelete /\ dl = true) \/
   (w_op w = OpPut /\ pt = true)).

Lemma gwi_match_iff min max start key rb dl pt k t w :
  gwi_match min max start key rb dl pt ((k, t), w) = true <->
  k = key /\ gwi_hit min max start t w rb dl pt.
Proof.
  unfold gwi_match, gwi_hit. rewrite !andb_true_iff, orb_true_iff, beqb_true, Z.ltb_lt, !Z.leb_le, Z.eqb_eq.
  destruct (w_op w), rb, dl, pt; intuition congruence.
Qed.

Lemma gwi_some s min max start key rb dl pt t w : store_ok s ->
  get_write_info s min max start key rb dl pt = Some (t, w) ->
  write_at s key t = Some w /\ gwi_hit min max start t w rb dl pt /\
  (forall t' w', write_at s key t' = Some w' -> gwi_hit min max start t' w' rb dl pt -> t' <= t).
Proof.
  intros H. unfold get_write_info. destruct (find _ _) as [[[k0 t0] w0]|] eqn:F; [|discriminate].
  intros X; inversion X; subst; clear X.
  apply sorted_desc in F; [|apply ok_ws; auto]. destruct F as (A & B & C).
  apply gwi_match_iff in B; destruct B as [-> B]. split; [|split; [auto|]].
  - apply In_get; auto using vcmp_ok, ok_ws.
  - intros t' w' G Q. apply get_In in G; [|apply vcmp_ok]. eapply C; eauto. apply gwi_match_iff; auto.
Qed.

Lemma gwi_none s min max start key rb dl pt : 
  get_write_info s min max start key rb dl pt = None ->
  forall t w, write_at s key t = Some w -> ~ gwi_hit min max start t w rb dl pt.
Proof.
  unfold get_write_info. destruct (find _ _) as [[[k0 t0] w0]|] eqn:F; [discriminate|].
  intros _ t w G Q. apply get_In in G; [|apply vcmp_ok].
  apply (find_none _ _ F) in G. rewrite (proj2 (gwi_match_iff _ _ _ _ _ _ _ _ _ _)) in G; auto; discriminate.
Qed.

Lemma check_committed_some s st k c : store_ok s ->
  check_committed s st k = Some c -> committed s k st c /\ st <= c.
Proof.
  intros H. unfold check_committed. destruct (find _ _) as [[[k0 t0] w0]|] eqn:F; [|discriminate].
  apply sorted_desc in F; [|apply ok_ws; auto]. destruct F as (A & B & C).
  destruct (op_eqb (w_op w0) OpRollback) eqn:E; [discriminate|]. intros X; inversion X; subst.
  rewrite !andb_true_iff, beqb_true, Z.leb_le, Z.eqb_eq in B. destruct B as ((-> & B1) & B2).
  split; [|auto]. exists w0. split; [|split; [auto|apply op_eqb_neq; auto]].
  apply In_get; auto using vcmp_ok, ok_ws.
Qed.

(** a commit record with no rollback record of the same transaction is found *)
Lemma check_committed_none s st k : store_ok s ->
  check_committed s st k = None -> forall c, committed s k st c -> st <= c -> rolled_back s k st.
Proof.
  intros H. unfold check_committed. destruct (find _ _) as [[[k0 t0] w0]|] eqn:F.
  - destruct (op_eqb (w_op w0) OpRollback) eqn:E; [|discriminate]. intros _ c _ _.
    apply find_some in F. destruct F as [F1 F2].
    rewrite !andb_true_iff, beqb_true, Z.leb_le, Z.eqb_eq in F2. destruct F2 as ((-> & B1) & B2).
    apply (In_get vcmp vcmp_ok) in F1; [|apply ok_ws; auto]. apply op_eqb_eq in E.
    destruct (ok_write _ H k t0 w0 F1) as (_ & [[_ W]|[[W|W] _]]); [|congruence|congruence].
    exists w0. subst. auto.
  - intros _ c (w & W1 & W2 & W3) L. exfalso. apply get_In in W1; [|apply vcmp_ok].
    apply (find_none _ _ F) in W1. rewrite !andb_false_iff, beqb_false, Z.leb_nle, Z.eqb_neq in W1.
    destruct W1 as [[W1|W1]|W1]; [congruence | contradiction | congruence].
Qed.

(** GetRollbackInfo never reports the impossible record, hence no abort *)
Lemma get_rollback_ok s st k : store_ok s ->
  exists b, get_rollback s st k = Ok b /\ (b = true <-> rolled_back s k st).
Proof.
  intros H. unfold get_rollback. change (get vcmp (writes s) (k, st)) with (write_at s k st).
  destruct (write_at s k st) as [w|] eqn:E.
  - destruct (w_start w =? st) eqn:E1; simpl.
    + apply Z.eqb_eq in E1. destruct (ok_write _ H _ _ _ E) as (_ & [[W1 W2]|[W1 W2]]); [|lia].
      rewrite W1. simpl. exists true. split; auto. split; auto. exists w; auto.
    + apply Z.eqb_neq in E1. exists false. split; auto. split; [discriminate|].
      intros (w' & X & Y & _). congruence.
  - exists false; split; auto. split; [discriminate|]. intros (w' & X & _). congruence.
Qed.

Lemma rolled_back_dec s k st : store_ok s -> rolled_back s k st \/ ~ rolled_back s k st.
Proof.
  intros H. destruct (get_rollback_ok s st k H) as ([|] & _ & X); [left | right]; intuition discriminate.
Qed.

Lemma found_ts_le s min start key t w : store_ok s -> kMaxVer >= t ->
  write_at s key t = Some w -> w_op w <> OpRollback -> min < t -> (start <= 0 \/ w_start w = start) ->
  t <= found_ts (get_write_info s min kMaxVer start key false true true).
Proof.
  intros H L G Q M S. destruct (get_write_info _ _ _ _ _ _ _ _) as [[t' w']|] eqn:E.
  - apply gwi_some in E; auto. destruct E as (_ & _ & E). simpl. apply (E t w G).
    destruct (ok_write _ H _ _ _ G) as (_ & [[W1 W2]|[[W1|W1] W2]]); [congruence| |];
      (split; [lia|split; [auto|auto]]).
  - exfalso. apply (gwi_none _ _ _ _ _ _ _ _ E _ _ G).
    destruct (ok_write _ H _ _ _ G) as (_ & [[W1 W2]|[[W1|W1] W2]]); [congruence| |];
      (split; [lia|split; [auto|auto]]).
Qed.
