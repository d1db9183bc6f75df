(** What one request can do to one key: the vocabulary of moves. *)
From Coq Require Import ZArith List Lia Bool.
From Verif Require Import Bytes SMap Outcome TxnModel TxnSpec TxnBase.
Import ListNotations.
Open Scope Z_scope.

Definition writes_same (s s' : store) (k : bytes) : Prop :=
  forall t, write_at s' k t = write_at s k t.
Definition writes_add (s s' : store) (k : bytes) (t : Z) (w : wrec) : Prop :=
  write_at s' k t = Some w /\ forall t', t' <> t -> write_at s' k t' = write_at s k t'.
Definition data_same (s s' : store) (k : bytes) : Prop := forall t, data_at s' k t = data_at s k t.
Definition data_but (s s' : store) (k : bytes) (st : Z) : Prop :=
  forall t, t <> st -> data_at s' k t = data_at s k t.

(** every commit of [k] known to the store is before [t] *)
Definition commits_before (s : store) (k : bytes) (t : Z) : Prop :=
  forall t' w, write_at s k t' = Some w -> w_op w <> OpRollback -> 0 < t' <= kMaxVer -> t' < t.

Definition is_write (o : op) : Prop := o = OpPut \/ o = OpDelete.

(** the checks a prewrite makes before it writes a key *)
Definition prewrite_ok (s : store) (p : prewrite_req) (k : bytes) : Prop :=
  ~ rolled_back s k (pw_start p) /\
  exists i m, nth_error (pw_muts p) i = Some m /\ m_key m = k /\
    ((~ pess_checked p i /\ lock_at s k = None /\ commits_before s k (pw_start p)) \/
     (pess_checked p i /\
      (lock_at s k = None \/
       exists l0, lock_at s k = Some l0 /\ l_ts l0 = pw_start p /\ l_type l0 = OpLock))).

(** the requests that may write a rollback record of [st] on [k] *)
Definition rolls (r : req) (st : Z) (k : bytes) : Prop :=
  match r with
  | RBatchRollback start _ => start = st
  | RCheckStatus primary lock_ts _ _ _ _ => lock_ts = st /\ primary = k
  | RCheckSecondary start _ => start = st
  | RResolve start ct keys txns =>
      exists c, c <= 0 /\ In (st, c) (match keys with [] => txns | _ => [(start, ct)] end)
  | _ => False
  end.

Inductive kmove (r : req) (a : resp) (s s' : store) (k : bytes) : Prop :=
| KStay :
    lock_at s' k = lock_at s k -> writes_same s s' k -> data_same s s' k -> kmove r a s s' k
| KTouch l0 l :
    lock_at s k = Some l0 -> lock_at s' k = Some l -> In (l_ts l0) (txns_of r) ->
    l_ts l = l_ts l0 -> l_type l = l_type l0 -> l_short l = l_short l0 -> l_key l = l_key l0 ->
    l_primary l = l_primary l0 -> l_fut l = l_fut l0 ->
    l_async l = l_async l0 -> l_secs l = l_secs l0 ->
    l_minc l0 <= l_minc l -> l_ttl l0 <= l_ttl l ->
    writes_same s s' k -> data_same s s' k ->
    l_minc l = l_minc l0 \/
      (exists p lk cl cu fs rm, r = RCheckStatus p lk cl cu fs rm /\ (l_async l0 = false \/ fs = true)) ->
    kmove r a s s' k
| KPessLock p l :
    r = RPessLock p -> lock_at s' k = Some l -> l_ts l = pl_start p -> l_type l = OpLock ->
    l_fut l = pl_fut p -> lock_wf k l ->
    ((lock_at s k = None /\
      (forall t w, write_at s k t = Some w -> w_op w <> OpRollback ->
                   pl_start p < t <= kMaxVer -> t < pl_fut p)) \/
     (exists l0, lock_at s k = Some l0 /\ l_ts l0 = pl_start p /\ l_fut l0 < pl_fut p)) ->
    writes_same s s' k -> data_same s s' k ->
    l_primary l = pl_primary p ->
    (l_async l = true -> exists l0, lock_at s k = Some l0 /\ l_ts l0 = pl_start p /\ l_async l0 = true) ->
    kmove r a s s' k
| KPrewrite p l :
    r = RPrewrite p -> lock_at s' k = Some l -> l_ts l = pw_start p -> is_write (l_type l) ->
    lock_wf k l -> prewrite_ok s p k -> writes_same s s' k -> data_but s s' k (pw_start p) ->
    (l_type l = OpPut -> l_short l = [] -> exists v, v <> [] /\ data_at s' k (pw_start p) = Some v) ->
    l_primary l = pw_primary p -> kmove r a s s' k
| KUnlock st fut keys l0 :
    r = RPessRollback st fut keys -> lock_at s k = Some l0 -> l_ts l0 = st -> l_type l0 = OpLock ->
    l_fut l0 <= fut -> In k keys ->
    lock_at s' k = None -> writes_same s s' k -> data_same s s' k -> kmove r a s s' k
| KCommit ct l0 :
    In (l_ts l0, ct) (commits_of r) -> lock_at s k = Some l0 -> is_write (l_type l0) ->
    l_ts l0 < ct -> lock_at s' k = None ->
    (forall st ct' keys, r = RCommit st ct' keys -> l_minc l0 <= ct \/ l_minc l0 <= 0) ->
    writes_add s s' k ct (mkW (l_ts l0) (l_type l0) (l_short l0)) -> data_same s s' k ->
    kmove r a s s' k
| KOnePC p w :
    r = RPrewrite p -> prewrite_ok s p k -> r_1pc a <> 0 -> pw_start p < r_1pc a ->
    w_start w = pw_start p -> is_write (w_op w) ->
    lock_at s' k = None -> writes_add s s' k (r_1pc a) w -> data_but s s' k (pw_start p) ->
    (w_op w = OpPut -> w_short w = [] -> exists v, v <> [] /\ data_at s' k (pw_start p) = Some v) ->
    kmove r a s s' k
| KRollback l0 :
    lock_at s k = Some l0 -> In (l_ts l0) (txns_of r) -> lock_at s' k = None ->
    writes_add s s' k (l_ts l0) (rb_record (l_ts l0)) -> data_but s s' k (l_ts l0) ->
    (forall p lk cl cu fs rm, r = RCheckStatus p lk cl cu fs rm -> l_ttl l0 < Z.shiftr cu 18) ->
    is_write (l_type l0) \/ (exists p lk cl cu fs rm, r = RCheckStatus p lk cl cu fs rm) ->
    rolls r (l_ts l0) k ->
    (forall p lk cl cu fs rm, r = RCheckStatus p lk cl cu fs rm -> l_async l0 = false \/ fs = true) ->
    kmove r a s s' k
| KMark st :
    In st (txns_of r) -> ~ holds s k st -> lock_at s' k = lock_at s k ->
    (forall ct, ct <= kMaxVer -> ~ committed s k st ct) -> ~ rolled_back s k st ->
    writes_add s s' k st (rb_record st) -> data_same s s' k -> rolls r st k -> kmove r a s s' k.

(** a list of batches, applied one after the other *)
Fixpoint moves (r : req) (a : resp) (s : store) (bs : list batch) : Prop :=
  match bs with
  | [] => True
  | b :: rest =>
      Forall wop_ok b /\ (forall k, kmove r a s (apply_batch s b) k) /\
      moves r a (apply_batch s b) rest
  end.

Lemma moves_firstn r a n : forall s bs, moves r a s bs -> moves r a s (firstn n bs).
Proof.
  induction n as [|n IH]; intros s [|b bs] H; simpl; auto.
  destruct H as (A & B & C). auto.
Qed.

Lemma moves_store_ok r a : forall bs s, store_ok s -> moves r a s bs -> store_ok (apply_batches s bs).
Proof.
  induction bs as [|b bs IH]; intros s H M; simpl; auto. destruct M as (A & B & C).
  apply IH; auto. apply apply_batch_ok; auto.
Qed.

Lemma apply_batches_app s a b : apply_batches s (a ++ b) = apply_batches (apply_batches s a) b.
Proof. unfold apply_batches. apply fold_left_app. Qed.

Lemma moves_app r a : forall bs s bs',
  moves r a s bs -> moves r a (apply_batches s bs) bs' -> moves r a s (bs ++ bs').
Proof.
  induction bs as [|b bs IH]; intros s bs' H H'; simpl in *; auto.
  destruct H as (A & B & C). auto.
Qed.

Lemma apply_batches_same s bs : bs = [] -> apply_batches s bs = s.
Proof. intros ->; auto. Qed.
