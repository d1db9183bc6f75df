(** Writing a backup back. *)
From Coq Require Import ZArith List Bool Lia Sorted.
From Verif Require Import Bytes SMap Outcome TxnModel TxnSpec TxnBase TxnMoves TxnReadModel TxnReadSpec TxnReadProofs TxnReadProofs3 TxnInv TxnRun BrModel BrSpec BrProofs.
Import ListNotations.
Open Scope Z_scope.

(** * Cutting into writes loses and adds nothing *)
Lemma cut_concat sz ms mc : forall l acc size count, concat (cut sz ms mc l acc size count) = rev acc ++ l.
Proof.
  induction l as [|o l IH]; intros acc size count; cbn [cut].
  - simpl. rewrite app_nil_r. auto.
  - destruct (_ || _).
    + cbn [concat]. rewrite IH. simpl. rewrite <- app_assoc. auto.
    + rewrite IH. simpl. rewrite <- app_assoc. auto.
Qed.
Lemma cut_nonempty sz ms mc l acc size count : cut sz ms mc l acc size count <> [].
Proof. destruct l; cbn [cut]; [discriminate|]. destruct (_ || _); [discriminate|]. 
  revert acc size count w. induction l as [|o l IH]; intros; cbn [cut]; [discriminate|]. destruct (_ || _); [discriminate|auto].
Qed.

Lemma send_all : forall bs env n s, (forall i, (i < length bs)%nat -> env (n + i)%nat = WDone) ->
  send bs env n s = (apply_batch s (concat bs), 0).
Proof.
  induction bs as [|b bs IH]; intros env n s H; [reflexivity|]. cbn [send].
  assert (E : env n = WDone) by (rewrite <- (Nat.add_0_r n); apply H; simpl; lia). rewrite E. cbn [land].
  rewrite IH.
  - cbn [concat]. unfold apply_batch. rewrite fold_left_app. auto.
  - intros i L. replace (S n + i)%nat with (n + S i)%nat by lia. apply H. simpl. lia.
Qed.

(** whatever the outcomes, only some of the operations are applied *)
Lemma send_inv (Q : store -> Prop) : forall bs env n s,
  (forall x o, In o (concat bs) -> Q x -> Q (apply_wop x o)) -> Q s -> Q (fst (send bs env n s)).
Proof.
  assert (AB : forall b x, (forall x o, In o b -> Q x -> Q (apply_wop x o)) -> Q x -> Q (apply_batch x b)).
  { induction b as [|o b IH]; intros x H HQ; simpl; auto. apply IH.
    - intros y o' I. apply H. right; auto.
    - apply H; auto. left; auto. }
  induction bs as [|b bs IH]; intros env n s H HQ; [simpl; auto|]. cbn [send].
  assert (HB : Q (land s b (env n))).
  { destruct (env n) as [|c [|]]; simpl; auto; apply AB; auto; intros x o I; apply H; simpl; apply in_app_iff; auto. }
  assert (HR : forall x o, In o (concat bs) -> Q x -> Q (apply_wop x o)).
  { intros x o I. apply H. simpl. apply in_app_iff. auto. }
  destruct (env n) as [|c l].
  - apply IH; auto.
  - destruct bs; [auto|]. destruct (c =? EPERM); [auto|]. apply IH; auto.
Qed.

(** * What the entries do to a store *)
Section Entries.
  Variable fw : smap (bytes * Z) wrec.
  Variable fd : smap (bytes * Z) bytes.
  Hypothesis SW : sorted vcmp fw.
  Hypothesis SD : sorted vcmp fd.
  Variable r : store.

  Lemma in_entries o : In o (entries fw fd) <->
    (exists k t v, o = PutData k t v /\ get vcmp fd (k, t) = Some v) \/
    (exists k t w, o = PutWrite k t w /\ get vcmp fw (k, t) = Some w).
  Proof.
    unfold entries. rewrite in_app_iff, !in_map_iff. split.
    - intros [([[k t] v] & <- & I)|([[k t] v] & <- & I)]; [left|right]; exists k, t, v; simpl; split; auto;
        apply (In_get vcmp vcmp_ok); auto.
    - intros [(k & t & v & -> & G)|(k & t & v & -> & G)]; [left|right]; exists ((k, t), v); simpl; split; auto;
        apply (get_In vcmp vcmp_ok); auto.
  Qed.

  (** in between: every record and value is the old one or the one of the files *)
  Definition between (x : store) : Prop :=
    locks x = locks r /\ (sorted vcmp (writes r) -> sorted vcmp (writes x)) /\ (sorted vcmp (datas r) -> sorted vcmp (datas x)) /\
    (forall k t, write_at x k t = write_at r k t \/ exists w, get vcmp fw (k, t) = Some w /\ write_at x k t = Some w) /\
    (forall k t, data_at x k t = data_at r k t \/ exists v, get vcmp fd (k, t) = Some v /\ data_at x k t = Some v).

  Lemma between_refl : between r.
  Proof. split; [auto|]. split; [auto|]. split; [auto|]. split; intros; left; auto. Qed.
  Lemma between_step x o : In o (entries fw fd) -> between x -> between (apply_wop x o).
  Proof.
    intros I (L & S1 & S2 & W & D). apply in_entries in I. destruct I as [(k & t & v & -> & G)|(k & t & v & -> & G)].
    - split; [auto|]. split; [auto|]. split; [intros; simpl; apply sorted_put; auto using vcmp_ok|]. split.
      + intros k' t'. apply W.
      + intros k' t'. rewrite data_at_put. destruct (kt_dec (k, t) (k', t')) as [E|N]; [|auto].
        inversion E; subst. right. exists v. auto.
    - split; [auto|]. split; [intros; simpl; apply sorted_put; auto using vcmp_ok|]. split; [auto|]. split.
      + intros k' t'. rewrite write_at_put. destruct (kt_dec (k, t) (k', t')) as [E|N]; [|auto].
        inversion E; subst. right. exists v. auto.
      + intros k' t'. apply D.
  Qed.

  (** a list of entries that is applied completely *)
  Lemma apply_keeps : forall l x, (forall o, In o l -> In o (entries fw fd)) -> between x ->
    between (apply_batch x l) /\
    (forall k t w, In (PutWrite k t w) l -> write_at (apply_batch x l) k t = Some w) /\
    (forall k t v, In (PutData k t v) l -> data_at (apply_batch x l) k t = Some v).
  Proof.
    induction l as [|o l IH] using rev_ind; intros x SUB B.
    - simpl. split; [auto|]. split; intros k t w [].
    - unfold apply_batch. rewrite fold_left_app. fold (apply_batch x l). simpl.
      destruct (IH x) as (B1 & W1 & D1); [intros; apply SUB; apply in_app_iff; auto|auto|].
      assert (IO : In o (entries fw fd)) by (apply SUB; apply in_app_iff; right; left; auto).
      split; [apply between_step; auto|]. apply in_entries in IO. split.
      + intros k t w I. apply in_app_iff in I. assert (G : get vcmp fw (k, t) = Some w).
        { assert (I2 : In (PutWrite k t w) (entries fw fd)) by (apply SUB; apply in_app_iff; auto).
          apply in_entries in I2. destruct I2 as [(? & ? & ? & E & _)|(? & ? & ? & E & G)]; [discriminate|]. inversion E; subst; auto. }
        destruct IO as [(k0 & t0 & v0 & -> & G0)|(k0 & t0 & w0 & -> & G0)].
        * destruct I as [I|[I|[]]]; [|discriminate]. apply (W1 k t w I).
        * rewrite write_at_put. destruct (kt_dec (k0, t0) (k, t)) as [E|N]; [inversion E; subst; congruence|].
          destruct I as [I|[I|[]]]; [auto|]. inversion I; subst. congruence.
      + intros k t v I. apply in_app_iff in I. assert (G : get vcmp fd (k, t) = Some v).
        { assert (I2 : In (PutData k t v) (entries fw fd)) by (apply SUB; apply in_app_iff; auto).
          apply in_entries in I2. destruct I2 as [(? & ? & ? & E & G)|(? & ? & ? & E & _)]; [|discriminate]. inversion E; subst; auto. }
        destruct IO as [(k0 & t0 & v0 & -> & G0)|(k0 & t0 & w0 & -> & G0)].
        * rewrite data_at_put. destruct (kt_dec (k0, t0) (k, t)) as [E|N]; [inversion E; subst; congruence|].
          destruct I as [I|[I|[]]]; [auto|]. inversion I; subst. congruence.
        * destruct I as [I|[I|[]]]; [|discriminate]. apply (D1 k t v I).
  Qed.

  Lemma all_applied x : between x -> between (apply_batch x (entries fw fd)) /\ holds_files fw fd r (apply_batch x (entries fw fd)).
  Proof.
    intros B. destruct (apply_keeps (entries fw fd) x (fun o I => I) B) as (B1 & W1 & D1). split; [auto|].
    destruct B1 as (L & _ & _ & W & D). split; [|split].
    - intros k. unfold lock_at. rewrite L. auto.
    - intros k t. destruct (get vcmp fw (k, t)) as [w|] eqn:G.
      + apply W1. apply in_entries. right. exists k, t, w. auto.
      + destruct (W k t) as [E|(w & G' & _)]; [auto|congruence].
    - intros k t. destruct (get vcmp fd (k, t)) as [w|] eqn:G.
      + apply D1. apply in_entries. left. exists k, t, w. auto.
      + destruct (D k t) as [E|(w & G' & _)]; [auto|congruence].
  Qed.
End Entries.

Lemma writes_of_concat sz ms mc fw fd : concat (writes_of sz ms mc fw fd) = entries fw fd.
Proof. unfold writes_of. rewrite cut_concat. auto. Qed.

(** one complete restore *)
Lemma restore_complete sz ms mc fw fd env r x : sorted vcmp fw -> sorted vcmp fd ->
  all_accepted (writes_of sz ms mc fw fd) env -> between fw fd r x ->
  exists y, read_and_restore true (writes_of sz ms mc fw fd) env x = (y, 0) /\ between fw fd r y /\ holds_files fw fd r y.
Proof.
  intros SW SD AA B. unfold read_and_restore. rewrite send_all.
  - rewrite writes_of_concat. cbn [negb]. eexists. split; [reflexivity|]. apply all_applied; auto.
  - intros i L. apply AA. auto.
Qed.
Lemma attempt_between sz ms mc fw fd env r x : sorted vcmp fw -> sorted vcmp fd -> between fw fd r x ->
  between fw fd r (fst (read_and_restore true (writes_of sz ms mc fw fd) env x)).
Proof.
  intros SW SD B. unfold read_and_restore.
  assert (X := send_inv (between fw fd r) (writes_of sz ms mc fw fd) env 0 x).
  destruct (send _ _ _ _) as [y c] eqn:E. cbn [negb]. simpl. simpl in X. apply X; auto.
  intros z o I. rewrite writes_of_concat in I. apply between_step; auto.
Qed.
Lemma attempts_between sz ms mc fw fd r : sorted vcmp fw -> sorted vcmp fd -> forall envs x, between fw fd r x ->
  between fw fd r (attempts (writes_of sz ms mc fw fd) envs x).
Proof.
  intros SW SD. induction envs as [|env envs IH]; intros x B; [auto|]. simpl. apply IH. apply attempt_between; auto.
Qed.

Lemma restore_after_attempts sz ms mc s tso a b fw fd envs env r :
  backup_txn s tso a b = BOk fw fd -> all_accepted (writes_of sz ms mc fw fd) env ->
  exists y, read_and_restore true (writes_of sz ms mc fw fd) env (attempts (writes_of sz ms mc fw fd) envs r) = (y, 0) /\
            holds_files fw fd r y.
Proof.
  intros E AA. destruct (backup_sorted _ _ _ _ _ _ E) as [SW SD].
  destruct (restore_complete sz ms mc fw fd env r (attempts (writes_of sz ms mc fw fd) envs r) SW SD AA) as (y & E1 & _ & H); eauto.
  apply attempts_between; auto. apply between_refl.
Qed.

(** * Reading the restored region *)
Lemma newest_or_none s tso k : store_ok s ->
  (exists t w, newest s SI tso k t w) \/ nothing_visible s SI tso k.
Proof.
  intros H.
  assert (X : forall l : list ((bytes * Z) * wrec),
    (forall k t w, In ((k, t), w) l -> write_at s k t = Some w) ->
    (exists t w, write_at s k t = Some w /\ t <= tso /\ w_op w <> OpRollback /\
       forall t' w', In ((k, t'), w') l -> t < t' <= tso -> w_op w' = OpRollback) \/
    (forall t w, In ((k, t), w) l -> t <= tso -> w_op w = OpRollback)).
  { induction l as [|[[k0 t0] w0] l IH]; intros SUB; [right; intros t w []|].
    assert (IH' := IH (fun k t w I => SUB k t w (or_intror I))).
    destruct (bytes_eq_dec k0 k) as [->|N].
    - assert (W0 := SUB _ _ _ (or_introl eq_refl)).
      assert (D : (t0 <= tso /\ w_op w0 <> OpRollback) \/ (t0 <= tso -> w_op w0 = OpRollback)).
      { destruct (Z_le_dec t0 tso); [|right; intros; lia]. destruct (three_ok _ _ _ _ H W0) as [O|[O|O]]; rewrite O.
        - left. split; [auto|discriminate]. - left. split; [auto|discriminate]. - right. auto. }
      destruct IH' as [(t & w & W & L & O & MX)|NV].
      + left. destruct D as [[L0 O0]|D].
        * destruct (Z_lt_dec t t0).
          -- exists t0, w0. split; [auto|]. split; [auto|]. split; [auto|].
             intros t' w' [E|I] B; [inversion E; subst; lia|]. apply (MX t' w'); auto. lia.
          -- exists t, w. split; [auto|]. split; [auto|]. split; [auto|].
             intros t' w' [E|I] B; [inversion E; subst; lia|]. apply (MX t' w'); auto.
        * exists t, w. split; [auto|]. split; [auto|]. split; [auto|].
          intros t' w' [E|I] B; [inversion E; subst; apply D; lia|]. apply (MX t' w'); auto.
      + destruct D as [[L0 O0]|D].
        * left. exists t0, w0. split; [auto|]. split; [auto|]. split; [auto|].
          intros t' w' [E|I] B; [inversion E; subst; lia|]. apply (NV t' w'); auto. lia.
        * right. intros t w [E|I] L; [inversion E; subst; auto|]. eapply NV; eauto.
    - destruct IH' as [(t & w & W & L & O & MX)|NV].
      + left. exists t, w. split; [auto|]. split; [auto|]. split; [auto|].
        intros t' w' [E|I] B; [inversion E; congruence|]. apply (MX t' w'); auto.
      + right. intros t w [E|I] L; [inversion E; congruence|]. eapply NV; eauto. }
  destruct (X (writes s)) as [(t & w & W & L & O & MX)|NV].
  - intros k0 t w I. apply (In_get vcmp vcmp_ok); auto. apply H.
  - left. exists t, w. split; [auto|]. split; [auto|]. split; [auto|]. intros t' w' W' B. apply (MX t' w'); auto.
    apply (get_In vcmp vcmp_ok). auto.
  - right. intros t w W L. apply (NV t w); auto. apply (get_In vcmp vcmp_ok). auto.
Qed.

Section Restored.
  Variable s : store.
  Variable tso : Z.
  Variable a b : bytes.
  Variable fw : smap (bytes * Z) wrec.
  Variable fd : smap (bytes * Z) bytes.
  Variable r y : store.
  Hypothesis Hs : store_ok s.
  Hypothesis NA : a <> [].
  Hypothesis BK : backup_txn s tso a b = BOk fw fd.
  Hypothesis BL : blank r a b.
  Hypothesis HF : holds_files fw fd r y.

  Let FW := proj1 (backup_exact s tso a b fw fd Hs NA BK).
  Let FD := proj2 (backup_exact s tso a b fw fd Hs NA BK).

  Lemma restored_write k t w : in_range a b k -> (write_at y k t = Some w <-> newest s SI tso k t w).
  Proof.
    intros R. destruct HF as (_ & W & _). rewrite W. destruct (get vcmp fw (k, t)) as [w'|] eqn:G.
    - apply FW in G. destruct G as [_ N]. split.
      + intros E. inversion E; subst; auto.
      + intros N'. destruct (newest_unique _ _ _ _ _ _ _ _ N N'); congruence.
    - rewrite (proj1 (proj2 (BL k R) t)). split; [discriminate|]. intros N.
      assert (get vcmp fw (k, t) = Some w) by (apply FW; auto). congruence.
  Qed.
  Lemma restored_newest i ts k t w : in_range a b k -> tso <= sees_up_to i ts ->
    (newest y i ts k t w <-> newest s SI tso k t w).
  Proof.
    intros R L. split.
    - intros (W & _). apply restored_write; auto.
    - intros N. assert (W := proj2 (restored_write k t w R) N). destruct N as (W0 & L0 & O & MX). simpl in L0.
      split; [auto|]. split; [lia|]. split; [auto|]. intros t' w' W' B. apply restored_write in W'; auto.
      destruct (newest_unique _ _ _ _ _ _ _ _ W' (conj W0 (conj L0 (conj O MX)))). lia.
  Qed.
  Lemma restored_value i ts k t w v : in_range a b k -> newest s i ts k t w -> i = SI -> ts = tso ->
    (value_of y k w v <-> value_of s k w v).
  Proof.
    intros R N -> ->. unfold value_of. destruct HF as (_ & _ & D).
    assert (DE : data_at y k (w_start w) = data_at s k (w_start w)).
    { rewrite D. destruct (get vcmp fd (k, w_start w)) as [u|] eqn:G.
      - apply FD in G. symmetry. apply G.
      - rewrite (proj2 (proj2 (BL k R) (w_start w))). destruct (data_at s k (w_start w)) as [u|] eqn:E; auto.
        assert (get vcmp fd (k, w_start w) = Some u) by (apply FD; split; auto; exists t, w; auto). congruence. }
    rewrite DE. tauto.
  Qed.
  Lemma restored_reads i ts k v : in_range a b k -> tso <= sees_up_to i ts ->
    (reads y i ts k v <-> reads s SI tso k v).
  Proof.
    intros R L. unfold reads. split.
    - intros [(t & w & N & O & V)|[(t & w & N & O & V)|[NV V]]].
      + left. exists t, w. assert (N' := proj1 (restored_newest i ts k t w R L) N). split; auto. split; auto.
        eapply restored_value; eauto.
      + right; left. exists t, w. split; [eapply restored_newest; eauto|auto].
      + right; right. split; auto. destruct (newest_or_none s tso k Hs) as [(t & w & N)|X]; auto. exfalso.
        assert (N' := proj2 (restored_newest i ts k t w R L) N). destruct N' as (W & LE & O & _). apply O. eapply NV; eauto.
    - intros [(t & w & N & O & V)|[(t & w & N & O & V)|[NV V]]].
      + left. exists t, w. split; [eapply restored_newest; eauto|]. split; auto. eapply restored_value; eauto.
      + right; left. exists t, w. split; [eapply restored_newest; eauto|auto].
      + right; right. split; auto. intros t w W LE. apply restored_write in W; auto. destruct W as (W & L' & O & _).
        exfalso. apply O. eapply NV; eauto.
  Qed.
End Restored.

Lemma range_dec a b k : in_range a b k \/ ~ in_range a b k.
Proof. destruct (inside a b k) eqn:E; [left; apply inside_iff; auto|right; intros H; apply inside_iff in H; congruence]. Qed.

(** the restored region is one the reads are specified for *)
Lemma restored_ok s tso a b fw fd r y : store_ok s -> values_there s -> a <> [] -> backup_txn s tso a b = BOk fw fd ->
  blank r a b -> store_ok r -> values_there r -> holds_files fw fd r y -> between fw fd r y -> store_ok y /\ values_there y.
Proof.
  intros Hs Vs NA BK BL Hr Vr HF B.
  assert (OUT : forall k t w, ~ in_range a b k -> write_at y k t = Some w -> write_at r k t = Some w).
  { intros k t w NR W. destruct HF as (_ & HW & _). rewrite HW in W. destruct (get vcmp fw (k, t)) eqn:G; auto.
    exfalso. apply NR. eapply (proj1 (backup_exact _ _ _ _ _ _ Hs NA BK)). eauto. }
  split.
  - destruct B as (L & S1 & S2 & _ & _). constructor.
    + rewrite L. apply Hr.
    + apply S1, Hr.
    + apply S2, Hr.
    + intros k l E. unfold lock_at in E. rewrite L in E. apply Hr. auto.
    + intros k t w W. destruct (range_dec a b k) as [R|NR].
      * apply (restored_write s tso a b fw fd r y Hs NA BK BL HF) in W; auto. apply (ok_write s Hs k t w). apply W.
      * eapply ok_write; [apply Hr|]. apply (OUT k t w); auto.
  - intros k t w W O SV. destruct (range_dec a b k) as [R|NR].
    + apply (restored_write s tso a b fw fd r y Hs NA BK BL HF) in W; auto.
      destruct (Vs k t w (proj1 W) O SV) as (v & NV & D). exists v. split; auto.
      assert (V : value_of s k w v) by (right; auto).
      apply (restored_value s tso a b fw fd r y Hs NA BK BL HF SI tso k t w v R W eq_refl eq_refl) in V.
      destruct V as [[V1 V2]|[V1 V2]]; [congruence|auto].
    + apply OUT in W; auto. destruct (Vr k t w W O SV) as (v & NV & D). exists v. split; auto.
      destruct HF as (_ & _ & HD). rewrite HD. destruct (get vcmp fd (k, w_start w)) eqn:G; auto. exfalso. apply NR.
      apply (proj2 (backup_exact _ _ _ _ _ _ Hs NA BK)) in G. destruct G as (_ & t' & w' & R & _). auto.
Qed.

(** the answer of a get is the one the source gave at the backup's timestamp *)
Lemma restored_get sz ms mc c P g tso a b fw fd env envs r y i ts rs rs' k v :
  plan_ok P -> reachable c P g -> a <> [] -> tso <= kMaxVer ->
  backup_txn (rg_store g) tso a b = BOk fw fd ->
  store_ok r -> values_there r -> blank r a b ->
  all_accepted (writes_of sz ms mc fw fd) env ->
  read_and_restore true (writes_of sz ms mc fw fd) env (attempts (writes_of sz ms mc fw fd) envs r) = (y, 0) ->
  in_range a b k -> tso <= sees_up_to i ts -> ts <= kMaxVer ->
  get_key (rg_store g) SI tso rs k = RdVal v -> get_key y i ts rs' k = RdVal v.
Proof.
  intros HP RE NA TM BK Hr Vr BL AA E R L LM GK.
  destruct (reachable_values _ _ _ HP RE) as (Hs & Vs & _).
  destruct (backup_sorted _ _ _ _ _ _ BK) as [SW SD].
  destruct (restore_complete sz ms mc fw fd env r (attempts (writes_of sz ms mc fw fd) envs r) SW SD AA) as (y' & E1 & B & H).
  { apply attempts_between; auto. apply between_refl. }
  assert (y' = y) by congruence. subst y'.
  destruct (restored_ok (rg_store g) tso a b fw fd r y Hs Vs NA BK BL Hr Vr H B) as [Hy Vy].
  destruct (get_key_spec (rg_store g) SI tso rs k Hs Vs TM) as [(l & G & _)|(v0 & G & _ & RD)]; [congruence|].
  assert (v0 = v) by congruence. subst v0.
  destruct (get_key_spec y i ts rs' k Hy Vy LM) as [(l & G2 & LK & _)|(v0 & G2 & _ & RD2)].
  - exfalso. destruct H as (HL & _). rewrite HL in LK. rewrite (proj1 (BL k R)) in LK. discriminate.
  - rewrite G2. f_equal. apply (restored_reads (rg_store g) tso a b fw fd r y Hs NA BK BL H i ts k v0 R L) in RD2.
    eapply reads_unique; eauto.
Qed.
