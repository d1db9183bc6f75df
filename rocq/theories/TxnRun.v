(** Whole histories: data values, garbage collection, and the invariant of every reachable state. *)
From Coq Require Import ZArith List Lia Bool.
From Verif Require Import Bytes SMap Outcome TxnModel TxnSpec TxnBase TxnMoves TxnHandlers TxnHandlers2 TxnHandlers3 TxnInv.
Import ListNotations.
Open Scope Z_scope.

(** * Garbage collection batches *)
Lemma gc_flush_items limit : forall items acc b o, In b (gc_flush limit items acc) -> In o b ->
  (In o acc /\ forall x, In x acc -> In x b) \/
  (exists it, In it items /\ In o it /\ forall x, In x it -> In x b).
Proof.
  induction items as [|it items IH]; intros acc b o; cbn [gc_flush].
  - destruct acc as [|x acc]; intros Hb Ho; [destruct Hb|]. destruct Hb as [<-|[]]. left; auto.
  - destruct it as [|y it].
    + intros Hb Ho. destruct (IH _ _ _ Hb Ho) as [A|(it & A & B)]; [left; auto|right; exists it; simpl; tauto].
    + assert (Q : forall b, (forall x, In x (acc ++ y :: it) -> In x b) -> In o (acc ++ y :: it) ->
         (In o acc /\ forall x, In x acc -> In x b) \/
         (exists it', In it' ((y :: it) :: items) /\ In o it' /\ forall x, In x it' -> In x b)).
      { intros b' Hb Ho. apply in_app_iff in Ho. destruct Ho as [Ho|Ho].
        - left. split; auto. intros x Hx. apply Hb. apply in_app_iff; auto.
        - right. exists (y :: it). split; [left; auto|split; auto]. intros x Hx. apply Hb. apply in_app_iff; auto. }
      destruct (limit <=? _).
      * intros [<-|Hb] Ho; [apply Q; auto|].
        destruct (IH _ _ _ Hb Ho) as [[[] _]|(it' & A & B)]. right; exists it'; simpl; tauto.
      * intros Hb Ho. destruct (IH _ _ _ Hb Ho) as [[A B]|(it' & A & B)]; [apply Q; auto|].
        right; exists it'; simpl; tauto.
Qed.

Definition gc_item (sp : Z) (ws : smap (bytes * Z) wrec) (it : list wop) : Prop :=
  it = [] \/ exists k t w, In ((k, t), w) ws /\ t <= sp /\
    (it = [DelWrite k t] \/
     (it = [DelWrite k t; DelData k (w_start w)] /\ w_op w = OpPut /\ w_short w = [])).

Lemma gc_scan_item ds sp : forall ws cur gt first it, In it (gc_scan ds sp ws cur gt first) -> gc_item sp ws it.
Proof.
  assert (L : forall ws x it, gc_item sp ws it -> gc_item sp (x :: ws) it).
  { intros ws x it [A|(k & t & w & A & B)]; [left; auto|]. right; exists k, t, w; simpl; tauto. }
  induction ws as [|[[k t] w] ws IH]; intros cur gt first it; cbn [gc_scan]; [intros []|].
  assert (K : forall (i : list wop) (l : list (list wop)), (gc_item sp ((k, t, w) :: ws) i) ->
             (forall x, In x l -> gc_item sp ws x) -> In it (i :: l) -> gc_item sp ((k, t, w) :: ws) it).
  { intros i l A B [<-|C]; auto. }
  destruct (sp <? t) eqn:E; [apply K; [left; auto|intros; eapply IH; eauto]|]. apply Z.ltb_ge in E.
  assert (ONE : gc_item sp ((k, t, w) :: ws) [DelWrite k t]).
  { right. exists k, t, w. simpl; auto. }
  destruct (w_op w) eqn:O.
  - apply K; [left; auto|intros; eapply IH; eauto].
  - destruct (_ && _); [apply K; [left; auto|intros; eapply IH; eauto]|].
    apply K; [|intros; eapply IH; eauto].
    destruct (beqb (w_short w) []) eqn:S; auto. destruct (get vcmp ds _); auto.
    right. exists k, t, w. apply beqb_true in S. split; [left; auto|split; [auto|right; auto]].
  - apply K; auto. intros; eapply IH; eauto.
  - apply K; [left; auto|intros; eapply IH; eauto].
  - apply K; auto. intros; eapply IH; eauto.
  - apply K; [left; auto|intros; eapply IH; eauto].
  - apply K; [left; auto|intros; eapply IH; eauto].
Qed.

(** an entry of a garbage collection batch *)
Lemma gc_txn_entry c s sp b o : store_ok s -> In b (gc_txn c s sp) -> In o b ->
  exists k t w, write_at s k t = Some w /\ t <= sp /\ In (DelWrite k t) b /\
    (o = DelWrite k t \/ (o = DelData k (w_start w) /\ w_op w = OpPut /\ w_short w = [])).
Proof.
  intros H Hb Ho. unfold gc_txn in Hb.
  destruct (gc_flush_items _ _ _ _ _ Hb Ho) as [[[] _]|(it & A & B & C)].
  destruct (gc_scan_item _ _ _ _ _ _ _ A) as [->|(k & t & w & D & E & F)]; [destruct B|].
  apply (In_get vcmp vcmp_ok) in D; [|apply ok_ws; auto].
  exists k, t, w. split; [auto|split; [auto|]].
  destruct F as [->|(-> & F1 & F2)].
  - split; [apply C; simpl; auto|]. destruct B as [<-|[]]; auto.
  - split; [apply C; simpl; auto|]. destruct B as [<-|[<-|[]]]; auto.
Qed.

(** * No promise needed: well-formedness *)
Definition region_ok (g : region) : Prop :=
  store_ok (rg_store g) /\ Forall (Forall wop_ok) (rg_pool g).

Lemma region_ok_init : region_ok init_region.
Proof. split; [apply store_ok_empty|constructor]. Qed.

Lemma drop_nth_In {A} n : forall (l : list A) x, In x (drop_nth n l) -> In x l.
Proof. induction n as [|n IH]; intros [|a l] x; simpl; auto. intros [->|H]; auto. Qed.

Lemma moves_wop_ok r a : forall bs s, moves r a s bs -> Forall (Forall wop_ok) bs.
Proof. induction bs as [|b bs IH]; intros s; simpl; [constructor|]. intros (A & B & C). constructor; eauto. Qed.

Lemma step_region_ok c g e g' : region_ok g -> step c g e = Ok g' -> region_ok g'.
Proof.
  intros [H HP]. destruct e as [r n|ts| |sp|st ct|n]; cbn [step].
  - destruct (serve c g r) as [[a bs]|] eqn:E; cbn [obind]; [|discriminate].
    intros X; apply Ok_inj in X; subst g'. split; [|auto]. cbn [rg_store with_store snd].
    eapply moves_store_ok; eauto. apply moves_firstn. eapply serve_moves; eauto.
  - intros X; apply Ok_inj in X; subst; split; auto.
  - intros X; apply Ok_inj in X; subst; split; auto.
  - intros X; apply Ok_inj in X; subst; split; auto. cbn [rg_pool]. apply Forall_app. split; auto.
    apply Forall_forall. intros b Hb. apply Forall_forall. intros o Ho.
    destruct (gc_txn_entry _ _ _ _ _ H Hb Ho) as (k & t & w & _ & _ & _ & [->|(-> & _)]); exact I.
  - destruct (first_bad _) eqn:F; [intros X; apply Ok_inj in X; subst; split; auto|].
    destruct (bad_commit _) eqn:B; intros X; apply Ok_inj in X; subst; split; auto.
    cbn [rg_pool]. apply Forall_app. split; auto.
    eapply moves_wop_ok with (r := RResolve st ct [[1]] []) (a := resp0) (s := rg_store g).
    apply resolve_batches_moves; auto.
    + repeat eexists.
    + intros l Hl. destruct (scan_locks_In _ _ _ _ _ H Hl) as (A1 & A2 & A3).
      split; [auto|split; [lia|]].
      apply (writable_iff (l_key l) l); [apply (ok_lock _ H); auto|]. eapply first_bad_none; eauto.
    + simpl; auto.
    + intros L. unfold bad_commit in B. simpl in B. apply orb_false_iff in B. destruct B as [B1 B2].
      rewrite andb_false_iff, Z.ltb_nlt, Z.leb_nle in B2. split; [|lia].
      simpl. apply Z.ltb_lt in L. rewrite L. simpl; auto.
    + intros L k. simpl. exists ct. auto.
  - destruct (nth_error (rg_pool g) n) as [b|] eqn:E; intros X; apply Ok_inj in X; subst; split; auto.
    + cbn [rg_store]. apply nth_error_In in E. rewrite Forall_forall in HP. apply apply_batch_ok; auto.
    + cbn [rg_pool]. apply Forall_forall. intros x Hx. apply drop_nth_In in Hx. rewrite Forall_forall in HP. auto.
Qed.

(** * Values *)
(** a Put lock or a Put record without a short value has its value in the data column family *)
Record dinv (s : store) (k : bytes) : Prop := {
  di_lock : forall l, lock_at s k = Some l -> l_type l = OpPut -> l_short l = [] ->
     exists v, v <> [] /\ data_at s k (l_ts l) = Some v;
  di_rec : forall t w, write_at s k t = Some w -> w_op w = OpPut -> w_short w = [] ->
     exists v, v <> [] /\ data_at s k (w_start w) = Some v }.

Lemma committed_put s k t w : write_at s k t = Some w -> w_op w = OpPut -> committed s k (w_start w) t.
Proof. intros A B. exists w. split; [auto|split; [auto|congruence]]. Qed.

Lemma kmove_dinv P r a s safe s' k : plan_ok P -> store_ok s -> req_ok P r a s safe -> kinv P s k ->
  kmove r a s s' k -> dinv s k -> dinv s' k.
Proof.
  intros HP H (R1 & R2 & R3) K M [D1 D2]. destruct M as
      [ L W D
      | l0 l L0 L IT E1 E2 E3 E4 E5 E6 E7 E8 E9 E10 W D
      | p l E L E1 E2 E3 WF X W D
      | p l E L E1 E2 WF X W D DN
      | st fut keys l0 E L0 E1 E2 E3 IK L W D
      | ct l0 IC L0 T LT L MC W D
      | p w E X N1 N2 E1 E2 L W D DN
      | l0 L0 IT L W D TT TY
      | st IT NH L NC NR W D ].
  - constructor.
    + intros l Q. rewrite L in Q. rewrite (D (l_ts l)). auto.
    + intros t w Q. rewrite (W t) in Q. rewrite (D (w_start w)). apply D2 with (t := t); auto.
  - constructor.
    + intros l' Q. rewrite L in Q. inversion Q; subst l'. rewrite (D (l_ts l)), E1, E2, E3. auto.
    + intros t w Q. rewrite (W t) in Q. rewrite (D (w_start w)). apply D2 with (t := t); auto.
  - constructor.
    + intros l' Q. rewrite L in Q. inversion Q; subst l'. congruence.
    + intros t w Q. rewrite (W t) in Q. rewrite (D (w_start w)). apply D2 with (t := t); auto.
  - subst r. destruct R3 as (_ & R3 & _). assert (S : is_start P (pw_start p)) by (apply R1; simpl; auto).
    destruct (prewrite_ok_facts P HP s p k H K S X R3) as (A1 & A2 & A3). constructor.
    + intros l' Q. rewrite L in Q. inversion Q; subst l'. rewrite E1. auto.
    + intros t w Q O. rewrite (W t) in Q. rewrite D; [apply D2 with (t := t); auto|].
      intros Y. apply (A2 t). rewrite <- Y. apply committed_put; auto.
  - constructor.
    + intros l' Q. congruence.
    + intros t w Q. rewrite (W t) in Q. rewrite (D (w_start w)). apply D2 with (t := t); auto.
  - constructor.
    + intros l' Q. congruence.
    + intros t w Q O S. rewrite (D (w_start w)). destruct W as [Wa Wb]. destruct (Z.eq_dec t ct) as [->|n].
      * rewrite Wa in Q. inversion Q; subst w. simpl in *. auto.
      * rewrite Wb in Q by auto. apply D2 with (t := t); auto.
  - subst r. destruct R3 as (_ & R3 & _). assert (S : is_start P (pw_start p)) by (apply R1; simpl; auto).
    destruct (prewrite_ok_facts P HP s p k H K S X R3) as (A1 & A2 & A3). constructor.
    + intros l' Q. congruence.
    + intros t w' Q O Z. destruct W as [Wa Wb]. destruct (Z.eq_dec t (r_1pc a)) as [->|n].
      * rewrite Wa in Q. inversion Q; subst w'. rewrite E1. auto.
      * rewrite Wb in Q by auto. rewrite D; [apply D2 with (t := t); auto|].
        intros Y. apply (A2 t). rewrite <- Y. apply committed_put; auto.
  - constructor.
    + intros l' Q. congruence.
    + intros t w Q O S. destruct W as [Wa Wb]. destruct (Z.eq_dec t (l_ts l0)) as [->|n].
      * rewrite Wa in Q. inversion Q; subst w. discriminate.
      * rewrite Wb in Q by auto. rewrite D; [apply D2 with (t := t); auto|].
        intros Y. apply (ki_nocommit _ _ _ K l0 t L0). rewrite <- Y. apply committed_put; auto.
  - constructor.
    + intros l Q. rewrite L in Q. rewrite (D (l_ts l)). auto.
    + intros t w Q O S. rewrite (D (w_start w)). destruct W as [Wa Wb]. destruct (Z.eq_dec t st) as [->|n].
      * rewrite Wa in Q. inversion Q; subst w. discriminate.
      * rewrite Wb in Q by auto. apply D2 with (t := t); auto.
Qed.

(** * What waits in the pool *)
Definition pool_entry (s : store) (safe : Z) (b : batch) (o : wop) : Prop :=
  (exists k t, o = DelWrite k t /\ t <= safe) \/
  (exists k st, o = DelData k st /\ st <= safe /\ ~ holds s k st /\
     forall ct, committed s k st ct -> In (DelWrite k ct) b).
Definition pool_ok (s : store) (safe : Z) (pool : list batch) : Prop :=
  forall b o, In b pool -> In o b -> pool_entry s safe b o.

Lemma kmove_old P r a s safe s' k st : req_ok P r a s safe -> kmove r a s s' k ->
  st <= safe -> ~ holds s k st ->
  ~ holds s' k st /\ forall ct, committed s' k st ct -> committed s k st ct.
Proof.
  intros (R1 & R2 & R3) M LE NH.
  assert (SAME : writes_same s s' k -> forall ct, committed s' k st ct -> committed s k st ct)
    by (intros W ct; rewrite (committed_same s s'); auto).
  destruct M as
      [ L W D
      | l0 l L0 L IT E1 E2 E3 E4 E5 E6 E7 E8 E9 E10 W D
      | p l E L E1 E2 E3 WF X W D
      | p l E L E1 E2 WF X W D DN
      | st' fut keys l0 E L0 E1 E2 E3 IK L W D
      | ct l0 IC L0 T LT L MC W D
      | p w E X N1 N2 E1 E2 L W D DN
      | l0 L0 IT L W D TT TY
      | st' IT NH' L NC NR W D ]; (split; [intros (lx & HL & HT)|auto]); try congruence.
  - apply NH. exists lx. rewrite <- L. auto.
  - apply NH. exists l0. rewrite L in HL. inversion HL; subst lx. split; [auto|congruence].
  - rewrite L in HL. inversion HL; subst lx. subst r. lia.
  - rewrite L in HL. inversion HL; subst lx. subst r. lia.
  - intros c C. apply (committed_add _ _ _ _ _ _ _ W) in C. destruct C as [(_ & C & _)|(_ & C)]; auto.
    simpl in C. exfalso. apply NH. exists l0. auto.
  - intros c C. apply (committed_add _ _ _ _ _ _ _ W) in C. destruct C as [(_ & C & _)|(_ & C)]; auto.
    subst r. lia.
  - intros c C. apply (committed_add _ _ _ _ _ _ _ W) in C. destruct C as [(_ & _ & C)|(_ & C)]; auto.
    simpl in C. congruence.
  - apply NH. exists lx. rewrite <- L. auto.
  - intros c C. apply (committed_add _ _ _ _ _ _ _ W) in C. destruct C as [(_ & _ & C)|(_ & C)]; auto.
    simpl in C. congruence.
Qed.

(** * The invariant of a region *)
Record ginv (P : plan) (s : store) (safe : Z) (pool : list batch) : Prop := {
  gi_ok : store_ok s;
  gi_k : forall k, kinv P s k;
  gi_d : forall k, dinv s k;
  gi_p : pool_ok s safe pool }.
Definition rinv (P : plan) (g : region) : Prop := ginv P (rg_store g) (rg_safe g) (rg_pool g).

Lemma rinv_init P : rinv P init_region.
Proof.
  constructor; [apply store_ok_empty| | |intros b o []].
  - intros k.
    assert (A : forall st ct, ~ committed empty_store k st ct) by (intros st ct (w & W & _); discriminate).
    assert (B : forall st, ~ rolled_back empty_store k st) by (intros st (w & W & _); discriminate).
    constructor; try discriminate; intros; try (exfalso; eapply A; eauto; fail); auto.
  - intros k. constructor; discriminate.
Qed.

(** [grow safe s s']: every decision recorded in s and newer than [safe] is still there in s' *)
Definition grow (safe : Z) (s s' : store) : Prop :=
  forall k, (forall st ct, safe < ct -> committed s k st ct -> committed s' k st ct) /\
            (forall st, safe < st -> rolled_back s k st -> rolled_back s' k st) /\
            (forall t w, safe < t -> write_at s k t = Some w -> w_op w <> OpRollback -> write_at s' k t = Some w).
Lemma grow_refl n s : grow n s s.
Proof. intros k; split; auto. Qed.
Lemma grow_trans n m a b c : n <= m -> grow n a b -> grow m b c -> grow m a c.
Proof.
  intros L A B k. destruct (A k) as (A1 & A2 & A3), (B k) as (B1 & B2 & B3).
  split; [|split]; intros.
  - apply B1; auto. apply A1; auto; lia.
  - apply B2; auto. apply A2; auto; lia.
  - apply B3; auto. apply A3; auto; lia.
Qed.

Lemma req_ok_resolve P r a s s' safe : is_resolve r -> req_ok P r a s safe -> req_ok P r a s' safe.
Proof. intros (st & ct & keys & txns & ->) (A & B & C). split; [auto|split; auto]. Qed.

Lemma moves_inv P r a safe pool : plan_ok P -> forall bs s, ginv P s safe pool -> moves r a s bs ->
  req_ok P r a s safe -> (is_resolve r \/ (length bs <= 1)%nat) ->
  ginv P (apply_batches s bs) safe pool /\ forall n, grow n s (apply_batches s bs).
Proof.
  intros HP. induction bs as [|b bs IH]; intros s [H K D PO] M R L; simpl.
  - split; [constructor; auto|intros; apply grow_refl].
  - destruct M as (M1 & M2 & M3).
    assert (I1 : ginv P (apply_batch s b) safe pool).
    { constructor.
      - apply apply_batch_ok; auto.
      - intros k. eapply kmove_kinv; eauto.
      - intros k. eapply kmove_dinv; eauto.
      - intros b0 o Hb Ho. destruct (PO b0 o Hb Ho) as [A|(k & st & A1 & A2 & A3 & A4)]; [left; auto|].
        destruct (kmove_old P r a s safe (apply_batch s b) k st R (M2 k) A2 A3) as [B1 B2].
        right. exists k, st. split; [auto|split; [auto|split; [auto|]]]. intros ct C. apply A4; auto. }
    assert (G1 : forall n, grow n s (apply_batch s b)).
    { intros n k. destruct (kmove_permanent P HP r a s safe (apply_batch s b) k H R (K k) (M2 k)) as (A & B & C).
      split; [|split]; auto. intros t w _ W N. destruct (C t w W) as (w' & Q1 & _ & Q2). rewrite Q1, (Q2 N). auto. }
    destruct L as [L|L].
    + destruct (IH (apply_batch s b) I1 M3 (req_ok_resolve _ _ _ _ _ _ L R) (or_introl L)).
      split; auto. intros n. eapply grow_trans with (n := n); eauto. lia.
    + destruct bs as [|b' bs']; [|simpl in L; lia]. simpl. auto.
Qed.

Lemma allowed_req_ok c P g r n a bs : allowed c P g (EReq r n) -> serve c g r = Ok (a, bs) ->
  req_ok P r a (rg_store g) (rg_safe g).
Proof.
  intros (A & B & C) E. split; [auto|split; [auto|]]. destruct r; auto. destruct C as (C1 & C2 & C3).
  split; [auto|split; auto]. intros Q. eapply C3; eauto.
Qed.

(** a batch that only deletes versions and values *)
Definition deletes_only (b : batch) : Prop :=
  forall o, In o b -> (exists k t, o = DelWrite k t) \/ (exists k t, o = DelData k t).

Lemma del_lock s b k : store_ok s -> deletes_only b -> lock_at (apply_batch s b) k = lock_at s k.
Proof.
  intros H Q. destruct (batch_lock b s k H) as [(l & A & _)|[(A & _)|(_ & _ & A)]]; auto;
    destruct (Q _ A) as [(? & ? & X)|(? & ? & X)]; discriminate.
Qed.
Lemma del_write s b k t w : store_ok s -> deletes_only b -> write_at (apply_batch s b) k t = Some w ->
  write_at s k t = Some w /\ ~ In (DelWrite k t) b.
Proof.
  intros H Q. destruct (batch_write b s k t H) as [(l & A & _)|[(A & B)|(_ & A & B)]].
  - destruct (Q _ A) as [(? & ? & X)|(? & ? & X)]; discriminate.
  - congruence.
  - rewrite B. auto.
Qed.
Lemma keep_write s b k t : store_ok s -> deletes_only b -> ~ In (DelWrite k t) b ->
  write_at (apply_batch s b) k t = write_at s k t.
Proof.
  intros H Q N. destruct (batch_write b s k t H) as [(l & A & _)|[(A & B)|(_ & A & B)]]; auto.
  - destruct (Q _ A) as [(? & ? & X)|(? & ? & X)]; discriminate.
  - contradiction.
Qed.
Lemma keep_data s b k t : store_ok s -> deletes_only b -> ~ In (DelData k t) b ->
  data_at (apply_batch s b) k t = data_at s k t.
Proof.
  intros H Q N. destruct (batch_data b s k t H) as [(l & A & _)|[(A & B)|(_ & A & B)]]; auto.
  - destruct (Q _ A) as [(? & ? & X)|(? & ? & X)]; discriminate.
  - contradiction.
Qed.

Lemma kinv_sub P s s' k : kinv P s k -> lock_at s' k = lock_at s k ->
  (forall t w, write_at s' k t = Some w -> write_at s k t = Some w) -> kinv P s' k.
Proof.
  intros [K1 K2 K3 K4 K5 K6 K7 K8] L W.
  assert (C : forall st ct, committed s' k st ct -> committed s k st ct)
    by (intros st ct (w & A & B); exists w; auto).
  assert (R : forall st, rolled_back s' k st -> rolled_back s k st)
    by (intros st (w & A & B); exists w; auto).
  constructor; rewrite ?L; eauto.
  - intros l ct Q X. eapply K4; eauto.
  - intros l Q T X. eapply K5; eauto.
  - intros st ct X Y. eapply K6; eauto.
Qed.

Lemma apply_pool_inv P s safe pool b : ginv P s safe pool -> In b pool ->
  (forall pool', (forall x, In x pool' -> In x pool) -> ginv P (apply_batch s b) safe pool') /\
  grow safe s (apply_batch s b).
Proof.
  intros [H K D PO] Hb.
  assert (DO : deletes_only b).
  { intros o Ho. destruct (PO b o Hb Ho) as [(k & t & -> & _)|(k & st & -> & _)]; eauto. }
  assert (OK : store_ok (apply_batch s b)).
  { apply apply_batch_ok; auto. apply Forall_forall. intros o Ho.
    destruct (DO o Ho) as [(? & ? & ->)|(? & ? & ->)]; exact I. }
  assert (NB : forall k t, safe < t -> ~ In (DelWrite k t) b).
  { intros k t L Ho. destruct (PO b _ Hb Ho) as [(k' & t' & E & Q)|(k' & t' & E & Q)]; inversion E; subst; lia. }
  split.
  - intros pool' SUB. constructor; auto.
    + intros k. eapply kinv_sub; eauto.
      * apply del_lock; auto.
      * intros t w W. eapply del_write; eauto.
    + intros k. constructor.
      * intros l L T S. rewrite del_lock in L by auto. rewrite keep_data; auto.
        -- eapply di_lock; eauto.
        -- intros Ho. destruct (PO b _ Hb Ho) as [(k' & t' & E & Q)|(k' & t' & E & Q1 & Q2 & Q3)]; [discriminate|].
           inversion E; subst. apply Q2. exists l; auto.
      * intros t w W T S. destruct (del_write _ _ _ _ _ H DO W) as [W1 W2]. rewrite keep_data; auto.
        -- eapply di_rec; eauto.
        -- intros Ho. destruct (PO b _ Hb Ho) as [(k' & t' & E & Q)|(k' & t' & E & Q1 & Q2 & Q3)]; [discriminate|].
           inversion E; subst. apply W2. apply Q3. apply committed_put; auto.
    + intros b0 o Hb0 Ho. destruct (PO b0 o (SUB _ Hb0) Ho) as [A|(k & st & A1 & A2 & A3 & A4)]; [left; auto|].
      right. exists k, st. split; [auto|split; [auto|split]].
      * intros (l & L1 & L2). rewrite del_lock in L1 by auto. apply A3. exists l; auto.
      * intros ct (w & W & Q). apply A4. exists w. split; auto. eapply del_write; eauto.
  - intros k. split; [|split].
    + intros st ct L (w & W & Q). exists w. split; auto. rewrite keep_write; auto.
    + intros st L (w & W & Q). exists w. split; auto. rewrite keep_write; auto.
    + intros t w L W _. rewrite keep_write; auto.
Qed.

Lemma step_inv c P g e g' : plan_ok P -> rinv P g -> allowed c P g e -> step c g e = Ok g' ->
  rinv P g' /\ rg_safe g <= rg_safe g' /\ grow (rg_safe g') (rg_store g) (rg_store g').
Proof.
  intros HP I A. destruct e as [r n|ts| |sp|st ct|n]; cbn [step].
  - destruct (serve c g r) as [[a bs]|] eqn:E; cbn [obind]; [|discriminate].
    intros X; apply Ok_inj in X; subst g'. cbn [snd]. unfold rinv. cbn [rg_store rg_safe rg_pool with_store bump].
    destruct (moves_inv P r a (rg_safe g) (rg_pool g) HP (firstn n bs) (rg_store g) I) as [I1 G1]; auto.
    + apply moves_firstn. eapply serve_moves; eauto. apply I.
    + eapply allowed_req_ok; eauto.
    + destruct (resolve_dec r) as [R|R]; auto. right.
      unfold serve in E. assert (Q := handle_one _ _ _ _ _ _ E R). rewrite firstn_length. lia.
    + split; [auto|split; [lia|auto]].
  - intros X; apply Ok_inj in X; subst. split; [auto|split; [simpl; lia|apply grow_refl]].
  - intros X; apply Ok_inj in X; subst. split; [auto|split; [simpl; lia|apply grow_refl]].
  - intros X; apply Ok_inj in X; subst. destruct I as [H K D PO].
    split; [|split; [simpl; lia|apply grow_refl]]. constructor; cbn [rg_store rg_safe rg_pool]; auto.
    intros b o Hb Ho. apply in_app_iff in Hb. destruct Hb as [Hb|Hb].
    + destruct (PO b o Hb Ho) as [(k & t & Q1 & Q2)|(k & st & Q1 & Q2 & Q3)].
      * left. exists k, t. split; [auto|lia].
      * right. exists k, st. split; [auto|split; [lia|auto]].
    + destruct (gc_txn_entry _ _ _ _ _ H Hb Ho) as (k & t & w & W1 & W2 & W3 & [->|(-> & W4 & W5)]).
      * left. exists k, t. split; [auto|lia].
      * right. exists k, (w_start w). assert (C := committed_put _ _ _ _ W1 W4).
        destruct (ok_write _ H _ _ _ W1) as (_ & [[Q _]|[_ Q]]); [congruence|].
        split; [auto|split; [lia|split]].
        -- intros (l & L1 & L2). apply (ki_nocommit _ _ _ (K k) l t L1). rewrite L2. auto.
        -- intros ct C'. destruct (Z.eq_dec ct t) as [->|n]; auto. exfalso.
           assert (F1 := committed_for _ _ _ _ _ (K k) C). assert (F2 := committed_for _ _ _ _ _ (K k) C').
           destruct HP as (HP1 & HP2 & HP3). apply HP2 in F1. apply HP2 in F2.
           destruct (ki_disj _ _ _ (K k) _ _ _ _ C C') as [Y|Y]; auto; lia.
  - destruct A.
  - destruct (nth_error (rg_pool g) n) as [b|] eqn:E; intros X; apply Ok_inj in X; subst.
    + apply nth_error_In in E. destruct (apply_pool_inv P _ _ _ b I E) as [I1 G1].
      split; [|split; [simpl; lia|auto]]. apply I1. intros x. apply drop_nth_In.
    + split; [auto|split; [simpl; lia|apply grow_refl]].
Qed.

Lemma run_inv c P : plan_ok P -> forall g es g', run c P g es g' -> rinv P g ->
  rinv P g' /\ rg_safe g <= rg_safe g' /\ grow (rg_safe g') (rg_store g) (rg_store g').
Proof.
  intros HP g es g' R. induction R as [g|g e g1 es g2 A S R IH]; intros I.
  - split; [auto|split; [lia|apply grow_refl]].
  - destruct (step_inv _ _ _ _ _ HP I A S) as (I1 & L1 & G1). destruct (IH I1) as (I2 & L2 & G2).
    split; [auto|split; [lia|]]. eapply grow_trans; [|exact G1|exact G2]. lia.
Qed.

Lemma reachable_inv c P g : plan_ok P -> reachable c P g -> rinv P g.
Proof. intros HP (es & R). eapply run_inv; eauto. apply rinv_init. Qed.

Lemma steps_region_ok c : forall es g g', region_ok g -> steps c g es = Ok g' -> region_ok g'.
Proof.
  induction es as [|e es IH]; intros g g' H; cbn [steps].
  - intros X; apply Ok_inj in X; subst; auto.
  - destruct (step c g e) as [g1|] eqn:E; cbn [obind]; [|discriminate]. apply IH. eapply step_region_ok; eauto.
Qed.

Lemma steps_total c : forall es g, region_ok g ->
  (forall r n t, In (EReq r n) es -> In t (encoded_ts r) -> 0 <= t) -> exists g', steps c g es = Ok g'.
Proof.
  induction es as [|e es IH]; intros g H T; cbn [steps]; [eauto|].
  assert (S : exists g1, step c g e = Ok g1).
  { destruct e as [r n|ts| |sp|st ct|n]; cbn [step]; eauto.
    - unfold serve. destruct (handle_total c (rg_store g) (rg_max (bump g (touch_ts r))) r) as (x & ->).
      + apply H.
      + intros t. eapply T. simpl; eauto.
      + cbn [obind]. eauto.
    - destruct (first_bad _); eauto. destruct (bad_commit _); eauto.
    - destruct (nth_error _ _); eauto. }
  destruct S as (g1 & S). rewrite S. cbn [obind]. apply IH.
  - eapply step_region_ok; eauto.
  - intros r n t I1. eapply T. right; eauto.
Qed.
