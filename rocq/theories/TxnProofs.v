(** Proofs of the transaction theorems, part 1: what histories can and cannot record. *)
From Coq Require Import ZArith List Lia Bool.
From Verif Require Import Bytes SMap Outcome TxnModel TxnSpec TxnBase TxnMoves TxnHandlers TxnHandlers2 TxnHandlers3 TxnInv TxnRun.
Import ListNotations.
Open Scope Z_scope.

(** * What was ever decided, also when garbage collection has removed the record *)
Record hinv (P : plan) (s : store) (safe : Z) (k : bytes) (C : Z -> Z -> Prop) (R : Z -> Prop) : Prop := {
  hi_c0 : forall st ct, committed s k st ct -> C st ct;
  hi_r0 : forall st, rolled_back s k st -> R st;
  hi_for : forall st ct, C st ct -> commit_for P ct st;
  hi_c : forall st ct, C st ct -> committed s k st ct \/ ct <= safe;
  hi_r : forall st, R st -> rolled_back s k st \/ st <= safe;
  hi_lp : forall l st ct, lock_at s k = Some l -> C st ct -> ct < lock_point P (l_ts l);
  hi_norb : forall l, lock_at s k = Some l -> is_write (l_type l) -> ~ R (l_ts l);
  hi_excl : forall st ct, committed s k st ct -> ~ R st;
  hi_disj : forall s1 c1 s2 c2, C s1 c1 -> C s2 c2 -> c1 <> c2 ->
     c1 < lock_point P s2 \/ c2 < lock_point P s1 }.

Lemma hinv_start P s safe k : kinv P s k -> hinv P s safe k (committed s k) (rolled_back s k).
Proof.
  intros K. constructor; auto.
  - intros. eapply committed_for; eauto.
  - intros. eapply ki_lp; eauto.
  - intros. eapply ki_norb; eauto.
  - intros. eapply ki_excl; eauto.
  - intros. eapply ki_disj; eauto.
Qed.

Lemma hinv_safe P s n m k C R : n <= m -> hinv P s n k C R -> hinv P s m k C R.
Proof.
  intros L H. constructor; try apply H.
  - intros st ct Q. destruct (hi_c _ _ _ _ _ _ H st ct Q); auto; lia.
  - intros st Q. destruct (hi_r _ _ _ _ _ _ H st Q); auto; lia.
Qed.

(** a request *)
Lemma kmove_hinv P r a s safe s' k C R : plan_ok P -> store_ok s -> req_ok P r a s safe -> kinv P s k ->
  kmove r a s s' k -> hinv P s safe k C R ->
  hinv P s' safe k (fun st ct => C st ct \/ committed s' k st ct) (fun st => R st \/ rolled_back s' k st).
Proof.
  intros HP H RO K M HI.
  assert (K' : kinv P s' k) by (eapply kmove_kinv; eauto).
  destruct (kmove_permanent P HP r a s safe s' k H RO K M) as (PC & PR & _).
  (* everything C knows is below the lock point of any transaction that passed a check *)
  assert (BELOW : forall st, is_start P st -> safe < st ->
            (forall st' ct, committed s k st' ct -> ct < lock_point P st) ->
            forall st' ct, C st' ct -> ct < lock_point P st).
  { intros st S L B st' ct Q. destruct (hi_c _ _ _ _ _ _ HI st' ct Q) as [X|X]; [eapply B; eauto|].
    destruct (proj1 HP _ S). lia. }
  assert (SETUP : forall p, r = RPrewrite p -> prewrite_ok s p k ->
            safe < pw_start p /\ is_start P (pw_start p) /\
            (forall st ct, C st ct -> ct < lock_point P (pw_start p)) /\ ~ R (pw_start p)).
  { intros p -> X. destruct RO as (R1 & R2 & R3 & R4 & R5).
    assert (S : is_start P (pw_start p)) by (apply R1; simpl; auto).
    destruct (prewrite_ok_facts P HP s p k H K S X R4) as (A1 & A2 & A3).
    split; [auto|split; [auto|split]].
    - eapply BELOW; eauto.
    - intros Q. destruct (hi_r _ _ _ _ _ _ HI _ Q); [auto|lia]. }
  (* new locks *)
  assert (NL : forall l, lock_at s' k = Some l ->
            (forall st ct, C st ct -> ct < lock_point P (l_ts l)) /\
            (is_write (l_type l) -> ~ R (l_ts l))).
  { intros l HL. destruct M as
      [ L W D
      | l0 l' L0 L IT E1 E2 E3 E4 E5 E6 E7 E8 E9 E10 W D
      | p l' E L E1 E2 E3 WF X W D
      | p l' E L E1 E2 WF X W D DN
      | st' fut keys l0 E L0 E1 E2 E3 IK L W D
      | ct l0 IC L0 T LT L MC W D
      | p w E X N1 N2 E1 E2 L W D DN
      | l0 L0 IT L W D TT TY
      | st' IT NH' L NC NR W D ]; try congruence.
    - rewrite L in HL. split; [intros; eapply hi_lp; eauto|eapply hi_norb; eauto].
    - rewrite L in HL. inversion HL; subst l'. rewrite E1, E2.
      split; [intros; eapply hi_lp; eauto|eapply hi_norb; eauto].
    - rewrite L in HL. inversion HL; subst l'. rewrite E1, E2. split; [|intros [Q|Q]; discriminate].
      subst r. destruct RO as (R1 & R2 & R3 & R4). assert (S : is_start P (pl_start p)) by (apply R1; simpl; auto).
      destruct X as [(X1 & X2)|(l0 & X1 & X2 & X3)].
      + apply BELOW; auto. intros st' ct C0. rewrite <- E1.
        eapply (ki_lp _ _ _ K' l); eauto.
      + intros st' ct C0. rewrite <- X2. eapply hi_lp; eauto.
    - rewrite L in HL. inversion HL; subst l'. rewrite E1. destruct (SETUP p E X) as (A1 & A2 & A3 & A4). auto.
    - rewrite L in HL. split; [intros; eapply hi_lp; eauto|eapply hi_norb; eauto]. }
  (* new commits *)
  assert (NC : forall st ct, committed s' k st ct -> ~ committed s k st ct ->
            (forall st' ct', C st' ct' -> ct' < lock_point P st) /\ ~ R st).
  { intros st ct C1 C0. destruct M as
      [ L W D
      | l0 l' L0 L IT E1 E2 E3 E4 E5 E6 E7 E8 E9 E10 W D
      | p l' E L E1 E2 E3 WF X W D
      | p l' E L E1 E2 WF X W D DN
      | st' fut keys l0 E L0 E1 E2 E3 IK L W D
      | ct0 l0 IC L0 T LT L MC W D
      | p w E X N1 N2 E1 E2 L W D DN
      | l0 L0 IT L W D TT TY
      | st' IT NH' L NC NR W D ];
      try (rewrite (committed_same s s') in C1 by auto; contradiction).
    - apply (committed_add _ _ _ _ _ _ _ W) in C1. destruct C1 as [(_ & C1 & _)|(_ & C1)]; [|contradiction].
      simpl in C1. subst st. split; [intros; eapply hi_lp; eauto|eapply hi_norb; eauto].
    - apply (committed_add _ _ _ _ _ _ _ W) in C1. destruct C1 as [(_ & C1 & _)|(_ & C1)]; [|contradiction].
      rewrite <- C1, E1. destruct (SETUP p E X) as (A1 & A2 & A3 & A4). auto.
    - apply (committed_add _ _ _ _ _ _ _ W) in C1. destruct C1 as [(_ & _ & C1)|(_ & C1)]; [|contradiction].
      simpl in C1; congruence.
    - apply (committed_add _ _ _ _ _ _ _ W) in C1. destruct C1 as [(_ & _ & C1)|(_ & C1)]; [|contradiction].
      simpl in C1; congruence. }
  assert (CDEC : forall st ct, committed s k st ct \/ ~ committed s k st ct).
  { intros st ct. unfold committed. destruct (write_at s k ct) as [w|]; [|right; intros (w & Q & _); discriminate].
    destruct (Z.eq_dec (w_start w) st) as [E|E]; [|right; intros (w' & Q & Q1 & _); inversion Q; congruence].
    assert (O : w_op w = OpRollback \/ w_op w <> OpRollback) by (destruct (w_op w); auto; right; discriminate).
    destruct O as [O|O]; [right; intros (w' & Q & Q1 & Q2); inversion Q; congruence|left; eauto]. }
  constructor.
  - auto.
  - auto.
  - intros st ct [Q|Q]; [eapply hi_for; eauto|eapply committed_for; eauto].
  - intros st ct [Q|Q]; [|auto]. destruct (hi_c _ _ _ _ _ _ HI st ct Q); auto.
  - intros st [Q|Q]; [|auto]. destruct (hi_r _ _ _ _ _ _ HI st Q); auto.
  - intros l st ct HL [Q|Q]; [apply (proj1 (NL l HL) st); auto|]. eapply ki_lp; eauto.
  - intros l HL T [Q|Q]; [apply (proj2 (NL l HL) T); auto|]. eapply ki_norb; eauto.
  - intros st ct C1 [Q|Q].
    + destruct (CDEC st ct) as [C0|C0]; [eapply hi_excl; eauto|]. apply (proj2 (NC st ct C1 C0)); auto.
    + eapply ki_excl; eauto.
  - intros s1 c1 s2 c2 [Q1|Q1] [Q2|Q2] N.
    + eapply hi_disj; eauto.
    + destruct (CDEC s2 c2) as [C0|C0].
      * eapply hi_disj; eauto. eapply hi_c0; eauto.
      * left. apply (proj1 (NC s2 c2 Q2 C0) s1); auto.
    + destruct (CDEC s1 c1) as [C0|C0].
      * eapply hi_disj; eauto. eapply hi_c0; eauto.
      * right. apply (proj1 (NC s1 c1 Q1 C0) s2); auto.
    + eapply ki_disj; eauto.
Qed.

(** a smaller set of records with the same lock *)
Lemma sub_hinv P s safe s' k C R : hinv P s safe k C R -> lock_at s' k = lock_at s k ->
  (forall t w, write_at s' k t = Some w -> write_at s k t = Some w) ->
  (forall t w, safe < t -> write_at s k t = Some w -> write_at s' k t = Some w) ->
  hinv P s' safe k C R.
Proof.
  intros H L W1 W2. constructor.
  - intros st ct (w & A & B). eapply hi_c0; eauto. exists w; auto.
  - intros st (w & A & B). eapply hi_r0; eauto. exists w; auto.
  - apply H.
  - intros st ct Q. destruct (hi_c _ _ _ _ _ _ H st ct Q) as [(w & A & B)|X]; auto.
    destruct (Z_lt_dec safe ct); [|right; lia]. left. exists w. auto.
  - intros st Q. destruct (hi_r _ _ _ _ _ _ H st Q) as [(w & A & B)|X]; auto.
    destruct (Z_lt_dec safe st); [|right; lia]. left. exists w. auto.
  - rewrite L. apply H.
  - rewrite L. apply H.
  - intros st ct (w & A & B). eapply hi_excl; eauto. exists w; eauto.
  - apply H.
Qed.

Lemma pool_sub P s safe pool b : ginv P s safe pool -> In b pool -> forall k,
  lock_at (apply_batch s b) k = lock_at s k /\
  (forall t w, write_at (apply_batch s b) k t = Some w -> write_at s k t = Some w) /\
  (forall t w, safe < t -> write_at s k t = Some w -> write_at (apply_batch s b) k t = Some w).
Proof.
  intros [H K D PO] Hb k.
  assert (DO : deletes_only b).
  { intros o Ho. destruct (PO b o Hb Ho) as [(k0 & t & -> & _)|(k0 & st & -> & _)]; eauto. }
  split; [apply del_lock; auto|split].
  - intros t w W. eapply del_write; eauto.
  - intros t w L W. rewrite keep_write; auto. intros Ho.
    destruct (PO b _ Hb Ho) as [(k' & t' & E & Q)|(k' & t' & E & Q)]; inversion E; subst; lia.
Qed.

Definition sub2 (C C' : Z -> Z -> Prop) : Prop := forall a b, C a b -> C' a b.
Definition sub1 (C C' : Z -> Prop) : Prop := forall a, C a -> C' a.

Lemma moves_hinv P r a safe pool k : plan_ok P -> forall bs s, ginv P s safe pool -> moves r a s bs ->
  req_ok P r a s safe -> (is_resolve r \/ (length bs <= 1)%nat) -> forall C R, hinv P s safe k C R ->
  exists C' R', hinv P (apply_batches s bs) safe k C' R' /\ sub2 C C' /\ sub1 R R'.
Proof.
  intros HP. induction bs as [|b bs IH]; intros s I M RO L C R HI; simpl.
  - exists C, R. split; [auto|split; [intros ?; auto|intros ?; auto]].
  - destruct M as (M1 & M2 & M3).
    assert (I1 : ginv P (apply_batch s b) safe pool /\ forall n, grow n s (apply_batch s b)).
    { apply (moves_inv P r a safe pool HP [b] s I); simpl; auto. }
    destruct I as [H K D PO]. destruct I1 as [I1 _].
    assert (HI' := kmove_hinv P r a s safe (apply_batch s b) k C R HP H RO (K k) (M2 k) HI).
    assert (RR : is_resolve r -> req_ok P r a (apply_batch s b) safe) by (intros; eapply req_ok_resolve; eauto).
    destruct L as [L|L].
    + destruct (IH (apply_batch s b) I1 M3 (RR L) (or_introl L) _ _ HI') as (C' & R' & A & B1 & B2).
      exists C', R'. split; [auto|split].
      * intros x y Q. apply B1; auto.
      * intros x Q. apply B2; auto.
    + destruct bs as [|b' bs']; [|simpl in L; lia]. simpl. eexists _, _. split; [exact HI'|split].
      * intros x y Q; auto.
      * intros x Q; auto.
Qed.

Lemma step_hinv c P g e g' k C R : plan_ok P -> rinv P g -> allowed c P g e -> step c g e = Ok g' ->
  hinv P (rg_store g) (rg_safe g) k C R ->
  exists C' R', hinv P (rg_store g') (rg_safe g') k C' R' /\ sub2 C C' /\ sub1 R R'.
Proof.
  intros HP I A. destruct e as [r n|ts| |sp|st ct|n]; cbn [step].
  - destruct (serve c g r) as [[a bs]|] eqn:E; cbn [obind]; [|discriminate].
    intros X; apply Ok_inj in X; subst g'. cbn [snd rg_store rg_safe rg_pool with_store bump]. intros HI.
    apply (moves_hinv P r a (rg_safe g) (rg_pool g) k HP (firstn n bs) (rg_store g) I); auto.
    + apply moves_firstn. eapply serve_moves; eauto. apply I.
    + eapply allowed_req_ok; eauto.
    + destruct (resolve_dec r) as [Q|Q]; auto. right.
      unfold serve in E. assert (Q' := handle_one _ _ _ _ _ _ E Q). rewrite firstn_length. lia.
  - intros X HI; apply Ok_inj in X; subst. exists C, R. split; [auto|split; intros ?; auto].
  - intros X HI; apply Ok_inj in X; subst. exists C, R. split; [auto|split; intros ?; auto].
  - intros X HI; apply Ok_inj in X; subst. exists C, R.
    split; [eapply hinv_safe; eauto; simpl; lia|split; intros ?; auto].
  - destruct A.
  - destruct (nth_error (rg_pool g) n) as [b|] eqn:E; intros X HI; apply Ok_inj in X; subst; exists C, R;
      (split; [|split; intros ?; auto]); auto.
    apply nth_error_In in E. destruct (pool_sub P _ _ _ b I E k) as (A1 & A2 & A3). eapply sub_hinv; eauto.
Qed.

Lemma run_hinv c P k : plan_ok P -> forall g es g', run c P g es g' -> rinv P g -> forall C R,
  hinv P (rg_store g) (rg_safe g) k C R ->
  exists C' R', hinv P (rg_store g') (rg_safe g') k C' R' /\ sub2 C C' /\ sub1 R R'.
Proof.
  intros HP g es g' RN. induction RN as [g|g e g1 es g2 A S RN IH]; intros I C R HI.
  - exists C, R. split; [auto|split; intros ?; auto].
  - destruct (step_inv _ _ _ _ _ HP I A S) as (I1 & _).
    destruct (step_hinv _ _ _ _ _ k C R HP I A S HI) as (C1 & R1 & H1 & B1 & B2).
    destruct (IH I1 _ _ H1) as (C2 & R2 & H2 & D1 & D2). exists C2, R2. split; [auto|split].
    + intros x y Q; auto.
    + intros x Q; auto.
Qed.

(** * C08, C09, C12 *)
Lemma no_lost_update c P g1 es g2 k s1 c1 s2 c2 : plan_ok P -> reachable c P g1 -> run c P g1 es g2 ->
  committed (rg_store g1) k s1 c1 -> committed (rg_store g2) k s2 c2 -> s1 <> s2 ->
  c1 < lock_point P s2 \/ c2 < lock_point P s1.
Proof.
  intros HP RE RN C1 C2 N. assert (I := reachable_inv _ _ _ HP RE).
  destruct (run_hinv c P k HP g1 es g2 RN I _ _ (hinv_start P _ (rg_safe g1) k (gi_k _ _ _ _ I k)))
    as (C & R & HI & B1 & B2).
  apply (hi_disj _ _ _ _ _ _ HI); [apply B1; auto|eapply hi_c0; eauto|].
  intros ->. apply N. destruct HP as (_ & _ & HP3). eapply HP3.
  - eapply (hi_for _ _ _ _ _ _ HI). apply B1; eauto.
  - eapply (hi_for _ _ _ _ _ _ HI). eapply hi_c0; eauto.
Qed.

Lemma commit_once c P g1 es g2 k st c1 c2 : plan_ok P -> reachable c P g1 -> run c P g1 es g2 ->
  committed (rg_store g1) k st c1 -> committed (rg_store g2) k st c2 -> c1 = c2.
Proof.
  intros HP RE RN C1 C2. assert (I := reachable_inv _ _ _ HP RE).
  destruct (run_hinv c P k HP g1 es g2 RN I _ _ (hinv_start P _ (rg_safe g1) k (gi_k _ _ _ _ I k)))
    as (C & R & HI & B1 & B2).
  destruct (Z.eq_dec c1 c2) as [|n]; auto. exfalso.
  assert (X1 : C st c1) by (apply B1; auto). assert (X2 : C st c2) by (eapply hi_c0; eauto).
  assert (F1 := hi_for _ _ _ _ _ _ HI _ _ X1). assert (F2 := hi_for _ _ _ _ _ _ HI _ _ X2).
  destruct HP as (_ & HP2 & _). destruct (HP2 _ _ F1) as (_ & ? & _). destruct (HP2 _ _ F2) as (_ & ? & _).
  destruct (hi_disj _ _ _ _ _ _ HI _ _ _ _ X1 X2 n); lia.
Qed.

Lemma rollback_final c P g1 es g2 k st ct : plan_ok P -> reachable c P g1 -> run c P g1 es g2 ->
  rolled_back (rg_store g1) k st -> ~ committed (rg_store g2) k st ct.
Proof.
  intros HP RE RN R1 C2. assert (I := reachable_inv _ _ _ HP RE).
  destruct (run_hinv c P k HP g1 es g2 RN I _ _ (hinv_start P _ (rg_safe g1) k (gi_k _ _ _ _ I k)))
    as (C & R & HI & B1 & B2).
  apply (hi_excl _ _ _ _ _ _ HI _ _ C2). apply B2; auto.
Qed.

Lemma run_grow c P g1 es g2 : plan_ok P -> reachable c P g1 -> run c P g1 es g2 ->
  grow (rg_safe g2) (rg_store g1) (rg_store g2).
Proof. intros HP RE RN. eapply run_inv; eauto. eapply reachable_inv; eauto. Qed.

Lemma reachable_run c P g es g' : reachable c P g -> run c P g es g' -> reachable c P g'.
Proof.
  intros (es0 & R) R'. exists (es0 ++ es). induction R as [g|g e g1 es0 g2 A S R IH]; simpl; auto.
  econstructor; eauto.
Qed.

Lemma commit_stays c P g1 es g2 k st ct : plan_ok P -> reachable c P g1 -> run c P g1 es g2 ->
  committed (rg_store g1) k st ct -> rg_safe g2 < ct ->
  committed (rg_store g2) k st ct /\ ~ rolled_back (rg_store g2) k st.
Proof.
  intros HP RE RN C L. assert (G := run_grow _ _ _ _ _ HP RE RN).
  assert (C2 : committed (rg_store g2) k st ct) by (apply G; auto). split; auto.
  assert (I2 := reachable_inv _ _ _ HP (reachable_run _ _ _ _ _ RE RN)).
  eapply ki_excl; eauto. apply I2.
Qed.

Lemma rollback_stays c P g1 es g2 k st : plan_ok P -> reachable c P g1 -> run c P g1 es g2 ->
  rolled_back (rg_store g1) k st -> rg_safe g2 < st -> rolled_back (rg_store g2) k st.
Proof. intros HP RE RN C L. apply (run_grow _ _ _ _ _ HP RE RN); auto. Qed.
