(** Atomicity over many regions: every transaction has one fate. *)
From Coq Require Import ZArith List Lia Bool.
From Verif Require Import Bytes SMap Outcome TxnModel TxnSpec TxnBase TxnMoves TxnHandlers TxnHandlers2 TxnHandlers3 TxnInv
  TxnRun TxnProofs TxnProofs2 TxnProofs3 TxnProofs4 TxnProofs5 TxnProofs6 TxnProofs7 AtomSpec.
Import ListNotations.
Open Scope Z_scope.

(** * What a request can add to the records of a key *)
Lemma kmove_committed r a s s' k st ct : kmove r a s s' k -> committed s' k st ct ->
  committed s k st ct \/ In (st, ct) (commits_of r) \/
  (exists p, r = RPrewrite p /\ st = pw_start p /\ ct = r_1pc a /\ ct <> 0).
Proof.
  intros M C.
  assert (SAME : writes_same s s' k -> committed s k st ct) by (intros W; rewrite <- (committed_same s s'); auto).
  destruct M as
      [ L W D
      | l0 l L0 L IT E1 E2 E3 E4 E5 E6 E7 E8 E9 E10 W D
      | p l E L E1 E2 E3 WF X W D
      | p l E L E1 E2 WF X W D DN
      | st' fut keys l0 E L0 E1 E2 E3 IK L W D
      | ct' l0 IC L0 T LT L MC W D
      | p w E X N1 N2 E1 E2 L W D DN
      | l0 L0 IT L W D TT TY RO
      | st' IT NH' L NC NR W D RO ]; try (left; auto; fail).
  - apply (committed_add _ _ _ _ _ _ _ W) in C. destruct C as [(-> & C & _)|(_ & C)]; auto.
    simpl in C. subst st. auto.
  - apply (committed_add _ _ _ _ _ _ _ W) in C. destruct C as [(-> & C & _)|(_ & C)]; auto.
    right; right. exists p. split; [auto|split; [congruence|auto]].
  - apply (committed_add _ _ _ _ _ _ _ W) in C. destruct C as [(_ & _ & C)|(_ & C)]; auto. simpl in C. congruence.
  - apply (committed_add _ _ _ _ _ _ _ W) in C. destruct C as [(_ & _ & C)|(_ & C)]; auto. simpl in C. congruence.
Qed.

Lemma kmove_rolled r a s s' k st : kmove r a s s' k -> rolled_back s' k st -> rolled_back s k st \/ rolls r st k.
Proof.
  intros M C.
  assert (SAME : writes_same s s' k -> rolled_back s k st) by (intros W; rewrite <- (rolled_back_same s s'); auto).
  destruct M as
      [ L W D
      | l0 l L0 L IT E1 E2 E3 E4 E5 E6 E7 E8 E9 E10 W D
      | p l E L E1 E2 E3 WF X W D
      | p l E L E1 E2 WF X W D DN
      | st' fut keys l0 E L0 E1 E2 E3 IK L W D
      | ct' l0 IC L0 T LT L MC W D
      | p w E X N1 N2 E1 E2 L W D DN
      | l0 L0 IT L W D TT TY RO
      | st' IT NH' L NC NR W D RO ]; try (left; auto; fail).
  - apply (rolled_back_add _ _ _ _ _ _ W) in C. destruct C as [(_ & C & _)|(_ & C)]; auto.
    simpl in C. destruct T; congruence.
  - apply (rolled_back_add _ _ _ _ _ _ W) in C. destruct C as [(_ & C & _)|(_ & C)]; auto.
    destruct E2; congruence.
  - apply (rolled_back_add _ _ _ _ _ _ W) in C. destruct C as [(-> & _ & _)|(_ & C)]; auto.
  - apply (rolled_back_add _ _ _ _ _ _ W) in C. destruct C as [(-> & _ & _)|(_ & C)]; auto.
Qed.

Lemma moves_committed r a : forall bs s k st ct, moves r a s bs -> committed (apply_batches s bs) k st ct ->
  committed s k st ct \/ In (st, ct) (commits_of r) \/
  (exists p, r = RPrewrite p /\ st = pw_start p /\ ct = r_1pc a /\ ct <> 0).
Proof.
  induction bs as [|b bs IH]; intros s k st ct M C; [auto|]. destruct M as (_ & M2 & M3).
  destruct (IH _ _ _ _ M3 C) as [C1|C1]; auto. eapply kmove_committed; eauto.
Qed.
Lemma moves_rolled r a : forall bs s k st, moves r a s bs -> rolled_back (apply_batches s bs) k st ->
  rolled_back s k st \/ rolls r st k.
Proof.
  induction bs as [|b bs IH]; intros s k st M C; [auto|]. destruct M as (_ & M2 & M3).
  destruct (IH _ _ _ M3 C) as [C1|C1]; auto. eapply kmove_rolled; eauto.
Qed.

Lemma commit_one P s k st c1 c2 : plan_ok P -> kinv P s k -> committed s k st c1 -> committed s k st c2 -> c1 = c2.
Proof.
  intros (_ & HP & _) K A B. destruct (Z.eq_dec c1 c2) as [|n]; auto. exfalso.
  assert (F1 := committed_for _ _ _ _ _ K A). assert (F2 := committed_for _ _ _ _ _ K B).
  apply HP in F1, F2. destruct (ki_disj _ _ _ K _ _ _ _ A B n); lia.
Qed.

Lemma committed_dec s k st ct : {committed s k st ct} + {~ committed s k st ct}.
Proof.
  unfold committed. destruct (write_at s k ct) as [w|].
  - destruct (Z.eq_dec (w_start w) st) as [E|E]; [|right; intros (w' & A & B & _); inversion A; subst; auto].
    destruct (op_eqb (w_op w) OpRollback) eqn:O.
    + right. intros (w' & A & _ & B). inversion A; subst w'. apply op_eqb_eq in O. auto.
    + left. exists w. split; [auto|split; [auto|]]. intros Q. rewrite Q in O. discriminate.
  - right. intros (w & A & _). discriminate.
Qed.
Lemma rolled_back_dec s k st : {rolled_back s k st} + {~ rolled_back s k st}.
Proof.
  unfold rolled_back. destruct (write_at s k st) as [w|].
  - destruct (Z.eq_dec (w_start w) st) as [E|E]; [|right; intros (w' & A & B & _); inversion A; subst; auto].
    destruct (op_eqb (w_op w) OpRollback) eqn:O.
    + left. exists w. apply op_eqb_eq in O. auto.
    + right. intros (w' & A & _ & Q). inversion A; subst w'. rewrite Q in O. discriminate.
  - right. intros (w & A & _). discriminate.
Qed.
Lemma succeeded_dec a : succeeded a \/ ~ succeeded a.
Proof.
  unfold succeeded. destruct (r_err a); [right; intros [Q _]; discriminate|].
  destruct (r_res a); [|right; intros (_ & Q & _); discriminate].
  destruct (r_exist a); [auto|right; intros (_ & _ & Q); discriminate].
Qed.

(** * The invariant *)
Definition fate := Z -> option verdict.

Section World.
Variable c : cfg.
Variable P : plan.
Variable prim : Z -> nat * bytes.
Hypothesis HP : plan_ok P.

Definition pstore (w : world) (st : Z) : store := rg_store (w_reg w (fst (prim st))).
Definition dead (w : world) (st : Z) : Prop := st <= rg_safe (w_reg w (fst (prim st))).

Record winv (F : fate) (w : world) : Prop := {
  wi_reg : forall i, rinv P (w_reg w i);
  wi_c : forall i k st ct, committed_in w i k st ct -> F st = Some (VCommitted ct);
  wi_r : forall i k st, rolled_back_in w i k st -> F st = Some VRolledBack;
  wi_known : forall st v, In (st, v) (w_known w) -> F st = Some v;
  wi_fc : forall st ct, F st = Some (VCommitted ct) ->
     st < ct /\ In st (w_open w) /\ (committed (pstore w st) (snd (prim st)) st ct \/ dead w st);
  wi_fr : forall st, F st = Some VRolledBack ->
     In st (w_quit w) \/ rolled_back (pstore w st) (snd (prim st)) st \/ dead w st;
  wi_quit : forall st, In st (w_quit w) -> F st = Some VRolledBack /\ ~ In st (w_sent w) /\ ~ In st (w_open w) }.

Definition ext (F F' : fate) : Prop := forall st v, F st = Some v -> F' st = Some v.

Lemma winv_init : winv (fun _ => None) init_world.
Proof.
  constructor; simpl; try tauto; try discriminate.
  - intros i. apply rinv_init.
  - intros i k st ct (w & W & _). discriminate.
  - intros i k st (w & W & _). discriminate.
Qed.

Lemma In_remove1 x y l : In x (remove1 y l) -> In x l.
Proof.
  induction l as [|z l IH]; simpl; auto. destruct (y =? z); simpl; auto. intros [|]; auto.
Qed.

(** a region moved, some things were learned and attempted *)
Lemma winv_move F F' w w' i g : winv F w -> ext F F' ->
  (forall j, w_reg w' j = if Nat.eqb j i then g else w_reg w j) ->
  rinv P g -> rg_safe (w_reg w i) <= rg_safe g -> grow (rg_safe g) (rg_store (w_reg w i)) (rg_store g) ->
  (forall k st ct, committed (rg_store g) k st ct -> F' st = Some (VCommitted ct)) ->
  (forall k st, rolled_back (rg_store g) k st -> F' st = Some VRolledBack) ->
  (forall st v, In (st, v) (w_known w') -> F' st = Some v) ->
  (forall st ct, F' st = Some (VCommitted ct) -> F st = Some (VCommitted ct) \/
      st < ct /\ In st (w_open w') /\ committed (pstore w' st) (snd (prim st)) st ct) ->
  (forall st, F' st = Some VRolledBack -> F st = Some VRolledBack \/ rolled_back (pstore w' st) (snd (prim st)) st) ->
  (forall st, In st (w_open w) -> In st (w_open w')) ->
  (forall st, In st (w_quit w) -> In st (w_quit w') /\ ~ In st (w_sent w') /\ ~ In st (w_open w')) ->
  w_quit w' = w_quit w ->
  winv F' w'.
Proof.
  intros I X RG RI SF GR C R K FC FR OP QU EQ.
  assert (GC : forall j, rg_safe (w_reg w j) <= rg_safe (w_reg w' j) /\
                 grow (rg_safe (w_reg w' j)) (rg_store (w_reg w j)) (rg_store (w_reg w' j))).
  { intros j. rewrite RG. destruct (Nat.eqb_spec j i) as [->|n]; auto. split; [lia|apply grow_refl]. }
  constructor.
  - intros j. rewrite RG. destruct (Nat.eqb j i); auto. apply I.
  - intros j k st ct. unfold committed_in. rewrite RG. destruct (Nat.eqb j i); eauto.
    intros Q. apply X. eapply wi_c; eauto.
  - intros j k st. unfold rolled_back_in. rewrite RG. destruct (Nat.eqb j i); eauto.
    intros Q. apply X. eapply wi_r; eauto.
  - auto.
  - intros st ct Q. destruct (FC st ct Q) as [Q1|(Q1 & Q2 & Q3)]; [|auto].
    destruct (wi_fc _ _ I st ct Q1) as (L & O & D). split; [auto|split; [auto|]].
    destruct (GC (fst (prim st))) as [G1 G2]. destruct D as [D|D]; [|right; unfold dead in *; lia].
    destruct (Z_lt_le_dec (rg_safe (w_reg w' (fst (prim st)))) st) as [L1|L1]; [left|right; auto].
    unfold pstore. apply G2; auto. lia.
  - intros st Q. destruct (FR st Q) as [Q1|Q1]; [|auto].
    destruct (wi_fr _ _ I st Q1) as [D|[D|D]]; [left; rewrite EQ; auto| |right; right].
    + destruct (GC (fst (prim st))) as [G1 G2].
      destruct (Z_lt_le_dec (rg_safe (w_reg w' (fst (prim st)))) st) as [L1|L1]; [right; left|right; right; auto].
      unfold pstore. apply G2; auto.
    + destruct (GC (fst (prim st))) as [G1 G2]. unfold dead in *; lia.
  - intros st Q. rewrite EQ in Q. destruct (wi_quit _ _ I st Q) as (Q1 & _). destruct (QU st Q) as (_ & Q2). auto.
Qed.

Lemma wother_inv F w i e g : winv F w -> match e with EReq _ _ => False | _ => allowed c P (w_reg w i) e end ->
  step c (w_reg w i) e = Ok g -> winv F (set_reg w i g).
Proof.
  intros I A S.
  assert (A' : allowed c P (w_reg w i) e) by (destruct e; tauto).
  destruct (step_inv _ _ _ _ _ HP (wi_reg _ _ I i) A' S) as (I1 & L1 & G1).
  assert (SUB : forall k t x, write_at (rg_store g) k t = Some x -> write_at (rg_store (w_reg w i)) k t = Some x).
  { intros k t x. destruct e as [r n|ts| |sp|st ct|n]; cbn [step] in S; try (destruct A; fail);
      try (apply Ok_inj in S; subst g; auto; fail).
    destruct (nth_error (rg_pool (w_reg w i)) n) as [b|] eqn:E; apply Ok_inj in S; subst g; auto.
    cbn [rg_store]. apply nth_error_In in E. destruct (wi_reg _ _ I i) as [H _ _ PO].
    apply del_write; auto. intros o Ho. destruct (PO b o E Ho) as [(k' & t' & -> & _)|(k' & t' & -> & _)]; eauto. }
  eapply winv_move with (F := F) (w := w) (i := i) (g := g); eauto.
  - intros st v; auto.
  - intros k st ct (x & W & Q). apply (wi_c _ _ I i k). exists x. auto.
  - intros k st (x & W & Q). apply (wi_r _ _ I i k). exists x. auto.
  - apply (wi_known _ _ I).
  - intros st Q. split; auto. apply (wi_quit _ _ I); auto.
Qed.

(** * Requests *)
Section Request.
Variables (F : fate) (w : world) (i : nat) (r : req) (n : nat) (heard : bool) (a : resp) (bs : list batch).
Hypothesis I : winv F w.
Hypothesis AL : allowed c P (w_reg w i) (EReq r n).
Hypothesis HE : heard = true -> (length bs <= n)%nat.
Hypothesis AV : forall st, In st (txns_of r) -> rg_safe (w_reg w (fst (prim st))) < st.
Hypothesis RU : rule prim w i r.
Hypothesis SV : serve c (w_reg w i) r = Ok (a, bs).

Notation s := (rg_store (w_reg w i)).
Notation s' := (apply_batches (rg_store (w_reg w i)) (firstn n bs)).

Lemma OK : store_ok s.
Proof. apply (wi_reg _ _ I i). Qed.
Lemma MV : moves r a s (firstn n bs).
Proof. apply moves_firstn. eapply serve_moves; eauto. apply OK. Qed.

Lemma step_facts : exists g, step c (w_reg w i) (EReq r n) = Ok g /\ rg_store g = s' /\ rg_safe g = rg_safe (w_reg w i) /\
  rinv P g /\ grow (rg_safe g) s (rg_store g).
Proof.
  assert (S : exists g, step c (w_reg w i) (EReq r n) = Ok g /\ rg_store g = s' /\ rg_safe g = rg_safe (w_reg w i)).
  { cbn [step]. rewrite SV. cbn [obind snd]. eexists. split; [reflexivity|split; reflexivity]. }
  destruct S as (g & S & S1 & S2). exists g. split; [exact S|].
  destruct (step_inv _ _ _ _ _ HP (wi_reg _ _ I i) AL S) as (I1 & L1 & G1).
  auto.
Qed.

(** the fate of the other transactions is not touched *)
Lemma attempt_facts st : attempt prim i r = Some st ->
  In st (w_sent w) /\ i = fst (prim st) /\ In st (txns_of r) /\ ~ In st (w_quit w) /\ keyed r.
Proof.
  intros A.
  assert (Q : In st (w_sent w) -> ~ In st (w_quit w)).
  { intros Q1 Q2. apply (wi_quit _ _ I) in Q2. tauto. }
  destruct r as [p|st0 ct keys|st0 keys|p|st0 fut keys|k lk cl cu fs rm|st0 keys|st0 ct keys txns|k st0 adv]; try discriminate.
  - unfold attempt in A. destruct (pw_try1 p) eqn:T; [|discriminate]. inversion A; subst st.
    destruct RU as (_ & R2). destruct (R2 T) as (R3 & R4 & _). split; [auto|split; [auto|split; [simpl; auto|split; simpl; auto]]].
  - assert (RU' := RU). unfold rule in RU'. rewrite A in RU'. unfold attempt in A.
    destruct (Nat.eqb i (fst (prim st0)) && _) eqn:E; [|discriminate]. inversion A; subst st0.
    apply andb_true_iff in E. destruct E as [E _]. apply Nat.eqb_eq in E.
    split; [auto|split; [auto|split; [simpl; auto|split; simpl; auto]]].
Qed.

(** a new commit is the primary's: known before, or made by this attempt *)
Lemma new_commit k st ct : committed s' k st ct -> ~ committed s k st ct ->
  F st = Some (VCommitted ct) \/
  (attempt prim i r = Some st /\ refused r a = false /\ committed s' (snd (prim st)) st ct).
Proof.
  intros C N.
  assert (CH : s' <> s) by (intros Q; rewrite Q in C; auto).
  destruct (moves_committed _ _ _ _ _ _ _ MV C) as [Q|[Q|(p & E & E1 & E2 & E3)]]; [tauto| |].
  - destruct r as [p|st0 ct0 keys|st0 keys|p|st0 fut keys|k0 lk cl cu fs rm|st0 keys|st0 ct0 keys txns|k0 st0 adv]; simpl in Q; try tauto.
    + destruct Q as [Q|[]]. inversion Q; subst st0 ct0. assert (RU' := RU). unfold rule in RU'.
      destruct (attempt prim i (RCommit st ct keys)) as [x|] eqn:A.
      2:{ left. apply (wi_known _ _ I). auto. }
      right. assert (x = st).
      { unfold attempt in A. destruct (_ && _); inversion A; auto. }
      subst x.
      assert (SU : succeeded a).
      { destruct (succeeded_dec a) as [|NS]; auto. exfalso. apply CH.
        assert (K : keyed (RCommit st ct keys)) by exact Logic.I.
        assert (RB := rejected_no_effect _ _ _ _ _ _ K SV NS). subst bs. rewrite firstn_nil. reflexivity. }
      split; [auto|split].
      * unfold refused. destruct SU as (-> & -> & ->). reflexivity.
      * assert (ALL : s' = apply_batches s bs).
        { destruct (all_or_nothing c s _ (RCommit st ct keys) a bs n Logic.I SV) as [Q1|Q1]; [destruct (CH Q1)|exact Q1]. }
        rewrite ALL. unfold attempt in A. destruct (Nat.eqb i (fst (prim st)) && _) eqn:E; [|discriminate].
        apply andb_true_iff in E. destruct E as [_ E]. apply existsb_exists in E. destruct E as (k1 & K1 & K2).
        apply beqb_true in K2. subst k1. unfold serve in SV. eapply commit_effect; eauto. apply OK.
    + left. apply filter_In in Q. destruct Q as [Q1 Q2]. simpl in Q2. assert (RU' := RU). unfold rule in RU'.
      apply RU' in Q1. rewrite Q2 in Q1. apply (wi_known _ _ I). auto.
  - right. subst r. destruct RU as (R1 & R2).
    assert (SU : succeeded a).
    { destruct (succeeded_dec a) as [|NS]; auto. exfalso. apply CH.
      assert (K : keyed (RPrewrite p)) by exact Logic.I.
      assert (RB := rejected_no_effect _ _ _ _ _ _ K SV NS). subst bs. rewrite firstn_nil. reflexivity. }
    assert (ALL : s' = apply_batches s bs).
    { destruct (all_or_nothing c s _ (RPrewrite p) a bs n Logic.I SV) as [Q1|Q1]; [destruct (CH Q1)|exact Q1]. }
    assert (SV' := SV). unfold serve in SV'.
    destruct (prewrite_cases _ _ _ _ _ _ OK SV' SU) as (P0 & [(B & _)|(ac & A & NN & L & [(T & R & B)|(T & R & B)])]).
    + exfalso. apply CH. rewrite B, firstn_nil. reflexivity.
    + assert (T1 : pw_try1 p = true).
      { destruct (pw_try1 p) eqn:E; auto. exfalso. assert (Y := prewrite_loop_try _ _ _ _ _ _ _ _ L eq_refl). congruence. }
      destruct (R2 T1) as (S1 & S2 & m & M1 & M2 & M3). subst st. split; [unfold attempt; rewrite T1; auto|split].
      * unfold refused. apply Z.eqb_neq. congruence.
      * rewrite ALL, B, E2, R, <- M2.
        destruct (one_pc_effect s p ac (m_key m) OK P0 A T) as (E4 & _); auto.
        assert (OK1 := OK). eapply prewrite_loop_done1; eauto.
    + congruence.
Qed.

(** a new rollback is known before, or made on the primary by a status check *)
Lemma new_rollback k st : rolled_back s' k st -> ~ rolled_back s k st ->
  F st = Some VRolledBack \/
  (In st (txns_of r) /\ i = fst (prim st) /\ rolled_back s' (snd (prim st)) st /\ attempt prim i r = None).
Proof.
  intros C N. destruct (moves_rolled _ _ _ _ _ _ MV C) as [Q|Q]; [tauto|].
  destruct r as [p|st0 ct0 keys|st0 keys|p|st0 fut keys|k0 lk cl cu fs rm|st0 keys|st0 ct0 keys txns|k0 st0 adv]; simpl in Q; try tauto.
  - subst st0. left. destruct RU as [Q|Q]; [apply (wi_quit _ _ I) in Q; tauto|apply (wi_known _ _ I); auto].
  - destruct Q as [-> ->]. right. simpl in RU. rewrite RU. simpl. auto.
  - simpl in RU. destruct RU.
  - left. destruct Q as (ct & L & Q). assert (RU' := RU). unfold rule in RU'. apply RU' in Q.
    replace (0 <? ct) with false in Q by (symmetry; apply Z.ltb_ge; auto). apply (wi_known _ _ I). auto.
Qed.

Lemma txn_after st ct k : committed s' k st ct -> st < ct.
Proof.
  intros C. destruct step_facts as (g & G1 & G2 & G3 & G4 & G5).
  rewrite <- G2 in C. assert (F1 := committed_for _ _ _ _ _ (gi_k _ _ _ _ G4 k) C).
  destruct HP as (H1 & H2 & _). apply H2 in F1. destruct F1 as (F1 & F2 & _). apply H1 in F1. lia.
Qed.

(** what an attempt commits agrees with what was decided before *)
Lemma attempt_agrees st ct : attempt prim i r = Some st -> committed s' (snd (prim st)) st ct ->
  F st = None \/ F st = Some (VCommitted ct).
Proof.
  intros A C. destruct (attempt_facts st A) as (A1 & A2 & A3 & A4 & _).
  destruct step_facts as (g & G1 & G2 & G3 & G4 & G5).
  destruct (F st) as [[ct'|]|] eqn:E; auto.
  - right. destruct (wi_fc _ _ I st ct' E) as (L & _ & D). unfold pstore, dead in D.
    specialize (AV st A3). rewrite <- A2 in *. destruct D as [D|D]; [|lia].
    apply G5 in D; [|lia]. rewrite G2 in *. f_equal. f_equal.
    rewrite <- G2 in *. eapply commit_one; [exact HP|apply (gi_k _ _ _ _ G4)| |]; eauto.
  - exfalso. destruct (wi_fr _ _ I st E) as [D|[D|D]]; unfold pstore, dead in D; [tauto| |specialize (AV st A3); lia].
    specialize (AV st A3). rewrite <- A2 in *. apply G5 in D; [|lia].
    rewrite <- G2 in C. eapply ki_excl; [apply (gi_k _ _ _ _ G4)| |]; eauto.
Qed.

Lemma status_agrees st : In st (txns_of r) -> i = fst (prim st) -> rolled_back s' (snd (prim st)) st ->
  F st = None \/ F st = Some VRolledBack.
Proof.
  intros A1 A2 C. destruct step_facts as (g & G1 & G2 & G3 & G4 & G5).
  destruct (F st) as [[ct'|]|] eqn:E; auto. exfalso.
  destruct (wi_fc _ _ I st ct' E) as (L & _ & D). unfold pstore, dead in D.
  specialize (AV st A1). rewrite <- A2 in *. destruct D as [D|D]; [|lia].
  apply G5 in D; [|lia]. rewrite <- G2 in C. eapply ki_excl; [apply (gi_k _ _ _ _ G4)| |]; eauto.
Qed.

(** the new fate: what the primary now says about the transaction of the request *)
Definition upd (st : Z) (v : verdict) : fate := fun x => if x =? st then Some v else F x.
Lemma upd_eq st v : upd st v st = Some v.
Proof. unfold upd. rewrite Z.eqb_refl. auto. Qed.
Lemma upd_ne st v x : x <> st -> upd st v x = F x.
Proof. intros Q. unfold upd. apply Z.eqb_neq in Q. rewrite Q. auto. Qed.

Lemma new_fate : exists F', ext F F' /\
  (forall k st ct, committed s' k st ct -> F' st = Some (VCommitted ct)) /\
  (forall k st, rolled_back s' k st -> F' st = Some VRolledBack) /\
  (forall st ct, F' st = Some (VCommitted ct) -> F st = Some (VCommitted ct) \/
     (attempt prim i r = Some st /\ refused r a = false /\ committed s' (snd (prim st)) st ct)) /\
  (forall st, F' st = Some VRolledBack -> F st = Some VRolledBack \/
     (i = fst (prim st) /\ rolled_back s' (snd (prim st)) st)).
Proof.
  assert (CC : forall k st ct, committed s k st ct -> F st = Some (VCommitted ct)) by (intros; eapply (wi_c _ _ I i); eauto).
  assert (RR : forall k st, rolled_back s k st -> F st = Some VRolledBack) by (intros; eapply (wi_r _ _ I i); eauto).
  (* the transaction an attempt is for, or the one whose status is asked *)
  destruct (attempt prim i r) as [st|] eqn:A;
    assert (NCO := new_commit); assert (NRO := new_rollback); assert (MVV := MV);
    assert (AAG := attempt_agrees); assert (SAG := status_agrees).
  - (* which commit timestamp the attempt carries *)
    assert (T : exists ct, forall k x y, committed s' k x y -> ~ committed s k x y -> F x <> Some (VCommitted y) -> x = st /\ y = ct).
    { destruct r as [p|st0 ct0 keys|st0 keys|p|st0 fut keys|k0 lk cl cu fs rm|st0 keys|st0 ct0 keys txns|k0 st0 adv]; try discriminate.
      - exists (r_1pc a). intros k x y C N NF. destruct (NCO _ _ _ C N) as [Q|(Q1 & Q2 & Q3)]; [tauto|].
        rewrite A in Q1. inversion Q1; subst x. split; auto.
        destruct (moves_committed _ _ _ _ _ _ _ MVV C) as [Q|[Q|(p' & E & E1 & E2 & E3)]]; [tauto|destruct Q|auto].
      - exists ct0. intros k x y C N NF. destruct (NCO _ _ _ C N) as [Q|(Q1 & Q2 & Q3)]; [tauto|].
        rewrite A in Q1. inversion Q1; subst x. split; auto.
        destruct (moves_committed _ _ _ _ _ _ _ MVV C) as [Q|[[Q|[]]|(p' & E & _)]]; [tauto| |discriminate].
        inversion Q; auto. }
    destruct T as (ct & T).
    assert (NR : forall k x, rolled_back s' k x -> F x = Some VRolledBack).
    { intros k x Q. destruct (rolled_back_dec s k x) as [Q1|Q1]; [eauto|].
      destruct (NRO _ _ Q Q1) as [Q2|(_ & _ & _ & Q2)]; auto. congruence. }
    destruct (committed_dec s' (snd (prim st)) st ct) as [C|C].
    + destruct (AAG st ct A C) as [Q|Q].
      * assert (RF : refused r a = false).
        { destruct (committed_dec s (snd (prim st)) st ct) as [D|D]; [apply CC in D; congruence|].
          destruct (NCO _ _ _ C D) as [Q1|(_ & Q1 & _)]; [congruence|auto]. }
        exists (upd st (VCommitted ct)). split; [|split; [|split; [|split]]].
        -- intros x v E. rewrite upd_ne; auto. congruence.
        -- intros k x y D. destruct (committed_dec s k x y) as [D1|D1].
           { apply CC in D1. rewrite upd_ne; auto. congruence. }
           destruct (NCO _ _ _ D D1) as [D2|(D2 & D3 & D4)].
           { rewrite upd_ne; auto. congruence. }
           rewrite A in D2; inversion D2; subst x.
           destruct (T k st y D D1) as (_ & ->); [congruence|]. apply upd_eq.
        -- intros k x D. apply NR in D. rewrite upd_ne; auto. congruence.
        -- intros x y. destruct (Z.eq_dec x st) as [->|NE].
           ++ rewrite upd_eq. intros E. inversion E; subst y. auto.
           ++ rewrite upd_ne by auto. auto.
        -- intros x. destruct (Z.eq_dec x st) as [->|NE]; [rewrite upd_eq; discriminate|rewrite upd_ne by auto; auto].
      * exists F. split; [intros ? ?; auto|split; [|split; [auto|split; auto]]].
        intros k x y D. destruct (committed_dec s k x y) as [D1|D1]; [eauto|].
        destruct (NCO _ _ _ D D1) as [D2|(D2 & D3 & D4)]; auto. rewrite A in D2; inversion D2; subst x.
        destruct (AAG st y A D4) as [E|E]; congruence.
    + exists F. split; [intros ? ?; auto|split; [|split; [auto|split; auto]]].
      intros k x y D. destruct (committed_dec s k x y) as [D1|D1]; [eauto|].
      destruct (NCO _ _ _ D D1) as [D2|(D2 & D3 & D4)]; auto. rewrite A in D2; inversion D2; subst x.
      destruct (AAG st y A D4) as [E|E]; auto. exfalso.
      destruct (T k st y D D1) as (_ & ->); [congruence|]. auto.
  - assert (NC : forall k x y, committed s' k x y -> F x = Some (VCommitted y)).
    { intros k x y D. destruct (committed_dec s k x y) as [D1|D1]; [eauto|].
      destruct (NCO _ _ _ D D1) as [D2|(D2 & _)]; auto. congruence. }
    assert (T : (forall k x, rolled_back s' k x -> F x = Some VRolledBack) \/
                exists st, In st (txns_of r) /\ i = fst (prim st) /\ rolled_back s' (snd (prim st)) st /\ F st <> Some VRolledBack /\
                forall k x, rolled_back s' k x -> ~ rolled_back s k x -> F x <> Some VRolledBack -> x = st).
    { destruct r as [p|st0 ct0 keys|st0 keys|p|st0 fut keys|k0 lk cl cu fs rm|st0 keys|st0 ct0 keys txns|k0 st0 adv].
      all: try (left; intros k x D; destruct (rolled_back_dec s k x) as [D1|D1]; [eauto|];
                destruct (NRO _ _ D D1) as [D2|_]; [auto|];
                destruct (moves_rolled _ _ _ _ _ _ MVV D) as [Q|Q]; [tauto|]; simpl in Q; tauto).
      - left; intros k x D; destruct (rolled_back_dec s k x) as [D1|D1]; [eauto|].
        destruct (moves_rolled _ _ _ _ _ _ MVV D) as [Q|Q]; [tauto|]. simpl in Q.
        subst st0. destruct RU as [Q|Q]; [apply (wi_quit _ _ I) in Q; tauto|apply (wi_known _ _ I); auto].
      - destruct (rolled_back_dec s' (snd (prim lk)) lk) as [D|D].
        + assert (E : prim lk = (i, k0)) by exact RU.
          destruct (F lk) as [[y|]|] eqn:EF.
          * right. exists lk. rewrite E in *. simpl. split; [auto|split; [auto|split; [auto|split; [congruence|]]]].
            intros k x Q1 Q2 _. destruct (moves_rolled _ _ _ _ _ _ MVV Q1) as [Q|Q]; [tauto|]. simpl in Q. symmetry; tauto.
          * left. intros k x Q1. destruct (rolled_back_dec s k x) as [Q2|Q2]; [eauto|].
            destruct (moves_rolled _ _ _ _ _ _ MVV Q1) as [Q|Q]; [tauto|]. simpl in Q. destruct Q as [-> ->]. auto.
          * right. exists lk. rewrite E in *. simpl. split; [auto|split; [auto|split; [auto|split; [congruence|]]]].
            intros k x Q1 Q2 _. destruct (moves_rolled _ _ _ _ _ _ MVV Q1) as [Q|Q]; [tauto|]. simpl in Q. symmetry; tauto.
        + left. intros k x Q1. destruct (rolled_back_dec s k x) as [Q2|Q2]; [eauto|].
          destruct (NRO _ _ Q1 Q2) as [Q|(Q3 & Q4 & Q5 & _)]; auto. destruct Q3 as [<-|[]]. tauto.
      - destruct RU.
      - left; intros k x D; destruct (rolled_back_dec s k x) as [D1|D1]; [eauto|].
        destruct (moves_rolled _ _ _ _ _ _ MVV D) as [Q|Q]; [tauto|]. simpl in Q.
        destruct Q as (ct & L & Q). assert (RU' := RU). unfold rule in RU'. apply RU' in Q.
        replace (0 <? ct) with false in Q by (symmetry; apply Z.ltb_ge; auto). apply (wi_known _ _ I). auto. }
    destruct T as [T|(st & T1 & T2 & T3 & T4 & T5)].
    { exists F. split; [intros ? ?; auto|split; [auto|split; [auto|split; auto]]]. }
    destruct (SAG st T1 T2 T3) as [Q|Q]; [|congruence].
    exists (upd st VRolledBack). split; [|split; [|split; [|split]]].
    + intros x v E. rewrite upd_ne; auto. congruence.
    + intros k x y D. apply NC in D. rewrite upd_ne; auto. congruence.
    + intros k x D. destruct (Z.eq_dec x st) as [->|NE]; [apply upd_eq|]. rewrite upd_ne by auto.
      destruct (rolled_back_dec s k x) as [D1|D1]; [eauto|].
      destruct (F x) as [[|]|] eqn:E; auto; exfalso; apply NE; eapply T5; eauto; congruence.
    + intros x y. destruct (Z.eq_dec x st) as [->|NE]; [rewrite upd_eq; discriminate|rewrite upd_ne by auto; auto].
    + intros x. destruct (Z.eq_dec x st) as [->|NE]; [auto|rewrite upd_ne by auto; auto].
Qed.

(** what is learned from an answer that arrives is true *)
Lemma learned_true F' st v : heard = true ->
  (forall k st ct, committed s' k st ct -> F' st = Some (VCommitted ct)) ->
  (forall k st, rolled_back s' k st -> F' st = Some VRolledBack) ->
  In (st, v) (learned prim i r a) -> F' st = Some v.
Proof.
  intros HD C R IN. assert (ALL : s' = apply_batches s bs) by (rewrite firstn_all2; auto).
  destruct step_facts as (g & G1 & G2 & G3 & G4 & G5).
  destruct r as [p|st0 ct0 keys|st0 keys|p|st0 fut keys|k0 lk cl cu fs rm|st0 keys|st0 ct0 keys txns|k0 st0 adv]; try destruct IN.
  - unfold learned in IN. destruct (attempt prim i (RCommit st0 ct0 keys)) as [x|] eqn:A; [|destruct IN].
    destruct (refused _ a) eqn:RF; [destruct IN|]. destruct IN as [IN|[]]. inversion IN; subst st v.
    apply (C (snd (prim st0))). rewrite ALL.
    assert (SU : succeeded a).
    { unfold refused in RF. unfold succeeded. destruct (r_err a); [discriminate|]. destruct (r_res a); [|discriminate].
      destruct (r_exist a); [auto|discriminate]. }
    unfold attempt in A. destruct (Nat.eqb i (fst (prim st0)) && _) eqn:E; [|discriminate].
    apply andb_true_iff in E. destruct E as [_ E]. apply existsb_exists in E. destruct E as (k1 & K1 & K2).
    apply beqb_true in K2. subst k1. unfold serve in SV. eapply commit_effect; eauto. apply OK.
  - unfold learned in IN. destruct (r_err a) eqn:ER; [destruct IN|]. unfold serve in SV.
    destruct (handle_status _ _ _ _ _ _ _ _ _ _ _ SV ER) as (LP & CS).
    destruct (lock_at s k0) as [l|] eqn:L; [destruct (Z.eq_dec (l_ts l) lk) as [E|E]|].
    + destruct (check_status_lock _ _ _ _ _ _ _ _ _ _ OK L E CS) as (Q1 & Q2). rewrite Q1 in IN. cbn [Z.ltb Z.compare] in IN.
      assert (SR : In (st, v) [(lk, VRolledBack)] /\ says_rolled_back a).
      { unfold says_rolled_back. destruct (r_action a); cbn [Z.eqb In] in IN; try (destruct IN; fail); split; auto. }
      destruct SR as [[SR|[]] SR2]. inversion SR; subst st v. apply (R k0). rewrite ALL. apply Q2; auto.
    + assert (NH : ~ holds s k0 lk) by (intros (l' & H1 & H2); congruence).
      destruct (check_status_nolock _ _ _ _ _ _ _ _ _ OK LP NH CS) as
        [(Q1 & -> & ->)|[(ct & Q1 & Q2 & Q3 & -> & ->)|(Q1 & Q2 & [(-> & -> & ->)|(-> & -> & ->)])]]; cbn in IN.
      * destruct IN as [IN|[]]. inversion IN; subst. apply (R k0). rewrite ALL. auto.
      * replace (0 <? ct) with true in IN by (symmetry; apply Z.ltb_lt; lia).
        destruct IN as [IN|[]]. inversion IN; subst. apply (C k0). rewrite ALL. auto.
      * destruct IN as [IN|[]]. inversion IN; subst. apply (R k0). rewrite ALL. apply mark_rollback_rolled. apply OK.
      * destruct IN.
    + assert (NH : ~ holds s k0 lk) by (intros (l' & H1 & H2); congruence).
      destruct (check_status_nolock _ _ _ _ _ _ _ _ _ OK LP NH CS) as
        [(Q1 & -> & ->)|[(ct & Q1 & Q2 & Q3 & -> & ->)|(Q1 & Q2 & [(-> & -> & ->)|(-> & -> & ->)])]]; cbn in IN.
      * destruct IN as [IN|[]]. inversion IN; subst. apply (R k0). rewrite ALL. auto.
      * replace (0 <? ct) with true in IN by (symmetry; apply Z.ltb_lt; lia).
        destruct IN as [IN|[]]. inversion IN; subst. apply (C k0). rewrite ALL. auto.
      * destruct IN as [IN|[]]. inversion IN; subst. apply (R k0). rewrite ALL. apply mark_rollback_rolled. apply OK.
      * destruct IN.
Qed.

Lemma wreq_inv w' : wstep c prim w (WReq i r n heard) = Ok w' -> exists F', winv F' w' /\ ext F F'.
Proof.
  intros W. destruct new_fate as (F' & X & C & R & FC & FR). exists F'. split; auto.
  destruct step_facts as (g & G1 & G2 & G3 & G4 & G5).
  cbn [wstep] in W. rewrite SV in W. cbn [obind] in W. rewrite G1 in W. cbn [obind fst] in W.
  assert (K : forall st v, In (st, v) (if heard then learned prim i r a ++ w_known w else w_known w) -> F' st = Some v).
  { intros st v Q. assert (LT := learned_true F' st v). destruct heard eqn:HD; [|apply X; apply (wi_known _ _ I); auto].
    apply in_app_iff in Q. destruct Q as [Q|Q]; [|apply X; apply (wi_known _ _ I); auto].
    apply LT; auto. }
  assert (RG : forall j, w_reg w' j = if Nat.eqb j i then g else w_reg w j).
  { intros j. destruct (attempt prim i r); apply Ok_inj in W; subst w'; reflexivity. }
  assert (PS : forall st, i = fst (prim st) -> pstore w' st = s').
  { intros st E. unfold pstore. rewrite RG, <- E, Nat.eqb_refl. auto. }
  apply winv_move with (F := F) (w := w) (i := i) (g := g); auto.
  - lia.
  - rewrite G2. auto.
  - rewrite G2. auto.
  - intros st v. destruct (attempt prim i r); apply Ok_inj in W; subst w'; apply K.
  - intros st ct Q. destruct (FC st ct Q) as [Q1|(Q1 & Q2 & Q3)]; [auto|right].
    destruct (attempt_facts st Q1) as (A1 & A2 & _). split; [eapply txn_after; eauto|split].
    + rewrite Q1 in W. apply Ok_inj in W. subst w'. cbn [w_open]. rewrite Q2, andb_false_r. simpl; auto.
    + rewrite PS; auto.
  - intros st Q. destruct (FR st Q) as [Q1|(Q1 & Q2)]; [auto|right]. rewrite PS; auto.
  - intros st Q. destruct (attempt prim i r); apply Ok_inj in W; subst w'; auto. cbn [w_open].
    destruct (_ && _); simpl; auto.
  - intros st Q. destruct (wi_quit _ _ I st Q) as (Q1 & Q2 & Q3).
    destruct (attempt prim i r) as [x|] eqn:A; apply Ok_inj in W; subst w'; auto. cbn [w_quit w_sent w_open].
    split; [auto|split].
    + intros Y. apply In_remove1 in Y. auto.
    + destruct (attempt_facts x A) as (A1 & _). destruct (_ && _); auto. simpl. intros [->|Y]; auto.
  - destruct (attempt prim i r); apply Ok_inj in W; subst w'; auto.
Qed.
End Request.

Lemma wstep_inv F w e w' : winv F w -> obeys c P prim w e -> wstep c prim w e = Ok w' ->
  exists F', winv F' w' /\ ext F F'.
Proof.
  intros I O S. destruct e as [st|st|i r n heard|i e].
  - cbn [wstep] in S. apply Ok_inj in S. subst w'. exists F. split; [|intros ? ?; auto].
    destruct O as [O _]. destruct I. constructor; auto. intros st' Q. destruct (wi_quit0 st' Q) as (A & B & D).
    split; [auto|split; auto]. simpl in *. intros [->|Y]; auto.
  - cbn [wstep] in S. apply Ok_inj in S. subst w'. destruct O as [[O1 O2] _].
    exists (upd F st VRolledBack). assert (NC : forall ct, F st <> Some (VCommitted ct)).
    { intros ct Q. apply (wi_fc _ _ I) in Q. tauto. }
    assert (X : ext F (upd F st VRolledBack)).
    { intros x v Q. destruct (Z.eq_dec x st) as [->|NE]; [|rewrite upd_ne; auto].
      rewrite upd_eq. destruct v; auto. destruct (NC ct); auto. }
    split; auto. constructor; simpl.
    + apply I.
    + intros i k x ct Q. apply X. eapply (wi_c _ _ I); eauto.
    + intros i k x Q. apply X. eapply (wi_r _ _ I); eauto.
    + intros x v Q. apply X. eapply (wi_known _ _ I); eauto.
    + intros x ct. destruct (Z.eq_dec x st) as [->|NE]; [rewrite upd_eq; discriminate|rewrite upd_ne by auto].
      apply (wi_fc _ _ I).
    + intros x. destruct (Z.eq_dec x st) as [->|NE]; [auto|rewrite upd_ne by auto]. intros Q.
      destruct (wi_fr _ _ I x Q) as [|[|]]; auto.
    + intros x [->|Q]; [rewrite upd_eq; auto|]. destruct (wi_quit _ _ I x Q) as (A & B & D).
      split; [apply X; auto|auto].
  - destruct O as [(O1 & O2 & O4) O3].
    destruct (serve c (w_reg w i) r) as [[a bs]|] eqn:SV.
    2:{ cbn [wstep] in S. rewrite SV in S. discriminate. }
    eapply wreq_inv with (F := F) (a := a) (bs := bs); eauto.
  - cbn [wstep] in S. destruct (step c (w_reg w i) e) as [g|] eqn:ST; [|discriminate]. cbn [obind] in S.
    apply Ok_inj in S. subst w'. exists F. split; [|intros ? ?; auto]. eapply wother_inv; eauto. apply O.
Qed.

Lemma wrun_inv : forall w es w', wrun c P prim w es w' -> forall F, winv F w -> exists F', winv F' w' /\ ext F F'.
Proof.
  intros w es w' R. induction R as [w|w e w1 es w2 O S R IH]; intros F I.
  - exists F. split; [auto|intros ? ?; auto].
  - destruct (wstep_inv _ _ _ _ I O S) as (F1 & I1 & X1). destruct (IH F1 I1) as (F2 & I2 & X2).
    exists F2. split; auto. intros st v Q. auto.
Qed.

(** * Every lock names the primary of its transaction *)
Lemma kmove_primary r a s s' k l : kmove r a s s' k ->
  (forall p, r = RPrewrite p -> pw_primary p = snd (prim (pw_start p))) ->
  (forall p, r = RPessLock p -> pl_primary p = snd (prim (pl_start p))) ->
  (forall l, lock_at s k = Some l -> l_primary l = snd (prim (l_ts l))) ->
  lock_at s' k = Some l -> l_primary l = snd (prim (l_ts l)).
Proof.
  intros M R1 R2 IH L'.
  destruct M as
      [ L W D
      | l0 l1 L0 L IT E1 E2 E3 E4 E5 E6 E7 E8 E9 E10 W D
      | p l1 E L E1 E2 E3 WF X W D E4
      | p l1 E L E1 E2 WF X W D DN E4
      | st' fut keys l0 E L0 E1 E2 E3 IK L W D
      | ct' l0 IC L0 T LT L MC W D
      | p w E X N1 N2 E1 E2 L W D DN
      | l0 L0 IT L W D TT TY RO
      | st' IT NH' L NC NR W D RO ]; try congruence.
  - apply IH. congruence.
  - rewrite L in L'. inversion L'; subst l1. rewrite E5, E1. auto.
  - rewrite L in L'. inversion L'; subst l1. rewrite E4, E1. auto.
  - rewrite L in L'. inversion L'; subst l1. rewrite E4, E1. auto.
  - apply IH. congruence.
Qed.

Lemma moves_primary r a :
  (forall p, r = RPrewrite p -> pw_primary p = snd (prim (pw_start p))) ->
  (forall p, r = RPessLock p -> pl_primary p = snd (prim (pl_start p))) ->
  forall bs s, moves r a s bs ->
  (forall k l, lock_at s k = Some l -> l_primary l = snd (prim (l_ts l))) ->
  forall k l, lock_at (apply_batches s bs) k = Some l -> l_primary l = snd (prim (l_ts l)).
Proof.
  intros R1 R2. induction bs as [|b bs IH]; intros s M H; [auto|]. destruct M as (_ & M2 & M3).
  apply (IH _ M3). intros k l. eapply kmove_primary; eauto.
Qed.

Definition locks_named (w : world) : Prop :=
  forall i k l, lock_at (rg_store (w_reg w i)) k = Some l -> l_primary l = snd (prim (l_ts l)).

Lemma wstep_named F w e w' : winv F w -> locks_named w -> obeys c P prim w e -> wstep c prim w e = Ok w' -> locks_named w'.
Proof.
  intros I N O S. destruct e as [st|st|i r n heard|i e]; cbn [wstep] in S.
  - apply Ok_inj in S. subst w'. exact N.
  - apply Ok_inj in S. subst w'. exact N.
  - destruct O as [(O1 & O2 & O4) O3].
    destruct (serve c (w_reg w i) r) as [[a bs]|] eqn:SV; [|discriminate].
    cbn [obind] in S. cbn [step] in S. rewrite SV in S. cbn [obind fst snd] in S.
    assert (RG : forall j, rg_store (w_reg w' j) =
              if Nat.eqb j i then apply_batches (rg_store (w_reg w i)) (firstn n bs) else rg_store (w_reg w j)).
    { intros j. destruct (attempt prim i r); apply Ok_inj in S; subst w'; cbn [w_reg set_reg];
        destruct (Nat.eqb j i); reflexivity. }
    intros j k l. rewrite RG. destruct (Nat.eqb j i); [|apply N].
    apply moves_primary with (r := r) (a := a).
    + intros p ->. apply O4.
    + intros p ->. apply O4.
    + apply moves_firstn. eapply serve_moves; eauto. apply (wi_reg _ _ I i).
    + apply N.
  - destruct O as [O _]. destruct (step c (w_reg w i) e) as [g|] eqn:ST; [|discriminate]. cbn [obind] in S.
    apply Ok_inj in S. subst w'. intros j k l. cbn [w_reg set_reg]. destruct (Nat.eqb j i); [|apply N].
    destruct e as [r n|ts| |sp|st ct|n]; cbn [step] in ST; try (destruct O; fail);
      try (apply Ok_inj in ST; subst g; apply N).
    destruct (nth_error (rg_pool (w_reg w i)) n) as [b|] eqn:E; apply Ok_inj in ST; subst g; [|apply N].
    cbn [rg_store]. apply nth_error_In in E. destruct (wi_reg _ _ I i) as [H _ _ PO].
    rewrite del_lock; [apply N|auto|]. intros o Ho.
    destruct (PO b o E Ho) as [(k' & t' & -> & _)|(k' & t' & -> & _)]; eauto.
Qed.

Lemma wrun_named : forall w es w', wrun c P prim w es w' -> forall F, winv F w -> locks_named w -> locks_named w'.
Proof.
  intros w es w' R. induction R as [w|w e w1 es w2 O S R IH]; intros F I N; auto.
  destruct (wstep_inv _ _ _ _ I O S) as (F1 & I1 & X1). exact (IH F1 I1 (wstep_named F w e w1 I N O S)).
Qed.

End World.

Lemma atomic c P prim es1 w1 es2 w2 : plan_ok P ->
  wrun c P prim init_world es1 w1 -> wrun c P prim w1 es2 w2 ->
  forall i1 k1 i2 k2 st, 
  (forall ct, committed_in w1 i1 k1 st ct -> ~ rolled_back_in w2 i2 k2 st) /\
  (forall ct, rolled_back_in w1 i1 k1 st -> ~ committed_in w2 i2 k2 st ct) /\
  (forall c1 c2, committed_in w1 i1 k1 st c1 -> committed_in w2 i2 k2 st c2 -> c1 = c2).
Proof.
  intros HP R1 R2 i1 k1 i2 k2 st.
  destruct (wrun_inv c P prim HP _ _ _ R1 _ (winv_init P prim)) as (F1 & I1 & _).
  destruct (wrun_inv c P prim HP _ _ _ R2 _ I1) as (F2 & I2 & X).
  split; [|split].
  - intros ct A B. apply (wi_c _ _ _ _ I1) in A. apply (wi_r _ _ _ _ I2) in B. apply X in A. congruence.
  - intros ct A B. apply (wi_r _ _ _ _ I1) in A. apply (wi_c _ _ _ _ I2) in B. apply X in A. congruence.
  - intros ca cb A B. apply (wi_c _ _ _ _ I1) in A. apply (wi_c _ _ _ _ I2) in B. apply X in A. congruence.
Qed.

(** a verdict somebody has heard is the fate of the transaction everywhere, then and later *)
Lemma verdict_binds c P prim es1 w1 es2 w2 : plan_ok P ->
  wrun c P prim init_world es1 w1 -> wrun c P prim w1 es2 w2 ->
  forall st v, In (st, v) (w_known w1) -> forall i k,
  (forall ct, committed_in w2 i k st ct -> v = VCommitted ct) /\
  (rolled_back_in w2 i k st -> v = VRolledBack).
Proof.
  intros HP R1 R2 st v K i k.
  destruct (wrun_inv c P prim HP _ _ _ R1 _ (winv_init P prim)) as (F1 & I1 & _).
  destruct (wrun_inv c P prim HP _ _ _ R2 _ I1) as (F2 & I2 & X).
  apply (wi_known _ _ _ _ I1) in K. apply X in K. split.
  - intros ct A. apply (wi_c _ _ _ _ I2) in A. congruence.
  - intros A. apply (wi_r _ _ _ _ I2) in A. congruence.
Qed.

(** what a resolver finds: every lock names the primary key of its transaction *)
Lemma lock_names_primary c P prim es w : plan_ok P -> wrun c P prim init_world es w ->
  forall i k l, lock_at (rg_store (w_reg w i)) k = Some l -> l_primary l = snd (prim (l_ts l)).
Proof.
  intros HP R. eapply (wrun_named c P prim HP); eauto. { apply winv_init. }
  intros i k l L. discriminate.
Qed.
