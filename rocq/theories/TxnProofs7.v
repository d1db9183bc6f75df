(** Proofs of the transaction theorems, part 7: resolving, and how locks go away. *)
From Coq Require Import ZArith List Lia Bool.
From Verif Require Import Bytes SMap Outcome TxnModel TxnSpec TxnBase TxnMoves TxnHandlers TxnHandlers2 TxnHandlers3 TxnInv TxnRun TxnProofs TxnProofs2 TxnProofs3 TxnProofs4 TxnProofs5.
Import ListNotations.
Open Scope Z_scope.

(** * One log entry per request *)
Lemma resolve_batches_one st ct ls : (length (resolve_batches st ct ls) <= 1)%nat.
Proof.
  unfold resolve_batches. destruct (0 <? ct).
  - unfold do_commit. destruct ls; simpl; lia.
  - rewrite do_rollback_eq. destruct (_ ++ _); simpl; lia.
Qed.

Lemma keyed_one c s mx r a bs : keyed r -> handle c s mx r = Ok (a, bs) -> (length bs <= 1)%nat.
Proof.
  intros K X. destruct (resolve_dec r) as [(st & ct & keys & txns & ->)|N]; [|eapply handle_one; eauto].
  simpl in K. unfold handle in X. destruct (validate _); [ok_reply X; simpl; lia|].
  destruct (existsb _ _); [discriminate|]. unfold resolve_lock in X.
  destruct (_ <? _); [ok_reply X; simpl; lia|]. destruct keys; [congruence|].
  destruct (bad_commit _); [ok_reply X; simpl; lia|].
  destruct (resolve_loop _ _ _ _); [ok_reply X; simpl; lia|]. apply Ok_inj in X. injection X as <- <-.
  apply resolve_batches_one.
Qed.

Lemma all_or_nothing c s mx r a bs n : keyed r -> handle c s mx r = Ok (a, bs) ->
  apply_batches s (firstn n bs) = s \/ apply_batches s (firstn n bs) = apply_batches s bs.
Proof.
  intros K X. apply keyed_one in X; auto. destruct bs as [|b [|b' bs']]; [left|destruct n; [left|right]|simpl in X; lia];
    rewrite ?firstn_nil; simpl; rewrite ?firstn_nil; auto.
Qed.

(** * How a lock goes away *)
Lemma moves_gone r a : forall bs s k l, lock_at s k = Some l -> moves r a s bs ->
  (exists l', lock_at (apply_batches s bs) k = Some l' /\ l_ts l' = l_ts l) \/
  exists m l', (m <= length bs)%nat /\ l_ts l' = l_ts l /\ lock_gone r a (apply_batches s (firstn m bs)) k l'.
Proof.
  induction bs as [|b bs IH]; intros s k l L M; [left; exists l; auto|].
  destruct M as (M1 & M2 & M3). assert (K := M2 k).
  destruct (lock_at (apply_batch s b) k) as [l1|] eqn:E.
  - assert (T : l_ts l1 = l_ts l).
    { destruct K as
      [ L1 W D
      | l0 l' L1 L2 IT E1 E2 E3 E4 E5 E6 E7 E8 E9 E10 W D
      | p l' E' L1 E1 E2 E3 WF X W D
      | p l' E' L1 E1 E2 WF X W D DN
      | st' fut keys l0 E' L1 E1 E2 E3 IK L2 W D
      | ct l0 IC L1 T LT L2 MC W D
      | p w E' X N1 N2 E1 E2 L1 W D DN
      | l0 L1 IT L2 W D TT TY
      | st' IT NH' L1 NC NR W D ]; try congruence.
      - destruct X as [(X & _)|(l0 & X1 & X2 & X3)]; congruence.
      - destruct X as (_ & i & m & _ & _ & [(_ & Q & _)|(_ & [Q|(l0 & Q & Q1 & Q2)])]); congruence. }
    destruct (IH _ _ _ E M3) as [(l' & A & B)|(m & l' & A & B & C)].
    + left. exists l'. split; [exact A|congruence].
    + right. exists (S m), l'. split; [simpl; lia|split; [congruence|exact C]].
  - right. exists 1%nat, l. split; [simpl; lia|split; [auto|]]. simpl. eapply kmove_gone; eauto.
Qed.

Lemma serve_gone c g r a bs k l n : store_ok (rg_store g) -> serve c g r = Ok (a, bs) -> lock_at (rg_store g) k = Some l ->
  (exists l', lock_at (apply_batches (rg_store g) (firstn n bs)) k = Some l' /\ l_ts l' = l_ts l) \/
  exists m l', (m <= n)%nat /\ l_ts l' = l_ts l /\ lock_gone r a (apply_batches (rg_store g) (firstn m bs)) k l'.
Proof.
  intros H X L. assert (M := moves_firstn _ _ n _ _ (serve_moves _ _ _ _ _ H X)).
  destruct (moves_gone _ _ _ _ _ _ L M) as [A|(m & l' & A & B & C)]; auto.
  right. exists m, l'. rewrite firstn_firstn in C. rewrite firstn_length in A. split; [lia|split; auto].
  rewrite Nat.min_l in C by lia. exact C.
Qed.

(** * Resolving a whole region *)
Lemma length_del {K V} cmp (m : smap K V) k : (length (del cmp m k) <= length m)%nat.
Proof. induction m as [|[k' v] m IH]; simpl; auto. destruct (cmp _ _); simpl; lia. Qed.

Lemma scan_locks_spec c s st : store_ok s -> Z.of_nat (length (locks s)) <= scan_lock_limit c -> st <> 0 ->
  forall l, In l (scan_locks c s st (st + 1)) <-> (lock_at s (l_key l) = Some l /\ l_ts l = st).
Proof.
  intros H LE N l. unfold scan_locks. rewrite firstn_all2.
  2:{ assert (F : forall (f : lock -> bool) x, (length (filter f x) <= length x)%nat).
      { intros f x. induction x as [|y x IH]; simpl; auto. destruct (f y); simpl; lia. }
      specialize (F (lock_in_ts st (st + 1)) (map snd (locks s))). rewrite map_length in F. lia. }
  rewrite filter_In, in_map_iff. unfold lock_in_ts. rewrite !andb_true_iff, negb_true_iff, Z.eqb_neq, Z.leb_le, Z.ltb_lt.
  split.
  - intros (([k l'] & E & I) & (T0 & T1) & T2). simpl in E. subst l'.
    apply (In_get bcmp bcmp_ok) in I; [|apply H]. assert (W := ok_lock _ H _ _ I). destruct W as (W & _). rewrite W.
    split; [exact I|lia].
  - intros (L & T). split; [|lia]. exists (l_key l, l). split; auto. apply get_In in L; [auto|apply bcmp_ok].
Qed.

Lemma first_bad_none s ls : store_ok s -> (forall l, In l ls -> lock_at s (l_key l) = Some l) -> first_bad ls = None ->
  forall l, In l ls -> is_write (l_type l).
Proof.
  intros H E F l I. unfold first_bad in F. apply (find_none _ _ F) in I as J. apply negb_false_iff in J.
  destruct (ok_lock _ H _ _ (E l I)) as (_ & _ & _ & T & _). unfold writable_type in J. unfold is_write.
  destruct (l_type l); simpl in J; try discriminate; auto; destruct T as [T|[T|T]]; congruence.
Qed.

Lemma resolve_one s st ct ls : store_ok s ->
  (forall l, In l ls -> lock_at s (l_key l) = Some l /\ is_write (l_type l)) ->
  forall l, In l ls -> let s' := apply_batches s (resolve_batches st ct ls) in
    (0 < ct -> committed s' (l_key l) st ct) /\ (ct <= 0 -> rolled_back s' (l_key l) st).
Proof.
  intros H E l I. cbv zeta. unfold resolve_batches. destruct (Z.ltb_spec 0 ct) as [C|C].
  - split; [intros _; apply do_commit_effect; auto|lia].
  - split; [lia|intros _]. apply do_rollback_effect; auto.
    assert (F := fold_rb_add_with ls (mkRb [] [] []) (l_key l)). simpl in F.
    destruct F as [_ F]. destruct F as [F|F]; [right; right; eauto|auto|auto].
Qed.

Lemma resolve_locks_len s st ct ls : (length (locks (apply_batches s (resolve_batches st ct ls))) <= length (locks s))%nat.
Proof.
  assert (B : forall b s, (forall o, In o b -> forall k l, o <> PutLock k l) -> (length (locks (apply_batch s b)) <= length (locks s))%nat).
  { induction b as [|o b IH]; intros s0 A; simpl; auto.
    etransitivity; [apply IH; intros; apply A; simpl; auto|].
    destruct o; simpl; auto; [exfalso; eapply (A (PutLock _ _)); simpl; eauto|apply length_del]. }
  unfold resolve_batches. destruct (0 <? ct).
  - unfold do_commit. destruct ls as [|l0 lr] eqn:EL; [auto|]. rewrite <- EL. clear EL. apply B.
    intros o I k l ->. apply in_commit_batch in I. destruct I as [(? & _ & _ & Q)|(? & _ & Q)]; discriminate.
  - rewrite do_rollback_eq. destruct (_ ++ _); [auto|]. apply B.
    intros o I k l' ->. apply in_rb_batch in I. destruct I as [(? & _ & Q)|[(? & _ & Q)|(? & _ & Q)]]; discriminate.
Qed.

Lemma moves_app r a : forall x y s, moves r a s (x ++ y) -> moves r a s x /\ moves r a (apply_batches s x) y.
Proof.
  induction x as [|b x IH]; intros y s M; [split; [exact I|exact M]|].
  destruct M as (M1 & M2 & M3). destruct (IH _ _ M3) as [A B]. split; [split; [auto|split; auto]|exact B].
Qed.
Lemma apply_app s x y : apply_batches s (x ++ y) = apply_batches (apply_batches s x) y.
Proof. apply fold_left_app. Qed.

Lemma batch_resolve_effect c r0 a0 : forall txns s r bs, store_ok s -> Z.of_nat (length (locks s)) <= scan_lock_limit c ->
  (forall st ct, In (st, ct) txns -> 0 < st) ->
  batch_resolve c s txns = (r, bs) -> r_res r = [] -> moves r0 a0 s bs ->
  (forall k l, lock_at (apply_batches s bs) k = Some l -> lock_at s k = Some l) /\
  (forall st ct, In (st, ct) txns -> forall k, ~ holds (apply_batches s bs) k st) /\
  (NoDup (map fst txns) -> forall st ct k, In (st, ct) txns -> holds s k st ->
     exists b1 b2, bs = b1 ++ b2 /\ (0 < ct -> committed (apply_batches s b1) k st ct) /\ (ct <= 0 -> rolled_back (apply_batches s b1) k st)).
Proof.
  induction txns as [|[st ct] txns IH]; intros s r bs H LE PS X NR M; cbn [batch_resolve] in X.
  - injection X as <- <-. split; [auto|split; [intros st ct []|intros _ st ct k []]].
  - set (ls := scan_locks c s st (st + 1)) in *.
    destruct (first_bad ls) as [lb|] eqn:FB; [injection X as <- <-; discriminate|].
    set (b := resolve_batches st ct ls) in *. set (s1 := apply_batches s b) in *.
    destruct (batch_resolve c s1 txns) as [r' bs'] eqn:BR. injection X as <- <-.
    destruct (moves_app _ _ _ _ _ M) as [M1 M2]. fold s1 in M2.
    assert (H1 : store_ok s1) by (unfold s1; eapply moves_store_ok; eauto).
    assert (P0 : 0 < st) by (eapply PS; simpl; eauto).
    assert (SC := scan_locks_spec c s st H LE ltac:(lia)). fold ls in SC.
    assert (LW : forall l, In l ls -> is_write (l_type l)) by (apply (first_bad_none s ls H); [intros l I'; apply SC; auto|auto]).
    assert (LL : forall k, lock_at s1 k = if in_dec_b k (map l_key ls) then None else lock_at s k)
      by (intros; apply resolve_batches_locks; auto).
    assert (LE1 : Z.of_nat (length (locks s1)) <= scan_lock_limit c).
    { assert (Q := resolve_locks_len s st ct ls). unfold s1, b. lia. }
    destruct (IH s1 r' bs' H1 LE1 ltac:(intros; eapply PS; simpl; eauto) BR NR M2) as (I1 & I2 & I3).
    rewrite apply_app. fold s1.
    assert (NS : forall k, ~ holds s1 k st).
    { intros k (l & A & B). rewrite LL in A. destruct (in_dec_b k (map l_key ls)) as [|n]; [discriminate|].
      destruct (ok_lock _ H _ _ A) as (W & _). apply n. rewrite <- W. apply in_map. apply SC. rewrite W. auto. }
    split; [|split].
    + intros k l A. apply I1 in A. rewrite LL in A. destruct (in_dec_b k (map l_key ls)); [discriminate|auto].
    + intros st' ct' [E|IN] k.
      * inversion E; subst st' ct'. intros (l & A & B). apply (NS k). exists l. auto.
      * eapply I2; eauto.
    + intros ND st' ct' k IN (l & A & B). inversion ND as [|x y N1 N2]; subst x y. destruct IN as [E|IN].
      * inversion E; subst st' ct'. clear E. exists b, bs'. split; [auto|]. fold s1. destruct (ok_lock _ H _ _ A) as (W & _).
        assert (IL : In l ls) by (apply SC; rewrite W; auto).
        assert (LW' : forall l', In l' ls -> lock_at s (l_key l') = Some l' /\ is_write (l_type l')).
        { intros l' I'. split; [apply SC; auto|auto]. }
        destruct (resolve_one s st ct ls H LW' l IL) as [R1 R2].
        rewrite W in R1, R2. replace (l_ts l) with st by auto. exact (conj R1 R2).
      * assert (NE : st' <> st).
        { intros Q. apply N1. apply in_map_iff. exists (st', ct'). auto. }
        destruct (I3 N2 st' ct' k IN) as (b1 & b2 & E1 & E2 & E3).
        { exists l. split; auto. rewrite LL. destruct (in_dec_b k (map l_key ls)) as [i|]; auto. exfalso.
          apply in_map_iff in i. destruct i as (l' & K & I'). apply SC in I'. destruct I' as [L' T']. rewrite K in L'. congruence. }
        exists (b ++ b1), b2. rewrite E1, app_assoc, apply_app. auto.
Qed.

Lemma resolve_start c s mx st ct keys txns a bs : handle c s mx (RResolve st ct keys txns) = Ok (a, bs) -> r_err a = None ->
  resolve_lock c s st ct keys txns = Ok (a, bs) /\
  (keys = [] -> forall st ct, In (st, ct) txns -> 0 <= ct) /\ (keys <> [] -> 0 <= ct).
Proof.
  intros X N. destruct (handle_some _ _ _ _ _ _ X N) as [V E]. unfold handle in X. rewrite V, E in X. split; auto.
  unfold resolve_lock in X. destruct (_ <? _); [ok_reply X; discriminate|]. destruct keys as [|k0 kr]; split; try congruence; intros _.
  - destruct (existsb bad_commit txns) eqn:B; [ok_reply X; discriminate|]. intros st' ct' IN.
    destruct (Z_lt_le_dec ct' 0); auto. exfalso. assert (Q : existsb bad_commit txns = true).
    { apply existsb_exists. exists (st', ct'). split; auto. unfold bad_commit. simpl. apply orb_true_iff. left. apply Z.ltb_lt; auto. }
    congruence.
  - destruct (bad_commit (st, ct)) eqn:B; [ok_reply X; discriminate|]. unfold bad_commit in B. simpl in B.
    apply orb_false_iff in B. destruct B as [B _]. apply Z.ltb_ge in B. auto.
Qed.

(** C21: a resolve request over the whole region *)
Lemma resolve_region c P g st0 ct0 txns a bs n :
  plan_ok P -> reachable c P g -> allowed c P g (EReq (RResolve st0 ct0 [] txns) n) ->
  serve c g (RResolve st0 ct0 [] txns) = Ok (a, bs) -> succeeded a ->
  Z.of_nat (length (locks (rg_store g))) <= scan_lock_limit c -> NoDup (map fst txns) ->
  let s' := apply_batches (rg_store g) bs in
  forall st ct k, In (st, ct) txns ->
    ~ holds s' k st /\
    (holds (rg_store g) k st -> (0 < ct -> committed s' k st ct) /\ (ct = 0 -> rolled_back s' k st)).
Proof.
  intros HP RE AL S SU LE ND s' st ct k IN. assert (I := reachable_inv _ _ _ HP RE).
  assert (RO := allowed_req_ok _ _ _ _ _ _ _ AL S).
  assert (M := serve_moves _ _ _ _ _ (gi_ok _ _ _ _ I) S).
  destruct (resolve_start _ _ _ _ _ _ _ _ _ S (proj1 SU)) as (R & CT & _).
  assert (PS : forall st ct, In (st, ct) txns -> 0 < st).
  { intros st' ct' Q. destruct RO as (Q1 & _). destruct HP as (HP & _). apply (HP st'), Q1. simpl. apply in_map_iff. exists (st', ct'); auto. }
  unfold resolve_lock in R. destruct (_ <? _); [ok_reply R; destruct SU; discriminate|].
  destruct (existsb _ _); [ok_reply R; destruct SU; discriminate|]. apply Ok_inj in R.
  destruct (batch_resolve_effect c (RResolve st0 ct0 [] txns) a txns (rg_store g) a bs (gi_ok _ _ _ _ I) LE PS R
     (proj1 (proj2 SU)) M) as (_ & E2 & E3).
  split; [eapply E2; eauto|]. intros HO. destruct (E3 ND st ct k IN HO) as (b1 & b2 & EB & C1 & C2).
  assert (GR : forall m, grow m (apply_batches (rg_store g) b1) s').
  { unfold s'. rewrite EB, apply_app. rewrite EB in M. destruct (moves_app _ _ _ _ _ M) as [M1 M2].
    assert (IR : is_resolve (RResolve st0 ct0 [] txns)) by (repeat eexists).
    assert (I1 : ginv P (apply_batches (rg_store g) b1) (rg_safe g) (rg_pool g)).
    { apply (moves_inv P (RResolve st0 ct0 [] txns) a _ _ HP b1 (rg_store g) I M1 RO (or_introl IR)). }
    apply (moves_inv P (RResolve st0 ct0 [] txns) a _ _ HP b2 _ I1 M2 (req_ok_resolve _ _ _ _ _ _ IR RO) (or_introl IR)). }
  assert (PS' := PS _ _ IN). split.
  - intros Q. apply (GR 0); auto. 
  - intros ->. apply (GR 0); auto. apply C2. lia.
Qed.

Lemma resolve_keys c g st ct keys txns a bs : store_ok (rg_store g) -> keys <> [] ->
  serve c g (RResolve st ct keys txns) = Ok (a, bs) -> succeeded a ->
  let s' := apply_batches (rg_store g) bs in
  forall k, In k keys ->
    ~ holds s' k st /\
    (holds (rg_store g) k st -> (0 < ct -> committed s' k st ct) /\ (ct = 0 -> rolled_back s' k st)).
Proof.
  intros H NE S SU s' k IN. split.
  - eapply resolve_twice; eauto.
  - intros (l & A & B). destruct (resolve_start _ _ _ _ _ _ _ _ _ S (proj1 SU)) as (R & _ & CT).
    unfold resolve_lock in R. destruct (_ <? _); [ok_reply R; destruct SU; discriminate|].
    destruct keys as [|k0 kr] eqn:EK; [congruence|]. rewrite <- EK in *.
    destruct (bad_commit (st, ct)) eqn:BC; [ok_reply R; destruct SU; discriminate|].
    destruct (resolve_loop (rg_store g) st keys []) as [t|ls] eqn:L.
    { ok_reply R. destruct SU as (_ & Q & _); discriminate. }
    apply Ok_inj in R. injection R as <- <-.
    destruct (resolve_loop_effect _ st H keys [] ls L) as [_ EF].
    assert (IL : In l ls) by (eapply EF; eauto).
    assert (LW : forall l, In l ls -> lock_at (rg_store g) (l_key l) = Some l /\ is_write (l_type l)).
    { assert (S' := resolve_loop_spec _ st H _ _ _ L ltac:(intros ? [])). simpl in S'. intros l' I'. destruct (S' l' I') as (S1 & S2 & S3). split; auto. }
    destruct (resolve_one (rg_store g) st ct ls H LW l IL) as [R1 R2].
    destruct (ok_lock _ H _ _ A) as (W & _). rewrite W in R1, R2.
    split; [auto|]. intros Q. apply R2. lia.
Qed.

(** C42 *)
Lemma commit_durable c P g1 g1' es g2 st ct keys a bs n k :
  plan_ok P -> reachable c P g1 -> serve c g1 (RCommit st ct keys) = Ok (a, bs) -> succeeded a -> (length bs <= n)%nat ->
  allowed c P g1 (EReq (RCommit st ct keys) n) -> step c g1 (EReq (RCommit st ct keys) n) = Ok g1' ->
  run c P g1' es g2 -> rg_safe g2 < ct -> In k keys -> committed (rg_store g2) k st ct.
Proof.
  intros HP RE S SU N AL ST RN SF IN.
  assert (RE1 : reachable c P g1') by (eapply reachable_run; eauto; econstructor; eauto; constructor).
  assert (I1 := reachable_inv _ _ _ HP RE).
  refine (proj1 (commit_stays c P g1' es g2 k st ct HP RE1 RN _ SF)).
  cbn [step] in ST. rewrite S in ST. cbn [obind snd] in ST. apply Ok_inj in ST. subst g1'. cbn [rg_store with_store].
  rewrite firstn_all2 by auto. eapply commit_effect; eauto. apply I1.
Qed.

Lemma serve_rejected c g r a bs : keyed r -> serve c g r = Ok (a, bs) -> ~ succeeded a ->
  same_store (rg_store g) (apply_batches (rg_store g) bs).
Proof. intros K S N. rewrite (rejected_no_effect _ _ _ _ _ _ K S N). apply same_store_refl. Qed.
