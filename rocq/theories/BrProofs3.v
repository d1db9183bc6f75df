(** The cut a backup takes through the transactions. *)
From Coq Require Import ZArith List Bool Lia Sorted.
From Verif Require Import Bytes SMap Outcome TxnModel TxnSpec TxnBase TxnReadModel TxnReadSpec TxnReadProofs BrModel BrSpec BrProofs.
Import ListNotations.
Open Scope Z_scope.

Lemma mem_iff k l : mem k l = true <-> In k l.
Proof.
  unfold mem. rewrite existsb_exists. split.
  - intros (x & I & E). apply beqb_true in E. subst; auto.
  - intros I. exists k. split; auto. apply beqb_iff. auto.
Qed.
Lemma mem_false k l : mem k l = false <-> ~ In k l.
Proof. rewrite <- mem_iff. destruct (mem k l); split; intros; congruence. Qed.
Lemma nth_upd {A} : forall (l : list A) n x m, nth_error (upd l n x) m =
  if Nat.eq_dec n m then match nth_error l n with Some _ => Some x | None => None end else nth_error l m.
Proof.
  induction l as [|y l IH]; intros n x m.
  - destruct n; simpl; destruct m; auto; destruct (Nat.eq_dec _ _); auto; discriminate.
  - destruct n, m; simpl; auto. rewrite IH. destruct (Nat.eq_dec n m), (Nat.eq_dec (S n) (S m)); auto; congruence.
Qed.

Record binv (reg : bytes -> nat) (s : bk) : Prop := mkBinv {
  v_ts : forall i x, nth_error (b_txns s) i = Some x -> x_start x <= b_clock s /\
           (forall c, x_ct x = Some c -> x_start x < c <= b_clock s) ;
  v_uniq : forall i j x y, nth_error (b_txns s) i = Some x -> nth_error (b_txns s) j = Some y ->
           x_start x = x_start y \/ (exists c, x_ct x = Some c /\ x_ct y = Some c) -> i = j;
  v_done : forall i x, nth_error (b_txns s) i = Some x -> (forall k, In k (x_done x) -> In k (x_pre x)) /\
           (x_done x <> [] -> x_dead x = false /\ x_ct x <> None) /\
           (x_ct x <> None -> forall k, In k (x_keys x) -> In k (x_pre x)) /\ (forall k, In k (x_pre x) -> In k (x_keys x));
  v_ls : sorted bcmp (locks (b_store s));
  v_lock : forall k l, lock_at (b_store s) k = Some l -> exists i x, nth_error (b_txns s) i = Some x /\ l_ts l = x_start x /\ In k (x_pre x) /\ ~ In k (x_done x);
  v_rec : forall k t w, write_at (b_store s) k t = Some w -> w_op w = OpPut /\
           exists i x, nth_error (b_txns s) i = Some x /\ x_ct x = Some t /\ x_start x = w_start w /\ In k (x_done x);
  v_pre : forall i x k, nth_error (b_txns s) i = Some x -> In k (x_pre x) -> x_dead x = false -> ~ In k (x_done x) ->
           exists l, lock_at (b_store s) k = Some l /\ l_ts l = x_start x;
  v_com : forall i x k c, nth_error (b_txns s) i = Some x -> x_ct x = Some c -> In k (x_done x) ->
           write_at (b_store s) k c = Some (mkW (x_start x) OpPut []);
  v_tso : forall tso, b_tso s = Some tso -> tso <= b_clock s;
  v_none : b_tso s = None -> b_snaps s = [];
  v_snap : forall r g tso, In (r, g) (b_snaps s) -> b_tso s = Some tso ->
    (forall k t w, write_at g k t = Some w -> write_at (b_store s) k t = Some w /\ data_at g k (w_start w) = data_at (b_store s) k (w_start w)) /\
    (forall i x k c, nth_error (b_txns s) i = Some x -> x_ct x = Some c -> c <= tso -> x_dead x = false -> In k (x_keys x) -> reg k = r ->
       write_at g k c = Some (mkW (x_start x) OpPut [])) }.

Lemma binv_init reg : binv reg init_bk.
Proof.
  constructor; simpl; try (intros; discriminate); try (intros; contradiction); auto.
  - intros [|i] x H; discriminate.
  - intros [|i] j x y H; discriminate.
  - intros [|i] x H; discriminate.
  - constructor.
  - intros [|i] x k H; discriminate.
  - intros [|i] x k c H; discriminate.
Qed.

Lemma apply2 g o1 o2 : apply_batch g [o1; o2] = apply_wop (apply_wop g o1) o2.
Proof. reflexivity. Qed.

Ltac inj_upd H := rewrite nth_upd in H; destruct (Nat.eq_dec _ _) in H.

Lemma some_inj {A} (a b : A) : Some a = Some b -> a = b.
Proof. congruence. Qed.

Lemma binv_step reg s e s1 : locks_resolved reg s e -> binv reg s -> bstep s e = Some s1 -> binv reg s1.
Proof.
  intros LR [TS UQ DN LS LK RC PR CM TO NO SN] E. destruct s as [cl g xs tso sn]. cbn [b_clock b_store b_txns b_tso b_snaps] in *.
  destruct e as [keys|i k v|i|i k|i|i k|t|r]; cbn [bstep] in E; cbn [locks_resolved b_tso b_store] in LR.
  - (* begin *)
    apply some_inj in E; subst s1.
    assert (NX : forall j y, nth_error (xs ++ [mkTxn (cl + 1) keys [] None [] false]) j = Some y ->
      nth_error xs j = Some y \/ (j = length xs /\ y = mkTxn (cl + 1) keys [] None [] false)).
    { intros j y H. destruct (Nat.lt_ge_cases j (length xs)).
      - rewrite nth_error_app1 in H by auto. auto.
      - rewrite nth_error_app2 in H by auto. destruct (j - length xs)%nat eqn:D; simpl in H.
        + inversion H; subst. right. split; auto. lia.
        + destruct n; discriminate. }
    assert (OX : forall j y, nth_error xs j = Some y -> nth_error (xs ++ [mkTxn (cl + 1) keys [] None [] false]) j = Some y).
    { intros j y H. rewrite nth_error_app1; auto. apply nth_error_Some. congruence. }
    constructor; simpl; auto.
    + intros j y H. apply NX in H. destruct H as [H|[-> ->]]; simpl.
      * destruct (TS _ _ H) as [A B]. split; [lia|]. intros c C. specialize (B c C). lia.
      * split; [lia|]. intros; discriminate.
    + intros j1 j2 y1 y2 H1 H2 D. apply NX in H1. apply NX in H2.
      destruct H1 as [H1|[-> ->]], H2 as [H2|[-> ->]]; auto.
      * eapply UQ; eauto.
      * exfalso. destruct D as [D|(c & _ & D)]; [|discriminate]. simpl in D. destruct (TS _ _ H1). lia.
      * exfalso. destruct D as [D|(c & D & _)]; [|discriminate]. simpl in D. destruct (TS _ _ H2). lia.
    + intros j y H. apply NX in H. destruct H as [H|[-> ->]]; simpl; [apply (DN _ _ H)|]. 
      split; [intros ? []|]. split; [congruence|]. split; [congruence|intros ? []].
    + intros k l H. destruct (LK _ _ H) as (j & y & A & B). exists j, y. auto.
    + intros k t w H. destruct (RC _ _ _ H) as (O & j & y & A & B). split; auto. exists j, y. auto.
    + intros j y k H I. apply NX in H. destruct H as [H|[-> ->]]; [eapply PR; eauto|]. destruct I.
    + intros j y k c H C I. apply NX in H. destruct H as [H|[-> ->]]; [eapply CM; eauto|]. destruct I.
    + intros t H. specialize (TO t H). lia.
    + intros r g' t I T. destruct (SN r g' t I T) as [A B]. split; auto.
      intros j y k c H C. apply NX in H. destruct H as [H|[-> ->]]; [eapply B; eauto|]. discriminate.
  - (* prewrite *)
    destruct (nth_error xs i) as [x|] eqn:X; [|discriminate].
    destruct (mem k (x_keys x) && negb (mem k (x_pre x)) && negb (x_dead x)) eqn:G; [|discriminate].
    apply andb_true_iff in G. destruct G as [G DE]. apply andb_true_iff in G. destruct G as [MK MP].
    apply mem_iff in MK. apply negb_true_iff in MP, DE. apply mem_false in MP.
    destruct (lock_at g k) as [l0|] eqn:L0; [discriminate|]. apply some_inj in E; subst s1.
    set (x' := mkTxn (x_start x) (x_keys x) (k :: x_pre x) (x_ct x) (x_done x) (x_dead x)).
    assert (NX : forall j y, nth_error (upd xs i x') j = Some y -> exists y0, nth_error xs j = Some y0 /\
        x_start y = x_start y0 /\ x_keys y = x_keys y0 /\ x_ct y = x_ct y0 /\ x_done y = x_done y0 /\ x_dead y = x_dead y0 /\
        (forall k', In k' (x_pre y) <-> In k' (x_pre y0) \/ (j = i /\ k' = k))).
    { intros j y H. rewrite nth_upd, X in H. destruct (Nat.eq_dec i j) as [<-|N].
      - injection H as <-. exists x. simpl. do 6 (split; [auto|]). intros k'. split; [intros [->|I]; auto|intros [I|[_ ->]]; auto].
      - exists y. do 6 (split; [auto|]). intros k'. split; auto. intros [I|[-> _]]; [auto|congruence]. }
    assert (OX : forall j y0, nth_error xs j = Some y0 -> exists y, nth_error (upd xs i x') j = Some y /\
        x_start y = x_start y0 /\ x_keys y = x_keys y0 /\ x_ct y = x_ct y0 /\ x_done y = x_done y0 /\ x_dead y = x_dead y0 /\
        (forall k', In k' (x_pre y0) -> In k' (x_pre y))).
    { intros j y H. rewrite nth_upd, X. destruct (Nat.eq_dec i j) as [<-|N].
      - exists x'. assert (y = x) by congruence. subst y. simpl. do 6 (split; [auto|]). intros; right; auto.
      - exists y. auto 10. }
    rewrite apply2. constructor; cbn [b_clock b_store b_txns b_tso b_snaps]; auto.
    + intros j y H. destruct (NX _ _ H) as (y0 & H0 & -> & _ & -> & _). apply (TS _ _ H0).
    + intros j1 j2 y1 y2 H1 H2 D. destruct (NX _ _ H1) as (z1 & Z1 & S1 & _ & C1 & _). destruct (NX _ _ H2) as (z2 & Z2 & S2 & _ & C2 & _).
      rewrite S1, S2, C1, C2 in D. eapply UQ; eauto.
    + intros j y H. destruct (NX _ _ H) as (y0 & H0 & S1 & K1 & C1 & D1 & E1 & P1). destruct (DN _ _ H0) as (A1 & A2 & A3 & A4).
      rewrite D1, E1, C1, K1. split; [|split; [auto|split]].
      * intros k' I. apply P1. left. auto.
      * intros C k' I. apply P1. left. exact (A3 C k' I).
      * intros k' I. apply P1 in I. destruct I as [I|[-> ->]]; auto. assert (y0 = x) by congruence. subst. auto.
    + cbn [apply_wop locks]. apply sorted_put; auto using bcmp_ok.
    + intros k' l H. rewrite lock_at_put in H. destruct (bytes_eq_dec k k') as [<-|N].
      * injection H as <-. destruct (OX _ _ X) as (y & Y & S1 & _ & _ & D1 & _). exists i, y. split; auto. split; [simpl; congruence|].
        rewrite nth_upd, X in Y. destruct (Nat.eq_dec i i); [|congruence]. injection Y as <-. split; [simpl; auto|].
        simpl. intros I. apply MP. exact (proj1 (DN _ _ X) k I).
      * destruct (LK k' l H) as (j & y0 & H0 & T & P & ND). destruct (OX _ _ H0) as (y & Y & S1 & _ & _ & D1 & _ & P1).
        exists j, y. rewrite S1, D1. auto.
    + intros k' t w H. destruct (RC k' t w H) as (O & j & y0 & H0 & C & S & I). split; auto.
      destruct (OX _ _ H0) as (y & Y & S1 & _ & C1 & D1 & _). exists j, y. rewrite C1, S1, D1. auto.
    + intros j y k' H I DD ND. destruct (NX _ _ H) as (y0 & H0 & S1 & _ & _ & D1 & E1 & P1). rewrite lock_at_put. rewrite S1.
      destruct (bytes_eq_dec k k') as [<-|N].
      * apply P1 in I. destruct I as [I|[-> _]].
        -- exfalso. rewrite D1 in ND. rewrite E1 in DD. destruct (PR _ _ k H0 I DD ND) as (l & L & _). congruence.
        -- exists (a_lock k (x_start x)). split; auto. simpl. assert (y0 = x) by congruence. congruence.
      * apply P1 in I. destruct I as [I|[_ I]]; [|congruence]. rewrite D1 in ND. rewrite E1 in DD. apply (PR _ _ k' H0 I DD ND).
    + intros j y k' c H C I. destruct (NX _ _ H) as (y0 & H0 & S1 & _ & C1 & D1 & _). rewrite S1. rewrite C1 in C. rewrite D1 in I.
      apply (CM _ _ k' c H0 C I).
    + intros r g' t I T. destruct (SN r g' t I T) as [A B]. split.
      * intros k' t' w W. destruct (A k' t' w W) as [A1 A2]. split; [exact A1|].
        change (data_at (apply_wop (apply_wop g (PutData k (x_start x) v)) (PutLock k (a_lock k (x_start x)))) k' (w_start w))
          with (data_at (apply_wop g (PutData k (x_start x) v)) k' (w_start w)).
        rewrite data_at_put. destruct (kt_dec (k, x_start x) (k', w_start w)) as [EQ|N]; [|auto]. exfalso.
        assert (E1 : k = k') by congruence. assert (E2 : x_start x = w_start w) by congruence. subst k'.
        destruct (RC k t' w A1) as (_ & j & y & H & _ & S & I2). assert (i = j) by (eapply UQ; eauto; left; congruence).
        subst j. assert (y = x) by congruence. subst y. apply MP. exact (proj1 (DN _ _ X) k I2).
      * intros j y k' c H C L DD K R. destruct (NX _ _ H) as (y0 & H0 & S1 & K1 & C1 & D1 & E1 & _).
        rewrite S1. rewrite C1 in C. rewrite E1 in DD. rewrite K1 in K. eapply B; eauto.
  - (* commit timestamp *)
    destruct (nth_error xs i) as [x|] eqn:X; [|discriminate]. destruct (x_ct x) as [c0|] eqn:CT; [discriminate|].
    destruct (forallb (fun k => mem k (x_pre x)) (x_keys x) && negb (x_dead x)) eqn:G; [|discriminate].
    apply andb_true_iff in G. destruct G as [FB DE]. apply negb_true_iff in DE. rewrite forallb_forall in FB. apply some_inj in E; subst s1.
    set (x' := mkTxn (x_start x) (x_keys x) (x_pre x) (Some (cl + 1)) (x_done x) (x_dead x)).
    assert (NX : forall j y, nth_error (upd xs i x') j = Some y -> exists y0, nth_error xs j = Some y0 /\
        x_start y = x_start y0 /\ x_keys y = x_keys y0 /\ x_pre y = x_pre y0 /\ x_done y = x_done y0 /\ x_dead y = x_dead y0 /\
        ((j = i /\ x_ct y = Some (cl + 1)) \/ (j <> i /\ x_ct y = x_ct y0))).
    { intros j y H. rewrite nth_upd, X in H. destruct (Nat.eq_dec i j) as [<-|N].
      - injection H as <-. exists x. simpl. auto 10.
      - exists y. do 6 (split; [auto|]). right. auto. }
    assert (OX : forall j y0, nth_error xs j = Some y0 -> exists y, nth_error (upd xs i x') j = Some y /\
        x_start y = x_start y0 /\ x_pre y = x_pre y0 /\ x_done y = x_done y0 /\ (forall c, x_ct y0 = Some c -> x_ct y = Some c)).
    { intros j y H. rewrite nth_upd, X. destruct (Nat.eq_dec i j) as [<-|N].
      - exists x'. assert (y = x) by congruence. subst y. simpl. do 4 (split; [auto|]). intros; congruence.
      - exists y. auto 10. }
    assert (NODONE : x_done x = []).
    { destruct (x_done x) eqn:Q; auto. exfalso. destruct (DN _ _ X) as (_ & A2 & _). rewrite Q in A2. destruct A2; [discriminate|congruence]. }
    constructor; cbn [b_clock b_store b_txns b_tso b_snaps]; auto.
    + intros j y H. destruct (NX _ _ H) as (y0 & H0 & -> & _ & _ & _ & _ & D). destruct (TS _ _ H0) as [A B]. split; [lia|].
      intros c C. destruct D as [[-> D]|[_ D]]; rewrite D in C.
      * injection C as <-. lia.
      * specialize (B _ C). lia.
    + intros j1 j2 y1 y2 H1 H2 D. destruct (NX _ _ H1) as (z1 & Z1 & S1 & _ & _ & _ & _ & C1). destruct (NX _ _ H2) as (z2 & Z2 & S2 & _ & _ & _ & _ & C2).
      destruct D as [D|(c & D1 & D2)]; [rewrite S1, S2 in D; eapply UQ; eauto|].
      destruct C1 as [[-> C1]|[N1 C1]], C2 as [[-> C2]|[N2 C2]]; auto.
      * exfalso. rewrite C1 in D1. rewrite C2 in D2. injection D1 as <-. destruct (TS _ _ Z2) as [_ B]. specialize (B _ D2). lia.
      * exfalso. rewrite C1 in D1. rewrite C2 in D2. injection D2 as <-. destruct (TS _ _ Z1) as [_ B]. specialize (B _ D1). lia.
      * rewrite C1 in D1. rewrite C2 in D2. eapply UQ; eauto.
    + intros j y H. destruct (NX _ _ H) as (y0 & H0 & S1 & K1 & P1 & D1 & E1 & C1). destruct (DN _ _ H0) as (A1 & A2 & A3 & A4).
      rewrite D1, E1, P1, K1. split; [auto|]. split; [|split; [|auto]].
      * intros ND. destruct C1 as [[-> C1]|[N C1]]; rewrite C1; [|auto]. assert (y0 = x) by congruence. subst. congruence.
      * intros C k' I. destruct C1 as [[-> C1]|[N C1]].
        -- assert (y0 = x) by congruence. subst. apply mem_iff. auto.
        -- rewrite C1 in C. auto.
    + intros k' l H. destruct (LK k' l H) as (j & y0 & H0 & T & P & ND). destruct (OX _ _ H0) as (y & Y & S1 & P1 & D1 & _).
      exists j, y. rewrite S1, P1, D1. auto.
    + intros k' t w H. destruct (RC k' t w H) as (O & j & y0 & H0 & C & S & I). split; auto.
      destruct (OX _ _ H0) as (y & Y & S1 & _ & D1 & C1). exists j, y. rewrite S1, D1. auto.
    + intros j y k' H I DD ND. destruct (NX _ _ H) as (y0 & H0 & S1 & _ & P1 & D1 & E1 & _). rewrite S1.
      rewrite P1 in I. rewrite D1 in ND. rewrite E1 in DD. eapply PR; eauto.
    + intros j y k' c H C I. destruct (NX _ _ H) as (y0 & H0 & S1 & _ & _ & D1 & _ & C1). rewrite S1. rewrite D1 in I.
      destruct C1 as [[-> C1]|[N C1]].
      * assert (y0 = x) by congruence. subst. rewrite NODONE in I. destruct I.
      * rewrite C1 in C. eapply CM; eauto.
    + intros t H. specialize (TO t H). lia.
    + intros r g' t I T. destruct (SN r g' t I T) as [A B]. split; auto.
      intros j y k' c H C L DD K R. destruct (NX _ _ H) as (y0 & H0 & S1 & K1 & _ & _ & E1 & C1). rewrite S1. rewrite E1 in DD. rewrite K1 in K.
      destruct C1 as [[-> C1]|[N C1]].
      * exfalso. rewrite C1 in C. injection C as <-. specialize (TO t T). lia.
      * rewrite C1 in C. eapply B; eauto.
  - (* commit of a key *)
    destruct (nth_error xs i) as [x|] eqn:X; [|discriminate]. destruct (x_ct x) as [c0|] eqn:CT; [|discriminate].
    destruct (mem k (x_pre x) && negb (mem k (x_done x)) && negb (x_dead x)) eqn:G; [|discriminate].
    apply andb_true_iff in G. destruct G as [G DE]. apply andb_true_iff in G. destruct G as [MP MD].
    apply mem_iff in MP. apply negb_true_iff in MD, DE. apply mem_false in MD. apply some_inj in E; subst s1.
    set (x' := mkTxn (x_start x) (x_keys x) (x_pre x) (Some c0) (k :: x_done x) (x_dead x)).
    assert (NX : forall j y, nth_error (upd xs i x') j = Some y -> exists y0, nth_error xs j = Some y0 /\
        x_start y = x_start y0 /\ x_keys y = x_keys y0 /\ x_pre y = x_pre y0 /\ x_ct y = x_ct y0 /\ x_dead y = x_dead y0 /\
        (forall k', In k' (x_done y) <-> In k' (x_done y0) \/ (j = i /\ k' = k))).
    { intros j y H. rewrite nth_upd, X in H. destruct (Nat.eq_dec i j) as [<-|N].
      - injection H as <-. exists x. simpl. do 6 (split; [auto|]). intros k'. split; [intros [->|I]; auto|intros [I|[_ ->]]; auto].
      - exists y. do 6 (split; [auto|]). intros k'. split; auto. intros [I|[-> _]]; [auto|congruence]. }
    assert (OX : forall j y0, nth_error xs j = Some y0 -> exists y, nth_error (upd xs i x') j = Some y /\
        x_start y = x_start y0 /\ x_pre y = x_pre y0 /\ x_ct y = x_ct y0 /\ (forall k', In k' (x_done y) <-> In k' (x_done y0) \/ (j = i /\ k' = k))).
    { intros j y H. rewrite nth_upd, X. destruct (Nat.eq_dec i j) as [<-|N].
      - exists x'. assert (y = x) by congruence. subst y. simpl. do 4 (split; [auto|]).
        intros k'. split; [intros [->|I]; auto|intros [I|[_ ->]]; auto].
      - exists y. do 4 (split; [auto|]). intros k'. split; auto. intros [I|[-> _]]; [auto|congruence]. }
    destruct (PR _ _ k X MP DE MD) as (lk & LL & LT).
    assert (OLD : forall k' t w, write_at g k' t = Some w -> (k, c0) <> (k', t)).
    { intros k' t w W Q. assert (E1 : k = k') by congruence. assert (E2 : c0 = t) by congruence. subst k' t.
      destruct (RC k c0 w W) as (_ & j & y & H & C & _ & I). assert (i = j) by (eapply UQ; eauto). subst j.
      assert (y = x) by congruence. subst y. auto. }
    rewrite apply2.
    assert (WA : forall k' t', write_at (apply_wop (apply_wop g (PutWrite k c0 (mkW (x_start x) OpPut []))) (DelLock k)) k' t' =
        if kt_dec (k, c0) (k', t') then Some (mkW (x_start x) OpPut []) else write_at g k' t').
    { intros k' t'. apply (write_at_put g k c0 (mkW (x_start x) OpPut []) k' t'). }
    assert (LA : forall k', lock_at (apply_wop (apply_wop g (PutWrite k c0 (mkW (x_start x) OpPut []))) (DelLock k)) k' =
        if bytes_eq_dec k k' then None else lock_at g k').
    { intros k'. apply (lock_at_del (apply_wop g (PutWrite k c0 (mkW (x_start x) OpPut []))) k k'). exact LS. }
    constructor; cbn [b_clock b_store b_txns b_tso b_snaps]; auto.
    + intros j y H. destruct (NX _ _ H) as (y0 & H0 & -> & _ & _ & -> & _). apply (TS _ _ H0).
    + intros j1 j2 y1 y2 H1 H2 D. destruct (NX _ _ H1) as (z1 & Z1 & S1 & _ & _ & C1 & _). destruct (NX _ _ H2) as (z2 & Z2 & S2 & _ & _ & C2 & _).
      rewrite S1, S2, C1, C2 in D. eapply UQ; eauto.
    + intros j y H. destruct (NX _ _ H) as (y0 & H0 & S1 & K1 & P1 & C1 & E1 & D1). destruct (DN _ _ H0) as (A1 & A2 & A3 & A4).
      rewrite C1, E1, P1, K1. split; [|split; [|auto]].
      * intros k' I. apply D1 in I. destruct I as [I|[-> ->]]; auto. assert (y0 = x) by congruence. subst; auto.
      * intros ND. destruct (Nat.eq_dec j i) as [->|N].
        -- assert (y0 = x) by congruence. subst. split; [auto|congruence].
        -- apply A2. intros Q. apply ND. destruct (x_done y) as [|k1 l1] eqn:Q1; auto. exfalso.
           assert (I : In k1 (k1 :: l1)) by (left; auto). apply D1 in I. rewrite Q in I. destruct I as [[]|[-> _]]. congruence.
    + cbn [apply_wop locks]. apply sorted_del; auto using bcmp_ok.
    + intros k' l H. rewrite LA in H. destruct (bytes_eq_dec k k') as [<-|N]; [discriminate|].
      destruct (LK k' l H) as (j & y0 & H0 & T & P & ND). destruct (OX _ _ H0) as (y & Y & S1 & P1 & _ & D1).
      exists j, y. rewrite S1, P1. split; [auto|]. split; [auto|]. split; [auto|]. intros I. apply D1 in I. destruct I as [I|[_ I]]; [auto|congruence].
    + intros k' t w H. rewrite WA in H. destruct (kt_dec (k, c0) (k', t)) as [Q|N].
      * injection H as <-. assert (E1 : k = k') by congruence. assert (E2 : c0 = t) by congruence. subst k' t. split; [reflexivity|].
        destruct (OX _ _ X) as (y & Y & S1 & _ & C1 & D1). exists i, y. rewrite C1, S1. split; [auto|]. split; [auto|]. split; [auto|].
        apply D1. right; auto.
      * destruct (RC k' t w H) as (O & j & y0 & H0 & C & S & I). split; auto.
        destruct (OX _ _ H0) as (y & Y & S1 & _ & C1 & D1). exists j, y. rewrite C1, S1. split; [auto|]. split; [auto|]. split; [auto|].
        apply D1. auto.
    + intros j y k' H I DD ND. destruct (NX _ _ H) as (y0 & H0 & S1 & _ & P1 & _ & E1 & D1). rewrite LA. rewrite S1.
      rewrite P1 in I. rewrite E1 in DD. assert (ND0 : ~ In k' (x_done y0)) by (intros Q; apply ND; apply D1; auto).
      destruct (PR _ _ k' H0 I DD ND0) as (l & L & T). destruct (bytes_eq_dec k k') as [<-|N]; [|exists l; auto].
      exfalso. assert (l = lk) by congruence. subst l. assert (i = j) by (eapply UQ; eauto; left; congruence). subst j.
      apply ND. apply D1. auto.
    + intros j y k' c H C I. destruct (NX _ _ H) as (y0 & H0 & S1 & _ & _ & C1 & _ & D1). rewrite S1, WA. rewrite C1 in C.
      apply D1 in I. destruct I as [I|[-> ->]].
      * assert (W := CM _ _ k' c H0 C I). destruct (kt_dec (k, c0) (k', c)) as [Q|N]; [|auto]. exfalso. eapply OLD; eauto.
      * assert (y0 = x) by congruence. subst y0. assert (c = c0) by congruence. subst c. destruct (kt_dec (k, c0) (k, c0)); congruence.
    + intros r g' t I T. destruct (SN r g' t I T) as [A B]. split.
      * intros k' t' w W. destruct (A k' t' w W) as [A1 A2]. split; [|exact A2]. rewrite WA.
        destruct (kt_dec (k, c0) (k', t')) as [Q|N]; [|auto]. exfalso. eapply OLD; eauto.
      * intros j y k' c H C L DD K R. destruct (NX _ _ H) as (y0 & H0 & S1 & K1 & _ & C1 & E1 & _).
        rewrite S1. rewrite C1 in C. rewrite E1 in DD. rewrite K1 in K. eapply B; eauto.
  - (* giving up *)
    destruct (nth_error xs i) as [x|] eqn:X; [|discriminate]. destruct (x_done x) as [|? ?] eqn:DO; [|discriminate]. apply some_inj in E; subst s1.
    set (x' := mkTxn (x_start x) (x_keys x) (x_pre x) (x_ct x) [] true).
    assert (NX : forall j y, nth_error (upd xs i x') j = Some y -> exists y0, nth_error xs j = Some y0 /\
        x_start y = x_start y0 /\ x_keys y = x_keys y0 /\ x_pre y = x_pre y0 /\ x_ct y = x_ct y0 /\ x_done y = x_done y0 /\
        (x_dead y = false -> x_dead y0 = false) /\ (j <> i -> x_dead y = x_dead y0)).
    { intros j y H. rewrite nth_upd, X in H. destruct (Nat.eq_dec i j) as [<-|N].
      - injection H as <-. exists x. simpl. do 5 (split; [auto|]). split; [congruence|]. split; [discriminate|congruence].
      - exists y. auto 10. }
    assert (OX : forall j y0, nth_error xs j = Some y0 -> exists y, nth_error (upd xs i x') j = Some y /\
        x_start y = x_start y0 /\ x_pre y = x_pre y0 /\ x_ct y = x_ct y0 /\ x_done y = x_done y0).
    { intros j y H. rewrite nth_upd, X. destruct (Nat.eq_dec i j) as [<-|N].
      - exists x'. assert (y = x) by congruence. subst y. simpl. auto 10.
      - exists y. auto 10. }
    constructor; cbn [b_clock b_store b_txns b_tso b_snaps]; auto.
    + intros j y H. destruct (NX _ _ H) as (y0 & H0 & -> & _ & _ & -> & _). apply (TS _ _ H0).
    + intros j1 j2 y1 y2 H1 H2 D. destruct (NX _ _ H1) as (z1 & Z1 & S1 & _ & _ & C1 & _). destruct (NX _ _ H2) as (z2 & Z2 & S2 & _ & _ & C2 & _).
      rewrite S1, S2, C1, C2 in D. eapply UQ; eauto.
    + intros j y H. destruct (NX _ _ H) as (y0 & H0 & S1 & K1 & P1 & C1 & D1 & E1 & E2). destruct (DN _ _ H0) as (A1 & A2 & A3 & A4).
      rewrite C1, D1, P1, K1. split; [auto|]. split; [|auto]. intros ND. destruct (Nat.eq_dec j i) as [->|N].
      * assert (y0 = x) by congruence. subst. congruence.
      * rewrite E2 by auto. auto.
    + intros k' l H. destruct (LK k' l H) as (j & y0 & H0 & T & P & ND). destruct (OX _ _ H0) as (y & Y & S1 & P1 & _ & D1).
      exists j, y. rewrite S1, P1, D1. auto.
    + intros k' t w H. destruct (RC k' t w H) as (O & j & y0 & H0 & C & S & I). split; auto.
      destruct (OX _ _ H0) as (y & Y & S1 & _ & C1 & D1). exists j, y. rewrite C1, S1, D1. auto.
    + intros j y k' H I DD ND. destruct (NX _ _ H) as (y0 & H0 & S1 & _ & P1 & _ & D1 & E1 & _). rewrite S1.
      rewrite P1 in I. rewrite D1 in ND. eapply PR; eauto.
    + intros j y k' c H C I. destruct (NX _ _ H) as (y0 & H0 & S1 & _ & _ & C1 & D1 & _). rewrite S1. rewrite D1 in I. rewrite C1 in C.
      eapply CM; eauto.
    + intros r g' t I T. destruct (SN r g' t I T) as [A B]. split; auto.
      intros j y k' c H C L DD K R. destruct (NX _ _ H) as (y0 & H0 & S1 & K1 & _ & C1 & _ & E1 & _).
      rewrite S1. rewrite C1 in C. rewrite K1 in K. eapply B; eauto.
  - (* removing a lock of a transaction that was given up *)
    destruct (nth_error xs i) as [x|] eqn:X; [|discriminate]. destruct (lock_at g k) as [l0|] eqn:L0; [|discriminate].
    destruct (x_dead x && (l_ts l0 =? x_start x)) eqn:G; [|discriminate]. apply andb_true_iff in G. destruct G as [DE LT].
    apply Z.eqb_eq in LT. apply some_inj in E; subst s1. change (apply_batch g [DelLock k]) with (apply_wop g (DelLock k)).
    constructor; cbn [b_clock b_store b_txns b_tso b_snaps]; auto.
    + cbn [apply_wop locks]. apply sorted_del; auto using bcmp_ok.
    + intros k' l H. rewrite lock_at_del in H by auto. destruct (bytes_eq_dec k k'); [discriminate|]. apply LK; auto.
    + intros j y k' H I DD ND. rewrite lock_at_del by auto. destruct (PR _ _ k' H I DD ND) as (l & L & T).
      destruct (bytes_eq_dec k k') as [<-|N]; [|exists l; auto]. exfalso. assert (l = l0) by congruence. subst l.
      assert (i = j) by (eapply UQ; eauto; left; congruence). subst j. congruence.
  - (* the backup's timestamp *)
    destruct tso as [t0|] eqn:T0; [discriminate|]. destruct (t <=? cl) eqn:TL; [|discriminate]. apply Z.leb_le in TL. apply some_inj in E; subst s1.
    constructor; cbn [b_clock b_store b_txns b_tso b_snaps]; auto.
    + intros t1 H. injection H as <-. auto.
    + intros r g' t1 I _. rewrite NO in I by auto. destruct I.
  - (* a snapshot *)
    destruct tso as [t0|] eqn:T0; [|discriminate]. apply some_inj in E; subst s1.
    constructor; cbn [b_clock b_store b_txns b_tso b_snaps]; auto.
    + discriminate.
    + intros r' g' t I T. apply in_app_iff in I. destruct I as [I|[I|[]]]; [apply SN; auto|]. injection I as <- <-. injection T as <-.
      split; [auto|]. intros j y k c H C L DD K R. destruct (DN _ _ H) as (_ & _ & A3 & _). destruct (TS _ _ H) as [_ B]. specialize (B _ C).
      assert (P : In k (x_pre y)) by (apply A3; [congruence|auto]).
      destruct (in_dec bytes_eq_dec k (x_done y)) as [D|D]; [eapply CM; eauto|]. exfalso.
      destruct (PR _ _ k H P DD D) as (l & LL & LT). specialize (LR t0 k l eq_refl R LL). lia.
Qed.

Lemma bhist_inv reg s es s1 : bhist (locks_resolved reg) s es s1 -> binv reg s -> binv reg s1.
Proof. induction 1; auto. intros B. apply IHbhist. eapply binv_step; eauto. Qed.

(** * What follows *)
Lemma cut_same reg es s r g tso k : bhist (locks_resolved reg) init_bk es s -> In (r, g) (b_snaps s) -> b_tso s = Some tso -> reg k = r ->
  (forall t w, t <= tso -> (write_at g k t = Some w <-> write_at (b_store s) k t = Some w)) /\
  (forall t w, write_at g k t = Some w -> data_at g k (w_start w) = data_at (b_store s) k (w_start w)).
Proof.
  intros H I T R. assert (B := bhist_inv _ _ _ _ H (binv_init reg)). destruct (v_snap _ _ B r g tso I T) as [A1 A2]. split.
  - intros t w L. split; [intros W; apply (A1 _ _ _ W)|]. intros W.
    destruct (v_rec _ _ B k t w W) as (O & i & x & X & C & S & D).
    destruct (v_done _ _ B i x X) as (D1 & D2 & D3 & D4).
    assert (E := A2 i x k t X C L (proj1 (D2 ltac:(intros Q; rewrite Q in D; destruct D))) (D4 k (D1 k D)) R).
    assert (E2 := v_com _ _ B i x k t X C D). congruence.
  - intros t w W. apply (A1 _ _ _ W).
Qed.
Lemma cut_newest reg es s r g tso k t w : bhist (locks_resolved reg) init_bk es s -> In (r, g) (b_snaps s) -> b_tso s = Some tso -> reg k = r ->
  (newest g SI tso k t w <-> newest (b_store s) SI tso k t w).
Proof.
  intros H I T R. destruct (cut_same reg es s r g tso k H I T R) as [A _]. unfold newest. simpl (sees_up_to SI tso). split.
  - intros (W & L & O & MX). split; [apply A; auto|]. split; auto. split; auto. intros t' w' W' B. apply (MX t' w'); auto. apply A; auto; lia.
  - intros (W & L & O & MX). split; [apply A; auto|]. split; auto. split; auto. intros t' w' W' B. apply (MX t' w'); auto. apply A; auto; lia.
Qed.
Lemma cut_reads reg es s r g tso k v : bhist (locks_resolved reg) init_bk es s -> In (r, g) (b_snaps s) -> b_tso s = Some tso -> reg k = r ->
  (reads g SI tso k v <-> reads (b_store s) SI tso k v).
Proof.
  intros H I T R. destruct (cut_same reg es s r g tso k H I T R) as [A D].
  assert (N : forall t w, newest g SI tso k t w <-> newest (b_store s) SI tso k t w) by (intros; eapply cut_newest; eauto).
  assert (VV : forall t w v, newest g SI tso k t w -> (value_of g k w v <-> value_of (b_store s) k w v)).
  { intros t w u NW. unfold value_of. rewrite (D t w (proj1 NW)). tauto. }
  unfold reads. split.
  - intros [(t & w & NW & O & V)|[(t & w & NW & O & V)|[NV V]]].
    + left. exists t, w. split; [apply N; auto|]. split; auto. apply (VV t w v NW). auto.
    + right; left. exists t, w. split; [apply N; auto|auto].
    + right; right. split; auto. intros t w W L. apply (NV t w); auto. apply A; auto.
  - intros [(t & w & NW & O & V)|[(t & w & NW & O & V)|[NV V]]].
    + left. exists t, w. apply N in NW. split; [auto|]. split; auto. apply (VV t w v NW). auto.
    + right; left. exists t, w. split; [apply N; auto|auto].
    + right; right. split; auto. intros t w W L. apply (NV t w); auto. apply A; auto.
Qed.

Lemma cut_whole reg es s tso i x c : bhist (locks_resolved reg) init_bk es s -> b_tso s = Some tso ->
  nth_error (b_txns s) i = Some x -> x_ct x = Some c -> x_done x <> [] ->
  (c <= tso -> forall k g, In k (x_keys x) -> In (reg k, g) (b_snaps s) -> write_at g k c = Some (mkW (x_start x) OpPut [])) /\
  (tso < c -> forall k g t w, In (reg k, g) (b_snaps s) -> newest g SI tso k t w -> w_start w <> x_start x).
Proof.
  intros H T X C ND. assert (B := bhist_inv _ _ _ _ H (binv_init reg)).
  destruct (v_done _ _ B i x X) as (D1 & D2 & D3 & D4). destruct (D2 ND) as [DE _]. split.
  - intros L k g K I. apply (proj2 (v_snap _ _ B (reg k) g tso I T) i x k c); auto.
  - intros L k g t w I N S. destruct N as (W & LT & _). simpl in LT.
    assert (W' := proj1 (proj1 (v_snap _ _ B (reg k) g tso I T) k t w W)).
    destruct (v_rec _ _ B k t w W') as (_ & j & y & Y & CY & SY & _).
    assert (i = j) by (eapply (v_uniq _ _ B); eauto; left; congruence). subst j. assert (y = x) by congruence. subst. 
    assert (c = t) by congruence. lia.
Qed.
Lemma snaps_sorted ok s es s1 : bhist ok s es s1 ->
  sorted vcmp (writes (b_store s)) /\ (forall r g, In (r, g) (b_snaps s) -> sorted vcmp (writes g)) ->
  sorted vcmp (writes (b_store s1)) /\ (forall r g, In (r, g) (b_snaps s1) -> sorted vcmp (writes g)).
Proof.
  induction 1 as [|s e s1 es s2 O E H IH]; auto. intros [A B]. apply IH. clear IH H. destruct s as [cl g xs tso sn]. simpl in *.
  destruct e as [keys|i k v|i|i k|i|i k|t|r];
    repeat match type of E with
           | match ?x with _ => _ end = _ => destruct x; try discriminate
           | (if ?x then _ else _) = _ => destruct x; try discriminate
           end; injection E as <-; simpl; auto.
  - split; auto. apply sorted_put; auto using vcmp_ok.
  - split; auto. intros r' g' I. apply in_app_iff in I. destruct I as [I|[I|[]]]; [eauto|]. injection I as <- <-. auto.
Qed.
Lemma cut_shown reg es s tso i x c : bhist (locks_resolved reg) init_bk es s -> b_tso s = Some tso ->
  nth_error (b_txns s) i = Some x -> x_ct x = Some c -> x_done x <> [] -> c <= tso ->
  forall k g, In k (x_keys x) -> In (reg k, g) (b_snaps s) -> has_write g tso k c.
Proof.
  intros H T X C ND L k g K I.
  assert (SG : sorted vcmp (writes g)).
  { eapply (snaps_sorted _ _ _ _ H); [|exact I]. split; [constructor|intros ? ? []]. } assert (W := proj1 (cut_whole reg es s tso i x c H T X C ND) L k g K I).
  assert (B := bhist_inv _ _ _ _ H (binv_init reg)).
  assert (ALL : forall k t w, write_at g k t = Some w -> w_op w = OpPut).
  { intros k' t w W'. apply (proj1 (v_snap _ _ B (reg k) g tso I T)) in W'. destruct W' as [W' _]. apply (v_rec _ _ B) in W'. apply W'. }
  (* the newest record of k at or below tso *)
  assert (X1 : forall l : list ((bytes * Z) * wrec), (forall k t w, In ((k, t), w) l -> write_at g k t = Some w) ->
    exists t w, write_at g k t = Some w /\ c <= t <= tso /\ forall t' w', In ((k, t'), w') l -> ~ t < t' <= tso).
  { induction l as [|[[k0 t0] w0] l IH]; intros SUB; [exists c, (mkW (x_start x) OpPut []); split; [auto|split; [lia|intros t' w' []]]|].
    destruct (IH (fun k t w I => SUB k t w (or_intror I))) as (t & w & W1 & L1 & MX).
    destruct (bytes_eq_dec k0 k) as [->|N].
    - destruct (Z_lt_dec t t0).
      + destruct (Z_le_dec t0 tso).
        * exists t0, w0. split; [apply SUB; left; auto|]. split; [lia|]. intros t' w' [E|I'] Q; [inversion E; subst; lia|]. apply (MX t' w' I'). lia.
        * exists t, w. split; auto. split; auto. intros t' w' [E|I'] Q; [inversion E; subst; lia|]. apply (MX t' w' I'). lia.
      + exists t, w. split; auto. split; auto. intros t' w' [E|I'] Q; [inversion E; subst; lia|]. apply (MX t' w' I'). lia.
    - exists t, w. split; auto. split; auto. intros t' w' [E|I'] Q; [inversion E; congruence|]. apply (MX t' w' I'). lia. }
  destruct (X1 (writes g)) as (t & w & W1 & L1 & MX).
  { intros k' t w I'. apply (In_get vcmp vcmp_ok); auto. }
  exists t, w. split; [|lia]. split; [auto|]. split; [simpl; lia|]. split; [rewrite (ALL _ _ _ W1); discriminate|].
  intros t' w' W' Q. simpl in Q. exfalso. apply (MX t' w'); auto. apply (get_In vcmp vcmp_ok). auto.
Qed.
