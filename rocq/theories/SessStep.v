(** Every step keeps the invariant of scan sessions. *)
From Coq Require Import ZArith List Bool Lia Sorted PeanoNat.
From Verif Require Import Bytes Outcome CodecModel CodecSpec MvccModel MvccSpec MvccProofs SessModel SessSpec SessProofs SessInv.
Import ListNotations.
Open Scope Z_scope.

Lemma Forall_upd {A} (P : A -> Prop) l : forall n k, Forall P l -> P k -> Forall P (upd l n (fun _ => k)).
Proof. induction l as [|x l IH]; intros [|n] k F K; cbn; auto; inversion F; subst; constructor; auto. Qed.

Lemma inv_reqs_mono g own s es : inv g own s -> Forall (req_ok own (length (s_heap s)) (s_log s ++ es)) (s_reqs s).
Proof.
  intros I. eapply Forall_impl; [|apply (i_req _ _ _ I)]. intros k. apply req_ok_mono; auto.
  intros; apply in_or_app; auto.
Qed.

(** A request moves from [k0] to [k], the sessions stay in the table. *)
Lemma inv_go g own s tid k0 k heap' es :
  inv g own s -> nth_error (s_reqs s) tid = Some k0 ->
  length heap' = length (s_heap s) ->
  (forall q c', nth_error heap' q = Some c' -> exists c, nth_error (s_heap s) q = Some c /\ soft own (s_log s ++ es) q c c') ->
  Forall (fun te => mute_all (snd te)) es ->
  (forall t e p, In (t, e) es -> touches p e -> event_id e = own p /\ (p < length (s_heap s))%nat /\
     exists c', nth_error heap' p = Some c' /\ x_it c' <> None /\ (gone c' \/ (x_state c' = SReleased /\ x_no_auto c' = true))) ->
  req_ok own (length (s_heap s)) (s_log s ++ es) k ->
  (forall p b, k = PBegin p b -> exists c', nth_error heap' p = Some c' /\ x_id c' = Some (own p)) ->
  (forall p b, k0 = POpen p b \/ k0 = PBegin p b -> (exists b', k = PBegin p b') \/ k = PDel (own p)) ->
  (forall id, k0 <> PDel id) ->
  inv g own {| s_now := s_now s; s_store := s_store s; s_heap := heap'; s_alive := s_alive s;
               s_reqs := upd (s_reqs s) tid (fun _ => k); s_log := s_log s ++ es; s_dead := s_dead s |}.
Proof.
  intros I K0 LN HP MU EV RK KB KO KD.
  apply inv_soft; auto.
  - apply (i_store _ _ _ I).
  - apply (i_nodup _ _ _ I).
  - apply Forall_upd; auto. apply (inv_reqs_mono _ _ _ _ I).
  - intros p b H. apply In_upd in H. destruct H as [H|H]; auto. right. eapply KB; eauto.
  - intros id p b A H.
    assert (D : (exists b', k0 = POpen p b' \/ k0 = PBegin p b') \/ ~ (exists b', k0 = POpen p b' \/ k0 = PBegin p b')).
    { destruct k0 as [| q b0 | q b0 | | | | | | |]; try (right; intros (b' & [X|X]); discriminate).
      - destruct (Nat.eq_dec q p) as [->|N]; [left; eauto|right; intros (b' & [X|X]); congruence].
      - destruct (Nat.eq_dec q p) as [->|N]; [left; eauto|right; intros (b' & [X|X]); congruence]. }
    destruct D as [(b' & D)|D].
    + destruct (i_alive _ _ _ I _ _ A) as [<- _].
      destruct (KO p b') as [(b2 & ->)| ->]; [exact D| |].
      * left. exists b2. right. eapply In_upd_new; eauto.
      * right. eapply In_upd_new; eauto.
    + left. exists b. destruct H as [H|H]; [left|right]; eapply In_upd_other; eauto; intros X; apply D; eauto.
  - intros id p A H. eapply In_upd_other; eauto.
Qed.

Lemma soft_refl g own s es : inv g own s -> Forall (fun te => mute_all (snd te)) es ->
  forall q c', nth_error (s_heap s) q = Some c' -> exists c, nth_error (s_heap s) q = Some c /\ soft own (s_log s ++ es) q c c'.
Proof.
  intros I M q c H. exists c. split; auto. apply soft_same. apply sess_ok_mutes; auto. apply (i_sess _ _ _ I _ _ H).
Qed.

Lemma soft_upd g own s es p f c0 : inv g own s -> Forall (fun te => mute_all (snd te)) es ->
  nth_error (s_heap s) p = Some c0 -> soft own (s_log s ++ es) p c0 (f c0) ->
  forall q c', nth_error (upd (s_heap s) p f) q = Some c' -> exists c, nth_error (s_heap s) q = Some c /\ soft own (s_log s ++ es) q c c'.
Proof.
  intros I M E F q c' H. rewrite nth_upd in H. destruct (Nat.eqb p q) eqn:Q.
  - apply Nat.eqb_eq in Q. subst q. rewrite E in H. cbn in H. injection H as <-. eauto.
  - eapply soft_refl; eauto.
Qed.

Lemma soft_set_state g own s es p c st : inv g own s -> nth_error (s_heap s) p = Some c ->
  st = SError \/ st = SRecycle -> soft own (s_log s ++ es) p c (set_state st c).
Proof.
  intros I E D. constructor; cbn; auto.
  - intros _. destruct D as [-> | ->]; split; discriminate.
  - intros _. unfold gone; cbn. tauto.
  - intros [X|X]; destruct D; congruence.
  - intros _. right. unfold gone. cbn. tauto.
Qed.

Lemma failed_snoc id log t : failed id (log ++ [(t, EFailed id)]).
Proof. exists t. apply in_or_app. cbn. auto. Qed.

Lemma app_nil_log s : s_log s = s_log s ++ [].
Proof. symmetry. apply app_nil_r. Qed.

Ltac unroll := unfold fail, emit, set_pc, on_ctx, with_reqs, with_heap, with_alive, with_now, with_store; cbn [s_now s_store s_heap s_alive s_reqs s_log s_dead].

(** Failing with DeleteScan to follow. *)
Lemma inv_fail g own s tid k0 id : inv g own s -> nth_error (s_reqs s) tid = Some k0 ->
  (forall p b, k0 = POpen p b \/ k0 = PBegin p b -> id = own p) -> (forall i, k0 <> PDel i) ->
  inv g own (fail tid id s).
Proof.
  intros I K O D. unroll. eapply inv_go; eauto.
  - eapply soft_refl; eauto. repeat constructor.
  - repeat constructor.
  - intros t e p [H|[]] T. injection H as <- <-. destruct T.
  - cbn. apply failed_snoc.
  - discriminate.
  - intros p b H. right. f_equal. eapply O; eauto.
Qed.

Lemma inv_fail_error g own s tid k0 id p c : inv g own s -> nth_error (s_reqs s) tid = Some k0 ->
  nth_error (s_heap s) p = Some c ->
  (forall p b, k0 = POpen p b \/ k0 = PBegin p b -> id = own p) -> (forall i, k0 <> PDel i) ->
  inv g own (fail tid id (on_ctx p (set_state SError) s)).
Proof.
  intros I K E O D. unroll. eapply inv_go; eauto.
  - apply upd_length.
  - eapply soft_upd; eauto; [repeat constructor|]. eapply soft_set_state; eauto.
  - repeat constructor.
  - intros t e q [H|[]] T. injection H as <- <-. destruct T.
  - cbn. apply failed_snoc.
  - discriminate.
  - intros q b H. right. f_equal. eapply O; eauto.
Qed.

(** An answer with an error and nothing else. *)
Lemma inv_refuse g own s tid k0 id : inv g own s -> nth_error (s_reqs s) tid = Some k0 ->
  (forall p b, k0 <> POpen p b) -> (forall p b, k0 <> PBegin p b) -> (forall i, k0 <> PDel i) ->
  inv g own (emit (EFailed id) (set_pc tid PDone s)).
Proof.
  intros I K O B D. unroll. eapply inv_go; eauto.
  - eapply soft_refl; eauto. repeat constructor.
  - repeat constructor.
  - intros t e p [H|[]] T. injection H as <- <-. destruct T.
  - exact Logic.I.
  - discriminate.
  - intros p b [H|H]; exfalso; [eapply O|eapply B]; eauto.
Qed.

(** Only the program counter moves. *)
Lemma inv_pc g own s tid k0 k : inv g own s -> nth_error (s_reqs s) tid = Some k0 ->
  req_ok own (length (s_heap s)) (s_log s) k ->
  (forall p b, k <> PBegin p b) ->
  (forall p b, k0 <> POpen p b) -> (forall p b, k0 <> PBegin p b) -> (forall i, k0 <> PDel i) ->
  inv g own (set_pc tid k s).
Proof.
  intros I K R N O B D. unroll. rewrite (app_nil_log s). eapply inv_go; eauto.
  - eapply soft_refl; eauto.
  - intros t e p [].
  - rewrite app_nil_r. auto.
  - intros p b ->. exfalso; eapply N; eauto.
  - intros p b [H|H]; exfalso; [eapply O|eapply B]; eauto.
Qed.

(** ** Recycling *)

Lemma recycle_soft g own s es now p c : inv g own s -> nth_error (s_heap s) p = Some c -> Forall (fun te => mute_all (snd te)) es ->
  soft own (s_log s ++ es) p c (recycle g now c).
Proof.
  intros I E M. assert (R : soft own (s_log s ++ es) p c c).
  { apply soft_same. apply sess_ok_mutes; auto. apply (i_sess _ _ _ I _ _ E). }
  unfold recycle. destruct (x_state c) eqn:X; auto; destruct (c_timeout g <=? now - x_last c); auto; eapply soft_set_state; eauto.
Qed.

Lemma recyclable_gone g now c : recyclable g now c = true -> gone (recycle g now c).
Proof.
  unfold recyclable, recycle, gone. destruct (x_state c) eqn:X; try (rewrite X; auto; fail); intros ->; cbn; auto.
Qed.

Lemma recycle_idem g now c : recyclable g now (recycle g now c) = recyclable g now c.
Proof.
  unfold recyclable at 2, recycle. destruct (x_state c) eqn:X; try (unfold recyclable; rewrite X; auto; fail);
    destruct (c_timeout g <=? now - x_last c) eqn:T; unfold recyclable; cbn; rewrite ?X; auto.
Qed.

Lemma recycle_twice g now c : recycle g now (recycle g now c) = recycle g now c.
Proof.
  unfold recycle at 2 3. destruct (x_state c) eqn:X; try (unfold recycle; rewrite X; auto; fail);
    destruct (c_timeout g <=? now - x_last c) eqn:T; unfold recycle; cbn; rewrite ?X, ?T; auto.
Qed.

(** What a cleaning does: a session object changes only by being recycled, and
    only those that can be recycled leave the table. *)
Lemma clean_facts g now busy : forall a h a' h', clean g now busy a h = (a', h') ->
  length h' = length h /\
  (forall q c', nth_error h' q = Some c' -> exists c, nth_error h q = Some c /\ (c' = c \/ c' = recycle g now c)) /\
  (forall x, In x a' -> In x a) /\
  (NoDup (map fst a) -> NoDup (map fst a')) /\
  (forall id p, In (id, p) a -> In (id, p) a' \/ (exists c, nth_error h p = Some c /\ recyclable g now c = true /\ nth_error h' p = Some (recycle g now c))) /\
  (forall id p c, In (id, p) a' -> ~ In p busy -> nth_error h p = Some c -> recyclable g now c = false).
Proof.
  induction a as [|[id p] a IH]; intros h a' h' E; cbn [clean] in E.
  - injection E as <- <-. split; [auto|]. split; [eauto|]. split; [auto|]. split; [auto|]. split; [intros ? ? []|intros ? ? ? []].
  - destruct (existsb (Nat.eqb p) busy) eqn:B.
    + destruct (clean g now busy a h) as [r' h1] eqn:C. injection E as <- <-.
      destruct (IH _ _ _ C) as (H1 & H2 & H3 & H4 & H5 & H6).
      split; [auto|]. split; [auto|]. split; [intros x [X|X]; cbn; auto|].
      split. { cbn. intros N. inversion N as [|? ? N1 N2]; subst. constructor; auto. intros X. apply N1.
               apply in_map_iff in X. destruct X as (y & Y1 & Y2). apply in_map_iff. exists y; auto. }
      split. { intros i q [X|X]; [left; left; auto|]. destruct (H5 _ _ X); [left; right; auto|right; auto]. }
      intros i q c [X|X] NB Hc; [|eapply H6; eauto]. injection X as <- <-. exfalso. apply NB.
      apply existsb_exists in B. destruct B as (y & Y1 & Y2). apply Nat.eqb_eq in Y2. subst; auto.
    + destruct (nth_error h p) as [c0|] eqn:P.
      * destruct (clean g now busy a (upd h p (recycle g now))) as [r' h1] eqn:C.
        destruct (IH _ _ _ C) as (H1 & H2 & H3 & H4 & H5 & H6). rewrite upd_length in H1.
        assert (H2' : forall q c', nth_error h1 q = Some c' -> exists c, nth_error h q = Some c /\ (c' = c \/ c' = recycle g now c)).
        { intros q c' X. destruct (H2 _ _ X) as (c & Y & Z). rewrite nth_upd in Y. destruct (Nat.eqb p q) eqn:Q; [|eauto].
          apply Nat.eqb_eq in Q; subst q. rewrite P in Y. cbn in Y. injection Y as <-. exists c0. split; auto.
          right. destruct Z as [-> | ->]; auto. apply recycle_twice. }
        assert (H5' : forall i q, In (i, q) a -> In (i, q) r' \/ (exists c, nth_error h q = Some c /\ recyclable g now c = true /\ nth_error h1 q = Some (recycle g now c))).
        { intros i q X. destruct (H5 _ _ X) as [Y|(c & Y1 & Y2 & Y3)]; auto. right.
          rewrite nth_upd in Y1. destruct (Nat.eqb p q) eqn:Q; [|eauto].
          apply Nat.eqb_eq in Q; subst q. rewrite P in Y1. cbn in Y1. injection Y1 as <-.
          rewrite recycle_idem in Y2. rewrite recycle_twice in Y3. eauto. }
        assert (H6' : forall i q c, In (i, q) r' -> ~ In q busy -> nth_error h q = Some c -> recyclable g now c = false).
        { intros i q c X NB Hc. destruct (Nat.eqb p q) eqn:Q.
          - pose proof Q as Q'. apply Nat.eqb_eq in Q'; subst q. rewrite <- (recycle_idem g now c). eapply H6; eauto.
            rewrite nth_upd, Q, Hc. reflexivity.
          - eapply H6; eauto. rewrite nth_upd, Q. auto. }
        assert (S5 : nth_error h1 p = Some (recycle g now c0)).
        { destruct (nth_error h1 p) as [c1|] eqn:X.
          - destruct (H2 _ _ X) as (c & Y & Z). rewrite nth_upd, Nat.eqb_refl, P in Y. cbn in Y. injection Y as <-.
            destruct Z as [-> | ->]; auto. rewrite recycle_twice. auto.
          - apply nth_error_None in X. assert (Y : nth_error h p <> None) by congruence. apply nth_error_Some in Y. lia. }
        destruct (recyclable g now c0) eqn:R.
        -- injection E as <- <-. split; [auto|]. split; [auto|]. split; [intros x X; right; auto|].
           split. { cbn. intros N. inversion N; subst. auto. }
           split; [|exact H6']. intros i q [X|X]; [|apply H5'; auto]. injection X as <- <-. right. exists c0. auto.
        -- injection E as <- <-. split; [auto|]. split; [auto|]. split; [intros x [X|X]; cbn; auto|].
           split. { cbn. intros N. inversion N as [|? ? N1 N2]; subst. constructor; auto. intros X. apply N1.
                    apply in_map_iff in X. destruct X as (y & Y1 & Y2). apply in_map_iff. exists y; auto. }
           split. { intros i q [X|X]; [left; left; auto|]. destruct (H5' _ _ X); [left; right; auto|right; auto]. }
           intros i q c [X|X] NB Hc; [|eapply H6'; eauto]. injection X as <- <-. congruence.
      * destruct (clean g now busy a h) as [r' h1] eqn:C. injection E as <- <-.
        destruct (IH _ _ _ C) as (H1 & H2 & H3 & H4 & H5 & H6).
        split; [auto|]. split; [auto|]. split; [intros x [X|X]; cbn; auto|].
        split. { cbn. intros N. inversion N as [|? ? N1 N2]; subst. constructor; auto. intros X. apply N1.
                 apply in_map_iff in X. destruct X as (y & Y1 & Y2). apply in_map_iff. exists y; auto. }
        split. { intros i q [X|X]; [left; left; auto|]. destruct (H5 _ _ X); [left; right; auto|right; auto]. }
        intros i q c [X|X] NB Hc; [|eapply H6; eauto]. injection X as <- <-. congruence.
Qed.

Lemma inv_clean g own s busy a' h' : inv g own s -> clean g (s_now s) busy (s_alive s) (s_heap s) = (a', h') ->
  inv g own (with_alive a' (with_heap h' s)).
Proof.
  intros I C. destruct (clean_facts _ _ _ _ _ _ _ C) as (H1 & H2 & H3 & H4 & H5 & H6).
  unroll. rewrite (app_nil_log s). apply inv_soft; auto.
  - apply (i_store _ _ _ I).
  - intros q c' X. destruct (H2 _ _ X) as (c & Y & Z). exists c. split; auto.
    destruct Z as [-> | ->]; [|eapply recycle_soft; eauto].
    apply soft_same. rewrite app_nil_r. apply (i_sess _ _ _ I _ _ Y).
  - apply H4. apply (i_nodup _ _ _ I).
  - intros q c' X A N. left. destruct (H5 _ _ A) as [Y|(c & Y1 & Y2 & Y3)]; auto.
    exfalso. apply N. assert (c' = recycle g (s_now s) c) by congruence. subst. apply recyclable_gone; auto.
  - intros t e p [].
  - apply (inv_reqs_mono _ _ _ _ I).
  - intros id p b A H. left. exists b. auto.
Qed.
