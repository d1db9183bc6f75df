(** Lemmas for C83-C87: the shapes of the proposed increments, the lists of indexes, and the
    application of a proposed increment. *)
From Coq Require Import ZArith List Bool Lia Permutation.
From Verif Require Import Bytes SMap Outcome LogProofs2 NmModel NmSpec NmProofs1 NmProofs2 NmProofs3.
Import ListNotations.
Open Scope Z_scope.

Inductive shape (s : state) (e : entry) : Prop :=
| sh_plain :
    (forall i, In i (e_incs e) -> is_x i = false) ->
    (forall i x, In (ITPut KIndex i x) (e_incs e) -> t_table x = 0) ->
    (forall i sid, In (ITDel KIndex i sid) (e_incs e) -> exists x, get_ent s KIndex i = Some x /\ t_table x = 0) ->
    (forall t sid, ~ In (ITDel KTable t sid) (e_incs e)) -> shape s e
| sh_create t sid name ixs :
    e_incs e = IXPut t (map fst ixs) :: map (fun p => ITPut KIndex (fst p) (mkT sid (snd p) t)) ixs ++ [ITPut KTable t (mkT sid name 0)] ->
    NoDup (map fst ixs) -> get_tix s t = None -> shape s e
| sh_add t i sid name l tb :
    e_incs e = [IXAdd t i; ITPut KIndex i (mkT sid name t)] ->
    get_ent s KTable t = Some tb -> t_schema tb = sid -> get_tix s t = Some l -> shape s e
| sh_rem t i sid l x :
    e_incs e = [IXRem t i; ITDel KIndex i sid] ->
    get_tix s t = Some l -> get_ent s KIndex i = Some x -> t_table x = t -> shape s e
| sh_drop t sid l :
    e_incs e = IXDel t :: map (fun i => ITDel KIndex i sid) l ++ [ITDel KTable t sid] ->
    get_tix s t = Some l -> shape s e.

Lemma tags_app a b : tags (a ++ b) = tags a ++ tags b.
Proof. unfold tags. apply flat_map_app. Qed.
Lemma NoDup_app_l {A} (a b : list A) : NoDup (a ++ b) -> NoDup a.
Proof. induction a; simpl; intros H; constructor; apply NoDup_cons_iff in H; destruct H as [H1 H2]; auto. intros Q; apply H1, in_or_app; auto. Qed.

Lemma pair_dec (a b : Z * Z) : {a = b} + {a <> b}.
Proof. decide equality; apply Z.eq_dec. Qed.

(** what happened to a table or index *)
Lemma ent_cases s l R s' k x : IS s (l ++ R) -> apply_incs s l = Ok s' ->
  (exists t, In (ITPut k x t) l /\ get_ent s' k x = Some t /\ get_ent s k x = None) \/
  (exists sid, In (ITDel k x sid) l /\ get_ent s' k x = None /\ exists t, get_ent s k x = Some t /\ t_schema t = sid) \/
  ((forall t, ~ In (ITPut k x t) l) /\ (forall sid, ~ In (ITDel k x sid) l) /\ get_ent s' k x = get_ent s k x).
Proof.
  intros [I S] HA.
  assert (ND : NoDup (tags l)) by (apply NoDup_app_l with (b := tags R); rewrite <- tags_app; apply I).
  destruct (in_dec pair_dec (ctag k, x) (tags l)) as [Hp|Hp].
  - apply in_tags_P in Hp. destruct Hp as [t Hp]. left. exists t. split; auto.
    destruct (i_put _ _ _ _ _ I k x t) as (E0 & _); [apply in_or_app; auto|]. split; auto.
    eapply ent_put; eauto. intros sid Q. destruct (i_del _ _ _ _ _ I k x sid) as ((u & Q1 & _) & _); [apply in_or_app; auto|]. congruence.
  - right. destruct (in_dec pair_dec (dtag k, x) (tags l)) as [Hd|Hd].
    + apply in_tags_X in Hd. destruct Hd as [sid Hd]. left. exists sid. split; auto.
      destruct (i_del _ _ _ _ _ I k x sid) as ((u & Q1 & Q2) & _); [apply in_or_app; auto|]. split; eauto.
      eapply ent_del; eauto. intros t Q. apply Hp. apply (tag_in_P _ _ _ _ Q).
    + right. assert (A : forall t, ~ In (ITPut k x t) l) by (intros t Q; apply Hp; apply (tag_in_P _ _ _ _ Q)).
      assert (B : forall sid, ~ In (ITDel k x sid) l) by (intros t Q; apply Hd; apply (tag_in_X _ _ _ _ Q)).
      repeat (split; auto). eapply ent_same; eauto.
Qed.

Lemma mem_in i l : mem i l = true <-> In i l.
Proof.
  unfold mem. rewrite existsb_exists. split.
  - intros (x & H & E). apply Z.eqb_eq in E. subst; auto.
  - intros H. exists i. rewrite Z.eqb_refl. auto.
Qed.

Lemma shape_apply s e R s' : IS s (e_incs e ++ R) -> indexes_exact s -> shape s e ->
  apply_incs s (e_incs e) = Ok s' -> indexes_exact s'.
Proof.
  intros HI [X1 X2] Sh HA. assert (I := proj1 HI). assert (S := proj2 HI).
  assert (F := fun k x => ent_cases s (e_incs e) R s' k x HI HA).
  assert (T0 : forall t l, get_tix s t = Some l -> 0 < t).
  { intros t l Ht. destruct (X1 _ _ Ht) as (_ & _ & tb & Htb & _). apply (i_pos _ _ _ _ _ I _ _ _ Htb). }
  destruct Sh as [P1 P2 P3 P4|t sid name ixs Ei ND Tn|t i sid name l0 tb0 Ei Tb Ts Tl|t i sid l0 x0 Ei Tl Ex Et|t sid l0 Ei Tl].
  - (* plain *)
    assert (T : forall x, get_tix s' x = get_tix s x) by (intros x; eapply tix_same; eauto).
    split.
    + intros t l Ht. rewrite T in Ht. assert (Tp := T0 _ _ Ht). destruct (X1 _ _ Ht) as (A & B & tb & C & D). split; auto. split.
      * intros i. rewrite B. destruct (F KIndex i) as [(u & Q1 & Q2 & Q3)|[(u & Q1 & Q2 & Q3)|(_ & _ & Q)]].
        -- rewrite Q2, Q3. apply P2 in Q1. split; intros (y & Y1 & Y2); [discriminate|]. inversion Y1; subst; lia.
        -- rewrite Q2. destruct (P3 _ _ Q1) as (y & Y1 & Y2). rewrite Y1. split; intros (z & Z1 & Z2); [|discriminate]. inversion Z1; subst; lia.
        -- rewrite Q. tauto.
      * destruct (F KTable t) as [(u & Q1 & Q2 & Q3)|[(u & Q1 & Q2 & Q3)|(_ & _ & Q)]]; [congruence|destruct (P4 _ _ Q1)|].
        exists tb. rewrite Q. split; auto. intros i x Hi Hx.
        destruct (F KIndex i) as [(u & Q1 & Q2 & Q3)|[(u & Q1 & Q2 & Q3)|(_ & _ & Q4)]].
        -- apply P2 in Q1. assert (u = x) by congruence. subst. lia.
        -- congruence.
        -- rewrite Q4 in Hi. eauto.
    + intros i x Hi Hx. rewrite T. destruct (F KIndex i) as [(u & Q1 & Q2 & Q3)|[(u & Q1 & Q2 & Q3)|(_ & _ & Q4)]].
      * apply P2 in Q1. congruence.
      * congruence.
      * rewrite Q4 in Hi. eauto.
  - (* create *)
    assert (Hp : forall k i u, In (ITPut k i u) (e_incs e) -> (k = KIndex /\ In i (map fst ixs) /\ t_table u = t /\ t_schema u = sid) \/ (k = KTable /\ i = t /\ u = mkT sid name 0)).
    { intros k i u Q. rewrite Ei in Q. destruct Q as [Q|Q]; [discriminate|]. apply in_app_or in Q. destruct Q as [Q|[Q|[]]].
      - apply in_map_iff in Q. destruct Q as (p & Q1 & Q2). inversion Q1; subst. left. repeat (split; auto). apply in_map; auto.
      - inversion Q; subst. auto. }
    assert (Hp2 : forall i, In i (map fst ixs) -> exists u, In (ITPut KIndex i u) (e_incs e)).
    { intros i Q. apply in_map_iff in Q. destruct Q as (p & <- & Q2). exists (mkT sid (snd p) t). rewrite Ei. right. apply in_or_app. left.
      apply in_map_iff. exists p. auto. }
    assert (Hd : forall k i u, ~ In (ITDel k i u) (e_incs e)).
    { intros k i u Q. rewrite Ei in Q. destruct Q as [Q|Q]; [discriminate|]. apply in_app_or in Q. destruct Q as [Q|[Q|[]]]; [|discriminate].
      apply in_map_iff in Q. destruct Q as (p & Q1 & Q2). discriminate. }
    assert (Ht : In (ITPut KTable t (mkT sid name 0)) (e_incs e)) by (rewrite Ei; right; apply in_or_app; right; left; auto).
    assert (Tpos : 0 < t).
    { destruct (i_put _ _ _ _ _ I KTable t _ (in_or_app _ _ _ (or_introl Ht))) as (_ & ? & _). auto. }
    assert (T : forall x, get_tix s' x = if x =? t then Some (map fst ixs) else get_tix s x).
    { intros x. rewrite Ei in HA. rewrite (tix_head _ _ _ _ x S HA); [reflexivity|].
      intros j Q. apply in_app_or in Q. destruct Q as [Q|[Q|[]]]; [|subst; auto]. apply in_map_iff in Q. destruct Q as (p & <- & _). auto. }
    split.
    + intros t1 l Hl. rewrite T in Hl. destruct (Z.eqb_spec t1 t) as [->|Ne].
      * inversion Hl; subst l. clear Hl. split; auto. split.
        -- intros i. split.
           ++ intros Q. destruct (Hp2 _ Q) as [u Q1]. destruct (F KIndex i) as [(v & V1 & V2 & V3)|[(v & V1 & _)|(V1 & _)]].
              ** exists v. split; auto. destruct (Hp _ _ _ V1) as [(_ & _ & ? & _)|(? & _)]; [auto|discriminate].
              ** destruct (Hd _ _ _ V1).
              ** destruct (V1 _ Q1).
           ++ intros (x & Q1 & Q2). destruct (F KIndex i) as [(v & V1 & V2 & V3)|[(v & V1 & _)|(V1 & _ & V2)]].
              ** destruct (Hp _ _ _ V1) as [(_ & ? & _)|(? & _)]; [auto|discriminate].
              ** destruct (Hd _ _ _ V1).
              ** rewrite V2 in Q1. destruct (X2 _ _ Q1) as [l Hl]; [lia|]. congruence.
        -- exists (mkT sid name 0). split.
           ++ destruct (F KTable t) as [(v & V1 & V2 & V3)|[(v & V1 & _)|(V1 & _ & V2)]].
              ** destruct (Hp _ _ _ V1) as [(? & _)|(_ & _ & ->)]; [discriminate|auto].
              ** destruct (Hd _ _ _ V1).
              ** destruct (V1 _ Ht).
           ++ intros i x Q1 Q2. destruct (F KIndex i) as [(v & V1 & V2 & V3)|[(v & V1 & _)|(V1 & _ & V2)]].
              ** destruct (Hp _ _ _ V1) as [(_ & _ & _ & ?)|(? & _)]; [|discriminate]. assert (v = x) by congruence. subst; auto.
              ** destruct (Hd _ _ _ V1).
              ** rewrite V2 in Q1. destruct (X2 _ _ Q1) as [l Hl]; [lia|]. congruence.
      * destruct (X1 _ _ Hl) as (A & B & tb & C & D). split; auto. split.
        -- intros i. rewrite B. destruct (F KIndex i) as [(v & V1 & V2 & V3)|[(v & V1 & _)|(V1 & _ & V2)]].
           ++ rewrite V2, V3. destruct (Hp _ _ _ V1) as [(_ & _ & Q & _)|(? & _)]; [|discriminate].
              split; intros (z & Z1 & Z2); [discriminate|]. congruence.
           ++ destruct (Hd _ _ _ V1).
           ++ rewrite V2. tauto.
        -- exists tb. split.
           ++ destruct (F KTable t1) as [(v & V1 & V2 & V3)|[(v & V1 & _)|(V1 & _ & V2)]]; [congruence|destruct (Hd _ _ _ V1)|congruence].
           ++ intros i x Q1 Q2. destruct (F KIndex i) as [(v & V1 & V2 & V3)|[(v & V1 & _)|(V1 & _ & V2)]].
              ** destruct (Hp _ _ _ V1) as [(_ & _ & Q & _)|(? & _)]; [|discriminate]. congruence.
              ** destruct (Hd _ _ _ V1).
              ** rewrite V2 in Q1. eauto.
    + intros i x Q1 Q2. rewrite T. destruct (F KIndex i) as [(v & V1 & V2 & V3)|[(v & V1 & _)|(V1 & _ & V2)]].
      * destruct (Hp _ _ _ V1) as [(_ & _ & Q & _)|(? & _)]; [|discriminate]. assert (v = x) by congruence. subst.
        rewrite Z.eqb_refl. eauto.
      * destruct (Hd _ _ _ V1).
      * rewrite V2 in Q1. destruct (t_table x =? t); eauto.
  - (* add *)
    assert (Hi : In (ITPut KIndex i (mkT sid name t)) (e_incs e)) by (rewrite Ei; simpl; auto).
    assert (Hp : forall k j u, In (ITPut k j u) (e_incs e) -> k = KIndex /\ j = i /\ u = mkT sid name t).
    { intros k j u Q. rewrite Ei in Q. destruct Q as [Q|[Q|[]]]; inversion Q; subst; auto. }
    assert (Hd : forall k j u, ~ In (ITDel k j u) (e_incs e)).
    { intros k j u Q. rewrite Ei in Q. destruct Q as [Q|[Q|[]]]; inversion Q. }
    destruct (i_put _ _ _ _ _ I KIndex i _ (in_or_app _ _ _ (or_introl Hi))) as (En & _).
    destruct (X1 _ _ Tl) as (A0 & B0 & tb & C0 & D0). assert (tb = tb0) by congruence. subst tb.
    assert (Nin : ~ In i l0) by (rewrite B0; intros (z & Z1 & _); congruence).
    assert (T : forall x, get_tix s' x = if x =? t then Some (l0 ++ [i]) else get_tix s x).
    { intros x. rewrite Ei in HA. rewrite (tix_head _ _ _ _ x S HA).
      - simpl. rewrite Tl. destruct (mem i l0) eqn:Em; auto. apply mem_in in Em. tauto.
      - intros j [<-|[]]. auto. }
    assert (E' : forall j, get_ent s' KIndex j = if j =? i then Some (mkT sid name t) else get_ent s KIndex j).
    { intros j. destruct (F KIndex j) as [(v & V1 & V2 & V3)|[(v & V1 & _)|(V1 & _ & V2)]].
      - destruct (Hp _ _ _ V1) as (_ & -> & ->). rewrite Z.eqb_refl. auto.
      - destruct (Hd _ _ _ V1).
      - destruct (Z.eqb_spec j i); auto. subst. destruct (V1 _ Hi). }
    assert (Et' : forall j, get_ent s' KTable j = get_ent s KTable j).
    { intros j. destruct (F KTable j) as [(v & V1 & V2 & V3)|[(v & V1 & _)|(V1 & _ & V2)]]; auto.
      - destruct (Hp _ _ _ V1) as (? & _). discriminate.
      - destruct (Hd _ _ _ V1). }
    split.
    + intros t1 l Hl. rewrite T in Hl. destruct (Z.eqb_spec t1 t) as [->|Ne].
      * inversion Hl; subst l. clear Hl. split; [apply NoDup_app_one; auto|]. split.
        -- intros j. rewrite in_app_iff, E', B0. cbn [In]. destruct (Z.eqb_spec j i) as [->|Nj].
           ++ split; eauto.
           ++ split; auto. intros [?|[?|[]]]; auto. congruence.
        -- exists tb0. rewrite Et'. split; auto. intros j x Q1 Q2. rewrite E' in Q1. destruct (Z.eqb_spec j i) as [->|Nj]; eauto.
           inversion Q1; subst. auto.
      * destruct (X1 _ _ Hl) as (A & B & tb & C & D). split; auto. split.
        -- intros j. rewrite B, E'. destruct (Z.eqb_spec j i) as [->|Nj]; [|tauto]. rewrite En.
           split; intros (z & Z1 & Z2); [discriminate|]. inversion Z1; subst. simpl in Ne. congruence.
        -- exists tb. rewrite Et'. split; auto. intros j x Q1 Q2. rewrite E' in Q1. destruct (Z.eqb_spec j i) as [->|Nj]; eauto.
           inversion Q1; subst. simpl in Ne. congruence.
    + intros j x Q1 Q2. rewrite T. rewrite E' in Q1. destruct (Z.eqb_spec j i) as [->|Nj].
      * inversion Q1; subst. simpl. rewrite Z.eqb_refl. eauto.
      * destruct (t_table x =? t); eauto.
  - (* rem *)
    assert (Hi : In (ITDel KIndex i sid) (e_incs e)) by (rewrite Ei; simpl; auto).
    assert (Hd : forall k j u, In (ITDel k j u) (e_incs e) -> k = KIndex /\ j = i).
    { intros k j u Q. rewrite Ei in Q. destruct Q as [Q|[Q|[]]]; inversion Q; subst; auto. }
    assert (Hp : forall k j u, ~ In (ITPut k j u) (e_incs e)).
    { intros k j u Q. rewrite Ei in Q. destruct Q as [Q|[Q|[]]]; inversion Q. }
    destruct (X1 _ _ Tl) as (A0 & B0 & tb0 & C0 & D0).
    assert (T : forall x, get_tix s' x = if x =? t then Some (without i l0) else get_tix s x).
    { intros x. rewrite Ei in HA. rewrite (tix_head _ _ _ _ x S HA).
      - simpl. rewrite Tl. auto.
      - intros j [<-|[]]. auto. }
    assert (E' : forall j, get_ent s' KIndex j = if j =? i then None else get_ent s KIndex j).
    { intros j. destruct (F KIndex j) as [(v & V1 & V2 & V3)|[(v & V1 & V2 & _)|(_ & V1 & V2)]].
      - destruct (Hp _ _ _ V1).
      - destruct (Hd _ _ _ V1) as (_ & ->). rewrite Z.eqb_refl. auto.
      - destruct (Z.eqb_spec j i); auto. subst. destruct (V1 _ Hi). }
    assert (Et' : forall j, get_ent s' KTable j = get_ent s KTable j).
    { intros j. destruct (F KTable j) as [(v & V1 & V2 & V3)|[(v & V1 & _)|(V1 & _ & V2)]]; auto.
      - destruct (Hp _ _ _ V1).
      - destruct (Hd _ _ _ V1) as (? & _). discriminate. }
    split.
    + intros t1 l Hl. rewrite T in Hl. destruct (Z.eqb_spec t1 t) as [->|Ne].
      * inversion Hl; subst l. clear Hl. split; [apply NoDup_filter; auto|]. split.
        -- intros j. rewrite in_without, E', B0. destruct (Z.eqb_spec j i) as [->|Nj].
           ++ split; [tauto|]. intros (z & Z1 & _). discriminate.
           ++ tauto.
        -- exists tb0. rewrite Et'. split; auto. intros j x Q1 Q2. rewrite E' in Q1. destruct (Z.eqb_spec j i) as [->|Nj]; [discriminate|eauto].
      * destruct (X1 _ _ Hl) as (A & B & tb & C & D). split; auto. split.
        -- intros j. rewrite B, E'. destruct (Z.eqb_spec j i) as [->|Nj]; [|tauto]. rewrite Ex.
           split; intros (z & Z1 & Z2); [|discriminate]. congruence.
        -- exists tb. rewrite Et'. split; auto. intros j x Q1 Q2. rewrite E' in Q1. destruct (Z.eqb_spec j i) as [->|Nj]; [discriminate|eauto].
    + intros j x Q1 Q2. rewrite T. rewrite E' in Q1. destruct (Z.eqb_spec j i) as [->|Nj]; [discriminate|].
      destruct (t_table x =? t); eauto.
  - (* drop *)
    assert (Hp : forall k j u, ~ In (ITPut k j u) (e_incs e)).
    { intros k j u Q. rewrite Ei in Q. destruct Q as [Q|Q]; [discriminate|]. apply in_app_or in Q. destruct Q as [Q|[Q|[]]]; [|discriminate].
      apply in_map_iff in Q. destruct Q as (p & Q1 & Q2). discriminate. }
    assert (Hd : forall j u, In (ITDel KIndex j u) (e_incs e) -> In j l0).
    { intros j u Q. rewrite Ei in Q. destruct Q as [Q|Q]; [discriminate|]. apply in_app_or in Q. destruct Q as [Q|[Q|[]]]; [|discriminate].
      apply in_map_iff in Q. destruct Q as (p & Q1 & Q2). inversion Q1; subst; auto. }
    assert (Hd2 : forall j, In j l0 -> In (ITDel KIndex j sid) (e_incs e)).
    { intros j Q. rewrite Ei. right. apply in_or_app. left. apply in_map_iff. eauto. }
    assert (Hd3 : forall j u, In (ITDel KTable j u) (e_incs e) -> j = t).
    { intros j u Q. rewrite Ei in Q. destruct Q as [Q|Q]; [discriminate|]. apply in_app_or in Q. destruct Q as [Q|[Q|[]]].
      - apply in_map_iff in Q. destruct Q as (p & Q1 & Q2). discriminate.
      - inversion Q; auto. }
    destruct (X1 _ _ Tl) as (A0 & B0 & tb0 & C0 & D0).
    assert (T : forall x, get_tix s' x = if x =? t then None else get_tix s x).
    { intros x. rewrite Ei in HA. rewrite (tix_head _ _ _ _ x S HA); [reflexivity|].
      intros j Q. apply in_app_or in Q. destruct Q as [Q|[Q|[]]]; [|subst; auto]. apply in_map_iff in Q. destruct Q as (p & <- & _). auto. }
    assert (E' : forall j x, get_ent s' KIndex j = Some x <-> get_ent s KIndex j = Some x /\ t_table x <> t).
    { intros j x. destruct (F KIndex j) as [(v & V1 & V2 & V3)|[(v & V1 & V2 & _)|(_ & V1 & V2)]].
      - destruct (Hp _ _ _ V1).
      - rewrite V2. split; [discriminate|]. intros [Q1 Q2]. apply Hd in V1. apply B0 in V1. destruct V1 as (z & Z1 & Z2). congruence.
      - rewrite V2. split; [|tauto]. intros Q. split; auto. intros Q2. destruct (V1 sid). apply Hd2. apply B0. eauto. }
    split.
    + intros t1 l Hl. rewrite T in Hl. destruct (Z.eqb_spec t1 t) as [->|Ne]; [discriminate|].
      destruct (X1 _ _ Hl) as (A & B & tb & C & D). split; auto. split.
      * intros j. rewrite B. split; intros (z & Z1 & Z2); exists z; [rewrite E'; split; [split; auto; congruence|auto]|].
        apply E' in Z1. tauto.
      * exists tb. split.
        -- destruct (F KTable t1) as [(v & V1 & V2 & V3)|[(v & V1 & _)|(V1 & _ & V2)]]; [congruence| |congruence].
           apply Hd3 in V1. congruence.
        -- intros j x Q1 Q2. apply E' in Q1. destruct Q1 as [Q1 _]. eauto.
    + intros j x Q1 Q2. apply E' in Q1. destruct Q1 as [Q1 Q3]. rewrite T. apply Z.eqb_neq in Q3. rewrite Q3. eauto.
Qed.
