(** Lemmas for C83-C88: from the invariant to the statements. *)
From Coq Require Import ZArith List Bool Lia Permutation.
From Verif Require Import Bytes SMap Outcome LogProofs2 NmModel NmSpec NmProofs1 NmProofs2 NmProofs3 NmProofs4 NmProofs5 NmProofs6.
Import ListNotations.
Open Scope Z_scope.

Lemma calm_J l s : calm_hist init l -> run init l = Ok s -> J s.
Proof. intros H E. destruct (calm_run l init J_init H) as (s1 & E1 & H1). congruence. Qed.

Lemma calm_app l1 : forall s l2 s1, calm_hist s (l1 ++ l2) -> run s l1 = Ok s1 -> calm_hist s l1 /\ calm_hist s1 l2.
Proof.
  induction l1 as [|o l1 IH]; intros s l2 s1 H E; simpl in *.
  - injection E as <-. auto.
  - destruct H as [H1 H2]. destruct (step s o) as [s2|]; [|discriminate]. destruct (IH _ _ _ H2 E). auto.
Qed.

Lemma names_unique_ok l s : calm_hist init l -> run init l = Ok s -> names_unique s.
Proof. intros H E. apply J_unique. eapply calm_J; eauto. Qed.
Lemma lookups_ok l s : calm_hist init l -> run init l = Ok s -> lookups_right s.
Proof. intros H E. apply J_lookups. eapply calm_J; eauto. Qed.
Lemma lists_ok l s : calm_hist init l -> run init l = Ok s -> lists_exact s.
Proof. intros H E. apply J_lists. eapply calm_J; eauto. Qed.
Lemma indexes_ok l s : calm_hist init l -> run init l = Ok s -> indexes_exact s.
Proof. intros H E. apply j_ix. eapply calm_J; eauto. Qed.
Lemma never_aborts l : calm_hist init l -> run init l <> Crash.
Proof. intros H E. destruct (calm_run l init J_init H) as (s1 & E1 & H1). congruence. Qed.

(** GetTables *)
Lemma get_list_ok s sid : forall l, (forall i, In i l -> exists x, get_one s KIndex sid i = Some x) ->
  exists r, get_list s sid l = Some r /\ Forall2 (fun i x => get_one s KIndex sid i = Some x) l r.
Proof.
  induction l as [|i l IH]; intros H; simpl; eauto.
  destruct (H i (or_introl eq_refl)) as [x Hx]. destruct IH as (r & E & F); [intros; apply H; right; auto|].
  rewrite Hx, E. eauto.
Qed.

Lemma get_tables_ok l s t tb ids : calm_hist init l -> run init l = Ok s ->
  get_ent s KTable t = Some tb -> get_tix s t = Some ids ->
  exists r, get_tables s (t_schema tb) t = Some (tb :: r) /\
    Forall2 (fun i x => get_ent s KIndex i = Some x /\ t_table x = t) ids r /\ NoDup ids /\
    (forall i x, get_ent s KIndex i = Some x -> t_table x = t -> In i ids).
Proof.
  intros HC E Ht Hl. assert (HJ := calm_J _ _ HC E). assert (I := proj1 (j_is _ HJ)).
  destruct (i_pos _ _ _ _ _ I _ _ _ Ht) as [P1 P2]. destruct (i_sch _ _ _ _ _ I _ _ _ Ht) as [c Hc].
  destruct (j_ix _ HJ) as [X1 X2]. destruct (X1 _ _ Hl) as (Nl & Bl & _).
  assert (G : forall k i x, get_ent s k i = Some x -> get_one s k (t_schema tb) i = Some x).
  { intros k i x Hx. destruct (i_pos _ _ _ _ _ I _ _ _ Hx) as [Q1 Q2]. unfold get_one.
    assert ((t_schema tb <? 0) || (i <=? 0) = false) as -> by lia. rewrite Hc. auto. }
  destruct (get_list_ok s (t_schema tb) ids) as (r & Er & Fr).
  { intros i Hi. apply Bl in Hi. destruct Hi as (x & Hx & _). exists x. auto. }
  exists r. unfold get_tables. rewrite (G _ _ _ Ht), Hl, Er. split; auto. split; [|split; auto].
  - clear Er Hl Nl X1. assert (Bi : forall i, In i ids -> exists x, get_ent s KIndex i = Some x /\ t_table x = t) by (intros; apply Bl; auto).
    clear Bl. induction Fr as [|i x l0 r0 Hx Fr IH]; constructor.
    + destruct (Bi i (or_introl eq_refl)) as (y & Y1 & Y2). assert (Q := G _ _ _ Y1). assert (x = y) by congruence. subst. auto.
    + apply IH. intros; apply Bi; right; auto.
  - intros i x Hx Hy. apply Bl. eauto.
Qed.

(** DropTables *)
Lemma drop_tables_form s sid t tb ids : J s -> get_ent s KTable t = Some tb -> t_schema tb = sid -> get_tix s t = Some ids ->
  (forall i, waiting s i -> ~ about_table i t) ->
  exists s1, drop_tables s [(KTable, sid, t)] = (true, s1) /\
    s_pend s1 = s_pend s ++ [mkE (IXDel t :: map (fun i => ITDel KIndex i sid) ids ++ [ITDel KTable t sid]) []].
Proof.
  intros HJ Htb Hsid Etx Hw. assert (HI := j_is _ HJ). assert (HIv := proj1 HI). assert (W := waiting_pincs s).
  destruct (i_sch _ _ _ _ _ HIv _ _ _ Htb) as [c Hc]. destruct (i_pos _ _ _ _ _ HIv _ _ _ Htb) as [Tp Sp].
  rewrite Hsid in *. destruct (j_ix _ HJ) as [X1 X2]. destruct (X1 _ _ Etx) as (Nl & Bl & tb1 & C1 & D1).
  assert (tb1 = tb) by congruence. subst tb1.
  destruct (drop_list_ok ids sid s (pincs s) HI Nl) as (s1 & E1 & Sm & I1); [lia|eauto| |].
  { intros i Hi. apply Bl in Hi. destruct Hi as (x & Hx1 & Hx2). split.
    - exists x. split; auto. rewrite <- Hsid. eauto.
    - intros y Q. apply W in Q. destruct (drop_waits_about s i x y HJ Hx1) as (j & J1 & J2); [lia|auto|]. rewrite Hx2 in J2. apply (Hw _ J1 J2). }
  assert (E2 : exists s2, drop_one s1 KTable sid t = Some (s2, ITDel KTable t sid) /\ s_pend s2 = s_pend s1).
  { unfold drop_one. assert (sid <? 0 = false) as -> by lia. rewrite (same_sch _ _ _ Sm), Hc, (same_ent _ _ _ _ Sm), Htb, Hsid, Z.eqb_refl. simpl. eauto. }
  destruct E2 as (s2 & E2 & P2).
  unfold drop_tables. cbn [drop_each]. unfold drop_table_indexes.
  assert (Eg : get_one s KTable sid t = Some tb).
  { unfold get_one. assert ((sid <? 0) || (t <=? 0) = false) as -> by lia. rewrite Hc. auto. }
  rewrite Eg, Etx, E1. cbv iota beta. rewrite E2. cbv iota beta. rewrite in_order_drop. eexists. split; [reflexivity|].
  unfold propose, set_pend. cbn [s_pend]. rewrite P2. destruct Sm as (_ & _ & _ & _ & ->). auto.
Qed.

Lemma drop_one_ent s k0 sid j s1 i0 k i : drop_one s k0 sid j = Some (s1, i0) -> get_ent s1 k i = get_ent s k i.
Proof.
  unfold drop_one. destruct (sid <? 0); [discriminate|]. destruct (get_sch s sid); [|discriminate].
  destruct (get_ent s k0 j) as [x|]; [|discriminate]. destruct (negb _); [discriminate|]. intros H.
  assert (E : s1 = set_nm s k0 (nm_del (nm s k0) sid (t_name x))) by congruence. subst. apply same_ent, same_set_nm.
Qed.
Lemma drop_list_ent sid k i : forall l s ok s1 is, drop_list s sid l = (ok, s1, is) -> get_ent s1 k i = get_ent s k i.
Proof.
  induction l as [|j l IH]; intros s ok s1 is H; simpl in H; [congruence|].
  destruct (drop_one s KIndex sid j) as [[sc ic]|] eqn:Eo; [|congruence].
  destruct (drop_list sc sid l) as [[ok2 sd] isd] eqn:Ef. assert (sd = s1) by congruence. subst.
  rewrite (IH _ _ _ _ Ef). eapply drop_one_ent; eauto.
Qed.
Lemma nth_last {A} (l : list A) x : nth_error (l ++ [x]) (length l) = Some x.
Proof. rewrite nth_error_app2 by lia. rewrite Nat.sub_diag. auto. Qed.

Lemma drop_all_gone l s t sid tb ids : calm_hist init l -> run init l = Ok s ->
  get_ent s KTable t = Some tb -> t_schema tb = sid -> get_tix s t = Some ids ->
  (forall i, waiting s i -> ~ about_table i t) ->
  fst (drop_tables s [(KTable, sid, t)]) = true /\
  exists s', run s [ODropTables [(KTable, sid, t)]; OApply (length (s_pend s))] = Ok s' /\
    get_ent s' KTable t = None /\ get_tix s' t = None /\
    (forall i x, get_ent s' KIndex i = Some x -> t_table x <> t) /\
    (forall k i x, get_ent s k i = Some x -> i <> t -> t_table x <> t -> get_ent s' k i = Some x).
Proof.
  intros HC E Ht Hs Hl Hw. assert (HJ := calm_J _ _ HC E). assert (I := proj1 (j_is _ HJ)).
  destruct (i_pos _ _ _ _ _ I _ _ _ Ht) as [P1 P2].
  destruct (drop_tables_form _ _ _ _ _ HJ Ht Hs Hl Hw) as (s1 & E1 & Pd). rewrite E1. split; auto.
  set (e := mkE _ _) in Pd.
  assert (Cd : calm s (ODropTables [(KTable, sid, t)])).
  { exists sid, t. split; auto. split; auto. intros tb0 Q. congruence. }
  destruct (step_calm _ _ HJ Cd) as (s1' & E1' & J1). cbn [step] in E1'. rewrite E1 in E1'. cbn [snd] in E1'. injection E1' as <-.
  assert (Hn : nth_error (s_pend s1) (length (s_pend s)) = Some e) by (rewrite Pd; apply nth_last).
  destruct (step_calm s1 (OApply (length (s_pend s))) J1 Logic.I) as (s2 & E2 & J2).
  exists s2. cbn [run]. cbn [step] in *. rewrite E1. cbn [snd]. rewrite Hn in *. rewrite E2. split; auto.
  assert (S1 : Sorted (set_pend s1 (remove_nth (length (s_pend s)) (s_pend s1)))) by (destruct (proj2 (j_is _ J1)); constructor; auto).
  cbn [e_incs e] in E2.
  assert (Hx : forall j, In j (map (fun i => ITDel KIndex i sid) ids ++ [ITDel KTable t sid]) -> exists k0 i0, j = ITDel k0 i0 sid).
  { intros j Q. apply in_app_or in Q. destruct Q as [Q|[<-|[]]]; eauto. apply in_map_iff in Q. destruct Q as (i & <- & _). eauto. }
  assert (A : get_ent s2 KTable t = None).
  { refine (ent_del _ _ _ KTable t sid S1 E2 _ _).
    - right. apply in_or_app. right; left; auto.
    - intros x [Q|Q]; [discriminate|]. destruct (Hx _ Q) as (? & ? & ?). discriminate. }
  assert (B : get_tix s2 t = None).
  { rewrite (tix_head _ _ _ _ t S1 E2). 
    - simpl. rewrite Z.eqb_refl. auto.
    - intros j Q. destruct (Hx _ Q) as (? & ? & ->). auto. }
  split; auto. split; auto. destruct (j_ix _ J2) as [X1 X2]. split.
  - intros i x Hi Q. destruct (X2 i x Hi) as [l0 Q0]; [lia|]. congruence.
  - intros k i x Hi Ne Nt. rewrite (ent_same _ _ _ k i S1 E2).
    + rewrite set_pend_ent. assert (Sm := step_calm _ _ HJ Cd). clear Sm.
      assert (Q : get_ent s1 k i = get_ent s k i).
      { unfold drop_tables, drop_each, drop_table_indexes in E1.
        assert (HI := j_is _ HJ). destruct (i_sch _ _ _ _ _ I _ _ _ Ht) as [c Hc].
        assert (Eg : get_one s KTable sid t = Some tb).
        { unfold get_one. assert ((sid <? 0) || (t <=? 0) = false) as -> by lia. rewrite <- Hs, Hc. auto. }
        rewrite Eg, Hl in E1.
        destruct (drop_list s sid ids) as [[ok sa] isa] eqn:Ed. destruct ok; [|discriminate].
        destruct (drop_one sa KTable sid t) as [[sb ib]|] eqn:Eo; [|discriminate]. injection E1 as <-.
        unfold propose. rewrite set_pend_ent.
        rewrite (drop_one_ent _ _ _ _ _ _ _ _ Eo). eapply drop_list_ent; eauto. }
      rewrite Q. auto.
    + intros y [Q|Q]; [discriminate|]. destruct (Hx _ Q) as (? & ? & ?). discriminate.
    + intros y [Q|Q]; [discriminate|]. apply in_app_or in Q. destruct Q as [Q|[Q|[]]].
      * apply in_map_iff in Q. destruct Q as (z & Q & Hz). inversion Q; subst. destruct (j_ix _ HJ) as [Y1 _].
        destruct (Y1 _ _ Hl) as (_ & Bz & _). apply Bz in Hz. destruct Hz as (w & W1 & W2). congruence.
      * inversion Q; subst. congruence.
Qed.

(** DropTable *)
Lemma drop_table_never s sid t : drop_table s sid t = (false, s).
Proof.
  unfold drop_table. destruct (get_tables s sid t) as [l|] eqn:Eg; auto. destruct l as [|x l]; auto.
  unfold get_tables in Eg. destruct (get_one s KTable sid t); [|discriminate]. destruct (get_tix s t) as [l0|]; [|discriminate].
  destruct (get_list s sid l0); discriminate.
Qed.

(** a table without an entry in the map of table indexes is never dropped *)
Lemma drop_tables_never s sid t r : get_tix s t = None -> fst (drop_tables s ((KTable, sid, t) :: r)) = false.
Proof.
  intros H. unfold drop_tables. cbn [drop_each]. unfold drop_table_indexes. rewrite H.
  destruct (get_one s KTable sid t); reflexivity.
Qed.
