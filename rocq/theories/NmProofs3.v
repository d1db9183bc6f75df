(** Lemmas for C83-C86: from the views to the states; what applying an increment changes. *)
From Coq Require Import ZArith List Bool Lia Permutation.
From Verif Require Import Bytes SMap Outcome LogProofs2 NmModel NmSpec NmProofs1 NmProofs2.
Import ListNotations.
Open Scope Z_scope.

Definition zsorted {V} (m : smap Z V) : Prop := sorted Z.compare m.
Record Sorted (s : state) : Prop := {
  so_sch : zsorted (s_sch s); so_tab : zsorted (s_tab s); so_ind : zsorted (s_ind s); so_tix : zsorted (s_tix s) }.
Definition IS (s : state) (R : list inc) : Prop := Inv (get_sch s) (get_ent s) (s_sn s) (nm s) R /\ Sorted s.

Lemma zget_put {V} (m : smap Z V) k v x : get Z.compare (put Z.compare m k v) x = if x =? k then Some v else get Z.compare m x.
Proof.
  rewrite (get_put _ zcmp_ok). destruct (cmp_dec Z.compare zcmp_ok k x) as [->|Ne].
  - rewrite Z.eqb_refl. auto.
  - destruct (Z.eqb_spec x k); congruence.
Qed.
Lemma zget_del {V} (m : smap Z V) k x : zsorted m -> get Z.compare (del Z.compare m k) x = if x =? k then None else get Z.compare m x.
Proof.
  intros Hs. rewrite (get_del _ zcmp_ok) by auto. destruct (cmp_dec Z.compare zcmp_ok k x) as [->|Ne].
  - rewrite Z.eqb_refl. auto.
  - destruct (Z.eqb_spec x k); congruence.
Qed.
Lemma zsorted_put {V} (m : smap Z V) k v : zsorted m -> zsorted (put Z.compare m k v).
Proof. apply (sorted_put _ zcmp_ok). Qed.
Lemma zsorted_del {V} (m : smap Z V) k : zsorted m -> zsorted (del Z.compare m k).
Proof. apply (sorted_del Z.compare). Qed.

Lemma sorted_ents s k : Sorted s -> zsorted (ents s k).
Proof. intros []; destruct k; auto. Qed.
Lemma get_ent_ents s k i : get_ent s k i = get Z.compare (ents s k) i.
Proof. destruct k; reflexivity. Qed.
Lemma ents_set_ent s k m k' : ents (set_ent s k m) k' = if kind_eqb k' k then m else ents s k'.
Proof. destruct k, k'; reflexivity. Qed.
Lemma get_ent_set_sch s m k i : get_ent (set_sch s m) k i = get_ent s k i.
Proof. destruct k; reflexivity. Qed.
Lemma get_sch_set_ent s k m i : get_sch (set_ent s k m) i = get_sch s i.
Proof. destruct k; reflexivity. Qed.
Lemma nm_set_ent s k m k' : nm (set_ent s k m) k' = nm s k'.
Proof. destruct k, k'; reflexivity. Qed.
Lemma nm_set_sch s m k' : nm (set_sch s m) k' = nm s k'.
Proof. destruct k'; reflexivity. Qed.
Lemma sn_set_ent s k m : s_sn (set_ent s k m) = s_sn s.
Proof. destruct k; reflexivity. Qed.
Lemma sch_set_ent s k m : s_sch (set_ent s k m) = s_sch s.
Proof. destruct k; reflexivity. Qed.
Lemma pend_set_ent s k m : s_pend (set_ent s k m) = s_pend s.
Proof. destruct k; reflexivity. Qed.
Lemma tix_set_ent s k m : s_tix (set_ent s k m) = s_tix s.
Proof. destruct k; reflexivity. Qed.

Lemma Sorted_set_sch s m : Sorted s -> zsorted m -> Sorted (set_sch s m).
Proof. intros [] H. constructor; auto. Qed.
Lemma Sorted_set_tix s m : Sorted s -> zsorted m -> Sorted (set_tix s m).
Proof. intros [] H. constructor; auto. Qed.
Lemma Sorted_set_ent s k m : Sorted s -> zsorted m -> Sorted (set_ent s k m).
Proof. intros [] H. destruct k; constructor; auto. Qed.

Lemma IS_set_tix s m R : zsorted m -> IS s R -> IS (set_tix s m) R.
Proof.
  intros Hm [I S]. split; [|apply Sorted_set_tix; auto].
  eapply Inv_ext; [| | | |exact I]; intros; try reflexivity; destruct k; reflexivity.
Qed.
Lemma IS_perm s R R' : Permutation R R' -> IS s R -> IS s R'.
Proof. intros P [I S]. split; auto. eapply Inv_perm; eauto. Qed.
Lemma IS_x s R i : is_x i = true -> (IS s (i :: R) <-> IS s R).
Proof. intros H. unfold IS. rewrite (Inv_x _ _ _ _ _ i H). tauto. Qed.

(** an increment is applied *)
Lemma apply_inc_ok s i R : IS s (i :: R) -> exists s', apply_inc s i = Ok s' /\ IS s' R /\ s_pend s' = s_pend s.
Proof.
  intros HI. destruct i as [id a b|id|t l|t j|t j|t|k id t|k id sid].
  - destruct HI as [I S]. eexists; split; [reflexivity|]. split; [|reflexivity]. split.
    + eapply Inv_ext; [| | | |exact (apply_sput _ _ _ _ _ _ _ _ I)]; intros; try reflexivity; try (destruct k; reflexivity).
      unfold get_sch, set_sch. simpl. rewrite zget_put. reflexivity.
    + apply Sorted_set_sch; auto. apply zsorted_put. apply S.
  - destruct HI as [I S]. eexists; split; [reflexivity|]. split; [|reflexivity]. split.
    + eapply Inv_ext; [| | | |exact (apply_sdel _ _ _ _ _ _ I)]; intros; try reflexivity; try (destruct k; reflexivity).
      unfold get_sch, set_sch. simpl. rewrite zget_del by apply S. reflexivity.
    + apply Sorted_set_sch; auto. apply zsorted_del. apply S.
  - apply IS_x in HI; auto. eexists; split; [reflexivity|]. split; [|reflexivity].
    apply IS_set_tix; auto. apply zsorted_put. apply HI.
  - apply IS_x in HI; auto. simpl. destruct (get_tix s t); [|eauto].
    eexists; split; [reflexivity|]. split; [|reflexivity]. apply IS_set_tix; auto. apply zsorted_put. apply HI.
  - apply IS_x in HI; auto. simpl. destruct (get_tix s t); [|eauto].
    eexists; split; [reflexivity|]. split; [|reflexivity]. apply IS_set_tix; auto. apply zsorted_put. apply HI.
  - apply IS_x in HI; auto. eexists; split; [reflexivity|]. split; [|reflexivity].
    apply IS_set_tix; auto. apply zsorted_del. apply HI.
  - destruct HI as [I S]. destruct (i_put _ _ _ _ _ I k id t (or_introl eq_refl)) as (_ & _ & _ & (c & Hc) & _).
    simpl. rewrite Hc. eexists; split; [reflexivity|]. split; [|simpl; rewrite pend_set_ent; reflexivity]. split.
    + eapply Inv_ext; [| | | |exact (apply_put _ _ _ _ _ _ _ _ _ Hc I)]; intros.
      * unfold get_sch, set_sch. cbn [s_sch]. rewrite zget_put. rewrite sch_set_ent. reflexivity.
      * rewrite get_ent_set_sch, get_ent_ents, ents_set_ent. unfold updE.
        destruct (kind_eqb k0 k) eqn:Ek; simpl; [|apply eq_sym, get_ent_ents].
        apply kind_eqb_eq in Ek. subst. rewrite zget_put. destruct (x =? id); auto.
      * simpl. rewrite sn_set_ent. auto.
      * rewrite nm_set_sch, nm_set_ent. auto.
    + apply Sorted_set_sch; [apply Sorted_set_ent; auto; apply zsorted_put, sorted_ents; auto|].
      apply zsorted_put. rewrite sch_set_ent. apply S.
  - destruct HI as [I S]. destruct (i_del _ _ _ _ _ I k id sid (or_introl eq_refl)) as ((t & Ht & Hs) & _).
    destruct (i_sch _ _ _ _ _ I _ _ _ Ht) as [c Hc]. rewrite Hs in Hc.
    simpl. rewrite Hc. eexists; split; [reflexivity|]. split; [|simpl; rewrite pend_set_ent; reflexivity]. split.
    + eapply Inv_ext; [| | | |exact (apply_del _ _ _ _ _ _ _ _ _ Hc I)]; intros.
      * unfold get_sch, set_sch. cbn [s_sch]. rewrite zget_put. rewrite sch_set_ent. reflexivity.
      * rewrite get_ent_set_sch, get_ent_ents, ents_set_ent. unfold updE.
        destruct (kind_eqb k0 k) eqn:Ek; simpl; [|apply eq_sym, get_ent_ents].
        apply kind_eqb_eq in Ek. subst. rewrite zget_del by (apply sorted_ents; auto).
        destruct (x =? id); auto.
      * simpl. rewrite sn_set_ent. auto.
      * rewrite nm_set_sch, nm_set_ent. auto.
    + apply Sorted_set_sch; [apply Sorted_set_ent; auto; apply zsorted_del, sorted_ents; auto|].
      apply zsorted_put. rewrite sch_set_ent. apply S.
Qed.

Lemma apply_incs_ok l : forall s R, IS s (l ++ R) -> exists s', apply_incs s l = Ok s' /\ IS s' R /\ s_pend s' = s_pend s.
Proof.
  induction l as [|i l IH]; intros s R HI; simpl in *; eauto.
  destruct (apply_inc_ok _ _ _ HI) as (s1 & E1 & H1 & P1). rewrite E1.
  destruct (IH _ _ H1) as (s2 & E2 & H2 & P2). exists s2. rewrite P2. auto.
Qed.

(** frames *)
Lemma apply_inc_ent s i s' k x : Sorted s -> apply_inc s i = Ok s' ->
  get_ent s' k x = match i with
                   | ITPut k1 j t => if kind_eqb k k1 && (x =? j) then Some t else get_ent s k x
                   | ITDel k1 j _ => if kind_eqb k k1 && (x =? j) then None else get_ent s k x
                   | _ => get_ent s k x
                   end.
Proof.
  intros S. destruct i as [id a b|id|t l|t j|t j|t|k1 id t|k1 id sid]; simpl; intros H.
  1-3: injection H as <-; destruct k; reflexivity.
  1-2: destruct (get_tix s t); injection H as <-; destruct k; reflexivity.
  - injection H as <-; destruct k; reflexivity.
  - destruct (get_sch s (t_schema t)); [|discriminate]. injection H as <-.
    rewrite get_ent_set_sch, get_ent_ents, ents_set_ent. destruct (kind_eqb k k1) eqn:Ek; simpl; [|apply eq_sym, get_ent_ents].
    apply kind_eqb_eq in Ek. subst. rewrite zget_put. destruct (x =? id); auto.
  - destruct (get_sch s sid); [|discriminate]. injection H as <-.
    rewrite get_ent_set_sch, get_ent_ents, ents_set_ent. destruct (kind_eqb k k1) eqn:Ek; simpl; [|apply eq_sym, get_ent_ents].
    apply kind_eqb_eq in Ek. subst. rewrite zget_del by (apply sorted_ents; auto). destruct (x =? id); auto.
Qed.

Definition tix_after (s : state) (i : inc) (x : Z) : option (list Z) :=
  match i with
  | IXPut t l => if x =? t then Some l else get_tix s x
  | IXAdd t j => if x =? t then match get_tix s t with Some l => Some (if mem j l then l else l ++ [j]) | None => None end else get_tix s x
  | IXRem t j => if x =? t then match get_tix s t with Some l => Some (without j l) | None => None end else get_tix s x
  | IXDel t => if x =? t then None else get_tix s x
  | _ => get_tix s x
  end.
Lemma apply_inc_tix s i s' x : Sorted s -> apply_inc s i = Ok s' -> get_tix s' x = tix_after s i x.
Proof.
  intros S. destruct i as [id a b|id|t l|t j|t j|t|k1 id t|k1 id sid]; simpl; intros H.
  1-2: injection H as <-; reflexivity.
  - injection H as <-. unfold get_tix, set_tix. simpl. rewrite zget_put. auto.
  - destruct (get_tix s t) eqn:Et; injection H as <-.
    + unfold get_tix, set_tix. simpl. rewrite zget_put. auto.
    + destruct (Z.eqb_spec x t); subst; auto.
  - destruct (get_tix s t) eqn:Et; injection H as <-.
    + unfold get_tix, set_tix. simpl. rewrite zget_put. auto.
    + destruct (Z.eqb_spec x t); subst; auto.
  - injection H as <-. unfold get_tix, set_tix. simpl. rewrite zget_del by apply S. auto.
  - destruct (get_sch s (t_schema t)); [|discriminate]. injection H as <-. unfold get_tix. simpl. rewrite tix_set_ent. auto.
  - destruct (get_sch s sid); [|discriminate]. injection H as <-. unfold get_tix. simpl. rewrite tix_set_ent. auto.
Qed.

Lemma apply_inc_sorted s i s' : Sorted s -> apply_inc s i = Ok s' -> Sorted s'.
Proof.
  intros S. destruct i as [id a b|id|t l|t j|t j|t|k1 id t|k1 id sid]; simpl; intros H.
  - injection H as <-. apply Sorted_set_sch; auto. apply zsorted_put, S.
  - injection H as <-. apply Sorted_set_sch; auto. apply zsorted_del, S.
  - injection H as <-. apply Sorted_set_tix; auto. apply zsorted_put, S.
  - destruct (get_tix s t) eqn:Et; injection H as <-; auto. apply Sorted_set_tix; auto. apply zsorted_put, S.
  - destruct (get_tix s t) eqn:Et; injection H as <-; auto. apply Sorted_set_tix; auto. apply zsorted_put, S.
  - injection H as <-. apply Sorted_set_tix; auto. apply zsorted_del, S.
  - destruct (get_sch s (t_schema t)); [|discriminate]. injection H as <-.
    apply Sorted_set_sch; [apply Sorted_set_ent; auto; apply zsorted_put, sorted_ents; auto|].
    apply zsorted_put. rewrite sch_set_ent. apply S.
  - destruct (get_sch s sid); [|discriminate]. injection H as <-.
    apply Sorted_set_sch; [apply Sorted_set_ent; auto; apply zsorted_del, sorted_ents; auto|].
    apply zsorted_put. rewrite sch_set_ent. apply S.
Qed.

Lemma ent_same l : forall s s' k x, Sorted s -> apply_incs s l = Ok s' ->
  (forall t, ~ In (ITPut k x t) l) -> (forall sid, ~ In (ITDel k x sid) l) -> get_ent s' k x = get_ent s k x.
Proof.
  induction l as [|i l IH]; intros s s' k x S H HP HD; simpl in H.
  - injection H as <-. auto.
  - destruct (apply_inc s i) as [s1|] eqn:E1; [|discriminate].
    rewrite (IH _ _ _ _ (apply_inc_sorted _ _ _ S E1) H) by (intros z Q; first [apply (HP z); right; exact Q|apply (HD z); right; exact Q]).
    rewrite (apply_inc_ent _ _ _ k x S E1). destruct i; auto; destruct (kind_eqb k k0) eqn:Ek; simpl; auto;
      apply kind_eqb_eq in Ek; subst; destruct (Z.eqb_spec x id); auto; subst.
    + destruct (HP t). left; auto.
    + destruct (HD sid). left; auto.
Qed.
Lemma ent_put l : forall s s' k x t, Sorted s -> apply_incs s l = Ok s' -> NoDup (tags l) ->
  In (ITPut k x t) l -> (forall sid, ~ In (ITDel k x sid) l) -> get_ent s' k x = Some t.
Proof.
  induction l as [|i l IH]; intros s s' k x t S H ND HP HD; simpl in H; [destruct HP|].
  destruct (apply_inc s i) as [s1|] eqn:E1; [|discriminate].
  assert (HD' : forall sid, ~ In (ITDel k x sid) l) by (intros z Q; apply (HD z); right; auto).
  destruct HP as [->|HP].
  - rewrite (ent_same _ _ _ k x (apply_inc_sorted _ _ _ S E1) H); auto.
    + rewrite (apply_inc_ent _ _ _ k x S E1). rewrite Z.eqb_refl. destruct k; auto.
    + intros t1 Q. unfold tags in ND. cbn [flat_map] in ND. rewrite tag_put in ND. cbn [app] in ND.
      apply NoDup_cons_iff in ND. destruct ND as [ND _]. apply ND. apply (tag_in_P _ _ _ _ Q).
  - refine (IH s1 s' k x t (apply_inc_sorted _ _ _ S E1) H _ HP HD'). unfold tags in ND. cbn [flat_map] in ND.
    clear -ND. induction (tag i) as [|z r IHr]; auto. cbn [app] in ND. apply NoDup_cons_iff in ND. tauto.
Qed.
Lemma ent_del l : forall s s' k x sid, Sorted s -> apply_incs s l = Ok s' ->
  In (ITDel k x sid) l -> (forall t, ~ In (ITPut k x t) l) -> get_ent s' k x = None.
Proof.
  assert (Keep : forall l s s' k x, Sorted s -> apply_incs s l = Ok s' -> (forall t, ~ In (ITPut k x t) l) ->
            get_ent s k x = None -> get_ent s' k x = None).
  { clear l. induction l as [|i l IH]; intros s s' k x S H HP HE; simpl in H.
    - injection H as <-. auto.
    - destruct (apply_inc s i) as [s1|] eqn:E1; [|discriminate].
      refine (IH s1 s' k x (apply_inc_sorted _ _ _ S E1) H _ _). { intros t Q; apply (HP t); right; auto. }
      rewrite (apply_inc_ent _ _ _ k x S E1). destruct i; auto; destruct (kind_eqb k k0) eqn:Ek; simpl; auto;
        apply kind_eqb_eq in Ek; subst; destruct (Z.eqb_spec x id); auto; subst.
      destruct (HP t). left; auto. }
  induction l as [|i l IH]; intros s s' k x sid S H HD HP; simpl in H; [destruct HD|].
  destruct (apply_inc s i) as [s1|] eqn:E1; [|discriminate].
  assert (HP' : forall t, ~ In (ITPut k x t) l) by (intros z Q; apply (HP z); right; auto).
  destruct HD as [->|HD].
  - refine (Keep l s1 s' k x (apply_inc_sorted _ _ _ S E1) H HP' _).
    rewrite (apply_inc_ent _ _ _ k x S E1). rewrite Z.eqb_refl. destruct k; auto.
  - exact (IH s1 s' k x sid (apply_inc_sorted _ _ _ S E1) H HD HP').
Qed.
Lemma tix_same l : forall s s' x, Sorted s -> apply_incs s l = Ok s' -> (forall i, In i l -> is_x i = false) -> get_tix s' x = get_tix s x.
Proof.
  induction l as [|i l IH]; intros s s' x S H Hx; simpl in H.
  - injection H as <-. auto.
  - destruct (apply_inc s i) as [s1|] eqn:E1; [|discriminate].
    rewrite (IH _ _ x (apply_inc_sorted _ _ _ S E1) H) by (intros; apply Hx; right; auto).
    rewrite (apply_inc_tix _ _ _ x S E1). assert (Q := Hx i (or_introl eq_refl)). destruct i; auto; discriminate.
Qed.
Lemma tix_head i l s s' x : Sorted s -> apply_incs s (i :: l) = Ok s' -> (forall j, In j l -> is_x j = false) -> get_tix s' x = tix_after s i x.
Proof.
  intros S H Hx. simpl in H. destruct (apply_inc s i) as [s1|] eqn:E1; [|discriminate].
  rewrite (tix_same _ _ _ x (apply_inc_sorted _ _ _ S E1) H Hx). apply apply_inc_tix; auto.
Qed.
Lemma apply_incs_sorted l : forall s s', Sorted s -> apply_incs s l = Ok s' -> Sorted s'.
Proof.
  induction l as [|i l IH]; intros s s' S H; simpl in H. injection H as <-; auto.
  destruct (apply_inc s i) as [s1|] eqn:E1; [|discriminate]. exact (IH s1 s' (apply_inc_sorted _ _ _ S E1) H).
Qed.
