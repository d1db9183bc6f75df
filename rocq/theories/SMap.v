(** Library: finite maps as strictly sorted association lists over an ordered key.
    Used as the model of one column family of an ordered key-value engine
    (RocksDB / BDB): [get], [put], [del], and in-order iteration of the list. *)
From Coq Require Import ZArith List Lia Bool Sorted.
From Verif Require Import Bytes.
Import ListNotations.

Section SMap.
  Context {K V : Type}.
  Variable cmp : K -> K -> comparison.

  Definition smap := list (K * V).

  Fixpoint get (m : smap) (k : K) : option V :=
    match m with
    | [] => None
    | (k', v) :: m' =>
        match cmp k k' with
        | Lt => None
        | Eq => Some v
        | Gt => get m' k
        end
    end.

  Fixpoint put (m : smap) (k : K) (v : V) : smap :=
    match m with
    | [] => [(k, v)]
    | (k', v') :: m' =>
        match cmp k k' with
        | Lt => (k, v) :: (k', v') :: m'
        | Eq => (k, v) :: m'
        | Gt => (k', v') :: put m' k v
        end
    end.

  Fixpoint del (m : smap) (k : K) : smap :=
    match m with
    | [] => []
    | (k', v') :: m' =>
        match cmp k k' with
        | Lt => (k', v') :: m'
        | Eq => m'
        | Gt => (k', v') :: del m' k
        end
    end.

  Definition klt (a b : K * V) : Prop := cmp (fst a) (fst b) = Lt.
  Definition sorted (m : smap) : Prop := StronglySorted klt m.

  Hypothesis Hc : cmp_ok cmp.

  Lemma cmp_refl a : cmp a a = Eq.
  Proof. apply (cmp_eq _ Hc); auto. Qed.
  Lemma cmp_gt_lt a b : cmp a b = Gt <-> cmp b a = Lt.
  Proof. rewrite (cmp_opp _ Hc a b). destruct (cmp a b); simpl; split; congruence. Qed.
  Lemma cmp_lt_gt a b : cmp a b = Lt <-> cmp b a = Gt.
  Proof. rewrite (cmp_opp _ Hc a b). destruct (cmp a b); simpl; split; congruence. Qed.
  Lemma cmp_lt_neq a b : cmp a b = Lt -> a <> b.
  Proof. intros H E. subst. rewrite cmp_refl in H. congruence. Qed.
  Lemma cmp_dec : forall a b : K, {a = b} + {a <> b}.
  Proof.
    intros a b. destruct (cmp a b) eqn:E.
    - left. apply (cmp_eq _ Hc); auto.
    - right. intro; subst. rewrite cmp_refl in E. congruence.
    - right. intro; subst. rewrite cmp_refl in E. congruence.
  Qed.

  Lemma sorted_nil : sorted [].
  Proof. constructor. Qed.

  Lemma sorted_cons a m : sorted (a :: m) <-> sorted m /\ Forall (klt a) m.
  Proof. split; intro H. inversion H; auto. destruct H; constructor; auto. Qed.

  Lemma get_In m k v : get m k = Some v -> In (k, v) m.
  Proof.
    induction m as [|[k' v'] m IH]; simpl; try congruence.
    destruct (cmp k k') eqn:E; try congruence; auto.
    intros H. inversion H; subst. apply (cmp_eq _ Hc) in E. subst; auto.
  Qed.

  Lemma In_get m k v : sorted m -> In (k, v) m -> get m k = Some v.
  Proof.
    induction m as [|[k' v'] m IH]; simpl; [tauto|].
    intros Hs [H|H]; apply sorted_cons in Hs; destruct Hs as [Hs Hf].
    - inversion H; subst. rewrite cmp_refl. auto.
    - rewrite Forall_forall in Hf. specialize (Hf _ H). unfold klt in Hf; simpl in Hf.
      apply cmp_lt_gt in Hf. rewrite Hf. auto.
  Qed.

  Lemma get_iff m k v : sorted m -> (get m k = Some v <-> In (k, v) m).
  Proof. split; [apply get_In | apply In_get; auto]. Qed.

  Lemma get_lt_None m k : Forall (fun a => cmp k (fst a) = Lt) m -> get m k = None.
  Proof.
    destruct m as [|[k' v'] m]; simpl; auto. intros H. inversion H; simpl in *; subst.
    rewrite H2. auto.
  Qed.

  Lemma get_put_same m k v : get (put m k v) k = Some v.
  Proof.
    induction m as [|[k' v'] m IH]; simpl; [rewrite cmp_refl; auto|].
    destruct (cmp k k') eqn:E; simpl; rewrite ?cmp_refl, ?E; auto.
  Qed.

  Lemma get_put_other m k k' v : k <> k' -> get (put m k v) k' = get m k'.
  Proof.
    intros N. induction m as [|[k2 v2] m IH]; simpl.
    - destruct (cmp k' k) eqn:E; auto. apply (cmp_eq _ Hc) in E. congruence.
    - destruct (cmp k k2) eqn:E; simpl.
      + apply (cmp_eq _ Hc) in E; subst k2. destruct (cmp k' k) eqn:E2; auto.
        apply (cmp_eq _ Hc) in E2. congruence.
      + destruct (cmp k' k) eqn:E2; auto.
        * apply (cmp_eq _ Hc) in E2; congruence.
        * rewrite (cmp_trans _ Hc k' k k2); auto.
      + rewrite IH. auto.
  Qed.

  Lemma Forall_put (P : K * V -> Prop) m k v : P (k, v) -> Forall P m -> Forall P (put m k v).
  Proof.
    intros Hk. induction m as [|[k' v'] m IH]; simpl; intros H; auto.
    inversion H; subst. destruct (cmp k k'); repeat constructor; auto.
  Qed.

  Lemma Forall_del (P : K * V -> Prop) m k : Forall P m -> Forall P (del m k).
  Proof.
    induction m as [|[k' v'] m IH]; simpl; intros H; auto.
    inversion H; subst. destruct (cmp k k'); auto.
  Qed.

  Lemma sorted_put m k v : sorted m -> sorted (put m k v).
  Proof.
    induction m as [|[k' v'] m IH]; simpl; intros H.
    - repeat constructor.
    - apply sorted_cons in H; destruct H as [Hs Hf].
      destruct (cmp k k') eqn:E; apply sorted_cons; split; auto.
      + apply (cmp_eq _ Hc) in E; subst; auto.
      + apply sorted_cons; auto.
      + constructor; auto. eapply Forall_impl; [|exact Hf]. intros [a b]; unfold klt; simpl.
        intros. eapply (cmp_trans _ Hc); eauto.
      + apply Forall_put; auto. unfold klt; simpl. apply cmp_gt_lt; auto.
  Qed.

  Lemma sorted_del m k : sorted m -> sorted (del m k).
  Proof.
    induction m as [|[k' v'] m IH]; simpl; intros H; auto.
    apply sorted_cons in H; destruct H as [Hs Hf].
    destruct (cmp k k') eqn:E; auto; apply sorted_cons; split; auto.
    apply Forall_del; auto.
  Qed.

  Lemma get_del_same m k : sorted m -> get (del m k) k = None.
  Proof.
    induction m as [|[k' v'] m IH]; simpl; intros H; auto.
    apply sorted_cons in H; destruct H as [Hs Hf].
    destruct (cmp k k') eqn:E; simpl; rewrite ?E; auto.
    apply (cmp_eq _ Hc) in E; subst. apply get_lt_None. exact Hf.
  Qed.

  Lemma get_del_other m k k' : sorted m -> k <> k' -> get (del m k) k' = get m k'.
  Proof.
    intros Hs N. induction m as [|[k2 v2] m IH]; simpl; auto.
    apply sorted_cons in Hs; destruct Hs as [Hs Hf].
    destruct (cmp k k2) eqn:E; simpl; auto.
    - apply (cmp_eq _ Hc) in E; subst. destruct (cmp k' k2) eqn:E2; auto.
      + apply (cmp_eq _ Hc) in E2; congruence.
      + apply get_lt_None. eapply Forall_impl; [|exact Hf]. intros [a b]; unfold klt; simpl.
        intros. eapply (cmp_trans _ Hc); eauto.
    - rewrite IH; auto.
  Qed.

  Lemma get_put m k v k' : get (put m k v) k' = if cmp_dec k k' then Some v else get m k'.
  Proof. destruct (cmp_dec k k'); [subst; apply get_put_same | apply get_put_other; auto]. Qed.

  Lemma get_del m k k' : sorted m -> get (del m k) k' = if cmp_dec k k' then None else get m k'.
  Proof. intros. destruct (cmp_dec k k'); [subst; apply get_del_same | apply get_del_other]; auto. Qed.

  Lemma In_put m k v p : sorted m -> (In p (put m k v) <-> p = (k, v) \/ (In p m /\ fst p <> k)).
  Proof.
    intros Hs. destruct p as [a b]. rewrite <- get_iff by (apply sorted_put; auto).
    rewrite get_put. simpl. rewrite <- get_iff by auto.
    destruct (cmp_dec k a); split; intros.
    - inversion H; subst; auto.
    - destruct H as [H|[_ H]]; [inversion H; auto | congruence].
    - auto.
    - destruct H as [H|[H _]]; [inversion H; congruence | auto].
  Qed.

  Lemma In_del m k p : sorted m -> (In p (del m k) <-> In p m /\ fst p <> k).
  Proof.
    intros Hs. destruct p as [a b]. rewrite <- get_iff by (apply sorted_del; auto).
    rewrite get_del by auto. simpl. rewrite <- get_iff by auto.
    destruct (cmp_dec k a); split; intros; try congruence; intuition congruence.
  Qed.

  (** Two sorted maps with the same lookups are equal. *)
  Lemma smap_ext m1 : forall m2, sorted m1 -> sorted m2 ->
    (forall k, get m1 k = get m2 k) -> m1 = m2.
  Proof.
    induction m1 as [|[k1 v1] m1 IH]; intros [|[k2 v2] m2] H1 H2 E; auto.
    - specialize (E k2). simpl in E. rewrite cmp_refl in E. congruence.
    - specialize (E k1). simpl in E. rewrite cmp_refl in E. congruence.
    - apply sorted_cons in H1; destruct H1 as [H1 F1].
      apply sorted_cons in H2; destruct H2 as [H2 F2].
      assert (k1 = k2).
      { pose proof (E k1) as E1. pose proof (E k2) as E2. simpl in E1, E2.
        rewrite cmp_refl in E1, E2. destruct (cmp k1 k2) eqn:C.
        - apply (cmp_eq _ Hc); auto.
        - congruence.
        - apply cmp_gt_lt in C. rewrite C in E2. congruence. }
      subst k2.
      assert (v1 = v2). { pose proof (E k1) as E1. simpl in E1. rewrite cmp_refl in E1. congruence. }
      subst v2. f_equal. apply IH; auto.
      intros k. specialize (E k). simpl in E. destruct (cmp k k1) eqn:C; auto.
      + apply (cmp_eq _ Hc) in C. subst. rewrite !get_lt_None; auto.
      + rewrite !get_lt_None; auto.
        * eapply Forall_impl; [|exact F2]. intros a Ha. eapply (cmp_trans _ Hc); eauto.
        * eapply Forall_impl; [|exact F1]. intros a Ha. eapply (cmp_trans _ Hc); eauto.
  Qed.

  Lemma sorted_filter f m : sorted m -> sorted (filter f m).
  Proof.
    induction m as [|a m IH]; simpl; intros H; auto.
    apply sorted_cons in H; destruct H as [Hs Hf].
    destruct (f a); auto. apply sorted_cons; split; auto.
    rewrite Forall_forall in *. intros x Hx. apply filter_In in Hx. apply Hf; tauto.
  Qed.

  Lemma sorted_NoDup m : sorted m -> NoDup (map fst m).
  Proof.
    induction m as [|a m IH]; simpl; intros H; constructor.
    - apply sorted_cons in H; destruct H as [Hs Hf]. intros Hin. apply in_map_iff in Hin.
      destruct Hin as [x [E Hx]]. rewrite Forall_forall in Hf. specialize (Hf _ Hx).
      unfold klt in Hf. rewrite E, cmp_refl in Hf. congruence.
    - apply IH. apply sorted_cons in H; tauto.
  Qed.

  Lemma sorted_app a b : sorted (a ++ b) <->
    sorted a /\ sorted b /\ (forall x y, In x a -> In y b -> klt x y).
  Proof.
    induction a as [|x a IH]; simpl; split; intros H.
    - split; [constructor|]. split; auto. tauto.
    - tauto.
    - apply sorted_cons in H; destruct H as [Hs Hf]. apply IH in Hs. destruct Hs as [Ha [Hb Hab]].
      rewrite Forall_app in Hf. destruct Hf as [Hf1 Hf2]. split; [apply sorted_cons; auto|].
      split; auto. intros y z [Hy|Hy] Hz; subst; auto. rewrite Forall_forall in Hf2; auto.
    - destruct H as [Ha [Hb Hab]]. apply sorted_cons in Ha. destruct Ha as [Ha Hf].
      apply sorted_cons. split.
      + apply IH. split; auto.
      + rewrite Forall_app. split; auto. rewrite Forall_forall. intros; apply Hab; auto.
  Qed.
End SMap.

Arguments smap K V : clear implicits.
