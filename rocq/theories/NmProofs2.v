(** Lemmas for C83-C86: one increment is applied, one request is accepted (over views). *)
From Coq Require Import ZArith List Bool Lia Permutation.
From Verif Require Import Bytes SMap Outcome NmModel NmSpec NmProofs1.
Import ListNotations.
Open Scope Z_scope.

Definition upd {A} (f : Z -> A) (x : Z) (v : A) : Z -> A := fun y => if y =? x then v else f y.
Definition updE (E : eview) (k : kind) (x : Z) (v : option tbl) : eview :=
  fun k' y => if kind_eqb k' k && (y =? x) then v else E k' y.
Definition updN (N : nview) (k : kind) (f : names) : nview := fun k' => if kind_eqb k' k then f else N k'.

Lemma upd_same {A} (f : Z -> A) x v : upd f x v x = v.
Proof. unfold upd. rewrite Z.eqb_refl. auto. Qed.
Lemma upd_other {A} (f : Z -> A) x v y : y <> x -> upd f x v y = f y.
Proof. unfold upd. intros H. apply Z.eqb_neq in H. rewrite H. auto. Qed.
Lemma updE_same E k x v : updE E k x v k x = v.
Proof. unfold updE. rewrite Z.eqb_refl. destruct k; auto. Qed.
Lemma updE_other E k x v k' y : k' <> k \/ y <> x -> updE E k x v k' y = E k' y.
Proof.
  unfold updE. intros [H|H].
  - destruct k, k'; simpl; congruence.
  - apply Z.eqb_neq in H. rewrite H, andb_false_r. auto.
Qed.
Lemma updE_cases E k x v k' y : (k' = k /\ y = x /\ updE E k x v k' y = v) \/ ((k' <> k \/ y <> x) /\ updE E k x v k' y = E k' y).
Proof.
  destruct (kind_dec k' k) as [->|]. destruct (Z.eq_dec y x) as [->|].
  - left. rewrite updE_same. auto.
  - right. rewrite updE_other; auto.
  - right. rewrite updE_other; auto.
Qed.
Lemma nm_put_cases f a b i x y : (x = a /\ y = b /\ nm_put f a b i x y = Some i) \/ (~ (x = a /\ y = b) /\ nm_put f a b i x y = f x y).
Proof.
  unfold nm_put. destruct (Z.eqb_spec x a), (Z.eqb_spec y b); subst; simpl; auto; right; split; auto; tauto.
Qed.
Lemma nm_del_cases f a b x y : (x = a /\ y = b /\ nm_del f a b x y = None) \/ (~ (x = a /\ y = b) /\ nm_del f a b x y = f x y).
Proof.
  unfold nm_del. destruct (Z.eqb_spec x a), (Z.eqb_spec y b); subst; simpl; auto; right; split; auto; tauto.
Qed.
Lemma updN_same N k f : updN N k f k = f.
Proof. unfold updN. destruct k; auto. Qed.
Lemma updN_other N k f k' : k' <> k -> updN N k f k' = N k'.
Proof. unfold updN. destruct k, k'; simpl; congruence. Qed.

Lemma sc_ids_set k c l k' : sc_ids k' (sc_set k c l) = if kind_eqb k' k then l else sc_ids k' c.
Proof. destruct k, k'; reflexivity. Qed.
Lemma sc_set_tenant k c l : sc_tenant (sc_set k c l) = sc_tenant c.
Proof. destruct k; reflexivity. Qed.
Lemma sc_set_name k c l : sc_name (sc_set k c l) = sc_name c.
Proof. destruct k; reflexivity. Qed.

Lemma NoDup_app_one {A} (l : list A) x : NoDup l -> ~ In x l -> NoDup (l ++ [x]).
Proof.
  intros H H1. eapply Permutation_NoDup; [apply Permutation_cons_append|]. constructor; auto.
Qed.
Lemma in_without i x l : In x (without i l) <-> In x l /\ x <> i.
Proof.
  unfold without. rewrite filter_In. split; intros [A B]; split; auto.
  - intro; subst. rewrite Z.eqb_refl in B. discriminate.
  - apply Z.eqb_neq in B. rewrite B. auto.
Qed.

Section Steps.
  Variables (G : gview) (E : eview) (SN : names) (N : nview) (R : list inc).

  Lemma apply_sput id a b : Inv G E SN N (ISPut id a b :: R) -> Inv (upd G id (Some (mkSc a b [] []))) E SN N R.
  Proof.
    intros [Ilist Isch Ipos Iput Idel Iname Ifound Isput Isdel Isname Isfound Inodup].
    destruct (Isput id a b (or_introl eq_refl)) as [Gn Sn].
    cbn [tags flat_map tag] in Inodup. apply NoDup_cons_iff in Inodup. destruct Inodup as [Nin Inodup].
    fold (tags R) in *.
    constructor; auto.
    - intros k sid c Hc. destruct (Z.eq_dec sid id) as [->|Ne].
      + rewrite upd_same in Hc. inversion Hc; subst c. replace (sc_ids k (mkSc a b [] [])) with (@nil Z) by (destruct k; auto).
        split; [constructor|]. intros i; split; [intros []|].
        intros (t & A & B); subst. destruct (Isch _ _ _ A) as [c1 Hc1]; congruence.
      + rewrite upd_other in Hc by auto. auto.
    - intros k i t Hi. destruct (Isch _ _ _ Hi) as [c Hc]. exists c. rewrite upd_other; auto. intro; subst; congruence.
    - intros k i t Hi. destruct (Iput k i t (or_intror Hi)) as (A & B & C & (c & D) & F & K).
      repeat (split; auto). { exists c. rewrite upd_other; auto. intro; subst; congruence. }
      intros Q. apply F. right. auto.
    - intros k i sid Hi. destruct (Idel k i sid (or_intror Hi)) as (A & B). split; auto. intros Q. apply B. right; auto.
    - intros k i t Hi Hn. apply Iname; auto. intros sid [Q|Q]; [discriminate|]. apply (Hn sid); auto.
    - intros k x y i Hi. destruct (Ifound _ _ _ _ Hi) as [(t & A & B & C & D)|(t & A & B & C)].
      + left. exists t. repeat (split; auto). intros sid Q. apply (D sid). right; auto.
      + right. destruct A as [A|A]; [discriminate|]. eauto.
    - intros id1 x y Hi. destruct (Isput id1 x y (or_intror Hi)) as [A B]. split; auto. rewrite upd_other; auto.
      intros ->. apply Nin. eapply tag_in_S; eauto.
    - intros id1 Hi. destruct (Isdel id1 (or_intror Hi)) as (c & A & B). exists c. split; auto. rewrite upd_other; auto.
      intros ->. congruence.
    - intros id1 c Hc Hn. destruct (Z.eq_dec id1 id) as [->|Ne].
      + rewrite upd_same in Hc. inversion Hc; subst. auto.
      + rewrite upd_other in Hc by auto. apply Isname; auto. intros [Q|Q]; [discriminate|auto].
    - intros x y id1 Hi. destruct (Isfound _ _ _ Hi) as [(c & A & B & C & D)|A].
      + left. exists c. rewrite upd_other; [|intros ->; congruence]. repeat (split; auto). intros Q. apply D. right; auto.
      + destruct A as [A|A]; auto. inversion A; subst. left. exists (mkSc x y [] []). rewrite upd_same. simpl.
        repeat (split; auto). intros Q. destruct (Isdel id1 (or_intror Q)) as (c & ? & _). congruence.
  Qed.

  Lemma apply_sdel id : Inv G E SN N (ISDel id :: R) -> Inv (upd G id None) E SN N R.
  Proof.
    intros [Ilist Isch Ipos Iput Idel Iname Ifound Isput Isdel Isname Isfound Inodup].
    destruct (Isdel id (or_introl eq_refl)) as (c0 & Gn & Emp).
    cbn [tags flat_map tag] in Inodup. apply NoDup_cons_iff in Inodup. destruct Inodup as [Nin Inodup].
    fold (tags R) in *.
    assert (NoE : forall k i t, E k i = Some t -> t_schema t <> id).
    { intros k i t Hi Eq. destruct (Ilist k _ _ Gn) as [_ L]. rewrite Emp in L. apply (L i). exists t; auto. }
    constructor; auto.
    - intros k sid c Hc. destruct (Z.eq_dec sid id) as [->|Ne].
      + rewrite upd_same in Hc. discriminate.
      + rewrite upd_other in Hc by auto. auto.
    - intros k i t Hi. destruct (Isch _ _ _ Hi) as [c Hc]. exists c. rewrite upd_other; eauto.
    - intros k i t Hi. destruct (Iput k i t (or_intror Hi)) as (A & B & C & (c & D) & F & K).
      repeat (split; auto). { exists c. rewrite upd_other; auto. intro; subst. apply F. left; auto. }
      intros Q. apply F. right. auto.
    - intros k i sid Hi. destruct (Idel k i sid (or_intror Hi)) as (A & B). split; auto. intros Q. apply B. right; auto.
    - intros k i t Hi Hn. apply Iname; auto. intros sid [Q|Q]; [discriminate|]. apply (Hn sid); auto.
    - intros k x y i Hi. destruct (Ifound _ _ _ _ Hi) as [(t & A & B & C & D)|(t & A & B & C)].
      + left. exists t. repeat (split; auto). intros sid Q. apply (D sid). right; auto.
      + right. destruct A as [A|A]; [discriminate|]. eauto.
    - intros id1 x y Hi. destruct (Isput id1 x y (or_intror Hi)) as [A B]. split; auto. rewrite upd_other; auto.
      intros ->. congruence.
    - intros id1 Hi. destruct (Isdel id1 (or_intror Hi)) as (c & A & B). exists c. split; auto. rewrite upd_other; auto.
      intros ->. apply Nin. apply tag_in_D; auto.
    - intros id1 c Hc Hn. destruct (Z.eq_dec id1 id) as [->|Ne].
      + rewrite upd_same in Hc. discriminate.
      + rewrite upd_other in Hc by auto. apply Isname; auto. intros [Q|Q]; [congruence|auto].
    - intros x y id1 Hi. destruct (Isfound _ _ _ Hi) as [(c & A & B & C & D)|A].
      + left. exists c. rewrite upd_other. { repeat (split; auto). intros Q. apply D. right; auto. }
        intros ->. apply D. left; auto.
      + destruct A as [A|A]; [discriminate|auto].
  Qed.

  Lemma apply_put k0 i0 t0 c0 : G (t_schema t0) = Some c0 -> Inv G E SN N (ITPut k0 i0 t0 :: R) ->
    Inv (upd G (t_schema t0) (Some (sc_set k0 c0 (sc_ids k0 c0 ++ [i0])))) (updE E k0 i0 (Some t0)) SN N R.
  Proof.
    intros HG [Ilist Isch Ipos Iput Idel Iname Ifound Isput Isdel Isname Isfound Inodup].
    destruct (Iput k0 i0 t0 (or_introl eq_refl)) as (En & P1 & P2 & _ & ND & Nm).
    unfold tags in Inodup. cbn [flat_map] in Inodup. rewrite tag_put in Inodup. cbn [app] in Inodup.
    apply NoDup_cons_iff in Inodup. destruct Inodup as [Nin Inodup].
    fold (tags R) in *.
    assert (NX : forall sid, ~ In (ITDel k0 i0 sid) (ITPut k0 i0 t0 :: R)).
    { intros sid Q. destruct (Idel _ _ _ Q) as ((t & Q1 & _) & _). congruence. }
    constructor; auto.
    - intros k sid c Hc. destruct (Z.eq_dec sid (t_schema t0)) as [->|Ne].
      + rewrite upd_same in Hc. inversion Hc; subst c. clear Hc. rewrite sc_ids_set.
        destruct (Ilist k _ _ HG) as [L1 L2].
        destruct (kind_eqb k k0) eqn:Ek.
        * apply kind_eqb_eq in Ek. subst k. split.
          { apply NoDup_app_one; auto. rewrite L2. intros (t & Q & _). congruence. }
          intros i. rewrite in_app_iff, L2. cbn [In].
          destruct (updE_cases E k0 i0 (Some t0) k0 i) as [(_ & -> & Q)|([?|Ne] & Q)]; [| congruence |]; rewrite Q.
          -- split; auto. intros _. exists t0; auto.
          -- split; auto. intros [?|[?|[]]]; auto; congruence.
        * split; auto. intros i. rewrite L2. rewrite updE_other; [tauto|].
          left. intro; subst. destruct k0; discriminate.
      + rewrite upd_other in Hc by auto. destruct (Ilist k _ _ Hc) as [L1 L2]. split; auto.
        intros i. rewrite L2. destruct (updE_cases E k0 i0 (Some t0) k i) as [(-> & -> & Q)|(_ & Q)]; rewrite Q; [|tauto].
        split; intros (t & A & B); congruence.
    - intros k i t Hi. destruct (updE_cases E k0 i0 (Some t0) k i) as [(-> & -> & Q)|(_ & Q)]; rewrite Q in Hi.
      + inversion Hi; subst. rewrite upd_same. eauto.
      + destruct (Z.eq_dec (t_schema t) (t_schema t0)) as [->|Ne]; [rewrite upd_same; eauto|]. rewrite upd_other; eauto.
    - intros k i t Hi. destruct (updE_cases E k0 i0 (Some t0) k i) as [(-> & -> & Q)|(_ & Q)]; rewrite Q in Hi.
      + inversion Hi; subst. auto.
      + eauto.
    - intros k i t Hi. destruct (Iput k i t (or_intror Hi)) as (A & B & C & (c & D) & F & K).
      split; [|repeat (split; auto)].
      + rewrite updE_other; auto. destruct (kind_dec k k0) as [->|]; auto. right. intros ->.
        apply Nin. eapply tag_in_P; eauto.
      + destruct (Z.eq_dec (t_schema t) (t_schema t0)) as [->|Ne]; [rewrite upd_same; eauto|]. rewrite upd_other; eauto.
      + intros Q. apply F. right; auto.
    - intros k i sid Hi. destruct (Idel k i sid (or_intror Hi)) as ((t & A & B) & C). split.
      + exists t. rewrite updE_other; auto. destruct (kind_dec k k0) as [->|]; auto. right. intros ->. congruence.
      + intros Q. apply C. right; auto.
    - intros k i t Hi Hn. destruct (updE_cases E k0 i0 (Some t0) k i) as [(-> & -> & Q)|(_ & Q)]; rewrite Q in Hi.
      + inversion Hi; subst. auto.
      + apply Iname; auto. intros sid [Z|Z]; [discriminate|]. apply (Hn sid); auto.
    - intros k x y i Hi. destruct (Ifound _ _ _ _ Hi) as [(t & A & B & C & D)|(t & A & B & C)].
      + left. exists t. split; [|repeat (split; auto); intros sid Q; apply (D sid); right; auto].
        rewrite updE_other; auto. destruct (kind_dec k k0) as [->|]; auto. right. intros ->. congruence.
      + destruct A as [A|A]; [|right; eauto]. inversion A; subst. left. exists t. rewrite updE_same.
        repeat (split; auto). intros sid Q. apply (NX sid). right; auto.
    - intros id1 x y Hi. destruct (Isput id1 x y (or_intror Hi)) as [A B]. split; auto. rewrite upd_other; auto. congruence.
    - intros id1 Hi. destruct (Isdel id1 (or_intror Hi)) as (c & A & B). exists c. split; auto. rewrite upd_other; auto.
      intros ->. apply ND. right; auto.
    - intros id1 c Hc Hn. assert (Hn' : ~ In (ISDel id1) (ITPut k0 i0 t0 :: R)) by (intros [Q|Q]; [discriminate|auto]).
      destruct (Z.eq_dec id1 (t_schema t0)) as [->|Ne].
      + rewrite upd_same in Hc. inversion Hc; subst. rewrite sc_set_tenant, sc_set_name. auto.
      + rewrite upd_other in Hc by auto. auto.
    - intros x y id1 Hi. destruct (Isfound _ _ _ Hi) as [(c & A & B & C & D)|A].
      + left. destruct (Z.eq_dec id1 (t_schema t0)) as [->|Ne].
        * rewrite upd_same. eexists. split; [reflexivity|]. rewrite sc_set_tenant, sc_set_name.
          assert (c = c0) by congruence. subst c0. repeat (split; auto). intros Q. apply D. right; auto.
        * rewrite upd_other by auto. exists c. repeat (split; auto). intros Q. apply D. right; auto.
      + destruct A as [A|A]; [discriminate|auto].
  Qed.

  Lemma apply_del k0 i0 sid0 c0 : G sid0 = Some c0 -> Inv G E SN N (ITDel k0 i0 sid0 :: R) ->
    Inv (upd G sid0 (Some (sc_set k0 c0 (without i0 (sc_ids k0 c0))))) (updE E k0 i0 None) SN N R.
  Proof.
    intros HG [Ilist Isch Ipos Iput Idel Iname Ifound Isput Isdel Isname Isfound Inodup].
    destruct (Idel k0 i0 sid0 (or_introl eq_refl)) as ((t0 & E0 & S0) & ND).
    unfold tags in Inodup. cbn [flat_map] in Inodup. rewrite tag_del in Inodup. cbn [app] in Inodup.
    apply NoDup_cons_iff in Inodup. destruct Inodup as [Nin Inodup].
    fold (tags R) in *.
    constructor; auto.
    - intros k sid c Hc. destruct (Z.eq_dec sid sid0) as [->|Ne].
      + rewrite upd_same in Hc. inversion Hc; subst c. clear Hc. rewrite sc_ids_set.
        destruct (Ilist k _ _ HG) as [L1 L2].
        destruct (kind_eqb k k0) eqn:Ek.
        * apply kind_eqb_eq in Ek. subst k. split; [apply NoDup_filter; auto|].
          intros i. rewrite in_without, L2.
          destruct (updE_cases E k0 i0 None k0 i) as [(_ & -> & Q)|([?|Ne] & Q)]; [| congruence |]; rewrite Q.
          -- split; [tauto|]. intros (t & ? & _). discriminate.
          -- tauto.
        * split; auto. intros i. rewrite L2. rewrite updE_other; [tauto|].
          left. intro; subst. destruct k0; discriminate.
      + rewrite upd_other in Hc by auto. destruct (Ilist k _ _ Hc) as [L1 L2]. split; auto.
        intros i. rewrite L2. destruct (updE_cases E k0 i0 None k i) as [(-> & -> & Q)|(_ & Q)]; rewrite Q; [|tauto].
        split; intros (t & A & B); congruence.
    - intros k i t Hi. destruct (updE_cases E k0 i0 None k i) as [(-> & -> & Q)|(_ & Q)]; rewrite Q in Hi; [discriminate|].
      destruct (Z.eq_dec (t_schema t) sid0) as [->|Ne]; [rewrite upd_same; eauto|]. rewrite upd_other; eauto.
    - intros k i t Hi. destruct (updE_cases E k0 i0 None k i) as [(-> & -> & Q)|(_ & Q)]; rewrite Q in Hi; [discriminate|eauto].
    - intros k i t Hi. destruct (Iput k i t (or_intror Hi)) as (A & B & C & (c & D) & F & K).
      split; [|repeat (split; auto)].
      + destruct (updE_cases E k0 i0 None k i) as [(-> & -> & Q)|(_ & Q)]; rewrite Q; auto.
      + destruct (Z.eq_dec (t_schema t) sid0) as [->|Ne]; [rewrite upd_same; eauto|]. rewrite upd_other; eauto.
      + intros Q. apply F. right; auto.
    - intros k i sid Hi. destruct (Idel k i sid (or_intror Hi)) as ((t & A & B) & C). split.
      + exists t. rewrite updE_other; auto. destruct (kind_dec k k0) as [->|]; auto. right. intros ->.
        apply Nin. eapply tag_in_X; eauto.
      + intros Q. apply C. right; auto.
    - intros k i t Hi Hn. destruct (updE_cases E k0 i0 None k i) as [(-> & -> & Q)|(Ne & Q)]; rewrite Q in Hi; [discriminate|].
      apply Iname; auto. intros sid [Z|Z]; [|apply (Hn sid); auto]. inversion Z; subst. destruct Ne; congruence.
    - intros k x y i Hi. destruct (Ifound _ _ _ _ Hi) as [(t & A & B & C & D)|(t & A & B & C)].
      + left. exists t. split; [|repeat (split; auto); intros sid Q; apply (D sid); right; auto].
        rewrite updE_other; auto. destruct (kind_dec k k0) as [->|]; auto. right. intros ->. apply (D sid0). left; auto.
      + destruct A as [A|A]; [discriminate|right; eauto].
    - intros id1 x y Hi. destruct (Isput id1 x y (or_intror Hi)) as [A B]. split; auto. rewrite upd_other; auto. congruence.
    - intros id1 Hi. destruct (Isdel id1 (or_intror Hi)) as (c & A & B). exists c. split; auto. rewrite upd_other; auto.
      intros ->. apply ND. right; auto.
    - intros id1 c Hc Hn. assert (Hn' : ~ In (ISDel id1) (ITDel k0 i0 sid0 :: R)) by (intros [Q|Q]; [discriminate|auto]).
      destruct (Z.eq_dec id1 sid0) as [->|Ne].
      + rewrite upd_same in Hc. inversion Hc; subst. rewrite sc_set_tenant, sc_set_name. auto.
      + rewrite upd_other in Hc by auto. auto.
    - intros x y id1 Hi. destruct (Isfound _ _ _ Hi) as [(c & A & B & C & D)|A].
      + left. destruct (Z.eq_dec id1 sid0) as [->|Ne].
        * rewrite upd_same. eexists. split; [reflexivity|]. rewrite sc_set_tenant, sc_set_name.
          assert (c = c0) by congruence. subst c0. repeat (split; auto). intros Q. apply D. right; auto.
        * rewrite upd_other by auto. exists c. repeat (split; auto). intros Q. apply D. right; auto.
      + destruct A as [A|A]; [discriminate|auto].
  Qed.

  (** requests *)

  Lemma ask_sput id a b : Inv G E SN N R -> SN a b = None -> G id = None -> (forall x y, ~ In (ISPut id x y) R) ->
    Inv G E (nm_put SN a b id) N (ISPut id a b :: R).
  Proof.
    intros [Ilist Isch Ipos Iput Idel Iname Ifound Isput Isdel Isname Isfound Inodup] Hn HG HR.
    constructor; auto.
    - intros k i t [Q|Q]; [discriminate|]. destruct (Iput k i t Q) as (A & B & C & D & F & K). repeat (split; auto).
      intros [Z|Z]; [discriminate|auto].
    - intros k i sid [Q|Q]; [discriminate|]. destruct (Idel k i sid Q) as (A & B). split; auto. intros [Z|Z]; [discriminate|auto].
    - intros k i t Hi H1. apply Iname; auto. intros sid Q. apply (H1 sid). right; auto.
    - intros k x y i Hi. destruct (Ifound _ _ _ _ Hi) as [(t & A & B & C & D)|(t & A & B & C)].
      + left. exists t. repeat (split; auto). intros sid [Q|Q]; [discriminate|]. apply (D sid); auto.
      + right. exists t. split; auto. right; auto.
    - intros id1 x y [Q|Q].
      + inversion Q; subst. split; auto. destruct (nm_put_cases SN x y id1 x y) as [(_ & _ & Z)|(Z & _)]; auto. tauto.
      + destruct (Isput _ _ _ Q) as [A B]. split; auto.
        destruct (nm_put_cases SN a b id x y) as [(-> & -> & Z)|(_ & Z)]; congruence.
    - intros id1 [Q|Q]; [discriminate|auto].
    - intros id1 c Hc H1. assert (Z := Isname id1 c Hc (fun Q => H1 (or_intror Q))).
      destruct (nm_put_cases SN a b id (sc_tenant c) (sc_name c)) as [(Q1 & Q2 & Q)|(_ & Q)]; [|congruence].
      rewrite Q1, Q2 in Z. congruence.
    - intros x y id1 Hi. destruct (nm_put_cases SN a b id x y) as [(-> & -> & Q)|(_ & Q)]; rewrite Q in Hi.
      + inversion Hi; subst. right. left; auto.
      + destruct (Isfound _ _ _ Hi) as [(c & A & B & C & D)|A].
        * left. exists c. repeat (split; auto). intros [Z|Z]; [discriminate|auto].
        * right. right. auto.
    - unfold tags; cbn [flat_map tag app]; fold (tags R). constructor; auto. intros Q. apply in_tags_S in Q.
      destruct Q as (x & y & Q). apply (HR x y); auto.
  Qed.

  Lemma ask_sdel id c0 : Inv G E SN N R -> G id = Some c0 -> (forall k, sc_ids k c0 = []) ->
    (forall i, In i R -> ~ about_schema i id) ->
    Inv G E (nm_del SN (sc_tenant c0) (sc_name c0)) N (ISDel id :: R).
  Proof.
    intros [Ilist Isch Ipos Iput Idel Iname Ifound Isput Isdel Isname Isfound Inodup] HG Emp HR.
    assert (SN0 : SN (sc_tenant c0) (sc_name c0) = Some id).
    { apply Isname; auto. intros Q. apply (HR _ Q). simpl. auto. }
    constructor; auto.
    - intros k i t [Q|Q]; [discriminate|]. destruct (Iput k i t Q) as (A & B & C & D & F & K). repeat (split; auto).
      intros [Z|Z]; auto. inversion Z. apply (HR _ Q). simpl. auto.
    - intros k i sid [Q|Q]; [discriminate|]. destruct (Idel k i sid Q) as (A & B). split; auto. intros [Z|Z]; auto.
      inversion Z. apply (HR _ Q). simpl. auto.
    - intros k i t Hi H1. apply Iname; auto. intros sid Q. apply (H1 sid). right; auto.
    - intros k x y i Hi. destruct (Ifound _ _ _ _ Hi) as [(t & A & B & C & D)|(t & A & B & C)].
      + left. exists t. repeat (split; auto). intros sid [Q|Q]; [discriminate|]. apply (D sid); auto.
      + right. exists t. split; auto. right; auto.
    - intros id1 x y [Q|Q]; [discriminate|]. destruct (Isput _ _ _ Q) as [A B]. split; auto.
      destruct (nm_del_cases SN (sc_tenant c0) (sc_name c0) x y) as [(-> & -> & Z)|(_ & Z)]; congruence.
    - intros id1 [Q|Q]; [inversion Q; subst; eauto|auto].
    - intros id1 c Hc H1. assert (Z := Isname id1 c Hc (fun Q => H1 (or_intror Q))).
      destruct (nm_del_cases SN (sc_tenant c0) (sc_name c0) (sc_tenant c) (sc_name c)) as [(Q1 & Q2 & Q)|(_ & Q)]; [|congruence].
      exfalso. apply H1. left. f_equal. rewrite Q1, Q2 in Z. congruence.
    - intros x y id1 Hi. destruct (nm_del_cases SN (sc_tenant c0) (sc_name c0) x y) as [(-> & -> & Q)|(Ne & Q)]; rewrite Q in Hi; [discriminate|].
      destruct (Isfound _ _ _ Hi) as [(c & A & B & C & D)|A].
      + left. exists c. repeat (split; auto). intros [Z|Z]; auto. inversion Z; subst id1.
        assert (c = c0) by congruence. subst c. apply Ne. auto.
      + right. right. auto.
    - unfold tags; cbn [flat_map tag app]; fold (tags R). constructor; auto. intros Q. apply in_tags_D in Q.
      apply (HR _ Q). simpl; auto.
  Qed.

  Lemma ask_put k0 i0 t0 : Inv G E SN N R -> 0 < i0 -> 0 < t_schema t0 -> (exists c, G (t_schema t0) = Some c) ->
    N k0 (t_schema t0) (t_name t0) = None -> E k0 i0 = None -> (forall t, ~ In (ITPut k0 i0 t) R) ->
    ~ In (ISDel (t_schema t0)) R ->
    Inv G E SN (updN N k0 (nm_put (N k0) (t_schema t0) (t_name t0) i0)) (ITPut k0 i0 t0 :: R).
  Proof.
    intros [Ilist Isch Ipos Iput Idel Iname Ifound Isput Isdel Isname Isfound Inodup] P1 P2 HG Hn HE HR HD.
    set (N' := updN N k0 (nm_put (N k0) (t_schema t0) (t_name t0) i0)).
    assert (N'c : forall k a b, (k = k0 /\ a = t_schema t0 /\ b = t_name t0 /\ N' k a b = Some i0) \/
                                (~ (k = k0 /\ a = t_schema t0 /\ b = t_name t0) /\ N' k a b = N k a b)).
    { intros k a b. unfold N'. destruct (kind_dec k k0) as [->|Nk].
      - rewrite updN_same. destruct (nm_put_cases (N k0) (t_schema t0) (t_name t0) i0 a b) as [(-> & -> & Q)|(Ne & Q)]; rewrite Q.
        left; auto. right. split; auto. tauto.
      - rewrite updN_other by auto. right. split; auto. tauto. }
    assert (N'k : forall k a b i, N k a b = Some i -> N' k a b = Some i).
    { intros k a b i Hi. destruct (N'c k a b) as [(-> & -> & -> & Q)|(_ & Q)]; congruence. }
    clearbody N'.
    constructor; auto.
    - intros k i t [Q|Q].
      + inversion Q; subst. repeat (split; auto). { intros [Z|Z]; [discriminate|auto]. }
        destruct (N'c k (t_schema t) (t_name t)) as [(_ & _ & _ & Z)|(Z & _)]; auto. tauto.
      + destruct (Iput k i t Q) as (A & B & C & D & F & K). repeat (split; auto).
        intros [Z|Z]; [discriminate|auto].
    - intros k i sid [Q|Q]; [discriminate|]. destruct (Idel k i sid Q) as (A & B). split; auto. intros [Z|Z]; [discriminate|auto].
    - intros k i t Hi H1. apply N'k. apply Iname; auto. intros sid Q. apply (H1 sid). right; auto.
    - intros k x y i Hi. destruct (N'c k x y) as [(-> & -> & -> & Q)|(_ & Q)]; rewrite Q in Hi.
      + inversion Hi; subst. right. exists t0. split; auto. left; auto.
      + destruct (Ifound _ _ _ _ Hi) as [(t & A & B & C & D)|(t & A & B & C)].
        * left. exists t. repeat (split; auto). intros sid [Z|Z]; [discriminate|]. apply (D sid); auto.
        * right. exists t. split; auto. right; auto.
    - intros id1 x y [Q|Q]; [discriminate|auto].
    - intros id1 [Q|Q]; [discriminate|auto].
    - intros id1 c Hc H1. apply Isname; auto. intros Q. apply H1. right; auto.
    - intros x y id1 Hi. destruct (Isfound _ _ _ Hi) as [(c & A & B & C & D)|A].
      + left. exists c. repeat (split; auto). intros [Z|Z]; [discriminate|auto].
      + right. right. auto.
    - unfold tags; cbn [flat_map]; rewrite tag_put; cbn [app]; fold (tags R). constructor; auto. intros Q. apply in_tags_P in Q.
      destruct Q as (t & Q). apply (HR t); auto.
  Qed.

  Lemma ask_del k0 i0 t0 : Inv G E SN N R -> E k0 i0 = Some t0 -> (forall sid, ~ In (ITDel k0 i0 sid) R) ->
    ~ In (ISDel (t_schema t0)) R ->
    Inv G E SN (updN N k0 (nm_del (N k0) (t_schema t0) (t_name t0))) (ITDel k0 i0 (t_schema t0) :: R).
  Proof.
    intros [Ilist Isch Ipos Iput Idel Iname Ifound Isput Isdel Isname Isfound Inodup] HE HR HD.
    set (N' := updN N k0 (nm_del (N k0) (t_schema t0) (t_name t0))).
    assert (N'c : forall k a b, (k = k0 /\ a = t_schema t0 /\ b = t_name t0 /\ N' k a b = None) \/
                                (~ (k = k0 /\ a = t_schema t0 /\ b = t_name t0) /\ N' k a b = N k a b)).
    { intros k a b. unfold N'. destruct (kind_dec k k0) as [->|Nk].
      - rewrite updN_same. destruct (nm_del_cases (N k0) (t_schema t0) (t_name t0) a b) as [(-> & -> & Q)|(Ne & Q)]; rewrite Q.
        left; auto. right. split; auto. tauto.
      - rewrite updN_other by auto. right. split; auto. tauto. }
    assert (N0 : N k0 (t_schema t0) (t_name t0) = Some i0) by (apply Iname; auto).
    clearbody N'.
    constructor; auto.
    - intros k i t [Q|Q]; [discriminate|]. destruct (Iput k i t Q) as (A & B & C & D & F & K). repeat (split; auto).
      { intros [Z|Z]; [discriminate|auto]. }
      destruct (N'c k (t_schema t) (t_name t)) as [(-> & Q1 & Q2 & Z)|(_ & Z)]; [|congruence].
      rewrite Q1, Q2 in K. congruence.
    - intros k i sid [Q|Q].
      + inversion Q; subst. split; eauto. intros [Z|Z]; [discriminate|auto].
      + destruct (Idel k i sid Q) as (A & B). split; auto. intros [Z|Z]; [discriminate|auto].
    - intros k i t Hi H1. assert (K : N k (t_schema t) (t_name t) = Some i).
      { apply Iname; auto. intros sid Q. apply (H1 sid). right; auto. }
      destruct (N'c k (t_schema t) (t_name t)) as [(-> & Q1 & Q2 & Z)|(_ & Z)]; [|congruence].
      exfalso. rewrite Q1, Q2 in K. apply (H1 (t_schema t0)). left. congruence.
    - intros k x y i Hi. destruct (N'c k x y) as [(-> & -> & -> & Q)|(Ne & Q)]; rewrite Q in Hi; [discriminate|].
      destruct (Ifound _ _ _ _ Hi) as [(t & A & B & C & D)|(t & A & B & C)].
      + left. exists t. repeat (split; auto). intros sid [Z|Z]; [|apply (D sid); auto].
        inversion Z; subst. apply Ne. assert (t = t0) by congruence. subst. auto.
      + right. exists t. split; auto. right; auto.
    - intros id1 x y [Q|Q]; [discriminate|auto].
    - intros id1 [Q|Q]; [discriminate|auto].
    - intros id1 c Hc H1. apply Isname; auto. intros Q. apply H1. right; auto.
    - intros x y id1 Hi. destruct (Isfound _ _ _ Hi) as [(c & A & B & C & D)|A].
      + left. exists c. repeat (split; auto). intros [Z|Z]; [discriminate|auto].
      + right. right. auto.
    - unfold tags; cbn [flat_map]; rewrite tag_del; cbn [app]; fold (tags R). constructor; auto. intros Q. apply in_tags_X in Q.
      destruct Q as (t & Q). apply (HR t); auto.
  Qed.

  (** a creation is lost and its name given up *)
  Lemma lose_put k0 i0 t0 : Inv G E SN N (ITPut k0 i0 t0 :: R) ->
    Inv G E SN (updN N k0 (nm_del (N k0) (t_schema t0) (t_name t0))) R.
  Proof.
    intros [Ilist Isch Ipos Iput Idel Iname Ifound Isput Isdel Isname Isfound Inodup].
    destruct (Iput k0 i0 t0 (or_introl eq_refl)) as (En & P1 & P2 & _ & ND & Nm).
    unfold tags in Inodup. cbn [flat_map] in Inodup. rewrite tag_put in Inodup. cbn [app] in Inodup.
    apply NoDup_cons_iff in Inodup. destruct Inodup as [Nin Inodup].
    fold (tags R) in *.
    set (N' := updN N k0 (nm_del (N k0) (t_schema t0) (t_name t0))).
    assert (N'c : forall k a b, (k = k0 /\ a = t_schema t0 /\ b = t_name t0 /\ N' k a b = None) \/
                                (~ (k = k0 /\ a = t_schema t0 /\ b = t_name t0) /\ N' k a b = N k a b)).
    { intros k a b. unfold N'. destruct (kind_dec k k0) as [->|Nk].
      - rewrite updN_same. destruct (nm_del_cases (N k0) (t_schema t0) (t_name t0) a b) as [(-> & -> & Q)|(Ne & Q)]; rewrite Q.
        left; auto. right. split; auto. tauto.
      - rewrite updN_other by auto. right. split; auto. tauto. }
    clearbody N'.
    constructor; auto.
    - intros k i t Q. destruct (Iput k i t (or_intror Q)) as (A & B & C & D & F & K). repeat (split; auto).
      { intros Z. apply F. right; auto. }
      destruct (N'c k (t_schema t) (t_name t)) as [(-> & Q1 & Q2 & Z)|(_ & Z)]; [|congruence].
      exfalso. rewrite Q1, Q2 in K. assert (i = i0) by congruence. subst. apply Nin. eapply tag_in_P; eauto.
    - intros k i sid Q. destruct (Idel k i sid (or_intror Q)) as (A & B). split; auto. intros Z. apply B. right; auto.
    - intros k i t Hi H1. assert (K : N k (t_schema t) (t_name t) = Some i).
      { apply Iname; auto. intros sid [Q|Q]; [discriminate|]. apply (H1 sid). auto. }
      destruct (N'c k (t_schema t) (t_name t)) as [(-> & Q1 & Q2 & Z)|(_ & Z)]; [|congruence].
      exfalso. rewrite Q1, Q2 in K. congruence.
    - intros k x y i Hi. destruct (N'c k x y) as [(-> & -> & -> & Q)|(Ne & Q)]; rewrite Q in Hi; [discriminate|].
      destruct (Ifound _ _ _ _ Hi) as [(t & A & B & C & D)|(t & A & B & C)].
      + left. exists t. repeat (split; auto). intros sid Z. apply (D sid). right; auto.
      + right. exists t. split; auto. destruct A as [A|A]; auto. exfalso. inversion A; subst. apply Ne; auto.
    - intros id1 x y Q. apply Isput. right; auto.
    - intros id1 Q. apply Isdel. right; auto.
    - intros id1 c Hc H1. apply Isname; auto. intros [Q|Q]; [discriminate|auto].
    - intros x y id1 Hi. destruct (Isfound _ _ _ Hi) as [(c & A & B & C & D)|A].
      + left. exists c. repeat (split; auto). intros Z. apply D. right; auto.
      + right. destruct A as [A|A]; [discriminate|auto].
  Qed.
End Steps.
