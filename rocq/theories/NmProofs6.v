(** Lemmas for C83-C87: the requests, and whole histories. *)
From Coq Require Import ZArith List Bool Lia Permutation.
From Verif Require Import Bytes SMap Outcome LogProofs2 NmModel NmSpec NmProofs1 NmProofs2 NmProofs3 NmProofs4 NmProofs5.
Import ListNotations.
Open Scope Z_scope.

Lemma J_propose s s1 is back : J s -> same_maps s s1 -> IS s1 (is ++ pincs s) -> shape s (mkE is back) ->
  (forall t i, excl t (mkE is back) -> waiting s i -> ~ about_table i t) ->
  (forall t e i, In e (s_pend s) -> excl t e -> In i is -> ~ about_table i t) ->
  back_ok (mkE is back) -> J (propose s1 is back).
Proof.
  intros [HI HX HS HA HB] Sm I1 Sh Ap1 Ap2 Bk.
  assert (HE : forall k x, get_ent (propose s1 is back) k x = get_ent s k x).
  { intros. unfold propose. rewrite set_pend_ent. apply same_ent; auto. }
  assert (HT : forall x, get_tix (propose s1 is back) x = get_tix s x).
  { intros. rewrite <- (same_tix s s1); auto. }
  assert (Pr : s_pend (propose s1 is back) = s_pend s ++ [mkE is back]).
  { destruct Sm as (_ & _ & _ & _ & F). unfold propose. simpl. rewrite F. auto. }
  constructor.
  - unfold pincs. rewrite Pr, flat_map_app. simpl. rewrite app_nil_r.
    eapply IS_perm; [apply Permutation_app_comm|]. eapply IS_ext; [| | | | | | |exact I1]; reflexivity.
  - eapply exact_ext; [exact HE|exact HT|exact HX].
  - rewrite Pr. apply Forall_app; split.
    + eapply Forall_impl; [|exact HS]. intros f. apply shape_ext; auto.
    + constructor; auto. eapply shape_ext; [exact HE|exact HT|exact Sh].
  - rewrite Pr. apply pairwise_app_one; auto. apply Forall_forall. intros f Hf. split.
    + intros t i Hx Hi. eapply Ap2; eauto.
    + intros t i Hx Hi. eapply Ap1; eauto. exists f. auto.
  - rewrite Pr. apply Forall_app; split; auto.
Qed.

Lemma create_one_ok s k sid id name parent s1 i R : IS s R -> create_one s k sid id name parent = Some (s1, i) ->
  (forall t, ~ In (ITPut k id t) R) -> ~ In (ISDel sid) R ->
  i = ITPut k id (mkT sid name parent) /\ same_maps s s1 /\ IS s1 (i :: R).
Proof.
  intros [I S] H HR HD. unfold create_one in H.
  destruct (sid <=? 0) eqn:E1; [discriminate|]. apply Z.leb_gt in E1.
  destruct (get_sch s sid) as [c|] eqn:Ec; [|discriminate].
  destruct (nm s k sid name) eqn:En; [discriminate|].
  destruct (id <=? 0) eqn:E2; [discriminate|]. apply Z.leb_gt in E2.
  destruct (get_ent s k id) eqn:Ee; [discriminate|]. injection H as <- <-.
  split; auto. split; [apply same_set_nm|]. split; [|eapply same_sorted; [apply same_set_nm|auto]].
  eapply Inv_ext; [| | | |apply (ask_put _ _ _ _ _ k id (mkT sid name parent) I); simpl; auto].
  - intros. apply same_sch, same_set_nm.
  - intros. apply same_ent, same_set_nm.
  - intros. rewrite sn_set_nm. auto.
  - intros. rewrite nm_set_nm. unfold updN. auto.
  - eauto.
Qed.

Lemma create_list_ok l sid parent : forall s R s2 is, IS s R -> create_list s sid parent l = Some (s2, is) ->
  (forall p t, In p l -> ~ In (ITPut KIndex (fst p) t) R) -> NoDup (map fst l) -> ~ In (ISDel sid) R ->
  is = map (fun p => ITPut KIndex (fst p) (mkT sid (snd p) parent)) l /\ same_maps s s2 /\ IS s2 (is ++ R).
Proof.
  induction l as [|[id name] l IH]; intros s R s2 is HI H HR ND HD; simpl in H.
  - injection H as <- <-. split; auto. split; [apply same_refl|auto].
  - destruct (create_one s KIndex sid id name parent) as [[s1 i]|] eqn:E1; [|discriminate].
    destruct (create_list s1 sid parent l) as [[s3 is3]|] eqn:E2; [|discriminate]. injection H as <- <-.
    cbn [map fst] in ND. apply NoDup_cons_iff in ND. destruct ND as [Nin ND].
    destruct (create_one_ok _ _ _ _ _ _ _ _ R HI E1) as (-> & Sm & I1); auto.
    { intros t. apply (HR (id, name)). left; auto. }
    destruct (IH _ _ _ _ I1 E2) as (-> & Sm2 & I2); auto.
    { intros p t Hp [Q|Q]; [|apply (HR p t); auto; right; auto]. inversion Q; subst. apply Nin. apply in_map_iff. exists p. auto. }
    { intros [Q|Q]; [discriminate|auto]. }
    split; auto. split; [eapply same_trans; eauto|].
    eapply IS_perm; [|exact I2]. apply Permutation_sym. cbn [map app fst snd]. apply Permutation_middle.
Qed.

Lemma drop_one_ok s k sid id s1 i R : IS s R -> drop_one s k sid id = Some (s1, i) ->
  (forall x, ~ In (ITDel k id x) R) -> ~ In (ISDel sid) R ->
  i = ITDel k id sid /\ same_maps s s1 /\ IS s1 (i :: R) /\ exists t, get_ent s k id = Some t /\ t_schema t = sid.
Proof.
  intros [I S] H HR HD. unfold drop_one in H.
  destruct (sid <? 0); [discriminate|]. destruct (get_sch s sid) as [c|] eqn:Ec; [|discriminate].
  destruct (get_ent s k id) as [t|] eqn:Ee; [|discriminate].
  destruct (Z.eqb_spec (t_schema t) sid) as [Es|]; [|discriminate]. simpl in H. injection H as <- <-.
  split; auto. split; [apply same_set_nm|]. split; [|eauto]. split; [|eapply same_sorted; [apply same_set_nm|auto]].
  rewrite <- Es in *.
  eapply Inv_ext; [| | | |apply (ask_del _ _ _ _ _ k id t I); simpl; auto].
  - intros. apply same_sch, same_set_nm.
  - intros. apply same_ent, same_set_nm.
  - intros. rewrite sn_set_nm. auto.
  - intros. rewrite nm_set_nm. unfold updN. auto.
Qed.

(** the schema of a table is not being dropped *)
Lemma no_sdel s R k i t : IS s R -> get_ent s k i = Some t -> ~ In (ISDel (t_schema t)) R.
Proof.
  intros [I S] Hi Q. destruct (i_sdel _ _ _ _ _ I _ Q) as (c & Hc & He). destruct (i_list _ _ _ _ _ I k _ _ Hc) as [_ L].
  rewrite He in L. apply (L i). eauto.
Qed.

Lemma drop_list_ok l sid : forall s R, IS s R -> NoDup l -> 0 <= sid -> (exists c, get_sch s sid = Some c) ->
  (forall i, In i l -> (exists x, get_ent s KIndex i = Some x /\ t_schema x = sid) /\ forall y, ~ In (ITDel KIndex i y) R) ->
  exists s2, drop_list s sid l = (true, s2, map (fun i => ITDel KIndex i sid) l) /\ same_maps s s2 /\
    IS s2 (map (fun i => ITDel KIndex i sid) l ++ R).
Proof.
  induction l as [|i l IH]; intros s R HI ND Hp Hc Hl.
  - exists s. simpl. split; auto. split; [apply same_refl|auto].
  - apply NoDup_cons_iff in ND. destruct ND as [Nin ND].
    destruct (Hl i (or_introl eq_refl)) as ((x & Hx & Hs) & Hr).
    assert (E1 : exists s1 j, drop_one s KIndex sid i = Some (s1, j)).
    { unfold drop_one. assert (sid <? 0 = false) as -> by lia. destruct Hc as [c ->]. rewrite Hx, Hs, Z.eqb_refl. simpl. eauto. }
    destruct E1 as (s1 & j & E1).
    destruct (drop_one_ok _ _ _ _ _ _ _ HI E1 Hr) as (-> & Sm & I1 & _).
    { rewrite <- Hs. eapply no_sdel; eauto. }
    destruct (IH _ _ I1) as (s2 & E2 & Sm2 & I2); auto.
    { destruct Hc as [c Hc]. exists c. rewrite (same_sch _ _ _ Sm). auto. }
    { intros i1 H1. destruct (Hl i1 (or_intror H1)) as ((x1 & X1 & X2) & X3). split.
      - exists x1. rewrite (same_ent _ _ _ _ Sm). auto.
      - intros y [Q|Q]; [|apply (X3 y); auto]. inversion Q; subst. auto. }
    exists s2. cbn [drop_list]. rewrite E1, E2. split; auto. split; [eapply same_trans; eauto|].
    eapply IS_perm; [|exact I2]. apply Permutation_sym. cbn [map app]. apply Permutation_middle.
Qed.

Lemma excl_plain t is back : (forall i, In i is -> is_x i = false) -> ~ excl t (mkE is back).
Proof.
  intros H [Q|[l Q]]; apply H in Q; discriminate.
Qed.

Lemma filter_all {A} (f : A -> bool) l : (forall x, In x l -> f x = true) -> filter f l = l.
Proof. induction l; simpl; auto. intros H. rewrite H by auto. rewrite IHl; auto. Qed.
Lemma filter_none {A} (f : A -> bool) l : (forall x, In x l -> f x = false) -> filter f l = [].
Proof. induction l; simpl; auto. intros H. rewrite H by auto. auto. Qed.

Lemma in_order_create id sid name ixs :
  in_order (ITPut KTable id (mkT sid name 0) :: map (fun p => ITPut KIndex (fst p) (mkT sid (snd p) id)) ixs ++ [IXPut id (map fst ixs)]) =
  IXPut id (map fst ixs) :: map (fun p => ITPut KIndex (fst p) (mkT sid (snd p) id)) ixs ++ [ITPut KTable id (mkT sid name 0)].
Proof.
  set (m := map (fun p => ITPut KIndex (fst p) (mkT sid (snd p) id)) ixs).
  assert (Hm : forall x, In x m -> exists j u, x = ITPut KIndex j u).
  { intros x Q. unfold m in Q. apply in_map_iff in Q. destruct Q as (p & <- & _). eauto. }
  unfold in_order. cbn [filter is_s is_x is_k kind_eqb]. rewrite !filter_app. cbn [filter is_s is_x is_k kind_eqb].
  rewrite (filter_none is_s m), (filter_none is_x m), (filter_all (is_k KIndex) m), (filter_none (is_k KTable) m).
  - simpl. rewrite app_nil_r. auto.
  - intros x Q. destruct (Hm _ Q) as (j & u & ->). auto.
  - intros x Q. destruct (Hm _ Q) as (j & u & ->). auto.
  - intros x Q. destruct (Hm _ Q) as (j & u & ->). auto.
  - intros x Q. destruct (Hm _ Q) as (j & u & ->). auto.
Qed.
Lemma in_order_drop t sid l :
  in_order ((map (fun i => ITDel KIndex i sid) l ++ [IXDel t; ITDel KTable t sid]) ++ []) =
  IXDel t :: map (fun i => ITDel KIndex i sid) l ++ [ITDel KTable t sid].
Proof.
  rewrite app_nil_r. set (m := map (fun i => ITDel KIndex i sid) l).
  assert (Hm : forall x, In x m -> exists j u, x = ITDel KIndex j u).
  { intros x Q. unfold m in Q. apply in_map_iff in Q. destruct Q as (p & <- & _). eauto. }
  unfold in_order. rewrite !filter_app. cbn [filter is_s is_x is_k kind_eqb].
  rewrite (filter_none is_s m), (filter_none is_x m), (filter_all (is_k KIndex) m), (filter_none (is_k KTable) m).
  - simpl. rewrite app_nil_r. auto.
  - intros x Q. destruct (Hm _ Q) as (j & u & ->). auto.
  - intros x Q. destruct (Hm _ Q) as (j & u & ->). auto.
  - intros x Q. destruct (Hm _ Q) as (j & u & ->). auto.
  - intros x Q. destruct (Hm _ Q) as (j & u & ->). auto.
Qed.

(** an increment that waits and has the table for itself *)
Lemma excl_waits s t e : In e (s_pend s) -> excl t e -> (waiting s (IXDel t) \/ exists l, waiting s (IXPut t l)).
Proof. intros He [Q|[l Q]]; [left|right; exists l]; exists e; auto. Qed.
Lemma excl_table s t e tb : J s -> In e (s_pend s) -> excl t e -> get_ent s KTable t = Some tb -> waiting s (IXDel t).
Proof.
  intros HJ He Hx Ht. destruct Hx as [Q|[l Q]]; [exists e; auto|].
  exfalso. assert (Sh : shape s e) by (assert (H := j_shape _ HJ); rewrite Forall_forall in H; auto).
  destruct Sh as [P1 P2 P3 P4|t0 sid0 name ixs Ei ND Tn|t0 j sid0 name l0 tb0 Ei Tb Ts Tl|t0 j sid0 l0 x0 Ei Tl Ex Et|t0 sid0 l0 Ei Tl].
  - apply P1 in Q. discriminate.
  - rewrite Ei in Q. destruct Q as [Q|Q].
    + inversion Q; subst. destruct (j_is _ HJ) as [I _]. destruct (i_put _ _ _ _ _ I KTable t (mkT sid0 name 0)) as (E0 & _); [|congruence].
      apply in_flat_map. exists e. split; auto. rewrite Ei. right. apply in_or_app. right. left; auto.
    + apply in_app_or in Q. destruct Q as [Q|[Q|[]]]; [|discriminate]. apply in_map_iff in Q. destruct Q as (? & Q & _). discriminate.
  - rewrite Ei in Q. destruct Q as [Q|[Q|[]]]; discriminate.
  - rewrite Ei in Q. destruct Q as [Q|[Q|[]]]; discriminate.
  - rewrite Ei in Q. destruct Q as [Q|Q]; [discriminate|]. apply in_app_or in Q. destruct Q as [Q|[Q|[]]]; [|discriminate].
    apply in_map_iff in Q. destruct Q as (? & Q & _). discriminate.
Qed.

(** an index of a table is dropped only together with the table's list *)
Lemma drop_waits_about s i x y : J s -> get_ent s KIndex i = Some x -> t_table x <> 0 -> waiting s (ITDel KIndex i y) ->
  exists j, waiting s j /\ about_table j (t_table x).
Proof.
  intros HJ Hx Hn (e & He & Hi). assert (Sh : shape s e) by (assert (H := j_shape _ HJ); rewrite Forall_forall in H; auto).
  destruct Sh as [P1 P2 P3 P4|t0 sid0 name ixs Ei ND Tn|t0 j sid0 name l0 tb0 Ei Tb Ts Tl|t0 j sid0 l0 x0 Ei Tl Ex Et|t0 sid0 l0 Ei Tl].
  - destruct (P3 _ _ Hi) as (z & Z1 & Z2). congruence.
  - rewrite Ei in Hi. destruct Hi as [Q|Q]; [discriminate|]. apply in_app_or in Q. destruct Q as [Q|[Q|[]]]; [|discriminate].
    apply in_map_iff in Q. destruct Q as (? & Q & _). discriminate.
  - rewrite Ei in Hi. destruct Hi as [Q|[Q|[]]]; discriminate.
  - exists (IXRem t0 j). split; [exists e; split; auto; rewrite Ei; left; auto|].
    rewrite Ei in Hi. destruct Hi as [Q|[Q|[]]]; [discriminate|]. inversion Q; subst. simpl. congruence.
  - exists (IXDel t0). split; [exists e; split; auto; rewrite Ei; left; auto|].
    rewrite Ei in Hi. destruct Hi as [Q|Q]; [discriminate|]. apply in_app_or in Q. destruct Q as [Q|[Q|[]]]; [|discriminate].
    apply in_map_iff in Q. destruct Q as (z & Q & Q2). inversion Q; subst. destruct (j_ix _ HJ) as [X1 _].
    destruct (X1 _ _ Tl) as (_ & B & _). apply B in Q2. destruct Q2 as (w & W1 & W2). simpl. congruence.
Qed.

Lemma back_nil is : back_ok (mkE is []).
Proof. intros Q. destruct Q; auto. Qed.

Lemma step_calm s o : J s -> calm s o -> exists s', step s o = Ok s' /\ J s'.
Proof.
  intros HJ HC. assert (HI := j_is _ HJ). assert (HIv := proj1 HI).
  assert (W : forall i, waiting s i <-> In i (pincs s)) by (apply waiting_pincs).
  destruct o as [tenant name given fresh|tenant id|sid id name|sid tb ixs|sid id name|t id name|sid t|l|sid id|t id|k|k|k|]; cbn [calm] in HC.
  - (* CreateSchema *)
    eexists; split; [reflexivity|]. unfold create_schema. destruct (s_sn s tenant name) eqn:En; [exact HJ|]. cbn [snd].
    set (nid := if 0 <? given then given else fresh) in *. destruct HC as (Hp & Hg & Hw).
    set (s1 := set_sn s (nm_put (s_sn s) tenant name nid)).
    assert (Sm : same_maps s s1) by (repeat split).
    eapply J_propose; [exact HJ|exact Sm| | | | |apply back_nil].
    + split; [|eapply same_sorted; [exact Sm|apply HI]]. cbn [app].
      eapply Inv_ext; [| | | |apply (ask_sput _ _ _ _ _ nid tenant name HIv)];
        try (intros; apply same_ent; auto; fail); try (intros k a b; destruct k; reflexivity); try (intros; reflexivity); auto.
      intros x y Q. apply (Hw x y). apply W; auto.
    + apply sh_plain; cbn [e_incs].
      * intros i [<-|[]]. auto.
      * intros i x [Q|[]]; discriminate.
      * intros i x [Q|[]]; discriminate.
      * intros i x [Q|[]]; discriminate.
    + intros t i Q. exfalso; eapply excl_plain; [|exact Q]; cbn [e_incs]. intros j [<-|[]]; auto.
    + intros t e i _ _ [<-|[]]. simpl; auto.
  - (* DropSchema *)
    eexists; split; [reflexivity|]. unfold drop_schema. destruct (id <=? 1000); [exact HJ|].
    destruct (get_sch s id) as [c|] eqn:Ec; [|exact HJ]. destruct (sc_tables c) eqn:Et; [|exact HJ]. cbn [snd].
    destruct (HC c eq_refl) as (Ht & Hx & Hw).
    set (s1 := set_sn s (nm_del (s_sn s) tenant (sc_name c))).
    assert (Sm : same_maps s s1) by (repeat split).
    eapply J_propose; [exact HJ|exact Sm| | | | |apply back_nil].
    + split; [|eapply same_sorted; [exact Sm|apply HI]]. cbn [app].
      eapply Inv_ext; [| | | |apply (ask_sdel _ _ _ _ _ id c HIv)];
        try (intros; apply same_ent; auto; fail); try (intros k a b; destruct k; reflexivity); try (intros; rewrite <- Ht; reflexivity); try (intros; reflexivity); auto.
      * intros. unfold s1. rewrite <- Ht. reflexivity.
      * intros k; destruct k; [exact Et|exact Hx].
      * intros i Q. apply Hw. apply W; auto.
    + apply sh_plain; cbn [e_incs].
      * intros i [<-|[]]. auto.
      * intros i x [Q|[]]; discriminate.
      * intros i x [Q|[]]; discriminate.
      * intros i x [Q|[]]; discriminate.
    + intros t i Q. exfalso; eapply excl_plain; [|exact Q]; cbn [e_incs]. intros j [<-|[]]; auto.
    + intros t e i _ _ [<-|[]]. simpl; auto.
  - (* CreateTable *)
    eexists; split; [reflexivity|]. unfold create_table. destruct HC as (Hd & (Hf1 & Hf2) & Hw).
    destruct (create_one s KTable sid id name 0) as [[s1 i]|] eqn:E1; [|exact HJ]. cbn [snd].
    destruct (create_one_ok _ _ _ _ _ _ _ _ _ HI E1) as (-> & Sm & I1).
    { intros t Q. apply (Hf2 t). apply W; auto. }
    { intros Q. apply Hd. apply W; auto. }
    eapply J_propose; [exact HJ|exact Sm|exact I1| | | |apply back_nil].
    + apply sh_plain; cbn [e_incs].
      * intros j [<-|[]]; auto.
      * intros i x [Q|[]]; discriminate.
      * intros i x [Q|[]]; discriminate.
      * intros i x [Q|[]]; discriminate.
    + intros t i Q. exfalso; eapply excl_plain; [|exact Q]; cbn [e_incs]. intros j [<-|[]]; auto.
    + intros t e i He Hx [<-|[]] Q. simpl in Q. subst t.
      destruct (excl_waits _ _ _ He Hx) as [Z|[l Z]]; apply (Hw _ Z); simpl; auto.
  - (* CreateTables *)
    eexists; split; [reflexivity|]. unfold create_tables. destruct HC as (Hd & ND & Hf & Ht).
    destruct tb as [[id name]|].
    + destruct (Ht _ eq_refl) as ((Ht1 & Ht2) & Hw). cbn [fst] in *.
      destruct (create_one s KTable sid id name 0) as [[s1 i]|] eqn:E1; [|exact HJ].
      destruct (create_list s1 sid id ixs) as [[s2 is]|] eqn:E2; [|exact HJ]. cbn [snd].
      destruct (create_one_ok _ _ _ _ _ _ _ _ _ HI E1) as (-> & Sm & I1).
      { intros t Q. apply (Ht2 t). apply W; auto. }
      { intros Q. apply Hd. apply W; auto. }
      destruct (create_list_ok _ _ _ _ _ _ _ I1 E2) as (-> & Sm2 & I2); auto.
      { intros p t Hp [Q|Q]; [discriminate|]. destruct (Hf p Hp) as [_ Q2]. apply (Q2 t). apply W; auto. }
      { intros [Q|Q]; [discriminate|]. apply Hd. apply W; auto. }
      rewrite in_order_create.
      eapply J_propose; [exact HJ|eapply same_trans; eauto| | | | |].
      * cbn [app]. apply IS_x; auto. rewrite <- app_assoc. cbn [app]. exact I2.
      * eapply sh_create; [reflexivity|auto|].
        destruct (get_tix s id) as [l|] eqn:Etx; auto. destruct (j_ix _ HJ) as [X1 _]. destruct (X1 _ _ Etx) as (_ & _ & tb & Q & _). congruence.
      * intros t i Hx Hi Q. assert (t = id).
        { destruct Hx as [Z|[l Z]]; cbn [e_incs] in Z; destruct Z as [Z|Z]; try discriminate; try (inversion Z; auto; fail);
            apply in_app_or in Z; destruct Z as [Z|[Z|[]]]; try discriminate; apply in_map_iff in Z; destruct Z as (? & Z & _); discriminate. }
        subst t. apply (Hw _ Hi Q).
      * intros t e i He Hx Hi Q. assert (t = id).
        { destruct Hi as [<-|Hi]; [simpl in Q; auto|]. apply in_app_or in Hi. destruct Hi as [Hi|[<-|[]]]; [|simpl in Q; auto].
          apply in_map_iff in Hi. destruct Hi as (? & <- & _). simpl in Q; auto. }
        subst t. destruct (excl_waits _ _ _ He Hx) as [Z|[l Z]]; apply (Hw _ Z); simpl; auto.
      * intros _. cbn [e_incs e_back]. split.
        -- constructor; [left; auto|]. apply Forall_app; split; [|constructor; auto; right; eauto].
           apply Forall_forall. intros x Q. apply in_map_iff in Q. destruct Q as (p & <- & _). right; eauto.
        -- cbn [flat_map bk app]. rewrite flat_map_app. cbn [flat_map bk app t_schema t_name].
           assert (Eb : flat_map bk (map (fun p => ITPut KIndex (fst p) (mkT sid (snd p) id)) ixs) = backs KIndex sid ixs).
           { clear. induction ixs; simpl; auto. rewrite IHixs. auto. }
           rewrite Eb. apply Permutation_sym, Permutation_cons_append.
    + destruct (create_list s sid 0 ixs) as [[s2 is]|] eqn:E2; [|exact HJ]. cbn [snd].
      destruct (create_list_ok _ _ _ _ _ _ _ HI E2) as (-> & Sm2 & I2); auto.
      { intros p t Hp Q. destruct (Hf p Hp) as [_ Q2]. apply (Q2 t). apply W; auto. }
      { intros Q. apply Hd. apply W; auto. }
      assert (Hm : forall x, In x (map (fun p => ITPut KIndex (fst p) (mkT sid (snd p) 0)) ixs) -> exists j b, x = ITPut KIndex j (mkT sid b 0)).
      { intros x Q. apply in_map_iff in Q. destruct Q as (p & <- & _). eauto. }
      eapply J_propose; [exact HJ|exact Sm2|exact I2| | | |].
      * apply sh_plain; cbn [e_incs].
        -- intros i Q. destruct (Hm _ Q) as (j & b & ->). auto.
        -- intros i x Q. destruct (Hm _ Q) as (j & b & Q2). inversion Q2; auto.
        -- intros i x Q. destruct (Hm _ Q) as (j & b & Q2). inversion Q2.
        -- intros i x Q. destruct (Hm _ Q) as (j & b & Q2). inversion Q2.
      * intros t i Q. exfalso; eapply excl_plain; [|exact Q]; cbn [e_incs]. intros j Z. destruct (Hm _ Z) as (? & ? & ->). auto.
      * intros t e i He Hx Hi Q. destruct (Hm _ Hi) as (j & b & ->). simpl in Q. subst t.
        assert (Sh : shape s e) by (assert (H := j_shape _ HJ); rewrite Forall_forall in H; auto).
        destruct Sh as [P1 P2 P3 P4|t0 sid0 name ixs0 Ei ND0 Tn|t0 j0 sid0 name l0 tb0 Ei Tb Ts Tl|t0 j0 sid0 l0 x0 Ei Tl Ex Et|t0 sid0 l0 Ei Tl].
        -- destruct Hx as [Z|[? Z]]; apply P1 in Z; discriminate.
        -- assert (t0 = 0).
           { destruct Hx as [Z|[? Z]]; rewrite Ei in Z; destruct Z as [Z|Z]; try discriminate; try (inversion Z; auto; fail);
             apply in_app_or in Z; destruct Z as [Z|[Z|[]]]; try discriminate; apply in_map_iff in Z; destruct Z as (? & Z & _); discriminate. }
           subst t0. destruct (i_put _ _ _ _ _ HIv KTable 0 (mkT sid0 name 0)) as (_ & ? & _); [|lia].
           apply in_flat_map. exists e. split; auto. rewrite Ei. right. apply in_or_app. right; left; auto.
        -- destruct Hx as [Z|[? Z]]; rewrite Ei in Z; destruct Z as [Z|[Z|[]]]; discriminate.
        -- destruct Hx as [Z|[? Z]]; rewrite Ei in Z; destruct Z as [Z|[Z|[]]]; discriminate.
        -- assert (t0 = 0).
           { destruct Hx as [Z|[? Z]]; rewrite Ei in Z; destruct Z as [Z|Z]; try discriminate; try (inversion Z; auto; fail);
             apply in_app_or in Z; destruct Z as [Z|[Z|[]]]; try discriminate; apply in_map_iff in Z; destruct Z as (? & Z & _); discriminate. }
           subst t0. destruct (j_ix _ HJ) as [X1 _]. destruct (X1 _ _ Tl) as (_ & _ & tb & C & _).
           apply (i_pos _ _ _ _ _ HIv) in C. lia.
      * intros _. cbn [e_incs e_back]. split.
        -- apply Forall_forall. intros x Q. destruct (Hm _ Q) as (? & ? & ->). right; eauto.
        -- assert (Eb : flat_map bk (map (fun p => ITPut KIndex (fst p) (mkT sid (snd p) 0)) ixs) = backs KIndex sid ixs).
           { clear. induction ixs; simpl; auto. rewrite IHixs. auto. }
           rewrite Eb. auto.
  - (* CreateIndex *)
    eexists; split; [reflexivity|]. unfold create_index. destruct HC as (Hd & Hf1 & Hf2).
    destruct (create_one s KIndex sid id name 0) as [[s1 i]|] eqn:E1; [|exact HJ]. cbn [snd].
    destruct (create_one_ok _ _ _ _ _ _ _ _ _ HI E1) as (-> & Sm & I1).
    { intros t Q. apply (Hf2 t). apply W; auto. }
    { intros Q. apply Hd. apply W; auto. }
    eapply J_propose; [exact HJ|exact Sm|exact I1| | | |apply back_nil].
    + apply sh_plain; cbn [e_incs].
      * intros j [<-|[]]; auto.
      * intros i x [Q|[]]. inversion Q; auto.
      * intros i x [Q|[]]; discriminate.
      * intros i x [Q|[]]; discriminate.
    + intros t i Q. exfalso; eapply excl_plain; [|exact Q]; cbn [e_incs]. intros j [<-|[]]; auto.
    + intros t e i He Hx [<-|[]] Q. simpl in Q. subst t.
      assert (Sh : shape s e) by (assert (H := j_shape _ HJ); rewrite Forall_forall in H; auto).
      destruct Sh as [P1 P2 P3 P4|t0 sid0 name0 ixs0 Ei ND0 Tn|t0 j0 sid0 name0 l0 tb0 Ei Tb Ts Tl|t0 j0 sid0 l0 x0 Ei Tl Ex Et|t0 sid0 l0 Ei Tl].
      * destruct Hx as [Z|[? Z]]; apply P1 in Z; discriminate.
      * assert (t0 = 0).
        { destruct Hx as [Z|[? Z]]; rewrite Ei in Z; destruct Z as [Z|Z]; try discriminate; try (inversion Z; auto; fail);
          apply in_app_or in Z; destruct Z as [Z|[Z|[]]]; try discriminate; apply in_map_iff in Z; destruct Z as (? & Z & _); discriminate. }
        subst t0. destruct (i_put _ _ _ _ _ HIv KTable 0 (mkT sid0 name0 0)) as (_ & ? & _); [|lia].
        apply in_flat_map. exists e. split; auto. rewrite Ei. right. apply in_or_app. right; left; auto.
      * destruct Hx as [Z|[? Z]]; rewrite Ei in Z; destruct Z as [Z|[Z|[]]]; discriminate.
      * destruct Hx as [Z|[? Z]]; rewrite Ei in Z; destruct Z as [Z|[Z|[]]]; discriminate.
      * assert (t0 = 0).
        { destruct Hx as [Z|[? Z]]; rewrite Ei in Z; destruct Z as [Z|Z]; try discriminate; try (inversion Z; auto; fail);
          apply in_app_or in Z; destruct Z as [Z|[Z|[]]]; try discriminate; apply in_map_iff in Z; destruct Z as (? & Z & _); discriminate. }
        subst t0. destruct (j_ix _ HJ) as [X1 _]. destruct (X1 _ _ Tl) as (_ & _ & tb & C & _).
        apply (i_pos _ _ _ _ _ HIv) in C. lia.
  - (* AddIndex *)
    eexists; split; [reflexivity|]. unfold add_index. destruct HC as ((Hf1 & Hf2) & Hnd & Hsd).
    destruct (get_ent s KTable t) as [tb|] eqn:Et; [|exact HJ]. destruct (get_tix s t) as [l|] eqn:Etx; [|exact HJ].
    destruct (create_one s KIndex (t_schema tb) id name t) as [[s1 i]|] eqn:E1; [|exact HJ]. cbn [snd].
    destruct (create_one_ok _ _ _ _ _ _ _ _ _ HI E1) as (-> & Sm & I1).
    { intros u Q. apply (Hf2 u). apply W; auto. }
    { intros Q. apply (Hsd tb); auto. apply W; auto. }
    eapply J_propose; [exact HJ|exact Sm| | | | |apply back_nil].
    + cbn [app]. apply IS_x; auto.
    + eapply sh_add; [reflexivity|exact Et|auto|exact Etx].
    + intros t1 i [Q|[l1 Q]]; cbn [e_incs] in Q; destruct Q as [Q|[Q|[]]]; discriminate.
    + intros t1 e i He Hx Hi Q. assert (t1 = t).
      { destruct Hi as [<-|[<-|[]]]; simpl in Q; auto. }
      subst t1. apply Hnd. eapply excl_table; eauto.
  - (* DropTable *)
    eexists; split; [reflexivity|]. unfold drop_table. destruct (get_tables s sid t) as [l|] eqn:Eg; [|exact HJ].
    destruct l as [|x l]; [|exact HJ]. unfold get_tables in Eg. destruct (get_one s KTable sid t); [|discriminate].
    destruct (get_tix s t); [|discriminate]. destruct (get_list s sid l); discriminate.
  - (* DropTables *)
    destruct HC as (sid & t & -> & Hs & Hw). eexists; split; [reflexivity|]. unfold drop_tables. cbn [drop_each].
    unfold drop_table_indexes. destruct (get_one s KTable sid t) as [tb|] eqn:Eg; [|exact HJ].
    destruct (get_tix s t) as [l|] eqn:Etx; [|exact HJ].
    assert (Htb : get_ent s KTable t = Some tb).
    { unfold get_one in Eg. destruct ((sid <? 0) || (t <=? 0)); [discriminate|]. destruct (get_sch s sid); [auto|discriminate]. }
    assert (Hsid := Hs _ Htb). destruct (i_sch _ _ _ _ _ HIv _ _ _ Htb) as [c Hc]. destruct (i_pos _ _ _ _ _ HIv _ _ _ Htb) as [Tp Sp].
    rewrite Hsid in *. destruct (j_ix _ HJ) as [X1 X2]. destruct (X1 _ _ Etx) as (Nl & Bl & tb1 & C1 & D1).
    assert (tb1 = tb) by congruence. subst tb1.
    destruct (drop_list_ok l sid s (pincs s) HI Nl) as (s1 & E1 & Sm & I1); [lia|eauto| |].
    { intros i Hi. apply Bl in Hi. destruct Hi as (x & Hx1 & Hx2). split.
      - exists x. split; auto. rewrite <- Hsid. eauto.
      - intros y Q. apply W in Q. destruct (drop_waits_about s i x y HJ Hx1) as (j & J1 & J2); [lia|auto|]. rewrite Hx2 in J2. apply (Hw _ J1 J2). }
    rewrite E1. cbv iota beta.
    assert (E2 : exists s2 j, drop_one s1 KTable sid t = Some (s2, j)).
    { unfold drop_one. assert (sid <? 0 = false) as -> by lia. rewrite (same_sch _ _ _ Sm), Hc, (same_ent _ _ _ _ Sm), Htb, Hsid, Z.eqb_refl. simpl. eauto. }
    destruct E2 as (s2 & j & E2). rewrite E2.
    destruct (drop_one_ok _ _ _ _ _ _ _ I1 E2) as (-> & Sm2 & I2 & _).
    { intros x Q. apply in_app_or in Q. destruct Q as [Q|Q].
      - apply in_map_iff in Q. destruct Q as (? & Q & _). discriminate.
      - apply W in Q. apply (Hw _ Q). simpl. auto. }
    { intros Q. apply in_app_or in Q. destruct Q as [Q|Q].
      - apply in_map_iff in Q. destruct Q as (? & Q & _). discriminate.
      - revert Q. rewrite <- Hsid. eapply no_sdel; eauto. }
    cbv iota beta. cbn [snd]. rewrite in_order_drop.
    eapply J_propose; [exact HJ|eapply same_trans; eauto| | | | |apply back_nil].
    + cbn [app]. apply IS_x; auto. rewrite <- app_assoc. cbn [app]. eapply IS_perm; [|exact I2]. apply Permutation_middle.
    + eapply sh_drop; [reflexivity|exact Etx].
    + intros t1 i Hx Hi Q. assert (t1 = t).
      { destruct Hx as [Z|[? Z]]; cbn [e_incs] in Z; destruct Z as [Z|Z]; try discriminate; try (inversion Z; auto; fail);
        apply in_app_or in Z; destruct Z as [Z|[Z|[]]]; try discriminate; apply in_map_iff in Z; destruct Z as (? & Z & _); discriminate. }
      subst t1. apply (Hw _ Hi Q).
    + intros t1 e i He Hx Hi Q. assert (t1 = t).
      { destruct Hi as [<-|Hi]; [simpl in Q; auto|]. apply in_app_or in Hi. destruct Hi as [Hi|[<-|[]]]; [|simpl in Q; auto].
        apply in_map_iff in Hi. destruct Hi as (? & <- & _). simpl in Q. contradiction. }
      subst t1. destruct (excl_waits _ _ _ He Hx) as [Z|[? Z]]; apply (Hw _ Z); simpl; auto.
  - (* DropIndex *)
    eexists; split; [reflexivity|]. unfold drop_index. destruct (get_ent s KIndex id) as [x|] eqn:Ee; [|exact HJ].
    destruct (Z.ltb_spec 0 (t_table x)) as [Hlt|Hle]; [exact HJ|].
    destruct (drop_one s KIndex sid id) as [[s1 i]|] eqn:E1; [|exact HJ]. cbn [snd].
    assert (Hsx : t_schema x = sid).
    { unfold drop_one in E1. destruct (sid <? 0); [discriminate|]. destruct (get_sch s sid); [|discriminate]. rewrite Ee in E1.
      destruct (Z.eqb_spec (t_schema x) sid); [auto|discriminate]. }
    destruct (drop_one_ok _ _ _ _ _ _ _ HI E1) as (-> & Sm & I1 & _).
    { intros y Q. apply HC. exists y. apply W; auto. }
    { rewrite <- Hsx. eapply no_sdel; eauto. }
    assert (Hx0 : t_table x = 0).
    { destruct (Z.eq_dec (t_table x) 0) as [|Ne]; auto. exfalso. destruct (j_ix _ HJ) as [X1 X2]. destruct (X2 _ _ Ee Ne) as [l Hl].
      destruct (X1 _ _ Hl) as (_ & _ & tb & C & _). apply (i_pos _ _ _ _ _ HIv) in C. lia. }
    eapply J_propose; [exact HJ|exact Sm|exact I1| | | |apply back_nil].
    + apply sh_plain; cbn [e_incs].
      * intros j [<-|[]]; auto.
      * intros i y [Q|[]]; discriminate.
      * intros i y [Q|[]]. inversion Q; subst. eauto.
      * intros i y [Q|[]]; discriminate.
    + intros t i Q. exfalso; eapply excl_plain; [|exact Q]; cbn [e_incs]. intros j [<-|[]]; auto.
    + intros t e i He Hx [<-|[]] Q. simpl in Q. auto.
  - (* DropIndexOn *)
    eexists; split; [reflexivity|]. unfold drop_index_on. destruct HC as (Hnd & Hnx).
    destruct (get_ent s KTable t) as [tb|] eqn:Et; [|exact HJ]. destruct (get_ent s KIndex id) as [x|] eqn:Ee; [|exact HJ].
    destruct (get_tix s t) as [l|] eqn:Etx; [|exact HJ]. destruct (mem id l) eqn:Em; [|exact HJ]. apply mem_in in Em.
    destruct (drop_one s KIndex (t_schema tb) id) as [[s1 i]|] eqn:E1; [|exact HJ]. cbn [snd].
    destruct (drop_one_ok _ _ _ _ _ _ _ HI E1) as (-> & Sm & I1 & _).
    { intros y Q. apply Hnd. exists y. apply W; auto. }
    { eapply no_sdel; eauto. }
    destruct (j_ix _ HJ) as [X1 X2]. destruct (X1 _ _ Etx) as (_ & B & _). apply B in Em. destruct Em as (x1 & Q1 & Q2).
    eapply J_propose; [exact HJ|exact Sm| | | | |apply back_nil].
    + cbn [app]. apply IS_x; auto.
    + eapply sh_rem; [reflexivity|exact Etx|exact Q1|exact Q2].
    + intros t1 i [Q|[l1 Q]]; cbn [e_incs] in Q; destruct Q as [Q|[Q|[]]]; discriminate.
    + intros t1 e i He Hx Hi Q. assert (t1 = t).
      { destruct Hi as [<-|[<-|[]]]; simpl in Q; auto. contradiction. }
      subst t1. apply Hnx. eapply excl_table; eauto.
  - (* Apply *)
    cbn [step]. destruct (nth_error (s_pend s) k) as [e|] eqn:En; [|eauto]. eapply J_apply; eauto.
  - (* Lose *)
    cbn [step]. destruct (nth_error (s_pend s) k) as [e|] eqn:En; [|eauto]. eexists; split; [reflexivity|]. eapply J_lose; eauto.
  - contradiction.
  - cbn [step]. eexists; split; [reflexivity|]. destruct HC. apply J_leader; auto.
Qed.

Lemma J_init : J init.
Proof.
  constructor.
  - split; [|constructor; constructor]. constructor; try (intros; try destruct k; try discriminate; try contradiction; fail).
    constructor.
  - split; intros; discriminate.
  - constructor.
  - constructor.
  - constructor.
Qed.

Lemma calm_run l : forall s, J s -> calm_hist s l -> exists s', run s l = Ok s' /\ J s'.
Proof.
  induction l as [|o l IH]; intros s HJ HC; simpl in *; eauto.
  destruct HC as [HC1 HC2]. destruct (step_calm _ _ HJ HC1) as (s1 & E1 & J1). rewrite E1 in *. eauto.
Qed.

(** what the invariant says *)
Lemma J_unique s : J s -> names_unique s.
Proof.
  intros HJ. assert (I := proj1 (j_is _ HJ)). assert (W := waiting_pincs s). split.
  - intros k i j t u Hi Hj Di Dj E1 E2.
    assert (A : nm s k (t_schema t) (t_name t) = Some i).
    { apply (i_name _ _ _ _ _ I); auto. intros sid Q. apply Di. exists sid. apply W; auto. }
    assert (B : nm s k (t_schema u) (t_name u) = Some j).
    { apply (i_name _ _ _ _ _ I); auto. intros sid Q. apply Dj. exists sid. apply W; auto. }
    rewrite <- E1, <- E2 in B. congruence.
  - intros i j c d Hi Hj Di Dj E1 E2.
    assert (A := i_sname _ _ _ _ _ I _ _ Hi (fun Q => Di (proj2 (W _) Q))).
    assert (B := i_sname _ _ _ _ _ I _ _ Hj (fun Q => Dj (proj2 (W _) Q))).
    rewrite <- E1, <- E2 in B. congruence.
Qed.

Lemma J_lookups s : J s -> lookups_right s.
Proof.
  intros HJ. assert (I := proj1 (j_is _ HJ)). assert (W := waiting_pincs s). split.
  - intros k sid name i t. unfold by_name, get_one. split.
    + destruct (sid <? 0) eqn:E1; [discriminate|]. destruct (get_sch s sid) eqn:E2; [|discriminate].
      destruct (nm s k sid name) as [j|] eqn:E3; [|discriminate]. simpl.
      destruct (j <=? 0); [discriminate|]. destruct (get_ent s k j) as [u|] eqn:E4; [|discriminate].
      intros H. inversion H; subst. destruct (i_found _ _ _ _ _ I _ _ _ _ E3) as [(v & A & B & C & D)|(v & A & B & C)].
      * assert (v = t) by congruence. subst. repeat (split; auto). intros [x Q]. apply (D x). apply W; auto.
      * destruct (i_put _ _ _ _ _ I _ _ _ A) as (Q & _). congruence.
    + intros (A & B & C & D). destruct (i_pos _ _ _ _ _ I _ _ _ A) as [P1 P2]. destruct (i_sch _ _ _ _ _ I _ _ _ A) as [c Hc].
      rewrite B in *. assert (sid <? 0 = false) as -> by lia. rewrite Hc.
      assert (En : nm s k sid name = Some i).
      { rewrite <- B, <- C. apply (i_name _ _ _ _ _ I); auto. intros x Q. apply D. exists x. apply W; auto. }
      rewrite En. simpl. assert (i <=? 0 = false) as -> by lia. rewrite A. auto.
  - intros tenant name i c. unfold schema_by_name. split.
    + destruct (s_sn s tenant name) as [j|] eqn:E1; [|discriminate]. destruct (get_sch s j) as [d|] eqn:E2; [|discriminate].
      intros H. inversion H; subst. destruct (i_sfound _ _ _ _ _ I _ _ _ E1) as [(v & A & B & C & D)|A].
      * assert (v = c) by congruence. subst. repeat (split; auto). intros Q. apply D. apply W; auto.
      * destruct (i_sput _ _ _ _ _ I _ _ _ A) as [Q _]. congruence.
    + intros (A & B & C & D).
      assert (En := i_sname _ _ _ _ _ I _ _ A (fun Q => D (proj2 (W _) Q))). rewrite B, C in En. rewrite En, A. auto.
Qed.

Lemma J_lists s : J s -> lists_exact s.
Proof.
  intros HJ. assert (I := proj1 (j_is _ HJ)). split.
  - intros k sid c Hc. apply (i_list _ _ _ _ _ I); auto.
  - apply (i_sch _ _ _ _ _ I).
Qed.
