(** * Lemmas about the commands of a store *)

From Coq Require Import ZArith List Bool Arith Lia Permutation.
From Verif Require Import JbModel JbSpec.
Import ListNotations.
Local Open Scope Z_scope.

Lemma inb_In x l : inb x l = true <-> In x l.
Proof.
  unfold inb. rewrite existsb_exists. split.
  - intros (y & Hy & E). apply Z.eqb_eq in E. subst y. exact Hy.
  - intros H. exists x. split; [exact H | apply Z.eqb_refl].
Qed.

Lemma diskget_put d id x id' :
  diskget (diskput d id x) id' = if id =? id' then Some x else diskget d id'.
Proof.
  unfold diskget, diskput. cbn [find fst].
  destruct (id =? id') eqn:E; [reflexivity|].
  f_equal. induction d as [|[a b] d IH]; [reflexivity|]. cbn [filter fst find].
  destruct (a =? id) eqn:Ea.
  - apply Z.eqb_eq in Ea. subst a. cbn [negb]. rewrite E. exact IH.
  - cbn [negb find fst]. destruct (a =? id'); [reflexivity | exact IH].
Qed.

Lemma diskput_keys d id x : NoDup (map fst d) -> NoDup (map fst (diskput d id x)).
Proof.
  intros H. unfold diskput. cbn [map fst]. constructor.
  - rewrite in_map_iff. intros ([a b] & E & Hin). apply filter_In in Hin. destruct Hin as [_ Hn].
    cbn [fst] in *. subst a. rewrite Z.eqb_refl in Hn. discriminate.
  - clear - H. induction d as [|[a b] d IH]; [constructor|]. cbn [map fst] in H. inversion H as [|? ? Hn Hd]; subst.
    cbn [filter fst]. destruct (negb (a =? id)).
    + cbn [map fst]. constructor; [|exact (IH Hd)].
      intros Hin. apply Hn. apply in_map_iff in Hin. destruct Hin as (p & Ep & Hp).
      apply filter_In in Hp. apply in_map_iff. exists p. tauto.
    + exact (IH Hd).
Qed.

Lemma diskget_In d id x : diskget d id = Some x -> In (id, x) d.
Proof.
  unfold diskget. destruct (find (fun p => fst p =? id) d) as [[a b]|] eqn:E; [|discriminate].
  cbn [option_map snd]. intros H. apply find_some in E. destruct E as [E1 E2]. cbn [fst] in E2.
  apply Z.eqb_eq in E2. congruence.
Qed.

Lemma diskget_of_In d id x : NoDup (map fst d) -> In (id, x) d -> diskget d id = Some x.
Proof.
  unfold diskget. induction d as [|[a b] d IH]; [intros _ []|]. cbn [map fst]. intros Hn Hin.
  inversion Hn as [|? ? Hn1 Hn2]; subst. cbn [find fst]. destruct Hin as [E | Hin].
  - assert (a = id) by congruence. assert (b = x) by congruence. subst a b. rewrite Z.eqb_refl. reflexivity.
  - destruct (a =? id) eqn:Ea.
    + apply Z.eqb_eq in Ea. subst a. exfalso. apply Hn1. apply in_map_iff. exists (id, x). split; [reflexivity | exact Hin].
    + exact (IH Hn2 Hin).
Qed.

Lemma diskget_key d id : In id (map fst d) <-> diskget d id <> None.
Proof.
  unfold diskget. induction d as [|[a b] d IH]; cbn [map fst find]; [cbn; split; [intros [] | intros H; exact (H eq_refl)]|].
  destruct (a =? id) eqn:E.
  - apply Z.eqb_eq in E. subst a. split; [intros _; discriminate | intros _; left; reflexivity].
  - apply Z.eqb_neq in E. rewrite <- IH. cbn [In]. split; [intros [H|H]; [congruence | exact H] | intros H; right; exact H].
Qed.

Lemma ins_id_perm x l : Permutation (ins_id x l) (x :: l).
Proof.
  induction l as [|y l IH]; cbn [ins_id]; [reflexivity|]. destruct (x <=? y); [reflexivity|].
  rewrite IH. apply perm_swap.
Qed.

Lemma unrun_perm d :
  Permutation (unrun d) (map fst (filter (fun p => match snd p with SNone => true | _ => false end) d)).
Proof.
  unfold unrun. induction (map fst _) as [|x l IH]; [reflexivity|]. cbn [fold_right].
  rewrite ins_id_perm, IH. reflexivity.
Qed.

Lemma unrun_In d id : NoDup (map fst d) -> In id (unrun d) <-> diskget d id = Some SNone.
Proof.
  intros Hn. rewrite (Permutation_in' eq_refl (unrun_perm d)).
  rewrite in_map_iff. split.
  - intros ([a b] & E & Hin). apply filter_In in Hin. destruct Hin as [Hin Hb]. cbn [fst snd] in *. subst a.
    destruct b; try discriminate. exact (diskget_of_In _ _ _ Hn Hin).
  - intros H. exists (id, SNone). split; [reflexivity|]. apply filter_In. split; [exact (diskget_In _ _ _ H) | reflexivity].
Qed.

Lemma unrun_NoDup d : NoDup (map fst d) -> NoDup (unrun d).
Proof.
  intros H. apply (Permutation_NoDup (Permutation_sym (unrun_perm d))).
  induction d as [|[a b] d IH]; [constructor|]. cbn [map fst] in H. inversion H as [|? ? Hn Hd]; subst.
  cbn [filter snd]. destruct b; [|exact (IH Hd)|exact (IH Hd)]. cbn [map fst]. constructor; [|exact (IH Hd)].
  intros Hin. apply Hn. apply in_map_iff in Hin. destruct Hin as (p & Ep & Hp). apply filter_In in Hp.
  apply in_map_iff. exists p. tauto.
Qed.

Lemma remove_nth_split {A} n (l : list A) x :
  nth_error l n = Some x -> exists l1 l2, l = l1 ++ x :: l2 /\ remove_nth n l = l1 ++ l2.
Proof.
  revert l. induction n as [|n IH]; intros [|y l] H; cbn in H; try discriminate.
  - exists [], l. split; [cbn; congruence | reflexivity].
  - destruct (IH l H) as (l1 & l2 & E1 & E2). exists (y :: l1), l2. cbn [remove_nth]. split; cbn; congruence.
Qed.

Lemma remove_nth_In {A} n (l : list A) x y :
  nth_error l n = Some x -> In y l -> y = x \/ In y (remove_nth n l).
Proof.
  intros H Hin. destruct (remove_nth_split n l x H) as (l1 & l2 & -> & ->).
  apply in_app_or in Hin. destruct Hin as [Hin | [Hin | Hin]].
  - right. apply in_or_app. left. exact Hin.
  - left. congruence.
  - right. apply in_or_app. right. exact Hin.
Qed.

Lemma remove_nth_sub {A} n (l : list A) y : In y (remove_nth n l) -> In y l.
Proof.
  revert l. induction n as [|n IH]; intros [|x l] H; cbn in H; try contradiction.
  - right. exact H.
  - destruct H as [H | H]; [left; exact H | right; exact (IH l H)].
Qed.

(** ** Accepted commands are run *)


Record sinv (s : sstate) : Prop := mkSinv {
  si_nd : NoDup (map fst (p_disk s));
  si_apart : forall h1 x1 h2 x2, p_handlers s h1 = Some x1 -> p_handlers s h2 = Some x2 ->
               m_id (hpc_cmd x1) = m_id (hpc_cmd x2) -> h1 = h2;
  si_down : p_up s = false -> (forall h, p_handlers s h = None) /\ p_queue s = [] /\ p_running s = [];
  si_dm : p_up s = true -> forall id, In id (map fst (p_disk s)) -> In id (p_mem s);
  si_md : p_up s = true -> forall id, In id (p_mem s) ->
            In id (map fst (p_disk s)) \/ exists h c, p_handlers s h = Some (HMem c) /\ m_id c = id;
  si_chk : forall h c, p_handlers s h = Some (HChecked c) -> m_retry c = false -> ~ In (m_id c) (p_mem s);
  si_hmem : forall h c, p_handlers s h = Some (HMem c) -> ~ In (m_id c) (map fst (p_disk s)) /\ In (m_id c) (p_mem s);
  si_hd : forall h c, p_handlers s h = Some (HDisk c) -> In (m_id c) (map fst (p_disk s));
  si_hdf : forall h c, p_handlers s h = Some (HDisk c) -> m_retry c = false ->
             diskget (p_disk s) (m_id c) = Some SNone /\ ~ In (m_id c) (p_runs s) /\ ~ queued s (m_id c);
  si_st : forall h x, p_handlers s h = Some x -> m_retry (hpc_cmd x) = false -> m_status (hpc_cmd x) = SNone;
  si_q : forall c, In c (p_queue s) -> In (m_id c) (map fst (p_disk s));
  si_run : forall id, In id (p_runs s) -> In id (map fst (p_disk s));
  si_rr : forall c, In c (p_running s) -> In (m_id c) (p_runs s);
  si_ok : forall id, In (id, false) (p_oks s) ->
            In id (p_runs s) \/ (diskget (p_disk s) id = Some SNone /\ (p_up s = true -> queued s id))
}.

Lemma diskput_key d id x id' : In id' (map fst (diskput d id x)) <-> id' = id \/ In id' (map fst d).
Proof.
  rewrite !diskget_key, diskget_put. destruct (id =? id') eqn:E.
  - apply Z.eqb_eq in E. split; [intros _; left; symmetry; exact E | intros _; discriminate].
  - apply Z.eqb_neq in E. split; [intros H; right; exact H | intros [H | H]; [congruence | exact H]].
Qed.

Lemma sinv_init : sinv p_init.
Proof.
  constructor; cbn; try (intros; contradiction); try (intros; discriminate). constructor.
Qed.

Lemma set_handler_eq f h x h' y :
  set_handler f h x h' = Some y -> (h' = h /\ x = Some y) \/ (h' <> h /\ f h' = Some y).
Proof.
  unfold set_handler. destruct (Nat.eqb h' h) eqn:E.
  - apply Nat.eqb_eq in E. intros H. left. split; assumption.
  - apply Nat.eqb_neq in E. intros H. right. split; assumption.
Qed.

Lemma set_handler_other f h x h' : h' <> h -> set_handler f h x h' = f h'.
Proof. intros H. unfold set_handler. apply Nat.eqb_neq in H. rewrite H. reflexivity. Qed.

Ltac hsplit H := apply set_handler_eq in H;
  let E1 := fresh "E" in let E2 := fresh "E" in destruct H as [[E1 E2] | [E1 H]].

Lemma sinv_step s e s' a : sinv s -> calm s e -> sstep s e = Some (s', a) -> sinv s'.
Proof.
  intros I C H. destruct I as [Ind Iap Idn Idm Imd Ichk Ihm Ihd Ihdf Ist Iq Irun Irr Iok].
  destruct e as [h c|h|h|h ok|n|n ok| |ok]; cbn in H.
  - (* push *)
    destruct (p_up s) eqn:Eu; [cbn in H|discriminate].
    destruct (p_handlers s h) as [y|] eqn:Eh; [discriminate|].
    destruct C as [C1 C2].
    destruct (negb (m_retry c) && inb (m_id c) (p_mem s)) eqn:Er.
    { assert (s' = s) by congruence. subst s'. constructor; try assumption; try (rewrite Eu; assumption). }
    assert (Es : s' = mkSstate true (p_mem s) (p_disk s) (set_handler (p_handlers s) h (Some (HChecked c)))
                               (p_queue s) (p_running s) (p_runs s) (p_oks s)) by congruence.
    clear H. subst s'. constructor; cbn; try assumption.
    + intros h1 x1 h2 x2 H1 H2 E. hsplit H1; hsplit H2; [congruence | | |exact (Iap _ _ _ _ H1 H2 E)].
      * assert (x1 = HChecked c) by congruence. subst x1. cbn in E. exfalso. exact (C1 _ _ H2 (eq_sym E)).
      * assert (x2 = HChecked c) by congruence. subst x2. cbn in E. exfalso. exact (C1 _ _ H1 E).
    + discriminate.
    + intros _ id Hin. destruct (Imd eq_refl id Hin) as [Hd | (h' & c' & Hc & Ec)]; [left; exact Hd | right].
      exists h', c'. split; [|exact Ec]. rewrite set_handler_other; [exact Hc | congruence].
    + intros h' c' Hin Hr. hsplit Hin; [|exact (Ichk _ _ Hin Hr)].
      assert (c' = c) by congruence. subst c'. rewrite Hr in Er. cbn in Er. intros Hm. apply inb_In in Hm. congruence.
    + intros h' c' Hin. hsplit Hin; [discriminate|]. exact (Ihm _ _ Hin).
    + intros h' c' Hin. hsplit Hin; [discriminate|]. exact (Ihd _ _ Hin).
    + intros h' c' Hin Hr. hsplit Hin; [discriminate|]. exact (Ihdf _ _ Hin Hr).
    + intros h' x Hin Hr. hsplit Hin; [|exact (Ist _ _ Hin Hr)].
      assert (x = HChecked c) by congruence. subst x. exact (C2 Hr).
  - (* mem *)
    destruct (p_up s) eqn:Eu; [cbn in H|discriminate].
    destruct (p_handlers s h) as [[c|c|c]|] eqn:Eh; try discriminate.
    destruct (inb (m_id c) (p_mem s)) eqn:Em.
    + assert (Es : s' = mkSstate true (p_mem s) (p_disk s) (set_handler (p_handlers s) h (Some (HDisk c)))
                                 (p_queue s) (p_running s) (p_runs s) (p_oks s)) by congruence.
      clear H. subst s'. apply inb_In in Em.
      assert (Hret : m_retry c = true).
      { destruct (m_retry c) eqn:Er; [reflexivity|]. exfalso. exact (Ichk _ _ Eh Er Em). }
      assert (Hdisk : In (m_id c) (map fst (p_disk s))).
      { destruct (Imd eq_refl _ Em) as [Hd | (h' & c' & Hc & Ec)]; [exact Hd|].
        assert (h' = h) by (apply (Iap _ _ _ _ Hc Eh); cbn; exact Ec). congruence. }
      constructor; cbn; try assumption.
      * intros h1 x1 h2 x2 H1 H2 E. hsplit H1; hsplit H2; [congruence | | |exact (Iap _ _ _ _ H1 H2 E)].
        -- assert (x1 = HDisk c) by congruence. subst x1. cbn in E. pose proof (Iap _ _ _ _ Eh H2 E). congruence.
        -- assert (x2 = HDisk c) by congruence. subst x2. cbn in E. pose proof (Iap _ _ _ _ H1 Eh E). congruence.
      * discriminate.
      * intros _ id Hin. destruct (Imd eq_refl id Hin) as [Hd | (h' & c' & Hc & Ec)]; [left; exact Hd | right].
        exists h', c'. split; [|exact Ec]. rewrite set_handler_other; [exact Hc | congruence].
      * intros h' c' Hin Hr. hsplit Hin; [discriminate|]. exact (Ichk _ _ Hin Hr).
      * intros h' c' Hin. hsplit Hin; [discriminate|]. exact (Ihm _ _ Hin).
      * intros h' c' Hin. hsplit Hin; [|exact (Ihd _ _ Hin)]. assert (c' = c) by congruence. subst c'. exact Hdisk.
      * intros h' c' Hin Hr. hsplit Hin; [congruence|]. exact (Ihdf _ _ Hin Hr).
      * intros h' x Hin Hr. hsplit Hin; [|exact (Ist _ _ Hin Hr)].
        assert (x = HDisk c) by congruence. subst x. cbn in Hr. congruence.
    + assert (Es : s' = mkSstate true (m_id c :: p_mem s) (p_disk s) (set_handler (p_handlers s) h (Some (HMem c)))
                                 (p_queue s) (p_running s) (p_runs s) (p_oks s)) by congruence.
      clear H. subst s'. 
      assert (Hnm : ~ In (m_id c) (p_mem s)) by (intros Hm; apply inb_In in Hm; congruence).
      constructor; cbn; try assumption.
      * intros h1 x1 h2 x2 H1 H2 E. hsplit H1; hsplit H2; [congruence | | |exact (Iap _ _ _ _ H1 H2 E)].
        -- assert (x1 = HMem c) by congruence. subst x1. cbn in E. pose proof (Iap _ _ _ _ Eh H2 E). congruence.
        -- assert (x2 = HMem c) by congruence. subst x2. cbn in E. pose proof (Iap _ _ _ _ H1 Eh E). congruence.
      * discriminate.
      * intros _ id Hin. right. exact (Idm eq_refl id Hin).
      * intros _ id [Hin | Hin].
        -- right. exists h, c. unfold set_handler. rewrite Nat.eqb_refl. split; [reflexivity | exact Hin].
        -- destruct (Imd eq_refl id Hin) as [Hd | (h' & c' & Hc & Ec)]; [left; exact Hd | right].
           exists h', c'. split; [|exact Ec]. rewrite set_handler_other; [exact Hc | congruence].
      * intros h' c' Hin Hr. hsplit Hin; [discriminate|]. intros [Hm | Hm]; [|exact (Ichk _ _ Hin Hr Hm)].
        pose proof (Iap _ _ _ _ Eh Hin Hm). congruence.
      * intros h' c' Hin. hsplit Hin.
        -- assert (c' = c) by congruence. subst c'. split; [intros Hd; exact (Hnm (Idm eq_refl _ Hd)) | left; reflexivity].
        -- destruct (Ihm _ _ Hin) as [Ha Hb]. split; [exact Ha | right; exact Hb].
      * intros h' c' Hin. hsplit Hin; [discriminate|]. exact (Ihd _ _ Hin).
      * intros h' c' Hin Hr. hsplit Hin; [discriminate|]. exact (Ihdf _ _ Hin Hr).
      * intros h' x Hin Hr. hsplit Hin; [|exact (Ist _ _ Hin Hr)].
        assert (x = HMem c) by congruence. subst x. exact (Ist _ _ Eh Hr).
  - (* disk *)
    destruct (p_up s) eqn:Eu; [cbn in H|discriminate].
    destruct (p_handlers s h) as [[c|c|c]|] eqn:Eh; try discriminate.
    assert (Es : s' = mkSstate true (p_mem s) (diskput (p_disk s) (m_id c) (m_status c))
                               (set_handler (p_handlers s) h (Some (HDisk c)))
                               (p_queue s) (p_running s) (p_runs s) (p_oks s)) by congruence.
    clear H. subst s'. destruct (Ihm _ _ Eh) as [Hnd Hmm].
    assert (Hother : forall id, In id (map fst (p_disk s)) -> (m_id c =? id) = false).
    { intros id Hin. apply Z.eqb_neq. congruence. }
    constructor; cbn -[diskput]; try assumption.
    + apply diskput_keys. exact Ind.
    + intros h1 x1 h2 x2 H1 H2 E. hsplit H1; hsplit H2; [congruence | | |exact (Iap _ _ _ _ H1 H2 E)].
      * assert (x1 = HDisk c) by congruence. subst x1. cbn in E. pose proof (Iap _ _ _ _ Eh H2 E). congruence.
      * assert (x2 = HDisk c) by congruence. subst x2. cbn in E. pose proof (Iap _ _ _ _ H1 Eh E). congruence.
    + discriminate.
    + intros _ id Hin. apply diskput_key in Hin. destruct Hin as [-> | Hin]; [|exact (Idm eq_refl id Hin)].
      exact Hmm.
    + intros _ id Hin. rewrite diskput_key. destruct (Imd eq_refl id Hin) as [Hd | (h' & c' & Hc & Ec)]; [left; right; exact Hd|].
      destruct (Nat.eq_dec h' h) as [Ehh|Ehh].
      * left. left. subst h'. congruence.
      * right. exists h', c'. split; [|exact Ec]. rewrite set_handler_other; [exact Hc | exact Ehh].
    + intros h' c' Hin Hr. hsplit Hin; [discriminate|]. exact (Ichk _ _ Hin Hr).
    + intros h' c' Hin. hsplit Hin; [discriminate|]. split; [|exact (proj2 (Ihm _ _ Hin))].
      rewrite diskput_key. intros [E9 | Hd]; [|exact (proj1 (Ihm _ _ Hin) Hd)].
      pose proof (Iap _ _ _ _ Hin Eh E9). congruence.
    + intros h' c' Hin. rewrite diskput_key. hsplit Hin; [left; congruence | right; exact (Ihd _ _ Hin)].
    + intros h' c' Hin Hr. rewrite diskget_put. hsplit Hin.
      * assert (c' = c) by congruence. subst c'. rewrite Z.eqb_refl.
        split; [f_equal; exact (Ist _ _ Eh Hr)|]. split; [intros Hx; exact (Hnd (Irun _ Hx))|].
        intros (c2 & Hc2 & Ec2). apply Hnd. rewrite <- Ec2. exact (Iq _ Hc2).
      * rewrite (Hother _ (Ihd _ _ Hin)). exact (Ihdf _ _ Hin Hr).
    + intros h' x Hin Hr. hsplit Hin; [|exact (Ist _ _ Hin Hr)].
      assert (x = HDisk c) by congruence. subst x. exact (Ist _ _ Eh Hr).
    + intros c' Hin. apply diskput_key. right. exact (Iq _ Hin).
    + intros id Hin. apply diskput_key. right. exact (Irun _ Hin).
    + intros id Hin. destruct (Iok id Hin) as [Hr | [Hd Hq]]; [left; exact Hr | right].
      split; [|exact Hq]. rewrite diskget_put. rewrite (Hother id); [exact Hd|]. apply diskget_key. congruence.
  - (* dispatch *)
    destruct (p_up s) eqn:Eu; [cbn in H|discriminate].
    destruct (p_handlers s h) as [[c|c|c]|] eqn:Eh; try discriminate.
    assert (Hsub : forall h' x, set_handler (p_handlers s) h None h' = Some x -> h' <> h /\ p_handlers s h' = Some x).
    { intros h' x Hx. hsplit Hx; [discriminate | split; assumption]. }
    assert (Hmd : forall id, In id (p_mem s) -> In id (map fst (p_disk s))
                    \/ exists h0 c0, set_handler (p_handlers s) h None h0 = Some (HMem c0) /\ m_id c0 = id).
    { intros id Hin. destruct (Imd eq_refl id Hin) as [Hd | (h' & c' & Hc & Ec)]; [left; exact Hd | right].
      exists h', c'. split; [|exact Ec]. rewrite set_handler_other; [exact Hc | congruence]. }
    destruct ok.
    + assert (Es : s' = mkSstate true (p_mem s) (p_disk s) (set_handler (p_handlers s) h None)
                                 (p_queue s ++ [c]) (p_running s) (p_runs s) ((m_id c, m_retry c) :: p_oks s)) by congruence.
      clear H. subst s'. constructor; cbn; try assumption.
      * intros h1 x1 h2 x2 H1 H2 E. apply Hsub in H1. apply Hsub in H2. exact (Iap _ _ _ _ (proj2 H1) (proj2 H2) E).
      * discriminate.
      * intros _. exact Hmd.
      * intros h' c' Hin. apply Hsub in Hin. exact (Ichk _ _ (proj2 Hin)).
      * intros h' c' Hin. apply Hsub in Hin. exact (Ihm _ _ (proj2 Hin)).
      * intros h' c' Hin. apply Hsub in Hin. exact (Ihd _ _ (proj2 Hin)).
      * intros h' c' Hin Hr. apply Hsub in Hin. destruct Hin as [Hne Hin].
        destruct (Ihdf _ _ Hin Hr) as (Ha & Hb & Hc). split; [exact Ha|]. split; [exact Hb|].
        intros (c2 & Hc2 & Ec2). cbn in Hc2. apply in_app_or in Hc2. destruct Hc2 as [Hc2 | [Hc2 | []]].
        -- apply Hc. exists c2. split; assumption.
        -- subst c2. pose proof (Iap _ _ _ _ Eh Hin Ec2). congruence.
      * intros h' x Hin. apply Hsub in Hin. exact (Ist _ _ (proj2 Hin)).
      * intros c' Hin. apply in_app_or in Hin. destruct Hin as [Hin | [<- | []]]; [exact (Iq _ Hin) | exact (Ihd _ _ Eh)].
      * intros id [E | Hin].
        -- assert (id = m_id c) by congruence. assert (m_retry c = false) by congruence. subst id.
           right. split; [exact (proj1 (Ihdf _ _ Eh H0))|]. intros _. exists c. split; [|reflexivity].
           cbn. apply in_or_app. right. left. reflexivity.
        -- destruct (Iok id Hin) as [Hr | [Hd Hq]]; [left; exact Hr | right]. split; [exact Hd|].
           intros _. destruct (Hq eq_refl) as (c2 & Hc2 & Ec2). exists c2. split; [|exact Ec2]. cbn. apply in_or_app. left. exact Hc2.
    + assert (Es : s' = mkSstate true (p_mem s) (p_disk s) (set_handler (p_handlers s) h None)
                                 (p_queue s) (p_running s) (p_runs s) (p_oks s)) by congruence.
      clear H. subst s'. constructor; cbn; try assumption.
      * intros h1 x1 h2 x2 H1 H2 E. apply Hsub in H1. apply Hsub in H2. exact (Iap _ _ _ _ (proj2 H1) (proj2 H2) E).
      * discriminate.
      * intros _. exact Hmd.
      * intros h' c' Hin. apply Hsub in Hin. exact (Ichk _ _ (proj2 Hin)).
      * intros h' c' Hin. apply Hsub in Hin. exact (Ihm _ _ (proj2 Hin)).
      * intros h' c' Hin. apply Hsub in Hin. exact (Ihd _ _ (proj2 Hin)).
      * intros h' c' Hin. apply Hsub in Hin. exact (Ihdf _ _ (proj2 Hin)).
      * intros h' x Hin. apply Hsub in Hin. exact (Ist _ _ (proj2 Hin)).
  - (* run *)
    destruct (p_up s) eqn:Eu; [cbn in H|discriminate].
    destruct (nth_error (p_queue s) n) as [c|] eqn:En; [|discriminate].
    assert (Es : s' = mkSstate true (p_mem s) (p_disk s) (p_handlers s) (remove_nth n (p_queue s))
                               (p_running s ++ [c]) (m_id c :: p_runs s) (p_oks s)) by congruence.
    clear H. subst s'. pose proof (nth_error_In _ _ En) as Hcq.
    constructor; cbn; try assumption.
    + discriminate.
    + intros h' c' Hin Hr. destruct (Ihdf _ _ Hin Hr) as (Ha & Hb & Hc). split; [exact Ha|]. split.
      * intros [E | Hx]; [|exact (Hb Hx)]. apply Hc. exists c. split; assumption.
      * intros (c2 & Hc2 & Ec2). apply Hc. exists c2. split; [exact (remove_nth_sub _ _ _ Hc2) | exact Ec2].
    + intros c' Hin. exact (Iq _ (remove_nth_sub _ _ _ Hin)).
    + intros id [<- | Hin]; [exact (Iq _ Hcq) | exact (Irun _ Hin)].
    + intros c' Hin. apply in_app_or in Hin. destruct Hin as [Hin | [<- | []]]; [right; exact (Irr _ Hin) | left; reflexivity].
    + intros id Hin. destruct (Iok id Hin) as [Hr | [Hd Hq]]; [left; right; exact Hr|].
      destruct (Z.eq_dec (m_id c) id) as [E|E]; [left; left; exact E | right]. split; [exact Hd|].
      intros _. destruct (Hq eq_refl) as (c2 & Hc2 & Ec2). exists c2. split; [|exact Ec2]. cbn.
      destruct (remove_nth_In _ _ _ _ En Hc2) as [-> | Hx]; [congruence | exact Hx].
  - (* store *)
    destruct (p_up s) eqn:Eu; [cbn in H|discriminate].
    destruct (nth_error (p_running s) n) as [c|] eqn:En; [|discriminate].
    assert (Es : s' = mkSstate true (p_mem s) (diskput (p_disk s) (m_id c) (if ok then SDone else SFail))
                               (p_handlers s) (p_queue s) (remove_nth n (p_running s)) (p_runs s) (p_oks s)) by congruence.
    clear H. subst s'. pose proof (Irr _ (nth_error_In _ _ En)) as Hcr. pose proof (Irun _ Hcr) as Hcd.
    constructor; cbn -[diskput]; try assumption.
    + apply diskput_keys. exact Ind.
    + discriminate.
    + intros _ id Hin. apply diskput_key in Hin. destruct Hin as [-> | Hin]; [exact (Idm eq_refl _ Hcd) | exact (Idm eq_refl _ Hin)].
    + intros _ id Hin. rewrite diskput_key. destruct (Imd eq_refl id Hin) as [Hd | Hd]; [left; right; exact Hd | right; exact Hd].
    + intros h' c' Hin. split; [|exact (proj2 (Ihm _ _ Hin))].
      rewrite diskput_key. intros [E9 | Hd]; [|exact (proj1 (Ihm _ _ Hin) Hd)].
      apply (proj1 (Ihm _ _ Hin)). rewrite E9. exact Hcd.
    + intros h' c' Hin. rewrite diskput_key. right. exact (Ihd _ _ Hin).
    + intros h' c' Hin Hr. destruct (Ihdf _ _ Hin Hr) as (Ha & Hb & Hc). rewrite diskget_put.
      destruct (m_id c =? m_id c') eqn:E9; [apply Z.eqb_eq in E9; exfalso; apply Hb; rewrite <- E9; exact Hcr|].
      split; [exact Ha|]. split; [exact Hb | exact Hc].
    + intros c' Hin. apply diskput_key. right. exact (Iq _ Hin).
    + intros id Hin. apply diskput_key. right. exact (Irun _ Hin).
    + intros c' Hin. exact (Irr _ (remove_nth_sub _ _ _ Hin)).
    + intros id Hin. destruct (Iok id Hin) as [Hr | [Hd Hq]]; [left; exact Hr|].
      destruct (Z.eq_dec (m_id c) id) as [E|E]; [left; rewrite <- E; exact Hcr | right]. split; [|exact Hq].
      rewrite diskget_put. apply Z.eqb_neq in E. rewrite E. exact Hd.
  - (* crash *)
    assert (Es : s' = mkSstate false [] (p_disk s) (fun _ => None) [] [] (p_runs s) (p_oks s)) by congruence.
    clear H. subst s'. constructor; cbn; try (intros; discriminate); try (intros; contradiction); try assumption.
    + intros _. split; [reflexivity | split; reflexivity].
    + intros id Hin. destruct (Iok id Hin) as [Hr | [Hd Hq]]; [left; exact Hr | right]. split; [exact Hd | discriminate].
  - (* start *)
    destruct (p_up s) eqn:Eu; [discriminate|]. cbn in C.
    assert (Es : s' = mkSstate true (map fst (p_disk s)) (p_disk s) (fun _ => None)
                               (map (fun id => mkScmd id false SNone) (filter ok (unrun (p_disk s))))
                               [] (p_runs s) (p_oks s)) by congruence.
    clear H. subst s'. constructor; cbn; try (intros; discriminate); try (intros; contradiction); try assumption.
    + intros _ id Hin. exact Hin.
    + intros _ id Hin. left. exact Hin.
    + intros c Hin. apply in_map_iff in Hin. destruct Hin as (id & <- & Hin). cbn. apply filter_In in Hin.
      apply diskget_key. destruct Hin as [Hin _]. apply (unrun_In _ _ Ind) in Hin. congruence.
    + intros id Hin. destruct (Iok id Hin) as [Hr | [Hd Hq]]; [left; exact Hr | right]. split; [exact Hd|].
      intros _. exists (mkScmd id false SNone). split; [|reflexivity]. cbn. apply in_map_iff. exists id.
      split; [reflexivity|]. apply filter_In. split; [apply (unrun_In _ _ Ind); exact Hd | apply C].
Qed.

Lemma sinv_reach (P : sstate -> sevent -> Prop) s : (forall s e, P s e -> calm s e) -> sreach P s -> sinv s.
Proof.
  intros HP H. induction H as [|s e s' a Hr IH Hp Hs]; [exact sinv_init|].
  exact (sinv_step _ _ _ _ IH (HP _ _ Hp) Hs).
Qed.

Lemma accepted_run s id :
  sreach calm s -> In (id, false) (p_oks s) ->
  In id (p_runs s) \/ (diskget (p_disk s) id = Some SNone /\ (p_up s = true -> queued s id)).
Proof. intros H. exact (si_ok _ (sinv_reach calm s (fun _ _ x => x) H) id). Qed.

(** ** At most once *)

Record qinv (s : sstate) : Prop := mkQinv {
  qi_nr : forall h x, p_handlers s h = Some x -> m_retry (hpc_cmd x) = false;
  qi_runs : NoDup (p_runs s);
  qi_queue : NoDup (map m_id (p_queue s));
  qi_disj : forall c, In c (p_queue s) -> ~ In (m_id c) (p_runs s);
  qi_un : forall id, diskget (p_disk s) id = Some SNone -> In id (p_runs s) ->
            exists c, In c (p_running s) /\ m_id c = id
}.

Lemma qinv_init : qinv p_init.
Proof. constructor; cbn; try (intros; discriminate); try (intros; contradiction); constructor. Qed.

Lemma NoDup_snoc {A} (l : list A) x : NoDup l -> ~ In x l -> NoDup (l ++ [x]).
Proof.
  intros H Hn. apply (Permutation_NoDup (l := x :: l)); [|constructor; assumption].
  apply Permutation_cons_append.
Qed.

Lemma qinv_step s e s' a : sinv s -> qinv s -> quiet s e -> sstep s e = Some (s', a) -> qinv s'.
Proof.
  intros I Q [_ C] H. destruct Q as [Qnr Qr Qq Qd Qu].
  destruct e as [h c|h|h|h ok|n|n ok| |ok]; cbn in H.
  - destruct (p_up s) eqn:Eu; [cbn in H|discriminate].
    destruct (p_handlers s h) as [y|] eqn:Eh; [discriminate|].
    destruct (negb (m_retry c) && inb (m_id c) (p_mem s)) eqn:Er.
    { assert (s' = s) by congruence. subst s'. constructor; assumption. }
    assert (Es : s' = mkSstate true (p_mem s) (p_disk s) (set_handler (p_handlers s) h (Some (HChecked c)))
                               (p_queue s) (p_running s) (p_runs s) (p_oks s)) by congruence.
    clear H. subst s'. constructor; cbn; try assumption.
    intros h' x Hin. hsplit Hin; [|exact (Qnr _ _ Hin)]. assert (x = HChecked c) by congruence. subst x. exact C.
  - destruct (p_up s) eqn:Eu; [cbn in H|discriminate].
    destruct (p_handlers s h) as [[c|c|c]|] eqn:Eh; try discriminate.
    pose proof (Qnr _ _ Eh) as Hc. cbn in Hc.
    destruct (inb (m_id c) (p_mem s)) eqn:Em.
    + exfalso. apply inb_In in Em. exact (si_chk _ I _ _ Eh Hc Em).
    + assert (Es : s' = mkSstate true (m_id c :: p_mem s) (p_disk s) (set_handler (p_handlers s) h (Some (HMem c)))
                                 (p_queue s) (p_running s) (p_runs s) (p_oks s)) by congruence.
      clear H. subst s'. constructor; cbn; try assumption.
      intros h' x Hin. hsplit Hin; [|exact (Qnr _ _ Hin)]. assert (x = HMem c) by congruence. subst x. exact Hc.
  - destruct (p_up s) eqn:Eu; [cbn in H|discriminate].
    destruct (p_handlers s h) as [[c|c|c]|] eqn:Eh; try discriminate.
    pose proof (Qnr _ _ Eh) as Hc. cbn in Hc.
    assert (Es : s' = mkSstate true (p_mem s) (diskput (p_disk s) (m_id c) (m_status c))
                               (set_handler (p_handlers s) h (Some (HDisk c)))
                               (p_queue s) (p_running s) (p_runs s) (p_oks s)) by congruence.
    clear H. subst s'. constructor; cbn -[diskput]; try assumption.
    + intros h' x Hin. hsplit Hin; [|exact (Qnr _ _ Hin)]. assert (x = HDisk c) by congruence. subst x. exact Hc.
    + intros id Hd Hr. rewrite diskget_put in Hd. destruct (m_id c =? id) eqn:E; [|exact (Qu _ Hd Hr)].
      apply Z.eqb_eq in E. exfalso. apply (proj1 (si_hmem _ I _ _ Eh)). rewrite E. exact (si_run _ I _ Hr).
  - destruct (p_up s) eqn:Eu; [cbn in H|discriminate].
    destruct (p_handlers s h) as [[c|c|c]|] eqn:Eh; try discriminate.
    pose proof (Qnr _ _ Eh) as Hc. cbn in Hc.
    destruct (si_hdf _ I _ _ Eh Hc) as (Ha & Hb & Hq).
    assert (Hsub : forall h' x, set_handler (p_handlers s) h None h' = Some x -> m_retry (hpc_cmd x) = false).
    { intros h' x Hx. hsplit Hx; [discriminate | exact (Qnr _ _ Hx)]. }
    destruct ok.
    + assert (Es : s' = mkSstate true (p_mem s) (p_disk s) (set_handler (p_handlers s) h None)
                                 (p_queue s ++ [c]) (p_running s) (p_runs s) ((m_id c, m_retry c) :: p_oks s)) by congruence.
      clear H. subst s'. constructor; cbn; try assumption.
      * rewrite map_app. cbn [map]. apply NoDup_snoc; [exact Qq|]. intros Hin. apply Hq.
        apply in_map_iff in Hin. destruct Hin as (c2 & E2 & H2). exists c2. split; assumption.
      * intros c' Hin. apply in_app_or in Hin. destruct Hin as [Hin | [<- | []]]; [exact (Qd _ Hin) | exact Hb].
    + assert (Es : s' = mkSstate true (p_mem s) (p_disk s) (set_handler (p_handlers s) h None)
                                 (p_queue s) (p_running s) (p_runs s) (p_oks s)) by congruence.
      clear H. subst s'. constructor; cbn; assumption.
  - destruct (p_up s) eqn:Eu; [cbn in H|discriminate].
    destruct (nth_error (p_queue s) n) as [c|] eqn:En; [|discriminate].
    assert (Es : s' = mkSstate true (p_mem s) (p_disk s) (p_handlers s) (remove_nth n (p_queue s))
                               (p_running s ++ [c]) (m_id c :: p_runs s) (p_oks s)) by congruence.
    clear H. subst s'. pose proof (nth_error_In _ _ En) as Hcq.
    destruct (remove_nth_split _ _ _ En) as (l1 & l2 & E1 & E2).
    rewrite E1, map_app in Qq. cbn [map] in Qq.
    constructor; cbn; try assumption.
    + constructor; [exact (Qd _ Hcq) | exact Qr].
    + rewrite E2, map_app. exact (NoDup_remove_1 _ _ _ Qq).
    + intros c' Hin. rewrite E2 in Hin. intros [E | Hx].
      * apply (NoDup_remove_2 _ _ _ Qq). rewrite E, <- map_app. apply in_map. exact Hin.
      * apply (Qd c'); [|exact Hx]. rewrite E1. apply in_app_or in Hin. apply in_or_app.
        destruct Hin as [Hin | Hin]; [left; exact Hin | right; right; exact Hin].
    + intros id Hd [E | Hr].
      * exists c. split; [apply in_or_app; right; left; reflexivity | exact E].
      * destruct (Qu _ Hd Hr) as (c2 & H2 & E3). exists c2. split; [apply in_or_app; left; exact H2 | exact E3].
  - destruct (p_up s) eqn:Eu; [cbn in H|discriminate].
    destruct (nth_error (p_running s) n) as [c|] eqn:En; [|discriminate].
    assert (Es : s' = mkSstate true (p_mem s) (diskput (p_disk s) (m_id c) (if ok then SDone else SFail))
                               (p_handlers s) (p_queue s) (remove_nth n (p_running s)) (p_runs s) (p_oks s)) by congruence.
    clear H. subst s'. constructor; cbn -[diskput]; try assumption.
    intros id Hd Hr. rewrite diskget_put in Hd. destruct (m_id c =? id) eqn:E; [destruct ok; discriminate|].
    destruct (Qu _ Hd Hr) as (c2 & H2 & E3). exists c2. split; [|exact E3].
    destruct (remove_nth_In _ _ _ _ En H2) as [-> | Hx]; [|exact Hx]. apply Z.eqb_neq in E. congruence.
  - assert (Es : s' = mkSstate false [] (p_disk s) (fun _ => None) [] [] (p_runs s) (p_oks s)) by congruence.
    clear H. subst s'. constructor; cbn; try (intros; discriminate); try (intros; contradiction); try assumption.
    + constructor.
    + intros id Hd Hr. destruct (Qu _ Hd Hr) as (c2 & H2 & _). rewrite C in H2. destruct H2.
  - destruct (p_up s) eqn:Eu; [discriminate|].
    assert (Es : s' = mkSstate true (map fst (p_disk s)) (p_disk s) (fun _ => None)
                               (map (fun id => mkScmd id false SNone) (filter ok (unrun (p_disk s))))
                               [] (p_runs s) (p_oks s)) by congruence.
    clear H. subst s'. destruct (si_down _ I Eu) as (_ & _ & Ern).
    constructor; cbn; try (intros; discriminate); try assumption.
    + rewrite map_map. cbn [m_id]. rewrite map_id. apply NoDup_filter. exact (unrun_NoDup _ (si_nd _ I)).
    + intros c Hin Hr. apply in_map_iff in Hin. destruct Hin as (id & <- & Hin). cbn in Hr. apply filter_In in Hin.
      destruct Hin as [Hin _]. apply (unrun_In _ _ (si_nd _ I)) in Hin.
      destruct (Qu _ Hin Hr) as (c2 & H2 & _). rewrite Ern in H2. destruct H2.
    + intros id Hd Hr. destruct (Qu _ Hd Hr) as (c2 & H2 & _). rewrite Ern in H2. destruct H2.
Qed.

Lemma runs_once s id : sreach quiet s -> (runs s id <= 1)%nat.
Proof.
  intros H. assert (Hq : sinv s /\ qinv s).
  { induction H as [|s e s' a Hr IH Hp Hs]; [split; [exact sinv_init | exact qinv_init]|].
    destruct IH as [I Q]. split; [exact (sinv_step _ _ _ _ I (proj1 Hp) Hs) | exact (qinv_step _ _ _ _ I Q Hp Hs)]. }
  unfold runs. apply (proj1 (NoDup_count_occ Z.eq_dec (p_runs s))). exact (qi_runs _ (proj2 Hq)).
Qed.
