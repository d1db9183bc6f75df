(** Leader plans: soundness, loads, progress. *)
From Coq Require Import ZArith List Bool Lia Permutation.
From Verif Require Import BalModel BalSpec BalProofs1.
Import ListNotations.
Local Open Scope Z_scope.
#[local] Arguments Nat.max : simpl never.
#[local] Arguments Nat.leb : simpl never.

Section Sound.
  Variables (views : nat -> view) (rs : list region) (ss : list store).
  Notation es := (gen_entries rs ss).

  Lemma ent_with_inv pre s a : ent (with_tasks es pre) s = Some a ->
    exists e, In e es /\ n_id e = s /\ a = with_delta e (delta pre s).
  Proof.
    rewrite ent_with. destruct (ent es s) as [e|] eqn:E; [|discriminate]. intros H.
    apply ent_id in E. exists e. cbn in H. split; [apply E|]. split; [apply E | congruence].
  Qed.

  Lemma entry_up e : In e es -> store_up ss (n_id e).
  Proof.
    intros He. apply gen_entries_ok in He. destruct He as (_ & _ & _ & (st & G & En & _) & H0 & _).
    split; [exact H0|]. unfold get_store in G. apply find_some in G. destruct G as [G E].
    apply Z.eqb_eq in E. exists st. auto.
  Qed.

  Lemma step_sound pre t : map_ok rs -> step_ok views es pre t ->
    leads rs (t_src t) (t_region t) /\ t_src t <> t_dst t /\
    store_up ss (t_src t) /\ store_up ss (t_dst t) /\
    (exists n, healthy_in (views n) (t_region t) /\
       ((fits_in (views n) (t_dst t) (t_region t) /\ votes_in (views n) (t_dst t) (t_region t)) \/
        (~ fits_in (views n) (t_dst t) (t_region t) /\ follows rs (t_dst t) (t_region t)))).
  Proof.
    intros Ok (n & a & b & Ea & Eb & La & Nu & He & Nz & Sc & Why).
    apply ent_with_inv in Ea. destruct Ea as (ea & Hea & Ida & ->).
    apply ent_with_inv in Eb. destruct Eb as (eb & Heb & Idb & ->).
    pose proof (gen_entries_ok _ _ _ Hea) as (LA & _). pose proof (gen_entries_ok _ _ _ Heb) as (_ & FB & _).
    cbn [n_lead n_foll with_delta] in *. rewrite LA, Ida in La. apply leaders_of_In in La.
    destruct La as [La _].
    assert (U1 := entry_up _ Hea). assert (U2 := entry_up _ Heb). rewrite Ida in U1. rewrite Idb in U2.
    split; [exact La|]. destruct Why as [[Ne [W1 W2]] | [W1 [W2 W3]]].
    - split; [exact Ne|]. split; [exact U1|]. split; [exact U2|]. exists n. split; [exact He|]. left. auto.
    - cbn [n_foll] in W3. rewrite FB, Idb in W3. apply followers_of_In in W3.
      split; [exact (leads_not_follows _ _ _ _ Ok La W3)|]. split; [exact U1|]. split; [exact U2|].
      exists n. split; [exact He|]. right. auto.
  Qed.

  Lemma tasks_ok_prefix ts t : tasks_ok views es (ts ++ [t]) -> tasks_ok views es ts /\ step_ok views es ts t.
  Proof.
    intros H. split.
    - intros pre x post E. apply (H pre x (post ++ [t])). rewrite E, <- app_assoc. reflexivity.
    - exact (H ts t [] eq_refl).
  Qed.

  Lemma tasks_nodup ts : tasks_ok views es ts -> NoDup (map t_region ts).
  Proof.
    induction ts as [|t ts IH] using rev_ind; intros H; [constructor|].
    apply tasks_ok_prefix in H. destruct H as [H1 (n & a & b & _ & _ & _ & Nu & _)].
    rewrite map_app. cbn. apply NoDup_Add with (a := t_region t) (l := map t_region ts).
    - apply Add_app with (l2 := []) || (rewrite <- (app_nil_r (map t_region ts)) at 1; apply Add_app).
    - split; [apply IH; exact H1 | exact Nu].
  Qed.

  Lemma tasks_in ts t : tasks_ok views es ts -> In t ts -> exists pre, step_ok views es pre t.
  Proof.
    intros H Hi. apply in_split in Hi. destruct Hi as (pre & post & E). exists pre. exact (H pre t post E).
  Qed.

  Lemma steady_keeps ts n : steady views -> tasks_ok views es ts -> filter_task (views n) ts = ts.
  Proof.
    intros St H. unfold filter_task.
    assert (A : forall t, In t ts -> health_check (views n) (t_region t) = true).
    { intros t Ht. destruct (tasks_in _ _ H Ht) as (pre & (m & a & b & _ & _ & _ & _ & He & _)).
      apply health_check_ok. destruct He as (x & E & R). exists x. rewrite (St n m). auto. }
    clear H. induction ts as [|t ts IH]; [reflexivity|]. cbn. rewrite (A t (or_introl eq_refl)).
    f_equal. apply IH. intros x Hx. apply A. right. exact Hx.
  Qed.

  (** ** Loads *)

  Lemma led_leaders s : map_ok rs -> s <> 0 -> length (leaders_of rs s) = led rs s.
  Proof.
    intros [_ Hp] Hs. unfold leaders_of, led.
    assert (Hall : forall l, (forall g, In g l -> NoDup (map p_store (g_peers g))) ->
      length (flat_map (fun r => if g_leader r =? 0 then []
                     else flat_map (fun p => if (p_store p =? s) && (p_store p =? g_leader r)
                                             then [g_id r] else []) (g_peers r)) l) =
      length (filter (fun g => (g_leader g =? s) && existsb (fun p => p_store p =? s) (g_peers g)) l)).
    { induction l as [|g l IH]; intros H; [reflexivity|]. cbn [flat_map filter]. rewrite app_length.
      rewrite IH by (intros x Hx; apply H; right; exact Hx).
      specialize (H g (or_introl eq_refl)).
      assert (Hg : length (if g_leader g =? 0 then []
                     else flat_map (fun p => if (p_store p =? s) && (p_store p =? g_leader g)
                                             then [g_id g] else []) (g_peers g)) =
                   if (g_leader g =? s) && existsb (fun p => p_store p =? s) (g_peers g) then 1%nat else O).
      { destruct (g_leader g =? 0) eqn:E0.
        { apply Z.eqb_eq in E0. rewrite E0. destruct (0 =? s) eqn:E; [apply Z.eqb_eq in E; congruence | reflexivity]. }
        destruct (g_leader g =? s) eqn:E1; cbn [andb].
        - apply Z.eqb_eq in E1. rewrite E1. clear - H. induction (g_peers g) as [|p ps IH]; [reflexivity|].
          cbn in H. inversion H as [|? ? Hx Hn]. subst. cbn [flat_map existsb]. rewrite app_length, IH by exact Hn.
          destruct (p_store p =? s) eqn:E; cbn [andb orb]; [|reflexivity].
          destruct (existsb (fun p0 => p_store p0 =? s) ps) eqn:X; [|reflexivity].
          apply existsb_exists in X. destruct X as (q & Hq & Eq). apply Z.eqb_eq in Eq, E.
          exfalso. apply Hx. rewrite E, <- Eq. apply in_map. exact Hq.
        - apply Z.eqb_neq in E1. induction (g_peers g) as [|p ps IHp]; [reflexivity|].
          cbn in H. inversion H. cbn [flat_map]. rewrite app_length, IHp by assumption.
          destruct (p_store p =? s) eqn:E; [|reflexivity]. apply Z.eqb_eq in E. rewrite E.
          destruct (s =? g_leader g) eqn:E2; [apply Z.eqb_eq in E2; congruence | reflexivity]. }
      rewrite Hg. destruct (_ && _); reflexivity. }
    apply Hall. exact Hp.
  Qed.

  Lemma weight_entry e : In e es -> weight e = weight_of ss (n_id e) /\ forall d, weight (with_delta e d) = weight e.
  Proof.
    intros He. apply gen_entries_ok in He. destruct He as (_ & _ & _ & (st & G & _ & W) & _).
    unfold weight, weight_of. unfold get_store in G. rewrite G, W. split; [reflexivity|].
    intros d. cbn. rewrite W. reflexivity.
  Qed.

  Lemma weight_pos s : 0 < weight_of ss s.
  Proof.
    unfold weight_of. destruct (find _ ss) as [st|]; [|lia]. destruct (Z.ltb_spec 0 (s_weight st)); lia.
  Qed.

  Lemma load_delta ts s : load rs ts s = Z.of_nat (led rs s) + delta ts s.
  Proof. unfold load, delta, cnt. lia. Qed.

  Lemma load_snoc ts t s : load rs (ts ++ [t]) s =
    load rs ts s + (if t_dst t =? s then 1 else 0) - (if t_src t =? s then 1 else 0).
  Proof. rewrite !load_delta, delta_snoc. lia. Qed.

  Lemma score_load pre s a d : map_ok rs -> ent (with_tasks es pre) s = Some a ->
    score_num a d = load rs pre s + d /\ weight a = weight_of ss s /\
    exists e, In e es /\ n_id e = s.
  Proof.
    intros Ok E. apply ent_with_inv in E. destruct E as (e & He & Id & ->).
    destruct (weight_entry _ He) as [W1 W2]. rewrite W2, W1, Id. split; [|split; [reflexivity|exists e; auto]].
    unfold score_num. cbn [n_lead n_delta with_delta].
    pose proof (gen_entries_ok _ _ _ He) as (LA & _ & _ & _ & Nz & _).
    rewrite LA, led_leaders by assumption. rewrite load_delta, Id. lia.
  Qed.

  Lemma step_load pre t : map_ok rs -> step_ok views es pre t ->
    no_more (load rs (pre ++ [t]) (t_dst t)) (weight_of ss (t_dst t))
            (load rs (pre ++ [t]) (t_src t)) (weight_of ss (t_src t)) /\
    (exists e, In e es /\ n_id e = t_src t) /\ (exists e, In e es /\ n_id e = t_dst t) /\ t_src t <> t_dst t.
  Proof.
    intros Ok St. assert (Ne := proj1 (proj2 (step_sound _ _ Ok St))).
    destruct St as (n & a & b & Ea & Eb & _ & _ & _ & _ & Sc & _).
    destruct (score_load _ _ _ (-1) Ok Ea) as (Sa & Wa & Ia).
    destruct (score_load _ _ _ 1 Ok Eb) as (Sb & Wb & Ib).
    split; [|auto]. unfold no_more. rewrite !load_snoc, !Z.eqb_refl.
    destruct (t_dst t =? t_src t) eqn:E1; [apply Z.eqb_eq in E1; congruence|].
    destruct (t_src t =? t_dst t) eqn:E2; [apply Z.eqb_eq in E2; congruence|].
    unfold score_le in Sc. apply Z.leb_le in Sc. rewrite Sa, Sb, Wa, Wb in Sc. lia.
  Qed.

  Lemma no_more_trans a wa b wb c wc : 0 < wa -> 0 < wb -> 0 < wc ->
    no_more a wa b wb -> no_more b wb c wc -> no_more a wa c wc.
  Proof.
    unfold no_more. intros Ha Hb Hc H1 H2.
    apply Z.mul_le_mono_pos_r with (p := wb); [exact Hb|].
    apply Z.le_trans with (b * wa * wc); [|]; nia.
  Qed.

  Definition cand (s : Z) : Prop := exists e, In e es /\ n_id e = s.

  Lemma bounds ts s : map_ok rs -> tasks_ok views es ts -> cand s ->
    (exists a, cand a /\ no_more (load rs ts s) (weight_of ss s) (load rs [] a) (weight_of ss a)) /\
    (exists b, cand b /\ no_more (load rs [] b) (weight_of ss b) (load rs ts s) (weight_of ss s)).
  Proof.
    intros Ok. revert s. induction ts as [|t ts IH] using rev_ind; intros s H Hs.
    - split; exists s; (split; [exact Hs | unfold no_more; lia]).
    - apply tasks_ok_prefix in H. destruct H as [H1 H2]. specialize (IH). 
      destruct (step_load _ _ Ok H2) as (L & Cs & Cd & Ne).
      assert (IH' := fun x Hx => IH x H1 Hx). clear IH.
      assert (Wp := weight_pos).
      destruct (Z.eq_dec (t_dst t) s) as [Ed | Ed]; [|destruct (Z.eq_dec (t_src t) s) as [Es | Es]].
      + subst s. destruct (IH' _ Cs) as [(a & Ca & Ha) _]. destruct (IH' _ Cd) as [_ (b & Cb & Hb)]. split.
        * exists a. split; [exact Ca|]. eapply no_more_trans; [apply Wp | apply Wp | apply Wp | exact L |].
          eapply no_more_trans; [apply Wp | apply Wp | apply Wp | | exact Ha].
          unfold no_more. rewrite load_snoc, Z.eqb_refl.
          destruct (t_dst t =? t_src t) eqn:E; [apply Z.eqb_eq in E; congruence|].
          apply Z.mul_le_mono_nonneg_r; [pose proof (Wp (t_src t)); lia | lia].
        * exists b. split; [exact Cb|]. eapply no_more_trans; [apply Wp | apply Wp | apply Wp | exact Hb |].
          unfold no_more. rewrite load_snoc, Z.eqb_refl.
          destruct (t_src t =? t_dst t) eqn:E; [apply Z.eqb_eq in E; congruence|].
          apply Z.mul_le_mono_nonneg_r; [pose proof (Wp (t_dst t)); lia | lia].
      + subst s. destruct (IH' _ Cs) as [(a & Ca & Ha) _]. destruct (IH' _ Cd) as [_ (b & Cb & Hb)]. split.
        * exists a. split; [exact Ca|]. eapply no_more_trans; [apply Wp | apply Wp | apply Wp | | exact Ha].
          unfold no_more. rewrite load_snoc, Z.eqb_refl.
          destruct (t_dst t =? t_src t) eqn:E; [apply Z.eqb_eq in E; congruence|].
          apply Z.mul_le_mono_nonneg_r; [pose proof (Wp (t_src t)); lia | lia].
        * exists b. split; [exact Cb|]. eapply no_more_trans; [apply Wp | apply Wp | apply Wp | | exact L].
          eapply no_more_trans; [apply Wp | apply Wp | apply Wp | exact Hb |].
          unfold no_more. rewrite load_snoc, Z.eqb_refl.
          destruct (t_src t =? t_dst t) eqn:E; [apply Z.eqb_eq in E; congruence|].
          apply Z.mul_le_mono_nonneg_r; [pose proof (Wp (t_dst t)); lia | lia].
      + rewrite load_snoc. apply Z.eqb_neq in Ed, Es. rewrite Ed, Es.
        replace (load rs ts s + 0 - 0) with (load rs ts s) by lia. apply IH'. exact Hs.
  Qed.

  (** ** Progress *)

  Definition tried (p : plan) : Prop :=
    pl_tasks p = [] ->
    pl_used p = [] /\ pl_ents p = es /\ pl_src p = sorted_ids greater es /\
    forall k sid, (k < pl_si p)%nat -> nth_error (pl_src p) k = Some sid ->
      exists n, gen_out (views n) (start rs ss) sid = None.

  Lemma gen_out_same v p q sid : pl_ents p = pl_ents q -> pl_used p = pl_used q -> gen_out v p sid = gen_out v q sid.
  Proof. unfold gen_out. intros -> ->. reflexivity. Qed.

  Lemma snoc_nil {A} (l : list A) x : l ++ [x] <> [].
  Proof. destruct l; discriminate. Qed.

  Lemma half_out_tried batch p p' b : tried p -> half_out batch views p = (p', b) -> tried p'.
  Proof.
    unfold half_out. intros T H. destruct (nth_error (pl_src p) (pl_si p)) as [sid|] eqn:N; [|assert (p' = p) as -> by congruence; exact T].
    destruct (gen_out _ _ _) as [t|] eqn:G; assert (E := f_equal fst H); cbn in E; subst p'.
    - intros X. exfalso. exact (snoc_nil _ _ X).
    - intros X. cbn in X. destruct (T X) as (U & Es & Sr & K). cbn.
      split; [exact U|]. split; [exact Es|]. split; [exact Sr|]. intros k s Hk Hn.
      destruct (Nat.eq_dec k (pl_si p)) as [-> | Hne].
      + exists (pl_round p). assert (s = sid) as -> by congruence.
        rewrite <- G. apply gen_out_same; [rewrite Es; reflexivity | rewrite U; reflexivity].
      + apply (K k); [lia | exact Hn].
  Qed.

  Lemma half_in_tried batch p p' b : tried p -> half_in batch views p = (p', b) -> tried p'.
  Proof.
    unfold half_in. intros T H. destruct (nth_error (pl_tgt p) (pl_ti p)) as [sid|] eqn:N; [|assert (p' = p) as -> by congruence; exact T].
    destruct (gen_in _ _ _) as [t|] eqn:G; assert (E := f_equal fst H); cbn in E; subst p'.
    - intros X. exfalso. exact (snoc_nil _ _ X).
    - intros X. cbn in X. destruct (T X) as (U & Es & Sr & K). cbn. auto.
  Qed.

  Lemma half_out_stop batch p p' : half_out batch views p = (p', true) -> pl_tasks p' <> [].
  Proof.
    unfold half_out. intros H. destruct (nth_error _ _); [|discriminate].
    destruct (gen_out _ _ _) as [t|]; [|discriminate]. assert (E := f_equal fst H). cbn in E. subst p'.
    apply snoc_nil.
  Qed.

  Lemma half_in_stop batch p p' : half_in batch views p = (p', true) -> pl_tasks p' <> [].
  Proof.
    unfold half_in. intros H. destruct (nth_error _ _); [|discriminate].
    destruct (gen_in _ _ _) as [t|]; [|discriminate]. assert (E := f_equal fst H). cbn in E. subst p'.
    apply snoc_nil.
  Qed.

  Lemma rounds_tried batch fuel p p' : tried p -> rounds batch views fuel p = Some p' -> pl_tasks p' = [] ->
    forall sid, In sid (sorted_ids greater es) -> exists n, gen_out (views n) (start rs ss) sid = None.
  Proof.
    revert p. induction fuel as [|f IH]; intros p T; cbn [rounds]; [discriminate|].
    destruct (has_more p) eqn:Hm.
    - destruct (half_out batch views p) as [p1 s1] eqn:H1. pose proof (half_out_tried _ _ _ _ T H1) as T1.
      destruct s1.
      { intros H X. exfalso. apply (half_out_stop _ _ _ H1). congruence. }
      destruct (half_in batch views p1) as [p2 s2] eqn:H2. pose proof (half_in_tried _ _ _ _ T1 H2) as T2.
      destruct s2.
      { intros H X. exfalso. apply (half_in_stop _ _ _ H2). congruence. }
      apply IH. exact T2.
    - intros H X sid Hs. assert (p' = p) as -> by congruence. destruct (T X) as (_ & _ & Sr & K).
      unfold has_more in Hm. apply orb_false_iff in Hm. destruct Hm as [Hm _]. apply Nat.ltb_ge in Hm.
      rewrite <- Sr in Hs. apply In_nth_error in Hs. destruct Hs as (k & Hk).
      apply (K k sid); [|exact Hk]. assert (k < length (pl_src p))%nat by (apply nth_error_Some; congruence). lia.
  Qed.

  Lemma follower_stores_intro l ps lead p e : In p ps -> p_voter p = true -> p_store p = n_id e ->
    n_id e <> lead -> ent l (n_id e) = Some e -> In e (follower_stores l ps lead).
  Proof.
    intros Hp V S Ne E. unfold follower_stores.
    apply (Permutation_in _ (Permutation_sym (isort_perm _ _))). apply in_flat_map. exists p.
    split; [exact Hp|]. rewrite V, S. destruct (n_id e =? lead) eqn:X; [apply Z.eqb_eq in X; congruence|].
    cbn. rewrite E. left. reflexivity.
  Qed.

  Lemma pick_some v ids : ids <> [] -> (forall r, In r ids -> r <> 0 /\ exists ps, v_cur v r = Some ps) ->
    exists rid ps, pick_region v ids = Some (rid, ps).
  Proof.
    intros Hn H. unfold pick_region. destruct ids as [|i ids]; [congruence|].
    remember (i :: ids) as l. cbv zeta.
    assert (Hx : In (nth (v_pick v mod length l) l 0) l).
    { apply nth_In. apply Nat.mod_upper_bound. subst l. discriminate. }
    destruct (H _ Hx) as (Nz & ps & C). apply Z.eqb_neq in Nz. rewrite Nz, C.
    eexists. eexists. reflexivity.
  Qed.

  Lemma start_ents pre : pre = [] -> with_tasks es pre = es.
  Proof. intros ->. apply with_nil. apply gen_entries_delta. Qed.

  Lemma progress batch fuel s : map_ok rs -> stores_ok ss -> constant views ->
    candidate rs ss s ->
    (exists r, leads rs s r /\ healthy_in (views 0%nat) r) ->
    (forall r, leads rs s r -> healthy_in (views 0%nat) r ->
       r <> 0 /\ exists d, can_take rs ss (views 0%nat) s d r) ->
    schedule batch views fuel rs ss <> Some [].
  Proof.
    intros Ok Sok Cn Cs (r0 & L0 & He0) Hall HS.
    assert (St : steady views) by (intros i j r; apply Cn).
    apply (candidate_entry _ _ _ Sok) in Cs. destruct Cs as (e & He & Id).
    unfold schedule in HS.
    destruct (map_stores rs) eqn:E1.
    { assert (In (n_id e) (map_stores rs)) by (apply gen_entries_ok in He; apply He). rewrite E1 in H. contradiction. }
    destruct es eqn:E2; [contradiction|]. rewrite <- E2 in *.
    destruct (rounds batch views fuel (start rs ss)) as [p|] eqn:R; [|discriminate].
    assert (Iv := rounds_inv _ _ _ _ _ _ (start_inv views rs ss) R).
    assert (X : pl_tasks p = []).
    { rewrite <- (steady_keeps (pl_tasks p) (pl_round p) St); [congruence|]. apply (i_tasks _ _ _ Iv). }
    destruct (rounds_tried batch fuel (start rs ss) p) with (sid := s) as (n & G).
    - intros _. cbn. repeat split; try reflexivity. intros k sid Hk. lia.
    - exact R.
    - exact X.
    - unfold sorted_ids. apply in_map_iff. exists e. split; [exact Id|].
      apply (Permutation_in _ (Permutation_sym (isort_perm _ _))). exact He.
    - revert G. unfold gen_out. cbn [start pl_ents pl_used].
      assert (Ee : ent es s = Some e).
      { rewrite <- Id. apply ent_In; [apply gen_entries_ids | exact He]. }
      rewrite Ee. pose proof (gen_entries_ok _ _ _ He) as (LA & _ & _ & _ & Nz & _).
      assert (Hv : forall r, healthy_in (views n) r <-> healthy_in (views 0%nat) r).
      { intros r. unfold healthy_in. rewrite (St n 0%nat r). tauto. }
      assert (Hu : forall r, In r (usable (views n) [] (n_lead e)) <-> leads rs s r /\ healthy_in (views 0%nat) r).
      { intros r. rewrite usable_ok, LA, Id, leaders_of_In, Hv. cbn. rewrite Id in Nz. tauto. }
      destruct (pick_some (views n) (usable (views n) [] (n_lead e))) as (rid & ps & P).
      + intros E. assert (Hi : In r0 (usable (views n) [] (n_lead e))) by (apply Hu; auto).
        rewrite E in Hi. exact Hi.
      + intros r Hr. apply Hu in Hr. destruct (Hall r (proj1 Hr) (proj2 Hr)) as (Nr & d & _ & _ & (ps & q & C & _) & _).
        split; [exact Nr|]. exists ps. rewrite (proj1 (proj2 (Cn n 0%nat r))). exact C.
      + rewrite P. apply pick_region_ok in P. destruct P as (Pi & Pc & _). apply Hu in Pi.
        destruct (Hall rid (proj1 Pi) (proj2 Pi)) as (_ & d & Cd & Nd & (ps' & q & C & Hq & Sq & Vq) & Fi & Nm).
        rewrite <- (proj1 (proj2 (Cn n 0%nat rid))), Pc in C. assert (ps' = ps) as -> by congruence.
        apply (candidate_entry _ _ _ Sok) in Cd. destruct Cd as (ed & Hed & Idd).
        assert (Eed : ent es (n_id ed) = Some ed) by (apply ent_In; [apply gen_entries_ids | exact Hed]).
        assert (Hin : In ed (filter (fun e0 => score_le e0 1 e (-1))
                 (filter (fun e0 => negb (filter_resource (views n) (n_id e0) rid)) (follower_stores es ps s)))).
        { apply filter_In. split.
          - apply filter_In. split.
            + apply (follower_stores_intro _ _ _ q); try assumption; congruence.
            + unfold filter_resource. rewrite negb_involutive. apply resource_check_ok. rewrite Idd.
              destruct Fi as (sm & m & F1 & F2 & F3). exists sm, m.
              rewrite (proj2 (proj2 (Cn n 0%nat d))), (proj1 (Cn n 0%nat rid)). auto.
          - unfold score_le. apply Z.leb_le.
            assert (Q1 : ent (with_tasks es []) d = Some ed) by (rewrite (start_ents _ eq_refl), <- Idd; exact Eed).
            assert (Q2 : ent (with_tasks es []) s = Some e) by (rewrite (start_ents _ eq_refl); exact Ee).
            destruct (score_load _ _ _ 1 Ok Q1) as (-> & -> & _).
            destruct (score_load _ _ _ (-1) Ok Q2) as (-> & -> & _).
            unfold no_more in Nm. rewrite !load_delta. cbn. lia. }
        destruct (filter _ (filter _ _)) as [|x rest]; [contradiction | discriminate].
  Qed.
End Sound.
