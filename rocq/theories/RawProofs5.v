(** Proofs for the raw API, part 5: applying entries, leader changes. *)
From Coq Require Import ZArith List Lia Bool PeanoNat.
From Verif Require Import Bytes SMap Outcome CodecModel CodecSpec CodecProofs2 MvccModel RawModel RawSpec RawProofs1 RawProofs2 RawProofs3 RawProofs4.
Import ListNotations.
Open Scope Z_scope.

Lemma set_call_same c id x : set_call c id x id = x.
Proof. unfold set_call. rewrite Z.eqb_refl. auto. Qed.
Lemma set_call_other c id x i : i <> id -> set_call c id x i = c i.
Proof. unfold set_call. intros H. apply Z.eqb_neq in H. rewrite H. auto. Qed.

Lemma cmds_S s j id c : nth_error (r_log s) j = Some (id, c) -> cmds s (S j) = cmds s j ++ [c].
Proof. intros H. unfold cmds. rewrite (firstn_S_nth _ _ _ H), map_app. auto. Qed.

Lemma unapplied_cons s lp id c : leader_peer s = Some lp -> nth_error (r_log s) (p_applied lp) = Some (id, c) ->
  unapplied s = c :: map snd (skipn (S (p_applied lp)) (r_log s)).
Proof.
  intros L H. unfold unapplied. rewrite L. revert H. generalize (p_applied lp) as n. generalize (r_log s) as l.
  induction l as [|x l IH]; intros n H; destruct n; cbn [nth_error skipn] in *; try discriminate.
  - injection H as ->. reflexivity.
  - apply IH. auto.
Qed.

(** one pending entry takes effect *)
Lemma act_pending s L j id c : l_now L = r_now s -> l_map L = alog (cmds s j) ->
  nth_error (r_log s) j = Some (id, c) -> pend_ok s L j id c ->
  exists r, (forall o, In o (r_ops s) -> o_id o = id -> o_prop o = Some r) /\
    lin_run (r_range s) L [XAct id]
      (mkL (alog (cmds s (S j))) (r_now s) (set_call (l_calls L) id (Some (Acted r)))).
Proof.
  intros N M E (q & t & r & A & B & D & F). exists r. split; auto.
  apply lin_run_one. destruct L as [m now c0]. cbn [l_map l_now l_calls] in *. subst m now.
  rewrite (cmds_S _ _ _ _ E), alog_snoc. eapply lin_act; eauto.
Qed.

(** the leader applies its next entry *)
Lemma step_apply s L rl lp n s' : Inv s L rl lp -> apply_entry s n = Next s' -> advance s s' L.
Proof.
  intros I. unfold apply_entry. destruct (nth_error (r_peers s) n) as [p|] eqn:P; [|discriminate].
  destruct (nth_error (r_log s) (p_applied p)) as [[id c]|] eqn:E; [|discriminate].
  assert (LT: (p_applied p < length (r_log s))%nat) by (apply nth_error_Some; congruence).
  set (p' := mkP (S (p_applied p)) (p_floor p) (p_leads p) (p_ready p) _).
  destruct (Nat.eq_dec n (r_leader s)) as [->|N].
  2: { (* another peer *)
    assert (IV: Inv (with_peer s n p') L rl lp) by (eapply other_peer; eauto; cbn; lia).
    intros H. assert (X: s' = with_peer s n p').
    { destruct (find_op s id) as [o|] eqn:F; [|congruence]. destruct (o_prop o) as [r|] eqn:R; [|congruence].
      destruct (Nat.eqb (o_peer o) n) eqn:Q; [|congruence]. exfalso. apply Nat.eqb_eq in Q.
      apply find_op_some in F. destruct F as [F1 F2].
      destruct (iv_term _ _ _ _ I o F1) as [_ T]. assert (T' : o_term o = r_term s) by (apply T; congruence).
      destruct (iv_cur _ _ _ _ I o F1 T') as (A & _). congruence. }
    subst s'. eapply advance_quiet; eauto. }
  assert (X: p = lp). { pose proof (iv_lead _ _ _ _ I) as X. unfold leader_peer in X. congruence. } subst p.
  assert (LE: leader_peer (with_peer s (r_leader s) p') = Some p').
  { unfold leader_peer. cbn. rewrite nth_set_nth, Nat.eqb_refl, P. auto. }
  assert (UN: unapplied s = c :: unapplied (with_peer s (r_leader s) p')).
  { rewrite (unapplied_cons s lp id c (iv_lead _ _ _ _ I) E). f_equal. unfold unapplied. rewrite LE. auto. }
  destruct (p_ready lp) eqn:R.
  - (* a leader that serves requests *)
    destruct (iv_ready _ _ _ _ I R) as (R1 & RL & R3 & R4).
    destruct (R4 (p_applied lp) id c (Nat.le_refl _) E) as (o & O1 & O2 & O3 & O4 & O5).
    assert (PE: pend_ok s L (p_applied lp) id c) by (apply (iv_pend _ _ _ _ I); [lia|auto]).
    assert (MP := iv_map _ _ _ _ I). rewrite RL in MP.
    destruct (act_pending s L (p_applied lp) id c (iv_now _ _ _ _ I) MP E PE) as (r & PR & RUN).
    assert (OP := PR o O1 O2).
    assert (FO: find_op s id = Some o) by (rewrite <- O2; apply find_op_in; [apply (iv_nodup _ _ _ _ I)|auto]).
    rewrite FO, OP. destruct (iv_cur _ _ _ _ I o O1 O3) as (OL & _). rewrite OL, Nat.eqb_refl.
    intros H. inversion H; subst s'. clear H.
    set (L1 := mkL (alog (cmds s (S (p_applied lp)))) (r_now s) (set_call (l_calls L) id (Some (Acted r)))) in *.
    set (L2 := mkL (alog (cmds s (S (p_applied lp)))) (r_now s) (set_call (l_calls L1) id None)).
    exists ([XAct id] ++ [XRes id r]), L2, (S rl), p'.
    split. { eapply lin_run_app; [exact RUN|]. apply lin_run_one. apply lin_res. apply set_call_same. }
    split; [reflexivity|]. split; [reflexivity|].
    assert (C2: forall i, i <> id -> l_calls L2 i = l_calls L i).
    { intros i Hi. cbn. rewrite !set_call_other; auto. }
    pose proof (iv_ids _ _ _ _ I) as IDS.
    pose proof I as I0. destruct I. constructor; cbn [with_ops with_peer r_range r_log r_peers r_leader r_term r_elect r_ops r_now r_hist]; auto.
    + intros x X. apply In_set_nth in X. destruct X as [->|X]; auto.
    + intros _. cbn [p' p_applied p_floor]. split; [lia|]. split; [lia|]. split; auto.
      intros j id' c' J X. destruct (R4 j id' c') as (o' & A1 & A2 & A3 & A4 & A5); auto; [lia|].
      exists o'. split; [|auto]. apply drop_In. split; auto. rewrite A2. intros ->.
      assert (j = p_applied lp) by (eapply log_id_unique; eauto). lia.
    + cbn [p' p_ready]. congruence.
    + cbn [p' p_applied]. lia.
    + exists p'. split; [|cbn; lia]. eapply nth_error_In. exact LE.
    + cbn [L2 l_map]. rewrite RL. auto.
    + intros j id' c' J X. assert (NE: id' <> id).
      { intros ->. assert (j = p_applied lp) by (eapply log_id_unique; eauto). lia. }
      destruct (iv_pend j id' c') as (q & t & r' & A & B & D & F); [lia|auto|].
      exists q, t, r'. rewrite C2 by auto. split; auto. split; auto. split; auto.
      intros o' O'. apply drop_In in O'. apply F. tauto.
    + intros i U. rewrite used_app in U. apply orb_false_iff in U. destruct U as [U _].
      destruct (Z.eq_dec i id) as [->|Hi]; [cbn; apply set_call_same|]. rewrite C2 by auto. auto.
    + intros o' O'. apply drop_In in O'. rewrite used_app, iv_used2 by tauto. auto.
    + intros i c' X. rewrite used_app, (iv_used3 i c') by auto. auto.
    + apply drop_nodup; auto.
    + intros o' O'. apply drop_In in O'. apply iv_term. tauto.
    + intros o' O' T'. apply drop_In in O'. destruct O' as [O' NE].
      destruct (iv_cur o' O' T') as (A1 & A2 & A3 & A4 & A5 & A6 & A7 & A8).
      split; auto. split; auto. split; auto. split; [rewrite C2; auto|]. split; auto. split; auto. split.
      * intros PN. destruct (A7 PN) as (B1 & B2 & B3 & B4 & B5). split; auto. split; auto. split; [|split; auto].
        { intros G. specialize (B3 G). cbn [with_ops with_peer r_now p' p_applied].
          eapply agree_ext; [|exact B3]. intros k K. apply aview_ext.
          change (cmds (with_ops _ _ _) (S (p_applied lp))) with (cmds s (S (p_applied lp))).
          rewrite (cmds_S _ _ _ _ E), alog_snoc. symmetry.
          destruct (B5 c k) as [X1 X2]; auto; [rewrite UN; left; auto|]. apply eff_other; auto. }
        intros d k D K. apply B5; auto. rewrite UN. right. exact D.
      * intros PN. destruct (A8 PN) as (j & d & J & X). exists j, d. split; auto. cbn [p' p_applied].
        assert (j <> p_applied lp). { intros ->. rewrite X in E. injection E. congruence. } lia.
    + intros o1 o2 k H1 H2. apply drop_In in H1. apply drop_In in H2. apply iv_latch; tauto.
  - (* a new leader catching up *)
    destruct (iv_nready _ _ _ _ I R) as [NR1 NR2].
    assert (IV: forall L' rl', (S (p_applied lp) <= rl')%nat -> l_now L' = r_now s -> l_map L' = alog (cmds s rl') ->
       (exists q, In q (set_nth (r_leader s) p' (r_peers s)) /\ (rl' <= p_applied q)%nat) ->
       (forall j id' c', (rl' <= j)%nat -> nth_error (r_log s) j = Some (id', c') -> pend_ok s L' j id' c') ->
       (forall i, used i (r_hist s) = false -> l_calls L' i = None) ->
       Inv (with_peer s (r_leader s) p') L' rl' p').
    { intros L' rl' H1 H2 H3 H4 H5 H6. destruct I.
      constructor; cbn [with_ops with_peer r_range r_log r_peers r_leader r_term r_elect r_ops r_now r_hist]; auto.
      - intros x X. apply In_set_nth in X. destruct X as [->|X]; auto.
      - cbn [p' p_ready]. congruence.
      - intros o O T. exfalso. apply (NR2 o O T). }
    intros H. assert (X: s' = with_peer s (r_leader s) p').
    { destruct (find_op s id) as [o|] eqn:F; [|congruence]. destruct (o_prop o) as [r|] eqn:OP; [|congruence].
      exfalso. apply find_op_some in F. destruct F as [F1 F2].
      destruct (iv_term _ _ _ _ I o F1) as [_ T]. apply (NR2 o F1). apply T. congruence. }
    subst s'. clear H.
    pose proof (iv_rl _ _ _ _ I) as RL.
    destruct (Nat.eq_dec rl (p_applied lp)) as [EQ|NE].
    + assert (PE: pend_ok s L (p_applied lp) id c) by (apply (iv_pend _ _ _ _ I); [lia|auto]).
      assert (MP := iv_map _ _ _ _ I). rewrite EQ in MP.
      destruct (act_pending s L (p_applied lp) id c (iv_now _ _ _ _ I) MP E PE) as (r & PR & RUN).
      eexists _, _, (S rl), p'. split; [exact RUN|]. split; [cbn; rewrite app_nil_r; auto|]. split; [reflexivity|].
      apply IV; cbn [l_now l_map l_calls]; auto; try lia.
      * rewrite EQ. auto.
      * exists p'. split; [eapply nth_error_In; exact LE|]. cbn. lia.
      * intros j id' c' J X. assert (NE: id' <> id).
        { intros ->. assert (j = p_applied lp) by (eapply log_id_unique; eauto; apply (iv_ids _ _ _ _ I)). lia. }
        destruct (iv_pend _ _ _ _ I j id' c') as (q & t & r' & A & B & D & F); [lia|auto|].
        exists q, t, r'. cbn [l_calls]. rewrite set_call_other by auto. auto.
      * intros i U. assert (i <> id). { intros ->. rewrite (iv_used3 _ _ _ _ I id c) in U; [discriminate|]. eapply nth_error_In; eauto. }
        rewrite set_call_other by auto. apply (iv_used1 _ _ _ _ I); auto.
    + apply (advance_quiet _ _ _ rl p'); auto. apply IV; auto.
      * lia.
      * apply (iv_now _ _ _ _ I).
      * apply (iv_map _ _ _ _ I).
      * eapply In_set_nth_ex; eauto; [|apply (iv_rl2 _ _ _ _ I)]. cbv beta. cbn [p' p_applied]. lia.
      * apply (iv_pend _ _ _ _ I).
      * apply (iv_used1 _ _ _ _ I).
Qed.

(** a run of pending entries takes effect *)
Lemma act_many s : forall d L rl, l_now L = r_now s -> l_map L = alog (cmds s rl) -> NoDup (map fst (r_log s)) ->
  (forall j id c, (rl <= j)%nat -> nth_error (r_log s) j = Some (id, c) -> pend_ok s L j id c) ->
  (rl + d <= length (r_log s))%nat ->
  exists xs L', lin_run (r_range s) L xs L' /\ visible_events xs = [] /\ l_now L' = r_now s /\
    l_map L' = alog (cmds s (rl + d)) /\
    (forall j id c, (rl + d <= j)%nat -> nth_error (r_log s) j = Some (id, c) -> pend_ok s L' j id c) /\
    (forall i, (forall c, ~ In (i, c) (r_log s)) -> l_calls L' i = l_calls L i).
Proof.
  induction d as [|d IH]; intros L rl N M ND PE LEN.
  - exists [], L. rewrite Nat.add_0_r. split; [constructor|]. split; [reflexivity|]. auto.
  - destruct (nth_error (r_log s) rl) as [[id c]|] eqn:E.
    2: { apply nth_error_None in E. lia. }
    destruct (act_pending s L rl id c N M E (PE rl id c (Nat.le_refl _) E)) as (r & PR & RUN).
    set (L1 := mkL _ _ _) in RUN.
    destruct (IH L1 (S rl)) as (xs & L' & A & B & C & D & F & G); auto.
    + intros j id' c' J X. assert (NE: id' <> id).
      { intros ->. assert (j = rl) by (eapply log_id_unique; eauto). lia. }
      destruct (PE j id' c') as (q & t & r' & A & B & D & F); [lia|auto|].
      exists q, t, r'. cbn [L1 l_calls]. rewrite set_call_other by auto. auto.
    + lia.
    + exists ([XAct id] ++ xs), L'. split; [eapply lin_run_app; eauto|]. split; [exact B|]. split; auto.
      replace (rl + S d)%nat with (S rl + d)%nat by lia. split; auto. split; auto.
      intros i I. rewrite G by auto. cbn [L1 l_calls]. apply set_call_other. intros ->. apply (I c). eapply nth_error_In; eauto.
Qed.

Lemma unknown_many range L ops : (forall o, In o ops -> l_calls L (o_id o) <> None) ->
  lin_run range L (map (fun o => XRes (o_id o) PUnknown) ops) L.
Proof.
  induction ops as [|o ops IH]; intros H; cbn [map]; [constructor|].
  econstructor; [|apply IH; intros; apply H; right; auto].
  destruct (l_calls L (o_id o)) as [x|] eqn:E; [|exfalso; apply (H o); [left|]; auto].
  destruct L as [m now c]. eapply lin_res_unknown. exact E.
Qed.
Lemma visible_unknown ops : visible_events (map (fun o => XRes (o_id o) PUnknown) ops) = map (fun o => ERes (o_id o) PUnknown) ops.
Proof. induction ops; cbn; congruence. Qed.
Lemma used_res id (ops : list op) : used id (map (fun o => ERes (o_id o) PUnknown) ops) = false.
Proof. induction ops; cbn; auto. Qed.

Lemma step_elect s L rl lp n keep s' : Inv s L rl lp -> elect s n keep = Next s' -> advance s s' L.
Proof.
  intros I. unfold elect. destruct (nth_error (r_peers s) n) as [p|] eqn:P; [|discriminate].
  destruct (_ && _) eqn:G; [|discriminate]. apply andb_true_iff in G. destruct G as [G1 G2].
  apply Nat.leb_le in G2. rewrite forallb_forall in G1.
  intros H. inversion H; subst. clear H.
  set (p' := mkP (p_applied p) (p_floor p) true false (p_maxts p)).
  set (s' := mkR _ _ _ _ _ _ _ _ _).
  assert (KP: forall x, In x (r_peers s) -> (p_applied x <= keep)%nat).
  { intros x X. apply Nat.leb_le. apply G1. auto. }
  assert (KR: (rl <= keep)%nat). { destruct (iv_rl2 _ _ _ _ I) as (x & X & Y). specialize (KP x X). lia. }
  assert (KN: (p_applied p <= keep)%nat) by (apply KP; eapply nth_error_In; eauto).
  assert (U1: lin_run (r_range s) L (map (fun o => XRes (o_id o) PUnknown) (filter proposed (r_ops s))) L).
  { apply unknown_many. intros o O. apply filter_In in O. destruct O as [O PO].
    assert (T: o_term o = r_term s).
    { destruct (iv_term _ _ _ _ I o O) as [_ T]. apply T. unfold proposed in PO. destruct (o_prop o); congruence. }
    destruct (iv_cur _ _ _ _ I o O T) as (_ & _ & _ & A & _). congruence. }
  destruct (act_many s (p_applied p - rl) L rl (iv_now _ _ _ _ I) (iv_map _ _ _ _ I) (iv_ids _ _ _ _ I) (iv_pend _ _ _ _ I))
    as (xs & L' & A1 & A2 & A3 & A4 & A5 & A6); [lia|].
  set (rl' := (rl + (p_applied p - rl))%nat) in *.
  assert (LE: leader_peer s' = Some p').
  { unfold leader_peer. cbn. rewrite nth_set_nth, Nat.eqb_refl, P. auto. }
  assert (RK: (rl' <= keep)%nat) by lia.
  assert (CM: forall j, (j <= keep)%nat -> cmds s' j = cmds s j).
  { intros j J. unfold cmds. cbn. rewrite firstn_firstn_le; auto. }
  assert (LL: length (r_log s') = keep) by (cbn; rewrite firstn_length; lia).
  exists (map (fun o => XRes (o_id o) PUnknown) (filter proposed (r_ops s)) ++ xs), L', rl', p'.
  split; [eapply lin_run_app; eauto|]. split; [cbn; rewrite visible_app, visible_unknown, A2, app_nil_r; auto|].
  split; [reflexivity|].
  pose proof (iv_cur _ _ _ _ I) as CUR.
  assert (SUB: forall x, In x (firstn keep (r_log s)) -> In x (r_log s)).
  { intros x X. rewrite <- (firstn_skipn keep (r_log s)). apply in_app_iff. auto. }
  pose proof I as I0. destruct I. constructor; cbn [s' r_range r_log r_peers r_leader r_term r_elect r_ops r_now r_hist]; auto.
  - rewrite firstn_length. lia.
  - intros x X. rewrite firstn_length. apply In_set_nth in X. destruct X as [->|X]; [cbn; lia|]. specialize (KP x X). lia.
  - discriminate.
  - intros _. split; [rewrite firstn_length; lia|]. intros o O. apply filter_In in O.
    destruct (iv_term o) as [X _]; [tauto|]. lia.
  - cbn. lia.
  - assert (rl' = rl \/ rl' = p_applied p) as [->| ->] by lia.
    + eapply In_set_nth_ex; eauto.
    + exists p'. split; [|cbn; lia]. eapply nth_error_In. exact LE.
  - rewrite CM by lia. exact A4.
  - rewrite <- firstn_map. apply Forall_forall. intros c C. rewrite Forall_forall in iv_cmds. apply iv_cmds.
    rewrite <- (firstn_skipn keep (map snd (r_log s))). apply in_app_iff. auto.
  - rewrite <- firstn_map. apply ordered_firstn. auto.
  - rewrite <- firstn_map. clear - iv_ids. rewrite <- (firstn_skipn keep (map fst (r_log s))) in iv_ids.
    revert iv_ids. generalize (firstn keep (map fst (r_log s))) (skipn keep (map fst (r_log s))). clear.
    induction l as [|x l IH]; intros l0 H; [constructor|]. cbn in H. inversion H; subst. constructor; [|eapply IH; eauto].
    intros X. apply H2. apply in_app_iff. auto.
  - intros j id c J X. apply nth_error_firstn_some in X. destruct X as [JK X].
    destruct (A5 j id c J X) as (q & t & r & B1 & B2 & B3 & B4). exists q, t, r. rewrite CM by lia.
    split; auto. split; auto. split; auto. intros o O. apply filter_In in O. apply B4. tauto.
  - intros i U. rewrite used_app in U. apply orb_false_iff in U. destruct U as [U _].
    rewrite A6; auto. intros c X. rewrite (iv_used3 i c X) in U. discriminate.
  - intros o O. apply filter_In in O. rewrite used_app, iv_used2 by tauto. auto.
  - intros i c X. rewrite used_app, (iv_used3 i c); auto.
  - clear - iv_nodup. induction (r_ops s) as [|o l IH]; cbn; auto. cbn in iv_nodup. inversion iv_nodup; subst.
    destruct (negb (proposed o)); auto. cbn. constructor; auto. intros X. apply H1. apply in_map_iff in X.
    destruct X as (x & E & X). apply filter_In in X. apply in_map_iff. exists x. tauto.
  - intros o O. apply filter_In in O. destruct O as [O PO]. destruct (iv_term o O) as [X _]. split; [lia|].
    intros PN. exfalso. unfold proposed in PO. destruct (o_prop o); [discriminate|congruence].
  - intros o O T. apply filter_In in O. destruct (iv_term o) as [X _]; [tauto|]. lia.
  - intros o1 o2 k O1 O2 T1. apply filter_In in O1. destruct (iv_term o1) as [X _]; [tauto|]. lia.
Qed.
