(** Every calm step keeps the invariant. *)
Require Import ZArith List Bool Permutation Lia.
Require Import Verif.VecModel Verif.VecSpec Verif.VecProofs Verif.VecInvL Verif.VecInvW.
Import ListNotations.
Open Scope Z_scope.

Lemma Inv_simple s n r f :
  Inv s -> reg_at s n r -> LInv (on_reg n f s) ->
  WR (s_data s) (s_heap s) (f r) ->
  (forall p, bobj (r_bpc (f r)) = Some p -> bobj (r_bpc r) = Some p \/ (length (s_heap s) <= p)%nat) ->
  Inv (on_reg n f s).
Proof.
  intros I A L W B. eapply (Inv_on_reg s _ n r f); try eassumption.
  - reflexivity.
  - intros m r0 _ _ X. exact X.
  - apply (I_sub s I).
Qed.

Lemma LInv_apc s n r f :
  LInv s -> reg_at s n r -> lview r (f r) -> LInv (on_reg n f s).
Proof.
  intros L A V. apply (LInv_frame s); [|exact L]. apply (same_view_on_reg s _ n f); [reflexivity|reflexivity|].
  intros r0 A0. assert (r0 = r) by (unfold reg_at in *; congruence). subst. exact V.
Qed.

Lemma LInv_apc_h s n r f h :
  LInv s -> reg_at s n r -> lview r (f r) -> LInv (on_reg n f (with_heap h s)).
Proof.
  intros L A V. apply (LInv_frame s); [|exact L]. apply (same_view_on_reg s _ n f); [reflexivity|reflexivity|].
  intros r0 A0. assert (r0 = r) by (unfold reg_at in *; congruence). subst. exact V.
Qed.

Lemma LInv_heap s h : LInv s -> LInv (with_heap h s).
Proof.
  intros L. apply (LInv_frame s); [|exact L]. split; [reflexivity|]. split; intros n r A; exists r; (split; [exact A|apply lview_refl]).
Qed.

(** ** Propose *)
Lemma WR_log d h r e :
  (r_applied r <= length (r_log r))%nat -> WR d h r -> WR d h (set_log (r_log r ++ [e]) r).
Proof.
  intros LN W. destruct W. constructor; simpl; try assumption.
  - intros AL RD. destruct (W_rdy AL RD) as [p [C H]]. exists p. split; [exact C|].
    destruct (w_sib r).
    + destruct H as [H1 [H2 [H3 [H4 [H5 [H6 [H7 [H8 H9]]]]]]]]. repeat (split; [assumption|]).
      split; intros i IO; apply agree_log; [apply H8|apply H9]; exact IO.
    + destruct H as [H1 [H2 H3]]. split; [exact H1|]. split; [exact H2|]. intros i IR. apply agree_log, H3, IR.
  - intros p AL B. destruct (W_bld p AL B) as [H1 [H2 [H3 [H4 [H5 [H6 H7]]]]]].
    repeat (split; [assumption|]). split; [|split].
    + intros NB i IR. apply agree_log. apply H5; assumption.
    + exact H6.
    + intros en E. destruct (H7 en E) as [K1 K2]. split; [exact K1|].
      intros j e0 J1 J2 N. destruct (nth_snoc _ _ _ _ N) as [N'|[-> _]]; [eapply K2; eassumption|lia].
  - intros n0 E. destruct (W_snap n0 E) as [H1 H2]. split; [exact H1|]. intro AL.
    destruct (H2 AL) as [H3 [H4 H5]]. split; [exact H3|]. split; [exact H4|]. intro EP.
    destruct (H5 EP) as [H6 [H7 H8]]. split; [exact H6|]. split; [exact H7|].
    intros i IR. apply agree_log. apply H8. exact IR.
  - destruct (r_apc r); try exact Logic.I; destruct W_pc as [x [N X]]; exists x; (split; [apply nth_snoc_old; exact N|exact X]).
Qed.

Lemma Inv_propose g s n r o ts :
  Inv s -> reg_at s n r -> r_alive r = true -> op_valid r o = true ->
  calm_step g s (Propose n o ts) ->
  Inv (on_reg n (set_log (r_log r ++ [{| e_op := o; e_ts := ts; e_epoch := r_epoch r |}])) s).
Proof.
  intros I A AL V C. apply (Inv_simple s n r); try assumption.
  - eapply LInv_propose; eauto. apply (I_log s I).
  - apply WR_log; [|apply (I_reg s I n r A)]. apply (L_len s (I_log s I) n r A).
  - simpl. auto.
Qed.

(** ** The handler does not touch the index *)
Lemma WR_to_done d h r :
  r_alive r = true -> r_apc r = AIdle \/ r_apc r = AWait ->
  (w_ready r = true -> forall c i, agree (r_log r) (r_applied r) c d i ->
     agree (r_log r) (S (r_applied r)) c d i) ->
  WR d h r -> WR d h (set_apc ADone r).
Proof.
  intros AL PC SK W.
  assert (DN : done r = r_applied r) by (unfold done; destruct PC as [-> | ->]; reflexivity).
  destruct W. rewrite DN in *. constructor; simpl; try assumption; try discriminate.
  - intros p B. destruct (W_priv p B) as [H1 [H2 [H3 _]]]. repeat (split; [assumption|]). intros; discriminate.
  - destruct W_le as [H1 H2]. split; [exact H1|]. unfold done. simpl. lia.
  - intros _ RD. destruct (W_rdy AL RD) as [p [C H]]. exists p. split; [exact C|].
    unfold done. simpl. destruct (w_sib r).
    + destruct H as [H1 [H2 [H3 [H4 [H5 [H6 [H7 [H8 H9]]]]]]]]. repeat (split; [assumption|]).
      split; intros i IO; apply SK; try exact RD; [apply H8|apply H9]; exact IO.
    + destruct H as [H1 [H2 H3]]. split; [exact H1|]. split; [exact H2|]. intros i IR.
      apply SK; [exact RD|]. apply H3, IR.
  - intros p _ B. destruct (W_bld p AL B) as [H1 [H2 [H3 [H4 [H5 [H6 H7]]]]]].
    repeat (split; [assumption|]). split; [unfold done; simpl; lia|]. split; [|split]; assumption.
  - exact I.
  - intro X. congruence.
Qed.

Lemma Inv_skip s n r e :
  Inv s -> reg_at s n r -> r_alive r = true -> r_apc r = AIdle ->
  nth_error (r_log r) (r_applied r) = Some e ->
  (e_epoch e <> r_epoch r \/ e_op e = OConf) ->
  Inv (on_reg n (set_apc ADone) s).
Proof.
  intros I A AL PC NE SK. apply (Inv_simple s n r); try assumption.
  - eapply LInv_skip; try eassumption. apply (I_log s I).
  - apply WR_to_done; [exact AL|left; exact PC| |apply (I_reg s I n r A)].
    intros _ c i G. eapply (agree_skip s n r (r_applied r) e); try exact G; [apply (I_log s I)|split; assumption|].
    intros v. destruct SK as [SK|SK].
    + eapply (L_old s (I_log s I)); [split; eassumption|exact AL|exact SK|lia].
    + eapply rec_not_write; [apply (I_log s I)|split; eassumption|]. unfold is_write. rewrite SK. intros [].
  - simpl. auto.
Qed.

(** ** The handler stores an entry *)
Lemma Inv_write s n r e :
  Inv s -> reg_at s n r -> r_alive r = true -> r_apc r = AIdle ->
  nth_error (r_log r) (r_applied r) = Some e -> e_epoch e = r_epoch r -> is_write e ->
  Inv (on_reg n (set_apc (if w_ready r && (w_apply r <? S (r_applied r))%nat then AWait else ADone))
        (with_data (put_versions (s_data s) (versions_of e)) s)).
Proof.
  intros I A AL PC NE EP WR0.
  set (d' := put_versions (s_data s) (versions_of e)).
  set (a := if w_ready r && (w_apply r <? S (r_applied r))%nat then AWait else ADone).
  pose proof (I_reg s I n r A) as W.
  assert (DN : done r = r_applied r) by (unfold done; rewrite PC; reflexivity).
  assert (AV : a = if w_ready r then AWait else ADone).
  { unfold a. destruct (w_ready r); [|reflexivity]. simpl.
    destruct (W_le _ _ _ W) as [_ H]. rewrite DN in H.
    destruct (Nat.ltb_spec (w_apply r) (S (r_applied r))); [reflexivity|lia]. }
  assert (AI : a <> AIdle) by (rewrite AV; destruct (w_ready r); discriminate).
  assert (L' : LInv (on_reg n (set_apc a) (with_data d' s))).
  { eapply LInv_write; try eassumption. apply (I_log s I). }
  assert (E0 : ent_at s n r (r_applied r) e) by (split; assumption).
  pose proof (data_functional s (I_log s I)) as F.
  pose proof (data_functional _ L') as F'. simpl in F'.
  assert (AP : forall b c i, (b <= r_applied r)%nat -> agree (r_log r) b c (s_data s) i -> agree (r_log r) b c d' i).
  { intros b c i B G. eapply agree_put; try eassumption. apply (I_log s I). }
  eapply (Inv_on_reg s _ n r); try eassumption.
  - reflexivity.
  - simpl. destruct W. rewrite DN in *. constructor; simpl; try assumption.
    + intros p q X. rewrite AV in X. destruct (w_ready r); discriminate.
    + intros p B. destruct (W_priv p B) as [H1 [H2 [H3 _]]]. repeat (split; [assumption|]).
      intros x y X. rewrite AV in X. destruct (w_ready r); discriminate.
    + destruct W_le as [H1 H2]. split; [exact H1|]. unfold done. simpl. rewrite AV. destruct (w_ready r); lia.
    + intros _ RD. destruct (W_rdy AL RD) as [p [C H]]. exists p. split; [exact C|].
      unfold done. simpl. rewrite AV, RD. destruct (w_sib r).
      * destruct H as [H1 [H2 [H3 [H4 [H5 [H6 [H7 [H8 H9]]]]]]]]. repeat (split; [assumption|]).
        split; intros i IO; apply AP; try lia; [apply H8|apply H9]; exact IO.
      * destruct H as [H1 [H2 H3]]. split; [exact H1|]. split; [exact H2|]. intros i IR.
        apply AP; [lia|]. apply H3, IR.
    + intros p q _ X. rewrite AV in X. destruct (w_ready r); discriminate.
    + intros p _ B. destruct (W_bld p AL B) as [H1 [H2 [H3 [H4 [H5 [H6 H7]]]]]].
      repeat (split; [assumption|]). split; [unfold done; simpl; rewrite AV; destruct (w_ready r); lia|].
      split; [|split; assumption]. intros NB i IR. apply AP; [lia|apply H5; assumption].
    + intros n0 E. destruct (W_snap n0 E) as [H1 H2]. split; [exact H1|]. intros _.
      destruct (H2 AL) as [H3 [H4 H5]]. split; [exact H3|]. split; [exact H4|]. intro EP'.
      destruct (H5 EP') as [H6 [H7 H8]]. split; [exact H6|]. split; [exact H7|].
      intros i IR. apply AP; [lia|apply H8; exact IR].
    + rewrite AV. destruct (w_ready r); [|exact Logic.I]. exists e. auto.
    + intro X. congruence.
  - simpl. intros m r0 NM A0 W0. destruct (r_alive r0) eqn:AL0.
    + apply (WR_frame (s_data s) (s_heap s)); try assumption; try reflexivity.
      * intros; auto.
      * intros; auto.
      * intros i t v IR. unfold d'. rewrite put_versions_in. split; [auto|]. intros [X|X]; [|exact X]. exfalso.
        apply op_versions_ids in X. pose proof (L_in s (I_log s I) _ _ _ _ _ E0 AL EP X) as K.
        pose proof (L_dis s (I_log s I) _ _ _ _ A A0 NM AL AL0). unfold in_region in IR. lia.
    + destruct W0. constructor; try assumption; try (intros; congruence).
      intros n0 E. destruct (W_snap n0 E) as [H1 H2]. split; [exact H1|]. intros; congruence.
  - apply (I_sub s I).
  - simpl. auto.
Qed.

(** ** Fetching the indexes *)
Lemma Inv_pick g s n r s' :
  Inv s -> reg_at s n r -> step_reg g s (ApplyPick n) n r = Some s' -> Inv s'.
Proof.
  intros I A ST. simpl in ST. destruct (r_apc r) eqn:PC; try discriminate.
  pose proof (I_reg s I n r A) as W.
  assert (AL : r_alive r = true).
  { destruct (r_alive r) eqn:E; [reflexivity|]. destruct (W_dead _ _ _ W E). congruence. }
  assert (DN : done r = r_applied r) by (unfold done; rewrite PC; reflexivity).
  assert (ND : w_ready r = false -> Inv (on_reg n (set_apc ADone) s)).
  { intro RD. apply (Inv_simple s n r); try assumption.
    - apply (LInv_apc s n r); [apply (I_log s I)|exact A|]. constructor; try reflexivity. simpl. rewrite PC. split; discriminate.
    - apply WR_to_done; [exact AL|right; exact PC|congruence|exact W].
    - simpl. auto. }
  destruct (w_ready r) eqn:RD; [|injection ST as <-; apply ND; reflexivity].
  destruct (w_switch r); [discriminate|].
  destruct (W_rdy _ _ _ W AL RD) as [p [C H]]. rewrite C in ST. injection ST as <-.
  apply (Inv_simple s n r); try assumption.
  - apply (LInv_apc s n r); [apply (I_log s I)|exact A|]. constructor; try reflexivity. simpl. rewrite PC. split; discriminate.
  - assert (PP : (p < length (s_heap s))%nat).
    { unfold cur_index in C. destruct (w_share r) eqn:E; [injection C as <-; apply (W_share_ptr _ _ _ W); exact E|].
      apply (W_own_ptr _ _ _ W). exact C. }
    destruct W. rewrite DN in *. constructor; simpl; try assumption.
    + intros p0 q0 X. injection X as <- <-. split; [exact PP|exact W_sib_ptr].
    + intros p0 B. destruct (W_priv p0 B) as [H1 [H2 [H3 _]]]. repeat (split; [assumption|]).
      intros x y X. injection X as <- <-. split; [|exact H3]. intros ->. unfold cur_index in C.
      destruct (w_share r); congruence.
    + intros p0 q0 _ X. injection X as <- <-. split; [|split].
      * intro S. rewrite S in H. destruct H as [H1 [H2 _]]. split; assumption.
      * intros _. split; [exact C|reflexivity].
      * destruct (w_sib r) as [q|]; [|discriminate]. destruct H as [H _]. congruence.
    + rewrite PC in W_pc. exact W_pc.
    + intro X. congruence.
  - simpl. auto.
Qed.

(** ** Writing the index *)
Lemma w_upsert_spec g seed h p q l :
  any_order g -> NoDup (map fst l) -> (p < length h)%nat -> ptr_ok h q -> q <> Some p ->
  (forall q', q = Some q' -> c_hnsw g = true ->
     keep_pairs (geto h q') l <> [] /\ keep_pairs (geto h p) l <> []) ->
  let h' := fst (w_upsert g seed h p q l) in
  length h' = length h /\
  (forall x, o_lo (geto h' x) = o_lo (geto h x) /\ o_hi (geto h' x) = o_hi (geto h x) /\
             o_epoch (geto h' x) = o_epoch (geto h x) /\ o_apply (geto h' x) = o_apply (geto h x)) /\
  (forall x, x <> p -> q <> Some x -> geto h' x = geto h x) /\
  (q = None -> forall i, o_has (geto h' p) i = cput_all (o_has (geto h p)) l i) /\
  (forall q', q = Some q' -> forall i,
     (o_has (geto h' p) i = if in_rng (o_lo (geto h p)) (o_hi (geto h p)) i
                            then cput_all (o_has (geto h p)) l i else o_has (geto h p) i) /\
     (o_has (geto h' q') i = if in_rng (o_lo (geto h q')) (o_hi (geto h q')) i
                            then cput_all (o_has (geto h q')) l i else o_has (geto h q') i)).
Proof.
  intros AO ND PP PQ NE NN.
  assert (KP : forall o c i, cput_all c (keep_pairs o l) i =
     if in_rng (o_lo o) (o_hi o) i then cput_all c l i else c i).
  { intros o c i. unfold keep_pairs. destruct (in_rng (o_lo o) (o_hi o) i) eqn:R.
    - apply cput_filter. exact R.
    - apply cput_all_notin. intro X. apply in_map_iff in X. destruct X as [x [E X]].
      apply filter_In in X. destruct X as [_ X]. rewrite E in X. congruence. }
  assert (KN : forall o, NoDup (map fst (keep_pairs o l))) by (intro o; apply NoDup_map_filter; exact ND).
  unfold w_upsert. destruct q as [q|].
  - assert (Q : (q < length h)%nat) by (apply PQ; reflexivity).
    assert (QP : q <> p) by congruence.
    destruct (idx_upsert g seed (o_has (geto h q)) (keep_pairs (geto h q) l)) as [cq okq] eqn:E1.
    assert (okq = true).
    { replace okq with (snd (idx_upsert g seed (o_has (geto h q)) (keep_pairs (geto h q) l))) by (rewrite E1; reflexivity).
      apply idx_upsert_ok; [exact AO|apply KN|]. intro HN. apply (NN q eq_refl HN). }
    assert (CQ : forall i, cq i = cput_all (o_has (geto h q)) (keep_pairs (geto h q) l) i).
    { intro i. replace cq with (fst (idx_upsert g seed (o_has (geto h q)) (keep_pairs (geto h q) l))) by (rewrite E1; reflexivity).
      apply idx_upsert_has; [exact AO|apply KN]. }
    subst okq. rewrite (geto_upd_other h q (set_has cq) p QP).
    destruct (idx_upsert g seed (o_has (geto h p)) (keep_pairs (geto h p) l)) as [cp okp] eqn:E2.
    assert (okp = true).
    { replace okp with (snd (idx_upsert g seed (o_has (geto h p)) (keep_pairs (geto h p) l))) by (rewrite E2; reflexivity).
      apply idx_upsert_ok; [exact AO|apply KN|]. intro HN. apply (NN q eq_refl HN). }
    assert (CP : forall i, cp i = cput_all (o_has (geto h p)) (keep_pairs (geto h p) l) i).
    { intro i. replace cp with (fst (idx_upsert g seed (o_has (geto h p)) (keep_pairs (geto h p) l))) by (rewrite E2; reflexivity).
      apply idx_upsert_has; [exact AO|apply KN]. }
    subst okp. cbn [fst].
    assert (G : forall x, geto (upd (upd h q (set_has cq)) p (set_has cp)) x =
       if Nat.eq_dec p x then set_has cp (geto h x) else if Nat.eq_dec q x then set_has cq (geto h x) else geto h x).
    { intro x. rewrite geto_upd by (rewrite upd_length; exact PP). rewrite geto_upd by exact Q.
      destruct (Nat.eq_dec p x); destruct (Nat.eq_dec q x); congruence. }
    split; [rewrite !upd_length; reflexivity|]. split; [|split; [|split]].
    + intro x. rewrite G. destruct (Nat.eq_dec p x); [simpl; auto|]. destruct (Nat.eq_dec q x); simpl; auto.
    + intros x X1 X2. rewrite G. destruct (Nat.eq_dec p x); [congruence|]. destruct (Nat.eq_dec q x); congruence.
    + discriminate.
    + intros q' X i. injection X as <-. rewrite !G.
      destruct (Nat.eq_dec p p); [|congruence]. destruct (Nat.eq_dec p q); [congruence|].
      destruct (Nat.eq_dec q q); [|congruence]. cbn [set_has o_has]. rewrite CP, CQ, !KP. auto.
  - destruct (idx_upsert g seed (o_has (geto h p)) l) as [c ok] eqn:E. cbn [fst].
    assert (CP : forall i, c i = cput_all (o_has (geto h p)) l i).
    { intro i. replace c with (fst (idx_upsert g seed (o_has (geto h p)) l)) by (rewrite E; reflexivity).
      apply idx_upsert_has; assumption. }
    split; [apply upd_length|]. split; [|split; [|split]].
    + intro x. rewrite geto_upd by exact PP. destruct (Nat.eq_dec p x); simpl; auto.
    + intros x X1 _. apply geto_upd_other. congruence.
    + intros _ i. rewrite geto_upd by exact PP. destruct (Nat.eq_dec p p); [|congruence]. cbn [set_has o_has]. apply CP.
    + discriminate.
Qed.

Lemma w_delete_spec h p q l :
  (p < length h)%nat -> ptr_ok h q -> q <> Some p ->
  let h' := fst (w_delete h p q l) in
  length h' = length h /\
  (forall x, o_lo (geto h' x) = o_lo (geto h x) /\ o_hi (geto h' x) = o_hi (geto h x) /\
             o_epoch (geto h' x) = o_epoch (geto h x) /\ o_apply (geto h' x) = o_apply (geto h x)) /\
  (forall x, x <> p -> q <> Some x -> geto h' x = geto h x) /\
  (q = None -> forall i, o_has (geto h' p) i = cdel_all (o_has (geto h p)) l i) /\
  (forall q', q = Some q' -> forall i,
     (o_has (geto h' p) i = if in_rng (o_lo (geto h p)) (o_hi (geto h p)) i
                            then cdel_all (o_has (geto h p)) l i else o_has (geto h p) i) /\
     (o_has (geto h' q') i = if in_rng (o_lo (geto h q')) (o_hi (geto h q')) i
                            then cdel_all (o_has (geto h q')) l i else o_has (geto h q') i)).
Proof.
  intros PP PQ NE.
  assert (KP : forall o c i, cdel_all c (keep_ids o l) i =
     if in_rng (o_lo o) (o_hi o) i then cdel_all c l i else c i).
  { intros o c i. unfold keep_ids. destruct (in_rng (o_lo o) (o_hi o) i) eqn:R.
    - apply cdel_filter. exact R.
    - apply cdel_all_notin. intro X. apply filter_In in X. destruct X as [_ X]. congruence. }
  unfold w_delete, idx_delete. destruct q as [q|]; cbn [fst].
  - assert (Q : (q < length h)%nat) by (apply PQ; reflexivity).
    assert (QP : q <> p) by congruence.
    rewrite (geto_upd_other h q _ p QP).
    set (cq := cdel_all (o_has (geto h q)) (keep_ids (geto h q) l)).
    set (cp := cdel_all (o_has (geto h p)) (keep_ids (geto h p) l)).
    assert (G : forall x, geto (upd (upd h q (set_has cq)) p (set_has cp)) x =
       if Nat.eq_dec p x then set_has cp (geto h x) else if Nat.eq_dec q x then set_has cq (geto h x) else geto h x).
    { intro x. rewrite geto_upd by (rewrite upd_length; exact PP). rewrite geto_upd by exact Q.
      destruct (Nat.eq_dec p x); destruct (Nat.eq_dec q x); congruence. }
    split; [rewrite !upd_length; reflexivity|]. split; [|split; [|split]].
    + intro x. rewrite G. destruct (Nat.eq_dec p x); [simpl; auto|]. destruct (Nat.eq_dec q x); simpl; auto.
    + intros x X1 X2. rewrite G. destruct (Nat.eq_dec p x); [congruence|]. destruct (Nat.eq_dec q x); congruence.
    + discriminate.
    + intros q' X i. injection X as <-. rewrite !G.
      destruct (Nat.eq_dec p p); [|congruence]. destruct (Nat.eq_dec p q); [congruence|].
      destruct (Nat.eq_dec q q); [|congruence]. cbn [set_has o_has]. unfold cp, cq. rewrite !KP. auto.
  - split; [apply upd_length|]. split; [|split; [|split]].
    + intro x. rewrite geto_upd by exact PP. destruct (Nat.eq_dec p x); simpl; auto.
    + intros x X1 _. apply geto_upd_other. congruence.
    + intros _ i. rewrite geto_upd by exact PP. destruct (Nat.eq_dec p p); [|congruence]. reflexivity.
    + discriminate.
Qed.

Lemma cdel_all_nil c l i : cdel_all c l i <> None -> c i <> None.
Proof.
  intros H X. destruct (in_dec Z.eq_dec i l) as [I|I].
  - rewrite cdel_all_in in H by exact I. congruence.
  - rewrite cdel_all_notin in H by exact I. congruence.
Qed.

Lemma eff_some e c i : eff (e_op e) c i <> None -> c i <> None \/ In i (op_ids (e_op e)).
Proof.
  destruct (in_dec Z.eq_dec i (op_ids (e_op e))) as [I|I]; [auto|]. rewrite eff_notin by exact I. auto.
Qed.

Lemma Inv_awrite g s n r seed s' :
  any_order g -> Inv s -> reg_at s n r -> calm_step g s (ApplyWrite n seed) ->
  step_reg g s (ApplyWrite n seed) n r = Some s' -> Inv s'.
Proof.
  intros AO I A CS ST. simpl in ST. destruct (r_apc r) as [| |p q| |] eqn:PC; try discriminate.
  destruct (nth_error (r_log r) (r_applied r)) as [e|] eqn:NE; [|discriminate].
  pose proof (I_reg s I n r A) as W. pose proof (I_log s I) as L.
  assert (AL : r_alive r = true).
  { destruct (r_alive r) eqn:E; [reflexivity|]. destruct (W_dead _ _ _ W E). congruence. }
  assert (E0 : ent_at s n r (r_applied r) e) by (split; assumption).
  assert (EW : e_epoch e = r_epoch r /\ is_write e).
  { pose proof (W_pc _ _ _ W) as X. rewrite PC in X. destruct X as [x [N X]]. rewrite NE in N. injection N as <-. exact X. }
  destruct EW as [EP IW].
  destruct (W_awr_ptr _ _ _ W p q PC) as [PP PQ].
  destruct (W_awr _ _ _ W p q AL PC) as [RQ [RC QP]].
  set (h := s_heap s) in *.
  assert (X : exists h' ok, s' = on_reg n (set_apc (if ok : bool then AMark else ADone)) (with_heap h' s) /\
    length h' = length h /\
    (forall x, o_lo (geto h' x) = o_lo (geto h x) /\ o_hi (geto h' x) = o_hi (geto h x) /\
             o_epoch (geto h' x) = o_epoch (geto h x) /\ o_apply (geto h' x) = o_apply (geto h x)) /\
    (forall x, x <> p -> q <> Some x -> geto h' x = geto h x) /\
    (q = None -> forall i, o_has (geto h' p) i = eff (e_op e) (o_has (geto h p)) i) /\
    (forall q', q = Some q' -> forall i,
     (o_has (geto h' p) i = if in_rng (o_lo (geto h p)) (o_hi (geto h p)) i
                            then eff (e_op e) (o_has (geto h p)) i else o_has (geto h p) i) /\
     (o_has (geto h' q') i = if in_rng (o_lo (geto h q')) (o_hi (geto h q')) i
                            then eff (e_op e) (o_has (geto h q')) i else o_has (geto h q') i))).
  { unfold is_write in IW. destruct (e_op e) as [l|l| |m|m] eqn:O; try contradiction.
    - destruct (w_upsert g seed h p q l) as [h' ok] eqn:E. injection ST as <-.
      exists h', ok. split; [reflexivity|].
      replace h' with (fst (w_upsert g seed h p q l)) by (rewrite E; reflexivity).
      apply (w_upsert_spec g seed h p q l); try assumption.
      + eapply (L_nodup s L); eassumption.
      + intros q' -> HN. apply (CS r e p q' l A NE PC O HN).
    - destruct (w_delete h p q l) as [h' ok] eqn:E. injection ST as <-.
      exists h', ok. split; [reflexivity|].
      replace h' with (fst (w_delete h p q l)) by (rewrite E; reflexivity).
      apply (w_delete_spec h p q l); assumption. }
  destruct X as [h' [ok [-> [LEN [RNG [OTH [HN HS]]]]]]].
  assert (SAME : forall x i, ~ In i (op_ids (e_op e)) -> o_has (geto h' x) i = o_has (geto h x) i).
  { intros x i NI. destruct (Nat.eq_dec x p) as [->|N1].
    - destruct q as [q|].
      + destruct (HS q eq_refl i) as [-> _]. destruct (in_rng _ _ i); [apply eff_notin; exact NI|reflexivity].
      + rewrite (HN eq_refl). apply eff_notin. exact NI.
    - destruct q as [q|].
      + destruct (Nat.eq_dec x q) as [->|N2].
        * destruct (HS q eq_refl i) as [_ ->]. destruct (in_rng _ _ i); [apply eff_notin; exact NI|reflexivity].
        * rewrite OTH; [reflexivity|exact N1|congruence].
      + rewrite OTH; [reflexivity|exact N1|discriminate]. }
  assert (INR : forall i, In i (op_ids (e_op e)) -> in_region r i) by (intros i II; eapply (L_in s L); eassumption).
  assert (DN : done r = r_applied r) by (unfold done; rewrite PC; reflexivity).
  assert (AW : forall c i, agree (r_log r) (r_applied r) c (s_data s) i ->
                 agree (r_log r) (S (r_applied r)) (eff (e_op e) c) (s_data s) i).
  { intros c i G. apply (agree_write s n r (r_applied r) e); try assumption. right. split; [reflexivity|congruence]. }
  assert (PCN : forall b : bool, (if b then AMark else ADone) <> AIdle) by (intros []; discriminate).
  assert (PCW : forall (b : bool) x y, (if b then AMark else ADone) = AWrite x y -> False) by (intros []; discriminate).
  eapply (Inv_on_reg s _ n r); try eassumption.
  - apply (LInv_apc_h s n r); [exact L|exact A|]. constructor; try reflexivity. simpl. rewrite PC.
    split; [intro Y; exfalso; exact (PCN ok Y)|discriminate].
  - reflexivity.
  - simpl. destruct W. rewrite DN in *.
    assert (PT : forall x, ptr_ok h x -> ptr_ok h' x) by (intros x Y z Z; rewrite LEN; apply Y; exact Z).
    constructor; simpl; try (apply PT; assumption); try assumption.
    + intros a b X. exfalso. exact (PCW _ _ _ X).
    + intros p0 B. destruct (W_priv p0 B) as [H1 [H2 [H3 _]]]. repeat (split; [assumption|]).
      intros x y X. exfalso. exact (PCW _ _ _ X).
    + intros p0 E. destruct (W_own p0 E) as [H1 [H2 H3]]. split; [exact H1|]. split; [exact H2|].
      destruct (RNG p0) as [-> [-> [-> _]]]. exact H3.
    + destruct W_le as [H1 H2]. split; [exact H1|]. unfold done. simpl. destruct ok; lia.
    + intros _ RD. destruct (RC RD) as [C SQ]. destruct (W_rdy AL RD) as [p0 [C0 H]].
      assert (p0 = p) by congruence. subst p0. exists p. split; [exact C|].
      replace (done (set_apc (if ok then AMark else ADone) r)) with (S (r_applied r)) by (unfold done; destruct ok; reflexivity).
      rewrite SQ in *. destruct q as [q|].
      * destruct (RNG p) as [R1 [R2 _]]. destruct (RNG q) as [Q1 [Q2 _]].
        unfold in_obj in *. rewrite R1, R2, Q1, Q2.
        destruct H as [H1 [H2 [H3 [H4 [H5 [H6 [H7 [H8 H9]]]]]]]]. repeat (split; [assumption|]).
        split; intros i IO; destruct (HS q eq_refl i) as [K1 K2].
        -- apply (agree_ext _ _ (eff (e_op e) (o_has (geto h p)))).
           ++ rewrite K1. replace (in_rng _ _ i) with true; [reflexivity|]. symmetry. apply in_rng_spec. exact IO.
           ++ apply AW, H8, IO.
        -- apply (agree_ext _ _ (eff (e_op e) (o_has (geto h q)))).
           ++ rewrite K2. replace (in_rng _ _ i) with true; [reflexivity|]. symmetry. apply in_rng_spec. exact IO.
           ++ apply AW, H9, IO.
      * destruct (RNG p) as [-> [-> _]]. destruct H as [H1 [H2 H3]]. split; [exact H1|]. split; [exact H2|].
        intros i IR. apply (agree_ext _ _ (eff (e_op e) (o_has (geto h p)))); [symmetry; apply HN; reflexivity|].
        apply AW, H3, IR.
    + intros q0 _ E. destruct (RNG q0) as [-> [-> _]]. apply W_sib; assumption.
    + intros a b _ X. exfalso. exact (PCW _ _ _ X).
    + intros p0 _ B. destruct (W_priv p0 B) as [_ [_ [_ V]]]. destruct (V p q PC) as [V1 V2].
      rewrite (OTH p0) by congruence.
      destruct (W_bld p0 AL B) as [H1 [H2 [H3 [H4 [H5 [H6 H7]]]]]].
      repeat (split; [assumption|]). split; [unfold done; simpl; destruct ok; lia|]. split; [|split]; assumption.
    + destruct ok; [|exact Logic.I]. exists e. auto.
    + intro X. congruence.
  - simpl. fold h. intros m r0 NM A0 W0. destruct (r_alive r0) eqn:AL0.
    + apply (WR_frame (s_data s) h); try assumption; try (apply data_functional; exact L).
      * lia.
      * intros x _. destruct (RNG x) as [H1 [H2 [H3 _]]]. auto.
      * intros x i _ IR. apply SAME. intro II. apply INR in II.
        pose proof (L_dis s L _ _ _ _ A A0 NM AL AL0). unfold in_region in *. lia.
      * intros x B. split; [apply RNG|]. intros SB i HI.
        destruct (in_dec Z.eq_dec i (op_ids (e_op e))) as [II|II]; [|rewrite SAME by exact II; exact HI].
        destruct (o_has (geto h' x) i) eqn:Y; [exfalso|reflexivity].
        destruct (W_bld _ _ _ W0 x AL0 B) as [B1 [B2 _]].
        pose proof (L_dis s L _ _ _ _ A A0 NM AL AL0) as DJ. apply INR in II. unfold in_region in II.
        assert (NR : ~ in_obj (geto h x) i) by (unfold in_obj; lia).
        destruct (Nat.eq_dec x p) as [->|N1].
        -- destruct q as [q|].
           ++ destruct (HS q eq_refl i) as [K1 _]. rewrite K1 in Y.
              destruct (in_rng _ _ i) eqn:R; [apply in_rng_spec in R; apply NR; exact R|congruence].
           ++ destruct (RQ eq_refl) as [R1 R2]. pose proof (L_rng s L _ _ A AL). pose proof (L_rng s L _ _ A0 AL0). lia.
        -- destruct q as [q|].
           ++ destruct (Nat.eq_dec x q) as [->|N2].
              ** destruct (HS q eq_refl i) as [_ K2]. rewrite K2 in Y.
                 destruct (in_rng _ _ i) eqn:R; [apply in_rng_spec in R; apply NR; exact R|congruence].
              ** rewrite OTH in Y by congruence. congruence.
           ++ rewrite OTH in Y by congruence. congruence.
      * intros i t v _. reflexivity.
    + assert (PT : forall x, ptr_ok h x -> ptr_ok h' x) by (intros x Y z Z; rewrite LEN; apply Y; exact Z).
      destruct W0. destruct (W_dead AL0) as [D1 D2].
      constructor; try assumption; try (apply PT; assumption); try (intros; congruence).
      intros p0 E. destruct (W_own p0 E) as [H1 [H2 _]]. split; [exact H1|]. split; [exact H2|]. intros; congruence.
  - simpl. intros x i Y. destruct (RNG x) as [R1 [R2 _]]. unfold in_obj. rewrite R1, R2.
    pose proof (I_sub s I x i) as SB. fold h in SB.
    destruct (Nat.eq_dec x p) as [->|N1].
    + destruct q as [q|].
      * destruct (HS q eq_refl i) as [K1 _]. rewrite K1 in Y.
        destruct (in_rng _ _ i) eqn:R; [apply in_rng_spec in R; exact R|apply SB; exact Y].
      * rewrite (HN eq_refl) in Y. apply eff_some in Y. destruct Y as [Y|Y]; [apply SB; exact Y|].
        apply INR in Y. destruct (RQ eq_refl). unfold in_region in Y. lia.
    + destruct q as [q|].
      * destruct (Nat.eq_dec x q) as [->|N2].
        -- destruct (HS q eq_refl i) as [_ K2]. rewrite K2 in Y.
           destruct (in_rng _ _ i) eqn:R; [apply in_rng_spec in R; exact R|apply SB; exact Y].
        -- rewrite OTH in Y by congruence. apply SB. exact Y.
      * rewrite OTH in Y by congruence. apply SB. exact Y.
  - simpl. auto.
Qed.
