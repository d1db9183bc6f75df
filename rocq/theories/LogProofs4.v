(** Suffix truncation, reset, destruction, opening, restart, and the invariant of all histories. *)
From Coq Require Import ZArith List Bool Lia Sorted.
From Verif Require Import Bytes SMap Outcome LogModel LogSpec LogProofs LogProofs2 LogProofs3.
Import ListNotations.
Open Scope Z_scope.

Lemma linv_ext cs b L L' A A' C C' w : linv cs b L A C w ->
  (forall r i, L r i = L' r i) -> (forall c r, A c r = A' c r) -> (forall r, C r = C' r) -> linv cs b L' A' C' w.
Proof.
  intros V EL EA EC. destruct V as [Vcs Vb Vsd Vsm Vss Vst Vk Vdb Vlog Vmono Vlost Vreg Vmeta Vnone Vsav Vsok Vpos Vt].
  constructor; auto.
  - intros r i v R I H. destruct (Vdb r i v R I H) as [e [H1 H2]]. exists e. rewrite <- EL. auto.
  - intros r i e H. rewrite <- EL in H. apply Vlog; auto.
  - intros r i j e e' H1 H2. rewrite <- EL in H1, H2. apply (Vmono r); auto.
  - intros r i e H H2 c Hc. rewrite <- EL in H. rewrite <- EA. eapply Vlost; eauto.
  - intros r m M. destruct (Vmeta r m M) as [F [K [D [TR TA]]]]. split; [auto|]. split; [auto|]. split; [auto|]. split; [auto|].
    intros c k H. rewrite <- EA. auto.
  - intros r M i. rewrite <- EL. auto.
  - intros c r. rewrite <- EA. auto.
  - intros r c T. destruct (Vt r c T) as [m [M X]]. exists m. split; auto. intros B. destruct (X B) as [X1 [X2 X3]].
    split; auto. split.
    + intros x u H. destruct (X2 x u H) as [Y1 [e [Y2 Y3]]]. split; auto. exists e. rewrite <- EL. auto.
    + intros i e I CI H. rewrite <- EL in H. rewrite <- EC in CI. auto.
Qed.

Lemma li_above cs b L A C w r m i : linv cs b L A C w -> get Z.compare (w_metas w) r = Some m ->
  m_last m < i < kMaxIndex -> db_at (w_db w) r i = None.
Proof.
  intros V M I. destruct (li_meta _ _ _ _ _ _ V r m M) as [F [K [D _]]].
  destruct (db_at (w_db w) r i) eqn:E; auto. assert (X := proj1 (D i ltac:(lia))). rewrite E in X.
  specialize (X ltac:(discriminate)). lia.
Qed.

(** forgetting log entries that are not stored any more *)
Lemma inv_cutlog cs b L A C w r m keep : linv cs b L A C w -> get Z.compare (w_metas w) r = Some m ->
  m_last m <= keep -> linv cs b (cut_log L r keep) A C w.
Proof.
  intros V M KL. assert (AB := li_above cs b L A C w r m).
  destruct V as [Vcs Vb Vsd Vsm Vss Vst Vk Vdb Vlog Vmono Vlost Vreg Vmeta Vnone Vsav Vsok Vpos Vt].
  assert (V : linv cs b L A C w) by (constructor; auto).
  assert (LL : forall r' i e, cut_log L r keep r' i = Some e -> L r' i = Some e).
  { intros r' i e H. unfold cut_log in H. destruct ((r' =? r) && (keep <? i)); [discriminate|auto]. }
  assert (LK : forall i, i <= m_last m -> cut_log L r keep r i = L r i).
  { intros i I. unfold cut_log. rewrite Z.eqb_refl. cbn [andb]. destruct (keep <? i) eqn:Q; auto. apply Z.ltb_lt in Q. lia. }
  assert (LO : forall r' i, r' <> r -> cut_log L r keep r' i = L r' i).
  { intros r' i N. unfold cut_log. destruct (r' =? r) eqn:Q; auto. apply Z.eqb_eq in Q. congruence. }
  constructor; auto.
  - intros r' i v R I H. destruct (Vdb r' i v R I H) as [e [H1 H2]]. exists e. split; auto.
    destruct (Z.eq_dec r' r); [subst r'|rewrite LO; auto].
    destruct (Z_le_gt_dec i (m_last m)); [rewrite LK; auto|]. rewrite (AB i) in H by (auto; lia). discriminate.
  - intros r' i j e e' H1 H2. apply (Vmono r'); auto.
  - intros r' i e H H2 c Hc. eapply Vlost; eauto.
  - intros r' H i. destruct (Z.eq_dec r' r); [subst; congruence|]. rewrite LO by auto. auto.
  - intros r' c T. destruct (Vt r' c T) as [m' [M' X]]. exists m'. split; auto. intros B. destruct (X B) as [X1 [X2 X3]].
    split; auto. split.
    + intros x u H. destruct (X2 x u H) as [Y1 [e [Y2 Y3]]]. split; auto. exists e. split; auto.
      destruct (Z.eq_dec r' r); [subst r'|rewrite LO; auto]. assert (m' = m) by congruence. subst. rewrite LK; auto.
    + intros i e I CI H. apply X3; auto.
Qed.

Lemma suffix_cache cs b L A C w r m keep : linv cs b L A C w -> get Z.compare (w_metas w) r = Some m ->
  get Z.compare (w_terms w) r <> None -> m_last m <= keep ->
  (forall i e, L r i = Some e -> i <= keep) ->
  linv cs b L A C (if w_cached w then with_terms w (put Z.compare (w_terms w) r (cache_suffix (terms_of w r) keep)) else w).
Proof.
  intros V M T K LK. assert (B := li_b _ _ _ _ _ _ V). destruct (w_cached w) eqn:Q; auto. subst b.
  destruct (get Z.compare (w_terms w) r) as [c|] eqn:TC; [|congruence]. unfold terms_of. rewrite TC.
  destruct (li_terms _ _ _ _ _ _ V r c TC) as [m' [M' X]]. assert (m' = m) by congruence. subst m'.
  destruct (X eq_refl) as [X1 [X2 X3]]. eapply (inv_terms _ _ _ _ C C w r m); eauto; [intros; lia|].
  intros _. split; [apply cache_suffix_inc; auto|]. split.
  - intros x u H. apply cache_suffix_In in H; auto. apply X2; tauto.
  - intros i e I CI H. rewrite cache_suffix_lookup by (auto; lia). apply X3; auto.
Qed.

Lemma inv_suffix cs b L A C w r keep : linv cs b L A C w -> opened w r -> 0 <= keep ->
  exists w' ok, w_suffix w r keep = Ok (w', ok) /\ linv cs b (cut_log L r keep) A C w'.
Proof.
  intros V [OT OM] K. unfold w_suffix. destruct (get Z.compare (w_metas w) r) as [m|] eqn:M; [|congruence].
  assert (Bw := li_b _ _ _ _ _ _ V).
  assert (R : region_ok r) by (apply (li_reg _ _ _ _ _ _ V); congruence).
  destruct (li_meta _ _ _ _ _ _ V r m M) as [F [KM [D [TR TA]]]].
  assert (CL : forall i e, cut_log L r keep r i = Some e -> i <= keep).
  { intros i e H. unfold cut_log in H. rewrite Z.eqb_refl in H. cbn [andb] in H. destruct (keep <? i) eqn:Q; [discriminate|].
    apply Z.ltb_ge in Q. auto. }
  destruct (m_last m <? keep) eqn:E.
  { apply Z.ltb_lt in E. exists w, false. split; auto. eapply inv_cutlog; eauto. lia. }
  apply Z.ltb_ge in E. destruct (keep =? m_last m) eqn:E2.
  - apply Z.eqb_eq in E2. cbn [obind].
    assert (V1 : linv cs b (cut_log L r keep) A C w) by (eapply inv_cutlog; eauto; lia).
    assert (V2 := suffix_cache _ _ _ _ _ _ r m keep V1 M OT ltac:(lia) CL).
    destruct (w_cached w); eexists; eexists; (split; [reflexivity|]); exact V2.
  - apply Z.eqb_neq in E2. destruct (keep + 1 <=? m_last m) eqn:E3; [|apply Z.leb_gt in E3; lia].
    apply Z.leb_le in E3. unfold upd_meta. cbn [with_db w_metas w_terms]. rewrite M. cbn [obind].
    destruct (get Z.compare (w_terms w) r) as [c|] eqn:TC; [|congruence].
    assert (TW : forall d ms, terms_of (with_metas (with_db w d) ms) r = c).
    { intros. unfold terms_of. cbn [with_metas with_db w_terms]. rewrite TC. auto. }
    rewrite TW. cbn [with_metas with_db w_terms].
    set (first' := if keep + 1 <=? m_first m then keep + 1 else m_first m).
    assert (FF : 1 <= first' <= keep + 1 /\ forall i, i <= keep -> (first' <= i <-> m_first m <= i)).
    { unfold first'. destruct (keep + 1 <=? m_first m) eqn:Q; [apply Z.leb_le in Q|apply Z.leb_gt in Q]; split; try lia; intros; lia. }
    set (m' := mkM first' keep (m_trunc m)).
    set (c' := if b then cache_suffix c keep else c).
    assert (X : linv cs b (cut_log L r keep) A C
      (mkWal (w_clients w) (w_cached w) (del_range (w_db w) (enc_key r (keep + 1)) (enc_key r kMaxIndex))
             (put Z.compare (w_metas w) r m') (w_saved w) (put Z.compare (w_terms w) r c'))).
    { apply (inv_drop cs b L A C w r (keep + 1)); auto.
      - lia.
      - intros r' i. unfold cut_log. replace (keep + 1 <=? i) with (keep <? i); auto.
        destruct (keep <? i) eqn:Q; symmetry; [apply Z.ltb_lt in Q; apply Z.leb_le; lia|apply Z.ltb_ge in Q; apply Z.leb_gt; lia].
      - apply (li_pos _ _ _ _ _ _ V).
      - intros; lia.
      - intros; lia.
      - intros r' N. rewrite zget_put_eq. destruct (r' =? r) eqn:Q; auto. apply Z.eqb_eq in Q. congruence.
      - intros r' N. rewrite zget_put_eq. destruct (r' =? r) eqn:Q; auto. apply Z.eqb_eq in Q. congruence.
      - apply (li_savok _ _ _ _ _ _ V).
      - apply (sorted_put Z.compare zcmp_ok). apply (li_sm _ _ _ _ _ _ V).
      - apply (li_ss _ _ _ _ _ _ V).
      - apply (sorted_put Z.compare zcmp_ok). apply (li_st _ _ _ _ _ _ V).
      - intros i e H. apply (li_lost _ _ _ _ _ _ V r i e). unfold cut_log in H.
        destruct ((r =? r) && (keep <? i)); [discriminate|auto].
      - intros _. apply (li_saved _ _ _ _ _ _ V). congruence.
      - intros m0 H. rewrite zget_put_eq, Z.eqb_refl in H. inversion H; subst m0. unfold m'. cbn [m_first m_last m_trunc].
        split; [lia|]. split; [lia|]. split; [|auto]. intros i I. rewrite D by auto.
        destruct FF as [F1 F2]. split; [intros [Q1 Q2]; split; [apply F2; lia|lia]|].
        intros [Q1 Q2]. split; [lia|]. apply F2 in Q1; lia.
      - intros H. rewrite zget_put_eq, Z.eqb_refl in H. discriminate.
      - intros c0 H. rewrite zget_put_eq, Z.eqb_refl in H. inversion H; subst c0.
        rewrite zget_put_eq, Z.eqb_refl. eexists. split; [reflexivity|]. unfold m'. cbn [m_first m_last].
        intros B. subst b. unfold c'. rewrite B. destruct (li_terms _ _ _ _ _ _ V r c TC) as [m0 [M0 Y]].
        assert (m0 = m) by congruence. subst m0. destruct (Y B) as [Y1 [Y2 Y3]].
        split; [apply cache_suffix_inc; auto|]. split.
        + intros x u H1. apply cache_suffix_In in H1; auto. destruct H1 as [H1 H2]. cbn [fst] in H2. split; auto.
          destruct (Y2 x u H1) as [_ [e [Q1 Q2]]]. exists e. split; auto. unfold cut_log.
          destruct (keep <? x) eqn:Q3; [apply Z.ltb_lt in Q3; lia|]. rewrite andb_false_r. auto.
        + intros i e I CI H1. assert (H2 := CL i e H1). rewrite cache_suffix_lookup by (auto; lia). destruct FF as [F1 F2].
          apply Y3; auto; [split; [apply F2; lia|lia]|]. unfold cut_log in H1.
          destruct ((r =? r) && (keep <? i)); [discriminate|auto]. }
    unfold c' in X. rewrite <- Bw in X.
    destruct (w_cached w) eqn:B.
    + eexists. eexists. split; [reflexivity|]. unfold with_terms, with_metas, with_db. cbn. rewrite B. subst b. exact X.
    + eexists. eexists. split; [reflexivity|]. unfold with_metas, with_db. cbn. rewrite B.
      rewrite (put_same (w_terms w)) in X by (auto; apply (li_st _ _ _ _ _ _ V)). subst b. exact X.
Qed.

Lemma suffix_last w r keep w' ok : w_suffix w r keep = Ok (w', ok) ->
  exists m, get Z.compare (w_metas w') r = Some m /\ m_last m <= keep.
Proof.
  unfold w_suffix. destruct (get Z.compare (w_metas w) r) as [m|] eqn:M; [|discriminate].
  destruct (m_last m <? keep) eqn:E.
  { intros H. apply Ok_inj in H. inversion H; subst. exists m. apply Z.ltb_lt in E. split; [auto|lia]. }
  apply Z.ltb_ge in E. destruct (keep =? m_last m) eqn:E2.
  - apply Z.eqb_eq in E2. cbn [obind]. destruct (w_cached w); intros H; apply Ok_inj in H; inversion H; subst;
      cbn [with_terms w_metas]; exists m; (split; [auto|lia]).
  - apply Z.eqb_neq in E2. destruct (keep + 1 <=? m_last m) eqn:E3; [|apply Z.leb_gt in E3; lia].
    unfold upd_meta. cbn [with_db w_metas w_terms]. rewrite M. cbn [obind].
    destruct (w_cached w); intros H; apply Ok_inj in H; inversion H; subst;
      cbn [with_terms with_metas with_db w_metas]; rewrite zget_put_eq, Z.eqb_refl; eexists; (split; [reflexivity|]); cbn [m_last]; lia.
Qed.

Lemma linv_lower cs b L A C C' w r m : linv cs b L A C w -> get Z.compare (w_metas w) r = Some m ->
  (forall r', r' <> r -> C r' <= C' r') -> (C r <= C' r \/ m_last m < C' r) -> linv cs b L A C' w.
Proof.
  intros V M CC CR. destruct V as [Vcs Vb Vsd Vsm Vss Vst Vk Vdb Vlog Vmono Vlost Vreg Vmeta Vnone Vsav Vsok Vpos Vt].
  constructor; auto. intros r' c T. destruct (Vt r' c T) as [m' [M' X]]. exists m'. split; auto. intros B.
  destruct (X B) as [X1 [X2 X3]]. split; auto. split; auto. intros i e I CI HL. apply X3; auto.
  destruct (Z.eq_dec r' r) as [Q|Q]; [subst r'; assert (m' = m) by congruence; subst; lia|]. specialize (CC r' Q). lia.
Qed.

(* ---------------------------------------------------------------- everything is discarded *)
Lemma inv_reset cs b L A C w r next : linv cs b L A C w -> opened w r -> 1 <= next < kMaxIndex ->
  exists w', w_reset w r next = Ok w' /\
    linv cs b (log_step L (LReset r next)) (ask_step A (LReset r next)) (cut_step C (LReset r next)) w'.
Proof.
  intros V [OT OM] K. unfold w_reset, upd_meta. cbn [with_db w_metas].
  destruct (get Z.compare (w_metas w) r) as [m|] eqn:M; [|congruence].
  assert (Bw := li_b _ _ _ _ _ _ V).
  assert (R : region_ok r) by (apply (li_reg _ _ _ _ _ _ V); congruence).
  destruct (li_meta _ _ _ _ _ _ V r m M) as [F [KM [D [TR TA]]]].
  destruct (get Z.compare (w_terms w) r) as [c|] eqn:TC; [|congruence].
  set (m' := mkM next (next - 1) (map (fun x => (fst x, 0)) (m_trunc m))).
  set (c' := if b then [] else c).
  assert (X : linv cs b (log_step L (LReset r next)) (ask_step A (LReset r next)) (cut_step C (LReset r next))
    (mkWal (w_clients w) (w_cached w) (del_range (w_db w) (enc_key r 0) (enc_key r kMaxIndex))
             (put Z.compare (w_metas w) r m') (w_saved w) (put Z.compare (w_terms w) r c'))).
  { apply (inv_drop cs b L A C w r 0); auto; cbn [log_step ask_step cut_step].
    - unfold kMaxIndex. lia.
    - intros r' i. destruct (r' =? r) eqn:Q; auto. cbn [andb]. destruct (0 <=? i) eqn:Q2; auto.
      destruct (L r' i) as [e|] eqn:E; auto. apply (li_log _ _ _ _ _ _ V) in E. destruct E as [_ [E1 [_ [_ [E2 _]]]]].
      apply Z.leb_gt in Q2. lia.
    - intros c0 r'. destruct (r' =? r); [lia|apply (li_pos _ _ _ _ _ _ V)].
    - intros c0 r' N. destruct (r' =? r) eqn:Q; [apply Z.eqb_eq in Q; congruence|lia].
    - intros r' N. destruct (r' =? r) eqn:Q; [apply Z.eqb_eq in Q; congruence|lia].
    - intros r' N. rewrite zget_put_eq. destruct (r' =? r) eqn:Q; auto. apply Z.eqb_eq in Q. congruence.
    - intros r' N. rewrite zget_put_eq. destruct (r' =? r) eqn:Q; auto. apply Z.eqb_eq in Q. congruence.
    - apply (li_savok _ _ _ _ _ _ V).
    - apply (sorted_put Z.compare zcmp_ok). apply (li_sm _ _ _ _ _ _ V).
    - apply (li_ss _ _ _ _ _ _ V).
    - apply (sorted_put Z.compare zcmp_ok). apply (li_st _ _ _ _ _ _ V).
    - intros i e H. rewrite Z.eqb_refl in H. discriminate.
    - intros _. apply (li_saved _ _ _ _ _ _ V). congruence.
    - intros m0 H. rewrite zget_put_eq, Z.eqb_refl in H. inversion H; subst m0. unfold m'. cbn [m_first m_last m_trunc].
      split; [lia|]. split; [lia|]. split; [intros i I; lia|]. split.
      + rewrite map_map. cbn [fst]. exact TR.
      + intros c0 k H1. apply in_map_iff in H1. destruct H1 as [x [H1 _]]. inversion H1; subst. rewrite Z.eqb_refl. lia.
    - intros H. rewrite zget_put_eq, Z.eqb_refl in H. discriminate.
    - intros c0 H. rewrite zget_put_eq, Z.eqb_refl in H. inversion H; subst c0.
      rewrite zget_put_eq, Z.eqb_refl. eexists. split; [reflexivity|]. intros B. unfold c'. rewrite B.
      split; [constructor|]. split; [intros x u []|]. intros i e I. unfold m' in I. cbn [m_first m_last] in I. lia. }
  unfold c' in X. rewrite <- Bw in X. cbn [obind].
  destruct (w_cached w) eqn:B.
  - eexists. split; [reflexivity|]. unfold with_terms, with_metas, with_db. cbn. rewrite B. subst b. exact X.
  - eexists. split; [reflexivity|]. unfold with_metas, with_db. cbn. rewrite B.
    rewrite (put_same (w_terms w)) in X by (auto; apply (li_st _ _ _ _ _ _ V)). subst b. exact X.
Qed.

Lemma inv_destroy cs b L A C w r : linv cs b L A C w -> region_ok r ->
  linv cs b (log_step L (LDestroy r)) (ask_step A (LDestroy r)) (cut_step C (LDestroy r)) (w_destroy w r).
Proof.
  intros V R. assert (SM := li_sm _ _ _ _ _ _ V). assert (ST := li_st _ _ _ _ _ _ V).
  unfold w_destroy. apply (inv_drop cs b L A C w r 0); auto; cbn [log_step ask_step cut_step].
  - unfold kMaxIndex. lia.
  - intros r' i. destruct (r' =? r) eqn:Q; auto. cbn [andb]. destruct (0 <=? i) eqn:Q2; auto.
    destruct (L r' i) as [e|] eqn:E; auto. apply (li_log _ _ _ _ _ _ V) in E. destruct E as [_ [E1 [_ [_ [E2 _]]]]].
    apply Z.leb_gt in Q2. lia.
  - intros c0 r'. destruct (r' =? r); [lia|apply (li_pos _ _ _ _ _ _ V)].
  - intros c0 r' N. destruct (r' =? r) eqn:Q; [apply Z.eqb_eq in Q; congruence|lia].
  - intros r' N. destruct (r' =? r) eqn:Q; [apply Z.eqb_eq in Q; congruence|lia].
  - intros r' N. rewrite zget_del_eq by auto. destruct (r' =? r) eqn:Q; auto. apply Z.eqb_eq in Q. congruence.
  - intros r' N. rewrite zget_del_eq by auto. destruct (r' =? r) eqn:Q; auto. apply Z.eqb_eq in Q. congruence.
  - apply (li_savok _ _ _ _ _ _ V).
  - apply (sorted_del Z.compare); auto.
  - apply (li_ss _ _ _ _ _ _ V).
  - apply (sorted_del Z.compare); auto.
  - intros i e H. rewrite Z.eqb_refl in H. discriminate.
  - rewrite zget_del_eq, Z.eqb_refl by auto. congruence.
  - intros m H. rewrite zget_del_eq, Z.eqb_refl in H by auto. discriminate.
  - intros _ i. rewrite Z.eqb_refl. reflexivity.
  - intros c H. rewrite zget_del_eq, Z.eqb_refl in H by auto. discriminate.
Qed.

(* ---------------------------------------------------------------- reading a range *)
Lemma dec_all_ok cs b L A C w r : linv cs b L A C w -> region_ok r -> forall l,
  (forall k v, In (k, v) l -> In (k, v) (w_db w) /\ exists i, k = enc_key r i /\ 0 < i < kMaxIndex) ->
  exists es, dec_all r l = Ok es /\
    Forall2 (fun kv e => fst kv = enc_key r (e_index e) /\ 0 < e_index e < kMaxIndex /\
                         snd kv = entry_val e /\ L r (e_index e) = Some e) l es.
Proof.
  intros V R. induction l as [|[k v] l IH]; intros H.
  - exists []. split; [reflexivity|constructor].
  - destruct (H k v (in_eq _ _)) as [Hd [i [K I]]].
    destruct IH as [es [E F]]; [intros; apply H; right; auto|].
    assert (G : db_at (w_db w) r i = Some v).
    { unfold db_at. rewrite <- K. apply (In_get bcmp bcmp_ok); auto. apply (li_sd _ _ _ _ _ _ V). }
    destruct (li_db _ _ _ _ _ _ V r i v R ltac:(lia) G) as [e [Le Ve]].
    destruct (li_log _ _ _ _ _ _ V r i e Le) as [_ [EI EO]].
    destruct (entry_ok_val e EO) as [TY [TM DA]].
    exists (e :: es). cbn [dec_all]. subst k.
    rewrite dec_enc_key by (try (apply region_i64; assumption); unfold i64, kMaxIndex in *; lia). cbn [obind fst snd].
    rewrite Z.eqb_refl. cbn [negb]. subst v. unfold entry_val. rewrite dec_enc_val by auto. cbn [obind fst snd].
    rewrite E. cbn [obind]. rewrite val_data. split.
    + destruct e as [ei et em ed]. cbn [e_index e_type e_term e_data] in *. subst ei. reflexivity.
    + constructor; auto. cbn [fst snd]. subst i. auto.
Qed.

Lemma in_range_keys cs b L A C w r a z k v : linv cs b L A C w -> region_ok r -> i64 a -> i64 z ->
  (In (k, v) (in_range (w_db w) (enc_key r a) (enc_key r z)) <->
   exists i, a <= i < z /\ 0 < i < kMaxIndex /\ k = enc_key r i /\ db_at (w_db w) r i = Some v).
Proof.
  intros V R A64 Z64. unfold in_range. rewrite filter_In. cbn [fst]. split.
  - intros [H B]. destruct (li_keys _ _ _ _ _ _ V k v H) as [r' [i [K [R' I]]]]. subst k.
    rewrite key_in_range in B by (auto; try (apply region_i64; assumption); unfold i64, kMaxIndex in *; lia).
    apply andb_true_iff in B. destruct B as [B B3]. apply andb_true_iff in B. destruct B as [B1 B2].
    apply Z.eqb_eq in B1. apply Z.leb_le in B2. apply Z.ltb_lt in B3. subst r'. exists i.
    split; [lia|]. split; [lia|]. split; auto. unfold db_at. apply (In_get bcmp bcmp_ok); auto. apply (li_sd _ _ _ _ _ _ V).
  - intros [i [I [I2 [K G]]]]. subst k. split; [apply (get_In bcmp bcmp_ok); auto|].
    rewrite key_in_range by (auto; try (apply region_i64; assumption); unfold i64, kMaxIndex in *; lia).
    rewrite Z.eqb_refl. cbn [andb]. apply andb_true_iff. split; [apply Z.leb_le|apply Z.ltb_lt]; lia.
Qed.

Lemma forall2_in {X Y} (P : X -> Y -> Prop) l l' : Forall2 P l l' -> forall y, In y l' -> exists x, In x l /\ P x y.
Proof.
  induction 1 as [|x y l l' H F IH]; intros z Q; [destruct Q|destruct Q as [Q|Q]].
  - subst. exists x. split; [left|]; auto.
  - destruct (IH z Q) as [x' [H1 H2]]. exists x'. split; [right|]; auto.
Qed.
Lemma forall2_in_l {X Y} (P : X -> Y -> Prop) l l' : Forall2 P l l' -> forall x, In x l -> exists y, In y l' /\ P x y.
Proof.
  induction 1 as [|x y l l' H F IH]; intros z Q; [destruct Q|destruct Q as [Q|Q]].
  - subst. exists y. split; [left|]; auto.
  - destruct (IH z Q) as [x' [H1 H2]]. exists x'. split; [right|]; auto.
Qed.

Definition by_index (es : list entry) : Prop := StronglySorted (fun a b => e_index a < e_index b) es.

Lemma get_entries_ok cs b L A C w r a z : linv cs b L A C w -> region_ok r -> i64 a -> i64 z ->
  exists es, get_entries w r a z = Ok es /\ by_index es /\
    forall e, In e es <-> a <= e_index e < z /\ L r (e_index e) = Some e /\ db_at (w_db w) r (e_index e) <> None.
Proof.
  intros V R A64 Z64. unfold get_entries. set (l := in_range (w_db w) (enc_key r a) (enc_key r z)).
  destruct (dec_all_ok cs b L A C w r V R l) as [es [E F]].
  { intros k v H. apply (in_range_keys cs b L A C) in H; auto. destruct H as [i [I [I2 [K G]]]].
    split; [|exists i; auto]. subst k. apply (get_In bcmp bcmp_ok). exact G. }
  exists es. split; auto. split.
  - assert (S : sorted bcmp l) by (apply sorted_filter; apply (li_sd _ _ _ _ _ _ V)). clear E. clearbody l.
    induction F as [|[k v] e l es H F IH]; [constructor|]. apply sorted_cons in S. destruct S as [S SF].
    apply SSorted_cons; [apply IH; auto|]. rewrite Forall_forall. intros e' H'. destruct (forall2_in _ _ _ F e' H') as [[k' v'] [I' P']].
    rewrite Forall_forall in SF. specialize (SF _ I'). unfold klt in SF. cbn [fst snd] in *.
    destruct H as [H1 [H2 _]], P' as [P1 [P2 _]]. subst k k'.
    rewrite enc_key_cmp in SF by (try (apply region_i64; assumption); unfold i64, kMaxIndex in *; lia). rewrite Z.compare_refl in SF. exact SF.
  - intros e. split.
    + intros H. destruct (forall2_in _ _ _ F e H) as [[k v] [I [P1 [P2 [P3 P4]]]]]. cbn [fst snd] in *.
      apply (in_range_keys cs b L A C) in I; auto. destruct I as [i [I [I2 [K G]]]]. rewrite P1 in K.
      apply enc_key_inj in K; try (apply region_i64; assumption); try (unfold i64, kMaxIndex in *; lia). destruct K as [_ K]. subst i.
      split; auto. split; auto. congruence.
    + intros [I [Le D]]. destruct (db_at (w_db w) r (e_index e)) as [v|] eqn:G; [|congruence].
      assert (EO := li_log _ _ _ _ _ _ V r _ e Le). destruct EO as [_ [_ [_ [_ [EI _]]]]].
      assert (IN : In (enc_key r (e_index e), v) l).
      { apply (in_range_keys cs b L A C); auto. exists (e_index e). auto. }
      destruct (forall2_in_l _ _ _ F _ IN) as [e' [I' [P1 [P2 [P3 P4]]]]]. cbn [fst snd] in *.
      apply enc_key_inj in P1; try (apply region_i64; assumption); try (unfold i64, kMaxIndex in *; lia). destruct P1 as [_ P1].
      rewrite <- P1 in P4. assert (e' = e) by congruence. subst. auto.
Qed.

(* ---------------------------------------------------------------- opening a region's log *)
Lemma build_terms_ok es : forall c done, inc c ->
  (forall x u, In (x, u) c -> exists e, In e done /\ e_index e = x /\ e_term e = u) ->
  (forall e, In e done -> lookup c (e_index e) 0 = e_term e) ->
  by_index es ->
  (forall e e', In e done -> In e' es -> e_index e < e_index e' /\ e_term e <= e_term e') ->
  (forall e e', In e es -> In e' es -> e_index e < e_index e' -> e_term e <= e_term e') ->
  inc (build_terms es c) /\
  (forall x u, In (x, u) (build_terms es c) -> exists e, In e (done ++ es) /\ e_index e = x /\ e_term e = u) /\
  (forall e, In e (done ++ es) -> lookup (build_terms es c) (e_index e) 0 = e_term e).
Proof.
  induction es as [|e es IH]; intros c done S IN LK BI DE EE; cbn [build_terms].
  - rewrite app_nil_r. auto.
  - inversion BI as [|? ? BI' BF]; subst. rewrite Forall_forall in BF.
    destruct (cache_append_spec c (e_index e) (e_term e) S) as [c' [CA [S' [IN' [LO HI]]]]].
    { intros x u H. destruct (IN x u H) as [e0 [H0 [H1 H2]]]. destruct (DE e0 e H0 (in_eq _ _)). lia. }
    rewrite CA. replace (done ++ e :: es) with ((done ++ [e]) ++ es) by (rewrite <- app_assoc; reflexivity).
    apply IH; auto.
    + intros x u H. destruct (IN' x u H) as [H1|H1].
      * destruct (IN x u H1) as [e0 [H2 H3]]. exists e0. split; auto. apply in_or_app; auto.
      * inversion H1; subst. exists e. split; auto. apply in_or_app. right; left; auto.
    + intros e0 H. apply in_app_or in H. destruct H as [H|[H|[]]].
      * destruct (DE e0 e H (in_eq _ _)). rewrite LO by lia. auto.
      * subst e0. apply HI. lia.
    + intros e0 e1 H0 H1. apply in_app_or in H0. destruct H0 as [H0|[H0|[]]].
      * apply DE; auto. right; auto.
      * subst e0. split; [apply BF; auto|]. apply EE; [left|right|apply BF]; auto.
    + intros e0 e1 H0 H1. apply EE; right; auto.
Qed.

Lemma inv_open cs b L A C w r : linv cs b L A C w -> region_ok r ->
  exists w', w_init w r = Ok w' /\ linv cs b L A (cut_step C (LInit r)) w'.
Proof.
  intros V R. unfold w_init. cbn [cut_step].
  set (w1 := match get Z.compare (w_metas w) r with Some _ => w | None => _ end).
  assert (V1 : linv cs b L A C w1 /\ get Z.compare (w_metas w1) r <> None /\ w_cached w1 = w_cached w).
  { unfold w1. destruct (get Z.compare (w_metas w) r) as [m|] eqn:M; [split; auto; split; auto; congruence|].
    assert (N := li_none _ _ _ _ _ _ V r M).
    assert (TN : get Z.compare (w_terms w) r = None).
    { destruct (get Z.compare (w_terms w) r) eqn:T; auto. destruct (li_terms _ _ _ _ _ _ V r _ T) as [m [M' _]]. congruence. }
    assert (DN : forall i, 0 <= i < kMaxIndex -> db_at (w_db w) r i = None).
    { intros i I. eapply li_db_none; eauto. }
    destruct V as [Vcs Vb Vsd Vsm Vss Vst Vk Vdb Vlog Vmono Vlost Vreg Vmeta Vnone Vsav Vsok Vpos Vt].
    split; [|split; [cbn [w_metas]; rewrite zget_put_eq, Z.eqb_refl; discriminate|reflexivity]].
    constructor; cbn [w_clients w_cached w_db w_metas w_saved w_terms]; auto.
    - apply (sorted_put Z.compare zcmp_ok); auto.
    - apply (sorted_put Z.compare zcmp_ok); auto.
    - intros r' H. rewrite zget_put_eq in H. destruct (r' =? r) eqn:Q; [apply Z.eqb_eq in Q; subst|]; auto.
    - intros r' m H. rewrite zget_put_eq in H. destruct (r' =? r) eqn:Q; [|auto]. apply Z.eqb_eq in Q. subst r'.
      inversion H; subst m. cbn [m_first m_last m_trunc]. split; [lia|]. split; [unfold kMaxIndex; lia|]. split.
      + intros i I. rewrite DN by auto. split; [congruence|lia].
      + split; [rewrite map_map; cbn [fst]; rewrite map_id; auto|]. intros c k X. apply in_map_iff in X.
        destruct X as [c0 [X _]]. inversion X; subst. auto.
    - intros r' H. rewrite zget_put_eq in H. destruct (r' =? r) eqn:Q; [discriminate|auto].
    - intros r' H. rewrite zget_put_eq in H. rewrite zget_put_eq. destruct (r' =? r) eqn:Q; [discriminate|auto].
    - intros r' x H. rewrite zget_put_eq in H. destruct (r' =? r) eqn:Q; [|auto]. apply Z.eqb_eq in Q. subst. inversion H; subst. auto.
    - intros r' c T. destruct (Vt r' c T) as [m [M' X]]. rewrite zget_put_eq. destruct (r' =? r) eqn:Q; [|eauto].
      apply Z.eqb_eq in Q. subst. congruence. }
  destruct V1 as [V1 [M1 B1]]. clearbody w1. unfold get_configurations.
  destruct (get_entries_ok cs b L A C w1 r 0 kMaxIndex V1 R) as [es [E [BI IN]]]; try (unfold i64, kMaxIndex in *; lia).
  rewrite E. cbn [obind]. eexists. split; [reflexivity|].
  destruct (get Z.compare (w_metas w1) r) as [m|] eqn:M; [|congruence].
  assert (CC : forall r', r' <> r -> C r' <= (if r' =? r then 0 else C r')).
  { intros r' N. destruct (r' =? r) eqn:Q; [apply Z.eqb_eq in Q; congruence|lia]. }
  eapply (inv_terms cs b L A C (fun r' => if r' =? r then 0 else C r') w1 r m); eauto.
  intros B. rewrite Z.eqb_refl. assert (Bw := li_b _ _ _ _ _ _ V). rewrite Bw, B.
  destruct (li_meta _ _ _ _ _ _ V1 r m M) as [F [K [D _]]].
  destruct (build_terms_ok es [] []) as [X1 [X2 X3]]; auto.
  - constructor.
  - intros x u [].
  - intros e [].
  - intros e e' [].
  - intros e e' H1 H2 H3. apply IN in H1, H2. apply (li_mono _ _ _ _ _ _ V1 r (e_index e) (e_index e')); tauto.
  - cbn [app] in *. split; auto. split.
    + intros x u H. destruct (X2 x u H) as [e [H1 [H2 H3]]]. apply IN in H1. destruct H1 as [H1 [H4 H5]]. subst x.
      split; [|exists e; auto]. destruct (li_log _ _ _ _ _ _ V1 r _ e H4) as [_ [_ [_ [_ [EI _]]]]].
      apply D in H5; lia.
    + intros i e I _ Le. destruct (li_log _ _ _ _ _ _ V1 r _ e Le) as [_ [EI EO]]. subst i. apply X3. apply IN.
      destruct EO as [_ [_ [EI _]]]. split; [lia|]. split; auto. apply D; lia.
Qed.

(* ---------------------------------------------------------------- restart *)
Lemma sorted_hd {V} (x : bytes * V) l y : sorted bcmp (x :: l) -> In y (x :: l) -> y = x \/ bcmp (fst x) (fst y) = Lt.
Proof.
  intros S [H|H]; auto. right. apply sorted_cons in S. destruct S as [_ F]. rewrite Forall_forall in F. apply F; auto.
Qed.
Lemma sorted_last {V} (x : bytes * V) l y : sorted bcmp (l ++ [x]) -> In y (l ++ [x]) -> y = x \/ bcmp (fst y) (fst x) = Lt.
Proof.
  intros S H. apply in_app_or in H. destruct H as [H|[H|[]]]; auto. right.
  apply sorted_app in S. destruct S as [_ [_ S]]. apply (S y x H). left; auto.
Qed.

Lemma db_bounds cs b L A C w r : linv cs b L A C w -> region_ok r ->
  exists f l, db_first (w_db w) r = Ok f /\ db_last (w_db w) r = Ok l /\ 1 <= f <= l + 1 /\ l < kMaxIndex /\
    forall i, 0 <= i < kMaxIndex -> (db_at (w_db w) r i <> None <-> f <= i <= l).
Proof.
  intros V R. assert (R64 := region_i64 r R). unfold db_first, db_last.
  set (l := in_range (w_db w) (enc_key r 0) (enc_key r kMaxIndex)).
  assert (S : sorted bcmp l) by (apply sorted_filter; apply (li_sd _ _ _ _ _ _ V)).
  assert (IN : forall k v, In (k, v) l <-> exists i, 0 <= i < kMaxIndex /\ 0 < i < kMaxIndex /\ k = enc_key r i /\ db_at (w_db w) r i = Some v).
  { intros. apply (in_range_keys cs b L A C); auto; unfold i64, kMaxIndex in *; lia. }
  assert (CT : exists f z, 1 <= f <= z + 1 /\ z < kMaxIndex /\ forall i, 0 <= i < kMaxIndex -> (db_at (w_db w) r i <> None <-> f <= i <= z)).
  { destruct (get Z.compare (w_metas w) r) as [m|] eqn:M.
    - destruct (li_meta _ _ _ _ _ _ V r m M) as [F [K [D _]]]. exists (m_first m), (m_last m). auto.
    - exists 1, 0. split; [lia|]. split; [unfold kMaxIndex; lia|]. intros i I.
      rewrite (li_db_none cs b L A C w V) by (auto; apply (li_none _ _ _ _ _ _ V r M)). split; [congruence|lia]. }
  destruct CT as [f [z [FZ [ZM D]]]].
  destruct (Z_le_gt_dec f z) as [NE|EM].
  - assert (HF : exists v, In (enc_key r f, v) l).
    { assert (X := proj2 (D f ltac:(lia)) ltac:(lia)). destruct (db_at (w_db w) r f) as [v|] eqn:G; [|congruence].
      exists v. apply IN. exists f. split; [lia|]. split; [lia|]. auto. }
    assert (HZ : exists v, In (enc_key r z, v) l).
    { assert (X := proj2 (D z ltac:(lia)) ltac:(lia)). destruct (db_at (w_db w) r z) as [v|] eqn:G; [|congruence].
      exists v. apply IN. exists z. split; [lia|]. split; [lia|]. auto. }
    assert (BND : forall k v, In (k, v) l -> exists i, k = enc_key r i /\ f <= i <= z).
    { intros k v H. apply IN in H. destruct H as [i [I [_ [K G]]]]. exists i. split; auto. apply D; auto. congruence. }
    exists f, z. split; [|split; [|auto]].
    + destruct l as [|[k v] l0] eqn:EL; [destruct HF as [v []]|].
      destruct (BND k v (in_eq _ _)) as [i [K I]]. destruct HF as [v' HF].
      subst k. rewrite dec_enc_key by (auto; unfold i64, kMaxIndex in *; lia). cbn [obind fst snd]. rewrite Z.eqb_refl. f_equal.
      destruct (sorted_hd _ _ _ S HF) as [Q|Q]; cbn [fst] in Q.
      * apply (f_equal fst) in Q. cbn [fst] in Q. apply enc_key_inj in Q; auto; unfold i64, kMaxIndex in *; lia.
      * rewrite enc_key_cmp in Q by (auto; unfold i64, kMaxIndex in *; lia). rewrite Z.compare_refl in Q. change (i < f) in Q. lia.
    + destruct (rev l) as [|[k v] rl] eqn:EL.
      { apply (f_equal (@rev _)) in EL. rewrite rev_involutive in EL. rewrite EL in HZ. destruct HZ as [v []]. }
      assert (EL2 : l = rev rl ++ [(k, v)]) by (rewrite <- (rev_involutive l), EL; reflexivity).
      rewrite EL2 in S, HZ, BND.
      destruct (BND k v) as [i [K I]]; [apply in_or_app; right; left; auto|]. destruct HZ as [v' HZ].
      subst k. rewrite dec_enc_key by (auto; unfold i64, kMaxIndex in *; lia). cbn [obind fst snd]. rewrite Z.eqb_refl. f_equal.
      destruct (sorted_last _ _ _ S HZ) as [Q|Q]; cbn [fst] in Q.
      * apply (f_equal fst) in Q. cbn [fst] in Q. apply enc_key_inj in Q; auto; unfold i64, kMaxIndex in *; lia.
      * rewrite enc_key_cmp in Q by (auto; unfold i64, kMaxIndex in *; lia). rewrite Z.compare_refl in Q. change (z < i) in Q. lia.
  - assert (E : l = []).
    { destruct l as [|[k v] l0]; auto. destruct (proj1 (IN k v) (in_eq _ _)) as [i [I [_ [K G]]]].
      assert (X := proj1 (D i I)). rewrite G in X. specialize (X ltac:(discriminate)). lia. }
    rewrite E. exists 1, 0. split; [reflexivity|]. split; [reflexivity|]. split; [lia|]. split; [unfold kMaxIndex; lia|].
    intros i I. rewrite D by auto. lia.
Qed.

Lemma load_metas_ok cs b L A C w : linv cs b L A C w -> forall sv, sorted Z.compare sv ->
  (forall r x, In (r, x) sv -> x = cs /\ region_ok r) ->
  exists ms, load_metas (w_db w) sv = Ok ms /\ map fst ms = map fst sv /\
    forall r m, In (r, m) ms ->
      1 <= m_first m <= m_last m + 1 /\ m_last m < kMaxIndex /\
      (forall i, 0 <= i < kMaxIndex -> (db_at (w_db w) r i <> None <-> m_first m <= i <= m_last m)) /\
      m_trunc m = map (fun c => (c, 0)) cs.
Proof.
  intros V. induction sv as [|[r x] sv IH]; intros S H.
  - exists []. split; [reflexivity|]. split; [reflexivity|intros r m []].
  - apply sorted_cons in S. destruct S as [S _]. destruct (H r x (in_eq _ _)) as [X R]. subst x.
    destruct IH as [ms [E [K P]]]; auto. { intros; apply H; right; auto. }
    destruct (db_bounds cs b L A C w r V R) as [f [l [E1 [E2 [E3 [E4 E5]]]]]].
    cbn [load_metas]. rewrite E1, E2, E. cbn [obind]. eexists. split; [reflexivity|]. split; [cbn [map fst]; congruence|].
    intros r' m [Q|Q]; [|apply P; auto]. inversion Q; subst. cbn [m_first m_last m_trunc]. auto.
Qed.

Lemma sorted_keys {V W} (l : smap Z V) : forall (l' : smap Z W), map fst l' = map fst l -> sorted Z.compare l -> sorted Z.compare l'.
Proof.
  induction l as [|[k v] l IH]; intros [|[k' v'] l'] E S; try discriminate; [constructor|].
  cbn [map fst] in E. inversion E; subst. apply sorted_cons in S. destruct S as [S F]. apply sorted_cons. split; auto.
  rewrite Forall_forall in *. intros [k2 v2] H. assert (X : In k2 (map fst l)) by (rewrite <- H1; apply (in_map fst) in H; exact H).
  apply in_map_iff in X. destruct X as [[k3 v3] [X1 X2]]. cbn [fst] in X1. subst k3. apply (F _ X2).
Qed.

Lemma get_keys {V} (l : smap Z V) r : sorted Z.compare l -> (get Z.compare l r <> None <-> In r (map fst l)).
Proof.
  intros S. split.
  - destruct (get Z.compare l r) as [v|] eqn:E; [|congruence]. intros _. apply (get_In Z.compare zcmp_ok) in E.
    apply (in_map fst) in E. exact E.
  - intros H. apply in_map_iff in H. destruct H as [[k v] [H1 H2]]. cbn [fst] in H1. subst k.
    apply (In_get Z.compare zcmp_ok) in H2; auto. congruence.
Qed.

Lemma inv_restart cs b L A C w : linv cs b L A C w ->
  exists w', w_restart w = Ok w' /\ linv cs b L A (fun _ => 0) w'.
Proof.
  intros V. assert (SS := li_ss _ _ _ _ _ _ V).
  destruct (load_metas_ok cs b L A C w V (w_saved w) SS) as [ms [E [K P]]].
  { intros r x H. apply (li_savok _ _ _ _ _ _ V). apply (In_get Z.compare zcmp_ok); auto. }
  assert (SM : sorted Z.compare ms) by (eapply sorted_keys; eauto).
  assert (GS : forall r, get Z.compare ms r <> None <-> get Z.compare (w_saved w) r <> None).
  { intros r. rewrite !get_keys, K by auto. reflexivity. }
  unfold w_restart. rewrite E. cbn [obind]. eexists. split; [reflexivity|].
  destruct V as [Vcs Vb Vsd Vsm Vss Vst Vk Vdb Vlog Vmono Vlost Vreg Vmeta Vnone Vsav Vsok Vpos Vt].
  constructor; cbn [w_clients w_cached w_db w_metas w_saved w_terms]; auto.
  - constructor.
  - intros r H. apply GS in H. destruct (get Z.compare (w_saved w) r) as [x|] eqn:Q; [|congruence]. apply (Vsok r x Q).
  - intros r m H. apply (get_In Z.compare zcmp_ok) in H. destruct (P r m H) as [P1 [P2 [P3 P4]]].
    split; auto. split; auto. split; auto. rewrite P4. split.
    + rewrite map_map. cbn [fst]. apply map_id.
    + intros c k X. apply in_map_iff in X. destruct X as [c0 [X _]]. inversion X; subst. auto.
  - intros r H i. apply Vnone. destruct (get Z.compare (w_metas w) r) eqn:Q; auto.
    assert (X : get Z.compare (w_saved w) r <> None) by (apply Vsav; congruence). apply GS in X. congruence.
  - intros r H. apply GS; auto.
  - intros r c H. discriminate.
Qed.

(* ---------------------------------------------------------------- all histories *)
Lemma linv_step cs b L A C w o : linv cs b L A C w -> lallowed w L o ->
  exists w', lstep w o = Ok w' /\ linv cs b (log_step L o) (ask_step A o) (cut_step C o) w'.
Proof.
  intros V H. destruct o as [r|r es|c r keep|r keep|r next|r|]; cbn [lallowed lstep] in *.
  - cbn [log_step ask_step]. apply inv_open; auto.
  - destruct H as [R [[OT OM] [N [last [t [E [CO LE]]]]]]].
    destruct (get Z.compare (w_metas w) r) as [m|] eqn:M; [|congruence].
    destruct (get Z.compare (w_terms w) r) as [c|] eqn:T; [|congruence].
    unfold last_index in E. rewrite M in E. apply Ok_inj in E. subst last.
    cbn [log_step ask_step cut_step]. eapply inv_append; eauto.
  - destruct H as [R [K O]]. destruct c.
    + cbn [log_step]. apply inv_raft_prefix; auto.
    + cbn [log_step cut_step]. destruct (inv_prefix cs b L A C w VectorIndex r keep V O K) as [w' [W [V' _]]]. eauto.
  - destruct H as [R [O K]]. cbn [log_step ask_step cut_step].
    destruct (inv_suffix cs b L A C w r keep V O K) as [w' [ok [W V']]]. rewrite W. cbn [obind fst].
    eexists. split; [reflexivity|]. destruct (suffix_last _ _ _ _ _ W) as [m [M LM]].
    apply (linv_lower cs b _ _ C _ w' r m); auto.
    + intros r' N. destruct (r' =? r) eqn:Q; [apply Z.eqb_eq in Q; congruence|lia].
    + rewrite Z.eqb_refl. lia.
  - destruct H as [R [O K]]. apply inv_reset; auto.
  - eexists. split; [reflexivity|]. apply inv_destroy; auto.
  - cbn [log_step ask_step cut_step]. apply (inv_restart cs b L A C); auto.
Qed.

Lemma linv_reach cs b os w : lreach cs b os w -> linv cs b (log_of os) (asked os) (raft_cut os) w.
Proof.
  induction 1 as [|os w o w' H IH AL ST]; [apply linv_init|].
  destruct (linv_step cs b _ _ _ w o IH AL) as [w2 [E V]]. assert (w2 = w') by congruence. subst w2.
  unfold log_of, asked, raft_cut. rewrite !fold_left_app. exact V.
Qed.
