(** Preservation of the log invariant by truncation, reset, destruction, opening and restart. *)
From Coq Require Import ZArith List Bool Lia Sorted.
From Verif Require Import Bytes SMap Outcome LogModel LogSpec LogProofs LogProofs2.
Import ListNotations.
Open Scope Z_scope.

Lemma client_eqb_eq a b : client_eqb a b = true <-> a = b.
Proof. destruct a, b; cbn; split; congruence. Qed.

Lemma trunc_loop_spec c keep ts : forall mn ts' m, trunc_loop c keep ts mn = Some (ts', m) ->
  ts' = map (fun p => if client_eqb (fst p) c then (fst p, keep) else p) ts /\ m <= mn /\
  (forall c' k, In (c', k) ts' -> m <= k) /\ (m = mn \/ exists c' k, In (c', k) ts' /\ m = k).
Proof.
  induction ts as [|[c' k] ts IH]; intros mn ts' m H; cbn [trunc_loop] in H.
  - inversion H; subst. split; [reflexivity|]. split; [lia|]. split; [intros ? ? []|auto].
  - cbn [map fst]. destruct (client_eqb c' c) eqn:E.
    + destruct (keep <=? k); [discriminate|].
      destruct (trunc_loop c keep ts (Z.min mn keep)) as [[ts1 m1]|] eqn:Q; [|discriminate].
      inversion H; subst. apply IH in Q. destruct Q as [Q1 [Q2 [Q3 Q4]]].
      split; [congruence|]. split; [lia|]. split.
      * intros c0 k0 [X|X]; [inversion X; subst; lia|eauto].
      * destruct Q4 as [Q4|[c0 [k0 [X Y]]]]; [|right; exists c0, k0; split; [right|]; auto].
        destruct (Z.min_dec mn keep) as [Z0|Z0]; [left; lia|right]. exists c', keep. split; [left; auto|lia].
    + destruct (trunc_loop c keep ts (Z.min mn k)) as [[ts1 m1]|] eqn:Q; [|discriminate].
      inversion H; subst. apply IH in Q. destruct Q as [Q1 [Q2 [Q3 Q4]]].
      split; [congruence|]. split; [lia|]. split.
      * intros c0 k0 [X|X]; [inversion X; subst; lia|eauto].
      * destruct Q4 as [Q4|[c0 [k0 [X Y]]]]; [|right; exists c0, k0; split; [right|]; auto].
        destruct (Z.min_dec mn k) as [Z0|Z0]; [left; lia|right]. exists c', k. split; [left; auto|lia].
Qed.

Lemma inv_more cs b L A C A' C' w : linv cs b L A C w ->
  (forall c r, A c r <= A' c r) -> (forall r, C r <= C' r) -> linv cs b L A' C' w.
Proof.
  intros V HA HC. destruct V as [Vcs Vb Vsd Vsm Vss Vst Vk Vdb Vlog Vmono Vlost Vreg Vmeta Vnone Vsav Vsok Vpos Vt].
  constructor; auto.
  - intros r i e H1 H2 c Hc. specialize (Vlost r i e H1 H2 c Hc). specialize (HA c r). lia.
  - intros r m M. destruct (Vmeta r m M) as [F [K [D [TR TA]]]]. split; [auto|]. split; [auto|].
    split; [auto|]. split; [auto|]. intros c k H. specialize (TA c k H). specialize (HA c r). lia.
  - intros c r. specialize (Vpos c r). specialize (HA c r). lia.
  - intros r c T. destruct (Vt r c T) as [m [M X]]. exists m. split; auto. intros B. destruct (X B) as [X1 [X2 X3]].
    split; auto. split; auto. intros i e I CI H. apply X3; auto. specialize (HC r). lia.
Qed.

(** only the truncation indexes of one region change *)
Lemma inv_trunc cs b L A C w r m ts : linv cs b L A C w -> get Z.compare (w_metas w) r = Some m ->
  map fst ts = cs -> (forall c k, In (c, k) ts -> k <= A c r) ->
  linv cs b L A C (with_metas w (put Z.compare (w_metas w) r (mkM (m_first m) (m_last m) ts))).
Proof.
  intros V M TS TA. destruct V as [Vcs Vb Vsd Vsm Vss Vst Vk Vdb Vlog Vmono Vlost Vreg Vmeta Vnone Vsav Vsok Vpos Vt].
  constructor; cbn [with_metas w_clients w_cached w_db w_metas w_saved w_terms]; auto.
  - apply (sorted_put Z.compare zcmp_ok); auto.
  - intros r' H. rewrite zget_put_eq in H. destruct (r' =? r) eqn:Q; [|auto]. apply Z.eqb_eq in Q. subst. apply Vreg. congruence.
  - intros r' m' H. rewrite zget_put_eq in H. destruct (r' =? r) eqn:Q; [|apply Vmeta; auto].
    apply Z.eqb_eq in Q. subst r'. inversion H; subst m'. cbn [m_first m_last m_trunc].
    destruct (Vmeta r m M) as [F [K [D _]]]. auto.
  - intros r' H. rewrite zget_put_eq in H. destruct (r' =? r) eqn:Q; [discriminate|]. apply Vnone; auto.
  - intros r' H. rewrite zget_put_eq in H. destruct (r' =? r) eqn:Q; [|auto]. apply Z.eqb_eq in Q. subst. apply Vsav. congruence.
  - intros r' c T. destruct (Vt r' c T) as [m' [M' X]]. rewrite zget_put_eq. destruct (r' =? r) eqn:Q; [|eauto].
    apply Z.eqb_eq in Q. subst r'. assert (m' = m) by congruence. subst m'. eexists. split; [reflexivity|]. exact X.
Qed.

(** the front is cut off *)
Lemma inv_cut_front cs b L A C w r m mn : linv cs b L A C w -> get Z.compare (w_metas w) r = Some m ->
  m_first m < mn < kMaxIndex -> (forall c, In c cs -> mn <= A c r) ->
  linv cs b L A C
    (mkWal (w_clients w) (w_cached w) (del_range (w_db w) (enc_key r 0) (enc_key r mn))
           (put Z.compare (w_metas w) r (mkM mn (if m_last m <? mn then mn - 1 else m_last m) (m_trunc m)))
           (w_saved w) (w_terms w)).
Proof.
  intros V M MN AS. destruct V as [Vcs Vb Vsd Vsm Vss Vst Vk Vdb Vlog Vmono Vlost Vreg Vmeta Vnone Vsav Vsok Vpos Vt].
  assert (R : region_ok r) by (apply Vreg; congruence). assert (R64 := region_i64 r R).
  destruct (Vmeta r m M) as [F [K [D [TR TA]]]].
  assert (DB : forall r' i, region_ok r' -> 0 <= i < kMaxIndex ->
    db_at (del_range (w_db w) (enc_key r 0) (enc_key r mn)) r' i =
    if (r' =? r) && (0 <=? i) && (i <? mn) then None else db_at (w_db w) r' i).
  { intros r' i R' I. apply db_at_del; auto; try (unfold i64; unfold kMaxIndex in *; lia). apply region_i64; auto. }
  set (last := if m_last m <? mn then mn - 1 else m_last m).
  assert (LA : m_last m <= last /\ mn - 1 <= last < kMaxIndex /\ (last = m_last m \/ last = mn - 1 /\ m_last m < mn)).
  { unfold last. destruct (m_last m <? mn) eqn:E; [apply Z.ltb_lt in E|apply Z.ltb_ge in E]; lia. }
  constructor; cbn [w_clients w_cached w_db w_metas w_saved w_terms]; auto.
  - apply sorted_filter; auto.
  - apply (sorted_put Z.compare zcmp_ok); auto.
  - intros k v H. apply filter_In in H. destruct H. eauto.
  - intros r' i v R' I H. rewrite DB in H by auto. destruct ((r' =? r) && (0 <=? i) && (i <? mn)); [discriminate|]. apply Vdb; auto.
  - intros r' i e H H2 c Hc. assert (X := Vlog r' i e H). destruct X as [R' [I' EO]].
    assert (I : 0 <= i < kMaxIndex) by (destruct EO as [_ [_ [Y _]]]; lia). rewrite DB in H2 by auto.
    destruct ((r' =? r) && (0 <=? i) && (i <? mn)) eqn:Q; [|eapply Vlost; eauto].
    apply andb_true_iff in Q. destruct Q as [Q1 Q2]. apply andb_true_iff in Q1. destruct Q1 as [Q1 _].
    apply Z.eqb_eq in Q1. apply Z.ltb_lt in Q2. subst r'. specialize (AS c Hc). lia.
  - intros r' H. rewrite zget_put_eq in H. destruct (r' =? r) eqn:Q; [|auto]. apply Z.eqb_eq in Q. subst. auto.
  - intros r' m' H. rewrite zget_put_eq in H. destruct (r' =? r) eqn:Q.
    + apply Z.eqb_eq in Q. subst r'. inversion H; subst m'. cbn [m_first m_last m_trunc]. split; [lia|]. split; [lia|].
      split; [|auto]. intros i I. rewrite DB, Z.eqb_refl by auto. cbn [andb].
      destruct (0 <=? i) eqn:Q0; [|apply Z.leb_gt in Q0; lia]. cbn [andb].
      destruct (i <? mn) eqn:Q1; [apply Z.ltb_lt in Q1|apply Z.ltb_ge in Q1].
      * split; [congruence|lia].
      * rewrite D by auto. lia.
    + destruct (Vmeta r' m' H) as [F' [K' [D' TT]]]. split; auto. split; auto. split; auto.
      intros i I. rewrite DB, Q by (auto; apply Vreg; congruence). apply D'; auto.
  - intros r' H. rewrite zget_put_eq in H. destruct (r' =? r) eqn:Q; [discriminate|]. apply Vnone; auto.
  - intros r' H. rewrite zget_put_eq in H. destruct (r' =? r) eqn:Q; [|auto]. apply Z.eqb_eq in Q. subst. apply Vsav. congruence.
  - intros r' c T. destruct (Vt r' c T) as [m' [M' X]]. rewrite zget_put_eq. destruct (r' =? r) eqn:Q; [|eauto].
    apply Z.eqb_eq in Q. subst r'. assert (m' = m) by congruence. subst m'. eexists. split; [reflexivity|].
    cbn [m_first m_last]. intros B. destruct (X B) as [X1 [X2 X3]]. split; auto. split.
    + intros x u H. destruct (X2 x u H) as [Y1 Y2]. split; auto. lia.
    + intros i e I CI H. apply X3; auto. destruct LA as [_ [_ [LA|[LA1 LA2]]]]; lia.
Qed.

Lemma ask_more A o : (forall c r, 0 <= A c r) -> (forall c r keep, o = LPrefix c r keep -> 0 <= keep) ->
  match o with LPrefix _ _ _ => forall c r, A c r <= ask_step A o c r | _ => True end.
Proof.
  intros P K. destruct o; auto. intros c' r'. cbn [ask_step].
  destruct (client_eqb c' c && (r' =? r)); lia.
Qed.

Lemma inv_prefix cs b L A C w c r keep : linv cs b L A C w -> get Z.compare (w_metas w) r <> None ->
  0 <= keep <= kMaxIndex ->
  exists w', truncate_prefix w c r keep = Ok w' /\ linv cs b L (ask_step A (LPrefix c r keep)) C w' /\
             w_cached w' = w_cached w /\ w_terms w' = w_terms w.
Proof.
  intros V N K. set (A' := ask_step A (LPrefix c r keep)).
  assert (V' : linv cs b L A' C w).
  { apply (inv_more cs b L A C); auto; [|lia].
    apply (ask_more A (LPrefix c r keep)); [apply (li_pos _ _ _ _ _ _ V)|]. intros ? ? ? E. inversion E; subst; lia. }
  unfold truncate_prefix. destruct (get Z.compare (w_metas w) r) as [m|] eqn:M; [|congruence].
  destruct (keep <=? m_first m) eqn:KF; [exists w; auto|].
  destruct (trunc_loop c keep (m_trunc m) kMaxIndex) as [[ts mn]|] eqn:TL; [|exists w; auto].
  apply trunc_loop_spec in TL. destruct TL as [TS [TM [TK _]]].
  destruct (li_meta _ _ _ _ _ _ V r m M) as [F [KM [D [TR TA]]]].
  assert (TS1 : map fst ts = cs).
  { rewrite TS, map_map, <- TR. apply map_ext. intros [c' k]. cbn [fst]. destruct (client_eqb c' c); reflexivity. }
  assert (TS2 : forall c' k, In (c', k) ts -> k <= A' c' r).
  { intros c' k H. rewrite TS in H. apply in_map_iff in H. destruct H as [[c0 k0] [H1 H2]]. cbn [fst] in H1.
    unfold A'. cbn [ask_step]. rewrite Z.eqb_refl, andb_true_r.
    destruct (client_eqb c0 c) eqn:Q; inversion H1; subst; rewrite Q.
    - lia.
    - apply TA; auto. }
  unfold upd_meta. rewrite M. cbn [obind].
  assert (V1 := inv_trunc cs b L A' C w r m ts V' M TS1 TS2).
  destruct ((mn =? kMaxIndex) || (mn <=? m_first m)) eqn:B; [eexists; split; [reflexivity|]; split; [exact V1|auto]|].
  apply orb_false_iff in B. destruct B as [B1 B2]. apply Z.eqb_neq in B1. apply Z.leb_gt in B2.
  destruct (m_first m <? mn) eqn:B3; [|apply Z.ltb_ge in B3; lia].
  cbn [with_db with_metas w_metas w_db]. rewrite zget_put_eq, Z.eqb_refl. cbn [m_first m_last m_trunc].
  eexists. split; [reflexivity|].
  assert (MV : get Z.compare (w_metas (with_metas w (put Z.compare (w_metas w) r (mkM (m_first m) (m_last m) ts)))) r
               = Some (mkM (m_first m) (m_last m) ts)).
  { cbn [with_metas w_metas]. rewrite zget_put_eq, Z.eqb_refl. reflexivity. }
  assert (X := inv_cut_front cs b L A' C _ r _ mn V1 MV). cbn [m_first m_last m_trunc] in X.
  split; [|split; reflexivity]. apply X; [lia|].
  intros c0 H0. rewrite <- TS1 in H0. apply in_map_iff in H0. destruct H0 as [[c1 k1] [H1 H2]]. cbn [fst] in H1. subst c1.
  specialize (TS2 c0 k1 H2). specialize (TK c0 k1 H2). lia.
Qed.

(** only the cache of one region changes *)
Lemma inv_terms cs b L A C C' w r m c : linv cs b L A C w -> get Z.compare (w_metas w) r = Some m ->
  (forall r', r' <> r -> C r' <= C' r') ->
  (b = true -> inc c /\
       (forall x u, In (x, u) c -> x <= m_last m /\ exists e, L r x = Some e /\ e_term e = u) /\
       (forall i e, m_first m <= i <= m_last m -> C' r <= i -> L r i = Some e -> lookup c i 0 = e_term e)) ->
  linv cs b L A C' (with_terms w (put Z.compare (w_terms w) r c)).
Proof.
  intros V M CC HC. destruct V as [Vcs Vb Vsd Vsm Vss Vst Vk Vdb Vlog Vmono Vlost Vreg Vmeta Vnone Vsav Vsok Vpos Vt].
  constructor; cbn [with_terms w_clients w_cached w_db w_metas w_saved w_terms]; auto.
  - apply (sorted_put Z.compare zcmp_ok); auto.
  - intros r' c' H. rewrite zget_put_eq in H. destruct (r' =? r) eqn:Q.
    + apply Z.eqb_eq in Q. subst r'. inversion H; subst c'. exists m. auto.
    + destruct (Vt r' c' H) as [m' [M' X]]. exists m'. split; auto. intros B. destruct (X B) as [X1 [X2 X3]].
      split; auto. split; auto. intros i e I CI HL. apply X3; auto. apply Z.eqb_neq in Q. specialize (CC r' Q). lia.
Qed.

Lemma inv_raft_prefix cs b L A C w r keep : linv cs b L A C w -> opened w r -> 0 <= keep <= kMaxIndex ->
  exists w', w_prefix w r keep = Ok w' /\
    linv cs b L (ask_step A (LPrefix Raft r keep)) (cut_step C (LPrefix Raft r keep)) w'.
Proof.
  intros V [OT OM] K. destruct (inv_prefix cs b L A C w Raft r keep V OM K) as [w1 [W1 [V1 [B1 T1]]]].
  unfold w_prefix. rewrite W1. cbn [obind]. cbn [cut_step].
  assert (Bw : w_cached w = b) by apply (li_b _ _ _ _ _ _ V).
  destruct (w_cached w) eqn:B; subst b.
  - eexists. split; [reflexivity|]. destruct (get Z.compare (w_terms w1) r) as [c|] eqn:T; [|rewrite T1 in T; congruence].
    destruct (li_terms _ _ _ _ _ _ V1 r c T) as [m [M X]]. destruct (X eq_refl) as [X1 [X2 X3]].
    unfold terms_of. rewrite T. eapply (inv_terms _ _ _ _ C _ w1 r m); eauto.
    + intros r' N. destruct (r' =? r) eqn:Q; [apply Z.eqb_eq in Q; congruence|lia].
    + intros _. split; [apply cache_prefix_inc; auto|]. split.
      * intros x u H. apply cache_prefix_In in H. auto.
      * rewrite Z.eqb_refl. intros i e I CI H. rewrite cache_prefix_lookup by (auto; lia). apply X3; auto. lia.
  - exists w1. split; auto. apply (inv_more cs false L (ask_step A (LPrefix Raft r keep)) C); auto.
    + intros; lia.
    + intros r'. destruct (r' =? r); lia.
Qed.

(* ---------------------------------------------------------------- the back is cut off *)
Definition cut_log (L : log) (r keep : Z) : log := fun r' i => if (r' =? r) && (keep <? i) then None else L r' i.

(** after removing everything above [keep] from region r; [mo] is its meta afterwards *)
Lemma inv_drop cs b L A C w r lo L' A' C' metas' saved' terms' : linv cs b L A C w -> region_ok r -> 0 <= lo < kMaxIndex ->
  (forall r' i, L' r' i = if (r' =? r) && (lo <=? i) then None else L r' i) ->
  (forall c r', 0 <= A' c r') ->
  (forall c r', r' <> r -> A c r' <= A' c r') -> (forall r', r' <> r -> C r' <= C' r') ->
  (forall r', r' <> r -> get Z.compare metas' r' = get Z.compare (w_metas w) r') ->
  (forall r', r' <> r -> get Z.compare terms' r' = get Z.compare (w_terms w) r') ->
  (forall r', get Z.compare (w_saved w) r' <> None -> get Z.compare saved' r' <> None) ->
  (forall r' x, get Z.compare saved' r' = Some x -> x = cs /\ region_ok r') ->
  sorted Z.compare metas' -> sorted Z.compare saved' -> sorted Z.compare terms' ->
  (forall i e, L' r i = Some e -> db_at (w_db w) r i = None -> forall c, In c cs -> i < A' c r) ->
  (get Z.compare metas' r <> None -> get Z.compare saved' r <> None) ->
  (forall m, get Z.compare metas' r = Some m ->
    1 <= m_first m <= m_last m + 1 /\ m_last m < kMaxIndex /\
    (forall i, 0 <= i < kMaxIndex -> (i < lo /\ db_at (w_db w) r i <> None <-> m_first m <= i <= m_last m)) /\
    map fst (m_trunc m) = cs /\ (forall c k, In (c, k) (m_trunc m) -> k <= A' c r)) ->
  (get Z.compare metas' r = None -> forall i, L' r i = None) ->
  (forall c, get Z.compare terms' r = Some c ->
    exists m, get Z.compare metas' r = Some m /\
      (b = true ->
       inc c /\
       (forall x u, In (x, u) c -> x <= m_last m /\ exists e, L' r x = Some e /\ e_term e = u) /\
       (forall i e, m_first m <= i <= m_last m -> C' r <= i -> L' r i = Some e -> lookup c i 0 = e_term e))) ->
  linv cs b L' A' C'
    (mkWal (w_clients w) (w_cached w) (del_range (w_db w) (enc_key r lo) (enc_key r kMaxIndex)) metas' saved' terms').
Proof.
  intros V R LO EL PA HA HC HM HT HS HSok SM SS ST HL HMS HMR HMN HTR.
  destruct V as [Vcs Vb Vsd Vsm Vss Vst Vk Vdb Vlog Vmono Vlost Vreg Vmeta Vnone Vsav Vsok Vpos Vt].
  assert (R64 := region_i64 r R).
  assert (DB : forall r' i, region_ok r' -> 0 <= i < kMaxIndex ->
    db_at (del_range (w_db w) (enc_key r lo) (enc_key r kMaxIndex)) r' i =
    if (r' =? r) && (lo <=? i) then None else db_at (w_db w) r' i).
  { intros r' i R' I. rewrite db_at_del; auto; try (unfold i64; unfold kMaxIndex in *; lia); [|apply region_i64; auto].
    replace (i <? kMaxIndex) with true by (symmetry; apply Z.ltb_lt; lia). rewrite andb_true_r. reflexivity. }
  assert (LL : forall r' i e, L' r' i = Some e -> L r' i = Some e).
  { intros r' i e H. rewrite EL in H. destruct ((r' =? r) && (lo <=? i)); [discriminate|auto]. }
  assert (LO' : forall r' i, r' <> r -> L' r' i = L r' i).
  { intros r' i N. rewrite EL. destruct (r' =? r) eqn:Q; [apply Z.eqb_eq in Q; congruence|reflexivity]. }
  constructor; cbn [w_clients w_cached w_db w_metas w_saved w_terms]; auto.
  - apply sorted_filter; auto.
  - intros k v H. apply filter_In in H. destruct H. eauto.
  - intros r' i v R' I H. rewrite DB in H by auto. rewrite EL. destruct ((r' =? r) && (lo <=? i)); [discriminate|]. apply Vdb; auto.
  - intros r' i j e e' H1 H2 IJ. apply (Vmono r' i j); auto.
  - intros r' i e H H2 c Hc. assert (X := Vlog r' i e (LL _ _ _ H)). destruct X as [R' [I' EO]].
    assert (I : 0 <= i < kMaxIndex) by (destruct EO as [_ [_ [Y _]]]; lia). rewrite DB in H2 by auto.
    destruct ((r' =? r) && (lo <=? i)) eqn:Q; [rewrite EL, Q in H; discriminate|].
    destruct (Z.eq_dec r' r); [subst r'; eapply HL; eauto|]. specialize (Vlost r' i e (LL _ _ _ H) H2 c Hc).
    specialize (HA c r' n). lia.
  - intros r' H. destruct (Z.eq_dec r' r); [subst; auto|]. rewrite HM in H by auto. auto.
  - intros r' m' H. destruct (Z.eq_dec r' r).
    + subst r'. destruct (HMR m' H) as [F [K [D TT]]]. split; auto. split; auto. split; auto.
      intros i I. rewrite DB, Z.eqb_refl by auto. cbn [andb]. rewrite <- D by auto.
      destruct (lo <=? i) eqn:Q; [apply Z.leb_le in Q|apply Z.leb_gt in Q].
      * split; [congruence|lia].
      * tauto.
    + rewrite HM in H by auto. destruct (Vmeta r' m' H) as [F [K [D [TR TA]]]]. split; auto. split; auto. split; [|split; auto].
      * intros i I. rewrite DB by (auto; apply Vreg; congruence).
        destruct (r' =? r) eqn:Q; [apply Z.eqb_eq in Q; congruence|]. apply D; auto.
      * intros c k X. specialize (TA c k X). specialize (HA c r' n). lia.
  - intros r' H i. destruct (Z.eq_dec r' r); [subst; auto|]. rewrite LO' by auto. rewrite HM in H by auto. apply Vnone; auto.
  - intros r' H. destruct (Z.eq_dec r' r); [subst; auto|]. rewrite HM in H by auto. apply HS. auto.
  - intros r' c H. destruct (Z.eq_dec r' r); [subst; auto|]. rewrite HT in H by auto. rewrite HM by auto.
    destruct (Vt r' c H) as [m' [M' X]]. exists m'. split; auto. intros B. destruct (X B) as [X1 [X2 X3]].
    split; auto. split.
    + intros x u Y. destruct (X2 x u Y) as [Y1 [e [Y2 Y3]]]. split; auto. exists e. rewrite LO' by auto. auto.
    + intros i e I CI Y. rewrite LO' in Y by auto. apply X3; auto. specialize (HC r' n). lia.
Qed.
