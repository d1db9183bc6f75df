(** The invariant of the log storage and its preservation by every call. *)
From Coq Require Import ZArith List Bool Lia Sorted.
From Verif Require Import Bytes SMap Outcome LogModel LogSpec LogProofs.
Import ListNotations.
Open Scope Z_scope.

Lemma zcmp_ok : cmp_ok Z.compare.
Proof.
  constructor.
  - intros a b. apply Z.compare_eq_iff.
  - intros a b. apply Z.compare_antisym.
  - intros a b c H1 H2. change (a < b) in H1. change (b < c) in H2. change (a < c). lia.
Qed.

Lemma get_filter {K V} (cmp : K -> K -> comparison) (Hc : cmp_ok cmp) (f : K * V -> bool) m k :
  sorted cmp m ->
  get cmp (filter f m) k =
  match get cmp m k with Some v => if f (k, v) then Some v else None | None => None end.
Proof.
  intros S. destruct (get cmp m k) as [v|] eqn:E.
  - apply (get_In cmp Hc) in E. destruct (f (k, v)) eqn:F.
    + apply (In_get cmp Hc); [apply sorted_filter; auto|]. apply filter_In. auto.
    + destruct (get cmp (filter f m) k) as [v'|] eqn:E2; auto.
      apply (get_In cmp Hc) in E2. apply filter_In in E2. destruct E2 as [I2 F2].
      apply (In_get cmp Hc) in E; auto. apply (In_get cmp Hc) in I2; auto. congruence.
  - destruct (get cmp (filter f m) k) as [v'|] eqn:E2; auto.
    apply (get_In cmp Hc) in E2. apply filter_In in E2. destruct E2 as [I2 F2].
    apply (In_get cmp Hc) in I2; auto. congruence.
Qed.

Definition zget_put {V} (m : smap Z V) := get_put Z.compare zcmp_ok m.

Lemma zget_put_eq {V} (m : smap Z V) r v r' :
  get Z.compare (put Z.compare m r v) r' = if r' =? r then Some v else get Z.compare m r'.
Proof.
  rewrite (get_put Z.compare zcmp_ok). destruct (cmp_dec Z.compare zcmp_ok r r') as [E|E].
  - subst. rewrite Z.eqb_refl. reflexivity.
  - destruct (r' =? r) eqn:Q; auto. apply Z.eqb_eq in Q. congruence.
Qed.
Lemma zget_del_eq {V} (m : smap Z V) r r' : sorted Z.compare m ->
  get Z.compare (del Z.compare m r) r' = if r' =? r then None else get Z.compare m r'.
Proof.
  intros S. rewrite (get_del Z.compare zcmp_ok) by auto. destruct (cmp_dec Z.compare zcmp_ok r r') as [E|E].
  - subst. rewrite Z.eqb_refl. reflexivity.
  - destruct (r' =? r) eqn:Q; auto. apply Z.eqb_eq in Q. congruence.
Qed.

Lemma put_put {K V} (cmp : K -> K -> comparison) (Hc : cmp_ok cmp) (m : smap K V) k v v' :
  put cmp (put cmp m k v) k v' = put cmp m k v'.
Proof.
  induction m as [|[a b] m IH]; cbn [put].
  - rewrite (cmp_refl cmp Hc). reflexivity.
  - destruct (cmp k a) eqn:E; cbn [put]; rewrite ?(cmp_refl cmp Hc), ?E; auto. rewrite IH. reflexivity.
Qed.

(* ---------------------------------------------------------------- the entries on disk *)
Definition db_at (d : smap bytes bytes) (r i : Z) : option bytes := get bcmp d (enc_key r i).

Lemma region_i64 r : region_ok r -> i64 r.
Proof. unfold region_ok, i64. lia. Qed.
Lemma index_i64 i : 0 <= i <= kMaxIndex -> i64 i.
Proof. auto. Qed.

Lemma key_in_range r a b r' i : i64 r -> i64 a -> i64 b -> i64 r' -> i64 i ->
  bleb (enc_key r a) (enc_key r' i) && bltb (enc_key r' i) (enc_key r b) =
  (r' =? r) && (a <=? i) && (i <? b).
Proof.
  intros R A B R' I. unfold bleb, bltb. rewrite !enc_key_cmp by auto.
  rewrite (Z.compare_antisym r' r). unfold Z.leb, Z.ltb.
  destruct (Z.compare r' r) eqn:E; cbn [CompOpp].
  - apply Z.compare_eq in E. subst r'. rewrite Z.eqb_refl.
    destruct (Z.compare a i); reflexivity.
  - destruct (r' =? r) eqn:Q; [apply Z.eqb_eq in Q; subst; rewrite Z.compare_refl in E; discriminate|]. reflexivity.
  - destruct (r' =? r) eqn:Q; [apply Z.eqb_eq in Q; subst; rewrite Z.compare_refl in E; discriminate|]. reflexivity.
Qed.

Lemma db_at_del d r a b r' i : sorted bcmp d -> i64 r -> i64 a -> i64 b -> i64 r' -> i64 i ->
  db_at (del_range d (enc_key r a) (enc_key r b)) r' i =
  if (r' =? r) && (a <=? i) && (i <? b) then None else db_at d r' i.
Proof.
  intros S R A B R' I. unfold db_at, del_range. rewrite (get_filter bcmp bcmp_ok) by auto. cbn [fst].
  rewrite key_in_range by auto.
  destruct (get bcmp d (enc_key r' i)); destruct ((r' =? r) && (a <=? i) && (i <? b)); reflexivity.
Qed.

Lemma db_at_put d r e r' i : i64 r -> i64 (e_index e) -> i64 r' -> i64 i ->
  db_at (put_entry d r e) r' i =
  if (r' =? r) && (i =? e_index e) then Some (enc_val (e_type e) (e_term e) (e_data e)) else db_at d r' i.
Proof.
  intros R E R' I. unfold db_at, put_entry. rewrite (get_put bcmp bcmp_ok).
  destruct (cmp_dec bcmp bcmp_ok (enc_key r (e_index e)) (enc_key r' i)) as [Q|Q].
  - apply enc_key_inj in Q; auto. destruct Q as [-> ->]. rewrite !Z.eqb_refl. reflexivity.
  - destruct ((r' =? r) && (i =? e_index e)) eqn:B; auto. apply andb_true_iff in B. destruct B as [B1 B2].
    apply Z.eqb_eq in B1, B2. subst. congruence.
Qed.

Definition entry_val (e : entry) : bytes := enc_val (e_type e) (e_term e) (e_data e).

Record linv (cs : list client) (b : bool) (L : log) (A : asks) (C : Z -> Z) (w : wal) : Prop := {
  li_cs : w_clients w = cs;
  li_b : w_cached w = b;
  li_sd : sorted bcmp (w_db w);
  li_sm : sorted Z.compare (w_metas w);
  li_ss : sorted Z.compare (w_saved w);
  li_st : sorted Z.compare (w_terms w);
  li_keys : forall k v, In (k, v) (w_db w) ->
    exists r i, k = enc_key r i /\ region_ok r /\ 0 < i < kMaxIndex;
  li_db : forall r i v, region_ok r -> 0 <= i < kMaxIndex -> db_at (w_db w) r i = Some v ->
    exists e, L r i = Some e /\ v = entry_val e;
  li_log : forall r i e, L r i = Some e -> region_ok r /\ e_index e = i /\ entry_ok e;
  li_mono : forall r i j e e', L r i = Some e -> L r j = Some e' -> i < j -> e_term e <= e_term e';
  li_lost : forall r i e, L r i = Some e -> db_at (w_db w) r i = None -> forall c, In c cs -> i < A c r;
  li_reg : forall r, get Z.compare (w_metas w) r <> None -> region_ok r;
  li_meta : forall r m, get Z.compare (w_metas w) r = Some m ->
    1 <= m_first m <= m_last m + 1 /\ m_last m < kMaxIndex /\
    (forall i, 0 <= i < kMaxIndex -> (db_at (w_db w) r i <> None <-> m_first m <= i <= m_last m)) /\
    map fst (m_trunc m) = cs /\ (forall c k, In (c, k) (m_trunc m) -> k <= A c r);
  li_none : forall r, get Z.compare (w_metas w) r = None -> forall i, L r i = None;
  li_saved : forall r, get Z.compare (w_metas w) r <> None -> get Z.compare (w_saved w) r <> None;
  li_savok : forall r x, get Z.compare (w_saved w) r = Some x -> x = cs /\ region_ok r;
  li_pos : forall c r, 0 <= A c r;
  li_terms : forall r c, get Z.compare (w_terms w) r = Some c ->
    exists m, get Z.compare (w_metas w) r = Some m /\
      (b = true ->
       inc c /\
       (forall x u, In (x, u) c -> x <= m_last m /\ exists e, L r x = Some e /\ e_term e = u) /\
       (forall i e, m_first m <= i <= m_last m -> C r <= i -> L r i = Some e -> lookup c i 0 = e_term e)) }.

Lemma linv_init cs b : linv cs b no_log (fun _ _ => 0) (fun _ => 0) (wal_init cs b).
Proof.
  constructor; cbn [wal_init w_clients w_cached w_db w_metas w_saved w_terms get];
    try reflexivity; try apply sorted_nil; try (intros; discriminate); try (intros; congruence).
  - intros k v [].
Qed.

Lemma li_in_log cs b L A C w : linv cs b L A C w -> forall r m, get Z.compare (w_metas w) r = Some m ->
  forall i, m_first m <= i <= m_last m -> exists e, L r i = Some e /\ db_at (w_db w) r i = Some (entry_val e).
Proof.
  intros V r m M i I. destruct (li_meta _ _ _ _ _ _ V r m M) as [F [K [D _]]].
  assert (R : region_ok r) by (apply (li_reg _ _ _ _ _ _ V); congruence).
  assert (X := proj2 (D i ltac:(lia)) I). destruct (db_at (w_db w) r i) as [v|] eqn:E; [|congruence].
  destruct (li_db _ _ _ _ _ _ V r i v R ltac:(lia) E) as [e [H1 H2]]. exists e. subst. auto.
Qed.

Lemma li_db_none cs b L A C w : linv cs b L A C w -> forall r i, region_ok r -> 0 <= i < kMaxIndex ->
  L r i = None -> db_at (w_db w) r i = None.
Proof.
  intros V r i R I H. destruct (db_at (w_db w) r i) as [v|] eqn:E; auto.
  destruct (li_db _ _ _ _ _ _ V r i v R I E) as [e [H1 _]]. congruence.
Qed.

(* ---------------------------------------------------------------- one appended entry *)
Definition append1 (w : wal) (r : Z) (m : meta) (e : entry) (c : cache) : wal :=
  mkWal (w_clients w) (w_cached w) (put_entry (w_db w) r e)
        (put Z.compare (w_metas w) r (mkM (m_first m) (e_index e) (m_trunc m)))
        (w_saved w) (put Z.compare (w_terms w) r c).

Lemma inv_append1 cs b L A C w r m e c : linv cs b L A C w ->
  get Z.compare (w_metas w) r = Some m -> get Z.compare (w_terms w) r = Some c ->
  e_index e = m_last m + 1 -> entry_ok e ->
  (forall i e', L r i = Some e' -> i <= m_last m /\ e_term e' <= e_term e) ->
  exists c', (b = true -> cache_append c (e_index e) (e_term e) = Some c') /\
    linv cs b (set_entry L r e) A C (append1 w r m e (if b then c' else c)).
Proof.
  intros V M T E EO LE. destruct V as [Vcs Vb Vsd Vsm Vss Vst Vk Vdb Vlog Vmono Vlost Vreg Vmeta Vnone Vsav Vsok Vpos Vt].
  assert (R : region_ok r) by (apply Vreg; congruence). assert (R64 := region_i64 r R).
  destruct (Vmeta r m M) as [F [K [D [TR TA]]]].
  assert (EI : 0 < e_index e < kMaxIndex) by (destruct EO as [_ [_ [X _]]]; lia).
  assert (EI64 : i64 (e_index e)) by (unfold i64; lia).
  assert (NEW : L r (e_index e) = None).
  { destruct (L r (e_index e)) as [e'|] eqn:Q; auto. apply LE in Q. lia. }
  assert (DB : forall r' i, region_ok r' -> 0 <= i < kMaxIndex ->
    db_at (put_entry (w_db w) r e) r' i =
    if (r' =? r) && (i =? e_index e) then Some (entry_val e) else db_at (w_db w) r' i).
  { intros r' i R' I. apply db_at_put; auto; [apply region_i64; auto|unfold i64; lia]. }
  destruct (Vt r c T) as [m' [M' VC]]. assert (m' = m) by congruence. subst m'. clear M'.
  assert (EX : exists c', (b = true -> cache_append c (e_index e) (e_term e) = Some c' /\
    inc c' /\ (forall x u, In (x, u) c' -> In (x, u) c \/ (x, u) = (e_index e, e_term e)) /\
    (forall j, j < e_index e -> lookup c' j 0 = lookup c j 0) /\
    (forall j, e_index e <= j -> lookup c' j 0 = e_term e))).
  { destruct b; [|exists []; discriminate]. destruct (VC eq_refl) as [S [IN LK]].
    destruct (cache_append_spec c (e_index e) (e_term e) S) as [c' H].
    - intros x u X. destruct (IN x u X) as [X1 [e' [X2 X3]]]. apply LE in X2. lia.
    - exists c'. intros _. tauto. }
  destruct EX as [c' HC]. exists c'. split; [intros B; apply HC; auto|].
  constructor; cbn [append1 w_clients w_cached w_db w_metas w_saved w_terms]; auto.
  - apply (sorted_put bcmp bcmp_ok); auto.
  - apply (sorted_put Z.compare zcmp_ok); auto.
  - apply (sorted_put Z.compare zcmp_ok); auto.
  - intros k v H. apply (In_put bcmp bcmp_ok) in H; auto. destruct H as [H|[H _]]; [|eauto].
    inversion H; subst. exists r, (e_index e). auto.
  - intros r' i v R' I H. rewrite DB in H by auto. unfold set_entry.
    destruct ((r' =? r) && (i =? e_index e)) eqn:Q; [|apply Vdb; auto].
    exists e. split; congruence.
  - intros r' i e' H. unfold set_entry in H. destruct ((r' =? r) && (i =? e_index e)) eqn:Q; [|apply Vlog; auto].
    apply andb_true_iff in Q. destruct Q as [Q1 Q2]. apply Z.eqb_eq in Q1, Q2. inversion H; subst. auto.
  - intros r' i j e1 e2 H1 H2 IJ. unfold set_entry in H1, H2.
    destruct (r' =? r) eqn:Q; [|apply (Vmono r' i j); auto]. apply Z.eqb_eq in Q. subst r'.
    cbn [andb] in H1, H2.
    destruct (i =? e_index e) eqn:Qi; destruct (j =? e_index e) eqn:Qj.
    + apply Z.eqb_eq in Qi, Qj. lia.
    + apply Z.eqb_eq in Qi. apply LE in H2. lia.
    + inversion H2; subst. apply LE in H1. lia.
    + apply (Vmono r i j); auto.
  - intros r' i e' H H2 c0 C0. unfold set_entry in H.
    assert (RI : region_ok r' /\ 0 <= i < kMaxIndex).
    { destruct ((r' =? r) && (i =? e_index e)) eqn:Q.
      - apply andb_true_iff in Q. destruct Q as [Q1 Q2]. apply Z.eqb_eq in Q1, Q2. subst. split; auto. lia.
      - destruct (Vlog r' i e' H) as [R' [I' [_ [_ [X _]]]]]. split; auto. lia. }
    destruct RI as [R' I]. rewrite DB in H2 by auto.
    destruct ((r' =? r) && (i =? e_index e)) eqn:Q; [discriminate|]. eapply Vlost; eauto.
  - intros r' H. rewrite zget_put_eq in H. destruct (r' =? r) eqn:Q; [apply Z.eqb_eq in Q; subst; auto|auto].
  - intros r' m' H. rewrite zget_put_eq in H. destruct (r' =? r) eqn:Q.
    + apply Z.eqb_eq in Q. subst r'. inversion H; subst m'. cbn [m_first m_last m_trunc].
      split; [lia|]. split; [lia|]. split; [|split; auto].
      intros i I. rewrite DB, Z.eqb_refl by auto. cbn [andb]. destruct (i =? e_index e) eqn:Qi.
      * apply Z.eqb_eq in Qi. split; [intros _; lia|discriminate].
      * apply Z.eqb_neq in Qi. rewrite D by auto. lia.
    + destruct (Vmeta r' m' H) as [F' [K' [D' TT]]]. split; auto. split; auto. split; auto.
      intros i I. rewrite DB, Q by (auto; apply Vreg; congruence). apply D'; auto.
  - intros r' H i. rewrite zget_put_eq in H. destruct (r' =? r) eqn:Q; [discriminate|].
    unfold set_entry. rewrite Q. cbn [andb]. apply Vnone; auto.
  - intros r' H. rewrite zget_put_eq in H. destruct (r' =? r) eqn:Q; [|auto].
    apply Z.eqb_eq in Q. subst. apply Vsav. congruence.
  - intros r' c0 H. rewrite zget_put_eq in H. destruct (r' =? r) eqn:Q.
    + apply Z.eqb_eq in Q. subst r'. rewrite zget_put_eq, Z.eqb_refl.
      eexists. split; [reflexivity|]. cbn [m_first m_last]. intros B.
      destruct (HC B) as [_ [S' [IN' [LO HI]]]]. destruct (VC B) as [S [IN LK]].
      rewrite B in H. inversion H; subst c0. split; auto. split.
      * intros x u X. destruct (IN' x u X) as [X2|X2].
        -- destruct (IN x u X2) as [X3 [e' [X4 X5]]]. split; [lia|]. exists e'. split; auto.
           unfold set_entry. rewrite Z.eqb_refl. cbn [andb].
           destruct (x =? e_index e) eqn:Qx; auto. apply Z.eqb_eq in Qx. lia.
        -- inversion X2; subst. split; [lia|]. exists e. split; auto. unfold set_entry. rewrite !Z.eqb_refl. reflexivity.
      * intros i e' I CI H2. unfold set_entry in H2. rewrite Z.eqb_refl in H2. cbn [andb] in H2.
        destruct (i =? e_index e) eqn:Qi.
        -- apply Z.eqb_eq in Qi. inversion H2; subst e'. apply HI. lia.
        -- apply Z.eqb_neq in Qi. rewrite LO by lia. apply LK; auto. lia.
    + destruct (Vt r' c0 H) as [m' [M' X]]. exists m'. rewrite zget_put_eq, Q. split; auto.
      intros B. destruct (X B) as [X1 [X2 X3]]. split; auto. unfold set_entry. rewrite Q. cbn [andb]. auto.
Qed.

Lemma w_append_eq w r m es e rest c : get Z.compare (w_metas w) r = Some m ->
  forallb has_data es = true -> rev es = e :: rest ->
  (w_cached w = true -> cache_all (terms_of w r) es = Ok c) ->
  w_append w r es =
  Ok (mkWal (w_clients w) (w_cached w) (fold_left (fun d x => put_entry d r x) es (w_db w))
            (put Z.compare (w_metas w) r (mkM (m_first m) (e_index e) (m_trunc m)))
            (w_saved w)
            (if w_cached w then put Z.compare (w_terms w) r c else w_terms w)).
Proof.
  intros M H E Hc. unfold w_append. rewrite H, E. cbn [negb]. unfold upd_meta.
  cbn [with_db w_metas w_cached w_terms]. rewrite M. cbn [obind].
  unfold with_metas, with_terms, with_db. cbn [w_clients w_cached w_db w_metas w_saved w_terms].
  destruct (w_cached w) eqn:B; [|reflexivity]. rewrite Hc by auto. reflexivity.
Qed.

Lemma entry_has_data e : entry_ok e -> has_data e = true.
Proof.
  intros [T _]. unfold has_data. destruct T as [T|[T|T]]; rewrite T; reflexivity.
Qed.

Lemma put_same {V} (m : smap Z V) r v : sorted Z.compare m -> get Z.compare m r = Some v -> put Z.compare m r v = m.
Proof.
  intros S G. apply (smap_ext Z.compare zcmp_ok); auto.
  - apply (sorted_put Z.compare zcmp_ok); auto.
  - intros k. rewrite zget_put_eq. destruct (k =? r) eqn:Q; auto. apply Z.eqb_eq in Q. subst. auto.
Qed.

Lemma inv_append cs b es : forall L A C w r m c t, linv cs b L A C w ->
  get Z.compare (w_metas w) r = Some m -> get Z.compare (w_terms w) r = Some c -> es <> [] ->
  continues (m_last m + 1) t es ->
  (forall i e', L r i = Some e' -> i <= m_last m /\ e_term e' <= t) ->
  exists w', w_append w r es = Ok w' /\ linv cs b (fold_left (fun L e => set_entry L r e) es L) A C w'.
Proof.
  induction es as [|e es IH]; intros L A C w r m c t V M T N CO LE; [congruence|].
  destruct CO as [E [TE [EO CO]]].
  destruct (inv_append1 cs b L A C w r m e c V M T E EO) as [c' [CA V1]].
  { intros i e' H. apply LE in H. lia. }
  set (w1 := append1 w r m e (if b then c' else c)) in *.
  assert (Bw : w_cached w = b) by apply (li_b _ _ _ _ _ _ V).
  assert (TW : terms_of w r = c) by (unfold terms_of; rewrite T; auto).
  destruct es as [|e2 es].
  - exists w1. split; [|exact V1].
    rewrite (w_append_eq w r m [e] e [] c'); auto.
    + cbn [fold_left]. unfold w1, append1. rewrite Bw. destruct b; auto. rewrite (put_same (w_terms w)); auto.
      apply (li_st _ _ _ _ _ _ V).
    + cbn [forallb]. rewrite entry_has_data; auto.
    + intros B. cbn [cache_all]. rewrite TW, CA by congruence. reflexivity.
  - assert (M1 : get Z.compare (w_metas w1) r = Some (mkM (m_first m) (e_index e) (m_trunc m))).
    { unfold w1, append1. cbn [w_metas]. rewrite zget_put_eq, Z.eqb_refl. reflexivity. }
    assert (T1 : get Z.compare (w_terms w1) r = Some (if b then c' else c)).
    { unfold w1, append1. cbn [w_terms]. rewrite zget_put_eq, Z.eqb_refl. reflexivity. }
    destruct (IH (set_entry L r e) A C w1 r _ _ (e_term e) V1 M1 T1 ltac:(congruence)) as [w2 [W2 V2]].
    + cbn [m_last]. rewrite E. exact CO.
    + cbn [m_last]. intros i e' H. unfold set_entry in H. rewrite Z.eqb_refl in H. cbn [andb] in H.
      destruct (i =? e_index e) eqn:Q.
      * apply Z.eqb_eq in Q. inversion H; subst. lia.
      * apply LE in H. lia.
    + exists w2. split; [|exact V2].
      assert (HD : forallb has_data (e2 :: es) = true).
      { unfold w_append in W2. destruct (forallb has_data (e2 :: es)); auto. discriminate. }
      assert (RV : exists x rest, rev (e2 :: es) = x :: rest).
      { destruct (rev (e2 :: es)) as [|x rest] eqn:Q; [|eauto].
        apply (f_equal (@length _)) in Q. rewrite rev_length in Q. discriminate. }
      destruct RV as [x [rest RV]].
      assert (CE : exists c2, w_cached w1 = true -> cache_all (terms_of w1 r) (e2 :: es) = Ok c2).
      { unfold w_append in W2. rewrite HD, RV in W2. cbn [negb] in W2.
        unfold upd_meta in W2. cbn [with_db w_metas] in W2. rewrite M1 in W2. cbn [obind] in W2.
        destruct (w_cached w1) eqn:B1; [|exists []; discriminate].
        destruct (cache_all (terms_of w1 r) (e2 :: es)) as [c2|] eqn:Q; [|discriminate]. exists c2; auto. }
      destruct CE as [c2 CE].
      rewrite (w_append_eq w1 r _ (e2 :: es) x rest c2 M1 HD RV CE) in W2.
      rewrite (w_append_eq w r m (e :: e2 :: es) x (rest ++ [e]) c2); auto.
      * apply Ok_inj in W2. subst w2. f_equal. unfold w1, append1.
        cbn [w_clients w_cached w_db w_metas w_saved w_terms m_first m_trunc].
        rewrite !(put_put Z.compare zcmp_ok). rewrite Bw. destruct b; [reflexivity|].
        rewrite (put_same (w_terms w)); auto. apply (li_st _ _ _ _ _ _ V).
      * cbn [forallb]. cbn [forallb] in HD. rewrite HD, entry_has_data; auto.
      * change (rev (e :: e2 :: es)) with (rev (e2 :: es) ++ [e]). rewrite RV. reflexivity.
      * intros B. rewrite TW. change (cache_all c (e :: e2 :: es)) with
          (match cache_append c (e_index e) (e_term e) with
           | None => Crash | Some c' => cache_all c' (e2 :: es) end).
        rewrite CA by congruence. rewrite <- CE by (unfold w1, append1; cbn [w_cached]; auto).
        unfold terms_of. rewrite T1. replace b with true by congruence. reflexivity.
Qed.
