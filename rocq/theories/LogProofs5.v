(** The property theorems of the raft log storage, proved from the invariant. *)
From Coq Require Import ZArith List Lia Bool Sorted.
From Verif Require Import Bytes SMap Outcome LogModel LogSpec LogProofs LogProofs2 LogProofs3 LogProofs4.
Import ListNotations.
Open Scope Z_scope.

(* ---------------------------------------------------------------- the term map *)
Lemma tm_run_app os : forall c o, tm_run c (os ++ [o]) =
  match tm_run c os with Some c' => tm_step c' o | None => None end.
Proof.
  induction os as [|x os IH]; intros c o; cbn [tm_run app].
  - destruct (tm_step c o); auto.
  - destruct (tm_step c x); auto.
Qed.

Lemma tm_inv os : tm_allowed os -> exists c, tm_run [] os = Some c /\ inc c /\
  (forall x u, In (x, u) c -> In (x, u) (tm_log os)) /\
  (forall i t, In (i, t) (tm_log os) -> tm_cut os <= i -> lookup c i 0 = t).
Proof.
  induction os as [|o os IH] using rev_ind; intros AL.
  - exists []. split; [reflexivity|]. split; [constructor|]. split; [intros x u []|intros i t []].
  - destruct IH as [c [E [S [IN LK]]]].
    { intros before i t after Q. apply (AL before i t (after ++ [o])). subst os. rewrite <- app_assoc. reflexivity. }
    rewrite tm_run_app, E. unfold tm_log, tm_cut in *. rewrite !fold_left_app. cbn [fold_left].
    fold (tm_log os) in *. fold (tm_cut os) in *. destruct o as [i t|keep|keep]; cbn [tm_step].
    + assert (P : forall x u, In (x, u) (tm_log os) -> x < i /\ u <= t) by (intros x u H; apply (AL os i t []); auto).
      destruct (cache_append_spec c i t S) as [c' [E' [S' [IN' [LO HI]]]]]; [intros x u H; apply P; auto|].
      exists c'. split; auto. split; auto. split.
      * intros x u H. apply in_or_app. destruct (IN' x u H) as [H1|H1]; [left; auto|right; left; auto].
      * intros j u H CJ. apply in_app_or in H. destruct H as [H|[H|[]]].
        -- destruct (P j u H). rewrite LO by auto. auto.
        -- inversion H; subst. apply HI. lia.
    + eexists. split; [reflexivity|]. split; [apply cache_prefix_inc; auto|]. split.
      * intros x u H. apply IN. eapply cache_prefix_In; eauto.
      * intros i t H CI. rewrite cache_prefix_lookup by (auto; lia). apply LK; auto. lia.
    + eexists. split; [reflexivity|]. split; [apply cache_suffix_inc; auto|]. split.
      * intros x u H. apply cache_suffix_In in H; auto. destruct H as [H1 H2]. apply filter_In. split; auto. apply Z.leb_le. auto.
      * intros i t H CI. apply filter_In in H. destruct H as [H1 H2]. cbn [fst] in H2. apply Z.leb_le in H2.
        rewrite cache_suffix_lookup by auto. auto.
Qed.

Lemma term_map_ok os : tm_allowed os -> exists c, tm_run [] os = Some c /\
  forall i t, In (i, t) (tm_log os) -> tm_cut os <= i -> cache_term c i = t.
Proof.
  intros AL. destruct (tm_inv os AL) as [c [E [S [_ LK]]]]. exists c. split; auto.
  intros i t H CI. rewrite cache_term_lookup by auto. auto.
Qed.

(* ---------------------------------------------------------------- reading one entry *)
Lemma get_entry_at cs b L A C w r i : linv cs b L A C w -> region_ok r -> 0 <= i < kMaxIndex ->
  get_entry w r i = Ok (match db_at (w_db w) r i with Some _ => L r i | None => None end).
Proof.
  intros V R I. unfold get_entry. fold (db_at (w_db w) r i). destruct (db_at (w_db w) r i) as [v|] eqn:G; auto.
  destruct (li_db _ _ _ _ _ _ V r i v R I G) as [e [Le Ve]]. destruct (li_log _ _ _ _ _ _ V r i e Le) as [_ [EI EO]].
  destruct (entry_ok_val e EO) as [TY [TM DA]]. subst v. unfold entry_val. rewrite dec_enc_val by auto. cbn [obind fst snd].
  rewrite val_data, Le. destruct e as [ei et em ed]. cbn [e_index e_type e_term e_data] in *. subst ei. reflexivity.
Qed.

Lemma entries_ok cs b os w r : lreach cs b os w -> get Z.compare (w_metas w) r <> None ->
  exists f l, first_index w r = Ok f /\ last_index w r = Ok l /\ 1 <= f <= l + 1 /\ l < kMaxIndex /\
    (forall i, f <= i <= l -> exists e, log_of os r i = Some e /\ e_index e = i /\ get_entry w r i = Ok (Some e)) /\
    (forall i, 0 <= i < kMaxIndex -> ~ (f <= i <= l) -> get_entry w r i = Ok None).
Proof.
  intros H M. assert (V := linv_reach _ _ _ _ H). destruct (get Z.compare (w_metas w) r) as [m|] eqn:E; [|congruence].
  destruct (li_meta _ _ _ _ _ _ V r m E) as [F [K [D _]]].
  assert (R : region_ok r) by (apply (li_reg _ _ _ _ _ _ V); congruence).
  exists (m_first m), (m_last m). unfold first_index, last_index. rewrite E.
  split; auto. split; auto. split; auto. split; auto. split.
  - intros i I. destruct (li_in_log _ _ _ _ _ _ V r m E i I) as [e [Le G]]. exists e. split; auto.
    destruct (li_log _ _ _ _ _ _ V r i e Le) as [_ [EI _]]. split; auto.
    rewrite (get_entry_at _ _ _ _ _ _ r i V) by (auto; lia). rewrite G, Le. reflexivity.
  - intros i I N. rewrite (get_entry_at _ _ _ _ _ _ r i V) by auto.
    destruct (db_at (w_db w) r i) as [v|] eqn:G; auto. exfalso. apply N. apply D; auto. congruence.
Qed.

Lemma ranges_ok cs b os w r a z : lreach cs b os w -> get Z.compare (w_metas w) r <> None ->
  0 <= a <= kMaxIndex -> 0 <= z <= kMaxIndex ->
  exists es f l, first_index w r = Ok f /\ last_index w r = Ok l /\
    get_entries w r a z = Ok es /\ StronglySorted (fun x y => e_index x < e_index y) es /\
    forall e, In e es <-> a <= e_index e < z /\ f <= e_index e <= l /\ log_of os r (e_index e) = Some e.
Proof.
  intros H M A64 Z64. assert (V := linv_reach _ _ _ _ H). destruct (get Z.compare (w_metas w) r) as [m|] eqn:E; [|congruence].
  destruct (li_meta _ _ _ _ _ _ V r m E) as [F [K [D _]]].
  assert (R : region_ok r) by (apply (li_reg _ _ _ _ _ _ V); congruence).
  destruct (get_entries_ok _ _ _ _ _ _ r a z V R A64 Z64) as [es [G [BI IN]]].
  exists es, (m_first m), (m_last m). unfold first_index, last_index. rewrite E. split; auto. split; auto. split; auto. split; auto.
  intros e. rewrite IN. split.
  - intros [I [Le X]]. split; auto. split; auto. apply D; auto. destruct (li_log _ _ _ _ _ _ V r _ e Le) as [_ [_ [_ [_ [Y _]]]]]. lia.
  - intros [I [B Le]]. split; auto. split; auto. apply D; lia.
Qed.

Lemma data_ranges_ok cs b os w r a z : lreach cs b os w -> get Z.compare (w_metas w) r <> None ->
  0 <= a <= kMaxIndex -> 0 <= z <= kMaxIndex ->
  exists es, get_entries w r a z = Ok es /\ get_data_entries w r a z = Ok (filter (fun e => e_type e =? tData) es).
Proof.
  intros H M A64 Z64. destruct (ranges_ok cs b os w r a z H M A64 Z64) as [es [f [l [_ [_ [E _]]]]]].
  exists es. split; auto. unfold get_data_entries. rewrite E. reflexivity.
Qed.

Lemma log_total cs b os w o : lreach cs b os w -> lallowed w (log_of os) o -> exists w', lstep w o = Ok w'.
Proof.
  intros H AL. destruct (linv_step cs b _ _ _ w o (linv_reach _ _ _ _ H) AL) as [w' [E _]]. eauto.
Qed.

(* ---------------------------------------------------------------- terms *)
Lemma get_term_ok cs b os w r f l i : lreach cs b os w -> opened w r ->
  first_index w r = Ok f -> last_index w r = Ok l -> f <= i <= l -> raft_cut os r <= i ->
  exists e, get_entry w r i = Ok (Some e) /\ get_term w r i = Ok (e_term e).
Proof.
  intros H [OT OM] EF EL I CI. assert (V := linv_reach _ _ _ _ H).
  destruct (get Z.compare (w_metas w) r) as [m|] eqn:E; [|congruence].
  unfold first_index, last_index in EF, EL. rewrite E in EF, EL. apply Ok_inj in EF. apply Ok_inj in EL. subst f l.
  destruct (li_meta _ _ _ _ _ _ V r m E) as [F [K _]].
  assert (R : region_ok r) by (apply (li_reg _ _ _ _ _ _ V); congruence).
  destruct (li_in_log _ _ _ _ _ _ V r m E i I) as [e [Le G]]. exists e.
  rewrite (get_entry_at _ _ _ _ _ _ r i V) by (auto; lia). rewrite G, Le. split; auto.
  destruct (li_log _ _ _ _ _ _ V r i e Le) as [_ [EI EO]].
  unfold get_term. destruct (w_cached w) eqn:B.
  - destruct (get Z.compare (w_terms w) r) as [c|] eqn:T; [|congruence]. unfold terms_of. rewrite T.
    destruct (li_terms _ _ _ _ _ _ V r c T) as [m' [M' X]]. assert (m' = m) by congruence. subst m'.
    assert (Bw := li_b _ _ _ _ _ _ V). destruct X as [X1 [X2 X3]]; [congruence|].
    rewrite cache_term_lookup by auto. rewrite (X3 i e) by auto. reflexivity.
  - unfold db_term. rewrite E. fold (db_at (w_db w) r i). rewrite G. destruct (entry_ok_val e EO) as [TY [TM DA]].
    unfold entry_val. rewrite dec_enc_val by auto. cbn [obind fst snd].
    destruct EO as [_ [EO _]]. destruct (0 <? e_term e) eqn:Q; auto. apply Z.ltb_ge in Q. lia.
Qed.

Lemma get_term_uncached cs os w r i : lreach cs false os w -> get Z.compare (w_metas w) r <> None -> 0 <= i < kMaxIndex ->
  exists o, get_entry w r i = Ok o /\ get_term w r i = Ok (match o with Some e => e_term e | None => 0 end).
Proof.
  intros H M I. assert (V := linv_reach _ _ _ _ H). assert (B := li_b _ _ _ _ _ _ V).
  destruct (get Z.compare (w_metas w) r) as [m|] eqn:E; [|congruence].
  assert (R : region_ok r) by (apply (li_reg _ _ _ _ _ _ V); congruence).
  eexists. split; [apply (get_entry_at _ _ _ _ _ _ r i V); auto|]. unfold get_term, db_term. rewrite B, E.
  fold (db_at (w_db w) r i). destruct (db_at (w_db w) r i) as [v|] eqn:G; auto.
  destruct (li_db _ _ _ _ _ _ V r i v R I G) as [e [Le Ve]]. destruct (li_log _ _ _ _ _ _ V r i e Le) as [_ [EI EO]].
  destruct (entry_ok_val e EO) as [TY [TM DA]]. subst v. unfold entry_val. rewrite dec_enc_val by auto. cbn [obind fst snd].
  rewrite Le. destruct EO as [_ [EO _]]. destruct (0 <? e_term e) eqn:Q; auto. apply Z.ltb_ge in Q. lia.
Qed.

(* ---------------------------------------------------------------- restart *)
Lemma restart_ok cs b os w r f l w' : lreach cs b os w -> first_index w r = Ok f -> last_index w r = Ok l -> f <= l ->
  lstep w LRestart = Ok w' ->
  first_index w' r = Ok f /\ last_index w' r = Ok l /\ (forall i, get_entry w' r i = get_entry w r i).
Proof.
  intros H EF EL NE ST. assert (V := linv_reach _ _ _ _ H).
  assert (H' : lreach cs b (os ++ [LRestart]) w') by (eapply lr_step; eauto; exact I).
  assert (V' := linv_reach _ _ _ _ H').
  unfold first_index, last_index in *. destruct (get Z.compare (w_metas w) r) as [m|] eqn:E; [|discriminate].
  apply Ok_inj in EF. apply Ok_inj in EL. subst f l.
  assert (DB : w_db w' = w_db w).
  { cbn [lstep] in ST. unfold w_restart in ST. destruct (load_metas (w_db w) (w_saved w)); [|discriminate].
    cbn [obind] in ST. apply Ok_inj in ST. subst w'. reflexivity. }
  assert (M' : get Z.compare (w_metas w') r <> None).
  { intros N. assert (X := li_none _ _ _ _ _ _ V' r N (m_first m)). 
    destruct (li_in_log _ _ _ _ _ _ V r m E (m_first m) ltac:(lia)) as [e [Le _]].
    unfold log_of in X. rewrite fold_left_app in X. cbn [fold_left log_step] in X. fold (log_of os) in X. congruence. }
  destruct (get Z.compare (w_metas w') r) as [m'|] eqn:E'; [|congruence].
  destruct (li_meta _ _ _ _ _ _ V r m E) as [F [K [D _]]]. destruct (li_meta _ _ _ _ _ _ V' r m' E') as [F' [K' [D' _]]].
  rewrite DB in D'.
  assert (EQ : forall i, 0 <= i < kMaxIndex -> (m_first m <= i <= m_last m <-> m_first m' <= i <= m_last m')).
  { intros i I. rewrite <- D, <- D' by auto. reflexivity. }
  assert (X1 := EQ (m_first m) ltac:(lia)). assert (X2 := EQ (m_last m) ltac:(lia)).
  assert (X3 := EQ (m_first m') ltac:(lia)). assert (X4 := EQ (m_last m') ltac:(lia)).
  split; [f_equal; lia|]. split; [f_equal; lia|]. intros i. unfold get_entry. rewrite DB. reflexivity.
Qed.

(* ---------------------------------------------------------------- what consumers released *)
Lemma released_ok cs b os w r i e : lreach cs b os w -> log_of os r i = Some e -> get_entry w r i = Ok None ->
  forall c, In c cs -> i < asked os c r.
Proof.
  intros H Le G c Hc. assert (V := linv_reach _ _ _ _ H). destruct (li_log _ _ _ _ _ _ V r i e Le) as [R [EI EO]].
  assert (I : 0 <= i < kMaxIndex) by (destruct EO as [_ [_ [Y _]]]; lia).
  rewrite (get_entry_at _ _ _ _ _ _ r i V) in G by auto. rewrite Le in G.
  apply (li_lost _ _ _ _ _ _ V r i e Le) in Hc; auto. destruct (db_at (w_db w) r i); [discriminate|auto].
Qed.

Lemma requests_app c r os : forall os', requests c r (os ++ os') = requests c r os ++ requests c r os'.
Proof.
  induction os as [|o os IH]; intros os'; auto. cbn [app requests]. destruct o; auto.
  destruct (client_eqb c c0 && (r0 =? r)); auto. cbn [app]. f_equal. auto.
Qed.

Lemma last_snoc {X} (l : list X) x d : last (l ++ [x]) d = x.
Proof. induction l as [|y l IH]; auto. cbn [app]. destruct (l ++ [x]) eqn:E; [destruct l; discriminate|]. cbn [last]. auto. Qed.

Lemma asked_latest c r os : StronglySorted Z.le (requests c r os) -> asked os c r <= Z.max 0 (last (requests c r os) 0).
Proof.
  induction os as [|o os IH] using rev_ind; [cbn; lia|]. rewrite requests_app. intros S.
  unfold asked. rewrite fold_left_app. cbn [fold_left]. fold (asked os).
  assert (SS : StronglySorted Z.le (requests c r os)).
  { clear IH. induction (requests c r os) as [|x l IHl]; [constructor|]. cbn [app] in S. inversion S; subst. constructor; auto.
    apply Forall_app in H2. tauto. }
  specialize (IH SS). destruct o; cbn [requests ask_step] in *; rewrite ?app_nil_r in *; auto.
  - rewrite (Z.eqb_sym r r0). destruct (client_eqb c c0 && (r0 =? r)) eqn:Q; rewrite ?app_nil_r in *; auto.
    rewrite last_snoc. enough (last (requests c r os) 0 <= Z.max 0 keep) by lia. clear -S.
    induction (requests c r os) as [|x l IHl]; [cbn; lia|]. cbn [app] in S. inversion S; subst.
    apply Forall_app in H2. destruct H2 as [_ H2]. inversion H2; subst. destruct l as [|y l]; [cbn; lia|].
    specialize (IHl H1). exact IHl.
  - destruct (r =? r0); lia.
  - destruct (r =? r0); lia.
Qed.

Lemma latest_ok cs b os w r i e c : lreach cs b os w -> log_of os r i = Some e -> get_entry w r i = Ok None ->
  In c cs -> StronglySorted Z.le (requests c r os) -> i < last (requests c r os) 0.
Proof.
  intros H Le G Hc S. assert (X := released_ok cs b os w r i e H Le G c Hc). assert (Y := asked_latest c r os S).
  assert (V := linv_reach _ _ _ _ H). destruct (li_log _ _ _ _ _ _ V r i e Le) as [_ [_ [_ [_ [Z _]]]]].
  assert (EI : e_index e = i) by apply (li_log _ _ _ _ _ _ V r i e Le). lia.
Qed.

(* ---------------------------------------------------------------- histories that can be computed *)
Definition entry_okb (e : entry) : bool :=
  ((e_type e =? tNoOp) || (e_type e =? tData) || (e_type e =? tConf)) &&
  (0 <? e_term e) && (e_term e <=? kMaxIndex) && (0 <? e_index e) && (e_index e <? kMaxIndex) && negb (length (e_data e) =? 0)%nat.
Fixpoint continuesb (i t : Z) (es : list entry) : bool :=
  match es with
  | [] => true
  | e :: rest => (e_index e =? i) && (t <=? e_term e) && entry_okb e && continuesb (i + 1) (e_term e) rest
  end.
(** largest index and largest term of a region's log, computed along a history *)
Definition top_step (r : Z) (p : Z * Z) (o : lop) : Z * Z :=
  match o with
  | LAppend r' es => if r' =? r then fold_left (fun p e => (Z.max (fst p) (e_index e), Z.max (snd p) (e_term e))) es p else p
  | LSuffix r' keep => if r' =? r then (Z.min (fst p) keep, snd p) else p
  | LReset r' _ | LDestroy r' => if r' =? r then (0, 0) else p
  | _ => p
  end.
Definition top (os : list lop) (r : Z) : Z * Z := fold_left (top_step r) os (0, 0).

Lemma entry_okb_ok e : entry_okb e = true -> entry_ok e.
Proof.
  unfold entry_okb, entry_ok. rewrite !andb_true_iff, !orb_true_iff, negb_true_iff, !Z.eqb_eq, Nat.eqb_neq, !Z.ltb_lt, Z.leb_le.
  intros [[[[[H1 H2] H3] H4] H5] H6]. split; [tauto|]. split; [lia|]. split; [lia|]. destruct (e_data e); [cbn in H6; congruence|discriminate].
Qed.
Lemma continuesb_ok es : forall i t, continuesb i t es = true -> continues i t es.
Proof.
  induction es as [|e es IH]; intros i t H; cbn [continues continuesb] in *; auto.
  rewrite !andb_true_iff, Z.eqb_eq, Z.leb_le in H. destruct H as [[[H1 H2] H3] H4]. auto using entry_okb_ok.
Qed.

Lemma top_append es : forall (L : log) r p,
  (forall i e, L r i = Some e -> i <= fst p /\ e_term e <= snd p) ->
  forall i e, fold_left (fun L e => set_entry L r e) es L r i = Some e ->
    i <= fst (fold_left (fun p e => (Z.max (fst p) (e_index e), Z.max (snd p) (e_term e))) es p) /\
    e_term e <= snd (fold_left (fun p e => (Z.max (fst p) (e_index e), Z.max (snd p) (e_term e))) es p).
Proof.
  induction es as [|x es IH]; intros L r p H i e; cbn [fold_left]; auto. apply IH. clear -H. intros i e. unfold set_entry.
  rewrite Z.eqb_refl. cbn [andb fst snd]. destruct (i =? e_index x) eqn:Q.
  - intros E. inversion E; subst. apply Z.eqb_eq in Q. lia.
  - intros E. specialize (H i e E). lia.
Qed.
Lemma set_other es : forall (L : log) r r' i, r' <> r -> fold_left (fun L e => set_entry L r e) es L r' i = L r' i.
Proof.
  induction es as [|x es IH]; intros L r r' i N; cbn [fold_left]; auto. rewrite IH by auto. unfold set_entry.
  destruct (r' =? r) eqn:Q; auto. apply Z.eqb_eq in Q. congruence.
Qed.
Lemma top_ok os r : forall i e, log_of os r i = Some e -> i <= fst (top os r) /\ e_term e <= snd (top os r).
Proof.
  induction os as [|o os IH] using rev_ind; [intros i e H; discriminate|].
  unfold log_of, top. rewrite !fold_left_app. cbn [fold_left]. fold (log_of os) (top os r).
  destruct o as [r'|r' es|c r' keep|r' keep|r' next|r'|]; cbn [log_step top_step]; auto.
  - destruct (r' =? r) eqn:Q; [apply Z.eqb_eq in Q; subst; apply top_append; auto|].
    intros i e H. rewrite set_other in H by (apply Z.eqb_neq in Q; congruence). auto.
  - intros i e. rewrite (Z.eqb_sym r r'). destruct (r' =? r); cbn [andb]; auto. destruct (keep <? i) eqn:Q; [discriminate|].
    intros H. specialize (IH i e H). apply Z.ltb_ge in Q. cbn [fst snd]. lia.
  - intros i e. rewrite (Z.eqb_sym r r'). destruct (r' =? r); [discriminate|auto].
  - intros i e. rewrite (Z.eqb_sym r r'). destruct (r' =? r); [discriminate|auto].
Qed.

Definition is_some {X} (o : option X) : bool := match o with Some _ => true | None => false end.
Definition region_okb (r : Z) : bool := (0 <? r) && (r <=? kMaxIndex).
Definition openedb (w : wal) (r : Z) : bool := is_some (get Z.compare (w_terms w) r) && is_some (get Z.compare (w_metas w) r).
Definition lallowedb (os : list lop) (w : wal) (o : lop) : bool :=
  match o with
  | LInit r => region_okb r
  | LAppend r es =>
      region_okb r && openedb w r && negb (length es =? 0)%nat &&
      match last_index w r with
      | Ok last => continuesb (last + 1) (snd (top os r)) es && (fst (top os r) <=? last)
      | Crash => false
      end
  | LPrefix c r keep =>
      region_okb r && (0 <=? keep) && (keep <=? kMaxIndex) &&
      match c with Raft => openedb w r | _ => is_some (get Z.compare (w_metas w) r) end
  | LSuffix r keep => region_okb r && openedb w r && (0 <=? keep)
  | LReset r next => region_okb r && openedb w r && (1 <=? next) && (next <? kMaxIndex)
  | LDestroy r => region_okb r
  | LRestart => true
  end.
Lemma openedb_ok w r : openedb w r = true -> opened w r.
Proof.
  unfold openedb, opened, is_some. intros H. apply andb_true_iff in H. destruct H as [H1 H2].
  split; intros E; rewrite E in *; discriminate.
Qed.
Lemma region_okb_ok r : region_okb r = true -> region_ok r.
Proof. unfold region_okb, region_ok. rewrite andb_true_iff, Z.ltb_lt, Z.leb_le. auto. Qed.
Lemma lallowedb_ok os w o : lallowedb os w o = true -> lallowed w (log_of os) o.
Proof.
  destruct o as [r|r es|c r keep|r keep|r next|r|]; cbn [lallowedb lallowed]; rewrite ?andb_true_iff.
  - apply region_okb_ok.
  - intros [[[H1 H2] H3] H4]. split; [apply region_okb_ok; auto|]. split; [apply openedb_ok; auto|]. split.
    { intros E. subst es. discriminate. }
    destruct (last_index w r) as [last|]; [|discriminate]. apply andb_true_iff in H4. destruct H4 as [H4 H5].
    exists last, (snd (top os r)). split; auto. split; [apply continuesb_ok; auto|]. intros i e H. apply Z.leb_le in H5.
    destruct (top_ok os r i e H). lia.
  - intros [[[H1 H2] H3] H4]. split; [apply region_okb_ok; auto|]. apply Z.leb_le in H2, H3. split; auto.
    destruct c; [apply openedb_ok; auto|]. unfold is_some in H4. destruct (get Z.compare (w_metas w) r); [discriminate|discriminate H4].
  - intros [[H1 H2] H3]. split; [apply region_okb_ok; auto|]. split; [apply openedb_ok; auto|]. apply Z.leb_le; auto.
  - intros [[[H1 H2] H3] H4]. split; [apply region_okb_ok; auto|]. split; [apply openedb_ok; auto|].
    apply Z.leb_le in H3. apply Z.ltb_lt in H4. auto.
  - apply region_okb_ok.
  - auto.
Qed.

Fixpoint run_checked (done : list lop) (w : wal) (os : list lop) : option wal :=
  match os with
  | [] => Some w
  | o :: rest =>
      if lallowedb done w o then match lstep w o with Ok w' => run_checked (done ++ [o]) w' rest | Crash => None end else None
  end.
Lemma run_checked_reach cs b os : forall done w w', lreach cs b done w -> run_checked done w os = Some w' ->
  lreach cs b (done ++ os) w'.
Proof.
  induction os as [|o os IH]; intros done w w' H E; cbn [run_checked] in E.
  - inversion E; subst. rewrite app_nil_r. auto.
  - destruct (lallowedb done w o) eqn:A; [|discriminate]. destruct (lstep w o) as [w1|] eqn:S; [|discriminate].
    replace (done ++ o :: os) with ((done ++ [o]) ++ os) by (rewrite <- app_assoc; reflexivity).
    apply (IH _ w1); auto. eapply lr_step; eauto. apply lallowedb_ok; auto.
Qed.
Lemma checked_reach cs b os w : run_checked [] (wal_init cs b) os = Some w -> lreach cs b os w.
Proof. intros H. apply (run_checked_reach cs b os [] _ w (lr_init cs b) H). Qed.

(* ---------------------------------------------------------------- truncation takes effect *)
Lemma truncated_ok b os w r f keep w' : lreach [Raft] b os w -> first_index w r = Ok f ->
  f < keep < kMaxIndex -> asked os Raft r < keep -> lstep w (LPrefix Raft r keep) = Ok w' ->
  first_index w' r = Ok keep.
Proof.
  intros H EF K AK ST. assert (V := linv_reach _ _ _ _ H). unfold first_index in EF.
  destruct (get Z.compare (w_metas w) r) as [m|] eqn:E; [|discriminate]. apply Ok_inj in EF. subst f.
  destruct (li_meta _ _ _ _ _ _ V r m E) as [F [KM [_ [TR TA]]]].
  destruct (m_trunc m) as [|[c k] [|p l]] eqn:T; try discriminate TR. cbn [map fst] in TR. inversion TR; subst c.
  assert (KA := TA Raft k (in_eq _ _)).
  assert (X : exists w1, truncate_prefix w Raft r keep = Ok w1 /\ first_index w1 r = Ok keep).
  { unfold truncate_prefix. rewrite E, T. cbn [trunc_loop client_eqb].
    destruct (keep <=? m_first m) eqn:Q1; [apply Z.leb_le in Q1; lia|].
    destruct (keep <=? k) eqn:Q2; [apply Z.leb_le in Q2; lia|].
    unfold upd_meta. rewrite E. cbn [obind]. rewrite (Z.min_r kMaxIndex keep) by lia.
    destruct (keep =? kMaxIndex) eqn:Q3; [apply Z.eqb_eq in Q3; lia|]. cbn [orb]. rewrite Q1.
    destruct (m_first m <? keep) eqn:Q4; [|apply Z.ltb_ge in Q4; lia].
    cbn [with_db with_metas w_metas]. rewrite zget_put_eq, Z.eqb_refl. eexists. split; [reflexivity|].
    unfold first_index. cbn [with_db with_metas w_metas]. rewrite zget_put_eq, Z.eqb_refl. reflexivity. }
  destruct X as [w1 [X1 X2]]. cbn [lstep] in ST. unfold w_prefix in ST. rewrite X1 in ST. cbn [obind] in ST.
  destruct (w_cached w); apply Ok_inj in ST; subst w'; exact X2.
Qed.
