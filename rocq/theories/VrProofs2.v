(** Proofs for the vector store, part 2: iterating over a column. *)
From Coq Require Import ZArith List Lia Bool PeanoNat Sorted ZifyNat ZifyBool.
From Verif Require Import Bytes SMap Outcome CodecModel CodecSpec CodecProofs CodecProofs2
  MvccModel MvccSpec MvccProofs RawModel RawProofs1 VqModel VqSpec VrModel VrSpec VrProofs1.
Import ListNotations.
Open Scope Z_scope.

(** ** the loops *)
Fixpoint ofold_stop {S} (body : S -> entry -> outcome (S * bool)) (s : S) (l : list entry) : outcome S :=
  match l with
  | [] => Ok s
  | e :: r => olet (s', go) := body s e in if go : bool then ofold_stop body s' r else Ok s'
  end.

Lemma visit_fold {S} (body : S -> entry -> outcome (S * bool)) ts now : forall fuel prev es l s,
  forward_loop fuel ts now prev es = Ok l -> visit body s fuel ts now prev es = ofold_stop body s l.
Proof.
  induction fuel as [|fuel IH]; intros prev es l s E; [discriminate|].
  cbn [forward_loop visit] in *. destruct (next_visible ts now prev es) as [[prev' es']|]; [|discriminate].
  cbn [obind] in *. destruct es' as [|e es'].
  - apply Ok_inj in E. subst. reflexivity.
  - destruct (forward_loop fuel ts now prev' (e :: es')) as [rest|] eqn:E2; [|discriminate].
    cbn [omap] in E. apply Ok_inj in E. subst l. cbn [ofold_stop].
    destruct (body s e) as [[s' go]|]; [|reflexivity]. cbn [obind]. destruct go; auto.
Qed.

Lemma visit_back_fold {S} (body : S -> entry -> outcome (S * bool)) ts now : forall fuel es l s,
  reverse_loop fuel ts now es = Ok l -> visit_back body s fuel ts now es = ofold_stop body s l.
Proof.
  induction fuel as [|fuel IH]; intros es l s E; [discriminate|].
  cbn [reverse_loop visit_back] in *. destruct (prev_visible ts now None es) as [[cur es']|]; [|discriminate].
  cbn [obind] in *. destruct cur as [e|].
  - destruct (reverse_loop fuel ts now es') as [rest|] eqn:E2; [|discriminate].
    cbn [omap] in E. apply Ok_inj in E. subst l. cbn [ofold_stop].
    destruct (body s e) as [[s' go]|]; [|reflexivity]. cbn [obind]. destruct go; auto.
  - apply Ok_inj in E. subst. reflexivity.
Qed.

Lemma walk_fold {S} (body : S -> entry -> outcome (S * bool)) s st ts now a b l :
  forward_entries st ts now a b = Ok l -> walk body s st ts now (encode_bytes a) (encode_bytes b) = ofold_stop body s l.
Proof. intros E. unfold walk. apply visit_fold. exact E. Qed.
Lemma walk_back_fold {S} (body : S -> entry -> outcome (S * bool)) s st ts now a b l :
  reverse_entries st ts now a b = Ok l -> walk_back body s st ts now (encode_bytes a) (encode_bytes b) = ofold_stop body s l.
Proof. intros E. unfold walk_back. apply visit_back_fold. exact E. Qed.

(** seeking backwards from just behind a key *)
Lemma enc_prefix_lt k k' s : bytes_ok k -> bytes_ok k' ->
  (blt (encode_bytes k' ++ s) (prefix_next (encode_bytes k)) <-> ble k' k).
Proof.
  intros H H'. pose proof (key_range_iff k k' s H H') as R. unfold in_range in R. cbn [fst snd] in R.
  pose proof (encode_bytes_cmp_app k k' [] s H H') as C. rewrite app_nil_r in C.
  destruct (bcmp k k') eqn:E.
  - apply bcmp_eq in E. subst k'. split; intros _; [apply ble_refl|]. apply R. auto.
  - split.
    + intros L. exfalso. assert (k' = k). { apply R. split; auto. unfold ble. rewrite C. discriminate. }
      subst. rewrite bcmp_refl in E. discriminate.
    + intros L. exfalso. apply L. rewrite bcmp_opp, E. auto.
  - split; intros _.
    + unfold ble. rewrite bcmp_opp, E. discriminate.
    + apply (blt_le_trans _ (encode_bytes k)); [unfold blt; rewrite bcmp_opp, C; auto|].
      apply blt_ble. pose proof (key_range_iff k k [] H H) as R2. unfold in_range in R2. cbn [fst snd] in R2.
      rewrite app_nil_r in R2. apply R2. auto.
Qed.

Lemma prefix_next_length l : length (prefix_next l) = length l.
Proof.
  unfold prefix_next. destruct (prefix_next_loop l) as [r c] eqn:E.
  assert (X: length r = length l).
  { revert r c E. induction l as [|b l IH]; intros r c E; cbn [prefix_next_loop] in E.
    - assert (r = []) by congruence. subst. auto.
    - destruct (prefix_next_loop l) as [r' c']. specialize (IH r' c' eq_refl). cbn [length].
      repeat match goal with H: context[if ?b then _ else _] |- _ => destruct b end;
      match goal with H: (?x, _) = (r, _) |- _ => assert (Hr : x = r) by congruence; rewrite <- Hr; cbn [length]; lia end. }
  destruct (c =? 0); auto.
Qed.

Lemma stored_key_ne k k' ts : encode_bytes k' ++ write_long (Z.lnot ts) <> prefix_next (encode_bytes k).
Proof.
  intros E. apply (f_equal (@length Z)) in E. rewrite prefix_next_length, app_length, write_long_length in E.
  rewrite !encode_bytes_length in E. lia.
Qed.

Lemma ble_snoc0 k' : forall k, bytes_ok k' -> (ble k' k <-> blt k' (k ++ [0])).
Proof.
  induction k' as [|b k' IH]; intros [|c k] H; unfold ble, blt in *; cbn [bcmp app].
  - split; [reflexivity|discriminate].
  - split; [reflexivity|discriminate].
  - inversion H as [|? ? Hb _]; subst. split; [intros N; exfalso; apply N; auto|]. unfold byte_ok in Hb.
    destruct (Z.compare_spec b 0); [destruct k'; discriminate|lia|discriminate].
  - inversion H; subst. destruct (Z.compare b c); [apply IH; auto|split; [reflexivity|discriminate]|]. split; [intros N; exfalso; apply N; auto|discriminate].
Qed.

Lemma seek_for_prev_key vs a k : Forall version_ok vs -> bytes_ok a -> bytes_ok k ->
  raw_seek_for_prev (encode_bytes a) (prefix_next (encode_bytes k)) (map enc vs) =
  map enc (rev (filter (fun v => in_rangeb a (k ++ [0]) (vkey v)) vs)).
Proof.
  intros F Ha Hk. unfold raw_seek_for_prev. rewrite map_rev. apply (f_equal (@rev _)).
  apply filter_map_enc; auto. intros v V. apply eq_true_iff_eq.
  assert (Hv: bytes_ok (vkey v)) by apply V.
  rewrite in_rangeb_iff, andb_true_iff, !bleb_iff. unfold in_range. cbn [fst snd].
  rewrite <- ble_snoc0 by auto. rewrite <- (enc_prefix_lt k (vkey v) (write_long (Z.lnot (vts v)))) by auto.
  pose proof (encode_bytes_cmp_app a (vkey v) [] (write_long (Z.lnot (vts v))) Ha Hv) as C. rewrite app_nil_r in C.
  pose proof (stored_key_ne k (vkey v) (vts v)) as NE. cbn [enc fst].
  assert (X: ble (encode_bytes a) (encode_bytes (vkey v) ++ write_long (Z.lnot (vts v))) <-> ble a (vkey v)).
  { unfold ble. rewrite C. destruct (bcmp a (vkey v)) eqn:E; try tauto.
    split; intros _; [discriminate|]. destruct (write_long (Z.lnot (vts v))); discriminate. }
  rewrite X. split; intros [A B]; split; auto.
  - unfold ble, blt in *. destruct (bcmp (encode_bytes (vkey v) ++ write_long (Z.lnot (vts v))) (prefix_next (encode_bytes k))) eqn:E; auto.
    + apply bcmp_eq in E. contradiction.
    + exfalso. apply B. auto.
  - apply blt_ble. auto.
Qed.

Lemma reverse_key vs ts now a k l : Forall version_ok vs -> bytes_ok a -> bytes_ok k -> byte_ok 0 ->
  reverse_entries (map enc vs) ts now a (k ++ [0]) = Ok l ->
  forall S (body : S -> entry -> outcome (S * bool)) s,
    walk_back body s (map enc vs) ts now (encode_bytes a) (prefix_next (encode_bytes k)) = ofold_stop body s l.
Proof.
  intros F Ha Hk H0 E S body s. unfold walk_back. apply visit_back_fold.
  rewrite seek_for_prev_key by auto. unfold reverse_entries in E. rewrite seek_for_prev_range in E; auto.
  apply Forall_app. split; auto.
Qed.

(** ** the columns keyed by id alone *)
Definition cell (p a : Z) (val : vec -> bytes) (now : Z) (u : version) (x : Z * vec) : Prop :=
  strict (fst x) /\ version_ok u /\ liveb now u = true /\ vkey u = dkey p a (fst x) /\ vval u = val (snd x).

Lemma dkey_lt p a i j : comp_ok p a 0 -> legal i -> legal j -> (bcmp (dkey p a i) (dkey p a j) = Lt <-> i < j).
Proof.
  intros C Li Lj. unfold dkey. rewrite plain4_order by (apply legal_comp; auto). unfold vector_order.
  rewrite !Z.compare_refl. destruct (Z.compare_spec i j); split; intros; try discriminate; try lia; auto.
Qed.
Lemma inj_dkey p a : comp_ok p a 0 -> inj_on (dkey p a).
Proof. intros C i j Hi Hj E. unfold dkey in E. apply plain4_inj in E; auto using legal_comp. tauto. Qed.

Section Column.
  Variables (W : wire) (sc : schema) (p a : Z) (val : vec -> bytes) (h : list op) (ws : list version).
  Hypothesis C : comp_ok p a 0.
  Hypothesis FH : Forall (op_ok W sc) h.
  Hypothesis EW : ws = map (evv (dkey p a) val) (events h).
  Hypothesis VW : Forall version_ok ws.

  Lemma col_tracks : tracks (dkey p a) val h ws.
  Proof. subst ws. intros i L. auto. Qed.
  Lemma col_legal : ids_legal h.
  Proof. eapply events_legal; eauto. Qed.
  Lemma col_key u : In u (build ws) -> exists i, strict i /\ vkey u = dkey p a i.
  Proof.
    intros I. apply build_In in I. apply find_some in I. destruct I as [I _]. apply in_rev in I.
    subst ws. apply in_map_iff in I. destruct I as ([[i t] x] & <- & I). exists i. rewrite evv_key. split; auto.
    apply (col_legal _ _ _ I).
  Qed.

  Lemma col_cells ts now A B us :
    StronglySorted (fun x y => bcmp (vkey x) (vkey y) = Lt) us ->
    (forall u, In u us <-> in_range (A, B) (vkey u) /\ visible (build ws) (vkey u) ts now u) ->
    exists xs,
      Forall2 (cell p a val now) us xs /\
      StronglySorted (fun x y => fst x < fst y) xs /\
      (forall i v, In (i, v) xs <-> legal i /\ in_range (A, B) (dkey p a i) /\ stored h ts now i v).
  Proof.
    intros SU IU. assert (FB := build_ok ws VW). assert (SB := build_sorted ws).
    assert (X: forall u, In u us -> exists x, cell p a val now u x /\ stored h ts now (fst x) (snd x)).
    { intros u I. apply IU in I. destruct I as [R V].
      assert (LV: liveb now u = true) by (apply liveb_iff; apply V).
      pose proof (visible_in _ _ _ _ _ V) as [I _].
      destruct (col_key u I) as (i & Hi & K). rewrite K in V.
      apply (tracks_visible_stored (dkey p a) val h) in V; auto using inj_dkey, col_tracks, col_legal, strict_legal.
      destruct V as (v & St & Vv). exists (i, v). split; auto. split; auto.
      split; [rewrite Forall_forall in FB; auto|]. auto. }
    assert (Y: exists xs, Forall2 (fun u x => cell p a val now u x /\ stored h ts now (fst x) (snd x)) us xs).
    { clear - X. induction us as [|u us IH]; [exists []; constructor|].
      destruct IH as (xs & IH). { intros u' I. apply X. right. auto. }
      destruct (X u) as (x & HX). { left. auto. } exists (x :: xs). constructor; auto. }
    destruct Y as (xs & Y). exists xs.
    assert (Y1: Forall2 (cell p a val now) us xs).
    { clear - Y. induction Y as [|u x us xs [Y _] F IH]; constructor; auto. }
    split; auto. split; [|].
    - clear - SU Y1 C. revert SU. induction Y1 as [|u x us xs Y F IH]; intros SU; [constructor|].
      inversion SU; subst. constructor; auto. destruct Y as (Y0 & _ & _ & Y2 & _). clear - H2 F Y0 Y2 C. rewrite Forall_forall in H2.
      induction F as [|u' x' us xs Y F IH]; constructor.
      + destruct Y as (Y3 & _ & _ & Y4 & _). specialize (H2 u' (or_introl eq_refl)). rewrite Y2, Y4 in H2.
        apply dkey_lt in H2; auto using strict_legal.
      + apply IH. intros w I. apply H2. right. auto.
    - assert (Q1: forall u, In u us -> exists x, In x xs /\ cell p a val now u x /\ stored h ts now (fst x) (snd x)).
      { clear - Y. induction Y as [|u x us xs Y F IH]; intros w I; [destruct I|destruct I as [<-|I]].
        - exists x. split; auto. left. auto.
        - destruct (IH w I) as (x' & Ix & H). exists x'. split; auto. right. auto. }
      assert (Q2: forall x, In x xs -> exists u, In u us /\ cell p a val now u x /\ stored h ts now (fst x) (snd x)).
      { clear - Y. induction Y as [|u x us xs Y F IH]; intros w I; [destruct I|destruct I as [<-|I]].
        - exists u. split; auto. left. auto.
        - destruct (IH w I) as (x' & Ix & H). exists x'. split; auto. right. auto. }
      intros i v. split.
      + intros I. destruct (Q2 _ I) as (u & Iu & Cu & St). cbn [fst snd] in St.
        pose proof Cu as (Hi & _ & _ & K & _). cbn [fst] in Hi, K. split; [apply strict_legal; auto|]. split; auto.
        rewrite <- K. apply IU in Iu. apply Iu.
      + intros (L & R & St). pose proof St as St'.
        apply (tracks_stored (dkey p a) val h ws) in St'; auto using inj_dkey, col_tracks, col_legal.
        destruct St' as (u & V & _). pose proof (visible_in _ _ _ _ _ V) as [_ K].
        assert (Iu: In u us) by (apply IU; rewrite K; auto).
        destruct (Q1 u Iu) as ([i' v'] & Ix & Cu & St'). destruct Cu as (Hi & _ & _ & K' & _). cbn [fst snd] in *.
        rewrite K in K'. apply (inj_dkey p a C) in K'; auto using strict_legal. subst i'.
        rewrite (stored_unique _ _ _ _ _ _ St St'). auto.
  Qed.

  Lemma col_listing ts now A B : bytes_ok A -> bytes_ok B ->
    exists us xs,
      forward_entries (map enc (build ws)) ts now A B = Ok (map enc us) /\
      reverse_entries (map enc (build ws)) ts now A B = Ok (map enc (rev us)) /\
      Forall2 (cell p a val now) us xs /\
      StronglySorted (fun x y => fst x < fst y) xs /\
      (forall i v, In (i, v) xs <-> legal i /\ in_range (A, B) (dkey p a i) /\ stored h ts now i v).
  Proof.
    intros HA HB. assert (FB := build_ok ws VW). assert (SB := build_sorted ws).
    destruct (reverse_forward (build ws) ts now A B FB SB HA HB) as (us & EF & ER & SU & IU).
    destruct (col_cells ts now A B us SU IU) as (xs & R). exists us, xs. auto.
  Qed.

  Lemma col_count ts now A B : bytes_ok A -> bytes_ok B -> A <> [] -> B <> [] ->
    exists us xs,
      kv_count (map enc (build ws)) ts now A B = Ok (ROk (Z.of_nat (length us))) /\
      kv_min_key (map enc (build ws)) ts now A B [] = Ok (ROk (hd [] (map vkey us))) /\
      kv_max_key (map enc (build ws)) ts now A B [] = Ok (ROk (hd [] (map vkey (rev us)))) /\
      Forall2 (cell p a val now) us xs /\
      StronglySorted (fun x y => fst x < fst y) xs /\
      (forall i v, In (i, v) xs <-> legal i /\ in_range (A, B) (dkey p a i) /\ stored h ts now i v).
  Proof.
    intros HA HB NA NB. assert (R: represents (map enc (build ws)) (build ws)) by (apply build_repr; auto).
    destruct (scan_all _ _ ts now A B R HA HB NA NB) as (us & _ & EC & EM & EX & _ & _ & _ & SU & IU).
    destruct (col_cells ts now A B us SU IU) as (xs & Q). exists us, xs. auto.
  Qed.

  (** a point read *)
  Lemma col_get ts now i : legal i ->
    (forall v, stored h ts now i v -> kv_get (map enc (build ws)) ts now (dkey p a i) = Ok (ROk (val v))) /\
    ((forall v, ~ stored h ts now i v) -> kv_get (map enc (build ws)) ts now (dkey p a i) = Ok RNotFound).
  Proof.
    intros L. assert (R: represents (map enc (build ws)) (build ws)) by (apply build_repr; auto).
    destruct (kv_get_spec _ _ ts now (dkey p a i) R) as [G1 G2].
    - apply dkey_ok; auto.
    - discriminate.
    - split.
      + intros v St. apply (tracks_stored (dkey p a) val h ws) in St; auto using inj_dkey, col_tracks, col_legal.
        destruct St as (u & V & <-). apply G1. auto.
      + intros N. apply G2. intros u V.
        apply (tracks_visible_stored (dkey p a) val h) in V; auto using inj_dkey, col_tracks, col_legal.
        destruct V as (v & St & _). eapply N; eauto.
  Qed.

  Lemma col_dec ts now i : legal i -> (exists v, stored h ts now i v) \/ (forall v, ~ stored h ts now i v).
  Proof.
    intros L. destruct (visible_dec (build ws) (dkey p a i) ts now (build_sorted ws)) as [(u & V)|N].
    - left. apply (tracks_visible_stored (dkey p a) val h) in V; auto using inj_dkey, col_tracks, col_legal.
      destruct V as (v & St & _). eauto.
    - right. intros v St. apply (tracks_stored (dkey p a) val h ws) in St; auto using inj_dkey, col_tracks, col_legal.
      destruct St as (u & V & _). eapply N; eauto.
  Qed.
End Column.

(** ** decoding visited entries *)
Lemma decode_id_enc p a i s ts u : comp_ok p a i -> ts_ok ts -> u = encode_bytes (plain4 p a i s) ++ write_long (Z.lnot ts) ->
  decode_id_ts u = Ok i.
Proof.
  intros C T ->. destruct (decode4_ts p a i s ts C T) as (T1 & _ & T3 & _).
  unfold decode_from_key3_ts in T3. unfold decode_id_ts.
  destruct (negb (enc_ts_len_ok _)); [discriminate|]. rewrite T1 in *. cbn [obind] in *.
  rewrite decode_or_abort_enc in *. cbn [obind] in *. apply unpackage_vector_id4; auto.
Qed.
Lemma decode_scalar_enc p a i s ts u : comp_ok p a i -> ts_ok ts -> s <> [] ->
  u = encode_bytes (plain4 p a i s) ++ write_long (Z.lnot ts) -> decode_scalar_ts u = Ok s.
Proof.
  intros C T N ->. destruct (decode4_ts p a i s ts C T) as (T1 & _ & _ & _).
  pose proof (enc_len4 p a i s C) as L.
  unfold decode_scalar_ts. rewrite app_length, write_long_length.
  replace (length (encode_bytes (plain4 p a i s)) + 8 <? 35)%nat with false by lia.
  rewrite T1. cbn [obind]. rewrite decode_or_abort_enc. cbn [obind]. apply unpackage_scalar4; auto.
Qed.

Lemma cell_id p a val now u x : comp_ok p a 0 -> cell p a val now u x -> checked_id (fst (enc u)) = Ok (fst x).
Proof.
  intros C (S & V & _ & K & _). unfold checked_id.
  rewrite (decode_id_enc p a (fst x) [] (vts u)).
  - cbn [obind]. unfold strict in S. replace (0 <? fst x) with true by lia. auto.
  - apply legal_comp; auto using strict_legal.
  - apply V.
  - cbn [enc fst]. rewrite K. reflexivity.
Qed.
Lemma cell_val p a val now u x : cell p a val now u x -> unpackage_value (snd (enc u)) = Ok (val (snd x)).
Proof. intros (S & V & L & K & E). rewrite (unpackage_live now) by auto. rewrite E. auto. Qed.

(** ** the range of a region, in ids *)
Lemma range_ids g p a l hi i s : serves g p a l hi -> strict i ->
  (in_range (g_start g, g_end g) (plain4 p a i s) <-> l <= i < hi).
Proof.
  intros (C & _ & S & E) Hi. assert (Ci := legal_comp p a i C (strict_legal i Hi)). unfold in_range. cbn [fst snd].
  assert (X: ble (g_start g) (plain4 p a i s) <-> l <= i).
  { unfold ble. destruct S as [[S ->]|[S L]].
    - rewrite (package_key2_eq p a 0) in S by auto. apply Ok_inj in S. rewrite <- S.
      rewrite (plain2_order p a p a i s) by auto. rewrite !Z.compare_refl. unfold strict in Hi. split; [lia|discriminate].
    - rewrite package_key3_eq in S by (apply comp_id; auto). apply Ok_inj in S. rewrite <- S.
      rewrite plain4_order by (auto; apply comp_id; auto). unfold vector_order. rewrite !Z.compare_refl.
      destruct (Z.compare_spec l i); destruct s; cbn [bcmp]; split; intros; try lia; try discriminate; congruence. }
  assert (Y: blt (plain4 p a i s) (g_end g) <-> i < hi).
  { unfold blt. destruct E as [[E L]|(a' & A & E & ->)].
    - rewrite package_key3_eq in E by (apply comp_id; auto; lia). apply Ok_inj in E. rewrite <- E.
      rewrite plain4_order by (auto; apply comp_id; auto; lia). unfold vector_order. rewrite !Z.compare_refl.
      destruct (Z.compare_spec i hi); destruct s; cbn [bcmp]; split; intros; try lia; try discriminate; congruence.
    - assert (C': comp_ok p a' 0) by (unfold comp_ok in *; lia).
      rewrite (package_key2_eq p a' 0) in E by auto. apply Ok_inj in E. rewrite <- E.
      rewrite bcmp_opp, (plain2_order p a' p a i s) by auto. rewrite !Z.compare_refl.
      destruct (Z.compare_spec a' a); try lia. unfold strict in Hi. cbn [CompOpp]. split; auto. lia. }
  rewrite X, Y. tauto.
Qed.

Lemma serves_ok g p a l hi : serves g p a l hi -> bytes_ok (g_start g) /\ bytes_ok (g_end g) /\ g_start g <> [] /\ g_end g <> [].
Proof.
  intros (C & _ & S & E). 
  assert (X: bytes_ok (g_start g) /\ g_start g <> []).
  { destruct S as [[S _]|[S L]].
    - rewrite (package_key2_eq p a 0) in S by auto. apply Ok_inj in S. rewrite <- S. split; [apply (plain2_ok p a 0); auto|discriminate].
    - rewrite package_key3_eq in S by (apply comp_id; auto). apply Ok_inj in S. rewrite <- S.
      split; [apply plain4_ok; [apply comp_id; auto|constructor]|discriminate]. }
  assert (Y: bytes_ok (g_end g) /\ g_end g <> []).
  { destruct E as [[E L]|(a' & A & E & _)].
    - rewrite package_key3_eq in E by (apply comp_id; auto; lia). apply Ok_inj in E. rewrite <- E.
      split; [apply plain4_ok; [apply comp_id; auto; lia|constructor]|discriminate].
    - assert (C': comp_ok p a' 0) by (unfold comp_ok in *; lia).
      rewrite (package_key2_eq p a' 0) in E by auto. apply Ok_inj in E. rewrite <- E. split; [apply (plain2_ok p a' 0); auto|discriminate]. }
  tauto.
Qed.
