(** Proofs for the vector store, part 4: selection by attributes. *)
From Coq Require Import ZArith List Lia Bool PeanoNat Sorted ZifyNat ZifyBool.
From Verif Require Import Bytes SMap Outcome CodecModel CodecSpec CodecProofs CodecProofs2
  MvccModel MvccSpec MvccProofs RawModel RawProofs1 VqModel VqSpec VrModel VrSpec VrProofs1 VrProofs2 VrProofs3.
Import ListNotations.
Open Scope Z_scope.

(** two lists in strict order with the same elements are equal *)
Lemma sorted_unique {A} (R : A -> A -> Prop) : (forall x, ~ R x x) -> (forall x y z, R x y -> R y z -> R x z) ->
  forall l l', StronglySorted R l -> StronglySorted R l' -> (forall x, In x l <-> In x l') -> l = l'.
Proof.
  intros IR TR. induction l as [|x l IH]; intros [|y l'] HS HS' E; auto.
  - exfalso. apply (E y). left. auto.
  - exfalso. apply (E x). left. auto.
  - inversion HS as [|? ? S1 F1]; inversion HS' as [|? ? S2 F2]; subst. rewrite Forall_forall in F1, F2.
    assert (x = y).
    { destruct (proj1 (E x) (or_introl eq_refl)) as [H|H]; auto.
      destruct (proj2 (E y) (or_introl eq_refl)) as [H'|H']; auto.
      exfalso. apply (IR x). eapply TR; [apply F1; exact H'|]. apply F2. auto. }
    subst y. f_equal. apply IH; auto. intros z. split; intros I.
    + destruct (proj1 (E z) (or_intror I)) as [->|J]; auto. exfalso. apply (IR z). auto.
    + destruct (proj2 (E z) (or_intror I)) as [->|J]; auto. exfalso. apply (IR z). auto.
Qed.

(** sorting keys *)
Fixpoint binsert (k : bytes) (l : list bytes) : list bytes :=
  match l with
  | [] => [k]
  | x :: r => match bcmp k x with Lt => k :: l | Eq => l | Gt => x :: binsert k r end
  end.
Lemma binsert_in k l z : In z (binsert k l) <-> z = k \/ In z l.
Proof.
  induction l as [|x r IH]; cbn [binsert]; [cbn; intuition|]. destruct (bcmp k x) eqn:E.
  - apply bcmp_eq in E. subst. cbn. intuition.
  - cbn. intuition.
  - cbn [In]. rewrite IH. intuition.
Qed.
Lemma binsert_sorted k l : StronglySorted (fun x y => bcmp x y = Lt) l -> StronglySorted (fun x y => bcmp x y = Lt) (binsert k l).
Proof.
  induction 1 as [|x r S1 IH F]; cbn [binsert]; [constructor; constructor|]. destruct (bcmp k x) eqn:E.
  - constructor; auto.
  - constructor; [constructor; auto|]. constructor; auto. eapply Forall_impl; [|exact F]. cbv beta. intros y H. eapply bcmp_trans; eauto.
  - constructor; auto. apply Forall_forall. intros z I. apply binsert_in in I. destruct I as [->|I].
    + rewrite bcmp_opp, E. auto.
    + rewrite Forall_forall in F. auto.
Qed.
Definition bsort (l : list bytes) : list bytes := fold_right binsert [] l.
Lemma bsort_in l z : In z (bsort l) <-> In z l.
Proof. induction l as [|x l IH]; cbn; [tauto|]. rewrite binsert_in, IH. intuition. Qed.
Lemma bsort_sorted l : StronglySorted (fun x y => bcmp x y = Lt) (bsort l).
Proof. induction l; cbn; [constructor|apply binsert_sorted; auto]. Qed.

Lemma forallb_same {A} (f k : A -> bool) xs : (forall x, In x xs -> f x = k x) -> forallb f xs = forallb k xs.
Proof. induction xs as [|x xs IH]; auto. intros H. cbn [forallb]. rewrite (H x (or_introl eq_refl)), IH; auto. intros y I. apply H. right. auto. Qed.

(** ** the scan of the speed-up column, as a fold *)
Section Groups.
  Variables (flt : scalars) (keys : list bytes).
  Definition madd (v : vec) (m : scalars) (s : bytes) : scalars :=
    if existsb (beqb s) keys then match lookup s m with Some _ => m | None => (s, sval_of s v) :: m end else m.
  Definition sstep (st : speed_state) (x : Z * bytes * vec) : speed_state :=
    let '(i, s, v) := x in
    let '(last, m, acc) := st in
    let differs := match last with Some l => negb (l =? i) | None => false end in
    let '(m, acc) := if differs then ([], flush flt st) else (m, acc) in
    (Some i, madd v m s, acc).

  Lemma same_group i v ks : forall m acc,
    fold_left sstep (map (fun s => (i, s, v)) ks) (Some i, m, acc) = (Some i, fold_left (madd v) ks m, acc).
  Proof.
    induction ks as [|s ks IH]; intros m acc; auto. cbn [map fold_left sstep]. rewrite Z.eqb_refl. cbn [negb]. apply IH.
  Qed.
  Lemma new_group i v s ks last m acc : last <> Some i -> (last = None -> m = []) ->
    fold_left sstep (map (fun s => (i, s, v)) (s :: ks)) (last, m, acc) =
    (Some i, fold_left (madd v) (s :: ks) [], flush flt (last, m, acc)).
  Proof.
    intros N M. cbn [map fold_left sstep]. destruct last as [j|].
    - assert (E: (j =? i) = false). { apply Z.eqb_neq. intros ->. apply N. auto. }
      rewrite E. cbn [negb]. apply same_group.
    - rewrite M by auto. cbn [flush]. apply same_group.
  Qed.

  Lemma madd_lookup v ks : forall m s, (forall x, lookup s m = Some x -> x = sval_of s v) ->
    lookup s (fold_left (madd v) ks m) =
      (if existsb (beqb s) ks && existsb (beqb s) keys then Some (sval_of s v) else lookup s m).
  Proof.
    induction ks as [|k ks IH]; intros m s H; auto. cbn [fold_left existsb].
    assert (X: lookup s (madd v m k) = if beqb s k && existsb (beqb s) keys then Some (sval_of s v) else lookup s m).
    { unfold madd. destruct (beqb s k) eqn:E.
      - apply beqb_true in E. subst k. cbn [andb]. destruct (existsb (beqb s) keys); auto.
        destruct (lookup s m) as [x|] eqn:L; [rewrite L, (H x); auto|]. cbn [lookup]. rewrite beqb_refl. auto.
      - cbn [andb]. destruct (existsb (beqb k) keys); auto. destruct (lookup k m); auto. cbn [lookup]. rewrite E. auto. }
    rewrite IH.
    - rewrite X. destruct (beqb s k), (existsb (beqb s) ks), (existsb (beqb s) keys); cbn; auto.
    - intros x. rewrite X. destruct (beqb s k && existsb (beqb s) keys); [congruence|apply H].
  Qed.

  Lemma flush_some i m acc : flush flt (Some i, m, acc) = if compare_core flt m then i :: acc else acc.
  Proof. reflexivity. Qed.
  Lemma groups_fold ks (ok : Z * vec -> bool) ys : ks <> [] ->
    (forall i v, In (i, v) ys -> compare_core flt (fold_left (madd v) ks []) = ok (i, v)) -> NoDup (map fst ys) ->
    forall last m acc, (forall i, last = Some i -> ~ In i (map fst ys)) -> (last = None -> m = []) ->
    flush flt (fold_left sstep (flat_map (fun x => map (fun s => (fst x, s, snd x)) ks) ys) (last, m, acc)) =
      rev (map fst (filter ok ys)) ++ flush flt (last, m, acc).
  Proof.
    intros NK. induction ys as [|[i v] ys IH]; intros OK ND last m acc L M; auto.
    cbn [flat_map fst snd]. rewrite fold_left_app. destruct ks as [|s ks]; [congruence|].
    cbn [map fst] in ND, L. inversion ND; subst.
    rewrite new_group; auto.
    2:{ intros ->. apply (L i eq_refl). left. auto. }
    rewrite IH; auto.
    - cbn [filter]. pose proof (OK i v (or_introl eq_refl)) as E. rewrite flush_some, E.
      destruct (ok (i, v)); cbn [map rev fst]; auto. rewrite <- app_assoc. reflexivity.
    - intros i' v' I. apply OK. right. auto.
    - intros j E. assert (i = j) by congruence. subst. auto.
    - discriminate.
  Qed.
End Groups.

Section Region.
  Variables (W : wire) (g : region) (p a l hi : Z) (h : list op) (c : cfs).
  Hypothesis SV : serves g p a l hi.
  Hypothesis SC : schema_ok (g_schema g).
  Hypothesis WO : wire_ok W.
  Hypothesis FH : Forall (op_ok W (g_schema g)) h.
  Hypothesis HC : apply_ops W g h = Ok c.
  Let HOLD := hold W g p a l hi h c SV SC FH HC.
  Let WSS := wss W g p a l hi h SV SC FH.
  Let SS := stored_strict W g h FH.

  (** the listing of a column over the whole region *)
  Definition listing (now : Z) (xs : list (Z * vec)) : Prop :=
    StronglySorted (fun x y => fst x < fst y) xs /\
    forall i v, In (i, v) xs <-> l <= i < hi /\ stored h 0 now i v.

  Lemma listing_unique now xs ys : listing now xs -> listing now ys -> xs = ys.
  Proof.
    intros [S1 I1] [S2 I2]. eapply (sorted_unique (fun x y => fst x < fst y)); eauto; [lia|lia|].
    intros [i v]. rewrite I1, I2. tauto.
  Qed.

  Lemma column val ws st now : ws = map (evv (dkey p a) val) (events h) -> Forall version_ok ws -> st = map enc (build ws) ->
    exists us xs, forward_entries st 0 now (g_start g) (g_end g) = Ok (map enc us) /\
      Forall2 (cell p a val now) us xs /\ listing now xs.
  Proof.
    intros EW VW ->. destruct (serves_ok g p a l hi SV) as (Bs & Be & _ & _).
    destruct (col_listing W (g_schema g) p a val h ws (C0 g p a l hi SV) FH EW VW 0 now _ _ Bs Be) as (us & xs & EF & _ & FC & SX & IX).
    exists us, xs. split; auto. split; auto. split; auto. intros i v. rewrite IX. split.
    - intros (L & R & St). split; auto. apply (range_ids g p a l hi i []); auto. eapply SS; eauto.
    - intros (R & St). split; [apply strict_legal; eapply SS; eauto|]. split; auto.
      apply (range_ids g p a l hi i []); auto. eapply SS; eauto.
  Qed.
  Lemma data_column now : exists us xs, forward_entries (cf_data c) 0 now (g_start g) (g_end g) = Ok (map enc us) /\
      Forall2 (cell p a (fun v => ser_vec W (v_data v)) now) us xs /\ listing now xs.
  Proof. destruct HOLD as (HD & _). destruct WSS as (F & _). eapply column; eauto. Qed.
  Lemma scalar_column now : exists us xs, forward_entries (cf_scalar c) 0 now (g_start g) (g_end g) = Ok (map enc us) /\
      Forall2 (cell p a (fun v => ser_map W (v_scalar v)) now) us xs /\ listing now xs.
  Proof. destruct HOLD as (_ & HD & _). destruct WSS as (_ & F & _). eapply column; eauto. Qed.

  Definition chosen (flt : scalars) (xs : list (Z * vec)) : list Z :=
    map fst (filter (fun x => compare_core flt (v_scalar (snd x))) xs).

  Lemma pre_fold flt now us xs : Forall2 (cell p a (fun v => ser_map W (v_scalar v)) now) us xs ->
    forall acc, ofold_stop (pre_body W flt) acc (map enc us) = Ok (rev (chosen flt xs) ++ acc).
  Proof.
    destruct WO as (_ & WM & _). unfold chosen.
    induction 1 as [|u [i v] us xs Cu F IH]; intros acc; auto. cbn [map ofold_stop filter snd].
    unfold pre_body at 1. rewrite (cell_val _ _ _ _ _ _ Cu). cbn [obind snd]. rewrite WM. cbn [parsed obind].
    destruct (compare_core flt (v_scalar v)); cbn [obind].
    - rewrite (cell_id _ _ _ _ _ _ (C0 g p a l hi SV) Cu). cbn [obind fst]. rewrite IH. cbn [map rev fst]. rewrite <- app_assoc. reflexivity.
    - apply IH.
  Qed.

  Lemma pre_scalar_ok flt now : exists xs, listing now xs /\ pre_ids_scalar W g c now flt = Ok (chosen flt xs).
  Proof.
    destruct (scalar_column now) as (us & xs & EF & FC & L). exists xs. split; auto.
    unfold pre_ids_scalar, encode_range. cbn [fst snd]. rewrite (walk_fold _ _ _ _ _ _ _ _ EF).
    rewrite (pre_fold flt now us xs FC). cbn [omap obind]. rewrite app_nil_r, rev_involutive. reflexivity.
  Qed.

  (** *** the speed-up column *)
  Definition ks : list bytes := bsort (speed_keys (g_schema g)).
  Definition scell (now : Z) (u : version) (x : Z * bytes * vec) : Prop :=
    let '(i, s, v) := x in
    strict i /\ In s ks /\ version_ok u /\ liveb now u = true /\ vkey u = skey p a s i /\ vval u = ser_val W (sval_of s v).

  Lemma speed_key u : In u (build (ws_speed W g p a (events h))) ->
    exists i s, strict i /\ In s (speed_keys (g_schema g)) /\ vkey u = skey p a s i.
  Proof.
    intros I. apply build_In in I. apply find_some in I. destruct I as [I _]. apply in_rev in I.
    unfold ws_speed in I. apply in_flat_map in I. destruct I as ([[i t] x] & Ie & I).
    unfold speed_writes in I. apply in_map_iff in I. destruct I as (s & <- & I). exists i, s. rewrite evv_key. cbn [fst].
    split; auto. apply (events_legal _ _ _ FH _ _ _ Ie).
  Qed.

  Definition tlt (x y : Z * bytes * vec) : Prop :=
    let '(i, s, _) := x in let '(j, s', _) := y in i < j \/ i = j /\ bcmp s s' = Lt.
  Lemma skey_lt i s j s' : legal i -> legal j ->
    (bcmp (skey p a s i) (skey p a s' j) = Lt <-> i < j \/ i = j /\ bcmp s s' = Lt).
  Proof.
    intros Li Lj. pose proof (C0 g p a l hi SV) as C. unfold skey. rewrite plain4_order by (apply legal_comp; auto).
    unfold vector_order. rewrite !Z.compare_refl. destruct (Z.compare_spec i j); split; intros H0; try discriminate; try lia; auto.
    destruct H0 as [H0|[_ H0]]; [lia|auto].
  Qed.

  Lemma speed_column now : exists us xs, forward_entries (cf_speed c) 0 now (g_start g) (g_end g) = Ok (map enc us) /\
    Forall2 (scell now) us xs /\ StronglySorted tlt xs /\
    (forall i s v, In (i, s, v) xs <-> l <= i < hi /\ In s ks /\ stored h 0 now i v).
  Proof.
    pose proof (C0 g p a l hi SV) as C. destruct HOLD as (_ & _ & _ & HD). destruct WSS as (_ & _ & _ & VW).
    destruct (serves_ok g p a l hi SV) as (Bs & Be & _ & _). rewrite HD.
    set (ws := ws_speed W g p a (events h)) in *. assert (FB := build_ok ws VW). assert (SB := build_sorted ws).
    destruct (reverse_forward (build ws) 0 now _ _ FB SB Bs Be) as (us & EF & _ & SU & IU).
    assert (TR: forall s, In s ks -> tracks (skey p a s) (fun v => ser_val W (sval_of s v)) h ws).
    { intros s I. apply (proj1 (bsort_in _ _)) in I. unfold ws. apply (tracks_speed W g p a l hi); auto. }
    assert (IL := events_legal _ _ _ FH).
    assert (X: forall u, In u us -> exists x, scell now u x /\ (let '(i, s, v) := x in stored h 0 now i v)).
    { intros u I. apply IU in I. destruct I as [R V].
      assert (LV: liveb now u = true) by (apply liveb_iff; apply V).
      pose proof (visible_in _ _ _ _ _ V) as [I _].
      destruct (speed_key u I) as (i & s & Hi & Is & K). rewrite K in V.
      assert (Is': In s ks) by (apply bsort_in; auto).
      apply (tracks_visible_stored (skey p a s) (fun v => ser_val W (sval_of s v)) h) in V; auto using inj_skey, strict_legal.
      destruct V as (v & St & Vv). exists (i, s, v). split; auto. split; auto. split; auto.
      split; [rewrite Forall_forall in FB; auto|]. auto. }
    assert (Y: exists xs, Forall2 (fun u x => scell now u x /\ (let '(i, s, v) := x in stored h 0 now i v)) us xs).
    { clear - X. induction us as [|u us IH]; [exists []; constructor|].
      destruct IH as (xs & IH). { intros u' I. apply X. right. auto. }
      destruct (X u) as (x & HX). { left. auto. } exists (x :: xs). constructor; auto. }
    destruct Y as (xs & Y). exists us, xs. split; auto.
    assert (Y1: Forall2 (scell now) us xs).
    { eapply Forall2_imp; [|exact Y]. tauto. }
    split; auto. split.
    - clear IU X Y EF. revert SU. induction Y1 as [|u x us xs Y F IH]; intros SU; [constructor|].
      inversion SU; subst. constructor; auto. clear IH SU H1. rewrite Forall_forall in H2.
      induction F as [|u' x' us xs Y' F IH]; constructor.
      + destruct x as [[i s] v], x' as [[i' s'] v']. destruct Y as (Y0 & _ & _ & _ & Y2 & _). destruct Y' as (Y3 & _ & _ & _ & Y4 & _).
        specialize (H2 u' (or_introl eq_refl)). rewrite Y2, Y4 in H2. apply skey_lt in H2; auto using strict_legal.
      + apply IH. intros w I. apply H2. right. auto.
    - assert (Q1: forall u, In u us -> exists x, In x xs /\ scell now u x /\ (let '(i, s, v) := x in stored h 0 now i v)).
      { clear - Y. induction Y as [|u x us xs Y F IH]; intros w I; [destruct I|destruct I as [<-|I]].
        - exists x. split; auto. left. auto.
        - destruct (IH w I) as (x' & Ix & H). exists x'. split; auto. right. auto. }
      assert (Q2: forall x, In x xs -> exists u, In u us /\ scell now u x /\ (let '(i, s, v) := x in stored h 0 now i v)).
      { clear - Y. induction Y as [|u x us xs Y F IH]; intros w I; [destruct I|destruct I as [<-|I]].
        - exists u. split; auto. left. auto.
        - destruct (IH w I) as (x' & Ix & H). exists x'. split; auto. right. auto. }
      intros i s v. split.
      + intros I. destruct (Q2 _ I) as (u & Iu & (Hi & Is & _ & _ & K & _) & St). split; auto.
        apply IU in Iu. destruct Iu as [R _]. rewrite K in R. apply (range_ids g p a l hi i s); auto.
      + intros (R & Is & St). pose proof St as St'. assert (Hi := SS _ _ _ _ St).
        apply (tracks_stored (skey p a s) (fun v => ser_val W (sval_of s v)) h ws) in St'; auto using inj_skey, strict_legal.
        destruct St' as (u & V & _). pose proof (visible_in _ _ _ _ _ V) as [_ K].
        assert (Iu: In u us). { apply IU. rewrite K. split; auto. apply (range_ids g p a l hi i s); auto. }
        destruct (Q1 u Iu) as ([[i' s'] v'] & Ix & (Hi' & _ & _ & _ & K' & _) & St'). rewrite K in K'.
        unfold skey in K'. apply plain4_inj in K'; [|apply legal_comp; auto using strict_legal..]. destruct K' as [<- <-].
        rewrite (stored_unique _ _ _ _ _ _ St St'). auto.
  Qed.

  Lemma speed_is_groups now ys us xs : listing now ys -> Forall2 (scell now) us xs -> StronglySorted tlt xs ->
    (forall i s v, In (i, s, v) xs <-> l <= i < hi /\ In s ks /\ stored h 0 now i v) ->
    xs = flat_map (fun x => map (fun s => (fst x, s, snd x)) ks) ys.
  Proof.
    intros [SY IY] _ SX IX. apply (sorted_unique tlt).
    - intros [[i s] v] [H|[_ H]]; [lia|]. rewrite bcmp_refl in H. discriminate.
    - intros [[i s] v] [[j s'] v'] [[k s''] v''] [H|[-> H]] [H'|[-> H']]; cbn; try lia. right. split; auto. eapply bcmp_trans; eauto.
    - auto.
    - clear - SY. induction SY as [|[i v] ys S1 IH F]; cbn [flat_map fst snd]; [constructor|].
      assert (K := bsort_sorted (speed_keys (g_schema g))). fold ks in K.
      assert (FT: Forall (fun y => i < fst (fst y)) (flat_map (fun x => map (fun s => (fst x, s, snd x)) ks) ys)).
      { apply Forall_forall. intros [[j s'] v'] I. apply in_flat_map in I. destruct I as ([j' w] & I1 & I2).
        apply in_map_iff in I2. destruct I2 as (s0 & E & _). cbn [fst snd] in E. rewrite Forall_forall in F.
        specialize (F _ I1). cbn [fst] in *. assert (j = j') by congruence. subst. auto. }
      revert IH FT. generalize (flat_map (fun x => map (fun s => (fst x, s, snd x)) ks) ys) as tl. intros tl IH FT.
      clear S1 F. induction K as [|s k K IHK FK]; cbn [map app]; auto. constructor; auto. apply Forall_app. split.
      + rewrite Forall_map. eapply Forall_impl; [|exact FK]. cbv beta. intros s' H. cbn. auto.
      + eapply Forall_impl; [|exact FT]. cbv beta. intros [[j s'] v'] H. left. auto.
    - intros [[i s] v]. rewrite IX, in_flat_map. split.
      + intros (R & Is & St). exists (i, v). split; [apply IY; auto|]. apply in_map_iff. exists s. auto.
      + intros ([j w] & I1 & I2). apply in_map_iff in I2. destruct I2 as (s' & E & Is). cbn [fst snd] in E.
        assert (j = i) by congruence. assert (w = v) by congruence. assert (s' = s) by congruence. subst.
        apply IY in I1. tauto.
  Qed.

  Lemma speed_fold flt keys now us xs : Forall2 (scell now) us xs ->
    forall st, ofold_stop (speed_body W flt keys) st (map enc us) = Ok (fold_left (sstep flt keys) xs st).
  Proof.
    pose proof (C0 g p a l hi SV) as C. destruct WO as (_ & _ & _ & WV).
    induction 1 as [|u [[i s] v] us xs (Hi & Is & V & LV & K & VV) F IH]; intros [[last m] acc]; auto.
    cbn [map ofold_stop fold_left]. unfold speed_body at 1.
    assert (CK: comp_ok p a i) by (apply legal_comp; auto using strict_legal).
    assert (FE: fst (enc u) = encode_bytes (plain4 p a i s) ++ write_long (Z.lnot (vts u))) by (cbn [enc fst]; rewrite K; auto).
    assert (T: ts_ok (vts u)) by apply V.
    assert (NS: s <> []). { apply (speed_nonempty g SC). apply bsort_in. auto. }
    unfold checked_id. rewrite (decode_id_enc p a i s (vts u)) by auto. cbn [obind].
    unfold strict in Hi. replace (0 <? i) with true by lia. cbn [obind].
    rewrite (decode_scalar_enc p a i s (vts u)) by auto.
    rewrite (unpackage_live now) by auto. cbn [sstep]. rewrite VV.
    destruct (match last with Some l0 => negb (l0 =? i) | None => false end); cbn [obind];
      destruct s as [|b s]; try congruence; cbn [is_empty]; unfold madd;
      destruct (existsb (beqb (b :: s)) keys); cbn [obind]; rewrite ?WV; cbn [parsed obind]; apply IH.
  Qed.

  Lemma pre_speed_ok flt now : flt <> [] -> (forall k x, In (k, x) flt -> In k (speed_keys (g_schema g))) ->
    exists xs, listing now xs /\ pre_ids_speed W g c now flt = Ok (chosen flt xs).
  Proof.
    intros NF HK. destruct (data_column now) as (_ & ys & _ & _ & L). exists ys. split; auto.
    destruct (speed_column now) as (us & xs & EF & FC & SX & IX).
    rewrite (speed_is_groups now ys us xs L FC SX IX) in FC.
    unfold pre_ids_speed, encode_range. cbn [fst snd]. rewrite (walk_fold _ _ _ _ _ _ _ _ EF).
    rewrite (speed_fold flt (map fst flt) now us _ FC). cbn [obind].
    rewrite (groups_fold flt (map fst flt) ks (fun x => compare_core flt (v_scalar (snd x)))).
    - cbn [flush]. rewrite app_nil_r, rev_involutive. reflexivity.
    - intros E. destruct flt as [|[k x] r]; [congruence|]. assert (I: In k ks). { apply bsort_in. eapply HK. left. eauto. }
      rewrite E in I. destruct I.
    - intros i v I. cbn [snd]. apply L in I. destruct I as [_ St].
      assert (VS: valid_scalars (g_schema g) (v_scalar v) = true).
      { apply (stored_vec h) in St. destruct St as (t & ttl & Ie). pose proof (events_ok _ _ _ FH) as FE. rewrite Forall_forall in FE.
        apply FE in Ie. apply Ie. }
      unfold compare_core. apply forallb_same. intros [k x] I. cbn [fst snd].
      rewrite madd_lookup by discriminate.
      assert (Ik := HK _ _ I). destruct (valid_speed _ _ _ VS Ik) as (y & Ly).
      assert (E1: existsb (beqb k) ks = true). { apply existsb_exists. exists k. split; [apply bsort_in; auto|apply beqb_refl]. }
      assert (E2: existsb (beqb k) (map fst flt) = true).
      { apply existsb_exists. exists k. split; [apply in_map_iff; exists (k, x); auto|apply beqb_refl]. }
      rewrite E1, E2. cbn [andb]. unfold sval_of. rewrite Ly. reflexivity.
    - destruct L as [SY _]. clear - SY. induction SY as [|x ys S1 IH F]; cbn [map]; constructor; auto.
      intros I. apply in_map_iff in I. destruct I as (y & E & I). rewrite Forall_forall in F. apply F in I. lia.
    - discriminate.
    - auto.
  Qed.

  Lemma need_speed_keys flt : need_speed (g_schema g) flt = Some true ->
    forall k x, In (k, x) flt -> In k (speed_keys (g_schema g)).
  Proof.
    unfold need_speed. destruct (negb (existsb f_speed (g_schema g))); [discriminate|].
    intros E. assert (E': need_speed_loop (g_schema g) flt = Some true) by (destruct flt; [discriminate|exact E]).
    clear E. induction flt as [|[k x] r IH]; [intros ? ? []|]. cbn [need_speed_loop] in E'.
    destruct (is_empty k); [discriminate|].
    destruct (existsb (fun f => f_speed f && beqb k (f_key f)) (g_schema g)) eqn:E; [|discriminate].
    intros k' x' [H|I]; [|eapply IH; eauto]. assert (k = k') by congruence. subst k'.
    apply existsb_exists in E. destruct E as (f & If & E). apply andb_true_iff in E. destruct E as [E1 E2].
    apply beqb_true in E2. subst k. apply in_map. apply filter_In. auto.
  Qed.

  Lemma pre_filter_ok flt now ids : pre_filter_ids W g c now flt = Ok (Some ids) -> exists xs, listing now xs /\ ids = chosen flt xs.
  Proof.
    unfold pre_filter_ids. destruct flt as [|kx flt]; [discriminate|]. set (f := kx :: flt).
    destruct (need_speed (g_schema g) f) as [[|]|] eqn:E; [| |discriminate].
    - destruct (pre_speed_ok f now) as (xs & L & P); [discriminate|apply need_speed_keys; auto|]. rewrite P. cbn [omap obind].
      intros H. apply Ok_inj in H. assert (ids = chosen f xs) by congruence. eauto.
    - destruct (pre_scalar_ok f now) as (xs & L & P). rewrite P. cbn [omap obind].
      intros H. apply Ok_inj in H. assert (ids = chosen f xs) by congruence. eauto.
  Qed.
  Lemma need_speed_some flt : (forall k x, In (k, x) flt -> k <> []) -> exists b, need_speed (g_schema g) flt = Some b.
  Proof.
    intros N. unfold need_speed. destruct (negb (existsb f_speed (g_schema g))); [eauto|].
    assert (X: exists b, need_speed_loop (g_schema g) flt = Some b).
    { induction flt as [|[k x] r IH]; [exists true; auto|]. cbn [need_speed_loop].
      assert (k <> []) by (eapply N; left; eauto). destruct k; [congruence|]. cbn [is_empty].
      destruct (existsb _ _); [|eauto]. apply IH. intros. eapply N. right. eauto. }
    destruct flt; eauto.
  Qed.
  Lemma pre_filter_total flt now : flt <> [] -> (forall k x, In (k, x) flt -> k <> []) ->
    exists xs, listing now xs /\ pre_filter_ids W g c now flt = Ok (Some (chosen flt xs)).
  Proof.
    intros N K. destruct (need_speed_some flt K) as (b & E). unfold pre_filter_ids.
    destruct flt as [|kx flt]; [congruence|]. rewrite E. destruct b.
    - destruct (pre_speed_ok (kx :: flt) now) as (xs & L & P); [discriminate|apply need_speed_keys; auto|]. exists xs. rewrite P. auto.
    - destruct (pre_scalar_ok (kx :: flt) now) as (xs & L & P). exists xs. rewrite P. auto.
  Qed.

  Lemma chosen_in flt now xs i : all_typed flt -> typed_history h -> listing now xs ->
    (In i (chosen flt xs) <-> l <= i < hi /\ exists v, stored h 0 now i v /\ matches flt (v_scalar v)).
  Proof.
    intros TF TH [_ IX]. unfold chosen. rewrite in_map_iff. split.
    - intros ([j v] & <- & I). apply filter_In in I. destruct I as [I K]. cbn [fst snd] in *. apply IX in I. destruct I as [R St].
      split; auto. exists v. split; auto. apply compare_core_matches; auto. eapply stored_typed; eauto.
    - intros (R & v & St & M). exists (i, v). split; auto. apply filter_In. split; [apply IX; auto|]. cbn [snd].
      apply compare_core_matches; auto. eapply stored_typed; eauto.
  Qed.
  Lemma chosen_sorted flt now xs : listing now xs -> StronglySorted Z.lt (chosen flt xs).
  Proof. intros [S1 _]. unfold chosen. apply (sorted_map_filter _ fst Z.lt). exact S1. Qed.
End Region.
