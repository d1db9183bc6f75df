(** Proofs for the vector store, part 3: queries by id, scans, count and border ids. *)
From Coq Require Import ZArith List Lia Bool PeanoNat Sorted ZifyNat ZifyBool.
From Verif Require Import Bytes SMap Outcome CodecModel CodecSpec CodecProofs CodecProofs2
  MvccModel MvccSpec MvccProofs RawModel RawProofs1 VqModel VqSpec VrModel VrSpec VrProofs1 VrProofs2.
Import ListNotations.
Open Scope Z_scope.

(** ** attribute filters *)
Lemma ftype_eqb_eq a b : ftype_eqb a b = true <-> a = b.
Proof. destruct a, b; cbn; split; intros; try discriminate; auto. Qed.

Lemma same_fields_eq {A} (get : field -> A) (eqb : A -> A -> bool) (K : field -> Prop) x : forall y,
  (forall u w, K u -> K w -> eqb (get u) (get w) = true -> u = w) -> (forall u, eqb (get u) (get u) = true) ->
  Forall K x -> Forall K y -> (same_fields get eqb x y = true <-> x = y).
Proof.
  induction x as [|u x IH]; intros [|w y] E R FX FY; cbn [same_fields]; try (split; [discriminate|discriminate]); [tauto|].
  inversion FX; inversion FY; subst. rewrite andb_true_iff, IH by auto. split.
  - intros [H ->]. rewrite (E u w); auto.
  - intros H. assert (u = w) by congruence. assert (x = y) by congruence. subst. auto.
Qed.

Lemma is_equal_eq x y : well_typed x -> well_typed y -> (is_equal x y = true <-> x = y).
Proof.
  intros (N & D & F) (_ & _ & F'). unfold is_equal. destruct x as [t fs], y as [t' fs']. cbn [s_type s_fields] in *.
  destruct (ftype_eqb t t') eqn:E.
  - apply ftype_eqb_eq in E. subst t'. cbn [negb].
    assert (X: fs = fs' <-> mkS t fs = mkS t fs') by (split; intros; congruence). rewrite <- X.
    destruct t; try contradiction; eapply same_fields_eq; try eassumption; cbv beta;
      try (intros [] []; cbn; intros; try contradiction; f_equal);
      try (intros; apply Bool.eqb_reflx); try (intros; apply Z.eqb_refl); try (intros; apply beqb_refl);
      try (apply Bool.eqb_prop; assumption); try (apply Z.eqb_eq; assumption); try (apply beqb_true; assumption).
  - cbn [negb]. split; [discriminate|]. intros H. assert (t = t') by congruence.
    subst. assert (ftype_eqb t' t' = true) by (apply ftype_eqb_eq; auto). congruence.
Qed.

Lemma compare_core_matches flt m : all_typed flt -> all_typed m -> (compare_core flt m = true <-> matches flt m).
Proof.
  intros TF TM. unfold compare_core, matches. rewrite forallb_forall. split.
  - intros H k x I. specialize (H _ I). cbn [fst snd] in H. destruct (lookup k m) as [y|] eqn:E; [|discriminate].
    apply is_equal_eq in H; [congruence|eapply TF; eauto|]. apply lookup_in in E. eapply TM; eauto.
  - intros H [k x] I. cbn [fst snd]. rewrite (H k x I). apply is_equal_eq; auto; eapply TF; eauto.
Qed.

(** ** order of encoded keys *)
Lemma enc_cmp x y : bytes_ok x -> bytes_ok y -> bcmp (encode_bytes x) (encode_bytes y) = bcmp x y.
Proof.
  intros Hx Hy. pose proof (encode_bytes_cmp_app x y [] [] Hx Hy) as C. rewrite !app_nil_r in C. rewrite C.
  destruct (bcmp x y); auto.
Qed.
Lemma bltb_spec x y : bltb x y = true <-> blt x y.
Proof. unfold bltb, blt. destruct (bcmp x y); split; intros; try discriminate; auto. Qed.
Lemma nblt_ble x y : ~ blt x y <-> ble y x.
Proof.
  unfold blt, ble. rewrite (bcmp_opp x y). destruct (bcmp x y); cbn [CompOpp]; split; intros H E; try discriminate; apply H; auto.
Qed.
Lemma blt_irrefl x : ~ blt x x.
Proof. unfold blt. rewrite bcmp_refl. discriminate. Qed.
Lemma blt_trans x y z : blt x y -> blt y z -> blt x z.
Proof. apply bcmp_trans. Qed.
Lemma enc_lt x y : bytes_ok x -> bytes_ok y -> (blt (encode_bytes x) (encode_bytes y) <-> blt x y).
Proof. intros. unfold blt. rewrite enc_cmp by auto. tauto. Qed.
Lemma enc_le x y : bytes_ok x -> bytes_ok y -> (ble (encode_bytes x) (encode_bytes y) <-> ble x y).
Proof. intros. unfold ble. rewrite enc_cmp by auto. tauto. Qed.

Lemma dkey_le p a i j : comp_ok p a 0 -> legal i -> legal j -> (ble (dkey p a i) (dkey p a j) <-> i <= j).
Proof.
  intros C Li Lj. rewrite <- nblt_ble. unfold blt. rewrite dkey_lt by auto. lia.
Qed.

(** ** the loop of a scan *)
Section Loop.
  Variables (past : Z -> bool) (keepb : vec -> bool) (limit : Z).
  Fixpoint scan_pure (acc : list Z) (xs : list (Z * vec)) : list Z :=
    match xs with
    | [] => acc
    | (i, v) :: r =>
        if past i then acc
        else if keepb v then
          let acc' := i :: acc in if limit <=? Z.of_nat (length acc') then acc' else scan_pure acc' r
        else scan_pure acc r
    end.
  Definition wanted (x : Z * vec) : bool := negb (past (fst x)) && keepb (snd x).

  Lemma scan_pure_eq (R : Z -> Z -> Prop) xs : (forall i j : Z, R i j -> past i = true -> past j = true) ->
    StronglySorted (fun x y : Z * vec => R (fst x) (fst y)) xs ->
    forall acc, Z.of_nat (length acc) < limit ->
    scan_pure acc xs = rev (firstn (Z.to_nat (limit - Z.of_nat (length acc))) (map fst (filter wanted xs))) ++ acc.
  Proof.
    intros M. induction 1 as [|[i v] xs SS IH F]; intros acc L; cbn [scan_pure filter map].
    - rewrite firstn_nil. auto.
    - unfold wanted at 1. cbn [fst snd]. destruct (past i) eqn:P; cbn [negb andb].
      + assert (Z0: filter wanted xs = []).
        { clear IH SS. induction F as [|x xs H F IH]; auto. cbn [filter]. unfold wanted at 1. cbn [fst] in H.
          rewrite (M _ _ H P). cbn. auto. }
        rewrite Z0. cbn. rewrite firstn_nil. auto.
      + destruct (keepb v); [|auto]. cbn [length map].
        replace (Z.to_nat (limit - Z.of_nat (length acc))) with (S (Z.to_nat (limit - Z.of_nat (S (length acc))))) by lia.
        cbn [firstn rev]. rewrite <- app_assoc. cbn [app].
        destruct (Z.leb_spec limit (Z.of_nat (S (length acc)))).
        * replace (Z.to_nat (limit - Z.of_nat (S (length acc)))) with O by lia. reflexivity.
        * rewrite IH by (cbn [length]; lia). reflexivity.
  Qed.
End Loop.

Lemma sorted_map_filter {A} (P : A -> bool) (f : A -> Z) (R : Z -> Z -> Prop) xs :
  StronglySorted (fun x y => R (f x) (f y)) xs -> StronglySorted R (map f (filter P xs)).
Proof.
  induction 1 as [|x xs S IH F]; [constructor|]. cbn [filter]. destruct (P x); auto. cbn [map]. constructor; auto.
  apply Forall_forall. intros y I. apply in_map_iff in I. destruct I as (z & <- & I). apply filter_In in I.
  rewrite Forall_forall in F. apply F. tauto.
Qed.
Lemma sorted_rev {A} (R : A -> A -> Prop) xs : StronglySorted R xs -> StronglySorted (fun x y => R y x) (rev xs).
Proof.
  induction 1 as [|x xs S IH F]; [constructor|]. cbn [rev].
  assert (G: Forall (fun y => R x y) (rev xs)) by (apply Forall_rev; auto). clear S F.
  induction IH as [|y ys S IH' F]; cbn [app]; [constructor; constructor|]. inversion G; subst.
  constructor; auto. apply Forall_app. split; auto.
Qed.
Lemma Forall2_rev {A B} (R : A -> B -> Prop) xs ys : Forall2 R xs ys -> Forall2 R (rev xs) (rev ys).
Proof. induction 1; cbn [rev]; [constructor|]. apply Forall2_app; auto. Qed.
Lemma Forall2_imp {A B} (R Q : A -> B -> Prop) xs ys : (forall x y, R x y -> Q x y) -> Forall2 R xs ys -> Forall2 Q xs ys.
Proof. intros H. induction 1; constructor; auto. Qed.
Lemma Forall2_len {A B} (R : A -> B -> Prop) xs ys : Forall2 R xs ys -> length xs = length ys.
Proof. induction 1; cbn; auto. Qed.

Section Region.
  Variables (W : wire) (g : region) (p a l hi : Z) (h : list op) (c : cfs).
  Hypothesis SV : serves g p a l hi.
  Hypothesis SC : schema_ok (g_schema g).
  Hypothesis WO : wire_ok W.
  Hypothesis FH : Forall (op_ok W (g_schema g)) h.
  Hypothesis HC : apply_ops W g h = Ok c.

  Lemma C0 : comp_ok p a 0. Proof. apply SV. Qed.
  Lemma hold : holds W g p a (events h) c.
  Proof. destruct (apply_ops_ok W g p a l hi SV SC h FH) as (c' & E & Q). rewrite HC in E. apply Ok_inj in E. subst. auto. Qed.
  Lemma wss : Forall version_ok (ws_data W p a (events h)) /\ Forall version_ok (ws_scalar W p a (events h)) /\
    Forall version_ok (ws_table W p a (events h)) /\ Forall version_ok (ws_speed W g p a (events h)).
  Proof. apply (ws_ok W g p a l hi); auto. apply events_ok; auto. Qed.

  Lemma stored_strict ts now i v : stored h ts now i v -> strict i.
  Proof. intros (t & ttl & _ & L & _). apply last_at_in in L. apply (events_legal _ _ _ FH _ _ _ L). Qed.
  Lemma stored_vec ts now i v : stored h ts now i v -> exists t ttl, In (i, t, Some (ttl, v)) (events h).
  Proof. intros (t & ttl & _ & L & _). apply last_at_in in L. eauto. Qed.

  Lemma get_data ts now i : legal i ->
    (forall v, stored h ts now i v -> kv_get (cf_data c) ts now (dkey p a i) = Ok (ROk (ser_vec W (v_data v)))) /\
    ((forall v, ~ stored h ts now i v) -> kv_get (cf_data c) ts now (dkey p a i) = Ok RNotFound).
  Proof.
    intros L. destruct hold as (-> & _). destruct wss as (F & _).
    eapply (col_get W (g_schema g) p a (fun v => ser_vec W (v_data v)) h); eauto using C0.
  Qed.
  Lemma get_scalar ts now i : legal i ->
    (forall v, stored h ts now i v -> kv_get (cf_scalar c) ts now (dkey p a i) = Ok (ROk (ser_map W (v_scalar v)))) /\
    ((forall v, ~ stored h ts now i v) -> kv_get (cf_scalar c) ts now (dkey p a i) = Ok RNotFound).
  Proof.
    intros L. destruct hold as (_ & -> & _). destruct wss as (_ & F & _).
    eapply (col_get W (g_schema g) p a (fun v => ser_map W (v_scalar v)) h); eauto using C0.
  Qed.
  Lemma get_table ts now i : legal i ->
    (forall v, stored h ts now i v -> kv_get (cf_table c) ts now (dkey p a i) = Ok (ROk (ser_tab W (v_table v)))) /\
    ((forall v, ~ stored h ts now i v) -> kv_get (cf_table c) ts now (dkey p a i) = Ok RNotFound).
  Proof.
    intros L. destruct hold as (_ & _ & -> & _). destruct wss as (_ & _ & F & _).
    eapply (col_get W (g_schema g) p a (fun v => ser_tab W (v_table v)) h); eauto using C0.
  Qed.
  Lemma stored_dec ts now i : legal i -> (exists v, stored h ts now i v) \/ (forall v, ~ stored h ts now i v).
  Proof.
    intros L. destruct wss as (F & _).
    eapply (col_dec W (g_schema g) p a (fun v => ser_vec W (v_data v)) h); eauto using C0.
  Qed.

  (** ** queries by id *)
  Lemma batch_query_ok ts now w ids : Forall (fun i => 0 <= i < 2 ^ 63) ids ->
    exists os, batch_query W g c ts now w ids = Ok os /\ Forall2 (answers h ts now w) ids os.
  Proof.
    intros F. destruct WO as (WV & WM & WT & _). unfold batch_query.
    (* first pass *)
    assert (P1: exists os, omap_list (fun id => query_vec W g c ts now id (w_data w)) ids = Ok os /\
              Forall2 (fun i o => (exists v, stored h ts now i v /\ o = Some (mkO i (pick (w_data w) (v_data v)) None None)) \/
                                  ((forall v, ~ stored h ts now i v) /\ o = None)) ids os).
    { induction F as [|i ids Hi F IH]; [exists []; split; auto; constructor|].
      destruct IH as (os & E & FO). cbn [omap_list]. unfold query_vec at 1.
      rewrite (plain_of_ok g p a l hi SV) by auto. cbn [obind].
      destruct (get_data ts now i Hi) as [G1 G2]. destruct (stored_dec ts now i Hi) as [(v & St)|N].
      - rewrite (G1 v St). cbn [obind]. exists (Some (mkO i (pick (w_data w) (v_data v)) None None) :: os). split.
        + destruct (w_data w); cbn [pick]; [rewrite WV; cbn [parsed obind]|cbn [obind]]; rewrite E; reflexivity.
        + constructor; auto. left. eauto.
      - rewrite (G2 N). cbn [obind]. exists (None :: os). split; [rewrite E; reflexivity|]. constructor; auto. }
    destruct P1 as (os1 & E1 & F1). rewrite E1. cbn [obind]. clear E1.
    (* second pass *)
    assert (P2: exists os, (if w_scalar w then omap_list (on_found (query_scalar W g c ts now (w_keys w))) os1 else Ok os1) = Ok os /\
              Forall2 (fun i o => (exists v, stored h ts now i v /\ o = Some (mkO i (pick (w_data w) (v_data v))
                                      (pick (w_scalar w) (selected (w_keys w) (v_scalar v))) None)) \/
                                  ((forall v, ~ stored h ts now i v) /\ o = None)) ids os).
    { destruct (w_scalar w).
      2:{ exists os1. split; auto. }
      induction F1 as [|i o ids os1 Ho F1 IH]; [exists []; split; auto; constructor|].
      inversion F; subst. destruct IH as (os & E & FO); auto. cbn [omap_list].
      destruct Ho as [(v & St & ->)|[N ->]].
      - exists (Some (mkO i (pick (w_data w) (v_data v)) (Some (selected (w_keys w) (v_scalar v))) None) :: os). split.
        + cbn [on_found]. unfold query_scalar at 1. cbn [o_id o_data o_scalar o_table]. rewrite (plain_of_ok g p a l hi SV) by auto. cbn [obind].
          destruct (get_scalar ts now i) as [G _]; auto. rewrite (G v St). cbn [obind]. rewrite WM. cbn [parsed obind omap]. rewrite E. reflexivity.
        + constructor; auto. left. exists v. auto.
      - exists (None :: os). split; [cbn [on_found obind]; rewrite E; reflexivity|]. constructor; auto. }
    destruct P2 as (os2 & E2 & F2). rewrite E2. cbn [obind]. clear E2 F1 os1.
    assert (SEL: forall m, selected (w_keys w) m =
      filter (fun kv => match w_keys w with [] => true | ks => existsb (beqb (fst kv)) ks end) m).
    { intros m. unfold selected. destruct (w_keys w); auto. clear. induction m; cbn [filter]; congruence. }
    destruct (w_table w) eqn:WTB.
    2:{ exists os2. split; auto. eapply Forall2_imp; [|exact F2]. cbv beta. intros i o [(v & St & ->)|[N ->]]; [left|right; auto].
        exists v. split; auto. unfold shown. rewrite WTB, SEL. reflexivity. }
    induction F2 as [|i o ids os2 Ho F2 IH]; [exists []; split; auto; constructor|].
    inversion F; subst. destruct IH as (os & E & FO); auto. cbn [omap_list].
    destruct Ho as [(v & St & ->)|[N ->]].
    - exists (Some (shown w i v) :: os). split.
      + cbn [on_found]. unfold query_table at 1. cbn [o_id o_data o_scalar o_table]. rewrite (plain_of_ok g p a l hi SV) by auto. cbn [obind].
        destruct (get_table ts now i) as [G _]; auto. rewrite (G v St). cbn [obind]. rewrite WT. cbn [parsed obind omap].
        rewrite E. unfold shown. rewrite WTB, SEL. reflexivity.
      + constructor; auto. left. exists v. auto.
    - exists (None :: os). split; [cbn [on_found obind]; rewrite E; reflexivity|]. constructor; auto. right. auto.
  Qed.

  (** ** scans *)
  Lemma compare_scalar_ok ts now i v flt : stored h ts now i v ->
    compare_scalar W g c ts now i flt = Ok (ROk (compare_core flt (v_scalar v))).
  Proof.
    intros St. assert (L := strict_legal _ (stored_strict _ _ _ _ St)). destruct WO as (_ & WM & _).
    unfold compare_scalar. rewrite (plain_of_ok g p a l hi SV) by auto. cbn [obind].
    destruct (get_scalar ts now i L) as [G _]. rewrite (G v St). cbn [obind]. rewrite WM. reflexivity.
  Qed.

  Definition qpast (q : scanq) (i : Z) : bool :=
    negb (q_end q =? 0) && (if q_back q then i <? q_end q else q_end q <? i).
  Definition qkeep (q : scanq) (v : vec) : bool :=
    match q_filter q with None => true | Some flt => compare_core flt (v_scalar v) end.

  Lemma scan_fold now q us xs : Forall2 (cell p a (fun v => ser_vec W (v_data v)) now) us xs ->
    (forall i v, In (i, v) xs -> stored h (q_ts q) now i v) ->
    forall acc, ofold_stop (scan_body W g c now q) (ROk acc) (map enc us) =
      Ok (ROk (scan_pure (qpast q) (qkeep q) (q_limit q) acc xs)).
  Proof.
    induction 1 as [|u [i v] us xs Cu F IH]; intros St acc; cbn [map ofold_stop scan_pure]; auto.
    unfold scan_body at 1. rewrite (cell_id _ _ _ _ _ _ C0 Cu). cbn [obind fst]. unfold qpast at 1.
    destruct (negb (q_end q =? 0) && (if q_back q then i <? q_end q else q_end q <? i)); auto.
    assert (IH' := IH (fun i v I => St i v (or_intror I))).
    assert (K: (match q_filter q with None => Ok (ROk true) | Some flt => compare_scalar W g c (q_ts q) now i flt end) =
               Ok (ROk (qkeep q v))).
    { unfold qkeep. destruct (q_filter q) as [flt|]; auto. apply compare_scalar_ok. apply St. left. auto. }
    rewrite K. cbn [obind]. destruct (qkeep q v); cbn [obind].
    - destruct (q_limit q <=? Z.of_nat (length (i :: acc))); cbn [negb]; auto.
    - auto.
  Qed.

  Lemma stored_typed ts now i v : typed_history h -> stored h ts now i v -> all_typed (v_scalar v).
  Proof.
    intros TH St. apply stored_vec in St. destruct St as (t & ttl & I). unfold events in I.
    apply in_flat_map in I. destruct I as ([ts' ttl' vs|ts' ids] & Io & I); cbn [events_of] in I; apply in_map_iff in I.
    - destruct I as (v' & E & I). assert (v' = v) by congruence. subst. eapply TH; eauto.
    - destruct I as (i' & E & _). discriminate.
  Qed.

  Lemma qkeep_iff q now i v : (forall flt, q_filter q = Some flt -> all_typed flt /\ typed_history h) ->
    stored h (q_ts q) now i v ->
    (qkeep q v = true <-> match q_filter q with None => True | Some flt => matches flt (v_scalar v) end).
  Proof.
    intros T St. unfold qkeep. destruct (q_filter q) as [flt|]; [|tauto]. destruct (T flt eq_refl) as [TF TH].
    apply compare_core_matches; auto. eapply stored_typed; eauto.
  Qed.

  (** the cells a scan visits, in the order of the scan *)
  Definition sdir (b : bool) (i j : Z) : Prop := if b then j < i else i < j.
  Lemma scan_cells now q : 0 <= q_start q < 2 ^ 63 ->
    exists xs, (forall i v, In (i, v) xs -> stored h (q_ts q) now i v) /\
      StronglySorted (fun x y => sdir (q_back q) (fst x) (fst y)) xs /\
      (forall i v, stored h (q_ts q) now i v ->
         (In (i, v) xs <-> l <= i < hi /\ if q_back q then i <= q_start q else q_start q <= i)) /\
      scan_ids W g c now q = Ok (ROk (rev (scan_pure (qpast q) (qkeep q) (q_limit q) [] xs))).
  Proof.
    intros Hs. pose proof C0 as C. destruct (serves_ok g p a l hi SV) as (Bs & Be & _ & _).
    assert (Bk: bytes_ok (dkey p a (q_start q))) by (apply dkey_ok; auto).
    destruct hold as (HD & _). destruct wss as (FW & _).
    assert (RG: forall i v, stored h (q_ts q) now i v -> (in_range (g_start g, g_end g) (dkey p a i) <-> l <= i < hi)).
    { intros i v St. apply range_ids; auto. eapply stored_strict; eauto. }
    assert (DK: forall i v, stored h (q_ts q) now i v -> legal i /\ (ble (dkey p a i) (dkey p a (q_start q)) <-> i <= q_start q) /\
                (ble (dkey p a (q_start q)) (dkey p a i) <-> q_start q <= i)).
    { intros i v St. assert (legal i) by (apply strict_legal; eapply stored_strict; eauto).
      split; auto. split; apply dkey_le; auto. }
    unfold in_range in RG. cbn [fst snd] in RG.
    unfold scan_ids. rewrite (plain_of_ok g p a l hi SV) by auto. cbn [obind].
    unfold encode_range. cbn [fst snd]. set (k := dkey p a (q_start q)) in *.
    assert (L: forall A B, bytes_ok A -> bytes_ok B -> exists us xs,
      forward_entries (cf_data c) (q_ts q) now A B = Ok (map enc us) /\
      reverse_entries (cf_data c) (q_ts q) now A B = Ok (map enc (rev us)) /\
      Forall2 (cell p a (fun v => ser_vec W (v_data v)) now) us xs /\
      StronglySorted (fun x y => fst x < fst y) xs /\
      (forall i v, In (i, v) xs <-> legal i /\ in_range (A, B) (dkey p a i) /\ stored h (q_ts q) now i v)).
    { intros A B HA HB. rewrite HD.
      apply (col_listing W (g_schema g) p a (fun v => ser_vec W (v_data v)) h (ws_data W p a (events h)) C FH eq_refl FW (q_ts q) now A B HA HB). }
    assert (NIL: (forall i v, stored h (q_ts q) now i v -> ~ (l <= i < hi /\ if q_back q then i <= q_start q else q_start q <= i)) ->
      exists xs, (forall i v, In (i, v) xs -> stored h (q_ts q) now i v) /\
        StronglySorted (fun x y => sdir (q_back q) (fst x) (fst y)) xs /\
        (forall i v, stored h (q_ts q) now i v ->
          (In (i, v) xs <-> l <= i < hi /\ if q_back q then i <= q_start q else q_start q <= i)) /\
        Ok (ROk []) = Ok (ROk (rev (scan_pure (qpast q) (qkeep q) (q_limit q) [] xs)))).
    { intros N. exists []. split; [intros ? ? []|]. split; [constructor|]. split; auto.
      intros i v St. split; [intros []|]. intros H. exfalso. eapply N; eauto. }
    destruct (q_back q) eqn:QB; cbn [negb].
    - (* backwards *)
      pose proof (enc_prefix_lt k (g_end g) [] Bk Be) as PE. rewrite app_nil_r in PE.
      pose proof (enc_prefix_lt k (g_start g) [] Bk Bs) as PS. rewrite app_nil_r in PS.
      destruct (bltb (encode_bytes (g_end g)) (prefix_next (encode_bytes k))) eqn:E1.
      + apply bltb_spec in E1. apply PE in E1.
        destruct (bltb (encode_bytes (g_end g)) (encode_bytes (g_start g))) eqn:E2.
        * apply bltb_spec in E2. rewrite enc_lt in E2 by auto. cbn [obind rev]. apply NIL. intros i v St [R _].
          apply (RG i v St) in R. destruct R as [R1 R2]. apply (blt_irrefl (g_end g)).
          eapply blt_trans; [exact E2|]. eapply ble_lt_trans; eauto.
        * destruct (L (g_start g) (g_end g) Bs Be) as (us & xs & _ & ER & FC & SX & IX).
          rewrite (walk_back_fold _ _ _ _ _ _ _ _ ER).
          rewrite (scan_fold now q (rev us) (rev xs) (Forall2_rev _ _ _ FC)).
          2:{ intros i v I. apply in_rev in I. apply IX in I. tauto. }
          cbn [obind]. exists (rev xs). split; [intros i v I; apply in_rev in I; apply IX in I; tauto|].
          split; [apply sorted_rev in SX; exact SX|]. split; auto.
          intros i v St. rewrite <- in_rev, IX. unfold in_range. cbn [fst snd]. rewrite (RG i v St).
          destruct (DK i v St) as (Li & D1 & D2). split; [|tauto]. intros (_ & R & _). split; auto. apply D1.
          apply (RG i v St) in R. apply blt_ble. eapply blt_le_trans; [apply R|]. auto.
      + assert (KE: blt k (g_end g)).
        { destruct (bltb k (g_end g)) eqn:X; [apply bltb_spec; auto|]. exfalso.
          assert (N: ~ blt k (g_end g)) by (rewrite <- bltb_spec; congruence). apply nblt_ble in N.
          apply PE in N. apply bltb_spec in N. congruence. }
        destruct (bltb (prefix_next (encode_bytes k)) (encode_bytes (g_start g))) eqn:E2.
        * apply bltb_spec in E2. cbn [obind rev]. apply NIL. intros i v St [R S]. apply (RG i v St) in R.
          destruct (DK i v St) as (_ & D1 & _). apply D1 in S.
          assert (X: ble (g_start g) k) by (eapply ble_trans; [apply R|exact S]).
          apply PS in X. eapply blt_irrefl. eapply blt_trans; eauto.
        * assert (Bk0: bytes_ok (k ++ [0])) by (apply Forall_app; split; auto; constructor; [unfold byte_ok; lia|constructor]).
          destruct (L (g_start g) (k ++ [0]) Bs Bk0) as (us & xs & _ & ER & FC & SX & IX).
          rewrite HD in ER |- *. rewrite (reverse_key _ _ _ _ _ _ (build_ok _ FW) Bs Bk ltac:(unfold byte_ok; lia) ER).
          rewrite (scan_fold now q (rev us) (rev xs) (Forall2_rev _ _ _ FC)).
          2:{ intros i v I. apply in_rev in I. apply IX in I. tauto. }
          cbn [obind]. exists (rev xs). split; [intros i v I; apply in_rev in I; apply IX in I; tauto|].
          split; [apply sorted_rev in SX; exact SX|]. split; auto.
          intros i v St. rewrite <- in_rev, IX. unfold in_range. cbn [fst snd].
          destruct (DK i v St) as (Li & D1 & D2). rewrite <- ble_snoc0 by (apply dkey_ok; auto). rewrite D1.
          rewrite <- (RG i v St). split; [|tauto]. intros (_ & (R & S) & _). split; auto. split; auto.
          apply D1 in S. eapply ble_lt_trans; eauto.
    - (* forwards *)
      set (A := if bltb (encode_bytes k) (encode_bytes (g_start g)) then g_start g else k).
      assert (EA: (if bltb (encode_bytes k) (encode_bytes (g_start g)) then encode_bytes (g_start g) else encode_bytes k) = encode_bytes A).
      { unfold A. destruct (bltb _ _); auto. }
      rewrite EA. assert (HA: bytes_ok A) by (unfold A; destruct (bltb _ _); auto).
      assert (RA: forall i v, stored h (q_ts q) now i v -> (in_range (A, g_end g) (dkey p a i) <-> l <= i < hi /\ q_start q <= i)).
      { intros i v St. rewrite <- (RG i v St). destruct (DK i v St) as (Li & D1 & D2). rewrite <- D2.
        unfold in_range. cbn [fst snd]. unfold A. destruct (bltb (encode_bytes k) (encode_bytes (g_start g))) eqn:E1.
        - apply bltb_spec in E1. rewrite enc_lt in E1 by auto. split; [|tauto]. intros [R S]. split; auto.
          eapply ble_trans; [apply blt_ble; exact E1|auto].
        - assert (N: ~ blt (encode_bytes k) (encode_bytes (g_start g))) by (rewrite <- bltb_spec; congruence).
          rewrite enc_lt in N by auto. apply nblt_ble in N. split; [|tauto]. intros [R S]. split; auto. split; auto.
          eapply ble_trans; eauto. }
      destruct (bleb (encode_bytes (g_end g)) (encode_bytes A)) eqn:E2.
      + apply bleb_iff in E2. rewrite enc_le in E2 by auto. cbn [obind rev]. apply NIL. intros i v St R. apply (RA i v St) in R.
        destruct R as [R1 R2]. cbn [fst snd] in *. eapply blt_irrefl. eapply blt_le_trans; [exact R2|]. eapply ble_trans; eauto.
      + destruct (L A (g_end g) HA Be) as (us & xs & EF & _ & FC & SX & IX).
        rewrite (walk_fold _ _ _ _ _ _ _ _ EF). rewrite (scan_fold now q us xs FC).
        2:{ intros i v I. apply IX in I. tauto. }
        cbn [obind]. exists xs. split; [intros i v I; apply IX in I; tauto|]. split; [exact SX|]. split; auto.
        intros i v St. rewrite IX, (RA i v St). destruct (DK i v St) as (Li & _). tauto.
  Qed.

  Lemma scan_ids_ok now q : 0 <= q_start q < 2 ^ 63 -> 1 <= q_limit q ->
    (forall flt, q_filter q = Some flt -> all_typed flt /\ typed_history h) ->
    exists ids, scan_order (q_back q) ids /\ (forall i, In i ids <-> in_scan h l hi now q i) /\
      scan_ids W g c now q = Ok (ROk (firstn (Z.to_nat (q_limit q)) ids)).
  Proof.
    intros Hs Hl T. destruct (scan_cells now q Hs) as (xs & SX & OX & IX & ->).
    exists (map fst (filter (wanted (qpast q) (qkeep q)) xs)). split; [|split].
    - unfold scan_order. apply sorted_map_filter. exact OX.
    - intros i. rewrite in_map_iff. unfold in_scan. split.
      + intros ([i' v] & <- & I). apply filter_In in I. destruct I as [I K]. cbn [fst]. pose proof (SX _ _ I) as St.
        apply (IX i' v St) in I. unfold wanted, qpast in K. cbn [fst snd] in K. apply andb_true_iff in K. destruct K as [K1 K2].
        apply (qkeep_iff q now i' v T St) in K2. split; [tauto|]. split.
        * destruct (q_back q); split; try tauto; lia.
        * exists v. auto.
      + intros (R & S & v & St & M). exists (i, v). split; auto. apply filter_In. split.
        * apply (IX i v St). split; auto. destruct (q_back q); tauto.
        * unfold wanted, qpast. cbn [fst snd]. apply (qkeep_iff q now i v T St) in M. rewrite M.
          destruct (q_back q); lia.
    - rewrite (scan_pure_eq (qpast q) (qkeep q) (q_limit q) (sdir (q_back q)) xs) with (acc := []).
      + rewrite app_nil_r, rev_involutive. cbn [length]. do 3 f_equal. lia.
      + intros i j O P. unfold qpast, sdir in *. destruct (q_back q); lia.
      + exact OX.
      + cbn [length]. lia.
  Qed.

  Lemma scan_query_ok now max_count q w : 1 <= q_start q < 2 ^ 63 -> 1 <= q_limit q <= max_count ->
    (forall flt, q_filter q = Some flt -> all_typed flt /\ typed_history h) ->
    exists ids os, scan_order (q_back q) ids /\ (forall i, In i ids <-> in_scan h l hi now q i) /\
      scan_query W g c now max_count q w = Ok (SVectors os) /\
      Forall2 (fun i o => exists v, stored h (q_ts q) now i v /\ o = Some (shown w i v))
              (firstn (Z.to_nat (q_limit q)) ids) os.
  Proof.
    intros Hs Hl T. destruct (scan_ids_ok now q) as (ids & O & I & E); auto; try lia.
    unfold scan_query. replace (q_start q =? 0) with false by lia. replace (q_limit q =? 0) with false by lia.
    replace (max_count <? q_limit q) with false by lia. cbn [orb]. rewrite E. cbn [obind].
    assert (SI: forall i, In i (firstn (Z.to_nat (q_limit q)) ids) -> exists v, stored h (q_ts q) now i v).
    { intros i Ii. assert (In i ids). { rewrite <- (firstn_skipn (Z.to_nat (q_limit q)) ids). apply in_or_app. auto. }
      apply I in H. destruct H as (_ & _ & v & St & _). eauto. }
    destruct (batch_query_ok (q_ts q) now w (firstn (Z.to_nat (q_limit q)) ids)) as (os & B & F).
    { apply Forall_forall. intros i Ii. destruct (SI i Ii) as (v & St). apply strict_legal. eapply stored_strict; eauto. }
    exists ids, os. split; auto. split; auto. split; [rewrite B; reflexivity|].
    clear - F SI. induction F as [|i o ids' os A F IH]; constructor.
    - destruct A as [A|[N _]]; auto. destruct (SI i) as (v & St); [left; auto|]. exfalso. eapply N; eauto.
    - apply IH. intros j J. apply SI. right. auto.
  Qed.

  (** ** count and border ids *)
  Lemma count_border ts now : exists ids,
    scan_order false ids /\ (forall i, In i ids <-> l <= i < hi /\ exists v, stored h ts now i v) /\
    vector_count g c ts now = Ok (ROk (Z.of_nat (length ids))) /\
    border_id g c ts now true = Ok (ROk (hd 0 ids)) /\
    border_id g c ts now false = Ok (ROk (hd 0 (rev ids))).
  Proof.
    pose proof C0 as C. destruct (serves_ok g p a l hi SV) as (Bs & Be & Ns & Ne).
    destruct hold as (HD & _). destruct wss as (FW & _). unfold vector_count, border_id. rewrite HD.
    destruct (col_count W (g_schema g) p a (fun v => ser_vec W (v_data v)) h (ws_data W p a (events h)) C FH eq_refl FW
                ts now (g_start g) (g_end g) Bs Be Ns Ne) as (us & xs & EC & EM & EX & FC & SX & IX).
    exists (map fst xs). split; [|split; [|split; [|split]]].
    - unfold scan_order. rewrite <- (map_id xs) at 1. clear - SX. induction SX as [|x xs S IH F]; cbn [map]; constructor; auto.
      rewrite Forall_map. rewrite map_id in *. auto.
    - intros i. rewrite in_map_iff. split.
      + intros ([i' v] & <- & I). apply IX in I. destruct I as (_ & R & St). cbn [fst]. split; [|eauto].
        apply (range_ids g p a l hi i' []); auto. eapply stored_strict; eauto.
      + intros (R & v & St). exists (i, v). split; auto. apply IX. assert (Hi := stored_strict _ _ _ _ St).
        split; [apply strict_legal; auto|]. split; auto. apply (range_ids g p a l hi i []); auto.
    - rewrite EC, map_length, (Forall2_len _ _ _ FC). auto.
    - rewrite EM. cbn [obind]. destruct FC as [|u x us xs (Hx & _ & _ & K & _) FC]; cbn [map hd]; auto.
      rewrite K. cbn [is_empty]. unfold dkey.
      rewrite unpackage_vector_id4 by (apply legal_comp; auto; apply strict_legal; auto). reflexivity.
    - rewrite EX. cbn [obind]. rewrite <- map_rev. apply Forall2_rev in FC.
      destruct FC as [|u x us' xs' (Hx & _ & _ & K & _) FC]; cbn [map hd]; auto.
      rewrite K. cbn [is_empty]. unfold dkey.
      rewrite unpackage_vector_id4 by (apply legal_comp; auto; apply strict_legal; auto). reflexivity.
  Qed.
End Region.
