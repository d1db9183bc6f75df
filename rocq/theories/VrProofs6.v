(** Proofs for the vector store, part 6: the statements over region states. *)
From Coq Require Import ZArith List Lia Bool PeanoNat Sorted.
From Verif Require Import Bytes SMap Outcome CodecModel CodecSpec MvccModel MvccSpec RawModel VqModel VqSpec VrModel VrSpec
  VrProofs1 VrProofs3 VrProofs4 VrProofs5.
Import ListNotations.
Open Scope Z_scope.

Section State.
  Variables (W : wire) (g : region) (lo hi : Z) (h : list op) (c : cfs).
  Hypothesis RS : region_state W g lo hi h c.
  Ltac unpack := destruct RS as (WO & SC & (p & a & SV) & FH & HC).

  Lemma st_query ts now w ids : Forall (fun i => 0 <= i < 2 ^ 63) ids ->
    exists os, batch_query W g c ts now w ids = Ok os /\ Forall2 (answers h ts now w) ids os.
  Proof. unpack. eapply batch_query_ok; eauto. Qed.

  Lemma st_scan now max_count q w : 1 <= q_start q < 2 ^ 63 -> 1 <= q_limit q <= max_count ->
    (forall flt, q_filter q = Some flt -> all_typed flt /\ typed_history h) ->
    exists ids os, scan_order (q_back q) ids /\ (forall i, In i ids <-> in_scan h lo hi now q i) /\
      scan_query W g c now max_count q w = Ok (SVectors os) /\
      Forall2 (fun i o => exists v, stored h (q_ts q) now i v /\ o = Some (shown w i v))
              (firstn (Z.to_nat (q_limit q)) ids) os.
  Proof. unpack. eapply scan_query_ok; eauto. Qed.

  Lemma order_nodup ids : scan_order false ids -> NoDup ids.
  Proof.
    unfold scan_order. induction 1 as [|x r S1 IH F]; constructor; auto. intros I. rewrite Forall_forall in F. apply F in I. lia.
  Qed.
  Lemma st_count ts now : exists ids, NoDup ids /\
    (forall i, In i ids <-> lo <= i < hi /\ exists v, stored h ts now i v) /\
    vector_count g c ts now = Ok (ROk (Z.of_nat (length ids))).
  Proof.
    unpack. destruct (count_border W g p a lo hi h c SV SC FH HC ts now) as (ids & O & I & C & _).
    exists ids. auto using order_nodup.
  Qed.
  Lemma st_border ts now get_min : exists x, border_id g c ts now get_min = Ok (ROk x) /\
    ((x = 0 /\ forall i v, lo <= i < hi -> ~ stored h ts now i v) \/
     (lo <= x < hi /\ (exists v, stored h ts now x v) /\
      forall i v, lo <= i < hi -> stored h ts now i v -> if get_min : bool then x <= i else i <= x)).
  Proof.
    unpack. destruct (count_border W g p a lo hi h c SV SC FH HC ts now) as (ids & O & I & _ & B1 & B2).
    assert (X: forall l', (forall i, In i l' <-> In i ids) -> l' = [] -> forall i v, lo <= i < hi -> ~ stored h ts now i v).
    { intros l' E -> i v R St. assert (In i ids) by (apply I; split; eauto). apply E in H. destruct H. }
    destruct get_min.
    - exists (hd 0 ids). split; auto. destruct ids as [|x r] eqn:E.
      + left. split; auto. apply (X []); tauto.
      + right. cbn [hd]. destruct (proj1 (I x) (or_introl eq_refl)) as [R S1]. split; auto. split; auto.
        intros i v Ri St. assert (Ii: In i (x :: r)) by (apply I; split; eauto). destruct Ii as [->|Ii]; [lia|].
        inversion O; subst. rewrite Forall_forall in H2. apply H2 in Ii. lia.
    - exists (hd 0 (rev ids)). split; auto. destruct (rev ids) as [|x r] eqn:E.
      + left. split; auto. apply (X (rev ids)); auto. intros i. symmetry. apply in_rev.
      + right. cbn [hd]. assert (Ix: In x ids). { apply in_rev. rewrite E. left. auto. }
        destruct (proj1 (I x) Ix) as [R S1]. split; auto. split; auto.
        intros i v Ri St. assert (Ii: In i ids) by (apply I; split; eauto). apply in_rev in Ii. rewrite E in Ii.
        destruct Ii as [->|Ii]; [lia|].
        apply sorted_rev in O. rewrite E in O. inversion O; subst. rewrite Forall_forall in H2. apply H2 in Ii. lia.
  Qed.

  Lemma st_ids dist flat batch_count now k negation sorted ids qs : flat_ok dist flat ->
    (sorted = true -> StronglySorted Z.le ids) ->
    exists rs, search_by_ids W flat batch_count g c now k negation sorted ids qs = Ok rs /\
      search_answers h lo hi now dist (fun i _ => if negation : bool then ~ In i ids else In i ids) k qs rs.
  Proof. unpack. intros. eapply search_by_ids_ok; eauto. Qed.

  Lemma st_plain dist flat batch_count now k qs : flat_ok dist flat ->
    exists rs, search_post W flat batch_count g c now k [] qs = Ok (Some rs) /\
      search_answers h lo hi now dist (fun _ _ => True) k qs rs.
  Proof.
    unpack. intros FO. destruct (search_gen W g p a lo hi h c SV SC WO FH HC dist flat batch_count now FO k (fun _ => true) qs (fun _ _ => True))
      as (rs & E & A); [tauto|]. exists rs. split; auto. cbn [search_post]. rewrite E. reflexivity.
  Qed.

  Lemma st_pre dist flat batch_count now k flt qs : flat_ok dist flat ->
    flt <> [] -> (forall x y, In (x, y) flt -> x <> []) -> all_typed flt -> typed_history h ->
    exists rs, search_pre W flat batch_count g c now k flt qs = Ok (Some rs) /\
      search_answers h lo hi now dist (fun _ v => matches flt (v_scalar v)) k qs rs.
  Proof. unpack. intros. eapply search_pre_ok; eauto. Qed.

  Lemma st_select now flt : flt <> [] -> (forall x y, In (x, y) flt -> x <> []) -> all_typed flt -> typed_history h ->
    exists ids, pre_filter_ids W g c now flt = Ok (Some ids) /\ NoDup ids /\
      forall i, In i ids <-> lo <= i < hi /\ exists v, stored h 0 now i v /\ matches flt (v_scalar v).
  Proof.
    unpack. intros NF NK TF TH.
    destruct (pre_filter_total W g p a lo hi h c SV SC WO FH HC flt now NF NK) as (xs & L & E).
    exists (chosen flt xs). split; auto. split.
    - apply order_nodup. eapply chosen_sorted; eauto.
    - intros i. eapply chosen_in; eauto.
  Qed.

  Lemma st_speed now flt : flt <> [] -> (forall k x, In (k, x) flt -> exists f, In f (g_schema g) /\ f_speed f = true /\ f_key f = k) ->
    pre_ids_speed W g c now flt = pre_ids_scalar W g c now flt.
  Proof.
    unpack. intros NF HK.
    destruct (pre_scalar_ok W g p a lo hi h c SV SC WO FH HC flt now) as (xs & L & E).
    destruct (pre_speed_ok W g p a lo hi h c SV SC WO FH HC flt now NF) as (ys & L' & E').
    { intros k x I. destruct (HK k x I) as (f & If & S1 & <-). apply in_map. apply filter_In. auto. }
    rewrite E, E', (listing_unique W g p a lo hi h SV SC FH now xs ys L L'). auto.
  Qed.

  Lemma st_post dist flat batch_count now k flt qs : flat_ok dist flat -> (1 <= k)%nat -> flt <> [] -> all_typed flt -> typed_history h ->
    exists rs, search_post W flat batch_count g c now k flt qs = Ok (Some rs) /\ post_answers h lo hi now dist flt k qs rs.
  Proof. unpack. intros. eapply search_post_ok; eauto. Qed.
End State.

Lemma writes_ok W g lo hi h : wire_ok W -> schema_ok (g_schema g) -> (exists p a, serves g p a lo hi) ->
  Forall (op_ok W (g_schema g)) h -> exists c, apply_ops W g h = Ok c /\ region_state W g lo hi h c.
Proof.
  intros WO SC (p & a & SV) FH. destruct (apply_ops_ok W g p a lo hi SV SC h FH) as (c & E & _).
  exists c. split; auto. split; [exact WO|]. split; [exact SC|]. split; [exists p, a; exact SV|]. split; auto.
Qed.
