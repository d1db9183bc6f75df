(** Proofs for the vector store, part 5: the id filter, brute-force search, filters after a search. *)
From Coq Require Import ZArith List Lia Bool PeanoNat Sorted Permutation ZifyNat ZifyBool.
From Verif Require Import Bytes SMap Outcome CodecModel CodecSpec CodecProofs CodecProofs2
  MvccModel MvccSpec MvccProofs RawModel RawProofs1 VqModel VqSpec VrModel VrSpec VrProofs1 VrProofs2 VrProofs3 VrProofs4.
Import ListNotations.
Open Scope Z_scope.

(** ** the id filter *)
Lemma sorted_nth ids : StronglySorted Z.le ids -> forall i j, (i <= j < length ids)%nat -> nth i ids 0 <= nth j ids 0.
Proof.
  induction 1 as [|x r S1 IH F]; intros i j L; [cbn in L; lia|]. cbn [length] in L. rewrite Forall_forall in F.
  destruct i as [|i], j as [|j]; cbn [nth]; try lia.
  - apply F. apply nth_In. lia.
  - apply IH. lia.
Qed.
Lemma is_exist_ok ids id : StronglySorted Z.le ids -> forall fuel first last,
  0 <= first -> last < Z.of_nat (length ids) -> last - first + 1 < Z.of_nat fuel ->
  (is_exist fuel ids id first last = true <-> exists j, first <= j <= last /\ nth (Z.to_nat j) ids 0 = id).
Proof.
  intros S1. induction fuel as [|fuel IH]; intros first last L1 L2 L3; cbn [is_exist].
  - split; [discriminate|]. intros (j & J & _). lia.
  - destruct (Z.ltb_spec last first).
    { split; [discriminate|]. intros (j & J & _). lia. }
    assert (M: first <= (first + last) / 2 <= last) by (split; [apply Z.div_le_lower_bound|apply Z.div_le_upper_bound]; lia).
    set (mid := (first + last) / 2) in *. set (x := nth (Z.to_nat mid) ids 0).
    destruct (Z.eqb_spec id x) as [->|N].
    { split; auto. intros _. exists mid. split; auto. }
    destruct (Z.ltb_spec id x).
    + rewrite IH by lia. split; intros (j & J & E); exists j; split; auto; [lia|].
      destruct (Z_lt_le_dec j mid); [lia|]. exfalso. pose proof (sorted_nth ids S1 (Z.to_nat mid) (Z.to_nat j) ltac:(lia)).
      fold x in H1. lia.
    + rewrite IH by lia. split; intros (j & J & E); exists j; split; auto; [lia|].
      destruct (Z_lt_le_dec mid j); [lia|]. exfalso. pose proof (sorted_nth ids S1 (Z.to_nat j) (Z.to_nat mid) ltac:(lia)).
      fold x in H1. lia.
Qed.
Lemma check_id_ok negation ids id : StronglySorted Z.le ids ->
  (check_id negation ids id = true <-> if negation then ~ In id ids else In id ids).
Proof.
  intros S1. unfold check_id.
  assert (X: is_exist (S (length ids)) ids id 0 (Z.of_nat (length ids) - 1) = true <-> In id ids).
  { rewrite is_exist_ok by (auto; lia). split.
    - intros (j & J & <-). apply nth_In. lia.
    - intros I. apply (In_nth ids id 0) in I. destruct I as (n & N & E). exists (Z.of_nat n). split; [lia|].
      rewrite Nat2Z.id. auto. }
  destruct negation; auto. rewrite negb_true_iff, <- not_true_iff_false, X. tauto.
Qed.

Lemma insert_perm x l : Permutation (insert_id x l) (x :: l).
Proof.
  induction l as [|y r IH]; cbn [insert_id]; auto. destruct (x <=? y); auto. rewrite IH. apply perm_swap.
Qed.
Lemma sort_perm l : Permutation (sort_ids l) l.
Proof. induction l as [|x l IH]; cbn; auto. rewrite insert_perm. auto. Qed.
Lemma insert_sorted x l : StronglySorted Z.le l -> StronglySorted Z.le (insert_id x l).
Proof.
  induction 1 as [|y r S1 IH F]; cbn [insert_id]; [constructor; constructor|]. destruct (Z.leb_spec x y).
  - constructor; [constructor; auto|]. constructor; auto. eapply Forall_impl; [|exact F]. cbv beta. lia.
  - constructor; auto. eapply Permutation_Forall; [symmetry; apply insert_perm|]. constructor; auto. lia.
Qed.
Lemma sort_sorted l : StronglySorted Z.le (sort_ids l).
Proof. induction l as [|x l IH]; cbn; [constructor|]. apply insert_sorted. auto. Qed.

Lemma ids_filter_ok negation sorted ids id : (sorted = true -> StronglySorted Z.le ids) ->
  (ids_filter negation sorted ids id = true <-> if negation then ~ In id ids else In id ids).
Proof.
  intros H. unfold ids_filter. rewrite check_id_ok.
  2:{ destruct sorted; auto. apply sort_sorted. }
  destruct sorted; [tauto|].
  assert (In id (sort_ids ids) <-> In id ids).
  { split; apply Permutation_in; [|symmetry]; apply sort_perm. }
  destruct negation; tauto.
Qed.

(** ** the queue of the nearest so far *)
Definition best (k : nat) (seen : list hit) (t : pq) : Prop :=
  length t = Nat.min k (length seen) /\ StronglySorted (fun x y => snd y <= snd x) t /\
  exists rest, Permutation (t ++ rest) seen /\ forall x y, In x t -> In y rest -> snd x <= snd y.

Lemma push_perm x q : Permutation (pq_push x q) (x :: q).
Proof. induction q as [|y r IH]; cbn [pq_push]; auto. destruct (dlt x y); auto. rewrite IH. apply perm_swap. Qed.
Lemma dlt_le x y : (dlt x y = true -> snd x <= snd y) /\ (dlt x y = false -> snd y <= snd x).
Proof. unfold dlt. destruct (Z.eqb_spec (snd x) (snd y)); lia. Qed.
Lemma push_sorted x q : StronglySorted (fun a b : hit => snd b <= snd a) q -> StronglySorted (fun a b : hit => snd b <= snd a) (pq_push x q).
Proof.
  induction 1 as [|y r S1 IH F]; cbn [pq_push]; [constructor; constructor|]. destruct (dlt_le x y) as [D1 D2].
  destruct (dlt x y).
  - constructor; auto. eapply Permutation_Forall; [symmetry; apply push_perm|]. constructor; auto.
  - constructor; [constructor; auto|]. constructor; auto. eapply Forall_impl; [|exact F]. cbv beta. intros z H. specialize (D2 eq_refl). lia.
Qed.

Lemma best_perm k s s' t : Permutation s s' -> best k s t -> best k s' t.
Proof.
  intros P (L & S1 & rest & P1 & O). split; [rewrite L, (Permutation_length P); auto|]. split; auto.
  exists rest. split; auto. rewrite P1. auto.
Qed.

Lemma offer_ok k seen t x : (1 <= k)%nat -> best k seen t -> exists t', offer k t x = Ok t' /\ best k (x :: seen) t'.
Proof.
  intros K (L & S1 & rest & P & O). unfold offer. pose proof (Permutation_length P) as PL. rewrite app_length in PL.
  destruct (Nat.ltb_spec (length t) k).
  - exists (pq_push x t). split; auto. pose proof (Permutation_length (push_perm x t)) as PP. cbn [length] in PP.
    split; [cbn [length]; lia|]. split; [apply push_sorted; auto|]. exists rest. split.
    + rewrite push_perm. cbn [app]. auto.
    + assert (rest = []). { destruct rest; auto. cbn [length] in PL. lia. } subst. intros ? ? _ [].
  - destruct t as [|y r]; [cbn [length] in H; lia|]. inversion S1 as [|? ? S2 F]; subst. rewrite Forall_forall in F.
    destruct (Z.ltb_spec (snd x) (snd y)).
    + exists (pq_push x r). split; auto. pose proof (Permutation_length (push_perm x r)) as PP. cbn [length] in *.
      split; [cbn [length]; lia|]. split; [apply push_sorted; auto|]. exists (y :: rest). split.
      * rewrite push_perm. cbn [app]. apply perm_skip. rewrite <- P. cbn [app]. symmetry. apply Permutation_middle.
      * intros u w Iu Iw. apply (Permutation_in _ (push_perm x r)) in Iu.
        assert (snd u <= snd y). { destruct Iu as [<-|Iu]; [lia|]. apply F. auto. }
        destruct Iw as [<-|Iw]; auto. specialize (O y w (or_introl eq_refl) Iw). lia.
    + exists (y :: r). split; auto. split; [cbn [length] in *; lia|]. split; auto. exists (x :: rest). split.
      * rewrite <- P. symmetry. apply Permutation_middle.
      * intros u w Iu Iw. assert (snd u <= snd y). { destruct Iu as [<-|Iu]; [lia|]. apply F. auto. }
        destruct Iw as [<-|Iw]; [lia|]. apply O; auto.
Qed.

Lemma offers_ok k rs : (rs <> [] -> 1 <= k)%nat -> forall seen t, best k seen t ->
  exists t', ofold (offer k) t rs = Ok t' /\ best k (rs ++ seen) t'.
Proof.
  induction rs as [|x rs IH]; intros K seen t B; cbn [ofold].
  - exists t. auto.
  - assert (K1: (1 <= k)%nat) by (apply K; discriminate).
    destruct (offer_ok k seen t x K1 B) as (t1 & E & B1). rewrite E. cbn [obind].
    destruct (IH (fun _ => K1) _ _ B1) as (t2 & E2 & B2). exists t2. split; auto. eapply best_perm; [|exact B2].
    cbn [app]. symmetry. apply Permutation_middle.
Qed.

Lemma filter_len {A} (f : A -> bool) t : (length (filter f t) <= length t)%nat.
Proof. induction t as [|x t IH]; cbn [filter length]; auto. destruct (f x); cbn [length]; lia. Qed.
Lemma filter_len_lt {A} (f : A -> bool) t x : In x t -> f x = false -> (length (filter f t) < length t)%nat.
Proof.
  induction t as [|y t IH]; intros [] E; cbn [filter length].
  - subst. rewrite E. pose proof (filter_len f t). lia.
  - specialize (IH H E). destruct (f y); cbn [length]; lia.
Qed.
Lemma filter_perm_len {A} (f : A -> bool) s s' : Permutation s s' -> length (filter f s) = length (filter f s').
Proof. induction 1; cbn [filter]; auto; repeat (destruct (f _)); cbn [length]; congruence. Qed.
Lemma filter_all {A} (f : A -> bool) s : (forall x, In x s -> f x = true) -> filter f s = s.
Proof. induction s as [|x s IH]; auto. intros H. cbn [filter]. rewrite (H x (or_introl eq_refl)), IH; auto. intros y I. apply H. right. auto. Qed.
Lemma filter_none {A} (f : A -> bool) s : (forall x, In x s -> f x = false) -> filter f s = [].
Proof. induction s as [|x s IH]; auto. intros H. cbn [filter]. rewrite (H x (or_introl eq_refl)), IH; auto. intros y I. apply H. right. auto. Qed.

Lemma best_absorb k B r seen t : the_nearest k B r -> best k (r ++ seen) t -> best k (B ++ seen) t.
Proof.
  intros (LR & _ & rb & PR & OR) (L & S1 & rest & P & O). pose proof (Permutation_length PR) as PL. rewrite app_length in PL.
  rewrite app_length in L. split; [rewrite app_length; lia|]. split; auto. exists (rb ++ rest). split.
  - rewrite <- PR. rewrite <- app_assoc.
    transitivity ((t ++ rest) ++ rb); [rewrite <- app_assoc; apply Permutation_app_head; apply Permutation_app_comm|].
    rewrite P. rewrite <- app_assoc. apply Permutation_app_head. apply Permutation_app_comm.
  - intros x y Ix Iy. apply in_app_or in Iy. destruct Iy as [Iy|Iy]; [|apply O; auto].
    destruct (Z_le_gt_dec (snd x) (snd y)); auto. exfalso. set (M := snd y) in *.
    set (f := fun z : hit => snd z <=? M).
    assert (F1: length (filter f (t ++ rest)) = length (filter f (r ++ seen))) by (apply filter_perm_len; auto).
    rewrite !filter_app, !app_length in F1.
    assert (F2: filter f r = r). { apply filter_all. intros z Iz. unfold f. specialize (OR z y Iz Iy). lia. }
    assert (F3: filter f rest = []). { apply filter_none. intros z Iz. unfold f. specialize (O x z Ix Iz). lia. }
    rewrite F2, F3 in F1. cbn [length] in F1.
    assert (F4: (length (filter f t) < length t)%nat) by (apply (filter_len_lt f t x Ix); unfold f; lia).
    assert (length rb <> 0)%nat by (destruct rb; [destruct Iy|discriminate]). lia.
Qed.

Lemma best_nearest k s t : best k s t -> the_nearest k s (rev t).
Proof.
  intros (L & S1 & rest & P & O). split; [rewrite rev_length; auto|]. split.
  - unfold nearest_first. apply sorted_rev in S1. exact S1.
  - exists rest. split; [rewrite <- P; apply Permutation_app_tail; symmetry; apply Permutation_rev|].
    intros x y Ix Iy. apply O; auto. apply in_rev. auto.
Qed.

(** ** the batches *)
Section Batches.
  Variables (dist : list Z -> list Z -> Z) (flat : flat_search) (k : nat) (keep : Z -> bool).
  Hypothesis FO : flat_ok dist flat.
  Definition cand (q : list Z) (xs : list (Z * vec)) : list hit :=
    map (fun x => (fst x, dist q (v_data (snd x)))) (filter (fun x => keep (fst x)) xs).
  Definition batch_of (xs : list (Z * vec)) : list (Z * list Z) := map (fun x => (fst x, v_data (snd x))) xs.

  Lemma cand_app q xs ys : cand q (xs ++ ys) = cand q xs ++ cand q ys.
  Proof. unfold cand. rewrite filter_app, map_app. auto. Qed.
  Lemma cand_batch q xs :
    map (fun x => (fst x, dist q (snd x))) (filter (fun x => keep (fst x)) (batch_of xs)) = cand q xs.
  Proof.
    unfold cand, batch_of. induction xs as [|x xs IH]; auto. cbn [map filter fst]. destruct (keep (fst x)); auto.
    cbn [map fst snd]. rewrite IH. auto.
  Qed.

  Lemma merge_ok done B qs : forall tops, Forall2 (fun q t => best k (cand q done) t) qs tops ->
    exists tops', merge_batch flat k keep (batch_of B) qs tops = Ok tops' /\
      Forall2 (fun q t => best k (cand q (done ++ B)) t) qs tops'.
  Proof.
    induction 1 as [|q t qs tops Bq F IH]; cbn [merge_batch].
    - exists []. split; auto.
    - pose proof (FO (batch_of B) q keep k) as N. rewrite cand_batch in N.
      destruct (offers_ok k (flat (batch_of B) q keep k)) with (seen := cand q done) (t := t) as (t' & E & B'); auto.
      { intros NE. destruct N as (L & _). destruct k; [|lia]. cbn in L.
        destruct (flat (batch_of B) q keep 0%nat); [congruence|discriminate]. }
      rewrite E. cbn [obind]. destruct IH as (ts' & E' & F'). rewrite E'. cbn [omap obind].
      exists (t' :: ts'). split; auto. constructor; auto. rewrite cand_app.
      eapply best_perm; [apply Permutation_app_comm|]. eapply best_absorb; eauto.
  Qed.

  Variables (W : wire) (p a now batch_count : Z) (qs : list (list Z)).
  Hypothesis WV : forall d, par_vec W (ser_vec W d) = Some d.
  Hypothesis C : comp_ok p a 0.

  Lemma brute_fold us xs : Forall2 (cell p a (fun v => ser_vec W (v_data v)) now) us xs ->
    forall done pend tops, Forall2 (fun q t => best k (cand q done) t) qs tops ->
    exists done' pend' tops', ofold_stop (brute_body W flat batch_count k keep qs) (rev (batch_of pend), tops) (map enc us)
        = Ok (rev (batch_of pend'), tops') /\
      done' ++ pend' = done ++ pend ++ xs /\ Forall2 (fun q t => best k (cand q done') t) qs tops'.
  Proof.
    induction 1 as [|u [i v] us xs Cu F IH]; intros done pend tops HT; cbn [map ofold_stop].
    - exists done, pend, tops. rewrite app_nil_r. auto.
    - unfold brute_body at 1. rewrite (cell_id _ _ _ _ _ _ C Cu). cbn [obind fst].
      rewrite (cell_val _ _ _ _ _ _ Cu). cbn [obind snd]. rewrite WV. cbn [parsed obind].
      assert (E: (i, v_data v) :: rev (batch_of pend) = rev (batch_of (pend ++ [(i, v)]))).
      { unfold batch_of. rewrite map_app, rev_app_distr. reflexivity. }
      rewrite E. destruct (Z.of_nat (length (rev (batch_of (pend ++ [(i, v)])))) =? batch_count).
      + rewrite rev_involutive. destruct (merge_ok done (pend ++ [(i, v)]) qs tops HT) as (tops' & E' & HT').
        rewrite E'. cbn [obind]. destruct (IH (done ++ pend ++ [(i, v)]) [] tops' HT') as (d & pe & t & E2 & A & T).
        exists d, pe, t. split; auto. split; auto. rewrite A. cbn [app]. rewrite <- !app_assoc. reflexivity.
      + cbn [obind]. destruct (IH done (pend ++ [(i, v)]) tops HT) as (d & pe & t & E2 & A & T).
        exists d, pe, t. split; auto. split; auto. rewrite A. rewrite <- !app_assoc. reflexivity.
  Qed.
End Batches.

Lemma forward_first fuel ts now prev es L : forward_loop fuel ts now prev es = Ok L ->
  exists prev' es', next_visible ts now prev es = Ok (prev', es') /\ (es' = [] <-> L = []).
Proof.
  destruct fuel; [discriminate|]. cbn [forward_loop]. destruct (next_visible ts now prev es) as [[prev' es']|]; [|discriminate].
  cbn [obind]. intros E. exists prev', es'. split; auto. destruct es' as [|e es'].
  - apply Ok_inj in E. subst. tauto.
  - destruct (forward_loop fuel ts now prev' (e :: es')); [|discriminate]. cbn [omap] in E. apply Ok_inj in E. subst.
    split; discriminate.
Qed.

Section Region.
  Variables (W : wire) (g : region) (p a l hi : Z) (h : list op) (c : cfs).
  Hypothesis SV : serves g p a l hi.
  Hypothesis SC : schema_ok (g_schema g).
  Hypothesis WO : wire_ok W.
  Hypothesis FH : Forall (op_ok W (g_schema g)) h.
  Hypothesis HC : apply_ops W g h = Ok c.
  Variables (dist : list Z -> list Z -> Z) (flat : flat_search) (batch_count now : Z).
  Hypothesis FO : flat_ok dist flat.

  Lemma brute_ok k keep qs : exists xs rs, listing l hi h now xs /\
    brute_force W flat batch_count g c now k keep qs = Ok rs /\
    (rs = [] /\ xs = [] \/ Forall2 (fun q r => the_nearest k (cand dist keep q xs) r) qs rs).
  Proof.
    destruct (data_column W g p a l hi h c SV SC FH HC now) as (us & xs & EF & FC & L).
    unfold brute_force, encode_range. cbn [fst snd].
    assert (EF' := EF). unfold forward_entries in EF'. apply forward_first in EF'. destruct EF' as (prev' & es' & EN & NN).
    rewrite EN. cbn [obind]. exists xs. destruct es' as [|e es'].
    - exists []. split; auto. split; auto. left. split; auto. assert (E: map enc us = []) by (apply NN; auto).
      destruct us; [|discriminate]. inversion FC. auto.
    - rewrite (walk_fold _ _ _ _ _ _ _ _ EF). destruct WO as (WV & _).
      destruct (brute_fold dist flat k keep FO W p a now batch_count qs WV (C0 g p a l hi SV) us xs FC [] [] (map (fun _ => []) qs))
        as (d & pe & t & E & A & T).
      { clear. induction qs; cbn [map]; constructor; auto. split; [cbn; lia|]. split; [constructor|]. exists []. split; [auto|intros ? ? []]. }
      change (rev (batch_of [])) with (@nil (Z * list Z)) in E. unfold pq in *. rewrite E. cbn [obind fst snd].
      assert (X: exists tops, (match rev (batch_of pe) with [] => Ok t | b => merge_batch flat k keep (rev b) qs t end) = Ok tops /\
                Forall2 (fun q t => best k (cand dist keep q xs) t) qs tops).
      { cbn [app] in A. destruct (rev (batch_of pe)) as [|b0 b] eqn:EB.
        - exists t. split; auto. assert (pe = []).
          { destruct pe; auto. apply (f_equal (@length _)) in EB. rewrite rev_length in EB. discriminate. }
          subst pe. rewrite app_nil_r in A. subst. auto.
        - rewrite <- EB, rev_involutive. destruct (merge_ok dist flat k keep FO d pe qs t T) as (tops' & E' & T').
          exists tops'. split; auto. rewrite A in T'. auto. }
      destruct X as (tops & -> & T'). cbn [obind]. eexists. split; eauto. split; [reflexivity|]. right.
      clear - T'. induction T'; cbn [map]; constructor; auto using best_nearest.
  Qed.

  Lemma cand_candidates keep okb q xs (ok : Z -> vec -> Prop) : listing l hi h now xs ->
    (forall x, okb x = keep (fst x)) ->
    (forall i v, l <= i < hi -> stored h 0 now i v -> (okb (i, v) = true <-> ok i v)) ->
    candidates h l hi now (dist q) ok (cand dist keep q xs).
  Proof.
    intros [SX IX] KO OK. unfold cand. split.
    - rewrite map_map. cbn [fst].
      assert (X: StronglySorted Z.lt (map (fun x => fst x) (filter (fun x => keep (fst x)) xs))).
      { apply (sorted_map_filter (fun x => keep (fst x)) (fun x => fst x) Z.lt). exact SX. }
      clear - X. induction X as [|x r S1 IH F]; constructor; auto. intros I. rewrite Forall_forall in F. apply F in I. lia.
    - intros i d. rewrite in_map_iff. split.
      + intros ([j v] & E & I). apply filter_In in I. destruct I as [I K]. cbn [fst snd] in *. apply IX in I. destruct I as [R St].
        assert (j = i) by congruence. subst. split; auto. exists v. split; auto. split; [|congruence].
        apply OK; auto. rewrite KO. auto.
      + intros (R & v & St & O & ->). exists (i, v). split; auto. apply filter_In. split; [apply IX; auto|].
        apply OK in O; auto. rewrite KO in O. auto.
  Qed.

  Lemma search_gen k keep qs (ok : Z -> vec -> Prop) :
    (forall i v, l <= i < hi -> stored h 0 now i v -> (keep i = true <-> ok i v)) ->
    exists rs, brute_force W flat batch_count g c now k keep qs = Ok rs /\ search_answers h l hi now dist ok k qs rs.
  Proof.
    intros OK. destruct (brute_ok k keep qs) as (xs & rs & L & E & [[-> ->]|F]).
    - exists []. split; auto. left. split; auto. intros i v R St. destruct L as [_ IX]. apply (IX i v). auto.
    - exists rs. split; auto. right. eapply Forall2_imp; [|exact F]. cbv beta. intros q r N. eexists. split; [|exact N].
      apply (cand_candidates keep (fun x => keep (fst x))); auto.
  Qed.

  Lemma search_by_ids_ok k negation sorted ids qs : (sorted = true -> StronglySorted Z.le ids) ->
    exists rs, search_by_ids W flat batch_count g c now k negation sorted ids qs = Ok rs /\
      search_answers h l hi now dist (fun i _ => if negation then ~ In i ids else In i ids) k qs rs.
  Proof. intros H. apply search_gen. intros i v _ _. apply ids_filter_ok. auto. Qed.

  Lemma search_pre_ok k flt qs : flt <> [] -> (forall x y, In (x, y) flt -> x <> []) -> all_typed flt -> typed_history h ->
    exists rs, search_pre W flat batch_count g c now k flt qs = Ok (Some rs) /\
      search_answers h l hi now dist (fun _ v => matches flt (v_scalar v)) k qs rs.
  Proof.
    intros NF NK TF TH. unfold search_pre.
    destruct (pre_filter_total W g p a l hi h c SV SC WO FH HC flt now NF NK) as (xs & L & ->). cbn [obind].
    destruct (search_gen k (ids_filter false false (chosen flt xs)) qs (fun _ v => matches flt (v_scalar v))) as (rs & E & A).
    - intros i v R St. rewrite ids_filter_ok by discriminate.
      rewrite (chosen_in l hi h flt now xs i TF TH L). split.
      + intros (_ & v' & St' & M). rewrite (stored_unique _ _ _ _ _ _ St St'). auto.
      + intros M. split; eauto.
    - exists rs. rewrite E. split; auto.
  Qed.

  (** ** the filter after the search *)
  Lemma post_loop_ok k flt (f : Z -> bool) : (1 <= k)%nat -> forall hs,
    (forall x, In x hs -> compare_scalar W g c 0 now (fst x) flt = Ok (ROk (f (fst x)))) ->
    forall acc, (length acc < k)%nat ->
    post_loop W g c 0 now k flt hs acc = Ok (Some (rev acc ++ firstn (k - length acc) (filter (fun x => f (fst x)) hs))).
  Proof.
    intros K. induction hs as [|x hs IH]; intros H acc L; cbn [post_loop filter].
    - rewrite firstn_nil, app_nil_r. auto.
    - rewrite (H x (or_introl eq_refl)). cbn [obind].
      assert (IH' := IH (fun y I => H y (or_intror I))). destruct (f (fst x)).
      + cbn [length]. destruct (Nat.leb_spec k (S (length acc))).
        * replace (k - length acc)%nat with 1%nat by lia. cbn [firstn rev]. reflexivity.
        * rewrite IH' by (cbn [length]; lia). cbn [length rev].
          replace (k - length acc)%nat with (S (k - S (length acc)))%nat by lia. cbn [firstn]. rewrite <- app_assoc. reflexivity.
      + apply IH'. auto.
  Qed.

  Lemma sorted_filter {A} (R : A -> A -> Prop) (f : A -> bool) xs : StronglySorted R xs -> StronglySorted R (filter f xs).
  Proof.
    induction 1 as [|x xs S1 IH F]; cbn [filter]; [constructor|]. destruct (f x); auto. constructor; auto.
    apply Forall_forall. intros y I. apply filter_In in I. rewrite Forall_forall in F. apply F. tauto.
  Qed.
  Lemma sorted_firstn {A} (R : A -> A -> Prop) xs : StronglySorted R xs -> forall n, StronglySorted R (firstn n xs).
  Proof.
    induction 1 as [|x xs S1 IH F]; intros [|n]; cbn [firstn]; try constructor; auto.
    apply Forall_forall. intros y I. rewrite Forall_forall in F. apply F. rewrite <- (firstn_skipn n xs). apply in_or_app. auto.
  Qed.
  Lemma sorted_cut {A} (R : A -> A -> Prop) xs : StronglySorted R xs -> forall n x y,
    In x (firstn n xs) -> In y (skipn n xs) -> R x y.
  Proof.
    induction 1 as [|z xs S1 IH F]; intros [|n] x y Ix Iy; cbn [firstn skipn] in *; try contradiction.
    destruct Ix as [<-|Ix]; [|eapply IH; eauto]. rewrite Forall_forall in F. apply F.
    rewrite <- (firstn_skipn n xs). apply in_or_app. auto.
  Qed.
  Lemma filter_perm {A} (f : A -> bool) s s' : Permutation s s' -> Permutation (filter f s) (filter f s').
  Proof.
    induction 1; cbn [filter]; auto.
    - destruct (f x); auto.
    - destruct (f x), (f y); auto. apply perm_swap.
    - etransitivity; eauto.
  Qed.
  Lemma NoDup_app_remove_r {A} (xs ys : list A) : NoDup (xs ++ ys) -> NoDup xs.
  Proof.
    induction xs as [|x xs IH]; cbn [app]; intros H; [constructor|]. inversion H; subst. constructor; auto.
    intros I. apply H2. apply in_or_app. auto.
  Qed.
  Lemma NoDup_firstn {A} (xs : list A) n : NoDup xs -> NoDup (firstn n xs).
  Proof. intros H. rewrite <- (firstn_skipn n xs) in H. apply NoDup_app_remove_r in H. auto. Qed.

  (** the k first of the matching ones among the n nearest *)
  Lemma post_nearest k n (F : hit -> bool) s near : the_nearest n s near ->
    forall r, r = firstn k (filter F near) ->
    length r = k \/ (length s <= n)%nat -> the_nearest k (filter F s) r.
  Proof.
    intros (L & N & rest & P & O) r ER H.
    assert (PF: Permutation (filter F near ++ filter F rest) (filter F s)) by (rewrite <- filter_app; apply filter_perm; auto).
    pose proof (Permutation_length P) as PL. rewrite app_length in PL.
    pose proof (Permutation_length PF) as PFL. rewrite app_length in PFL.
    assert (LR: length r = Nat.min k (length (filter F near))) by (rewrite ER; apply firstn_length).
    split; [|split].
    - destruct H as [H|H]; [lia|]. assert (length rest = 0)%nat by lia. pose proof (filter_len F rest). lia.
    - rewrite ER. apply sorted_firstn. apply sorted_filter. auto.
    - exists (skipn k (filter F near) ++ filter F rest). split.
      + rewrite app_assoc, ER, firstn_skipn. auto.
      + intros x y Ix Iy. rewrite ER in Ix. apply in_app_or in Iy. destruct Iy as [Iy|Iy].
        * apply (sorted_cut (fun x y : hit => snd x <= snd y) (filter F near)) with (n := k); auto. apply sorted_filter. exact N.
        * apply O; [|apply filter_In in Iy; tauto].
          assert (I: In x (filter F near)) by (rewrite <- (firstn_skipn k (filter F near)); apply in_or_app; auto).
          apply filter_In in I. tauto.
  Qed.

  Lemma post_all_ok k flt (f : Z -> bool) rs : (1 <= k)%nat ->
    (forall hs x, In hs rs -> In x hs -> compare_scalar W g c 0 now (fst x) flt = Ok (ROk (f (fst x)))) ->
    post_all W g c 0 now k flt rs = Ok (Some (map (fun hs => firstn k (filter (fun x => f (fst x)) hs)) rs)).
  Proof.
    intros K. induction rs as [|hs rs IH]; intros H; auto. cbn [post_all map].
    rewrite (post_loop_ok k flt f K hs) with (acc := []); [|intros x I; eapply H; [left; auto|auto]|cbn; lia].
    cbn [obind rev app length]. rewrite Nat.sub_0_r. rewrite IH; [reflexivity|]. intros hs' x I1 I2. eapply H; [right; eauto|auto].
  Qed.

  Lemma search_post_ok k flt qs : (1 <= k)%nat -> flt <> [] -> all_typed flt -> typed_history h ->
    exists rs, search_post W flat batch_count g c now k flt qs = Ok (Some rs) /\ post_answers h l hi now dist flt k qs rs.
  Proof.
    intros K NF TF TH. unfold search_post.
    destruct (brute_ok (k * 10) (fun _ => true) qs) as (xs & rs & L & E & R).
    assert (EE: (match flt with
                 | [] => omap Some (brute_force W flat batch_count g c now k (fun _ : Z => true) qs)
                 | _ => olet rs := brute_force W flat batch_count g c now (k * 10) (fun _ : Z => true) qs in post_all W g c 0 now k flt rs
                 end) = post_all W g c 0 now k flt rs).
    { destruct flt; [congruence|]. rewrite E. reflexivity. }
    rewrite EE. clear EE.
    set (f := fun i => existsb (Z.eqb i) (chosen flt xs)).
    assert (FI: forall i v, l <= i < hi -> stored h 0 now i v -> f i = compare_core flt (v_scalar v)).
    { intros i v Ri St. apply eq_true_iff_eq. unfold f. rewrite existsb_exists.
      rewrite (compare_core_matches flt (v_scalar v) TF) by (eapply stored_typed; eauto). split.
      - intros (j & I & EQ). assert (j = i) by lia. subst. apply (chosen_in l hi h flt now xs i TF TH L) in I.
        destruct I as (_ & v' & St' & M). rewrite (stored_unique _ _ _ _ _ _ St St'). auto.
      - intros M. exists i. split; [|lia]. apply (chosen_in l hi h flt now xs i TF TH L). split; eauto. }
    assert (CI: forall q x, In x (cand dist (fun _ => true) q xs) -> exists v, l <= fst x < hi /\ stored h 0 now (fst x) v).
    { intros q x I. unfold cand in I. apply in_map_iff in I. destruct I as ([i v] & <- & I). apply filter_In in I.
      destruct I as [I _]. apply L in I. cbn [fst]. eauto. }
    assert (NI: forall q r x, the_nearest (k * 10) (cand dist (fun _ => true) q xs) r -> In x r -> In x (cand dist (fun _ => true) q xs)).
    { intros q r x (_ & _ & rest & P & _) I. eapply Permutation_in; [exact P|]. apply in_or_app. auto. }
    rewrite (post_all_ok k flt f rs K).
    2:{ intros hs x I1 I2. assert (X: exists q, the_nearest (k * 10) (cand dist (fun _ => true) q xs) hs).
        { destruct R as [[-> _]|R]; [destruct I1|]. clear - R I1. induction R; [destruct I1|]. destruct I1 as [<-|I1]; eauto. }
        destruct X as (q & N). destruct (CI q x (NI q hs x N I2)) as (v & Ri & St).
        rewrite (compare_scalar_ok W g p a l hi h c SV SC WO FH HC 0 now (fst x) v flt St). rewrite (FI _ _ Ri St). auto. }
    eexists. split; [reflexivity|]. destruct R as [[-> ->]|R].
    - left. split; auto. intros i v Ri St. destruct L as [_ IX]. apply (IX i v). auto.
    - right. clear E. induction R as [|q near qs rs N R IH]; cbn [map]; constructor; auto. clear IH.
      assert (EC: cand dist f q xs = filter (fun x => f (fst x)) (cand dist (fun _ => true) q xs)).
      { unfold cand. generalize f. clear. intros f. induction xs as [|x xs IH]; auto. cbn [filter map fst]. destruct (f (fst x)); cbn [map]; rewrite IH; auto. }
      exists (cand dist (fun _ => true) q xs), (cand dist f q xs).
      split; [apply (cand_candidates (fun _ => true) (fun _ => true)); auto; tauto|].
      assert (CM: candidates h l hi now (dist q) (fun _ v => matches flt (v_scalar v)) (cand dist f q xs)).
      { apply (cand_candidates f (fun x => f (fst x))); auto. intros i v Ri St. cbn [fst]. rewrite (FI i v Ri St).
        apply compare_core_matches; auto. eapply stored_typed; eauto. }
      split; auto. pose proof N as (_ & NS & rest & P & _).
      assert (SUB: forall x, In x (firstn k (filter (fun x => f (fst x)) near)) -> In x (filter (fun x => f (fst x)) near)).
      { intros x I. rewrite <- (firstn_skipn k (filter (fun x => f (fst x)) near)). apply in_or_app. auto. }
      split; [apply sorted_firstn, sorted_filter; auto|]. split; [apply firstn_le_length|]. split; [|split].
      + rewrite <- firstn_map. apply NoDup_firstn.
        assert (ND: NoDup (map fst (near ++ rest))).
        { eapply Permutation_NoDup; [apply Permutation_map; symmetry; exact P|].
          apply (cand_candidates (fun _ => true) (fun _ => true) q xs (fun _ _ => True)); auto; tauto. }
        rewrite map_app in ND. apply NoDup_app_remove_r in ND. clear - ND.
        induction near as [|x near IH]; cbn [filter map] in *; [constructor|]. inversion ND; subst.
        destruct (f (fst x)); auto. cbn [map]. constructor; auto. intros I. apply H1. apply in_map_iff in I.
        destruct I as (y & E & I). apply filter_In in I. apply in_map_iff. exists y. tauto.
      + intros x I. apply SUB in I. apply filter_In in I. destruct I as [I Fx]. rewrite EC. apply filter_In. split; auto. eapply NI; eauto.
      + intros H. rewrite EC. apply (post_nearest k (k * 10) (fun x => f (fst x)) _ near N _ eq_refl). destruct H; auto. right. lia.
  Qed.
End Region.
