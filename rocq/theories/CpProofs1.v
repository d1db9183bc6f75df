(** Opening well-formed requests. *)
From Coq Require Import ZArith List Lia Bool Sorted.
From Verif Require Import Bytes SMap Outcome TxnModel TxnReadModel TxnReadSpec CpModel CpSpec.
Import ListNotations.
Open Scope Z_scope.

Lemma nthz_some {A} (l : list A) i x : nthz l i = Some x -> 0 <= i < lenz l /\ nth_error l (Z.to_nat i) = Some x.
Proof.
  unfold nthz, lenz. destruct (i <? 0) eqn:E; [discriminate|]. intros H. apply Z.ltb_ge in E.
  assert (nth_error l (Z.to_nat i) <> None) by congruence. apply nth_error_Some in H0. split; [lia|auto].
Qed.
Lemma nthz_nat {A} (l : list A) n : nthz l (Z.of_nat n) = nth_error l n.
Proof. unfold nthz. destruct (Z.of_nat n <? 0) eqn:E; [apply Z.ltb_lt in E; lia|]. rewrite Nat2Z.id. auto. Qed.
Lemma nthz_in_range {A} (l : list A) i : 0 <= i < lenz l -> exists x, nthz l i = Some x.
Proof.
  unfold lenz. intros H. rewrite <- (Z2Nat.id i) by lia. rewrite nthz_nat.
  destruct (nth_error l (Z.to_nat i)) eqn:E; [eauto|]. apply nth_error_None in E. lia.
Qed.
Lemma at_ok {A} (l : list A) i x : nthz l i = Some x -> at_or_crash l i = Ok x.
Proof. unfold at_or_crash. intros ->. auto. Qed.

Lemma length_set_at {A} (l : list A) : forall n x, length (set_at l n x) = length l.
Proof. induction l as [|y l IH]; intros [|n] x; simpl; auto. Qed.
Lemma nth_set_at {A} (l : list A) : forall n m x, (n < length l)%nat ->
  nth_error (set_at l n x) m = if Nat.eqb n m then Some x else nth_error l m.
Proof.
  induction l as [|y l IH]; intros n m x LT; simpl in LT; [lia|].
  destruct n as [|n], m as [|m]; simpl; auto. apply IH. lia.
Qed.

Lemma omapm_all {A B} (f : A -> outcome B) (R : A -> B -> Prop) : forall l,
  (forall x, In x l -> exists y, f x = Ok y /\ R x y) -> exists ys, omapm f l = Ok ys /\ Forall2 R l ys.
Proof.
  induction l as [|x l IH]; intros H; simpl; [eauto|].
  destruct (H x (or_introl eq_refl)) as (y & E & r). rewrite E. cbn [obind].
  destruct IH as (ys & E2 & F); [intros z I; apply H; right; auto|]. rewrite E2. cbn [obind]. eauto.
Qed.
Lemma omapm_F2 {A B} (f : A -> outcome B) : forall l ys,
  Forall2 (fun x y => f x = Ok y) l ys -> omapm f l = Ok ys.
Proof. induction 1 as [|x y l ys E F IH]; simpl; auto. rewrite E. cbn [obind]. rewrite IH. auto. Qed.

Lemma F2_len {A B} (R : A -> B -> Prop) l1 l2 : Forall2 R l1 l2 -> length l1 = length l2.
Proof. induction 1; simpl; auto. Qed.
Lemma F2_nth {A B} (R : A -> B -> Prop) l1 l2 : Forall2 R l1 l2 -> forall n x y,
  nth_error l1 n = Some x -> nth_error l2 n = Some y -> R x y.
Proof. induction 1; intros [|n] a b A1 B1; simpl in *; try discriminate; [congruence|eauto]. Qed.
Lemma F2_imp {A B} (R S : A -> B -> Prop) : (forall a b, R a b -> S a b) -> forall l1 l2, Forall2 R l1 l2 -> Forall2 S l1 l2.
Proof. intros H. induction 1; constructor; auto. Qed.
Lemma F2_imp_in {A B} (R S : A -> B -> Prop) : forall l1 l2, (forall a b, In a l1 -> R a b -> S a b) -> Forall2 R l1 l2 -> Forall2 S l1 l2.
Proof.
  intros l1 l2 H F. induction F as [|x y l1 l2 r F IH]; constructor.
  - apply H; [left|]; auto.
  - apply IH. intros a b I. apply H. right. auto.
Qed.

Lemma F2_in_l {A B} (R : A -> B -> Prop) l1 l2 : Forall2 R l1 l2 -> forall x, In x l1 -> exists y, In y l2 /\ R x y.
Proof.
  induction 1 as [|x y l1 l2 r F IH]; intros z I; destruct I.
  - subst. exists y. split; [left|]; auto.
  - destruct (IH z H) as (w & J & K). exists w. split; [right|]; auto.
Qed.

Lemma original_spec : forall cols pos v, NoDup (map snd cols) ->
  (forall t ix, In (t, ix) cols -> 0 <= ix < lenz v) ->
  exists v', original_indexes cols pos v = Ok v' /\ length v' = length v /\
    (forall k t ix, nth_error cols k = Some (t, ix) -> nthz v' ix = Some (pos + Z.of_nat k)) /\
    (forall j, ~ In j (map snd cols) -> nthz v' j = nthz v j).
Proof.
  induction cols as [|[t ix] cols IH]; intros pos v ND RG; cbn [original_indexes].
  - exists v. split; [auto|split; [auto|split; [intros [|k]; discriminate|auto]]].
  - assert (R0 := RG t ix (or_introl eq_refl)).
    destruct ((0 <=? ix) && (ix <? lenz v)) eqn:E.
    2: { apply andb_false_iff in E. destruct E as [E|E]; [apply Z.leb_gt in E|apply Z.ltb_ge in E]; lia. }
    simpl in ND. inversion ND as [|? ? N1 N2]; subst.
    destruct (IH (pos + 1) (set_at v (Z.to_nat ix) pos) N2) as (v' & A & B & C & D).
    { intros t0 ix0 I. unfold lenz. rewrite length_set_at. apply (RG t0 ix0). right. auto. }
    exists v'. split; [auto|split; [rewrite B; apply length_set_at|split]].
    + intros [|k] t0 ix0 Q; cbn [nth_error] in Q.
      * assert (ix0 = ix) by congruence. subst ix0. rewrite D by auto.
        rewrite <- (Z2Nat.id ix) at 2 by lia. rewrite nthz_nat, nth_set_at by (unfold lenz in R0; lia).
        rewrite Nat.eqb_refl. f_equal. simpl. lia.
      * rewrite (C k t0 ix0 Q). f_equal. lia.
    + intros j NI. simpl in NI. rewrite D by auto. unfold nthz. destruct (j <? 0) eqn:EJ; auto. apply Z.ltb_ge in EJ.
      rewrite nth_set_at by (unfold lenz in R0; lia).
      destruct (Nat.eqb (Z.to_nat ix) (Z.to_nat j)) eqn:E3; auto. apply Nat.eqb_eq in E3. exfalso. apply NI. left. lia.
Qed.

Section Req.
Variable q : request.
Hypothesis SO : schema_ok q.

Let n := length (q_schema q).

Lemma all_indexes j : 0 <= j < Z.of_nat n -> exists k t, nth_error (q_schema q) k = Some (t, j).
Proof.
  intros R. destruct SO as (ND & RG & _).
  assert (I : In j (map snd (q_schema q))).
  { assert (INC : incl (map snd (q_schema q)) (map Z.of_nat (seq 0 n))).
    { intros x Ix. apply in_map_iff in Ix. destruct Ix as ((t & y) & Q & I). simpl in Q. subst y.
      assert (X := RG t x I). apply in_map_iff. exists (Z.to_nat x). split; [lia|]. apply in_seq. fold n in X. lia. }
    assert (LE : (length (map Z.of_nat (seq 0 n)) <= length (map snd (q_schema q)))%nat)
      by (rewrite !map_length, seq_length; unfold n; lia).
    apply (NoDup_length_incl ND LE INC). apply in_map_iff. exists (Z.to_nat j). split; [lia|]. apply in_seq. lia. }
  apply in_map_iff in I. destruct I as ((t & y) & Q & I). simpl in Q. subst y.
  apply In_nth_error in I. destruct I as (k & I). eauto.
Qed.

Lemma type_unique t t' ix : In (t, ix) (q_schema q) -> In (t', ix) (q_schema q) -> t = t'.
Proof.
  destruct SO as (ND & _). induction (q_schema q) as [|[t0 i0] l IH]; simpl; [tauto|].
  simpl in ND. inversion ND as [|? ? N1 N2]; subst.
  intros [A|A] [B|B]; try congruence.
  - exfalso. apply N1. inversion A; subst. apply in_map_iff. exists (t', ix). auto.
  - exfalso. apply N1. inversion B; subst. apply in_map_iff. exists (t, ix). auto.
  - auto.
Qed.

Lemma column_type_unique i t t' : column_type q i t -> column_type q i t' -> t = t'.
Proof.
  intros (ix & A & B) (ix' & A' & B'). assert (ix = ix') by congruence. subst. eapply type_unique; eauto.
Qed.

Lemma columns_in ix : In ix (columns q) -> 0 <= ix < Z.of_nat n.
Proof.
  destruct SO as (_ & _ & RS). unfold columns. destruct (q_select q) as [|c cs] eqn:E.
  - intros I. apply in_map_iff in I. destruct I as (k & <- & I). apply in_seq in I. fold n in I. lia.
  - intros I. apply RS. auto.
Qed.

Lemma column_exists i : 0 <= i < lenz (columns q) -> exists t, column_type q i t.
Proof.
  intros R. destruct (nthz_in_range _ _ R) as (ix & E). assert (X := nthz_some _ _ _ E). destruct X as [_ X].
  apply nth_error_In in X. destruct (all_indexes ix (columns_in ix X)) as (k & t & Q).
  exists t, ix. split; [auto|]. eapply nth_error_In; eauto.
Qed.

Lemma opens_selection : exists orig sel,
  original_indexes (q_schema q) 0 (repeat (-1) n) = Ok orig /\ selection_indexes orig (q_select q) = Ok sel /\
  length sel = length (columns q) /\
  (forall i ix, nthz (columns q) i = Some ix -> exists p t, nthz sel i = Some p /\ nthz (q_schema q) p = Some (t, ix)).
Proof.
  destruct SO as (ND & RG & RS).
  destruct (original_spec (q_schema q) 0 (repeat (-1) n) ND) as (orig & A & B & C & _).
  { intros t ix I. unfold lenz. rewrite repeat_length. apply (RG t ix I). }
  rewrite repeat_length in B.
  assert (OK : forall ix, 0 <= ix < Z.of_nat n -> exists p t, nthz orig ix = Some p /\ nthz (q_schema q) p = Some (t, ix) /\ 0 <= p < Z.of_nat n).
  { intros ix R. destruct (all_indexes ix R) as (k & t & Q). exists (Z.of_nat k), t.
    rewrite (C k t ix Q). split; [f_equal; lia|]. rewrite nthz_nat. split; [auto|].
    assert (nth_error (q_schema q) k <> None) by congruence. apply nth_error_Some in H. fold n in H. lia. }
  exists orig. unfold selection_indexes. destruct (q_select q) as [|c cs] eqn:ES; cbn [is_nil].
  - exists orig. split; [auto|split; [|split]].
    + apply omapm_F2. assert (F : forall p, In p orig -> 0 <= p < lenz orig).
      { intros p I. apply In_nth_error in I. destruct I as (k & I).
        assert (KL : (k < length orig)%nat) by (apply nth_error_Some; congruence).
        destruct (OK (Z.of_nat k) ltac:(lia)) as (p' & t & E1 & _ & E3). rewrite nthz_nat in E1.
        unfold lenz. rewrite B. congruence. }
      clear -F. assert (G : forall l, (forall p, In p l -> 0 <= p < lenz orig) ->
        Forall2 (fun x y => (olet _ := at_or_crash orig x in Ok x) = Ok y) l l).
      { induction l as [|p l IH]; intros H; constructor.
        - destruct (nthz_in_range orig p (H p (or_introl eq_refl))) as (x & E). rewrite (at_ok _ _ _ E). auto.
        - apply IH. intros r I. apply H. right. auto. }
      apply G. exact F.
    + unfold columns. rewrite ES, map_length, seq_length. auto.
    + intros i ix E. unfold columns in E. rewrite ES in E.
      assert (X := nthz_some _ _ _ E). destruct X as [R X].
      unfold lenz in R. rewrite map_length, seq_length in R. fold n in R.
      assert (ix = i).
      { rewrite nth_error_map in X. rewrite (nth_error_nth' (seq 0 (length (q_schema q))) O) in X
          by (rewrite seq_length; fold n; lia). cbn [option_map] in X. rewrite seq_nth in X by (fold n; lia).
        assert (ix = Z.of_nat (0 + Z.to_nat i)) by congruence. lia. }
      subst ix. destruct (OK i R) as (p & t & E1 & E2 & _). eauto.
  - assert (RS' : forall ix, In ix (c :: cs) -> 0 <= ix < Z.of_nat n) by exact RS. clear RS.
    destruct (omapm_all (at_or_crash orig) (fun ix p => nthz orig ix = Some p) (c :: cs)) as (sel & E & F).
    { intros ix I. destruct (OK ix (RS' ix I)) as (p & t & E1 & _). exists p. split; [apply at_ok; auto|auto]. }
    exists sel. split; [auto|split; [exact E|split]].
    + unfold columns. rewrite ES. symmetry. apply (F2_len _ _ _ F).
    + unfold columns. rewrite ES. intros i ix X. assert (Y := nthz_some _ _ _ X). destruct Y as [R Y].
      destruct (OK ix (RS' ix (nth_error_In _ _ Y))) as (p & t & E1 & E2 & _). exists p, t. split; [|auto].
      assert (LS := F2_len _ _ _ F). unfold lenz in R.
      destruct (nthz_in_range sel i ltac:(unfold lenz; lia)) as (p' & E3). rewrite E3.
      assert (Y3 := nthz_some _ _ _ E3). destruct Y3 as [_ Y3]. assert (Z3 := F2_nth _ _ _ F _ _ _ Y Y3). simpl in Z3. congruence.
Qed.

Lemma column_types_ok sel : 
  (forall i ix, nthz (columns q) i = Some ix -> exists p t, nthz sel i = Some p /\ nthz (q_schema q) p = Some (t, ix)) ->
  q_schema q <> [] -> forall cols ts, Forall2 (column_type q) cols ts -> column_types (q_schema q) sel cols = Ok ts.
Proof.
  intros H NE cols ts F. unfold column_types. destruct (q_schema q) as [|c0 sc] eqn:ES; [congruence|]. cbn [is_nil]. rewrite <- ES in *.
  apply omapm_F2. refine (F2_imp _ _ _ _ _ F). intros i t (ix & A & B).
  destruct (H i ix A) as (p & t' & C & D). rewrite (at_ok _ _ _ C). cbn [obind]. rewrite (at_ok _ _ _ D). cbn [obind fst].
  f_equal. destruct (nthz_some _ _ _ D) as [_ E]. apply nth_error_In in E. eapply type_unique; eauto.
Qed.

Lemma columns_some : q_schema q <> [] -> columns q <> [].
Proof. intros NE. unfold columns. destruct (q_select q); [destruct (q_schema q); [congruence|discriminate]|discriminate]. Qed.

Lemma op_column_type o rt : q_schema q <> [] -> operator_typed q o rt ->
  exists t, column_type q (op_column (lenz (columns q)) (snd o)) t.
Proof.
  intros NE T. apply column_exists. unfold op_column.
  assert (0 < lenz (columns q)) by (unfold lenz; assert (X := columns_some NE); destruct (columns q); [congruence|simpl; lia]).
  destruct ((snd o <? 0) || (lenz (columns q) <=? snd o)) eqn:E; [lia|]. apply orb_false_iff in E.
  destruct E as [E1 E2]. apply Z.ltb_ge in E1. apply Z.leb_gt in E2. lia.
Qed.

Lemma op_column_in i t : column_type q i t -> op_column (lenz (columns q)) i = i /\ 0 <= i < lenz (columns q).
Proof.
  intros (ix & A & _). destruct (nthz_some _ _ _ A) as [R _]. split; [|auto]. unfold op_column.
  destruct (i <? 0) eqn:E1; [apply Z.ltb_lt in E1; lia|]. destruct (lenz (columns q) <=? i) eqn:E2; [apply Z.leb_le in E2; lia|]. auto.
Qed.

Lemma operator_ok_typed o rt : operator_typed q o rt -> operator_ok (lenz (columns q)) o = true.
Proof.
  destruct o as [op i]. unfold operator_typed, operator_ok. cbn [fst snd].
  assert (IN : forall t, column_type q i t -> (lenz (columns q) <=? i) = false /\ (i <? 0) = false).
  { intros t C. destruct (op_column_in i t C) as [_ R]. split; [apply Z.leb_gt|apply Z.ltb_ge]; lia. }
  destruct op; intros T; cbn.
  - destruct T as [T _]. destruct (IN _ T) as [-> ->]. auto.
  - destruct T as [T _]. destruct (IN _ T) as [-> ->]. auto.
  - destruct T as [_ [->|(t & T)]].
    + destruct (lenz (columns q) <=? -1) eqn:E; [apply Z.leb_le in E; unfold lenz in E; lia|]. auto.
    + destruct (IN _ T) as [-> ->]. auto.
  - destruct (lenz (columns q) <=? i); auto. destruct (i <? 0); auto.
  - destruct (IN _ T) as [-> ->]. auto.
  - destruct (IN _ T) as [-> ->]. auto.
Qed.

Lemma add_fun_typed o rt pt : operator_typed q o rt -> column_type q (op_column (lenz (columns q)) (snd o)) pt ->
  add_fun o pt rt = Some (mkFun (op_of o) pt rt).
Proof.
  destruct o as [op i]. unfold operator_typed, add_fun, op_of. cbn [fst snd].
  assert (EQ : forall t, ctype_eqb t t = true) by (intros []; auto).
  assert (IN : forall t, column_type q i t -> column_type q (op_column (lenz (columns q)) i) pt -> pt = t).
  { intros t C. rewrite (proj1 (op_column_in i t C)). intros D. eapply column_type_unique; eauto. }
  destruct op; intros T P.
  - destruct T as [T NS]. rewrite (IN _ T P), EQ. destruct rt; auto. congruence.
  - destruct T as [T NS]. rewrite (IN _ T P), EQ. destruct rt; auto. congruence.
  - destruct T as [-> _]. simpl. destruct (i =? -1); auto.
  - subst rt. auto.
  - rewrite (IN _ T P), EQ. auto.
  - rewrite (IN _ T P), EQ. auto.
Qed.
End Req.

Lemma grouping_opens q : grouping_request q ->
  exists kts ots rts, open q = Ok (Some (mkOpened (lenz (columns q)) kts ots true)) /\
    q_result q = kts ++ rts /\ Forall2 (column_type q) (q_group q) kts /\
    Forall2 (operator_typed q) (q_ops q) rts /\
    Forall2 (column_type q) (map (fun o => op_column (lenz (columns q)) (snd o)) (q_ops q)) ots /\
    add_funs (q_ops q) ots rts = Some (map (fun p => mkFun (op_of (fst (fst p))) (snd (fst p)) (snd p)) (combine (combine (q_ops q) ots) rts)).
Proof.
  intros (SO & NE & NO & kts & rts & ER & FK & FO).
  destruct (opens_selection q SO) as (orig & sel & A & B & C & D).
  assert (OT : exists ots, Forall2 (column_type q) (map (fun o => op_column (lenz (columns q)) (snd o)) (q_ops q)) ots).
  { clear NO ER. induction FO as [|o rt ops rts T F IH]; simpl; [exists []; auto|].
    destruct IH as (ots & IH). destruct (op_column_type q SO o rt NE T) as (t & T'). exists (t :: ots). constructor; auto. }
  destruct OT as (ots & OT). exists kts, ots, rts.
  assert (NS : lenz sel = lenz (columns q)) by (unfold lenz; congruence).
  split; [|split; [auto|split; [auto|split; [auto|split; [auto|]]]]].
  - unfold open. rewrite A. cbn [obind]. rewrite B. cbn [obind]. rewrite NS.
    assert (G : group_columns_ok (lenz (columns q)) (q_group q) = true).
    { unfold group_columns_ok. apply forallb_forall. intros i I.
      assert (X : exists t, column_type q i t) by (destruct (F2_in_l _ _ _ FK i I) as (t & _ & X); eauto).
      destruct X as (t & X). destruct (op_column_in q i t X) as [_ R]. apply andb_true_iff. split; [apply Z.leb_le|apply Z.ltb_lt]; lia. }
    rewrite G. cbn [negb]. rewrite (column_types_ok q SO sel D NE _ _ FK). cbn [obind].
    assert (O : forallb (operator_ok (lenz (columns q))) (q_ops q) = true).
    { apply forallb_forall. intros o I.
      assert (X : exists rt, operator_typed q o rt) by (destruct (F2_in_l _ _ _ FO o I) as (t & _ & X); eauto).
      destruct X as (rt & X). eapply operator_ok_typed; eauto. }
    rewrite O. cbn [negb]. rewrite (column_types_ok q SO sel D NE _ _ OT). cbn [obind].
    assert (LO := F2_len _ _ _ OT). rewrite map_length in LO.
    assert (LN : ots <> []) by (intros ->; destruct (q_ops q); [congruence|discriminate]).
    replace (is_nil kts && is_nil ots) with false by (destruct ots; [congruence|destruct kts; auto]).
    rewrite ER, app_length. assert (LR := F2_len _ _ _ FO).
    replace (length rts) with (length ots) by congruence. rewrite Nat.eqb_refl. auto.
  - clear NO ER FK A B C D NS. remember (map (fun o => op_column (lenz (columns q)) (snd o)) (q_ops q)) as cs eqn:EC.
    revert cs ots EC OT. induction FO as [|o rt ops rts T F IH]; intros cs ots EC OT; simpl in EC; subst cs.
    + inversion OT; subst. auto.
    + inversion OT as [|? pt ? ots' T' F']; subst. cbn [add_funs combine map fst snd].
      rewrite (add_fun_typed q SO o rt pt T T'). rewrite (IH _ _ eq_refl F'). auto.
Qed.

Lemma selection_opens q : selection_request q -> exists o, open q = Ok (Some o) /\ o_grouping o = false.
Proof.
  intros (SO & G & O). destruct (opens_selection q SO) as (orig & sel & A & B & _).
  unfold open. rewrite A. cbn [obind]. rewrite B. cbn [obind]. rewrite G, O. simpl.
  assert (X : forall s, column_types (q_schema q) s [] = Ok []) by (intros s; unfold column_types; destruct (q_schema q); auto).
  rewrite X. cbn [obind is_nil andb]. eexists. split; [reflexivity|auto].
Qed.

Lemma agg_types q kts rts : q_result q = kts ++ rts -> length rts = length (q_ops q) -> agg_result_types q = rts.
Proof.
  intros E L. unfold agg_result_types. rewrite E, app_length, <- L.
  replace (length kts + length rts - length rts)%nat with (length kts) by lia. rewrite skipn_app, skipn_all2 by lia.
  rewrite Nat.sub_diag. auto.
Qed.
