(** Proofs about the answers of two indexes of a document region. *)
Require Import ZArith List Bool Arith Lia Sorted Permutation.
From Verif Require Import DiModel DiSpec.
Import ListNotations.
Open Scope nat_scope.

Lemma bf_head : forall x l y, best_first (x :: l) -> In y (x :: l) -> (snd y <= snd x)%Z.
Proof.
  intros x l y H [-> | I]; [lia |]. inversion H as [| ? ? _ F]; subst.
  rewrite Forall_forall in F. auto.
Qed.

Lemma bf_tail : forall x l, best_first (x :: l) -> best_first l.
Proof. intros x l H. inversion H; auto. Qed.

Lemma cursors_ok : forall n a b, best_first a -> best_first b ->
  length (cursors n a b) = Nat.min n (length a + length b) /\
  best_first (cursors n a b) /\
  exists rest, Permutation (a ++ b) (cursors n a b ++ rest) /\
    forall x y, In x (cursors n a b) -> In y rest -> (snd y <= snd x)%Z.
Proof.
  assert (forall n x l l', length (cursors n (fst l') (snd l')) = Nat.min n (length (fst l') + length (snd l')) /\
      best_first (cursors n (fst l') (snd l')) /\
      (exists rest, Permutation (fst l' ++ snd l') (cursors n (fst l') (snd l') ++ rest) /\
        forall x y, In x (cursors n (fst l') (snd l')) -> In y rest -> (snd y <= snd x)%Z) ->
      Permutation l (x :: fst l' ++ snd l') -> (forall y, In y l -> (snd y <= snd x)%Z) ->
      length (x :: cursors n (fst l') (snd l')) = Nat.min (S n) (length l) /\
      best_first (x :: cursors n (fst l') (snd l')) /\
      exists rest, Permutation l ((x :: cursors n (fst l') (snd l')) ++ rest) /\
        forall u y, In u (x :: cursors n (fst l') (snd l')) -> In y rest -> (snd y <= snd u)%Z) as Step.
  { intros n x l [a b] [L [B [rest [P M]]]] Q H. cbn [fst snd] in *.
    assert (forall y, In y (cursors n a b ++ rest) -> In y l) as Sub.
    { intros y I. eapply Permutation_in; [symmetry; exact Q |]. right.
      eapply Permutation_in; [symmetry; exact P | auto]. }
    split.
    - apply Permutation_length in Q. rewrite Q. cbn. rewrite L, app_length. lia.
    - split.
      + constructor; auto. rewrite Forall_forall. intros y I. apply H, Sub, in_or_app. auto.
      + exists rest. split.
        * rewrite Q. cbn. constructor. auto.
        * intros u y [-> | I] J; [apply H, Sub, in_or_app; auto | apply M; auto]. }
  induction n as [| n IH]; intros a b A B.
  - cbn. split; auto. split; [constructor |]. exists (a ++ b). split; auto. intros ? ? [].
  - cbn [cursors]. destruct a as [| x a]; destruct b as [| y b].
    + cbn. split; auto. split; [constructor |]. exists []. split; auto. intros ? ? [].
    + pose proof (Step n y ([] ++ y :: b) ([], b) (IH [] b A (bf_tail _ _ B))) as S. cbn [fst snd] in S.
      rewrite <- app_length. apply S; [reflexivity | intros z; apply bf_head; auto].
    + pose proof (Step n x ((x :: a) ++ []) (a, []) (IH a [] (bf_tail _ _ A) B)) as S. cbn [fst snd] in S.
      rewrite <- app_length. apply S; [reflexivity |].
      intros z. rewrite app_nil_r. apply bf_head; auto.
    + rewrite <- app_length. destruct (Z.ltb (snd y) (snd x)) eqn:E.
      * apply Z.ltb_lt in E.
        apply (Step n x ((x :: a) ++ y :: b) (a, y :: b) (IH a (y :: b) (bf_tail _ _ A) B)); [reflexivity |].
        intros z I. apply in_app_or in I. destruct I as [I | I];
          [eapply bf_head; eauto | apply (bf_head _ _ _ B) in I; lia].
      * apply Z.ltb_ge in E.
        apply (Step n y ((x :: a) ++ y :: b) (x :: a, b) (IH (x :: a) b A (bf_tail _ _ B)));
          [symmetry; apply Permutation_middle |].
        intros z I. apply in_app_or in I. destruct I as [I | I];
          [apply (bf_head _ _ _ A) in I; lia | eapply bf_head; eauto].
Qed.

Lemma bf_firstn : forall n l, best_first l -> best_first (firstn n l).
Proof.
  induction n; intros [| x l] H; cbn; try constructor.
  - apply IHn. eapply bf_tail; eauto.
  - rewrite Forall_forall. intros y I. eapply bf_head; [exact H |]. right.
    rewrite <- (firstn_skipn n l). apply in_or_app; auto.
Qed.

(** What a limited answer leaves out of one index is no better than [n] answers. *)
Lemma bf_split : forall n l x y, best_first l -> In x (firstn n l) -> In y (skipn n l) -> (snd y <= snd x)%Z.
Proof.
  induction n; intros [| z l] x y H I J; cbn in *; try contradiction.
  destruct I as [-> | I].
  - eapply bf_head; [exact H |]. right. rewrite <- (firstn_skipn n l). apply in_or_app; auto.
  - apply (IHn l); auto. eapply bf_tail; eauto.
Qed.

Lemma in_split_len : forall (l : list hit) n y, In y (skipn n l) -> length (firstn n l) = n.
Proof.
  intros l n y I. apply firstn_length_le. destruct (Nat.le_gt_cases n (length l)); auto.
  rewrite skipn_all2 in I by lia. contradiction.
Qed.

Lemma filter_len : forall (p : hit -> bool) l l', Permutation l l' -> length (filter p l) = length (filter p l').
Proof.
  intros p l l' Q. induction Q as [| z l l' Q IH | u v l | l l' l'' Q1 IH1 Q2 IH2]; cbn [filter]; auto.
  - destruct (p z); cbn; auto.
  - destruct (p u), (p v); auto.
  - congruence.
Qed.

Lemma limited_best : forall n h1 h2 r, 1 <= n -> best_first h1 -> best_first h2 ->
  search2 n false h1 h2 = Some r -> best_of n (h1 ++ h2) r.
Proof.
  intros n h1 h2 r N B1 B2 H. unfold search2, search1 in H. cbn [negb andb] in H.
  destruct (n =? 0) eqn:E; [apply Nat.eqb_eq in E; lia |]. injection H as <-.
  assert (merge_hits n (firstn n h1) (firstn n h2) = cursors n (firstn n h1) (firstn n h2)) as ->
    by (unfold merge_hits; destruct n; auto; lia).
  destruct (cursors_ok n (firstn n h1) (firstn n h2) (bf_firstn n _ B1) (bf_firstn n _ B2)) as [L [B [rest [P M]]]].
  set (r := cursors n (firstn n h1) (firstn n h2)) in *.
  split; [auto |]. split.
  { rewrite L, app_length, !firstn_length. lia. }
  exists (rest ++ skipn n h1 ++ skipn n h2). split.
  { rewrite app_assoc, <- P.
    rewrite <- (firstn_skipn n h1) at 1. rewrite <- (firstn_skipn n h2) at 1.
    rewrite <- !app_assoc. apply Permutation_app_head.
    rewrite !app_assoc. apply Permutation_app_tail. apply Permutation_app_comm. }
  (* an answer worse than something left out by a full index: that index's first n would all be answers *)
  assert (forall g h x y, Permutation (firstn n g ++ firstn n h) (r ++ rest) -> best_first g ->
            (forall u v, In u r -> In v rest -> (snd v <= snd u)%Z) ->
            In x r -> In y (skipn n g) -> (snd y <= snd x)%Z) as Key.
  { intros g h x y Q G MM I J.
    destruct (Z.le_gt_cases (snd y) (snd x)) as [C | C]; auto. exfalso.
    pose proof (in_split_len _ _ _ J) as Lg.
    (* every one of the first n of g is better than x, so none is in rest *)
    assert (forall z, In z (firstn n g) -> (snd x < snd z)%Z) as Bt.
    { intros z K. pose proof (bf_split _ _ _ _ G K J). lia. }
    set (p := fun z : hit => Z.ltb (snd x) (snd z)).
    assert (length (filter p (firstn n g ++ firstn n h)) = length (filter p (r ++ rest))) as FL.
    { apply filter_len. auto. }
    rewrite !filter_app, !app_length in FL.
    assert (filter p (firstn n g) = firstn n g) as F1.
    { clear - Bt. revert Bt. generalize (firstn n g) as l. induction l as [| z l IH]; intros Bt; cbn; auto.
      unfold p at 1. assert (Z.ltb (snd x) (snd z) = true) as -> by (apply Z.ltb_lt, Bt; left; auto).
      f_equal. apply IH. intros u K. apply Bt. right; auto. }
    assert (filter p rest = []) as F2.
    { assert (forall v, In v rest -> p v = false) as Fr.
      { intros v K. unfold p. apply Z.ltb_ge. auto. }
      clear - Fr. induction rest as [| v l IH]; cbn; auto. rewrite Fr by (left; auto). apply IH.
      intros u K. apply Fr. right; auto. }
    assert (length (filter p r) < length r) as F3.
    { assert (p x = false) as Px by (unfold p; apply Z.ltb_irrefl). clear - I Px. clearbody r.
      induction r as [| z l IH]; [contradiction |]. cbn [filter length].
      assert (length (filter p l) <= length l) by (clear; induction l; cbn; auto; destruct (p a); cbn; lia).
      destruct I as [-> | I].
      - rewrite Px. lia.
      - specialize (IH I). destruct (p z); cbn; lia. }
    rewrite F1, F2, Lg in FL. cbn in FL.
    assert (length r <= n) by lia. lia. }
  intros x y I J. apply in_app_or in J. destruct J as [J | J]; [auto |].
  apply in_app_or in J. destruct J as [J | J].
  - apply (Key h1 h2); auto.
  - apply (Key h2 h1); auto. rewrite <- P. apply Permutation_app_comm.
Qed.

Definition upid (x y : hit) : Prop := (fst x <= fst y)%Z.

Lemma put_in : forall x l y, In y (put x l) <-> x = y \/ In y l.
Proof.
  induction l as [| z l IH]; intros y; cbn; [tauto |].
  destruct (Z.leb (fst x) (fst z)); cbn; [tauto |]. rewrite IH. tauto.
Qed.

Lemma put_sorted : forall x l, StronglySorted upid l -> StronglySorted upid (put x l).
Proof.
  induction l as [| z l IH]; intros H; cbn.
  - repeat constructor.
  - inversion H as [| ? ? H1 H2]; subst. rewrite Forall_forall in H2.
    destruct (Z.leb (fst x) (fst z)) eqn:E.
    + apply Z.leb_le in E. constructor; auto. rewrite Forall_forall. intros y [<- | I]; auto.
      unfold upid. apply H2 in I. unfold upid in I. lia.
    + apply Z.leb_gt in E. constructor; auto. rewrite Forall_forall. intros y I. apply put_in in I.
      destruct I as [<- | I]; auto. unfold upid. lia.
Qed.

Lemma sort_in : forall l y, In y (sort_ids l) <-> In y l.
Proof. induction l as [| x l IH]; intros y; cbn; [tauto |]. rewrite put_in, IH. tauto. Qed.

Lemma sort_sorted : forall l, StronglySorted upid (sort_ids l).
Proof. induction l; cbn; [constructor | apply put_sorted; auto]. Qed.

Lemma uniq_ok : forall l, StronglySorted upid l ->
  (forall x, In x (uniq l) -> In x l) /\ (forall x, In x l -> In (fst x) (map fst (uniq l))) /\
  StronglySorted (fun x y => (x < y)%Z) (map fst (uniq l)).
Proof.
  induction l as [| x l IH]; intros H; cbn [uniq].
  - split; [auto |]. split; [auto | constructor].
  - inversion H as [| ? ? H1 H2]; subst. rewrite Forall_forall in H2.
    destruct (IH H1) as [A [B C]].
    destruct (uniq l) as [| y r] eqn:U.
    + split; [intros z [-> | []]; left; auto |]. split.
      * intros z [-> | I]; [left; auto |]. apply B in I. contradiction.
      * repeat constructor.
    + assert (In y l) as Iy by (apply A; left; auto).
      pose proof (H2 y Iy) as Le. unfold upid in Le.
      inversion C as [| ? ? C1 C2]; subst. rewrite Forall_forall in C2.
      destruct (Z.eqb (fst x) (fst y)) eqn:E.
      * apply Z.eqb_eq in E. split; [| split].
        -- intros z [-> | I]; [left; auto | right; apply A; right; auto].
        -- intros z [-> | I]; [left; auto |]. apply B in I. cbn in *. rewrite E. auto.
        -- cbn. constructor; auto. rewrite Forall_forall. rewrite E. auto.
      * apply Z.eqb_neq in E. split; [| split].
        -- intros z [-> | I]; [left; auto | right; apply A; auto].
        -- intros z [-> | I]; [left; auto |]. right. apply B in I. auto.
        -- cbn. constructor; auto. rewrite Forall_forall. intros z [<- | I]; [lia |].
           apply C2 in I. lia.
Qed.

Lemma ss_nodup : forall l, StronglySorted (fun x y => (x < y)%Z) l -> NoDup l.
Proof.
  induction 1; constructor; auto. intros C. rewrite Forall_forall in H0. apply H0 in C. lia.
Qed.

Lemma unlimited_once : forall h1 h2 r, search2 0 true h1 h2 = Some r -> each_once (h1 ++ h2) r.
Proof.
  intros h1 h2 r H. cbn in H. injection H as <-.
  destruct (uniq_ok _ (sort_sorted (h1 ++ h2))) as [A [B C]]. split; [| split].
  - apply ss_nodup; auto.
  - intros x I. apply sort_in. auto.
  - intros x I. apply B. apply sort_in. auto.
Qed.
