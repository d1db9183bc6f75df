(** Lemmas about merging and batching. *)
Require Import ZArith List Bool Permutation Sorted Lia.
Require Import Verif.VqModel Verif.VqSpec.
Import ListNotations.
Open Scope Z_scope.

Lemma merge_nil_l : forall k b, merge_hits k [] b = firstn k b.
Proof. induction k as [|k IH]; intros [|y b]; simpl; try reflexivity. f_equal. apply IH. Qed.

Lemma merge_nil_r : forall k a, merge_hits k a [] = firstn k a.
Proof. induction k as [|k IH]; intros [|y b]; simpl; try reflexivity. f_equal. apply IH. Qed.

(** The merge splits both inputs into a taken and a left part. *)
Lemma merge_cut : forall k a b, exists a1 a2 b1 b2, a = a1 ++ a2 /\ b = b1 ++ b2 /\
  Permutation (merge_hits k a b) (a1 ++ b1) /\ length (merge_hits k a b) = Nat.min k (length a + length b).
Proof.
  induction k as [|k IH]; intros a b.
  - exists [], a, [], b. repeat split; auto.
  - destruct a as [|x a]; [|destruct b as [|y b]].
    + rewrite merge_nil_l. exists [], [], (firstn (S k) b), (skipn (S k) b).
      split; [reflexivity|]. split; [symmetry; apply firstn_skipn|]. split; [apply Permutation_refl|].
      rewrite firstn_length. reflexivity.
    + rewrite merge_nil_r. exists (firstn (S k) (x :: a)), (skipn (S k) (x :: a)), [], [].
      split; [symmetry; apply firstn_skipn|]. split; [reflexivity|]. split; [rewrite app_nil_r; apply Permutation_refl|].
      rewrite firstn_length. f_equal. simpl. lia.
    + simpl. destruct (snd x <=? snd y) eqn:C.
      * destruct (IH a (y :: b)) as [a1 [a2 [b1 [b2 [E1 [E2 [P L]]]]]]].
        exists (x :: a1), a2, b1, b2. split; [rewrite E1; reflexivity|]. split; [exact E2|].
        split; [simpl; constructor; exact P|]. simpl. rewrite L. simpl. lia.
      * destruct (IH (x :: a) b) as [a1 [a2 [b1 [b2 [E1 [E2 [P L]]]]]]].
        exists a1, a2, (y :: b1), b2. split; [exact E1|]. split; [rewrite E2; reflexivity|].
        split; [etransitivity; [constructor; exact P|apply Permutation_middle]|]. simpl. rewrite L. simpl. lia.
Qed.

Lemma nf_inv x l : nearest_first (x :: l) -> nearest_first l /\ forall y, In y l -> snd x <= snd y.
Proof. intro H. inversion H; subst. split; [assumption|]. rewrite Forall_forall in H3. exact H3. Qed.

Lemma firstn_in {A} (l : list A) k x : In x (firstn k l) -> In x l.
Proof. intro H. rewrite <- (firstn_skipn k l). apply in_or_app. left. exact H. Qed.

Lemma nf_firstn : forall l k, nearest_first l -> nearest_first (firstn k l).
Proof.
  induction l as [|x l IH]; intros [|k] H; simpl; try constructor.
  - apply IH. apply nf_inv in H. apply H.
  - apply Forall_forall. intros y Y. apply nf_inv in H. apply H. eapply firstn_in. exact Y.
Qed.

Lemma nf_firstn_skipn : forall l k x y, nearest_first l -> In x (firstn k l) -> In y (skipn k l) -> snd x <= snd y.
Proof.
  induction l as [|z l IH]; intros [|k] x y H X Y; simpl in *; try contradiction.
  apply nf_inv in H. destruct H as [H1 H2]. destruct X as [->|X].
  - apply H2. rewrite <- (firstn_skipn k l). apply in_or_app. right. exact Y.
  - eapply IH; eassumption.
Qed.

(** With sorted inputs, the result is sorted and nothing left is nearer. *)
Lemma merge_sorted : forall k a b, nearest_first a -> nearest_first b ->
  nearest_first (merge_hits k a b) /\
  exists rest, Permutation (merge_hits k a b ++ rest) (a ++ b) /\
    forall x y, In x (merge_hits k a b) -> In y rest -> snd x <= snd y.
Proof.
  induction k as [|k IH]; intros a b A B.
  - split; [constructor|]. exists (a ++ b). split; [apply Permutation_refl|]. intros x y [].
  - destruct a as [|x a]; [|destruct b as [|y b]].
    + rewrite merge_nil_l. split; [apply nf_firstn; exact B|]. exists (skipn (S k) b).
      split; [rewrite firstn_skipn; apply Permutation_refl|]. intros u v U V. exact (nf_firstn_skipn _ _ _ _ B U V).
    + rewrite merge_nil_r. split; [apply nf_firstn; exact A|]. exists (skipn (S k) (x :: a)).
      split; [rewrite firstn_skipn, app_nil_r; apply Permutation_refl|]. intros u v U V. exact (nf_firstn_skipn _ _ _ _ A U V).
    + pose proof (nf_inv _ _ A) as [A1 A2]. pose proof (nf_inv _ _ B) as [B1 B2].
      cbn [merge_hits]. destruct (snd x <=? snd y) eqn:C.
      * apply Z.leb_le in C. destruct (IH a (y :: b) A1 B) as [S1 [rest [P Q]]].
        assert (XM : forall z, In z (a ++ y :: b) -> snd x <= snd z).
        { intros z Z. apply in_app_or in Z. destruct Z as [Z|[<-|Z]]; [apply A2; exact Z|exact C|].
          pose proof (B2 z Z). lia. }
        split.
        -- constructor; [exact S1|]. apply Forall_forall. intros z Z. apply XM.
           eapply Permutation_in; [exact P|]. apply in_or_app. left. exact Z.
        -- exists rest. split; [simpl; constructor; exact P|]. intros u v [<-|U] V; [|apply Q; assumption].
           apply XM. eapply Permutation_in; [exact P|]. apply in_or_app. right. exact V.
      * apply Z.leb_gt in C. destruct (IH (x :: a) b A B1) as [S1 [rest [P Q]]].
        assert (XM : forall z, In z ((x :: a) ++ b) -> snd y <= snd z).
        { intros z Z. apply in_app_or in Z. destruct Z as [[<-|Z]|Z]; [lia| |apply B2; exact Z].
          pose proof (A2 z Z). lia. }
        split.
        -- constructor; [exact S1|]. apply Forall_forall. intros z Z. apply XM.
           eapply Permutation_in; [exact P|]. apply in_or_app. left. exact Z.
        -- exists rest. split.
           ++ simpl. etransitivity; [constructor; exact P|]. apply (Permutation_middle (x :: a) b y).
           ++ intros u v [<-|U] V; [|apply Q; assumption].
              apply XM. eapply Permutation_in; [exact P|]. apply in_or_app. right. exact V.
Qed.

Lemma merge_length k a b : length (merge_hits k a b) = Nat.min k (length a + length b).
Proof. destruct (merge_cut k a b) as [a1 [a2 [b1 [b2 [_ [_ [_ L]]]]]]]. exact L. Qed.

Lemma merge_split k a b : nearest_first a -> nearest_first b ->
  exists a1 a2 b1 b2, a = a1 ++ a2 /\ b = b1 ++ b2 /\ Permutation (merge_hits k a b) (a1 ++ b1) /\
    forall x y, In x (merge_hits k a b) -> In y (a2 ++ b2) -> snd x <= snd y.
Proof.
  intros A B. destruct (merge_sorted k a b A B) as [_ [rest [P Q]]].
  destruct (merge_cut k a b) as [a1 [a2 [b1 [b2 [E1 [E2 [PM _]]]]]]].
  exists a1, a2, b1, b2. split; [exact E1|]. split; [exact E2|]. split; [exact PM|].
  intros x y X Y. apply Q; [exact X|]. eapply Permutation_in; [|exact Y].
  apply (Permutation_app_inv_l (merge_hits k a b)). rewrite P, PM, E1, E2.
  rewrite <- !app_assoc. apply Permutation_app_head. rewrite !app_assoc. apply Permutation_app_tail.
  apply Permutation_app_comm.
Qed.

(** Merging two correct answers gives a correct answer for both sources together. *)
Lemma merge_nearest k la lb a b : the_nearest k la a -> the_nearest k lb b ->
  the_nearest k (la ++ lb) (merge_hits k a b).
Proof.
  intros [LA [SA [ra [PA QA]]]] [LB [SB [rb [PB QB]]]].
  destruct (merge_sorted k a b SA SB) as [SM [rest [PM QM]]].
  pose proof (merge_length k a b) as LM.
  split; [rewrite LM, LA, LB, app_length; lia|]. split; [exact SM|].
  exists (rest ++ ra ++ rb). split.
  - rewrite app_assoc. etransitivity; [apply Permutation_app_tail; exact PM|].
    rewrite <- PA, <- PB. rewrite <- !app_assoc. apply Permutation_app_head.
    rewrite !app_assoc. apply Permutation_app_tail. apply Permutation_app_comm.
  - intros x y X Y. apply in_app_or in Y. destruct Y as [Y|Y]; [apply QM; assumption|].
    destruct (merge_split k a b SA SB) as [a1 [a2 [b1 [b2 [E1 [E2 [PC QC]]]]]]].
    pose proof (Permutation_length PC) as L. rewrite LM, app_length in L.
    pose proof (Permutation_length PA) as L1. rewrite app_length in L1.
    pose proof (Permutation_length PB) as L2. rewrite app_length in L2.
    assert (LA' : length a = (length a1 + length a2)%nat) by (rewrite E1; apply app_length).
    assert (LB' : length b = (length b1 + length b2)%nat) by (rewrite E2; apply app_length).
    assert (XI : In x (a1 ++ b1)) by (eapply Permutation_in; eassumption).
    apply in_app_or in Y. destruct Y as [Y|Y].
    + assert (NZ : (0 < length ra)%nat) by (destruct ra; [contradiction|simpl; lia]).
      destruct a2 as [|w a2].
      * simpl in LA'. destruct b1 as [|b0 b1]; [|simpl in L; lia].
        rewrite app_nil_r in *. subst a1. apply QA; assumption.
      * etransitivity; [apply (QC x w X); left; reflexivity|]. apply QA; [|exact Y]. rewrite E1. apply in_or_app. right. left. reflexivity.
    + assert (NZ : (0 < length rb)%nat) by (destruct rb; [contradiction|simpl; lia]).
      destruct b2 as [|w b2].
      * simpl in LB'. destruct a1 as [|a0 a1]; [|simpl in L; lia].
        rewrite app_nil_r in E2. subst b1. apply QB; assumption.
      * etransitivity; [apply (QC x w X); apply in_or_app; right; left; reflexivity|].
        apply QB; [|exact Y]. rewrite E2. apply in_or_app. right. left. reflexivity.
Qed.

(** With room for everything, nothing is lost. *)
Lemma merge_everything k a b : (length a + length b <= k)%nat -> Permutation (merge_hits k a b) (a ++ b).
Proof.
  intro L. destruct (merge_cut k a b) as [a1 [a2 [b1 [b2 [E1 [E2 [P LM]]]]]]].
  pose proof (Permutation_length P) as LP. rewrite app_length in LP.
  assert (LA' : length a = (length a1 + length a2)%nat) by (rewrite E1; apply app_length).
  assert (LB' : length b = (length b1 + length b2)%nat) by (rewrite E2; apply app_length).
  destruct a2 as [|? ?]; [|simpl in LA'; lia]. destruct b2 as [|? ?]; [|simpl in LB'; lia].
  rewrite app_nil_r in *. subst. exact P.
Qed.

(** ** Batches *)

Section Batch.
Variables (Q R : Type) (f : Q -> R) (none : R).

Lemma put_at_length : forall (l : list R) n x, length (put_at l n x) = length l.
Proof. induction l as [|y l IH]; intros [|n] x; simpl; auto. Qed.

Lemma put_at_nth : forall (l : list R) n x m,
  nth_error (put_at l n x) m = if (n =? m)%nat then (if (n <? length l)%nat then Some x else None) else nth_error l m.
Proof.
  induction l as [|y l IH]; intros n x m.
  - simpl. destruct n, m; simpl; try reflexivity; destruct (Nat.eqb n m); reflexivity.
  - destruct n, m; simpl; try reflexivity. rewrite IH. destruct (Nat.eqb n m) eqn:E; [|reflexivity].
    change (S n <? S (length l))%nat with (n <? length l)%nat. reflexivity.
Qed.

Lemma slices_one : forall (l : list Q) fuel, (length l <= fuel)%nat -> slices fuel 1 l = map (fun q => [q]) l.
Proof.
  induction l as [|q l IH]; intros [|fuel] L; simpl in *; try reflexivity; try lia. f_equal. apply IH. lia.
Qed.

Lemma fold_one : forall (ts : list (nat * list Q)) res m,
  (forall t, In t ts -> exists q, snd t = [q]) -> NoDup (map fst ts) ->
  nth_error (fold_left (fun res t => place res (fst t) (map f (snd t))) ts res) m =
  match find (fun t => (fst t =? m)%nat) ts with
  | Some (_, [q]) => if (m <? length res)%nat then Some (f q) else None
  | _ => nth_error res m
  end.
Proof.
  induction ts as [|[k qs] ts IH]; intros res m ONE ND; simpl; [reflexivity|].
  simpl in ND. inversion ND; subst. destruct (ONE (k, qs) (or_introl eq_refl)) as [q E]. simpl in E. subst qs.
  rewrite IH; [|intros t T; apply ONE; right; exact T|assumption]. simpl. rewrite put_at_length, put_at_nth.
  destruct (k =? m)%nat eqn:KM; [|reflexivity]. apply Nat.eqb_eq in KM. subst m.
  destruct (find (fun t => (fst t =? k)%nat) ts) as [[k' qs']|] eqn:F; [|reflexivity].
  apply find_some in F. destruct F as [F1 F2]. simpl in F2. apply Nat.eqb_eq in F2. subst k'.
  exfalso. apply H1. apply (in_map fst) in F1. exact F1.
Qed.

Lemma number_in {A} (l : list A) : forall k n x, In (n, x) (combine (seq k (length l)) l) <-> (k <= n)%nat /\ nth_error l (n - k) = Some x.
Proof.
  induction l as [|y l IH]; intros k n x; simpl.
  - split; [contradiction|]. intros [_ H]. destruct (n - k)%nat; discriminate.
  - rewrite IH. split.
    + intros [H|[H1 H2]].
      * injection H as <- <-. split; [lia|]. rewrite Nat.sub_diag. reflexivity.
      * split; [lia|]. replace (n - k)%nat with (S (n - S k)) by lia. exact H2.
    + intros [H1 H2]. destruct (Nat.eq_dec n k) as [->|NE].
      * left. rewrite Nat.sub_diag in H2. injection H2 as <-. reflexivity.
      * right. split; [lia|]. replace (n - k)%nat with (S (n - S k)) in H2 by lia. exact H2.
Qed.

Lemma number_fst {A} (l : list A) : map fst (number l) = seq 0 (length l).
Proof.
  unfold number. generalize 0%nat. induction l as [|x l IH]; intro k; simpl; [reflexivity|]. f_equal. apply IH.
Qed.

Lemma find_unique (ts : list (nat * list Q)) n q : NoDup (map fst ts) -> In (n, q) ts ->
  find (fun t => (fst t =? n)%nat) ts = Some (n, q).
Proof.
  induction ts as [|[k x] ts IH]; intros ND H; [contradiction|]. simpl in ND. inversion ND; subst. simpl.
  destruct H as [H|H].
  - injection H as -> ->. rewrite Nat.eqb_refl. reflexivity.
  - destruct (Nat.eqb_spec k n) as [->|NE]; [|apply IH; assumption].
    exfalso. apply H2. apply (in_map fst) in H. exact H.
Qed.

Lemma nth_error_ext {A} : forall (l l' : list A), (forall n, nth_error l n = nth_error l' n) -> l = l'.
Proof.
  induction l as [|x l IH]; intros [|y l'] H; [reflexivity|discriminate (H 0%nat)|discriminate (H 0%nat)|].
  pose proof (H 0%nat) as H0. injection H0 as <-. f_equal. apply IH. intro n. exact (H (S n)).
Qed.

Lemma batch_one sched qs : any_schedule sched -> search_by_parallel f none 1 sched qs = map f qs.
Proof.
  intro AS. unfold search_by_parallel, split_queries. rewrite slices_one; [|lia].
  set (ts := sched (number (map (fun q => [q]) qs))).
  assert (P : Permutation ts (number (map (fun q => [q]) qs))) by apply AS.
  assert (ND : NoDup (map fst ts)).
  { eapply Permutation_NoDup; [apply Permutation_sym, Permutation_map; exact P|]. rewrite number_fst. apply seq_NoDup. }
  apply nth_error_ext. intro n. rewrite fold_one; [| |exact ND].
  - rewrite map_length, !nth_error_map. destruct (nth_error qs n) as [q|] eqn:N; simpl.
    + assert (IN : In (n, [q]) ts).
      { eapply Permutation_in; [apply Permutation_sym; exact P|]. apply number_in. split; [lia|].
        rewrite Nat.sub_0_r, nth_error_map, N. reflexivity. }
      rewrite (find_unique ts n [q] ND IN).
      assert (L : (n < length qs)%nat) by (apply nth_error_Some; congruence).
      apply Nat.ltb_lt in L. rewrite L. reflexivity.
    + destruct (find (fun t => (fst t =? n)%nat) ts) as [[k x]|] eqn:F; [|reflexivity].
      apply find_some in F. destruct F as [F1 F2]. simpl in F2. apply Nat.eqb_eq in F2. subst k.
      eapply Permutation_in in F1; [|exact P]. apply number_in in F1. destruct F1 as [_ F1].
      rewrite Nat.sub_0_r, nth_error_map, N in F1. discriminate.
  - intros [k x] T. eapply Permutation_in in T; [|exact P]. apply number_in in T. destruct T as [_ T].
    rewrite nth_error_map in T. destruct (nth_error qs (k - 0)) as [q|]; [|discriminate]. injection T as <-. exists q. reflexivity.
Qed.

Lemma place_all : forall (part pre post : list R), length part = length post ->
  place (pre ++ post) (length pre) part = pre ++ part.
Proof.
  induction part as [|x part IH]; intros pre post L; destruct post as [|y post]; try discriminate; simpl.
  - reflexivity.
  - assert (E : put_at (pre ++ y :: post) (length pre) x = (pre ++ [x]) ++ post).
    { clear. induction pre as [|z pre IH]; simpl; [reflexivity|]. f_equal. exact IH. }
    rewrite E. replace (S (length pre)) with (length (pre ++ [x])) by (rewrite app_length; simpl; lia).
    rewrite IH; [rewrite <- app_assoc; reflexivity|]. simpl in L. lia.
Qed.

Lemma batch_all n sched qs : any_schedule sched -> (length qs <= n)%nat ->
  search_by_parallel f none n sched qs = map f qs.
Proof.
  intros AS L. unfold search_by_parallel, split_queries. destruct qs as [|q qs]; [|].
  - simpl. pose proof (AS []) as P. apply Permutation_sym, Permutation_nil in P. unfold number. simpl. rewrite P. reflexivity.
  - assert (E : slices (length (q :: qs)) n (q :: qs) = [q :: qs]).
    { simpl length. cbn [slices]. rewrite firstn_all2 by exact L. rewrite skipn_all2 by exact L. destruct (length qs); reflexivity. }
    rewrite E. unfold number. simpl combine. pose proof (AS [(0%nat, q :: qs)]) as P.
    apply Permutation_sym, Permutation_length_1_inv in P. rewrite P. simpl fold_left. cbn [fst snd].
    apply (place_all (map f (q :: qs)) [] (map (fun _ => none) (q :: qs))). rewrite !map_length. reflexivity.
Qed.

Lemma place_after : forall (part res : list R) k m, (k + length part <= m)%nat ->
  nth_error (place res k part) m = nth_error res m.
Proof.
  induction part as [|x part IH]; intros res k m L; simpl in *; [reflexivity|].
  rewrite IH by lia. rewrite put_at_nth. destruct (Nat.eqb_spec k m); [lia|reflexivity].
Qed.

Lemma slices_size : forall fuel n (l : list Q) k part, nth_error (slices fuel n l) k = Some part ->
  (k * n + length part <= length l)%nat /\ (length part <= n)%nat.
Proof.
  induction fuel as [|fuel IH]; intros n l k part H; simpl in H; [destruct k; discriminate|].
  destruct l as [|q l]; [destruct k; discriminate|]. destruct k as [|k].
  - simpl in H. injection H as <-. rewrite firstn_length. simpl. lia.
  - change (nth_error (slices fuel n (skipn n (q :: l))) k = Some part) in H.
    destruct (le_lt_dec (length (q :: l)) n) as [G|G].
    + rewrite (skipn_all2 (q :: l) G) in H. destruct fuel, k; discriminate.
    + apply IH in H. rewrite skipn_length in H. destruct H as [H1 H2]. split; [|exact H2].
      change (S k * n)%nat with (n + k * n)%nat. lia.
Qed.

(** With batches of two or more, and more queries than one batch holds, nothing
    is ever written for the last query. *)
Lemma batch_last n sched qs : any_schedule sched -> (2 <= n)%nat -> (n < length qs)%nat ->
  nth_error (search_by_parallel f none n sched qs) (length qs - 1) = Some none.
Proof.
  intros AS N2 NL. unfold search_by_parallel.
  assert (B : forall t, In t (sched (number (split_queries n qs))) -> (fst t + length (snd t) <= length qs - 1)%nat).
  { intros [k part] T. eapply Permutation_in in T; [|apply AS]. apply number_in in T. destruct T as [_ T].
    rewrite Nat.sub_0_r in T. unfold split_queries in T. apply slices_size in T. cbn [fst snd]. destruct T as [T1 T2].
    destruct k as [|k]; [simpl; lia|]. nia. }
  assert (Z : nth_error (map (fun _ => none) qs) (length qs - 1) = Some none).
  { rewrite nth_error_map. destruct (nth_error qs (length qs - 1)) eqn:E; [reflexivity|].
    apply nth_error_None in E. lia. }
  rewrite <- Z. clear Z. generalize (map (fun _ : Q => none) qs) as res.
  induction (sched (number (split_queries n qs))) as [|t ts IH]; intro res; simpl; [reflexivity|].
  rewrite IH; [|intros t' T; apply B; right; exact T]. apply place_after. rewrite map_length.
  apply B. left. reflexivity.
Qed.

End Batch.

Lemma merge_case :
  the_nearest 2 [(1, 5); (2, 3); (3, 9)] [(2, 3); (1, 5)] /\ the_nearest 2 [(7, 4)] [(7, 4)] /\
  merge_hits 2 [(2, 3); (1, 5)] [(7, 4)] = [(2, 3); (7, 4)].
Proof.
  split; [|split; [|reflexivity]].
  - split; [reflexivity|]. split.
    + constructor; [constructor; [constructor|constructor]|]. constructor; [simpl; lia|constructor].
    + exists [(3, 9)]. split; [apply perm_swap|]. intros x y [<-|[<-|[]]] [<-|[]]; simpl; lia.
  - split; [reflexivity|]. split; [constructor; constructor|]. exists []. split; [apply Permutation_refl|]. intros x y _ [].
Qed.

Lemma batch_case : search_by_parallel (fun q => Some (q * 10)) None 1 (@rev _) [1; 2; 3] = [Some 10; Some 20; Some 30] /\
  search_by_parallel (fun q => Some (q * 10)) None 2 (@rev _) [1; 2; 3] = [Some 10; Some 20; None].
Proof. split; reflexivity. Qed.
