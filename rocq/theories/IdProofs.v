From Coq Require Import ZArith List Bool Sorted Lia Arith Permutation.
From Verif Require Import IdModel IdSpec.
Import ListNotations.
Open Scope Z_scope.

Lemma fput_same m k v : fput m k v k = Some v.
Proof. unfold fput. now rewrite Z.eqb_refl. Qed.
Lemma fput_other m k v x : x <> k -> fput m k v x = m x.
Proof. unfold fput. intros H. destruct (Z.eqb_spec x k); [contradiction|reflexivity]. Qed.

Ltac nothing := repeat match goal with |- _ /\ _ => split end; solve [intros ? [] | constructor].

(** ** one request *)

Lemma next_id_spec d k : consistent d -> 0 < k ->
  let '(d', v) := next_id d k in
  consistent d' /\ fg d' k = Some v /\ (forall x, x <> k -> fg d' x = fg d x) /\
  (forall x, fg d k = Some x -> v = x + 1) /\ (fg d k = None -> v = kIdMin + 1).
Proof.
  intros C K. unfold next_id, modify, inner_next. destruct (Z.leb_spec k 0); [lia|].
  rewrite <- (C k). destruct (fg d k) as [x|] eqn:E; cbn [Z.eqb]; cbn [fst snd fg bg].
  - repeat split.
    + intros y. cbn [fg bg]. unfold fput. destruct (y =? k); [reflexivity|]. symmetry. apply C.
    + cbn [fg]. apply fput_same.
    + intros y N. cbn [fg]. rewrite fput_other by exact N. symmetry. apply C.
    + intros y H1. injection H1 as <-. reflexivity.
    + discriminate.
  - repeat split.
    + intros y. cbn [fg bg]. unfold fput. destruct (y =? k); [reflexivity|]. symmetry. apply C.
    + cbn [fg]. apply fput_same.
    + intros y N. cbn [fg]. rewrite fput_other by exact N. symmetry. apply C.
    + discriminate.
Qed.

Lemma ids_from_nonempty base n : 0 < n -> ids_from base n <> [].
Proof.
  intros H. unfold ids_from. destruct (Z.to_nat n) as [|m] eqn:E; [lia|]. cbn. discriminate.
Qed.

Lemma next_ids_spec d k n : consistent d -> 0 < k -> 0 < n <= kMaxBatch ->
  let '(d', vs) := next_ids d k n in
  exists base, consistent d' /\ fg d' k = Some (base + n) /\ (forall x, x <> k -> fg d' x = fg d x) /\
  vs = ids_from base n /\ (forall x, fg d k = Some x -> base = x) /\ (fg d k = None -> base = kIdMin).
Proof.
  intros C K N. unfold next_ids, modify, inner_nexts.
  destruct (Z.leb_spec n 0); [lia|]. destruct (Z.leb_spec k 0); [lia|].
  destruct (Z.ltb_spec kMaxBatch n); [lia|]. cbn [orb].
  rewrite <- (C k). destruct (fg d k) as [x|] eqn:E.
  - exists x. cbn [Z.eqb].
    destruct (([] ++ ids_from x n)) as [|a l] eqn:F.
    { exfalso. apply (ids_from_nonempty x n); [lia|exact F]. }
    cbn [app] in F. repeat split.
    + intros y. cbn [fg bg]. unfold fput. destruct (y =? k); [reflexivity|]. symmetry. apply C.
    + cbn [fg]. apply fput_same.
    + intros y Ny. cbn [fg]. rewrite fput_other by exact Ny. symmetry. apply C.
    + symmetry. exact F.
    + intros y H2. injection H2 as <-. reflexivity.
    + discriminate.
  - exists kIdMin. cbn [Z.eqb].
    destruct (([] ++ ids_from kIdMin n)) as [|a l] eqn:F.
    { exfalso. apply (ids_from_nonempty kIdMin n); [lia|exact F]. }
    cbn [app] in F. repeat split.
    + intros y. cbn [fg bg]. unfold fput. destruct (y =? k); [reflexivity|]. symmetry. apply C.
    + cbn [fg]. apply fput_same.
    + intros y Ny. cbn [fg]. rewrite fput_other by exact Ny. symmetry. apply C.
    + symmetry. exact F.
    + discriminate.
Qed.

Lemma update_spec d k v : consistent d -> 0 < k ->
  let '(d', r) := update_present d k v in
  consistent d' /\ (forall x, x <> k -> fg d' x = fg d x) /\
  ((r = 1 /\ fg d' k = Some v /\ (forall x, fg d k = Some x -> x < v)) \/
   (r = 0 /\ exists x, fg d k = Some x /\ fg d' k = Some x /\ v <= x)).
Proof.
  intros C K. unfold update_present, modify, inner_update. destruct (Z.leb_spec k 0); [lia|].
  rewrite <- (C k). destruct (fg d k) as [x|] eqn:E.
  - destruct (Z.ltb_spec x v); cbn [Z.eqb].
    + split; [|split; [|left; split; [reflexivity|split]]].
      * intros y. cbn [fg bg]. unfold fput. destruct (y =? k); [reflexivity|]. symmetry. apply C.
      * intros y Ny. cbn [fg]. rewrite fput_other by exact Ny. symmetry. apply C.
      * cbn [fg]. apply fput_same.
      * intros y H1. injection H1 as <-. assumption.
    + split; [|split; [|right; split; [reflexivity|]]].
      * intros y. cbn [fg bg]. apply C.
      * reflexivity.
      * exists x. cbn [fg]. auto.
  - cbn [Z.eqb]. split; [|split; [|left; split; [reflexivity|split]]].
    + intros y. cbn [fg bg]. unfold fput. destruct (y =? k); [reflexivity|]. symmetry. apply C.
    + intros y Ny. cbn [fg]. rewrite fput_other by exact Ny. symmetry. apply C.
    + cbn [fg]. apply fput_same.
    + discriminate.
Qed.

Lemma update_nonpos d k v : k <= 0 -> update_present d k v = (d, -1).
Proof. intros H. unfold update_present. destruct (Z.leb_spec k 0); [reflexivity|lia]. Qed.

(** ** requests of any key *)

Lemma ids_from_in base n v : In v (ids_from base n) -> base < v <= base + n.
Proof.
  unfold ids_from. intros I. apply in_map_iff in I. destruct I as [i [E I]]. apply in_seq in I. lia.
Qed.

Lemma sorted_map_seq base a m : StronglySorted Z.lt (map (fun i => base + Z.of_nat i + 1) (seq a m)).
Proof.
  revert a. induction m as [|m IH]; intros a; cbn [seq map]; constructor.
  - apply IH.
  - apply Forall_forall. intros x I. apply in_map_iff in I. destruct I as [i [E I]]. apply in_seq in I. lia.
Qed.

Lemma last_in {A} (l : list A) d : l <> [] -> In (last l d) l.
Proof.
  intros N. destruct (exists_last N) as [l' [x E]]. subst l. rewrite last_last. apply in_or_app. right. now left.
Qed.

Lemma fold_max_ge l a : a <= fold_left Z.max l a /\ (forall v, In v l -> v <= fold_left Z.max l a).
Proof.
  revert a. induction l as [|x l IH]; intros a; cbn [fold_left].
  - split; [lia|]. intros v [].
  - destruct (IH (Z.max a x)) as [H1 H2]. split; [lia|]. intros v [<-|I]; [lia|]. apply H2, I.
Qed.

Lemma fold_max_le l a b : a <= b -> (forall v, In v l -> v <= b) -> fold_left Z.max l a <= b.
Proof.
  revert a. induction l as [|x l IH]; intros a H F; cbn [fold_left]; [exact H|].
  apply IH.
  - apply Z.max_lub; [exact H|]. apply F. now left.
  - intros v I. apply F. now right.
Qed.

Lemma ids_of_app k a b : ids_of k (a ++ b) = ids_of k a ++ ids_of k b.
Proof. unfold ids_of. now rewrite filter_app, map_app. Qed.

Lemma ids_of_same k vs : ids_of k (map (fun v => (k, v)) vs) = vs.
Proof.
  unfold ids_of. induction vs as [|v vs IH]; [reflexivity|]. cbn. rewrite Z.eqb_refl. cbn. f_equal. exact IH.
Qed.

Lemma ids_of_other k k' vs : k' <> k -> ids_of k (map (fun v => (k', v)) vs) = [].
Proof.
  intros N. unfold ids_of. induction vs as [|v vs IH]; [reflexivity|]. cbn.
  destruct (Z.eqb_spec k' k); [contradiction|]. exact IH.
Qed.

Lemma ids_of_in k v out : In v (ids_of k out) <-> In (k, v) out.
Proof.
  unfold ids_of. rewrite in_map_iff. split.
  - intros [[a b] [E I]]. apply filter_In in I. destruct I as [I H]. cbn in E, H. apply Z.eqb_eq in H. subst. exact I.
  - intros I. exists (k, v). split; [reflexivity|]. apply filter_In. split; [exact I|]. cbn. apply Z.eqb_refl.
Qed.

(** what one request does to the counter of key [k] *)
Lemma alloc_spec d q k : consistent d -> 0 < k ->
  let '(d', out, ups) := alloc d q in
  consistent d' /\
  (forall x, fg d k = Some x -> exists y, fg d' k = Some y /\ x <= y /\ (forall v, In (k, v) out -> x < v)) /\
  (forall v, In (k, v) out -> at_least d' k v /\ 0 < areq_key q) /\
  (forall v, In (k, v) ups -> at_least d' k v) /\
  (forall v, In (k, v) out -> exists w, In (k, w) ups /\ v <= w) /\
  StronglySorted Z.lt (ids_of k out) /\
  (forall v, In (k, v) out -> present d k < v).
Proof.
  intros C K. destruct q as [k0|k0 n|k0 v0]; cbn [alloc].
  - destruct (Z_le_gt_dec k0 0) as [L|G].
    + unfold next_id. destruct (Z.leb_spec k0 0) as [_|]; [|lia].
      split; [exact C|]. split.
      { intros x E. exists x. split; [exact E|]. split; [lia|]. intros v [H|[]]. injection H. intros. lia. }
      split. { intros v [H|[]]. injection H. intros. lia. }
      split. { intros v [H|[]]. injection H. intros. lia. }
      split. { intros v [H|[]]. injection H. intros. lia. }
      split.
      { unfold ids_of. cbn. destruct (Z.eqb_spec k0 k); [lia|]. constructor. }
      intros v [H|[]]. injection H. intros. lia.
    + pose proof (next_id_spec d k0 C ltac:(lia)) as S. destruct (next_id d k0) as [d' v'].
      destruct S as [C' [E' [O [Hs Hn]]]]. split; [exact C'|].
      destruct (Z.eq_dec k k0) as [->|N].
      * split.
        { intros x E. exists v'. split; [exact E'|]. rewrite (Hs x E). split; [lia|].
          intros v [H|[]]. injection H. intros. lia. }
        split. { intros v [H|[]]. injection H as <-. split; [|cbn [areq_key]; lia]. exists v'. split; [exact E'|lia]. }
        split. { intros v [H|[]]. injection H as <-. exists v'. split; [exact E'|lia]. }
        split. { intros v [H|[]]. injection H as <-. exists v'. split; [now left|lia]. }
        split. { unfold ids_of. cbn. rewrite Z.eqb_refl. repeat constructor. }
        intros v [H|[]]. injection H as <-. unfold present. destruct (fg d k0) as [x|] eqn:E.
        { rewrite (Hs x eq_refl). lia. } rewrite (Hn eq_refl). unfold kIdMin. lia.
      * split.
        { intros x E. exists x. rewrite (O k N). split; [exact E|]. split; [lia|].
          intros v [H|[]]. injection H. intros. congruence. }
        split. { intros v [H|[]]. injection H. intros. congruence. }
        split. { intros v [H|[]]. injection H. intros. congruence. }
        split. { intros v [H|[]]. injection H. intros. congruence. }
        split. { unfold ids_of. cbn. destruct (Z.eqb_spec k0 k); [congruence|]. constructor. }
        intros v [H|[]]. injection H. intros. congruence.
  - destruct ((n <=? 0) || (k0 <=? 0) || (kMaxBatch <? n)) eqn:B.
    + unfold next_ids. rewrite B. cbn [map].
      split; [exact C|]. split.
      { intros x E. exists x. split; [exact E|]. split; [lia|]. intros v []. }
      nothing.
    + apply orb_false_elim in B. destruct B as [B B3]. apply orb_false_elim in B. destruct B as [B1 B2].
      apply Z.leb_gt in B1. apply Z.leb_gt in B2. apply Z.ltb_ge in B3.
      pose proof (next_ids_spec d k0 n C B2 (conj B1 B3)) as S. destruct (next_ids d k0 n) as [d' vs].
      destruct S as [base [C' [E' [O [-> [Hs Hn]]]]]]. split; [exact C'|].
      assert (NE := ids_from_nonempty base n B1).
      assert (UP : exists w, (forall v, In v (ids_from base n) -> v <= w) /\ w <= base + n /\
                 match ids_from base n with [] => [] | _ => [(k0, fold_left Z.max (ids_from base n) (last (ids_from base n) 0))] end = [(k0, w)]).
      { exists (fold_left Z.max (ids_from base n) (last (ids_from base n) 0)). split.
        - apply fold_max_ge.
        - split.
          + apply fold_max_le.
            * apply (ids_from_in base n). apply last_in, NE.
            * intros v I. apply (ids_from_in base n v I).
          + destruct (ids_from base n); [congruence|reflexivity]. }
      destruct UP as [w [W1 [W2 ->]]].
      destruct (Z.eq_dec k k0) as [->|N].
      * assert (I' : forall v, In (k0, v) (map (fun v => (k0, v)) (ids_from base n)) -> In v (ids_from base n)).
        { intros v I. apply in_map_iff in I. destruct I as [u [Eu I]]. injection Eu as ->. exact I. }
        split.
        { intros x E. exists (base + n). split; [exact E'|]. rewrite (Hs x E) in *. split; [lia|].
          intros v I. apply I' in I. apply ids_from_in in I. lia. }
        split. { intros v I. apply I' in I. apply ids_from_in in I. split; [|cbn [areq_key]; lia].
                 exists (base + n). split; [exact E'|lia]. }
        split. { intros v [H|[]]. injection H as <-. exists (base + n). split; [exact E'|lia]. }
        split. { intros v I. apply I' in I. exists w. split; [now left|]. apply W1, I. }
        split. { rewrite ids_of_same. apply sorted_map_seq. }
        intros v I. apply I' in I. apply ids_from_in in I. unfold present.
        destruct (fg d k0) as [x|] eqn:E; [rewrite (Hs x eq_refl) in I|rewrite (Hn eq_refl) in I; unfold kIdMin in I]; lia.
      * assert (I' : forall v, ~ In (k, v) (map (fun v => (k0, v)) (ids_from base n))).
        { intros v I. apply in_map_iff in I. destruct I as [u [Eu I]]. injection Eu. intros. congruence. }
        split.
        { intros x E. exists x. rewrite (O k N). split; [exact E|]. split; [lia|]. intros v I. destruct (I' v I). }
        split. { intros v I. destruct (I' v I). }
        split. { intros v [H|[]]. injection H. intros. congruence. }
        split. { intros v I. destruct (I' v I). }
        split. { rewrite ids_of_other by congruence. constructor. }
        intros v I. destruct (I' v I).
  - destruct (Z_le_gt_dec k0 0) as [L|G].
    + rewrite update_nonpos by exact L. split; [exact C|]. split.
      { intros x E. exists x. split; [exact E|]. split; [lia|]. intros v []. }
      split; [intros v []|]. split. { intros v [H|[]]. injection H. intros. lia. }
      nothing.
    + pose proof (update_spec d k0 v0 C ltac:(lia)) as S. destruct (update_present d k0 v0) as [d' r].
      destruct S as [C' [O S]]. split; [exact C'|].
      destruct (Z.eq_dec k k0) as [->|N].
      * split.
        { intros x E. destruct S as [[-> [E' H]]|[-> [y [Ey [E' H]]]]].
          - exists v0. split; [exact E'|]. specialize (H x E). split; [lia|intros v []].
          - exists y. split; [exact E'|]. rewrite E in Ey. injection Ey as <-. split; [lia|intros v []]. }
        split; [intros v []|]. split.
        { intros v [H|[]]. injection H as <-. destruct S as [[-> [E' _]]|[-> [y [_ [E' L]]]]]; eexists; split; eauto; lia. }
        nothing.
      * split.
        { intros x E. exists x. rewrite (O k N). split; [exact E|]. split; [lia|]. intros v []. }
        split; [intros v []|]. split. { intros v [H|[]]. injection H. intros. congruence. }
        nothing.
Qed.

(** ** several requests *)

Lemma at_least_step d d' k v :
  (forall x, fg d k = Some x -> exists y, fg d' k = Some y /\ x <= y) -> at_least d k v -> at_least d' k v.
Proof. intros H [x [E L]]. destruct (H x E) as [y [E' L']]. exists y. split; [exact E'|lia]. Qed.

Lemma sorted_app (l1 l2 : list Z) : StronglySorted Z.lt l1 -> StronglySorted Z.lt l2 ->
  (forall a b, In a l1 -> In b l2 -> a < b) -> StronglySorted Z.lt (l1 ++ l2).
Proof.
  induction l1 as [|x l1 IH]; cbn; intros H1 H2 H; [exact H2|].
  inversion H1; subst. constructor.
  - apply IH; auto.
  - apply Forall_app. split; [assumption|]. apply Forall_forall. intros b I. apply H; [now left|exact I].
Qed.

Lemma allocs_spec k qs : 0 < k -> forall d, consistent d ->
  let '(d', out, ups) := allocs d qs in
  consistent d' /\
  (forall x, fg d k = Some x -> exists y, fg d' k = Some y /\ x <= y /\ (forall v, In (k, v) out -> x < v)) /\
  (forall v, In (k, v) out -> at_least d' k v) /\
  (forall v, In (k, v) ups -> at_least d' k v) /\
  (forall v, In (k, v) out -> exists w, In (k, w) ups /\ v <= w) /\
  StronglySorted Z.lt (ids_of k out).
Proof.
  intros K. induction qs as [|q qs IH]; intros d C; cbn [allocs].
  - split; [exact C|]. split.
    { intros x E. exists x. split; [exact E|]. split; [lia|]. intros v []. }
    nothing.
  - pose proof (alloc_spec d q k C K) as S. destruct (alloc d q) as [[d1 o1] u1].
    destruct S as [C1 [M1 [A1 [U1 [W1 [S1 _]]]]]]. specialize (IH d1 C1).
    destruct (allocs d1 qs) as [[d2 o2] u2]. destruct IH as [C2 [M2 [A2 [U2 [W2 S2]]]]].
    assert (ST : forall v, at_least d1 k v -> at_least d2 k v).
    { intros v. apply at_least_step. intros x E. destruct (M2 x E) as [y [E' [L _]]]. eauto. }
    assert (GT : forall v w, at_least d1 k v -> In (k, w) o2 -> v < w).
    { intros v w [x [E L]] I. destruct (M2 x E) as [y [_ [_ H]]]. specialize (H w I). lia. }
    split; [exact C2|]. split.
    { intros x E. destruct (M1 x E) as [y [E1 [L1 H1]]]. destruct (M2 y E1) as [z [E2 [L2 H2]]].
      exists z. split; [exact E2|]. split; [lia|]. intros v I. apply in_app_or in I.
      destruct I as [I|I]; [now apply H1|]. specialize (H2 v I). lia. }
    split. { intros v I. apply in_app_or in I. destruct I as [I|I]; [apply ST, (proj1 (A1 v I))|apply A2, I]. }
    split. { intros v I. apply in_app_or in I. destruct I as [I|I]; [apply ST, U1, I|apply U2, I]. }
    split. { intros v I. apply in_app_or in I. destruct I as [I|I];
             [destruct (W1 v I) as [w [Iw L]]|destruct (W2 v I) as [w [Iw L]]]; exists w; split; auto;
             apply in_or_app; auto. }
    rewrite ids_of_app. apply sorted_app; auto. intros a b Ia Ib. apply ids_of_in in Ia. apply ids_of_in in Ib.
    apply (GT a b); [apply (proj1 (A1 a Ia))|exact Ib].
Qed.

Lemma allocs_app qs1 qs2 d :
  allocs d (qs1 ++ qs2) =
  let '(d1, o1, u1) := allocs d qs1 in let '(d2, o2, u2) := allocs d1 qs2 in (d2, o1 ++ o2, u1 ++ u2).
Proof.
  revert d. induction qs1 as [|q qs1 IH]; intros d; cbn [app allocs].
  - destruct (allocs d qs2) as [[d2 o2] u2]. reflexivity.
  - destruct (alloc d q) as [[d1 o1] u1]. rewrite IH. destruct (allocs d1 qs1) as [[d2 o2] u2].
    destruct (allocs d2 qs2) as [[d3 o3] u3]. now rewrite !app_assoc.
Qed.

Lemma map_increasing d qs d' out ups k : consistent d -> 0 < k -> allocs d qs = (d', out, ups) ->
  StronglySorted Z.lt (ids_of k out) /\ (forall v w, at_least d k v -> In (k, w) out -> v < w).
Proof.
  intros C K E. pose proof (allocs_spec k qs K d C) as S. rewrite E in S.
  destruct S as [_ [M [_ [_ [_ S]]]]]. split; [exact S|].
  intros v w [x [Ex L]] I. destruct (M x Ex) as [y [_ [_ H]]]. specialize (H w I). lia.
Qed.

Lemma map_floor d qs1 q qs2 d1 o1 u1 d2 o2 u2 k v w : consistent d -> 0 < k ->
  allocs d (qs1 ++ [q]) = (d1, o1, u1) -> allocs d1 qs2 = (d2, o2, u2) ->
  (q = AUpdate k v \/ In (k, v) o1) -> In (k, w) o2 -> v < w.
Proof.
  intros C K E1 E2 H I. pose proof (allocs_spec k (qs1 ++ [q]) K d C) as S. rewrite E1 in S.
  destruct S as [C1 [_ [A1 [U1 _]]]]. destruct (map_increasing d1 qs2 d2 o2 u2 k C1 K E2) as [_ G].
  apply (G v w); [|exact I]. destruct H as [->|H]; [|apply A1, H]. apply U1.
  rewrite allocs_app in E1. destruct (allocs d qs1) as [[d0 o0] u0]. cbn [allocs] in E1.
  cbn [alloc] in E1. destruct (update_present d0 k v) as [d5 r]. injection E1 as _ _ <-.
  apply in_or_app. right. now left.
Qed.

(** ** the group *)

Definition holds_all (m : fmap) (l : list incr) : Prop :=
  forall e k v, In e l -> In (k, v) (i_updates e) -> 0 < k -> exists x, m k = Some x /\ v <= x.

Record ninv (log : list incr) (n : cnode) : Prop := {
  n_cons : consistent (sm n);
  n_tcons : consistent (temp n);
  n_app : (applied n <= length log)%nat;
  n_sm : holds_all (fg (sm n)) (firstn (applied n) log);
  n_disk : forall e k v, In e (firstn (applied n) log) -> In (k, v) (i_updates e) -> 0 < k ->
           (exists x, disk n k = Some x /\ v <= x) \/ (exists f, In (k, f) floors /\ v <= f);
  n_floor : forall k f, In (k, f) floors -> exists x, fg (sm n) k = Some x /\ f <= x;
  n_dfloor : forall k f x, In (k, f) floors -> disk n k = Some x -> f <= x;
  n_src : forall k x, fg (sm n) k = Some x -> disk n k = Some x \/ In (k, x) floors
}.

Definition good_incr (e : incr) : Prop := forall k v, In (k, v) (i_ids e) -> 0 < k /\ exists w, In (k, w) (i_updates e) /\ v <= w.

Record sinv (s : csys) : Prop := {
  s_nodes : forall i, ninv (clog s) (nodes s i);
  s_good : Forall good_incr (clog s ++ pending s);
  s_nodup : NoDup (flat_map i_ids (clog s ++ pending s));
  s_leader : forall i, leader s = Some i ->
     if ready s then holds_all (fg (temp (nodes s i))) (clog s ++ pending s)
     else pending s = [] /\ applied (nodes s i) = length (clog s)
}.

Lemma floors_pos k f : In (k, f) floors -> 0 < k /\ 0 < f.
Proof. cbn. intros H. repeat (destruct H as [H|H]; [injection H as <- <-; lia|]). destruct H. Qed.
Lemma floors_fun k f g : In (k, f) floors -> In (k, g) floors -> f = g.
Proof.
  cbn. intros H1 H2.
  repeat (destruct H1 as [H1|H1]; [injection H1 as <- <-;
    repeat (destruct H2 as [H2|H2]; [congruence|]); destruct H2|]). destruct H1.
Qed.

Lemma consistent_both m : consistent (both m).
Proof. intros k. reflexivity. Qed.

(** InitIds raises the counters that are missing (or zero) to their initial values *)
Lemma init_fold fl : forall d, consistent d ->
  (forall k f, In (k, f) fl -> 0 < k /\ 0 < f) -> (forall k f g, In (k, f) fl -> In (k, g) fl -> f = g) ->
  let d' := fold_left (fun d '(k, v) => if present d k =? 0 then fst (update_present d k v) else d) fl d in
  consistent d' /\
  (forall k x, fg d' k = Some x -> fg d k = Some x \/ In (k, x) fl) /\
  (forall k x, fg d k = Some x -> x <> 0 -> fg d' k = Some x) /\
  (forall k x, fg d k = Some x -> exists y, fg d' k = Some y /\ x <= y) /\
  (forall k f, In (k, f) fl -> (fg d k = None \/ fg d k = Some 0) -> fg d' k = Some f).
Proof.
  induction fl as [|[k0 f0] fl IH]; intros d C P F; cbn [fold_left].
  - cbv zeta. split; [exact C|]. split; [auto|]. split; [auto|]. split; [intros k x E; exists x; split; [exact E|lia]|]. intros k f [].
  - destruct (P k0 f0 (or_introl eq_refl)) as [P1 P2].
    set (d1 := if present d k0 =? 0 then fst (update_present d k0 f0) else d).
    assert (S1 : consistent d1 /\ (forall x, x <> k0 -> fg d1 x = fg d x) /\
       ((fg d k0 = None \/ fg d k0 = Some 0) -> fg d1 k0 = Some f0) /\
       (forall x, fg d k0 = Some x -> x <> 0 -> fg d1 k0 = Some x)).
    { unfold d1, present. pose proof (update_spec d k0 f0 C P1) as S. destruct (update_present d k0 f0) as [d' r].
      destruct S as [C' [O S]]. destruct (fg d k0) as [x|] eqn:E.
      - destruct (Z.eqb_spec x 0) as [->|NE]; cbn [fst].
        + split; [exact C'|]. split; [exact O|]. split.
          * intros _. destruct S as [[-> [E' _]]|[-> [y [Ey [_ L]]]]]; [exact E'|]. injection Ey as <-. lia.
          * intros x H. injection H as <-. congruence.
        + split; [exact C|]. split; [auto|]. split; [intros [H|H]; congruence|]. intros y H _. congruence.
      - rewrite Z.eqb_refl. cbn [fst]. split; [exact C'|]. split; [exact O|]. split; [|discriminate].
        intros _. destruct S as [[-> [E' _]]|[-> [y [Ey _]]]]; [exact E'|discriminate]. }
    destruct S1 as [C1 [O1 [N1 K1]]].
    specialize (IH d1 C1 (fun k f H => P k f (or_intror H)) (fun k f g H1 H2 => F k f g (or_intror H1) (or_intror H2))).
    cbv zeta in IH. destruct IH as [C2 [Src [Keep [Mon Fl]]]]. cbv zeta. split; [exact C2|]. split.
    { intros k x E. destruct (Src k x E) as [H|H]; [|right; right; exact H].
      destruct (Z.eq_dec k k0) as [->|NE]; [|rewrite O1 in H by exact NE; now left].
      destruct (fg d k0) as [y|] eqn:Ed.
      - destruct (Z.eq_dec y 0) as [->|Ny].
        + rewrite N1 in H by auto. injection H as <-. right. left. reflexivity.
        + rewrite (K1 y eq_refl Ny) in H. left. exact H.
      - rewrite N1 in H by auto. injection H as <-. right. left. reflexivity. }
    split.
    { intros k x E NE. apply Keep; [|exact NE]. destruct (Z.eq_dec k k0) as [->|Nk]; [apply K1; auto|].
      rewrite O1 by exact Nk. exact E. }
    split.
    { intros k x E. destruct (Z.eq_dec k k0) as [->|Nk].
      - destruct (Z.eq_dec x 0) as [->|Nx].
        + destruct (Mon k0 f0 (N1 (or_intror E))) as [y [Ey L]]. exists y. split; [exact Ey|lia].
        + apply Mon. apply K1; auto.
      - apply Mon. rewrite O1 by exact Nk. exact E. }
    intros k f I H. destruct (Z.eq_dec k k0) as [->|Nk].
    + assert (f = f0) as -> by (apply (F k0); [exact I|now left]). apply Keep; [|lia]. apply N1, H.
    + destruct I as [I|I]; [injection I as <- <-; congruence|]. apply (Fl k f I). rewrite O1 by exact Nk. exact H.
Qed.

Lemma holds_all_app m l1 l2 : holds_all m (l1 ++ l2) <-> holds_all m l1 /\ holds_all m l2.
Proof.
  split.
  - intros H. split; intros e k v I J K; apply (H e k v); auto; apply in_or_app; auto.
  - intros [H1 H2] e k v I. apply in_app_or in I. destruct I; [apply (H1 e)|apply (H2 e)]; assumption.
Qed.

(** the node invariant survives a growing log *)
Lemma ninv_log log x n : ninv log n -> ninv (log ++ [x]) n.
Proof.
  intros [H1 H2 H3 H4 H5 H6 H7 H8].
  assert (E : firstn (applied n) (log ++ [x]) = firstn (applied n) log).
  { rewrite firstn_app. replace (applied n - length log)%nat with 0%nat by lia. cbn. apply app_nil_r. }
  constructor; try assumption.
  - rewrite app_length. cbn. lia.
  - rewrite E. exact H4.
  - rewrite E. exact H5.
Qed.

(** ** applying an increment *)

Record pre (us : list (Z * Z)) (n : cnode) (done : Z -> Z -> Prop) : Prop := {
  p_cons : consistent (sm n); p_tcons : consistent (temp n);
  p_sm : forall k v, done k v -> 0 < k -> exists x, fg (sm n) k = Some x /\ v <= x;
  p_disk : forall k v, done k v -> 0 < k ->
     (exists x, disk n k = Some x /\ v <= x) \/ (exists f, In (k, f) floors /\ v <= f);
  p_floor : forall k f, In (k, f) floors -> exists x, fg (sm n) k = Some x /\ f <= x;
  p_dfloor : forall k f x, In (k, f) floors -> disk n k = Some x -> f <= x;
  p_src : forall k x, fg (sm n) k = Some x -> disk n k = Some x \/ In (k, x) floors
}.

Lemma pre_step us n done u : pre us n done ->
  pre us (apply_update n u) (fun k v => done k v \/ (k, v) = u).
Proof.
  intros [H1 H2 H3 H4 H5 H6 H7]. destruct u as [k0 v0]. unfold apply_update. cbn [fst snd].
  destruct (Z_le_gt_dec k0 0) as [L|G].
  - rewrite update_nonpos by exact L. cbn [Z.ltb Z.compare]. constructor; cbn [sm temp disk]; auto.
    + intros k v [D|E] K; [auto|]. injection E. intros. lia.
    + intros k v [D|E] K; [auto|]. injection E. intros. lia.
  - pose proof (update_spec (sm n) k0 v0 H1 ltac:(lia)) as S.
    destruct (update_present (sm n) k0 v0) as [d' r]. destruct S as [C' [O S]].
    destruct S as [[-> [E' B]]|[-> [x [Ex [E' L]]]]]; cbn [Z.ltb Z.compare].
    + assert (Mon : forall k v, (exists x, fg (sm n) k = Some x /\ v <= x) -> exists x, fg d' k = Some x /\ v <= x).
      { intros k v [x [Ex L]]. destruct (Z.eq_dec k k0) as [->|N].
        - exists v0. split; [exact E'|]. specialize (B x Ex). lia.
        - exists x. rewrite O by exact N. auto. }
      constructor; cbn [sm temp disk]; auto.
      * intros k v [D|E] K; [apply Mon, H3; auto|]. injection E as -> ->. exists v0. split; [exact E'|lia].
      * intros k v [D|E] K.
        -- destruct (Z.eq_dec k k0) as [->|N].
           ++ left. exists v0. rewrite fput_same. split; [reflexivity|]. destruct (H3 k0 v D K) as [x [Ex L]].
              specialize (B x Ex). lia.
           ++ rewrite fput_other by exact N. auto.
        -- injection E as -> ->. left. exists v0. rewrite fput_same. split; [reflexivity|lia].
      * intros k f x I E. destruct (Z.eq_dec k k0) as [->|N].
        -- rewrite fput_same in E. injection E as <-. destruct (H5 k0 f I) as [x [Ex L]]. specialize (B x Ex). lia.
        -- rewrite fput_other in E by exact N. eauto.
      * intros k x E. destruct (Z.eq_dec k k0) as [->|N].
        -- rewrite E' in E. injection E as <-. left. apply fput_same.
        -- rewrite fput_other by exact N. apply H7. rewrite <- O by exact N. exact E.
    + assert (Eq : forall k, fg d' k = fg (sm n) k).
      { intros k. destruct (Z.eq_dec k k0) as [->|N]; [congruence|apply O, N]. }
      constructor; cbn [sm temp disk]; auto.
      * intros k v [D|E] K; rewrite Eq; [apply H3; auto|]. injection E as -> ->. exists x. auto.
      * intros k v [D|E] K; [auto|]. injection E as -> ->. destruct (H7 k0 x Ex) as [Hd|Hf].
        -- left. exists x. auto.
        -- right. exists x. auto.
      * intros k f I. rewrite Eq. auto.
      * intros k y E. rewrite Eq in E. auto.
Qed.

Lemma pre_fold us0 us : forall n done, pre us0 n done ->
  pre us0 (fold_left apply_update us n) (fun k v => done k v \/ In (k, v) us).
Proof.
  induction us as [|u us IH]; intros n done P; cbn [fold_left].
  - destruct P as [H1 H2 H3 H4 H5 H6 H7]. constructor; auto; intros k v [D|[]] K; auto.
  - specialize (IH _ _ (pre_step us0 n done u P)). destruct IH as [H1 H2 H3 H4 H5 H6 H7].
    constructor; auto.
    + intros k v [D|[E|D]] K; apply H3; auto.
    + intros k v [D|[E|D]] K; apply H4; auto.
Qed.

Lemma fold_temp us : forall n, temp (fold_left apply_update us n) = temp n.
Proof.
  induction us as [|u us IH]; intros n; cbn [fold_left]; [reflexivity|]. rewrite IH.
  unfold apply_update. destruct (update_present (sm n) (fst u) (snd u)). reflexivity.
Qed.

Lemma firstn_S_nth {A} (l : list A) n x : nth_error l n = Some x -> firstn (S n) l = firstn n l ++ [x].
Proof.
  revert n. induction l as [|a l IH]; intros [|n] H; cbn in *; try discriminate.
  - injection H as ->. reflexivity.
  - f_equal. apply IH, H.
Qed.

Lemma ninv_apply log n x : ninv log n -> nth_error log (applied n) = Some x -> ninv log (apply_incr n x).
Proof.
  intros [H1 H2 H3 H4 H5 H6 H7 H8] Hx. unfold apply_incr.
  pose proof (pre_fold (i_updates x) (i_updates x) n
     (fun k v => exists e, In e (firstn (applied n) log) /\ In (k, v) (i_updates e))) as P.
  assert (P0 : pre (i_updates x) n (fun k v => exists e, In e (firstn (applied n) log) /\ In (k, v) (i_updates e))).
  { constructor; auto; intros k v [e [I J]] K; eauto. }
  specialize (P P0). destruct P as [Q1 Q2 Q3 Q4 Q5 Q6 Q7].
  constructor; cbn [sm temp disk applied]; auto.
  - apply nth_error_Some. rewrite Hx. discriminate.
  - rewrite (firstn_S_nth _ _ _ Hx). intros e k v I J K. apply in_app_or in I. destruct I as [I|[<-|[]]]; apply Q3; eauto.
  - rewrite (firstn_S_nth _ _ _ Hx). intros e k v I J K. apply in_app_or in I. destruct I as [I|[<-|[]]]; apply Q4; eauto.
Qed.

Lemma ninv_recover log n : ninv log n -> ninv log (recover_node n).
Proof.
  intros [H1 H2 H3 H4 H5 H6 H7 H8]. unfold recover_node.
  pose proof (init_fold floors (both (disk n)) (consistent_both _) floors_pos floors_fun) as S. cbv zeta in S.
  fold (init_ids (both (disk n))) in S. destruct S as [C [Src [Keep [Mon Fl]]]].
  assert (FL : forall k f, In (k, f) floors -> exists x, fg (init_ids (both (disk n))) k = Some x /\ f <= x).
  { intros k f I. destruct (disk n k) as [x|] eqn:E.
    - assert (L := H7 k f x I E). destruct (floors_pos k f I) as [_ Pf]. exists x. split; [|exact L]. apply Keep; [exact E|lia].
    - exists f. split; [|lia]. apply (Fl k f I). left. exact E. }
  constructor; cbn [sm temp disk applied]; auto.
  - apply consistent_both.
  - intros e k v I J K. destruct (H5 e k v I J K) as [[x [E L]]|[f [If L]]].
    + destruct (Mon k x E) as [y [Ey Ly]]. exists y. split; [exact Ey|lia].
    + destruct (FL k f If) as [x [E Lx]]. exists x. split; [exact E|lia].
Qed.

Lemma ninv_load log n m : ninv log n -> ninv log m -> (forall k f, In (k, f) floors -> disk m k <> None) ->
  ninv log (load_snapshot n m).
Proof.
  intros _ [H1 H2 H3 H4 H5 H6 H7 H8] F. unfold load_snapshot.
  assert (FL : forall k f, In (k, f) floors -> exists x, disk m k = Some x /\ f <= x).
  { intros k f I. specialize (F k f I). destruct (disk m k) as [x|] eqn:E; [|congruence]. exists x. split; [reflexivity|eauto]. }
  constructor; cbn [sm temp disk applied both fg]; auto.
  - apply consistent_both.
  - apply consistent_both.
  - intros e k v I J K. destruct (H5 e k v I J K) as [H|[f [If L]]]; [exact H|].
    destruct (FL k f If) as [x [E Lx]]. exists x. split; [exact E|lia].
Qed.

Lemma ninv_build log n : ninv log n -> ninv log (build_temp n).
Proof. intros [H1 H2 H3 H4 H5 H6 H7 H8]. constructor; cbn [sm temp disk applied build_temp]; auto. apply consistent_both. Qed.

(** ** the invariant over executions *)

Lemma set_node_same f i n : set_node f i n i = n.
Proof. unfold set_node. now rewrite Nat.eqb_refl. Qed.

Lemma set_node_inv log f i n : (forall j, ninv log (f j)) -> ninv log n -> forall j, ninv log (set_node f i n j).
Proof. intros H Hn j. unfold set_node. destruct (j =? i)%nat; auto. Qed.

Lemma is_leader_true s i : is_leader s i = true -> leader s = Some i.
Proof. unfold is_leader. destruct (leader s) as [j|]; [|discriminate]. intros H. apply Nat.eqb_eq in H. now subst. Qed.

Lemma remove_nth_perm {A} (l : list A) p x : nth_error l p = Some x -> Permutation l (x :: remove_nth p l).
Proof.
  revert p. induction l as [|a l IH]; intros [|p] H; cbn in *; try discriminate.
  - injection H as ->. reflexivity.
  - rewrite (IH p H) at 1. apply perm_swap.
Qed.

Lemma flat_map_perm {A B} (f : A -> list B) l l' : Permutation l l' -> Permutation (flat_map f l) (flat_map f l').
Proof.
  induction 1; cbn; auto.
  - now apply Permutation_app_head.
  - rewrite !app_assoc. apply Permutation_app_tail, Permutation_app_comm.
  - etransitivity; eassumption.
Qed.

Lemma commit_perm {A} (log pend : list A) p x : nth_error pend p = Some x ->
  Permutation (log ++ pend) ((log ++ [x]) ++ remove_nth p pend).
Proof.
  intros H. rewrite <- app_assoc. cbn. apply Permutation_app_head. apply remove_nth_perm, H.
Qed.

Lemma holds_all_perm m l l' : Permutation l l' -> holds_all m l -> holds_all m l'.
Proof. intros P H e k v I. apply H. apply Permutation_sym in P. eapply Permutation_in; eassumption. Qed.

Lemma sorted_nodup l : StronglySorted Z.lt l -> NoDup l.
Proof.
  induction 1 as [|a l S IH F]; constructor; auto. intros I. rewrite Forall_forall in F. specialize (F a I). lia.
Qed.

Lemma nodup_by_key (out : list (Z * Z)) : (forall p, In p out -> 0 < fst p) ->
  (forall k, 0 < k -> NoDup (ids_of k out)) -> NoDup out.
Proof.
  induction out as [|[k v] out IH]; intros P H; constructor.
  - intros I. specialize (H k (P (k, v) (or_introl eq_refl))). unfold ids_of in H. cbn in H. rewrite Z.eqb_refl in H.
    cbn in H. inversion H; subst. apply H2. apply (ids_of_in k v out), I.
  - apply IH; [intros p I; apply P; now right|]. intros k' K. specialize (H k' K). unfold ids_of in *. cbn in H.
    destruct (k =? k'); [cbn in H; inversion H; assumption|exact H].
Qed.

Lemma alloc_keys d q : 0 < areq_key q -> forall p, In p (snd (fst (alloc d q))) -> fst p = areq_key q.
Proof.
  intros K [k v]. destruct q as [k0|k0 n|k0 v0]; cbn [alloc areq_key].
  - destruct (next_id d k0) as [d' v']. cbn. intros [H|[]]. now injection H.
  - destruct (next_ids d k0 n) as [d' vs]. cbn. intros I. apply in_map_iff in I. destruct I as [u [E _]]. now injection E.
  - destruct (update_present d k0 v0). intros [].
Qed.

Lemma allocs_keys qs : Forall (fun q => 0 < areq_key q) qs -> forall d p, In p (snd (fst (allocs d qs))) -> 0 < fst p.
Proof.
  induction 1 as [|q qs K _ IH]; intros d p; cbn [allocs].
  - intros [].
  - pose proof (alloc_keys d q K) as A. destruct (alloc d q) as [[d1 o1] u1]. specialize (IH d1).
    destruct (allocs d1 qs) as [[d2 o2] u2]. cbn in *. intros I. apply in_app_or in I.
    destruct I as [I|I]; [rewrite (A p I); exact K|apply IH, I].
Qed.

Lemma nodup_app {A} (l1 l2 : list A) : NoDup l1 -> NoDup l2 -> (forall x, In x l1 -> In x l2 -> False) -> NoDup (l1 ++ l2).
Proof.
  induction l1 as [|a l1 IH]; cbn; intros H1 H2 H; [exact H2|]. inversion H1; subst. constructor.
  - intros I. apply in_app_or in I. destruct I as [I|I]; [contradiction|]. apply (H a); auto.
  - apply IH; auto. intros x I J. apply (H x); auto.
Qed.

(** ids handed out by a ready leader exceed all ids of committed and outstanding requests *)
Lemma request_fresh s i qs k v w e : sinv s -> leader s = Some i -> ready s = true ->
  In e (clog s ++ pending s) -> In (k, v) (i_ids e) ->
  In (k, w) (snd (fst (allocs (temp (nodes s i)) qs))) -> v < w.
Proof.
  intros [N G D L] Hl Hr I J W. specialize (L i Hl). rewrite Hr in L. rewrite Forall_forall in G.
  destruct (G e I k v J) as [K [u [Iu Lu]]]. destruct (L e k u I Iu K) as [x [Ex Lx]].
  pose proof (allocs_spec k qs K (temp (nodes s i)) (n_tcons _ _ (N i))) as S.
  destruct (allocs (temp (nodes s i)) qs) as [[d out] ups]. destruct S as [_ [M _]].
  destruct (M x Ex) as [y [_ [_ H]]]. specialize (H w W). lia.
Qed.

Lemma cstep_sinv s e : sinv s -> served s e -> sinv (fst (cstep s e)).
Proof.
  intros SI SV. assert (SI0 := SI). destruct SI as [N G D L]. destruct e as [i qs|p|i|i|i j|i|i]; cbn [cstep].
  - destruct SV as [SR SK]. destruct (is_leader s i) eqn:IL; [|exact SI0].
    assert (Hl := is_leader_true s i IL). specialize (SR eq_refl).
    assert (Fresh := fun k v w e => request_fresh s i qs k v w e SI0 Hl SR).
    assert (SP := fun k K => allocs_spec k qs K (temp (nodes s i)) (n_tcons _ _ (N i))).
    assert (KP := allocs_keys qs SK (temp (nodes s i))).
    destruct (allocs (temp (nodes s i)) qs) as [[d out] ups] eqn:EA. cbn [fst snd] in *.
    specialize (L i Hl). rewrite SR in L.
    assert (Gnew : good_incr (mkI ups out)).
    { intros k v I. cbn [i_ids i_updates] in *. assert (K := KP (k, v) I). cbn in K. split; [exact K|].
      destruct (SP k K) as [_ [_ [_ [_ [W _]]]]]. apply W, I. }
    constructor; cbn [clog pending leader ready nodes].
    + apply set_node_inv; [exact N|]. destruct (N i) as [H1 H2 H3 H4 H5 H6 H7 H8].
      constructor; cbn [sm temp disk applied]; auto.
      (* consistency of the scratch map *)
      destruct (SP 1 ltac:(lia)) as [C _]. exact C.
    + rewrite app_assoc. apply Forall_app. split; [exact G|]. constructor; [exact Gnew|constructor].
    + rewrite app_assoc, flat_map_app. cbn [flat_map i_ids]. rewrite app_nil_r. apply nodup_app; [exact D| |].
      * apply nodup_by_key; [exact KP|]. intros k K. destruct (SP k K) as [_ [_ [_ [_ [_ S]]]]]. apply sorted_nodup, S.
      * intros [k v] I J. apply in_flat_map in I. destruct I as [e [Ie Ide]].
        specialize (Fresh k v v e Ie Ide J). lia.
    + intros i' Hl'. rewrite Hl in Hl'. injection Hl' as <-. rewrite SR. rewrite set_node_same. cbn [temp].
      rewrite app_assoc. apply holds_all_app. split.
      * intros e k v I J K. destruct (L e k v I J K) as [x [Ex Lx]].
        destruct (SP k K) as [_ [M _]]. destruct (M x Ex) as [y [Ey [Ly _]]]. exists y. split; [exact Ey|lia].
      * intros e k v [<-|[]] J K. cbn [i_updates] in J. destruct (SP k K) as [_ [_ [_ [U _]]]]. destruct (U v J) as [x H]. eauto.
  - destruct (nth_error (pending s) p) as [x|] eqn:Ep; [|exact SI0].
    assert (PM := commit_perm (clog s) (pending s) p x Ep). cbn [fst].
    constructor; cbn [clog pending leader ready nodes].
    + intros i. apply ninv_log, N.
    + rewrite Forall_forall in *. intros e I. apply G. eapply Permutation_in; [apply Permutation_sym; exact PM|exact I].
    + eapply Permutation_NoDup; [apply flat_map_perm, PM|exact D].
    + intros i Hl. specialize (L i Hl). destruct (ready s).
      * eapply holds_all_perm; eassumption.
      * destruct L as [Lp _]. rewrite Lp in Ep. destruct p; discriminate.
  - destruct (nth_error (clog s) (applied (nodes s i))) as [x|] eqn:Ex; [|exact SI0]. cbn [fst].
    constructor; cbn [clog pending leader ready nodes]; auto.
    + apply set_node_inv; [exact N|]. apply ninv_apply; auto.
    + intros j Hl. specialize (L j Hl). unfold set_node. destruct (Nat.eqb_spec j i) as [->|NE]; [|exact L].
      destruct (ready s).
      * unfold apply_incr. cbn [temp]. rewrite fold_temp. exact L.
      * destruct L as [_ La]. exfalso. assert (Hn : nth_error (clog s) (applied (nodes s i)) <> None) by congruence.
        apply nth_error_Some in Hn. lia.
  - cbn [fst]. constructor; cbn [clog pending leader ready nodes]; auto.
    + apply set_node_inv; [exact N|]. apply ninv_recover, N.
    + intros j Hl. destruct (is_leader s i) eqn:IL; [discriminate|]. specialize (L j Hl).
      unfold set_node. destruct (Nat.eqb_spec j i) as [->|NE]; [|exact L].
      unfold is_leader in IL. rewrite Hl, Nat.eqb_refl in IL. discriminate.
  - destruct (negb (is_leader s i) && (applied (nodes s i) <? applied (nodes s j))%nat) eqn:B; [|exact SI0]. cbn [fst].
    apply andb_prop in B. destruct B as [B1 _]. apply negb_true_iff in B1.
    constructor; cbn [clog pending leader ready nodes]; auto.
    + apply set_node_inv; [exact N|]. apply ninv_load; auto.
    + intros i' Hl. specialize (L i' Hl). unfold set_node. destruct (Nat.eqb_spec i' i) as [->|NE]; [|exact L].
      unfold is_leader in B1. rewrite Hl, Nat.eqb_refl in B1. discriminate.
  - destruct (applied (nodes s i) =? length (clog s))%nat eqn:B; [|exact SI0]. apply Nat.eqb_eq in B. cbn [fst].
    constructor; cbn [clog pending leader ready nodes]; auto.
    + rewrite app_nil_r. apply Forall_app in G. apply G.
    + rewrite app_nil_r. rewrite flat_map_app in D. clear -D. induction (flat_map i_ids (clog s)) as [|a l IH]; [constructor|].
      cbn in D. inversion D; subst. constructor; [intros I; apply H1; apply in_or_app; auto|auto].
    + intros i' Hl. injection Hl as <-. auto.
  - destruct (is_leader s i && negb (ready s)) eqn:B; [|exact SI0]. apply andb_prop in B. destruct B as [IL B].
    apply negb_true_iff in B. assert (Hl := is_leader_true s i IL). cbn [fst].
    constructor; cbn [clog pending leader ready nodes]; auto.
    + apply set_node_inv; [exact N|]. apply ninv_build, N.
    + intros i' Hl'. rewrite Hl in Hl'. injection Hl' as <-. rewrite set_node_same. specialize (L i Hl). rewrite B in L.
      destruct L as [Lp La]. rewrite Lp, app_nil_r. cbn [temp build_temp both fg].
      assert (S := n_sm _ _ (N i)). rewrite La, firstn_all in S. exact S.
Qed.

Lemma ninv0 : ninv [] node0.
Proof.
  pose proof (init_fold floors (both (fun _ => None)) (consistent_both _) floors_pos floors_fun) as S. cbv zeta in S.
  fold (init_ids (both (fun _ => None))) in S. destruct S as [C [Src [Keep [Mon Fl]]]].
  unfold node0, recover_node. cbn [disk applied].
  constructor; cbn [sm temp disk applied]; try (unfold holds_all; intros e k v I; destruct I; fail).
  - exact C.
  - apply consistent_both.
  - apply le_n.
  - intros k f I. exists f. split; [|lia]. apply (Fl k f I). now left.
  - discriminate.
  - intros k x E. destruct (Src k x E) as [H|H]; [discriminate H|now right].
Qed.

Lemma sinv0 : sinv csys0.
Proof.
  constructor.
  - intros i. exact ninv0.
  - constructor.
  - constructor.
  - intros i H. discriminate H.
Qed.

Lemma crun_sinv es : forall s, sinv s -> all_served s es -> sinv (crun s es).
Proof.
  induction es as [|e es IH]; intros s SI A; cbn [crun]; [exact SI|]. destruct A as [A1 A2].
  apply IH; [apply cstep_sinv; assumption|exact A2].
Qed.

Lemma never_again es ev e k v w :
  all_served csys0 (es ++ [ev]) ->
  let s := crun csys0 es in
  In e (clog s ++ pending s) -> In (k, v) (i_ids e) -> In (k, w) (snd (cstep s ev)) -> v < w.
Proof.
  intros A s I J W. assert (A12 : all_served csys0 es /\ served s ev).
  { unfold s. clear -A. revert A. generalize csys0. induction es as [|e0 es IH]; intros s0 A; cbn in *; [tauto|].
    destruct A as [A1 A2]. destruct (IH _ A2) as [B1 B2]. auto. }
  destruct A12 as [A1 SV]. assert (SI := crun_sinv es csys0 sinv0 A1). fold s in SI.
  destruct ev as [i qs|p|i|i|i j|i|i]; cbn [cstep] in W.
  - destruct (is_leader s i) eqn:IL; [|destruct W]. destruct SV as [SR SK]. specialize (SR IL).
    assert (F := request_fresh s i qs k v w e SI (is_leader_true s i IL) SR I J).
    destruct (allocs (temp (nodes s i)) qs) as [[d out] ups]. cbn [fst snd] in *. apply F, W.
  - destruct (nth_error (pending s) p); destruct W.
  - destruct (nth_error (clog s) (applied (nodes s i))); destruct W.
  - destruct W.
  - destruct (negb (is_leader s i) && (applied (nodes s i) <? applied (nodes s j))%nat); destruct W.
  - destruct (applied (nodes s i) =? length (clog s))%nat; destruct W.
  - destruct (is_leader s i && negb (ready s)); destruct W.
Qed.

Lemma committed_once es : all_served csys0 es -> NoDup (committed_ids (crun csys0 es)).
Proof.
  intros A. assert (SI := crun_sinv es csys0 sinv0 A). destruct SI as [_ _ D _]. unfold committed_ids.
  rewrite flat_map_app in D. revert D. generalize (flat_map i_ids (pending (crun csys0 es))).
  induction (flat_map i_ids (clog (crun csys0 es))) as [|a l IH]; intros l2 D; [constructor|].
  cbn in D. inversion D; subst. constructor; [intros I; apply H1; apply in_or_app; auto|eauto].
Qed.

(** ** the version-kv *)

Lemma kfloors_pos k f : In (k, f) kfloors -> 0 < k /\ 0 < f.
Proof. cbn. intros H. repeat (destruct H as [H|H]; [injection H as <- <-; lia|]). destruct H. Qed.
Lemma kfloors_fun k f g : In (k, f) kfloors -> In (k, g) kfloors -> f = g.
Proof.
  cbn. intros H1 H2.
  repeat (destruct H1 as [H1|H1]; [injection H1 as <- <-;
    repeat (destruct H2 as [H2|H2]; [congruence|]); destruct H2|]). destruct H1.
Qed.

Definition kdone (l : list (Z * Z)) (n : knode) : Prop :=
  consistent (kmem n) /\
  forall k v, In (k, v) l -> 0 < k -> at_least (kmem n) k v /\ exists x, kdisk n k = Some x /\ v <= x.

Lemma krun_done es : forall l n, kdone l n -> applied_in_order es ->
  (forall k v w, In (k, v) l -> In (KApply k w) es -> v <= w) ->
  kdone (l ++ flat_map (fun e => match e with KApply k v => [(k, v)] | _ => [] end) es) (fst (krun n es)).
Proof.
  induction es as [|e es IH]; intros l n H A O; cbn [krun flat_map].
  - rewrite app_nil_r. exact H.
  - destruct H as [C H].
    assert (STEP : kdone (l ++ match e with KApply k v => [(k, v)] | _ => [] end) (fst (kstep n e))).
    { destruct e as [k0|k0 v0|]; cbn [kstep].
      - rewrite app_nil_r. destruct (Z_le_gt_dec k0 0) as [Le|G].
        + unfold next_id. destruct (Z.leb_spec k0 0); [|lia]. cbn [fst]. split; [exact C|exact H].
        + pose proof (next_id_spec (kmem n) k0 C ltac:(lia)) as S. destruct (next_id (kmem n) k0) as [d v'].
          destruct S as [C' [E' [Ot [Hs _]]]]. cbn [fst]. split; [exact C'|]. cbn [kmem kdisk]. intros k v I K.
          destruct (H k v I K) as [[x [Ex Lx]] D]. split; [|exact D]. destruct (Z.eq_dec k k0) as [->|N].
          * exists v'. split; [exact E'|]. rewrite (Hs x Ex). lia.
          * exists x. rewrite Ot by exact N. auto.
      - destruct (Z_le_gt_dec k0 0) as [Le|G].
        + rewrite update_nonpos by exact Le. cbn [fst Z.leb Z.compare]. split; [exact C|]. cbn [kmem kdisk].
          intros k v I K. apply in_app_or in I. destruct I as [I|[I|[]]]; [auto|]. injection I. intros. lia.
        + pose proof (update_spec (kmem n) k0 v0 C ltac:(lia)) as S.
          destruct (update_present (kmem n) k0 v0) as [d r]. destruct S as [C' [Ot S]]. cbn [fst].
          assert (R : (0 <=? r) = true) by (destruct S as [[-> _]|[-> _]]; reflexivity). rewrite R.
          split; [exact C'|]. cbn [kmem kdisk].
          assert (At : at_least d k0 v0).
          { destruct S as [[_ [E' _]]|[_ [x [_ [E' Lx]]]]]; eexists; split; eauto; lia. }
          intros k v I K. apply in_app_or in I. destruct I as [I|[I|[]]].
          * destruct (Z.eq_dec k k0) as [->|N].
            -- assert (Lv : v <= v0) by (apply (O k0 v v0 I); now left). split.
               ++ destruct At as [x [Ex Lx]]. exists x. split; [exact Ex|lia].
               ++ exists v0. rewrite fput_same. auto.
            -- destruct (H k v I K) as [[x [Ex Lx]] [y [Ey Ly]]]. split.
               ++ exists x. rewrite Ot by exact N. auto.
               ++ exists y. rewrite fput_other by exact N. auto.
          * injection I as -> ->. split; [exact At|]. exists v. rewrite fput_same. split; [reflexivity|lia].
      - rewrite app_nil_r. cbn [fst].
        pose proof (init_fold kfloors (both (kdisk n)) (consistent_both _) kfloors_pos kfloors_fun) as S. cbv zeta in S.
        fold (kinit (both (kdisk n))) in S. destruct S as [C' [_ [_ [Mon _]]]].
        split; [exact C'|]. cbn [kmem kdisk]. intros k v I K. destruct (H k v I K) as [_ [x [Ex Lx]]].
        split; [|eauto]. destruct (Mon k x Ex) as [y [Ey Ly]]. exists y. split; [exact Ey|lia]. }
    destruct (kstep n e) as [n1 o1]. cbn [fst] in STEP. specialize (IH _ n1 STEP).
    destruct (krun n1 es) as [n2 o2]. cbn [fst] in *. rewrite app_assoc. apply IH.
    + destruct e; [exact A|apply A|exact A].
    + intros k v w I J. apply in_app_or in I. destruct I as [I|I]; [apply (O k v w I); now right|].
      destruct e as [k0|k0 v0|]; [destruct I| |destruct I]. destruct I as [I|[]]. injection I as <- <-.
      apply (proj1 A), J.
Qed.

Lemma kv_not_again es k v w : applied_in_order es -> 0 < k -> In (KApply k v) es ->
  In (k, w) (snd (kstep (fst (krun knode0 es)) (KNext k))) -> v < w.
Proof.
  intros A K I W. assert (H := krun_done es [] knode0).
  assert (H0 : kdone [] knode0).
  { split; [|intros ? ? []]. pose proof (init_fold kfloors (both (fun _ => None)) (consistent_both _) kfloors_pos kfloors_fun) as S.
    cbv zeta in S. apply S. }
  specialize (H H0 A ltac:(intros ? ? ? [])). destruct H as [C H]. cbn [app] in H.
  destruct (H k v) as [[x [Ex Lx]] _].
  - apply in_flat_map. exists (KApply k v). split; [exact I|now left].
  - exact K.
  - cbn [kstep] in W. pose proof (next_id_spec (kmem (fst (krun knode0 es))) k C K) as S.
    destruct (next_id (kmem (fst (krun knode0 es))) k) as [d u]. destruct S as [_ [_ [_ [Hs _]]]].
    cbn in W. destruct W as [W|[]]. injection W as <-. rewrite (Hs x Ex). lia.
Qed.

Lemma batch_exact d k n d' vs : consistent d -> 0 < k -> 0 < n <= kMaxBatch -> next_ids d k n = (d', vs) ->
  vs = map (fun i => present d' k - n + Z.of_nat i + 1) (seq 0 (Z.to_nat n)) /\
  (forall x, at_least d k x -> x <= present d' k - n) /\ (forall x, x <> k -> present d' x = present d x).
Proof.
  intros C K N E. pose proof (next_ids_spec d k n C K N) as S. rewrite E in S.
  destruct S as [base [C' [E' [O [-> [Hs Hn]]]]]].
  assert (P : present d' k = base + n) by (unfold present; now rewrite E'). rewrite P.
  split; [|split].
  - unfold ids_from. apply map_ext. intros i. lia.
  - intros x [y [Ey L]]. rewrite (Hs y Ey). lia.
  - intros x Nx. unfold present. now rewrite (O x Nx).
Qed.

Lemma update_never_lowers d k v d' r : consistent d -> 0 < k -> update_present d k v = (d', r) ->
  consistent d' /\ at_least d' k v /\ (forall j x, at_least d j x -> at_least d' j x) /\
  (forall j, j <> k -> present d' j = present d j).
Proof.
  intros C K E. pose proof (update_spec d k v C K) as S. rewrite E in S. destruct S as [C' [O S]].
  split; [exact C'|]. split; [|split].
  - destruct S as [[_ [E' _]]|[_ [x [_ [E' L]]]]]; eexists; split; eauto; lia.
  - intros j x [y [Ey L]]. destruct (Z.eq_dec j k) as [->|N].
    + destruct S as [[_ [E' H]]|[_ [z [Ez [E' L']]]]].
      * exists v. split; [exact E'|]. specialize (H y Ey). lia.
      * exists z. split; [exact E'|]. rewrite Ey in Ez. injection Ez as <-. exact L.
    + exists y. rewrite O by exact N. auto.
  - intros j N. unfold present. now rewrite (O j N).
Qed.
