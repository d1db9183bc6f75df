(** Proofs: what applying an increment does to the two maps; no run crashes. *)
From Coq Require Import ZArith List Bool Lia Sorted.
From Verif Require Import Bytes SMap Outcome LogProofs2 RtModel RtSpec RtProofs1.
Import ListNotations.
Open Scope Z_scope.

Notation zget := (get Z.compare).
Notation bget := (get bcmp).

(** ** maps *)

Lemma fold_del_sorted {K V} (cmp : K -> K -> comparison) (Hc : cmp_ok cmp) : forall ks (m : smap K V),
  sorted cmp m -> sorted cmp (fold_left (del cmp) ks m).
Proof. induction ks as [|k ks IH]; simpl; intros m H; auto. apply IH. apply sorted_del; auto. Qed.
Lemma fold_del_get {K V} (cmp : K -> K -> comparison) (Hc : cmp_ok cmp) : forall ks (m : smap K V) k,
  sorted cmp m ->
  (In k ks -> get cmp (fold_left (del cmp) ks m) k = None) /\
  (~ In k ks -> get cmp (fold_left (del cmp) ks m) k = get cmp m k).
Proof.
  induction ks as [|a ks IH]; simpl; intros m k H; [tauto|].
  destruct (IH (del cmp m a) k) as [I1 I2]; [apply sorted_del; auto|]. split; intros Hk.
  - destruct (in_dec (cmp_dec cmp Hc) k ks) as [D|D]; auto. rewrite I2 by auto. destruct Hk as [->|Hk]; [|tauto].
    apply get_del_same; auto.
  - rewrite I2 by tauto. apply get_del_other; auto.
Qed.

Lemma put_regions_sorted : forall rs (m : rmap), sorted Z.compare m -> sorted Z.compare (fold_left put_region rs m).
Proof. induction rs as [|r rs IH]; simpl; intros m H; auto. apply IH. apply sorted_put; auto. apply zcmp_ok. Qed.
Lemma put_regions_other i : forall rs (m : rmap), (forall r, In r rs -> r_id r <> i) -> zget (fold_left put_region rs m) i = zget m i.
Proof.
  induction rs as [|r rs IH]; simpl; intros m H; auto. rewrite IH by auto. unfold put_region.
  apply get_put_other; auto. apply zcmp_ok.
Qed.
Lemma put_regions_in : forall rs (m : rmap) r, NoDup (map r_id rs) -> In r rs -> zget (fold_left put_region rs m) (r_id r) = Some r.
Proof.
  induction rs as [|a rs IH]; simpl; intros m r N H; [tauto|]. inversion N; subst.
  destruct H as [->|H]; auto. rewrite put_regions_other.
  - unfold put_region. apply get_put_same. apply zcmp_ok.
  - intros x Hx E. apply H2. rewrite <- E. apply in_map. auto.
Qed.

Lemma first_put_sorted : forall rs m, sorted bcmp m -> sorted bcmp (fold_left first_put rs m).
Proof.
  induction rs as [|r rs IH]; simpl; intros m H; auto. apply IH. unfold first_put. destruct (bget m (r_start r)); auto.
  apply sorted_put; auto. apply bcmp_ok.
Qed.
Lemma first_put_get k : forall rs m,
  bget (fold_left first_put rs m) k =
  match bget m k with Some x => Some x | None => find (fun r => beqb (r_start r) k) rs end.
Proof.
  induction rs as [|r rs IH]; simpl; intros m.
  - destruct (bget m k); auto.
  - rewrite IH. unfold first_put. destruct (beqb (r_start r) k) eqn:E.
    + apply beqb_true in E. subst k. destruct (bget m (r_start r)) eqn:G; [rewrite G; auto|].
      rewrite get_put_same; auto. apply bcmp_ok.
    + apply beqb_false in E. destruct (bget m (r_start r)) eqn:G; auto.
      rewrite get_put_other; auto. apply bcmp_ok.
Qed.
Lemma put_entries_sorted : forall (es : list (bytes * region)) (m : xmap), sorted bcmp m ->
  sorted bcmp (fold_left (fun m e => put bcmp m (fst e) (snd e)) es m).
Proof. induction es as [|e es IH]; simpl; intros m H; auto. apply IH. apply sorted_put; auto. apply bcmp_ok. Qed.
Lemma put_entries_get k : forall (es m : xmap), sorted bcmp es ->
  bget (fold_left (fun m e => put bcmp m (fst e) (snd e)) es m) k =
  match bget es k with Some x => Some x | None => bget m k end.
Proof.
  induction es as [|[a x] es IH]; simpl; intros m H; auto.
  apply sorted_cons in H. destruct H as [H1 H2]. rewrite IH by auto.
  destruct (bcmp k a) eqn:E.
  - apply bcmp_eq in E. subst a. rewrite get_lt_None.
    + apply get_put_same. apply bcmp_ok.
    + exact H2.
  - rewrite get_lt_None; auto.
    + apply get_put_other; [apply bcmp_ok|]. intros ->. rewrite bcmp_refl in E. congruence.
    + eapply Forall_impl; [|exact H2]. intros e He. eapply bcmp_trans; [exact E|exact He].
  - destruct (bget es k); auto. apply get_put_other; [apply bcmp_ok|]. intros ->. rewrite bcmp_refl in E. congruence.
Qed.
Lemma xput_all_sorted m l : sorted bcmp m -> sorted bcmp (xput_all m l).
Proof. intros H. apply put_entries_sorted; auto. Qed.
Lemma xput_all_get m l k : bget (xput_all m l) k =
  match find (fun r => beqb (r_start r) k) l with Some x => Some x | None => bget m k end.
Proof.
  unfold xput_all. rewrite put_entries_get by (apply first_put_sorted; constructor). rewrite first_put_get. reflexivity.
Qed.

(** ** what the loop over an increment collects *)

(** an update that is not skipped *)
Definition accepts (rm : rmap) (r : region) : bool :=
  match zget rm (r_id r) with
  | None => false
  | Some old => negb (r_version r <? r_version old) &&
                negb (negb (beqb (r_start r) (r_start old)) && (r_version r =? r_version old))
  end.
Definition taken (rm : rmap) (i : incr) : list region :=
  match i with ICreate r => [r] | IUpdate r => if accepts rm r then [r] else [] | IDelete _ => [] end.

Lemma collect_snoc rm xm l i : collect rm xm (l ++ [i]) = collect1 rm xm (collect rm xm l) i.
Proof. unfold collect. rewrite fold_left_app. reflexivity. Qed.

Lemma collect_puts rm xm l : w_puts (collect rm xm l) = flat_map (taken rm) l.
Proof.
  induction l as [|i l IH] using rev_ind; auto. rewrite collect_snoc, flat_map_app, <- IH. simpl.
  destruct i as [r|r|i]; simpl; auto.
  - unfold accepts. destruct (zget rm (r_id r)); simpl; [|rewrite app_nil_r; auto].
    destruct (r_version r <? r_version r0); simpl; [rewrite app_nil_r; auto|].
    destruct (_ && _); simpl; auto. rewrite app_nil_r; auto.
  - destruct (zget rm i); simpl; rewrite app_nil_r; auto.
Qed.
Lemma collect_xputs rm xm l : w_xputs (collect rm xm l) = filter proper (w_puts (collect rm xm l)).
Proof.
  induction l as [|i l IH] using rev_ind; auto. rewrite collect_snoc.
  destruct i as [r|r|i]; simpl; auto.
  - rewrite filter_app, <- IH. simpl. destruct (proper r); auto. rewrite app_nil_r; auto.
  - destruct (zget rm (r_id r)); simpl; auto.
    destruct (r_version r <? r_version r0); simpl; auto. destruct (_ && _); simpl; auto.
    rewrite filter_app, <- IH. simpl. destruct (proper r); auto. rewrite app_nil_r; auto.
  - destruct (zget rm i); simpl; auto.
Qed.
Lemma collect_dels rm xm l i : In i (w_dels (collect rm xm l)) <-> In (IDelete i) l /\ exists r, zget rm i = Some r.
Proof.
  induction l as [|a l IH] using rev_ind; [simpl; tauto|]. rewrite collect_snoc, in_app_iff.
  destruct a as [r|r|j]; simpl.
  - rewrite IH. intuition congruence.
  - destruct (zget rm (r_id r)) eqn:E; simpl; [|rewrite IH; intuition congruence].
    destruct (r_version r <? r_version r0); simpl; [rewrite IH; intuition congruence|].
    destruct (_ && _); simpl; rewrite IH; intuition congruence.
  - destruct (zget rm j) eqn:E; simpl.
    + rewrite in_app_iff, IH. simpl. split.
      * intros [H|[->|[]]]; [tauto|]. split; eauto.
      * intros [[H|[H|[]]] K]; auto. injection H as ->. auto.
    + rewrite IH. split; [tauto|]. intros [[H|[H|[]]] [r K]]; eauto. injection H as ->. congruence.
Qed.
Lemma collect_xdels rm xm l k : In k (w_xdels (collect rm xm l)) <->
  exists i r, In (IDelete i) l /\ zget rm i = Some r /\ r_start r = k.
Proof.
  induction l as [|a l IH] using rev_ind; [simpl; split; [tauto|intros (i & r & [] & _)]|]. rewrite collect_snoc.
  assert (HH : (forall j, a <> IDelete j) -> (exists i r, In (IDelete i) (l ++ [a]) /\ zget rm i = Some r /\ r_start r = k) <->
               (exists i r, In (IDelete i) l /\ zget rm i = Some r /\ r_start r = k)).
  { intros Hn. split; intros (i & r & H & K); exists i, r; split; auto; apply in_or_app || (apply in_app_or in H; destruct H as [H|[H|[]]]; auto; exfalso; eapply Hn; eauto).
    auto. }
  destruct a as [r|r|j]; cbn [collect1].
  - cbn [w_xdels]. rewrite HH by congruence. auto.
  - rewrite HH by congruence. destruct (zget rm (r_id r)); auto.
    destruct (r_version r <? r_version r0); auto. destruct (_ && _); auto.
  - destruct (zget rm j) eqn:E; cbn [w_xdels].
    + rewrite in_app_iff, IH. simpl. split.
      * intros [(i & x & H & K)|[<-|[]]]; [exists i, x|exists j, r]; rewrite in_app_iff; simpl; auto.
      * intros (i & x & H & K & F). apply in_app_or in H. destruct H as [H|[H|[]]]; [left; eauto|].
        injection H as ->. right. left. congruence.
    + rewrite IH. split; intros (i & x & H & K & F); exists i, x; split; auto.
      * apply in_or_app; auto.
      * apply in_app_or in H. destruct H as [H|[H|[]]]; auto. injection H as ->. congruence.
Qed.

(** a start key is erased for an update only if an accepted update leaves it legally *)
Definition leaves (rm : rmap) (r : region) (k : bytes) : Prop :=
  accepts rm r = true /\ exists old, zget rm (r_id r) = Some old /\ r_start old = k /\ r_start r <> k.
Lemma collect_xdu_only rm xm l k : In k (w_xdels_update (collect rm xm l)) ->
  exists r, In (IUpdate r) l /\ leaves rm r k /\ legal_delete rm xm (r_id r) k = true.
Proof.
  induction l as [|a l IH] using rev_ind; [simpl; tauto|]. rewrite collect_snoc.
  assert (HH : In k (w_xdels_update (collect rm xm l)) ->
    exists r, In (IUpdate r) (l ++ [a]) /\ leaves rm r k /\ legal_delete rm xm (r_id r) k = true).
  { intros H. destruct (IH H) as (r & A & B). exists r. rewrite in_app_iff. auto. }
  destruct a as [r|r|j]; cbn [collect1].
  - exact HH.
  - destruct (zget rm (r_id r)) as [old|] eqn:E; auto.
    destruct (r_version r <? r_version old) eqn:E1; auto.
    destruct (negb (beqb (r_start r) (r_start old))) eqn:E2; cbn [andb].
    + destruct (r_version r =? r_version old) eqn:E3; auto. cbn [w_xdels_update].
      destruct (negb _ && legal_delete rm xm (r_id r) (r_start old)) eqn:E4; auto.
      rewrite in_app_iff. intros [H|[<-|[]]]; auto. exists r. rewrite in_app_iff. simpl. split; auto.
      apply andb_prop in E4. split; [|tauto]. apply negb_true_iff, beqb_false in E2. split.
      * unfold accepts. rewrite E, E1, E3, andb_false_r. reflexivity.
      * exists old. auto.
    + auto.
  - destruct (zget rm j); auto.
Qed.
(** and every accepted update that leaves its start key legally has it erased or overwritten *)
Lemma collect_grows rm xm l a x :
  (In x (w_xdels_update (collect rm xm l)) -> In x (w_xdels_update (collect rm xm (l ++ [a])))) /\
  (forall r, In r (w_xputs (collect rm xm l)) -> In r (w_xputs (collect rm xm (l ++ [a])))).
Proof.
  rewrite collect_snoc. destruct a as [r|r|j]; simpl.
  - split; auto. intros q. destruct (proper r); auto. rewrite in_app_iff; auto.
  - destruct (zget rm (r_id r)) as [old|]; auto. destruct (r_version r <? r_version old); auto.
    destruct (_ && (r_version r =? _)); auto. simpl. split.
    + destruct (_ && (_ && _)); auto. rewrite in_app_iff; auto.
    + intros q. destruct (proper r); auto. rewrite in_app_iff; auto.
  - destruct (zget rm j); auto.
Qed.
Lemma collect_xdu_all rm xm l r k : In (IUpdate r) l -> leaves rm r k -> legal_delete rm xm (r_id r) k = true ->
  In k (w_xdels_update (collect rm xm l)) \/ exists q, In q (w_xputs (collect rm xm l)) /\ r_start q = k.
Proof.
  induction l as [|a l IH] using rev_ind; intros H L D; [simpl in H; tauto|].
  apply in_app_or in H. destruct H as [H|[->|[]]].
  - destruct (collect_grows rm xm l a k) as [G1 G2]. destruct (IH H L D) as [I|(q & I & J)]; auto. right. eauto.
  - rewrite collect_snoc. destruct L as (A & old & E & <- & N). cbn [collect1]. rewrite E.
    unfold accepts in A. rewrite E in A. apply andb_prop in A. destruct A as [A1 A2].
    apply negb_true_iff in A1. rewrite A1. apply negb_true_iff in A2. rewrite A2. cbn [w_xdels_update w_xputs].
    assert (Em : negb (beqb (r_start r) (r_start old)) = true) by (apply negb_true_iff, beqb_false; auto). rewrite Em.
    destruct (existsb (fun x => beqb (r_start x) (r_start old)) (w_xputs (collect rm xm l))) eqn:Ex.
    + right. apply existsb_exists in Ex. destruct Ex as (q & Q1 & Q2). apply beqb_true in Q2. exists q. split; auto.
      destruct (proper r); auto. rewrite in_app_iff; auto.
    + left. rewrite D. simpl. rewrite in_app_iff. simpl. auto.
Qed.

(** ** the maps after an increment *)

Lemma apply_sorted rm xm l : sorted Z.compare rm -> sorted bcmp xm ->
  sorted Z.compare (fst (apply_incs rm xm l)) /\ sorted bcmp (snd (apply_incs rm xm l)).
Proof.
  intros H K. unfold apply_incs. simpl. split.
  - apply fold_del_sorted; [apply zcmp_ok|]. apply put_regions_sorted. auto.
  - apply fold_del_sorted; [apply bcmp_ok|]. apply xput_all_sorted. apply fold_del_sorted; auto. apply bcmp_ok.
Qed.

Lemma apply_map rm xm l i : sorted Z.compare rm -> NoDup (map r_id (flat_map (taken rm) l)) ->
  zget (fst (apply_incs rm xm l)) i =
  (if in_dec Z.eq_dec i (w_dels (collect rm xm l)) then None
   else match find (fun r => r_id r =? i) (flat_map (taken rm) l) with Some r => Some r | None => zget rm i end).
Proof.
  intros Hs Hn. unfold apply_incs. cbn [fst]. rewrite collect_puts.
  destruct (fold_del_get Z.compare zcmp_ok (w_dels (collect rm xm l)) (fold_left put_region (flat_map (taken rm) l) rm) i) as [A B];
    [apply put_regions_sorted; auto|].
  destruct (in_dec Z.eq_dec i (w_dels (collect rm xm l))) as [D|D]; [auto|]. rewrite B by auto.
  destruct (find _ _) eqn:F.
  - apply find_some in F. destruct F as [F1 F2]. apply Z.eqb_eq in F2. subst i. apply put_regions_in; auto.
  - apply put_regions_other. intros r Hr E. apply (find_none _ _ F) in Hr. apply Z.eqb_neq in Hr. auto.
Qed.
Lemma apply_idx rm xm l k : sorted bcmp xm ->
  bget (snd (apply_incs rm xm l)) k =
  (if in_dec bytes_eq_dec k (w_xdels (collect rm xm l)) then None
   else match find (fun r => beqb (r_start r) k) (filter proper (flat_map (taken rm) l)) with
        | Some r => Some r
        | None => if in_dec bytes_eq_dec k (w_xdels_update (collect rm xm l)) then None else bget xm k
        end).
Proof.
  intros Hs. unfold apply_incs. cbn [snd]. rewrite collect_xputs, collect_puts.
  set (xm1 := fold_left (del bcmp) (w_xdels_update (collect rm xm l)) xm).
  assert (Hs1 : sorted bcmp xm1) by (apply fold_del_sorted; auto; apply bcmp_ok).
  destruct (fold_del_get bcmp bcmp_ok (w_xdels (collect rm xm l)) (xput_all xm1 (filter proper (flat_map (taken rm) l))) k) as [A B];
    [apply xput_all_sorted; auto|].
  destruct (in_dec bytes_eq_dec k (w_xdels (collect rm xm l))); auto. rewrite B, xput_all_get by auto.
  destruct (find _ _); auto.
  destruct (fold_del_get bcmp bcmp_ok (w_xdels_update (collect rm xm l)) xm k) as [C D]; auto.
  destruct (in_dec bytes_eq_dec k (w_xdels_update (collect rm xm l))); auto.
Qed.

(** ** no run crashes: entries of the index always stand at their start keys *)

Definition keyed (m : xmap) : Prop := sorted bcmp m /\ forall k r, bget m k = Some r -> r_start r = k.
Lemma keyed_in m : keyed m -> forall k r, In (k, r) m -> r_start r = k.
Proof. intros [A B] k r H. apply B. apply In_get; auto. apply bcmp_ok. Qed.

Lemma build_index_keyed rm order : keyed (build_index rm order).
Proof.
  unfold build_index. assert (keyed []) as H by (split; [constructor|simpl; congruence]). revert H.
  generalize (@nil (bytes * region)). induction order as [|i order IH]; simpl; intros m H; auto.
  apply IH. destruct (zget rm i) as [r|]; auto. destruct H as [A B]. split; [apply sorted_put; auto; apply bcmp_ok|].
  intros k x. rewrite (get_put bcmp bcmp_ok). destruct (cmp_dec bcmp bcmp_ok (r_start r) k); auto. congruence.
Qed.
Lemma apply_keyed rm xm l : keyed xm -> keyed (snd (apply_incs rm xm l)).
Proof.
  intros [A B]. split.
  - unfold apply_incs. simpl. apply fold_del_sorted; [apply bcmp_ok|]. apply xput_all_sorted. apply fold_del_sorted; auto. apply bcmp_ok.
  - intros k r. rewrite apply_idx by auto. destruct (in_dec _ _ _); [congruence|].
    destruct (find _ _) eqn:F.
    + intros [= <-]. apply find_some in F. apply beqb_true. tauto.
    + destruct (in_dec _ _ _); [congruence|]. auto.
Qed.
Lemma check_range_ok m s e : keyed m -> exists o, check_range m s e = Ok o.
Proof.
  intros H. unfold check_range.
  destruct (_ || _); eauto. destruct (_ && _); eauto. destruct (_ && _); eauto.
  destruct (scan_never_crashes m s e 0 (keyed_in m H) (proj1 H)) as (rs & -> & _).
  destruct (_ && _); eauto. destruct (legal_prefix _); eauto.
Qed.
Lemma create_regions_ok rm m l : keyed m -> exists o, create_regions rm m l = Ok o.
Proof.
  intros H. induction l as [|n l IH]; simpl; eauto.
  destruct (check_range_ok m (n_start n) (n_end n) H) as (o & ->). destruct o; eauto.
  destruct (zget rm (n_id n)); eauto. destruct IH as (o & ->). destruct o; eauto.
Qed.
Lemma step_ok s o : keyed (s_idx s) -> exists s', step s o = Ok s' /\ keyed (s_idx s').
Proof.
  intros H. destruct o; simpl.
  - eexists; split; [reflexivity|first [exact H|exact K|idtac]].
  - destruct (create_regions_ok (s_map s) _ l H) as (o & ->). destruct o; simpl; (eexists; split; [reflexivity|exact H]).
  - unfold create_child. destruct (zget (s_map s) parent) as [p|]; simpl; eauto.
    destruct (create_regions_ok (s_map s) _ [mkN id max_start_key (r_start p) (d_peers (r_def p)) (d_mono (r_def p))] H) as (o & E).
    cbn [create_regions] in E. simpl in E. rewrite E. destruct o; simpl; (eexists; split; [reflexivity|exact H]).
  - eexists; split; [reflexivity|first [exact H|exact K|idtac]].
  - destruct (nth_error (s_pend s) n) as [l|]; [|eexists; split; [reflexivity|exact H]]. pose proof (apply_keyed (s_map s) (s_idx s) l H) as K.
    eexists; split; [reflexivity|exact K].
  - eexists; split; [reflexivity|first [exact H|exact K|idtac]].
  - eexists; split; [reflexivity|first [exact H|exact K|idtac]]. simpl. apply build_index_keyed.
Qed.
Lemma run_ok : forall ops s, keyed (s_idx s) -> exists s', run s ops = Ok s' /\ keyed (s_idx s').
Proof.
  induction ops as [|o ops IH]; intros s H; simpl; eauto.
  destruct (step_ok s o H) as (s1 & -> & K). auto.
Qed.
Lemma init_keyed : keyed (s_idx init).
Proof. split; [constructor|simpl; congruence]. Qed.
