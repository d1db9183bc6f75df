(** Helper lemmas: contents, batches, stored versions, replay. *)
Require Import ZArith List Bool Permutation Lia.
Require Import Verif.VecModel Verif.VecSpec.
Import ListNotations.
Open Scope Z_scope.

(** ** Lists *)

Lemma nth_upd_same {A} (l : list A) n f x :
  nth_error l n = Some x -> nth_error (upd l n f) n = Some (f x).
Proof.
  revert n. induction l as [|y l IH]; intros [|n] H; simpl in *; try discriminate.
  - injection H as ->. reflexivity.
  - apply IH. exact H.
Qed.

Lemma nth_upd_other {A} (l : list A) n m f :
  n <> m -> nth_error (upd l n f) m = nth_error l m.
Proof.
  revert n m. induction l as [|y l IH]; intros [|n] [|m] H; simpl; try reflexivity.
  - congruence.
  - apply IH. congruence.
Qed.

Lemma nth_upd {A} (l : list A) n m f :
  nth_error (upd l n f) m =
  if Nat.eq_dec n m then option_map f (nth_error l m) else nth_error l m.
Proof.
  destruct (Nat.eq_dec n m) as [->|N]; [|apply nth_upd_other; exact N].
  destruct (nth_error l m) as [x|] eqn:E.
  - simpl. apply nth_upd_same. exact E.
  - simpl. revert m E. induction l as [|y l IH]; intros [|m] E; simpl in *; try reflexivity; try discriminate.
    apply IH. exact E.
Qed.

Lemma upd_length {A} (l : list A) n f : length (upd l n f) = length l.
Proof.
  revert n. induction l as [|y l IH]; intros [|n]; simpl; auto.
Qed.

Lemma geto_upd h n f m :
  (n < length h)%nat -> geto (upd h n f) m = if Nat.eq_dec n m then f (geto h m) else geto h m.
Proof.
  unfold geto. revert n m.
  induction h as [|y h IH]; intros n m L; [simpl in L; lia|].
  destruct n as [|n]; destruct m as [|m]; simpl; try reflexivity.
  rewrite IH by (simpl in L; lia).
  destruct (Nat.eq_dec n m), (Nat.eq_dec (S n) (S m)); try reflexivity; lia.
Qed.

Lemma geto_upd_other h n f m : n <> m -> geto (upd h n f) m = geto h m.
Proof.
  unfold geto. revert n m. induction h as [|y h IH]; intros [|n] [|m] N; simpl; try reflexivity; try congruence.
  apply IH. congruence.
Qed.

Lemma geto_app_old h o p : (p < length h)%nat -> geto (h ++ [o]) p = geto h p.
Proof. intro L. unfold geto. apply app_nth1. exact L. Qed.

Lemma geto_app_new h o : geto (h ++ [o]) (length h) = o.
Proof. unfold geto. rewrite app_nth2 by lia. rewrite Nat.sub_diag. reflexivity. Qed.

(** ** Contents *)

Lemma cput_all_app c l1 l2 : cput_all c (l1 ++ l2) = cput_all (cput_all c l1) l2.
Proof. apply fold_left_app. Qed.

Lemma cput_all_notin l : forall c i, ~ In i (map fst l) -> cput_all c l i = c i.
Proof.
  induction l as [|[k v] l IH]; intros c i N; [reflexivity|].
  cbn [cput_all fold_left fst snd].
  change (cput_all (cput c k v) l i = c i).
  rewrite IH by (intro X; apply N; right; exact X).
  unfold cput. destruct (i =? k) eqn:E; [|reflexivity].
  apply Z.eqb_eq in E. exfalso. apply N. left. simpl. congruence.
Qed.

Lemma cput_all_in l : forall c i v, NoDup (map fst l) -> In (i, v) l -> cput_all c l i = Some v.
Proof.
  induction l as [|[k w] l IH]; intros c i v ND I; [destruct I|].
  change (cput_all (cput c k w) l i = Some v).
  inversion ND; subst. destruct I as [I|I].
  - injection I as -> ->. rewrite cput_all_notin by assumption.
    unfold cput. rewrite Z.eqb_refl. reflexivity.
  - apply IH; assumption.
Qed.

Lemma cdel_all_in l : forall c i, In i l -> cdel_all c l i = None.
Proof.
  assert (K : forall l c i, c i = None -> cdel_all c l i = None).
  { induction l0 as [|k l0 IH]; intros c i H; [exact H|].
    change (cdel_all (cdel c k) l0 i = None). apply IH.
    unfold cdel. destruct (i =? k); [reflexivity|exact H]. }
  induction l as [|k l IH]; intros c i I; [destruct I|].
  change (cdel_all (cdel c k) l i = None). destruct I as [->|I].
  - apply K. unfold cdel. rewrite Z.eqb_refl. reflexivity.
  - apply IH. exact I.
Qed.

Lemma cdel_all_notin l : forall c i, ~ In i l -> cdel_all c l i = c i.
Proof.
  induction l as [|k l IH]; intros c i N; [reflexivity|].
  change (cdel_all (cdel c k) l i = c i). rewrite IH by (intro X; apply N; right; exact X).
  unfold cdel. destruct (i =? k) eqn:E; [|reflexivity].
  apply Z.eqb_eq in E. exfalso. apply N. left. congruence.
Qed.

Lemma in_fst_pair (l : list (Z * Z)) i : In i (map fst l) -> exists v, In (i, v) l.
Proof.
  intro H. apply in_map_iff in H. destruct H as [[k v] [E H]]. simpl in E. subst.
  exists v. exact H.
Qed.

Lemma cput_all_perm l1 l2 c i :
  Permutation l1 l2 -> NoDup (map fst l1) -> cput_all c l1 i = cput_all c l2 i.
Proof.
  intros P ND.
  assert (P' : Permutation (map fst l1) (map fst l2)) by (apply Permutation_map; exact P).
  destruct (in_dec Z.eq_dec i (map fst l1)) as [I|N].
  - destruct (in_fst_pair _ _ I) as [v V].
    rewrite (cput_all_in l1 c i v ND V). symmetry. apply cput_all_in.
    + eapply Permutation_NoDup; eassumption.
    + eapply Permutation_in; eassumption.
  - rewrite (cput_all_notin l1) by exact N. symmetry. apply cput_all_notin.
    intro X. apply N. eapply Permutation_in; [apply Permutation_sym; exact P'|exact X].
Qed.

Lemma cput_all_ext l : forall c1 c2 i, c1 i = c2 i -> cput_all c1 l i = cput_all c2 l i.
Proof.
  induction l as [|[k v] l IH]; intros c1 c2 i H; [exact H|].
  change (cput_all (cput c1 k v) l i = cput_all (cput c2 k v) l i).
  apply IH. unfold cput. destruct (i =? k); [reflexivity|exact H].
Qed.

Lemma cdel_all_ext l : forall c1 c2 i, c1 i = c2 i -> cdel_all c1 l i = cdel_all c2 l i.
Proof.
  induction l as [|k l IH]; intros c1 c2 i H; [exact H|].
  change (cdel_all (cdel c1 k) l i = cdel_all (cdel c2 k) l i).
  apply IH. unfold cdel. destruct (i =? k); [reflexivity|exact H].
Qed.

(** ** Batches *)

Lemma split_concat n : forall l acc, concat (split_batches n acc l) = rev acc ++ l.
Proof.
  induction l as [|x l IH]; intro acc; simpl.
  - destruct acc; [reflexivity|]. simpl. rewrite !app_nil_r. reflexivity.
  - destruct (n <=? S (length acc))%nat; simpl.
    + rewrite IH. simpl. rewrite <- app_assoc. reflexivity.
    + rewrite IH. simpl. rewrite <- app_assoc. reflexivity.
Qed.

Lemma split_nonempty n : forall l acc b, In b (split_batches n acc l) -> b <> [].
Proof.
  induction l as [|x l IH]; intros acc b; simpl.
  - destruct acc as [|a acc]; [intros []|]. intros [<-|[]]. simpl.
    intro X. apply app_eq_nil in X. destruct X; discriminate.
  - destruct (n <=? S (length acc))%nat.
    + intros [<-|I]; [|eapply IH; exact I]. intro X. apply app_eq_nil in X. destruct X; discriminate.
    + apply IH.
Qed.

Lemma ids_distinct_spec l : ids_distinct l = true <-> NoDup l.
Proof.
  induction l as [|i l IH]; simpl; [split; [constructor|reflexivity]|].
  rewrite andb_true_iff, negb_true_iff, IH. split.
  - intros [E N]. constructor; [|exact N]. intro I.
    assert (X : existsb (Z.eqb i) l = true) by (apply existsb_exists; exists i; split; [exact I|apply Z.eqb_refl]).
    congruence.
  - intro N. inversion N; subst. split; [|assumption].
    apply not_true_is_false. intro X. apply existsb_exists in X. destruct X as [k [I E]].
    apply Z.eqb_eq in E. subst. contradiction.
Qed.

Lemma concat_perm {A} (l1 l2 : list (list A)) : Permutation l1 l2 -> Permutation (concat l1) (concat l2).
Proof.
  induction 1; simpl.
  - constructor.
  - apply Permutation_app_head. assumption.
  - rewrite !app_assoc. apply Permutation_app_tail. apply Permutation_app_comm.
  - eapply Permutation_trans; eassumption.
Qed.

Lemma NoDup_app_l {A} (a b : list A) : NoDup (a ++ b) -> NoDup a.
Proof.
  induction a; simpl; intro N; [constructor|]. inversion N; subst. constructor.
  - intro I. apply H1. apply in_or_app. left. exact I.
  - apply IHa. assumption.
Qed.

Lemma NoDup_app_r {A} (a b : list A) : NoDup (a ++ b) -> NoDup b.
Proof. induction a; simpl; intro N; [exact N|]. inversion N; auto. Qed.

Lemma NoDup_app_disj {A} (a b : list A) x : NoDup (a ++ b) -> In x a -> In x b -> False.
Proof.
  induction a; simpl; intros N I J; [destruct I|]. inversion N; subst. destruct I as [->|I].
  - apply H1. apply in_or_app. right. exact J.
  - eapply IHa; eassumption.
Qed.

Lemma run_batches_ok bs : forall c,
  NoDup (map fst (concat bs)) -> (forall b, In b bs -> b <> []) ->
  run_batches c bs = (cput_all c (concat bs), true).
Proof.
  induction bs as [|b bs IH]; intros c ND NE; [reflexivity|].
  simpl in ND. rewrite map_app in ND. simpl.
  assert (E : flat_upsert c b = (cput_all c b, true)).
  { unfold flat_upsert. destruct b as [|x b]; [exfalso; apply (NE []); [left; reflexivity|reflexivity]|].
    rewrite (proj2 (ids_distinct_spec _)) by (apply NoDup_app_l in ND; exact ND). reflexivity. }
  rewrite E. rewrite IH.
  - rewrite cput_all_app. reflexivity.
  - apply NoDup_app_r in ND. exact ND.
  - intros b' I. apply NE. right. exact I.
Qed.

(** An index write of distinct ids does what one expects, whatever the order of
    the batches. *)
Lemma idx_upsert_has g seed c l i :
  any_order g -> NoDup (map fst l) -> fst (idx_upsert g seed c l) i = cput_all c l i.
Proof.
  intros AO ND.
  assert (P : Permutation (concat (c_order g seed (split_batches (c_chunk g) [] l))) l).
  { eapply Permutation_trans; [apply concat_perm; apply AO|].
    rewrite split_concat. apply Permutation_refl. }
  assert (ND' : NoDup (map fst (concat (c_order g seed (split_batches (c_chunk g) [] l))))).
  { eapply Permutation_NoDup; [apply Permutation_map; apply Permutation_sym; exact P|exact ND]. }
  unfold idx_upsert. destruct (c_hnsw g).
  - destruct l as [|x l]; [reflexivity|]. cbn [fst]. apply cput_all_perm; assumption.
  - rewrite run_batches_ok.
    + cbn [fst]. apply cput_all_perm; assumption.
    + exact ND'.
    + intros b I. eapply split_nonempty. eapply Permutation_in; [apply AO|exact I].
Qed.

Lemma idx_upsert_ok g seed c l :
  any_order g -> NoDup (map fst l) -> (c_hnsw g = true -> l <> []) -> snd (idx_upsert g seed c l) = true.
Proof.
  intros AO ND NE.
  assert (P : Permutation (concat (c_order g seed (split_batches (c_chunk g) [] l))) l).
  { eapply Permutation_trans; [apply concat_perm; apply AO|].
    rewrite split_concat. apply Permutation_refl. }
  assert (ND' : NoDup (map fst (concat (c_order g seed (split_batches (c_chunk g) [] l))))).
  { eapply Permutation_NoDup; [apply Permutation_map; apply Permutation_sym; exact P|exact ND]. }
  unfold idx_upsert. destruct (c_hnsw g).
  - destruct l; [exfalso; apply NE; reflexivity|reflexivity].
  - rewrite run_batches_ok; [reflexivity|exact ND'|].
    intros b I. eapply split_nonempty. eapply Permutation_in; [apply AO|exact I].
Qed.

(** ** Stored versions *)

Lemma newest_in d i t v : newest d i = Some (t, v) -> In (i, t, v) d.
Proof.
  revert t v. induction d as [|[[k t0] v0] d IH]; intros t v H; simpl in H; [discriminate|].
  destruct (k =? i) eqn:E.
  - apply Z.eqb_eq in E. subst k. destruct (newest d i) as [[t' v']|].
    + destruct (t0 <? t'); injection H as <- <-; [right; apply IH; reflexivity|left; reflexivity].
    + injection H as <- <-. left. reflexivity.
  - right. apply IH. exact H.
Qed.

Lemma newest_max d i t v t' v' : newest d i = Some (t, v) -> In (i, t', v') d -> t' <= t.
Proof.
  revert t v. induction d as [|[[k t0] v0] d IH]; intros t v H I; simpl in *; [discriminate|].
  destruct I as [I|I].
  - injection I as -> -> ->. rewrite Z.eqb_refl in H.
    destruct (newest d i) as [[t1 v1]|].
    + destruct (t' <? t1) eqn:L; injection H as <- <-; [apply Z.ltb_lt in L; lia|lia].
    + injection H as <- <-. lia.
  - destruct (k =? i).
    + destruct (newest d i) as [[t1 v1]|] eqn:N.
      * pose proof (IH t1 v1 eq_refl I).
        destruct (t0 <? t1) eqn:L; injection H as <- <-; [assumption|apply Z.ltb_ge in L; lia].
      * exfalso. clear IH H. induction d as [|[[k2 t2] v2] d IHd]; [destruct I|].
        simpl in N. destruct (k2 =? i) eqn:E2.
        { destruct (newest d i) as [[? ?]|]; [destruct (t2 <? z)|]; discriminate. }
        destruct I as [I|I]; [injection I as -> -> ->; rewrite Z.eqb_refl in E2; discriminate|].
        apply IHd; assumption.
    + eapply IH; eassumption.
Qed.

Lemma newest_none d i t v : newest d i = None -> ~ In (i, t, v) d.
Proof.
  intros N I. induction d as [|[[k2 t2] v2] d IHd]; [destruct I|].
  simpl in N. destruct (k2 =? i) eqn:E2.
  { destruct (newest d i) as [[? ?]|]; [destruct (t2 <? z)|]; discriminate. }
  destruct I as [I|I]; [injection I as -> -> ->; rewrite Z.eqb_refl in E2; discriminate|].
  apply IHd; assumption.
Qed.

(** Of one id and one timestamp there is one version. *)
Definition functional (d : list version) : Prop :=
  forall i t v v', In (i, t, v) d -> In (i, t, v') d -> v = v'.

Lemma stored_by_max d i t v :
  functional d -> In (i, t, v) d -> (forall t' v', In (i, t', v') d -> t' <= t) -> stored d i = v.
Proof.
  intros F I M. unfold stored. destruct (newest d i) as [[t1 v1]|] eqn:N.
  - pose proof (newest_in _ _ _ _ N) as I1. pose proof (newest_max _ _ _ _ _ _ N I) as L1.
    pose proof (M _ _ I1) as L2. assert (t1 = t) by lia. subst t1.
    eapply F; eassumption.
  - exfalso. eapply newest_none; eassumption.
Qed.

Lemma stored_same d d' i :
  functional d -> functional d' ->
  (forall t v, In (i, t, v) d <-> In (i, t, v) d') -> stored d i = stored d' i.
Proof.
  intros F F' E. unfold stored at 1. destruct (newest d i) as [[t v]|] eqn:N.
  - symmetry. apply stored_by_max with (t := t); [exact F'| |].
    + apply E. apply newest_in. exact N.
    + intros t' v' I. apply E in I. eapply newest_max; eassumption.
  - unfold stored. destruct (newest d' i) as [[t v]|] eqn:N'; [|reflexivity].
    exfalso. apply (newest_none _ _ t v N). apply E. apply newest_in. exact N'.
Qed.

Lemma put_versions_in vs : forall d x, In x (put_versions d vs) <-> In x vs \/ In x d.
Proof.
  induction vs as [|y vs IH]; intros d x; simpl; [tauto|].
  unfold put_versions in *. simpl. rewrite IH. simpl. tauto.
Qed.

Lemma op_versions_ts o ts i t v : In (i, t, v) (op_versions o ts) -> t = ts.
Proof.
  destruct o; simpl; try (intros []); intro I; apply in_map_iff in I; destruct I as [x [E _]];
    injection E as _ <- _; reflexivity.
Qed.

Lemma op_versions_ids o ts i t v : In (i, t, v) (op_versions o ts) -> In i (op_ids o).
Proof.
  destruct o; simpl; try (intros []); intro I; apply in_map_iff in I; destruct I as [x [E I]].
  - injection E as <- _ _. apply in_map. exact I.
  - injection E as <- _ _. exact I.
Qed.

Lemma op_ids_versions o ts i : In i (op_ids o) -> exists v, In (i, ts, v) (op_versions o ts).
Proof.
  destruct o; simpl; try (intros []); intro I.
  - destruct (in_fst_pair _ _ I) as [v V]. exists (Some v).
    apply in_map_iff. exists (i, v). split; [reflexivity|exact V].
  - exists None. apply in_map_iff. exists i. split; [reflexivity|exact I].
Qed.

(** ** The effect of one entry on contents *)

Definition eff (o : op) (c : contents) : contents :=
  match o with OAdd l => cput_all c l | ODel l => cdel_all c l | _ => c end.

Lemma eff_notin o c i : ~ In i (op_ids o) -> eff o c i = c i.
Proof.
  destruct o; simpl; intro N; try reflexivity.
  - apply cput_all_notin. exact N.
  - apply cdel_all_notin. exact N.
Qed.

Lemma eff_in o c i ts v :
  (match o with OAdd l => NoDup (map fst l) | _ => True end) ->
  In (i, ts, v) (op_versions o ts) -> eff o c i = v.
Proof.
  destruct o; simpl; try (intros _ []); intros ND I; apply in_map_iff in I; destruct I as [x [E I]].
  - destruct x as [k w]. injection E as <- <-. apply cput_all_in; assumption.
  - injection E as <- <-. apply cdel_all_in. exact I.
Qed.

(** ** Replay *)

Definition effs (es : list entry) (c : contents) : contents :=
  fold_left (fun c e => eff (e_op e) c) es c.

Lemma eff_ext o c1 c2 i : c1 i = c2 i -> eff o c1 i = eff o c2 i.
Proof.
  destruct o; simpl; intro H; try exact H.
  - apply cput_all_ext. exact H.
  - apply cdel_all_ext. exact H.
Qed.

Lemma effs_ext es : forall c1 c2 i, c1 i = c2 i -> effs es c1 i = effs es c2 i.
Proof.
  induction es as [|e es IH]; intros c1 c2 i H; [exact H|].
  change (effs es (eff (e_op e) c1) i = effs es (eff (e_op e) c2) i).
  apply IH. apply eff_ext. exact H.
Qed.

Lemma cput_filter lo hi l : forall c i, in_rng lo hi i = true ->
  cput_all c (filter (fun p => in_rng lo hi (fst p)) l) i = cput_all c l i.
Proof.
  induction l as [|[k v] l IH]; intros c i R; [reflexivity|].
  cbn [filter fst]. destruct (in_rng lo hi k) eqn:E.
  - change (cput_all (cput c k v) (filter (fun p => in_rng lo hi (fst p)) l) i
            = cput_all (cput c k v) l i). apply IH. exact R.
  - change (cput_all c (filter (fun p => in_rng lo hi (fst p)) l) i
            = cput_all (cput c k v) l i). rewrite IH by exact R.
    apply cput_all_ext. unfold cput. destruct (i =? k) eqn:E2; [|reflexivity].
    apply Z.eqb_eq in E2. subst. congruence.
Qed.

Lemma cdel_filter lo hi l : forall c i, in_rng lo hi i = true ->
  cdel_all c (filter (in_rng lo hi) l) i = cdel_all c l i.
Proof.
  induction l as [|k l IH]; intros c i R; [reflexivity|].
  simpl filter. destruct (in_rng lo hi k) eqn:E.
  - change (cdel_all (cdel c k) (filter (in_rng lo hi) l) i = cdel_all (cdel c k) l i).
    apply IH. exact R.
  - change (cdel_all c (filter (in_rng lo hi) l) i = cdel_all (cdel c k) l i).
    rewrite IH by exact R. apply cdel_all_ext. unfold cdel. destruct (i =? k) eqn:E2; [|reflexivity].
    apply Z.eqb_eq in E2. subst. congruence.
Qed.

Lemma NoDup_map_filter (f : Z * Z -> bool) l : NoDup (map fst l) -> NoDup (map fst (filter f l)).
Proof.
  induction l as [|x l IH]; simpl; intro N; [constructor|]. inversion N; subst.
  destruct (f x); simpl; [|auto]. constructor; [|auto].
  intro I. apply H1. apply in_map_iff in I. destruct I as [y [E I]]. apply filter_In in I.
  apply in_map_iff. exists y. tauto.
Qed.

Definition adds_of (e : entry) : list (Z * Z) := match e_op e with OAdd l => l | _ => [] end.

Lemma added_once_head e es : added_once (e :: es) -> added_once es.
Proof. intros A pre mid post E. apply (A (e :: pre) mid post). rewrite E. reflexivity. Qed.

(** The distinctness needed by the loop when [vs] is pending. *)
Definition pend_once (vs : list (Z * Z)) (es : list entry) : Prop :=
  added_once es /\
  forall mid post, es = mid ++ post ->
    (forall e, In e mid -> match e_op e with ODel _ => False | _ => True end) ->
    NoDup (map fst vs ++ flat_map (fun e => match e_op e with OAdd l => map fst l | _ => [] end) mid).

Lemma pend_nil es : added_once es -> pend_once [] es.
Proof. intro A. split; [exact A|]. intros mid post E D. apply (A [] mid post); assumption. Qed.

Lemma pend_vs vs es : pend_once vs es -> NoDup (map fst vs).
Proof.
  intros [_ P]. specialize (P [] es eq_refl). simpl in P. rewrite app_nil_r in P. apply P. intros e [].
Qed.

Lemma NoDup_incl_app (a a' b : list Z) :
  NoDup (a ++ b) -> NoDup a' -> (forall x, In x a' -> In x a) -> NoDup (a' ++ b).
Proof.
  intros N N' S. induction a' as [|x a' IH]; simpl; [apply NoDup_app_r in N; exact N|].
  inversion N'; subst. constructor.
  - intro I. apply in_app_or in I. destruct I as [I|I]; [contradiction|].
    eapply NoDup_app_disj; [exact N| |exact I]. apply S. left. reflexivity.
  - apply IH; [assumption|]. intros y I. apply S. right. exact I.
Qed.

Lemma pend_add lo hi vs e l es :
  e_op e = OAdd l -> pend_once vs (e :: es) ->
  pend_once (vs ++ filter (fun p => in_rng lo hi (fst p)) l) es.
Proof.
  intros E [A P]. split; [eapply added_once_head; exact A|].
  intros mid post EQ D.
  specialize (P (e :: mid) post). simpl in P. rewrite EQ in P. specialize (P eq_refl).
  rewrite E in P. rewrite app_assoc in P.
  assert (N : NoDup ((map fst vs ++ map fst l) ++
    flat_map (fun e => match e_op e with OAdd l => map fst l | _ => [] end) mid)).
  { apply P. intros e0 [<-|I]; [rewrite E; exact I|apply D; exact I]. }
  rewrite map_app.
  eapply NoDup_incl_app; [exact N| |].
  - apply NoDup_app_l in N. rewrite <- map_app in N. rewrite <- map_app.
    assert (Q : vs ++ filter (fun p => in_rng lo hi (fst p)) l =
      vs ++ filter (fun p => in_rng lo hi (fst p)) l) by reflexivity.
    clear -N. induction vs as [|x vs IH]; simpl in *.
    + apply NoDup_map_filter. exact N.
    + inversion N; subst. constructor; [|auto].
      intro I. apply H1. rewrite map_app in *. apply in_or_app. apply in_app_or in I.
      destruct I as [I|I]; [left; exact I|right].
      apply in_map_iff in I. destruct I as [y [Ey I]]. apply filter_In in I.
      apply in_map_iff. exists y. tauto.
  - intros x I. apply in_or_app. apply in_app_or in I. destruct I as [I|I]; [left; exact I|right].
    apply in_map_iff in I. destruct I as [y [Ey I]]. apply filter_In in I.
    apply in_map_iff. exists y. tauto.
Qed.

Lemma pend_skip vs e es :
  (match e_op e with OAdd _ | ODel _ => False | _ => True end) ->
  pend_once vs (e :: es) -> pend_once vs es.
Proof.
  intros E [A P]. split; [eapply added_once_head; exact A|].
  intros mid post EQ D. specialize (P (e :: mid) post). rewrite EQ in P. specialize (P eq_refl).
  simpl in P. destruct (e_op e) eqn:O; try contradiction; simpl in P; apply P;
    intros e0 [<-|I]; try (rewrite O; exact I); apply D; exact I.
Qed.

Lemma replay_loop_has g seed lo hi i :
  any_order g -> in_rng lo hi i = true ->
  forall es c vs ids, pend_once vs es -> (vs = [] \/ ids = []) ->
    replay_loop g seed lo hi es c vs ids i = effs es (cdel_all (cput_all c vs) ids) i.
Proof.
  intros AO R. induction es as [|e es IH]; intros c vs ids P X.
  - simpl. pose proof (pend_vs _ _ P) as ND. destruct vs as [|x vs].
    + destruct ids; reflexivity.
    + destruct X as [X| ->]; [discriminate|]. rewrite idx_upsert_has by assumption. reflexivity.
  - pose proof (pend_vs _ _ P) as ND.
    change (effs (e :: es) (cdel_all (cput_all c vs) ids) i)
      with (effs es (eff (e_op e) (cdel_all (cput_all c vs) ids)) i).
    cbn [replay_loop]. destruct (e_op e) as [l|l| |mid|m] eqn:O.
    + (* add *)
      pose proof (pend_add lo hi vs e l es O P) as P1.
      set (fl := filter (fun p => in_rng lo hi (fst p)) l) in *.
      set (c1 := match ids with [] => c | _ => fst (idx_delete c ids) end).
      assert (C : cput_all c1 (vs ++ fl) i = eff (OAdd l) (cdel_all (cput_all c vs) ids) i).
      { simpl eff. rewrite cput_all_app. unfold fl. rewrite cput_filter by exact R.
        apply cput_all_ext. unfold c1. destruct X as [-> | ->].
        - destruct ids; reflexivity.
        - reflexivity. }
      destruct (c_batch g <=? length (vs ++ fl))%nat.
      * rewrite IH; [|apply pend_nil; apply P1|left; reflexivity].
        apply effs_ext. change (cdel_all (cput_all (fst (idx_upsert g seed c1 (vs ++ fl))) []) [] i)
          with (fst (idx_upsert g seed c1 (vs ++ fl)) i).
        rewrite idx_upsert_has; [exact C|exact AO|exact (pend_vs _ _ P1)].
      * rewrite IH; [|exact P1|right; reflexivity]. apply effs_ext. exact C.
    + (* delete *)
      assert (P1 : pend_once [] es) by (apply pend_nil; eapply added_once_head; apply P).
      set (fl := filter (in_rng lo hi) l) in *.
      set (c1 := match vs with [] => c | _ => fst (idx_upsert g seed c vs) end).
      assert (C : cdel_all c1 (ids ++ fl) i = eff (ODel l) (cdel_all (cput_all c vs) ids) i).
      { simpl eff. unfold cdel_all at 1. rewrite fold_left_app.
        change (cdel_all (cdel_all c1 ids) fl i = cdel_all (cdel_all (cput_all c vs) ids) l i).
        unfold fl. rewrite cdel_filter by exact R. apply cdel_all_ext. apply cdel_all_ext.
        unfold c1. destruct vs as [|x vs]; [reflexivity|].
        rewrite idx_upsert_has by assumption. reflexivity. }
      destruct (c_batch g <=? length (ids ++ fl))%nat.
      * rewrite IH; [|exact P1|left; reflexivity]. apply effs_ext. exact C.
      * rewrite IH; [|exact P1|left; reflexivity]. apply effs_ext. exact C.
    + apply IH; [eapply pend_skip; [rewrite O; exact I|exact P]|exact X].
    + apply IH; [eapply pend_skip; [rewrite O; exact I|exact P]|exact X].
    + apply IH; [eapply pend_skip; [rewrite O; exact I|exact P]|exact X].
Qed.

(** Outside the index's range replay changes nothing. *)
Lemma run_batches_out bs i : forall c, (forall b p, In b bs -> In p b -> fst p <> i) ->
  fst (run_batches c bs) i = c i.
Proof.
  induction bs as [|b bs IH]; intros c N; [reflexivity|]. simpl.
  destruct (flat_upsert c b) as [c1 ok1] eqn:E. destruct (run_batches c1 bs) as [c2 ok2] eqn:E2.
  simpl. assert (C1 : c1 i = c i).
  { unfold flat_upsert in E. destruct b as [|x b]; [congruence|].
    destruct (ids_distinct (map fst (x :: b))); [|congruence].
    assert (E' : c1 = cput_all c (x :: b)) by congruence. rewrite E'.
    apply cput_all_notin. intro I. apply in_map_iff in I. destruct I as [p [Ep I]].
    apply (N (x :: b) p); [left; reflexivity|exact I|exact Ep]. }
  rewrite <- C1. specialize (IH c1). rewrite E2 in IH. apply IH.
  intros b' p I J. apply (N b' p); [right; exact I|exact J].
Qed.

Lemma idx_upsert_out g seed c l i :
  any_order g -> ~ In i (map fst l) -> fst (idx_upsert g seed c l) i = c i.
Proof.
  intros AO N.
  assert (P : Permutation (concat (c_order g seed (split_batches (c_chunk g) [] l))) l).
  { eapply Permutation_trans; [apply concat_perm; apply AO|].
    rewrite split_concat. apply Permutation_refl. }
  unfold idx_upsert. destruct (c_hnsw g).
  - destruct l as [|x l]; [reflexivity|]. cbn [fst]. apply cput_all_notin.
    intro I. apply N. eapply Permutation_in; [apply Permutation_map; exact P|exact I].
  - apply run_batches_out. intros b p I J E. apply N. rewrite <- E. apply in_map.
    eapply Permutation_in; [exact P|]. apply in_concat. exists b. split; assumption.
Qed.

Lemma replay_loop_out g seed lo hi i :
  any_order g -> in_rng lo hi i = false ->
  forall es c vs ids, ~ In i (map fst vs) -> ~ In i ids ->
    replay_loop g seed lo hi es c vs ids i = c i.
Proof.
  intros AO R. induction es as [|e es IH]; intros c vs ids NV NI.
  - simpl. destruct vs as [|x vs].
    + destruct ids; [reflexivity|]. apply cdel_all_notin. exact NI.
    + apply idx_upsert_out; assumption.
  - cbn [replay_loop]. destruct (e_op e) as [l|l| |mid|m]; try (apply IH; assumption).
    + set (fl := filter (fun p => in_rng lo hi (fst p)) l).
      set (c1 := match ids with [] => c | _ => fst (idx_delete c ids) end).
      assert (C : c1 i = c i) by (unfold c1; destruct ids; [reflexivity|apply cdel_all_notin; exact NI]).
      assert (NF : ~ In i (map fst (vs ++ fl))).
      { rewrite map_app. intro I. apply in_app_or in I. destruct I as [I|I]; [contradiction|].
        unfold fl in I. apply in_map_iff in I. destruct I as [p [Ep I]]. apply filter_In in I.
        destruct I as [_ I]. subst i. congruence. }
      destruct (c_batch g <=? length (vs ++ fl))%nat.
      * rewrite IH; [|intros []|intros []]. rewrite idx_upsert_out; assumption.
      * rewrite IH; [exact C|exact NF|intros []].
    + set (fl := filter (in_rng lo hi) l).
      set (c1 := match vs with [] => c | _ => fst (idx_upsert g seed c vs) end).
      assert (C : c1 i = c i) by (unfold c1; destruct vs; [reflexivity|apply idx_upsert_out; assumption]).
      assert (NF : ~ In i (ids ++ fl)).
      { intro I. apply in_app_or in I. destruct I as [I|I]; [contradiction|].
        unfold fl in I. apply filter_In in I. destruct I as [_ I]. congruence. }
      destruct (c_batch g <=? length (ids ++ fl))%nat.
      * rewrite IH; [|intros []|intros []].
        cbn [idx_delete fst]. rewrite cdel_all_notin by exact NF. exact C.
      * rewrite IH; [exact C|intros []|exact NF].
Qed.

Lemma last_data_bound es : forall n cur, (last_data es n cur <= Nat.max cur (n + length es))%nat.
Proof.
  induction es as [|e es IH]; intros n cur; simpl; [lia|].
  destruct (is_data e).
  - specialize (IH (S n) (S n)). lia.
  - specialize (IH (S n) cur). lia.
Qed.

Lemma last_data_ge es : forall n cur, (cur <= n)%nat -> (cur <= last_data es n cur)%nat.
Proof.
  induction es as [|e es IH]; intros n cur L; simpl; [lia|].
  destruct (is_data e).
  - specialize (IH (S n) (S n)). lia.
  - specialize (IH (S n) cur). lia.
Qed.

(** After the last data entry there are only other entries. *)
Lemma last_data_after es : forall n cur k e, (cur <= n)%nat ->
  nth_error es k = Some e -> (last_data es n cur <= n + k)%nat -> is_data e = false.
Proof.
  induction es as [|x es IH]; intros n cur k e L N B; [destruct k; discriminate|].
  simpl in B. destruct k as [|k]; simpl in N.
  - injection N as ->. destruct (is_data e) eqn:D; [|reflexivity].
    exfalso. pose proof (last_data_ge es (S n) (S n) (Nat.le_refl _)). lia.
  - apply (IH (S n) (if is_data x then S n else cur) k e).
    + destruct (is_data x); lia.
    + exact N.
    + lia.
Qed.

(** ** Scan *)

Lemma dedup_in l x : In x (dedup l) <-> In x l.
Proof.
  induction l as [|i l IH]; simpl; [tauto|].
  destruct (existsb (Z.eqb i) l) eqn:E; simpl; rewrite IH; [|tauto].
  split; [tauto|]. intros [->|I]; [|exact I].
  apply existsb_exists in E. destruct E as [k [I E]]. apply Z.eqb_eq in E. subst. exact I.
Qed.

Lemma dedup_nodup l : NoDup (dedup l).
Proof.
  induction l as [|i l IH]; simpl; [constructor|].
  destruct (existsb (Z.eqb i) l) eqn:E; [exact IH|]. constructor; [|exact IH].
  intro I. apply (proj1 (dedup_in l i)) in I.
  assert (X : existsb (Z.eqb i) l = true) by (apply existsb_exists; exists i; split; [exact I|apply Z.eqb_refl]).
  congruence.
Qed.

Lemma scan_in d lo hi i v :
  In (i, v) (scan_data d lo hi) <-> in_rng lo hi i = true /\ stored d i = Some v.
Proof.
  unfold scan_data. rewrite in_flat_map. split.
  - intros [k [I J]]. apply filter_In in I. destruct I as [_ R].
    destruct (stored d k) as [w|] eqn:S; [|destruct J]. destruct J as [J|[]].
    injection J as -> ->. split; assumption.
  - intros [R S]. exists i. split.
    + apply filter_In. split; [|exact R]. apply dedup_in.
      unfold stored in S. destruct (newest d i) as [[t w]|] eqn:N; [|discriminate].
      apply newest_in in N. apply in_map_iff. exists (i, t, w). split; [reflexivity|exact N].
    + rewrite S. left. reflexivity.
Qed.

Lemma scan_nodup d lo hi : NoDup (map fst (scan_data d lo hi)).
Proof.
  unfold scan_data.
  assert (G : forall l, NoDup l -> NoDup (map fst
    (flat_map (fun i => match stored d i with Some v => [(i, v)] | None => [] end) l))).
  { induction l as [|i l IH]; intro N2; [constructor|]. inversion N2; subst.
    cbn [flat_map]. destruct (stored d i); cbn [app map fst]; [|auto]. constructor; [|auto].
    intro I. apply in_map_iff in I. destruct I as [[k v] [E I]]. simpl in E. subst.
    apply in_flat_map in I. destruct I as [k2 [I J]]. destruct (stored d k2); [|destruct J].
    destruct J as [J|[]]. injection J as -> _. contradiction. }
  apply G. apply NoDup_filter. apply dedup_nodup.
Qed.

Lemma build_has g seed d lo hi i :
  any_order g ->
  build_contents g seed d lo hi i = if in_rng lo hi i then stored d i else None.
Proof.
  intro AO. unfold build_contents.
  pose proof (scan_nodup d lo hi) as ND. pose proof (fun v => scan_in d lo hi i v) as SI.
  assert (G : forall l, l = scan_data d lo hi -> cput_all cempty l i =
    if in_rng lo hi i then stored d i else None).
  { intros l ->. destruct (in_rng lo hi i) eqn:R.
    - destruct (stored d i) as [v|] eqn:S.
      + apply cput_all_in; [exact ND|]. apply SI. split; [reflexivity|reflexivity].
      + rewrite cput_all_notin; [reflexivity|]. intro I. destruct (in_fst_pair _ _ I) as [v V].
        apply SI in V. destruct V; discriminate.
    - rewrite cput_all_notin; [reflexivity|]. intro I. destruct (in_fst_pair _ _ I) as [v V].
      apply SI in V. destruct V; discriminate. }
  destruct (scan_data d lo hi) as [|x l] eqn:E.
  - specialize (G [] eq_refl). exact G.
  - rewrite idx_upsert_has by assumption. apply G. reflexivity.
Qed.
