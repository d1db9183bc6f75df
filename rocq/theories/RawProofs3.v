(** Proofs for the raw API, part 3: the invariant of calm runs. *)
From Coq Require Import ZArith List Lia Bool PeanoNat.
From Verif Require Import Bytes SMap Outcome CodecModel CodecSpec CodecProofs2 MvccModel RawModel RawSpec RawProofs1 RawProofs2.
Import ListNotations.
Open Scope Z_scope.

(** ** the commands of the writer are well formed *)
Lemma of_walk_write ts w c r : of_walk ts w = NWrite c r ->
  exists items states, w = WDone items states /\ c = CWrite ts items.
Proof.
  destruct w as [k|r'|items states]; cbn [of_walk]; try discriminate.
  destruct items; intros H; inversion H; subst. eauto.
Qed.
Lemma wadd_done i st w items states : wadd i st w = WDone items states ->
  exists items', items = i ++ items' /\ exists states', w = WDone items' states'.
Proof. destruct w; cbn [wadd]; try discriminate. intros H. inversion H; subst. eauto. Qed.

Lemma pia_items atomic dl af kvs : forall reads items states, pia_walk atomic dl af kvs reads = WDone items states ->
  forall i, In i items -> exists kv, In kv kvs /\ i = value_item dl (fst kv) (snd kv).
Proof.
  induction kvs as [|[k v] kvs IH]; intros reads items states; cbn [pia_walk].
  - intros H. inversion H. intros i [].
  - destruct reads as [|[x|] reads]; try discriminate; intros H.
    + destruct atomic; try discriminate. apply wadd_done in H. destruct H as (it & -> & st & H).
      intros i I. destruct (IH _ _ _ H i I) as (kv & K & E). exists kv. split; auto. right; auto.
    + apply wadd_done in H. destruct H as (it & -> & st & H). intros i [<-|I]; [exists (k, v); split; auto; left; auto|].
      destruct (IH _ _ _ H i I) as (kv & K & E). exists kv. split; auto. right; auto.
Qed.
Lemma cas_items atomic dl af kvs : forall expects reads items states, cas_walk atomic dl af kvs expects reads = WDone items states ->
  forall i, In i items -> exists kv, In kv kvs /\ i = cas_item dl (fst kv) (snd kv).
Proof.
  induction kvs as [|[k v] kvs IH]; intros expects reads items states; cbn [cas_walk].
  - intros H. inversion H. intros i [].
  - assert (S: forall e r, wadd [] false (cas_walk atomic dl af kvs e r) = WDone items states ->
       forall i, In i items -> exists kv, In kv ((k, v) :: kvs) /\ i = cas_item dl (fst kv) (snd kv)).
    { intros e r H. apply wadd_done in H. destruct H as (it & -> & st & H). intros i I.
      destruct (IH _ _ _ _ H i I) as (kv & K & E). exists kv. split; auto. right; auto. }
    assert (C: forall e r, wadd [cas_item dl k v] true (cas_walk atomic dl af kvs e r) = WDone items states ->
       forall i, In i items -> exists kv, In kv ((k, v) :: kvs) /\ i = cas_item dl (fst kv) (snd kv)).
    { intros e r H. apply wadd_done in H. destruct H as (it & -> & st & H). intros i [<-|I]; [exists (k, v); split; auto; left; auto|].
      destruct (IH _ _ _ _ H i I) as (kv & K & E). exists kv. split; auto. right; auto. }
    destruct expects as [|e expects]; destruct reads as [|[x|] reads]; try discriminate.
    + intros H. inversion H. intros i [].
    + intros H. inversion H. intros i [].
    + destruct (beqb x e); [apply C|]. destruct atomic; [discriminate|apply S].
    + destruct (is_empty e); [apply C|]. destruct atomic; [discriminate|apply S].
Qed.
Lemma delete_items keys : forall reads items states, delete_walk keys reads = WDone items states ->
  forall i, In i items -> exists k, In k keys /\ i = mkI k kDelete 0 [].
Proof.
  induction keys as [|k keys IH]; intros reads items states; cbn [delete_walk].
  - intros H. inversion H. intros i [].
  - destruct reads as [|x reads]; try discriminate; intros H.
    apply wadd_done in H. destruct H as (it & -> & st & H). intros i [<-|I]; [exists k; split; auto; left; auto|].
    destruct (IH _ _ _ H i I) as (k' & K & E). exists k'. split; auto. right; auto.
Qed.

Lemma value_item_ok t0 ttl k v : bytes_ok k -> 0 <= t0 + ttl < 2 ^ 63 -> (ttl <> 0 -> v <> []) ->
  item_ok (value_item (deadline t0 ttl) k v).
Proof.
  intros K T V. unfold value_item, deadline. destruct (ttl =? 0) eqn:E.
  - cbn. split; [auto|]. split; [cbn; lia|discriminate].
  - apply Z.eqb_neq in E. destruct (t0 + ttl =? 0); split; auto; cbn [i_ttl i_flag i_val]; split; auto; try lia; discriminate.
Qed.

Lemma intersect_bytes_ok a b : bytes_ok (fst a) -> bytes_ok (snd a) -> bytes_ok (fst b) -> bytes_ok (snd b) ->
  bytes_ok (fst (intersect_range a b)) /\ bytes_ok (snd (intersect_range a b)).
Proof. intros. unfold intersect_range. cbn [fst snd]. split; [destruct (bleb (fst a) (fst b))|destruct (bleb (snd a) (snd b))]; auto. Qed.

Lemma write_ok range q ts t0 reads c r : next_action range q ts t0 reads = NWrite c r ->
  bytes_ok (fst range) -> bytes_ok (snd range) -> req_ok t0 q -> (takes_ts q = true -> ts_ok ts) -> cmd_ok c.
Proof.
  intros H R1 R2 Q T.
  destruct q as [keys|kvs ttl|kvs ttl atomic|keys|rg|kvs expects ttl atomic]; cbn [next_action req_ok takes_ts] in *.
  - exfalso. apply of_walk_write in H. destruct H as (items & states & W & _). revert W.
    generalize (@nil (bytes * bytes)). revert reads. clear. induction keys as [|k keys IH]; intros reads found; cbn [get_walk]; try discriminate.
    destruct reads; try discriminate. apply IH.
  - inversion H; subst. split; auto. apply Forall_forall. intros i I. apply in_map_iff in I. destruct I as (kv & <- & I).
    destruct Q as ((Q1 & Q2 & Q3) & Q4). rewrite Forall_forall in Q1. apply value_item_ok; auto.
    intros N. specialize (Q4 N). rewrite Forall_forall in Q4. auto.
  - apply of_walk_write in H. destruct H as (items & states & W & ->). split; auto. apply Forall_forall. intros i I.
    destruct (pia_items _ _ _ _ _ _ _ W i I) as (kv & K & ->).
    destruct Q as ((Q1 & Q2 & Q3) & Q4). rewrite Forall_forall in Q1. apply value_item_ok; auto.
    intros N. specialize (Q4 N). rewrite Forall_forall in Q4. auto.
  - apply of_walk_write in H. destruct H as (items & states & W & ->). split; auto. apply Forall_forall. intros i I.
    destruct (delete_items _ _ _ _ W i I) as (k & K & ->). rewrite Forall_forall in Q.
    split; [cbn; auto|]. cbn. split; [lia|discriminate].
  - destruct (negb _); try discriminate. inversion H; subst. destruct Q. apply intersect_bytes_ok; auto.
  - apply of_walk_write in H. destruct H as (items & states & W & ->). split; auto. apply Forall_forall. intros i I.
    destruct (cas_items _ _ _ _ _ _ _ _ W i I) as ([k v] & K & ->). destruct Q as (Q1 & Q2 & Q3). rewrite Forall_forall in Q1.
    cbn [fst snd]. specialize (Q1 _ K). cbn [fst] in Q1. destruct v as [|b v]; cbn [cas_item].
    + split; [cbn; auto|]. cbn. split; [lia|discriminate].
    + apply value_item_ok; auto. discriminate.
Qed.

(** ** list helpers *)
Lemma nth_set_nth {A} n m (a : A) l : nth_error (set_nth n a l) m =
  if Nat.eqb n m then match nth_error l m with Some _ => Some a | None => None end else nth_error l m.
Proof.
  revert n m. induction l as [|x l IH]; intros n m; destruct n, m; cbn [set_nth nth_error Nat.eqb]; auto.
  destruct (Nat.eqb n m); auto.
Qed.
Lemma In_set_nth {A} n (a x : A) l : In x (set_nth n a l) -> x = a \/ In x l.
Proof.
  revert n. induction l as [|y l IH]; intros n; destruct n; cbn [set_nth In]; auto.
  - intros [->|I]; auto.
  - intros [->|I]; auto. apply IH in I. tauto.
Qed.
Lemma In_set_nth_ex {A} n (a b : A) l (P : A -> Prop) : nth_error l n = Some b -> (P b -> P a) ->
  (exists x, In x l /\ P x) -> exists x, In x (set_nth n a l) /\ P x.
Proof.
  revert n. induction l as [|y l IH]; intros n N H (x & I & Px); [destruct I|].
  destruct n; cbn [set_nth nth_error] in *.
  - injection N as ->. destruct I as [->|I]; [exists a; split; [left|]; auto|exists x; split; [right|]; auto].
  - destruct I as [->|I]; [exists x; split; [left|]; auto|].
    destruct (IH n N H (ex_intro _ x (conj I Px))) as (z & Iz & Pz). exists z. split; [right|]; auto.
Qed.

Lemma nth_error_firstn_lt {A} (l : list A) n j : (j < n)%nat -> nth_error (firstn n l) j = nth_error l j.
Proof.
  revert n j. induction l as [|x l IH]; intros n j H; destruct n, j; cbn; auto; try lia. apply IH. lia.
Qed.
Lemma nth_error_firstn_some {A} (l : list A) n j x : nth_error (firstn n l) j = Some x -> (j < n)%nat /\ nth_error l j = Some x.
Proof.
  intros H. assert (j < n)%nat.
  { assert (j < length (firstn n l))%nat by (apply nth_error_Some; congruence). rewrite firstn_length in *. lia. }
  split; auto. rewrite nth_error_firstn_lt in H; auto.
Qed.
Lemma firstn_S_nth {A} (l : list A) n x : nth_error l n = Some x -> firstn (S n) l = firstn n l ++ [x].
Proof.
  revert n. induction l as [|y l IH]; intros n H; destruct n; cbn in *; try discriminate.
  - congruence.
  - f_equal. apply IH; auto.
Qed.
Lemma firstn_firstn_le {A} (l : list A) n m : (n <= m)%nat -> firstn n (firstn m l) = firstn n l.
Proof. intros H. rewrite firstn_firstn. f_equal. lia. Qed.
Lemma firstn_app_le {A} (l l' : list A) n : (n <= length l)%nat -> firstn n (l ++ l') = firstn n l.
Proof. intros H. rewrite firstn_app. replace (n - length l)%nat with 0%nat by lia. cbn. apply app_nil_r. Qed.

Lemma lin_run_app range l h l' h' l'' : lin_run range l h l' -> lin_run range l' h' l'' -> lin_run range l (h ++ h') l''.
Proof. induction 1; cbn; auto. intros. econstructor; eauto. Qed.
Lemma lin_run_one range l e l' : lin_step range l e l' -> lin_run range l [e] l'.
Proof. intros. econstructor; eauto. constructor. Qed.
Lemma visible_app a b : visible_events (a ++ b) = visible_events a ++ visible_events b.
Proof. induction a as [|[] a IH]; cbn; congruence. Qed.

(** ** the invariant *)
Definition cmds (s : rst) (n : nat) : list cmd := map snd (firstn n (r_log s)).

Definition op_ok (s : rst) (L : lin) (lp : peer) (o : op) : Prop :=
  o_peer o = r_leader s /\ valid_req (r_range s) (o_req o) = true /\ req_ok (o_t0 o) (o_req o) /\
  l_calls L (o_id o) = Some (Waiting (o_req o) (o_t0 o) (if is_get (o_req o) then o_reads o else [])) /\
  (takes_ts (o_req o) = true -> ts_ok (o_ts o) /\ o_ts o <= p_floor lp) /\
  (takes_ts (o_req o) = false -> o_ts o = 0) /\
  (o_prop o = None ->
     (forall c, ~ In (o_id o, c) (r_log s)) /\
     (is_get (o_req o) = true -> forall keys, o_req o = RGet keys -> (length (o_reads o) <= length keys)%nat) /\
     (is_get (o_req o) = false ->
        agree (alog (cmds s (p_applied lp))) (r_now s) (latch_keys (o_req o)) (o_reads o)) /\
     (forall id c k, In (id, c) (r_log s) -> key_of c k -> In k (latch_keys (o_req o)) -> cmd_ts c < o_ts o) /\
     (forall c k, In c (unapplied s) -> In k (latch_keys (o_req o)) -> ~ covers c k /\ ~ key_of c k)) /\
  (o_prop o <> None -> exists j c, (p_applied lp <= j)%nat /\ nth_error (r_log s) j = Some (o_id o, c)).

Definition pend_ok (s : rst) (L : lin) (j : nat) (id : Z) (c : cmd) : Prop :=
  exists q t r, l_calls L id = Some (Waiting q t []) /\ is_get q = false /\
    spec (r_range s) (alog (cmds s j)) (r_now s) t q = (eff c (alog (cmds s j)), r) /\
    forall o, In o (r_ops s) -> o_id o = id -> o_prop o = Some r.

Record Inv (s : rst) (L : lin) (rl : nat) (lp : peer) : Prop := {
  iv_lead : leader_peer s = Some lp;
  iv_now : l_now L = r_now s;
  iv_rng : bytes_ok (fst (r_range s)) /\ bytes_ok (snd (r_range s));
  iv_elect : (r_elect s <= length (r_log s))%nat;
  iv_len : forall p, In p (r_peers s) -> (p_applied p <= length (r_log s))%nat;
  iv_ready : p_ready lp = true ->
    (r_elect s <= p_applied lp)%nat /\ rl = p_applied lp /\
    (forall id ts items, In (id, CWrite ts items) (r_log s) -> ts <= p_floor lp) /\
    (forall j id c, (p_applied lp <= j)%nat -> nth_error (r_log s) j = Some (id, c) ->
       exists o, In o (r_ops s) /\ o_id o = id /\ o_term o = r_term s /\ o_prop o <> None /\
         forall k, key_of c k -> In k (latch_keys (o_req o)));
  iv_nready : p_ready lp = false ->
    length (r_log s) = r_elect s /\ forall o, In o (r_ops s) -> o_term o <> r_term s;
  iv_rl : (p_applied lp <= rl)%nat;
  iv_rl2 : exists p, In p (r_peers s) /\ (rl <= p_applied p)%nat;
  iv_map : l_map L = alog (cmds s rl);
  iv_cmds : Forall cmd_ok (map snd (r_log s));
  iv_ord : ordered (map snd (r_log s));
  iv_ids : NoDup (map fst (r_log s));
  iv_pend : forall j id c, (rl <= j)%nat -> nth_error (r_log s) j = Some (id, c) -> pend_ok s L j id c;
  iv_used1 : forall id, used id (r_hist s) = false -> l_calls L id = None;
  iv_used2 : forall o, In o (r_ops s) -> used (o_id o) (r_hist s) = true;
  iv_used3 : forall id c, In (id, c) (r_log s) -> used id (r_hist s) = true;
  iv_nodup : NoDup (map o_id (r_ops s));
  iv_term : forall o, In o (r_ops s) -> o_term o <= r_term s /\ (o_prop o <> None -> o_term o = r_term s);
  iv_cur : forall o, In o (r_ops s) -> o_term o = r_term s -> op_ok s L lp o;
  iv_latch : forall o1 o2 k, In o1 (r_ops s) -> In o2 (r_ops s) -> o_term o1 = r_term s -> o_term o2 = r_term s ->
    In k (latch_keys (o_req o1)) -> In k (latch_keys (o_req o2)) -> o_id o1 = o_id o2
}.

Lemma inv_rl_len s L rl lp : Inv s L rl lp -> (rl <= length (r_log s))%nat.
Proof. intros I. destruct (iv_rl2 _ _ _ _ I) as (p & P & H). apply (iv_len _ _ _ _ I) in P. lia. Qed.

Lemma used_app id h h' : used id (h ++ h') = used id h || used id h'.
Proof. unfold used. apply existsb_app. Qed.

Lemma find_op_some s id o : find_op s id = Some o -> In o (r_ops s) /\ o_id o = id.
Proof. intros H. apply find_some in H. destruct H as [A B]. apply Z.eqb_eq in B. auto. Qed.

Lemma op_unique s o o' : NoDup (map o_id (r_ops s)) -> In o (r_ops s) -> In o' (r_ops s) -> o_id o = o_id o' -> o = o'.
Proof.
  intros N. induction (r_ops s) as [|x l IH]; intros A B E; [destruct A|].
  cbn in N. inversion N; subst. destruct A as [->|A], B as [->|B]; auto.
  - exfalso. apply H1. rewrite E. apply in_map; auto.
  - exfalso. apply H1. rewrite <- E. apply in_map; auto.
Qed.

Lemma find_op_in s o : NoDup (map o_id (r_ops s)) -> In o (r_ops s) -> find_op s (o_id o) = Some o.
Proof.
  intros N I. destruct (find_op s (o_id o)) as [o'|] eqn:E.
  - apply find_op_some in E. destruct E as [A B]. f_equal. eapply op_unique; eauto.
  - exfalso. unfold find_op in E. assert (X := find_none _ _ E o I). cbn in X. rewrite Z.eqb_refl in X. discriminate.
Qed.

Lemma log_id_unique (l : list (Z * cmd)) i j id c d : NoDup (map fst l) -> nth_error l i = Some (id, c) ->
  nth_error l j = Some (id, d) -> i = j.
Proof.
  intros N A B. apply (NoDup_nth_error (map fst l)); auto.
  - rewrite map_length. apply nth_error_Some. congruence.
  - rewrite !nth_error_map, A, B. auto.
Qed.

Lemma drop_In id o l : In o (drop_op id l) <-> In o l /\ o_id o <> id.
Proof. unfold drop_op. rewrite filter_In, negb_true_iff, Z.eqb_neq. tauto. Qed.
Lemma drop_nodup id l : NoDup (map o_id l) -> NoDup (map o_id (drop_op id l)).
Proof.
  induction l as [|o l IH]; cbn; auto. intros H. inversion H; subst. destruct (negb (o_id o =? id)); auto.
  cbn. constructor; auto. intros I. apply H2. apply in_map_iff in I. destruct I as (x & E & I). apply drop_In in I.
  apply in_map_iff. exists x. tauto.
Qed.
Lemma set_op_In o x l : In x (set_op o l) -> (x = o /\ exists y, In y l /\ o_id y = o_id o) \/ (In x l /\ o_id x <> o_id o).
Proof.
  unfold set_op. rewrite in_map_iff. intros (y & E & I). destruct (o_id y =? o_id o) eqn:Q.
  - apply Z.eqb_eq in Q. left. split; auto. exists y. auto.
  - apply Z.eqb_neq in Q. subst. auto.
Qed.
Lemma set_op_In2 o x l : In x l -> o_id x <> o_id o -> In x (set_op o l).
Proof. intros I N. unfold set_op. apply in_map_iff. exists x. split; auto. apply Z.eqb_neq in N. rewrite N. auto. Qed.
Lemma set_op_In3 o y l : In y l -> o_id y = o_id o -> In o (set_op o l).
Proof. intros I N. unfold set_op. apply in_map_iff. exists y. split; auto. apply Z.eqb_eq in N. rewrite N. auto. Qed.
Lemma set_op_ids o l : map o_id (set_op o l) = map o_id l.
Proof.
  unfold set_op. rewrite map_map. apply map_ext. intros x. destruct (o_id x =? o_id o) eqn:E; auto. apply Z.eqb_eq in E. auto.
Qed.

Lemma share_true a b : share a b = true <-> exists k, In k a /\ In k b.
Proof.
  unfold share. rewrite existsb_exists. split.
  - intros (k & A & B). apply existsb_exists in B. destruct B as (k' & B & E). apply beqb_true in E. subst. eauto.
  - intros (k & A & B). exists k. split; auto. apply existsb_exists. exists k. split; auto. apply beqb_refl.
Qed.
Lemma latch_free_spec n keys ops o k : latch_free n keys ops = true -> In o ops -> o_peer o = n -> In k keys ->
  ~ In k (latch_keys (o_req o)).
Proof.
  unfold latch_free. rewrite negb_true_iff. intros H I P K J.
  assert (X: existsb (fun o => Nat.eqb (o_peer o) n && share keys (latch_keys (o_req o))) ops = true).
  { apply existsb_exists. exists o. split; auto. apply andb_true_iff. split; [apply Nat.eqb_eq; auto|].
    apply share_true. eauto. }
  congruence.
Qed.

(** a command that does not touch a key leaves its value *)
Lemma eff_other c m k : ~ covers c k -> ~ key_of c k -> eff c m k = m k.
Proof.
  destruct c as [ts items|r]; cbn [eff covers key_of].
  - intros _ N. revert m. induction items as [|i items IH]; intros m; cbn [fold_left]; auto.
    rewrite IH by (cbn in N; tauto). apply aset_other. intros E. apply N. left. auto.
  - intros N _. destruct (bltb (fst r) (snd r)); auto. destruct (bleb (fst r) k && bltb k (snd r)); auto. exfalso. auto.
Qed.

Lemma aview_ext m m' now k : m k = m' k -> aview m now k = aview m' now k.
Proof. unfold aview. intros ->. auto. Qed.

Lemma alog_untouched cs cs' k : (forall c, In c cs' -> ~ covers c k /\ ~ key_of c k) -> alog (cs ++ cs') k = alog cs k.
Proof.
  revert cs. induction cs' as [|c cs' IH] using rev_ind; intros cs H.
  - rewrite app_nil_r. auto.
  - rewrite app_assoc, alog_snoc. destruct (H c) as [A B]; [apply in_app_iff; right; left; auto|].
    rewrite eff_other by auto. apply IH. intros d D. apply H. apply in_app_iff; auto.
Qed.
