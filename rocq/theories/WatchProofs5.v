(** What becomes of one watch. *)
From Coq Require Import ZArith List Lia Bool Sorted Permutation.
From Verif Require Import Bytes SMap KvModel KvSpec KvProofs KvProofs2 KvProofs3 WatchModel WatchSpec LeaseProofs WatchProofs WatchProofs2 WatchProofs3 WatchProofs4.
Import ListNotations.
Open Scope Z_scope.

(** ** Tickets *)

Lemma remove_tickets' s id : NoDup (map c_id (w_closures s)) ->
  Permutation (all_tickets s) (all_tickets (remove_one s id)) /\ map c_id (w_closures (remove_one s id)) = map c_id (w_closures s).
Proof.
  intros H. unfold remove_one. destruct (find_closure (w_closures s) id) as [c|] eqn:F; [|split; auto].
  destruct (find_closure_in _ _ _ F) as [Hc Hid]. split; [|simpl; apply finish_ids].
  unfold all_tickets. simpl. rewrite undone_finish, map_app, <- app_assoc. apply Permutation_app_head. rewrite app_assoc. apply Permutation_app_tail.
  unfold done_answer. destruct (c_done c) eqn:Ed; simpl.
  - rewrite filter_all; auto. intros x Hx. destruct (Z.eqb_spec (c_id x) id) as [E|]; auto. apply in_undone in Hx.
    rewrite (same_id _ _ _ H (proj1 Hx) Hc) in Hx by congruence. destruct Hx. congruence.
  - subst id. apply take_out; [apply undone_ids; auto|apply in_undone; auto].
Qed.

Lemma remove_all_tickets ids : forall s, NoDup (map c_id (w_closures s)) ->
  Permutation (all_tickets s) (all_tickets (remove_all s ids)).
Proof.
  induction ids as [|i ids IH]; intros s H; [apply Permutation_refl|].
  change (remove_all s (i :: ids)) with (remove_all (remove_one s i) ids).
  destruct (remove_tickets' s i H) as [P E]. eapply Permutation_trans; [exact P|]. apply IH. rewrite E. auto.
Qed.

Lemma fill_tickets s ev n : all_tickets (fill s ev n) = all_tickets s /\ map c_id (w_closures (fill s ev n)) = map c_id (w_closures s) /\
  w_answers (fill s ev n) = w_answers s /\ w_status (fill s ev n) = w_status s /\ w_tick (fill s ev n) = w_tick s.
Proof.
  unfold fill. destruct (find_closure (w_closures s) (wn_id n)); [|auto]. split; [|split; [|auto]].
  - unfold all_tickets. simpl. rewrite set_resp_undone, map_map. f_equal. f_equal. apply map_ext. intros x. destruct (c_id x =? wn_id n); auto.
  - simpl. apply set_resp_map. auto.
Qed.

Lemma fill_all_tickets ev l : forall s, let s' := fold_left (fun s n => fill s ev n) l s in
  all_tickets s' = all_tickets s /\ map c_id (w_closures s') = map c_id (w_closures s) /\
  w_answers s' = w_answers s /\ w_status s' = w_status s /\ w_tick s' = w_tick s.
Proof.
  induction l as [|n l IH]; intros s; cbv zeta; [auto|]. simpl.
  destruct (fill_tickets s ev n) as (A & B & C & D & E). destruct (IH (fill s ev n)) as (A' & B' & C' & D' & E').
  repeat split; congruence.
Qed.

Lemma remove_all_tick ids : forall s, w_tick (remove_all s ids) = w_tick s.
Proof.
  induction ids as [|i ids IH]; intros s; [auto|]. change (remove_all s (i :: ids)) with (remove_all (remove_one s i) ids).
  rewrite IH. unfold remove_one. destruct (find_closure _ _); auto.
Qed.

Lemma remove_all_answers ids : forall s, exists l : list (Z * option event), w_answers (remove_all s ids) = w_answers s ++ l /\
  forall p, In p l -> exists c, In c (undone (w_closures s)) /\ In (c_id c) ids /\ p = (c_ticket c, c_resp c).
Proof.
  induction ids as [|i ids IH]; intros s.
  - exists []. simpl. rewrite app_nil_r. split; auto. intros p [].
  - change (remove_all s (i :: ids)) with (remove_all (remove_one s i) ids).
    destruct (remove_one_answers s i) as (l1 & E1 & H1). destruct (IH (remove_one s i)) as (l2 & E2 & H2).
    exists (l1 ++ l2). split; [rewrite E2, E1, app_assoc; auto|].
    intros p Hp. apply in_app_iff in Hp. destruct Hp as [Hp|Hp].
    + destruct (H1 p Hp) as (c & A & B & C). exists c. simpl. auto.
    + destruct (H2 p Hp) as (c & A & B & C). apply remove_one_undone in A. exists c. simpl. tauto.
Qed.

(** the shape of a trigger that runs *)
Lemma trigger_eq s key ev : w_lock s = None -> w_pending s = Some (key, ev) -> w_armed s = true ->
  let hit := filter (fun n => fires n key ev) (w_nodes s) in
  let s2 := remove_all (fold_left (fun s n => fill s ev n) hit s) (map wn_id hit) in
  w_trigger s = w_set_kv s2 (w_kv s2) (w_index s2) (w_log s2) (w_busy s2) (w_todo s2) (w_main s2) (w_sub s2) None false (w_events s2).
Proof. intros A B C. unfold w_trigger. rewrite A, B, C. auto. Qed.

Lemma trigger_cases s : w_trigger s = s \/
  exists key ev, w_lock s = None /\ w_pending s = Some (key, ev) /\ w_armed s = true.
Proof.
  unfold w_trigger. destruct (w_lock s); auto. destruct (w_pending s) as [[key ev]|]; auto. destruct (w_armed s); auto.
  right. exists key, ev. auto.
Qed.

Lemma tickets_same s t : w_answers t = w_answers s -> w_closures t = w_closures s -> w_lock t = w_lock s -> all_tickets t = all_tickets s.
Proof. unfold all_tickets, lock_tickets. intros -> -> ->. auto. Qed.

Lemma tickets_step s e : TInv quiet s ->
  (e <> WStart -> incl (all_tickets s) (all_tickets (wstep s e))) /\
  (forall t, In t (all_tickets (wstep s e)) -> In t (all_tickets s) \/ t = w_tick s) /\
  w_tick s <= w_tick (wstep s e).
Proof.
  intros H. assert (Same : forall t, all_tickets t = all_tickets s -> w_tick t = w_tick s ->
     (e <> WStart -> incl (all_tickets s) (all_tickets t)) /\ (forall x, In x (all_tickets t) -> In x (all_tickets s) \/ x = w_tick s) /\ w_tick s <= w_tick t).
  { intros t E E'. rewrite E, E'. split; [intros _; apply incl_refl|]. split; auto. lia. }
  assert (Perm : forall t, Permutation (all_tickets s) (all_tickets t) -> w_tick t = w_tick s ->
     (e <> WStart -> incl (all_tickets s) (all_tickets t)) /\ (forall x, In x (all_tickets t) -> In x (all_tickets s) \/ x = w_tick s) /\ w_tick s <= w_tick t).
  { intros t P E'. rewrite E'. split; [intros _ x; apply Permutation_in; auto|]. split; [|lia]. intros x Hx. left. eapply Permutation_in; [symmetry; exact P|auto]. }
  destruct e as [e| | | | |q| |id| | |]; simpl.
  - destruct (w_busy s); apply Same; auto.
  - unfold w_op. destruct (w_pending s); [apply Same; auto|]. destruct (w_todo s) as [|o todo]; [apply Same; auto|].
    destruct (takes_revision o); apply Same; auto.
  - unfold w_check. destruct (w_pending s); [|apply Same; auto]. destruct (w_nodes s); apply Same; auto.
  - destruct (trigger_cases s) as [->|(key & ev & A & B & C)]; [apply Same; auto|].
    rewrite (trigger_eq s key ev A B C). cbv zeta. set (hit := filter _ _). set (s1 := fold_left _ hit s).
    destruct (fill_all_tickets ev hit s) as (E1 & E2 & E3 & E4 & E5). fold s1 in E1, E2, E3, E4, E5.
    apply Perm.
    + change (Permutation (all_tickets s) (all_tickets (remove_all s1 (map wn_id hit)))). rewrite <- E1. apply remove_all_tickets. rewrite E2. apply (ti_ids _ _ H).
    + simpl. rewrite remove_all_tick. auto.
  - unfold w_final. destruct (entry_done s); apply Same; auto.
  - unfold w_read. destruct (w_lock s) eqn:El; [apply Same; auto|]. unfold all_tickets, lock_tickets. rewrite El.
    destruct (_ || _); simpl; rewrite ?map_app, ?app_nil_r; (split; [|split; [|lia]]).
    + intros _ x Hx. rewrite !in_app_iff in *. tauto.
    + intros x Hx. rewrite !in_app_iff in *. simpl in Hx. intuition.
    + intros _ x Hx. rewrite !in_app_iff in *. tauto.
    + intros x Hx. rewrite !in_app_iff in *. simpl in Hx. intuition.
  - unfold w_register. destruct (w_lock s) as [[[[t q] st] f]|] eqn:El; [|apply Same; auto].
    destruct (at_once q st f); apply Perm; auto; unfold all_tickets, lock_tickets; rewrite El; simpl.
    + rewrite map_app, <- app_assoc, app_nil_r. simpl. apply Permutation_app_head. apply Permutation_sym, Permutation_cons_append.
    + unfold undone. rewrite filter_app, map_app. simpl. rewrite app_nil_r. auto.
  - apply (Same (w_cancel s id)); auto.
  - unfold w_cron. destruct (w_lock s); [apply Same; auto|]. apply Perm; [|apply remove_all_tick]. apply remove_all_tickets. apply (ti_ids _ _ H).
  - unfold w_start. destruct (w_lock s) eqn:El; [apply Same; auto|]. destruct (w_busy s); [apply Same; auto|].
    split; [congruence|]. split; [|simpl; lia]. unfold all_tickets, lock_tickets. simpl. intros t Ht. rewrite !in_app_iff in *. simpl in Ht. tauto.
  - unfold w_stop. destruct (w_lock s) eqn:El; [apply Same; auto|]. destruct (w_busy s); [apply Same; auto|].
    apply Same; auto. unfold all_tickets, lock_tickets. rewrite El. simpl. rewrite map_app, stop_tickets, !app_nil_r. auto.
Qed.

Lemma answers_step s e : exists l : list (Z * option event), w_answers (wstep s e) = w_answers s ++ l.
Proof.
  assert (Same : forall t, w_answers t = w_answers s -> exists l : list (Z * option event), w_answers t = w_answers s ++ l)
    by (intros t E; exists []; rewrite app_nil_r; auto).
  destruct e as [e| | | | |q| |id| | |]; simpl.
  - destruct (w_busy s); apply Same; auto.
  - unfold w_op. destruct (w_pending s); [apply Same; auto|]. destruct (w_todo s) as [|o todo]; [apply Same; auto|].
    destruct (takes_revision o); apply Same; auto.
  - unfold w_check. destruct (w_pending s); [|apply Same; auto]. destruct (w_nodes s); apply Same; auto.
  - destruct (trigger_cases s) as [->|(key & ev & A & B & C)]; [apply Same; auto|].
    rewrite (trigger_eq s key ev A B C). cbv zeta. set (hit := filter _ _). set (s1 := fold_left _ hit s).
    destruct (fill_all_tickets ev hit s) as (E1 & E2 & E3 & E4 & E5). fold s1 in E1, E2, E3, E4, E5.
    destruct (remove_all_answers (map wn_id hit) s1) as (l & El & _). exists l. simpl. congruence.
  - unfold w_final. destruct (entry_done s); apply Same; auto.
  - unfold w_read. destruct (w_lock s); [apply Same; auto|]. destruct (_ || _); simpl; [eauto|apply Same; auto].
  - unfold w_register. destruct (w_lock s) as [[[[t q] st] f]|]; [|apply Same; auto]. destruct (at_once q st f); simpl; [eauto|apply Same; auto].
  - apply (Same (w_cancel s id)); auto.
  - unfold w_cron. destruct (w_lock s); [apply Same; auto|]. destruct (remove_all_answers (map fst (filter snd (w_status s))) s) as (l & El & _). eauto.
  - unfold w_start. destruct (w_lock s); [apply Same; auto|]. destruct (w_busy s); apply Same; auto.
  - unfold w_stop. destruct (w_lock s); [apply Same; auto|]. destruct (w_busy s); [apply Same; auto|]. simpl. eauto.
Qed.

Lemma answers_steps es : forall s, exists l : list (Z * option event), w_answers (wsteps s es) = w_answers s ++ l.
Proof.
  induction es as [|e es IH]; intros s; [exists []; rewrite app_nil_r; auto|].
  destruct (answers_step s e) as [l1 E1]. destruct (IH (wstep s e)) as [l2 E2]. exists (l1 ++ l2).
  change (wsteps s (e :: es)) with (wsteps (wstep s e) es). rewrite E2, E1, app_assoc. auto.
Qed.

(** ** Answers of one request *)

Lemma answers_to_in s t a : In a (answers_to s t) <-> In (t, a) (w_answers s).
Proof.
  unfold answers_to. rewrite in_map_iff. split.
  - intros ([t' a'] & <- & H). apply filter_In in H. destruct H as [H E]. apply Z.eqb_eq in E. simpl in *. subst. auto.
  - intros H. exists (t, a). split; auto. apply filter_In. split; auto. simpl. apply Z.eqb_refl.
Qed.

Lemma nodup_answers (l : list (Z * option event)) t a : NoDup (map fst l) -> In (t, a) l -> map snd (filter (fun p => fst p =? t) l) = [a].
Proof.
  induction l as [|p l IH]; simpl; intros N H; [destruct H|]. inversion N; subst. destruct H as [->|H]; simpl.
  - rewrite Z.eqb_refl. simpl. f_equal. assert (E : filter (fun p => fst p =? t) l = []).
    { clear IH N H3. induction l as [|x l IH]; simpl; auto. simpl in H2. destruct (Z.eqb_spec (fst x) t); [exfalso; auto|]. apply IH. auto. }
    rewrite E. auto.
  - destruct (Z.eqb_spec (fst p) t) as [E|]; [|auto]. exfalso. apply H2. rewrite E. apply in_map_iff. exists (t, a). auto.
Qed.

Lemma answers_nodup R s : TInv R s -> NoDup (map fst (w_answers s)).
Proof. intros H. apply NoDup_app_l with (b := map c_ticket (undone (w_closures s)) ++ lock_tickets s). apply (ti_tickets _ _ H). Qed.

Lemma answered_once R s t a : TInv R s -> In (t, a) (w_answers s) -> answers_to s t = [a].
Proof. intros H Hin. apply nodup_answers; auto. eapply answers_nodup; eauto. Qed.

Lemma answered_stays s t a es : WInv s -> answers_to s t = [a] -> answers_to (wsteps s es) t = [a].
Proof.
  intros H E. assert (Hin : In (t, a) (w_answers s)) by (apply answers_to_in; rewrite E; left; auto).
  apply answered_once with (R := quiet); [apply (wi_t _ (winv_steps es s H))|]. destruct (answers_steps es s) as [l ->]. apply in_app_iff. auto.
Qed.

Lemma not_answered s t : ~ In t (all_tickets s) -> answers_to s t = [].
Proof.
  intros H. destruct (answers_to s t) as [|a l] eqn:E; auto. exfalso. apply H.
  assert (X : In a (answers_to s t)) by (rewrite E; left; auto). apply answers_to_in in X.
  unfold all_tickets. apply in_app_iff. left. apply in_map_iff. exists (t, a). auto.
Qed.

Lemma lost_stays t es : forall s, WInv s -> ~ In t (all_tickets s) -> t < w_tick s -> answers_to (wsteps s es) t = [].
Proof.
  induction es as [|e es IH]; intros s H N Ht; [apply not_answered; auto|].
  change (wsteps s (e :: es)) with (wsteps (wstep s e) es). destruct (tickets_step s e (wi_t _ H)) as (_ & A & B).
  apply IH; [apply winv_step; auto| |lia]. intros X. apply A in X. destruct X as [X|X]; [auto|lia].
Qed.

(** ** A watch that waits *)

Definition Waiting (s : wst) (t id : Z) (q : wreq) (start : Z) (cancelled : bool) : Prop :=
  (exists c, In c (undone (w_closures s)) /\ c_ticket c = t /\ c_id c = id) /\
  (exists found, In (t, q, start, found) (w_asked s)) /\
  (In (id, true) (w_status s) <-> cancelled = true).

Lemma asked_uniq {R : closure -> Prop} s t q st f q' st' f' : TInv R s -> In (t, q, st, f) (w_asked s) -> In (t, q', st', f') (w_asked s) ->
  q = q' /\ st = st' /\ f = f'.
Proof.
  intros H A B. pose proof (ti_asked _ _ H) as N. revert N A B. generalize (w_asked s). intros l.
  induction l as [|p l IH]; simpl; intros N A B; [destruct A|]. inversion N; subst. destruct A as [->|A]; destruct B as [B|B].
  - inversion B; subst. auto.
  - exfalso. apply H2. apply in_map_iff. exists (t, q', st', f'). auto.
  - subst p. exfalso. apply H2. apply in_map_iff. exists (t, q, st, f). auto.
  - auto.
Qed.

Lemma waiting_node s t id q start k : TInv quiet s -> Waiting s t id q start k -> exists c n,
  In c (undone (w_closures s)) /\ c_ticket c = t /\ c_id c = id /\ In n (w_nodes s) /\ link (w_asked s) n c /\
  n = mkW id (q_key q) start (q_noput q) (q_nodel q) (q_prev q).
Proof.
  intros H ((c & Hc & E1 & E2) & (f & Ha) & _). destruct (link_asked _ _ _ H Hc) as (n & Hn & L). exists c, n.
  split; [auto|]. split; [auto|]. split; [auto|]. split; [auto|]. split; [auto|].
  destruct L as (q' & f' & A & B & C & D). rewrite E1 in A. destruct (asked_uniq _ _ _ _ _ _ _ _ H Ha A) as (<- & E3 & _).
  rewrite E2, <- E3 in D. auto.
Qed.

Lemma ticket_uniq {R : closure -> Prop} s c c' : TInv R s -> In c (undone (w_closures s)) -> In c' (undone (w_closures s)) -> c_ticket c = c_ticket c' -> c = c'.
Proof.
  intros H A B E. pose proof (ti_tickets _ _ H) as N. unfold all_tickets in N.
  assert (N' : NoDup (map c_ticket (undone (w_closures s)))).
  { revert N. generalize (map fst (w_answers s)). intros l. induction l as [|x l IH]; simpl; intros N; [eapply NoDup_app_l; eauto|]. inversion N; auto. }
  clear N. revert N' A B. generalize (undone (w_closures s)). intros l. induction l as [|x l IH]; simpl; intros N A B; [destruct A|].
  inversion N; subst. destruct A as [->|A]; destruct B as [->|B]; auto.
  - exfalso. apply H2. rewrite E. apply in_map. auto.
  - exfalso. apply H2. rewrite <- E. apply in_map. auto.
Qed.

Lemma waiting_open s t id q start k : TInv quiet s -> Waiting s t id q start k -> answers_to s t = [].
Proof.
  intros H ((c & Hc & E1 & E2) & _). destruct (answers_to s t) as [|a l] eqn:E; auto. exfalso.
  assert (X : In a (answers_to s t)) by (rewrite E; left; auto). apply answers_to_in in X.
  pose proof (ti_tickets _ _ H) as N. unfold all_tickets in N.
  assert (Y : In t (map fst (w_answers s))) by (apply in_map_iff; exists (t, a); auto).
  assert (Z' : In t (map c_ticket (undone (w_closures s)) ++ lock_tickets s)) by (apply in_app_iff; left; rewrite <- E1; apply in_map; auto).
  revert N Y Z'. generalize (map fst (w_answers s)) (map c_ticket (undone (w_closures s)) ++ lock_tickets s). clear.
  intros l1 l2. induction l1 as [|x l1 IH]; simpl; intros N Y Z'; [destruct Y|]. inversion N; subst. destruct Y as [->|Y]; auto.
  apply H1. apply in_app_iff. auto.
Qed.

(** a step that touches neither closures nor status *)
Lemma waiting_frame s s' t id q start k : w_closures s' = w_closures s -> w_status s' = w_status s -> incl (w_asked s) (w_asked s') ->
  Waiting s t id q start k -> Waiting s' t id q start k.
Proof.
  intros E1 E2 Hi (A & (f & B) & C). unfold Waiting. rewrite E1, E2. split; [auto|]. split; [exists f; auto|auto].
Qed.

Lemma remove_all_status ids : forall s p, In p (w_status (remove_all s ids)) <-> In p (w_status s) /\ ~ In (fst p) ids.
Proof.
  induction ids as [|i ids IH]; intros s p; [simpl; tauto|].
  change (remove_all s (i :: ids)) with (remove_all (remove_one s i) ids). rewrite IH.
  assert (E : w_status (remove_one s i) = status_erase i (w_status s)) by (unfold remove_one; destruct (find_closure _ _); auto).
  rewrite E. unfold status_erase. rewrite filter_In. simpl. destruct (Z.eqb_spec (fst p) i); simpl; intuition congruence.
Qed.

Lemma remove_all_undone ids : forall s c, In c (undone (w_closures (remove_all s ids))) <-> In c (undone (w_closures s)) /\ ~ In (c_id c) ids.
Proof.
  induction ids as [|i ids IH]; intros s c; [simpl; tauto|].
  change (remove_all s (i :: ids)) with (remove_all (remove_one s i) ids). rewrite IH, remove_one_undone. simpl. intuition congruence.
Qed.

(** removing a set of watches: the one that waits is in it or not *)
Lemma waiting_remove s ids t id q start k : TInv quiet s -> Waiting s t id q start k ->
  if existsb (Z.eqb id) ids then In (t, None) (w_answers (remove_all s ids)) else Waiting (remove_all s ids) t id q start k.
Proof.
  intros H W. pose proof W as ((c & Hc & E1 & E2) & (f & Ha) & Hk). destruct (existsb (Z.eqb id) ids) eqn:X.
  - apply existsb_in in X.
    assert (G : In t (all_tickets (remove_all s ids))).
    { eapply Permutation_in; [apply remove_all_tickets, (ti_ids _ _ H)|]. unfold all_tickets. rewrite !in_app_iff. right. left. rewrite <- E1. apply in_map. auto. }
    destruct (remove_all_answers ids s) as (l & El & Hl).
    unfold all_tickets in G. rewrite !in_app_iff in G. destruct G as [G|[G|G]].
    + apply in_map_iff in G. destruct G as ([t' a] & E & G). simpl in E. subst t'. pose proof G as G0. rewrite El in G. apply in_app_iff in G. destruct G as [G|G].
      * exfalso. pose proof (waiting_open _ _ _ _ _ _ H W) as O. apply answers_to_in in G. rewrite O in G. destruct G.
      * destruct (Hl _ G) as (c' & A & B & C). inversion C. subst a.
        assert (c' = c) by (apply (ticket_uniq s c' c H); auto; congruence). subst c'.
        assert (Q : c_resp c = None) by apply (ti_resp _ _ H c Hc). rewrite Q in G0. rewrite E1. exact G0.
    + exfalso. apply in_map_iff in G. destruct G as (c' & E & G). apply remove_all_undone in G. destruct G as [G N].
      assert (c' = c) by (apply (ticket_uniq s c' c H); auto; congruence). subst c'. congruence.
    + exfalso. unfold lock_tickets in G. destruct (remove_all_rest ids s) as [_ El']. rewrite El' in G.
      pose proof (ti_tickets _ _ H) as N. unfold all_tickets in N. unfold lock_tickets in N.
      assert (Y : In t (map c_ticket (undone (w_closures s)))) by (rewrite <- E1; apply in_map; auto).
      assert (N' : NoDup (map c_ticket (undone (w_closures s)) ++ match w_lock s with Some (x, _, _, _) => [x] | None => [] end)).
      { revert N. generalize (map fst (w_answers s)). intros l0. induction l0 as [|x l0 IH]; simpl; intros N; auto. inversion N; auto. }
      revert N' Y G. generalize (map c_ticket (undone (w_closures s))) (match w_lock s with Some (x, _, _, _) => [x] | None => [] end). clear.
      intros l1 l2. induction l1 as [|x l1 IH]; simpl; intros N Y G; [destruct Y|]. inversion N; subst. destruct Y as [->|Y]; auto.
      apply H1. apply in_app_iff. auto.
  - assert (N : ~ In id ids) by (intros Y; apply existsb_in in Y; congruence).
    unfold Waiting. destruct (remove_all_rest ids s) as [-> _]. split; [|split].
    + exists c. rewrite remove_all_undone, E2. auto.
    + exists f. auto.
    + rewrite remove_all_status. simpl. tauto.
Qed.
