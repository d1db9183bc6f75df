(** The apply thread of the watch machine carries out the log, and its events are those of the
    specification, in every interleaving. *)
From Coq Require Import ZArith List Lia Bool Sorted.
From Verif Require Import Bytes SMap KvModel KvSpec KvProofs KvProofs2 KvProofs3 WatchModel WatchSpec LeaseProofs WatchProofs.
Import ListNotations.
Open Scope Z_scope.

Lemma spec_event_deq m o a b : deq a b -> spec_event m a o = spec_event m b o.
Proof.
  intros H. pose proof (spec_op_deq m o a b H) as [H3 _]. destruct H as [H1 H2].
  destruct o as [key il lid iv value|key|key c]; cbn [spec_event]; auto.
  - rewrite (H3 key), (H1 key). set (l := if il then _ else _). rewrite (H2 l). auto.
  - rewrite (H1 key). auto.
Qed.

Lemma ops_events_app m dn : forall a o,
  ops_events m a (dn ++ [o]) = ops_events m a dn ++ match spec_event m (fold_left (spec_op m) dn a) o with Some p => [p] | None => [] end.
Proof.
  induction dn as [|x dn IH]; intros a o; simpl app; cbn [ops_events fold_left].
  - rewrite app_nil_r. auto.
  - rewrite IH, app_assoc. auto.
Qed.

Lemma clean_ops_app m dn : forall a o, clean_ops m a (dn ++ [o]) <->
  clean_ops m a dn /\ match o with ODel key => st_data (fold_left (spec_op m) dn a) key <> None | _ => True end.
Proof.
  induction dn as [|x dn IH]; intros a o; simpl app; cbn [clean_ops fold_left].
  - tauto.
  - rewrite IH. tauto.
Qed.

Lemma events_from_app l : forall a e, events_from a (l ++ [e]) = events_from a l ++ entry_events (fold_left spec_entry l a) e.
Proof.
  induction l as [|x l IH]; intros a e; simpl app; cbn [events_from fold_left].
  - rewrite app_nil_r. auto.
  - rewrite IH, app_assoc. auto.
Qed.

Lemma clean_from_app l : forall a l2, clean_from a (l ++ l2) <-> clean_from a l /\ clean_from (fold_left spec_entry l a) l2.
Proof.
  induction l as [|x l IH]; intros a l2; simpl app; cbn [clean_from fold_left].
  - tauto.
  - rewrite IH. tauto.
Qed.

(** [l] holds some of the events [l'], and all of them if [c] *)
Definition some_of (c : Prop) (l l' : list (bytes * event)) : Prop := sub l l' /\ (c -> l = l').

Definition at_start (l0 : list incr) (e : incr) : store := fold_left spec_lop (in_leases e) (spec_log l0).

Record Idle (s : wst) : Prop := mkIdle {
  id_todo : w_todo s = [];
  id_pending : w_pending s = None;
  id_index : w_index s = Z.of_nat (length (w_log s));
  id_good : Good (w_index s) (w_kv s);
  id_abs : seq (abs (w_kv s)) (spec_log (w_log s));
  id_cpos : CPos (w_kv s);
  id_events : some_of (clean (w_log s)) (w_events s) (log_events (w_log s)) }.

Record Busy (s : wst) (l0 : list incr) (e : incr) (dn : list op) (m : Z) (hi : rev) : Prop := mkBusy {
  bu_log : w_log s = l0 ++ [e];
  bu_ops : in_ops e = dn ++ w_todo s;
  bu_index : w_index s = Z.of_nat (length l0);
  bu_m : m = st_rev (spec_log l0) + 1;
  bu_pos : 0 < m;
  bu_inv : Inv hi (w_kv s);
  bu_hi : rlt hi (m, w_sub s);
  bu_hi2 : fst hi <= k_rev (w_kv s);
  bu_main : w_main s = if existsb takes_revision dn then Some m else None;
  bu_rev : k_rev (w_kv s) = if existsb takes_revision dn then m else m - 1;
  bu_srev : k_srev (w_kv s) = m - 1;
  bu_applied : k_applied (w_kv s) = Z.of_nat (length l0);
  bu_sapplied : k_sapplied (w_kv s) = Z.of_nat (length l0);
  bu_abs : deq (abs (w_kv s)) (fold_left (spec_op m) dn (at_start l0 e));
  bu_cpos : CPos (w_kv s);
  bu_pending : forall p, w_pending s = Some p -> In p (w_events s);
  bu_events : some_of (clean l0 /\ clean_ops m (at_start l0 e) dn) (w_events s)
                (log_events l0 ++ ops_events m (at_start l0 e) dn) }.

Definition AInv (s : wst) : Prop :=
  if w_busy s then exists l0 e dn m hi, Busy s l0 e dn m hi else Idle s.

(** the parts of the state the apply thread owns *)
Definition same_apply (s t : wst) : Prop :=
  w_kv t = w_kv s /\ w_index t = w_index s /\ w_log t = w_log s /\ w_busy t = w_busy s /\ w_todo t = w_todo s /\
  w_main t = w_main s /\ w_sub t = w_sub s /\ w_pending t = w_pending s /\ w_armed t = w_armed s /\ w_events t = w_events s.

Lemma same_apply_refl s : same_apply s s.
Proof. unfold same_apply. auto 12. Qed.
Lemma same_apply_trans a b c : same_apply a b -> same_apply b c -> same_apply a c.
Proof. unfold same_apply. intros. intuition congruence. Qed.

Lemma ainv_frame s t : same_apply s t -> AInv s -> AInv t.
Proof.
  intros (E1 & E2 & E3 & E4 & E5 & E6 & E7 & E8 & E9 & E10). unfold AInv. rewrite E4. destruct (w_busy s).
  - intros (l0 & e & dn & m & hi & H). exists l0, e, dn, m, hi.
    destruct H. constructor; rewrite ?E1, ?E2, ?E3, ?E5, ?E6, ?E7, ?E8, ?E10; auto.
  - intros []. constructor; rewrite ?E1, ?E2, ?E3, ?E5, ?E8, ?E10; auto.
Qed.

Lemma remove_one_apply s id : same_apply s (remove_one s id).
Proof. unfold remove_one. destruct (find_closure (w_closures s) id); unfold same_apply; simpl; auto 12. Qed.
Lemma remove_all_apply ids : forall s, same_apply s (remove_all s ids).
Proof.
  induction ids as [|i ids IH]; intros s; [apply same_apply_refl|].
  change (remove_all s (i :: ids)) with (remove_all (remove_one s i) ids).
  eapply same_apply_trans; [apply remove_one_apply|apply IH].
Qed.
Lemma fill_apply s ev n : same_apply s (fill s ev n).
Proof. unfold fill. destruct (find_closure (w_closures s) (wn_id n)); unfold same_apply; simpl; auto 12. Qed.
Lemma fill_all_apply ev l : forall s, same_apply s (fold_left (fun s n => fill s ev n) l s).
Proof.
  induction l as [|n l IH]; intros s; [apply same_apply_refl|]. simpl.
  eapply same_apply_trans; [apply fill_apply|apply IH].
Qed.

Lemma some_of_snoc (c c' : Prop) l l' o o' : some_of c l l' -> (c' -> c) ->
  (o = o' \/ o = None /\ ~ c') ->
  some_of c' (l ++ match o with Some p => [p] | None => [] end) (l' ++ match o' with Some p => [p] | None => [] end).
Proof.
  intros [H1 H2] Hc [->|[-> Hn]].
  - split; [apply sub_app; [auto|apply sub_refl]|]. intros H. rewrite H2; auto.
  - split; [|tauto]. apply sub_app; [auto|]. apply sub_nil_l.
Qed.

Lemma ainv_entry s e : w_busy s = false -> AInv s -> AInv (w_entry s e).
Proof.
  unfold AInv at 1. intros ->. intros [H1 H2 H3 H4 H5 H6 H7]. destruct H4 as [[hi [H Hhi]] Hpos Hsrev Hap Hsap].
  set (k := w_kv s) in *.
  assert (Da : deq (abs k) (spec_log (w_log s))) by (destruct H5 as (A & B & _); split; auto).
  destruct (lops_step (in_leases e) k hi _ H Da) as (L1 & L2 & L3 & L4 & L5 & L6 & L7 & L8).
  assert (Er : k_rev k = st_rev (spec_log (w_log s))) by apply H5.
  unfold AInv. simpl w_busy. exists (w_log s), e, [], (st_rev (spec_log (w_log s)) + 1), hi.
  constructor; simpl; auto; fold k.
  - rewrite <- Er. lia.
  - unfold rlt. simpl. lia.
  - lia.
  - lia.
  - rewrite L7. lia.
  - rewrite L6. lia.
  - rewrite L8. lia.
  - apply cpos_lops. auto.
  - discriminate.
  - rewrite app_nil_r. destruct H7 as [A B]. split; auto. intros [C _]. auto.
Qed.

Lemma ainv_op s : AInv s -> AInv (w_op s).
Proof.
  unfold AInv at 1. destruct (w_busy s) eqn:B.
  2:{ intros H. unfold w_op. rewrite (id_todo _ H), (id_pending _ H). unfold AInv. rewrite B. auto. }
  intros (l0 & e & dn & m & hi & H).
  assert (Hs : AInv s) by (unfold AInv; rewrite B; exists l0, e, dn, m, hi; auto).
  unfold w_op. destruct (w_pending s) as [p|] eqn:Pd; [exact Hs|].
  destruct (w_todo s) as [|o todo] eqn:Td; [exact Hs|]. clear Hs.
  destruct H as [H1 H2 H3 H4 H5 H6 H7 H7b H8 H9 H10 H11 H12 H13 H14 H15 H16]. set (k := w_kv s) in *.
  rewrite Td in H2.
  assert (H2' : in_ops e = (dn ++ [o]) ++ todo) by (rewrite <- app_assoc; auto).
  assert (Hx : existsb takes_revision (dn ++ [o]) = existsb takes_revision dn || takes_revision o)
    by (rewrite existsb_app; simpl; rewrite orb_false_r; auto).
  destruct (takes_revision o) eqn:T.
  - rewrite orb_true_r in Hx.
    assert (Em : match w_main s with Some m => m | None => k_rev k + 1 end = m).
    { rewrite H8, H9. destruct (existsb takes_revision dn); lia. }
    cbv zeta. rewrite Em.
    set (pre := match w_main s with Some _ => [] | None => [EMain m] end) in *.
    assert (P : Inv hi (performs k pre) /\ (forall x, look (performs k pre) x = look k x) /\
                k_rev (performs k pre) = m /\ k_leases (performs k pre) = k_leases k /\
                k_applied (performs k pre) = k_applied k /\ k_srev (performs k pre) = k_srev k /\
                k_sapplied (performs k pre) = k_sapplied k /\ k_index (performs k pre) = k_index k /\
                k_revs (performs k pre) = k_revs k).
    { unfold pre. rewrite H8. destruct (existsb takes_revision dn).
      - simpl. split; [auto|split; [auto|split; [|repeat split; auto]]]. lia.
      - simpl. destruct (perform_main hi k m H6). split; [auto|split; [auto|split; [auto|repeat split; auto]]]. }
    destruct P as (P1 & P2 & P3 & P4 & P5 & P6 & P7 & P8 & P9).
    assert (Eo : op_effs k (m, w_sub s) o = op_effs (performs k pre) (m, w_sub s) o).
    { destruct o; simpl; unfold put_effs, put_record, delete_effs, compact_effs; rewrite ?P4, ?P8, ?P9; auto. }
    assert (C1 : CPos (performs k pre)) by (unfold CPos; rewrite P9; exact H14).
    rewrite performs_app, Eo.
    set (s1 := performs k pre) in *.
    destruct (op_step hi s1 (m, w_sub s) o P1 H7 H5 T) as [I1 L1].
    pose proof (performs_rest _ s1 (op_effs_table s1 (m, w_sub s) o)) as (R1 & R2 & R3 & R4 & R5).
    pose proof (cpos_op hi s1 (m, w_sub s) o P1 C1 H5 T) as C2.
    set (s2 := performs s1 (op_effs s1 (m, w_sub s) o)) in *.
    assert (D1 : deq (abs s1) (fold_left (spec_op m) dn (at_start l0 e))).
    { destruct H13 as [A A']. split; [intros x; simpl; rewrite P2; apply A|intros x; simpl; unfold has_lease; rewrite P4; apply A']. }
    unfold AInv. simpl w_busy. exists l0, e, (dn ++ [o]), m, (m, w_sub s).
    assert (EE := event_spec hi k (m, w_sub s) o H6 H14 T). simpl fst in EE.
    set (ev := op_event k (m, w_sub s) o) in *. rewrite (spec_event_deq m o _ _ H13) in EE.
    constructor; simpl; auto.
    + unfold rlt. simpl. lia.
    + lia.
    + rewrite Hx. auto.
    + rewrite Hx. congruence.
    + congruence.
    + congruence.
    + congruence.
    + rewrite fold_left_app. simpl. split.
      * intros x. simpl. rewrite L1. apply spec_op_deq. auto.
      * intros l. destruct (spec_op_rest m (fold_left (spec_op m) dn (at_start l0 e)) o) as [-> _]. simpl. unfold has_lease. rewrite R1.
        apply D1.
    + intros p Ep. rewrite Ep. apply in_app_iff. right. left. auto.
    + rewrite ops_events_app, app_assoc. apply some_of_snoc with (1 := H16).
      * intros [A A']. apply clean_ops_app in A'. tauto.
      * destruct EE as [EE|(key & -> & E1 & E2)]; [left; auto|]. right. split; auto.
        intros [_ A]. apply clean_ops_app in A. destruct A as [_ A]. apply A. rewrite <- E1. symmetry. apply H13.
  - rewrite orb_false_r in Hx.
    destruct o as [? ? ? ? ?|?|key c]; try discriminate. simpl op_effs.
    pose proof (performs_rest _ k (op_effs_table k (0, 0) (OCompact key c))) as (R1 & R2 & R3 & R4 & R5).
    simpl op_effs in *.
    destruct (compact_step hi k key c H6) as (I1 & L1 & _).
    pose proof (cpos_compact k key c H14) as C2.
    set (s2 := performs k (compact_effs k key c)) in *.
    unfold AInv. simpl w_busy. exists l0, e, (dn ++ [OCompact key c]), m, hi.
    constructor; simpl; auto; try congruence.
    + rewrite Hx. auto.
    + rewrite Hx. congruence.
    + rewrite fold_left_app. simpl. destruct H13 as [A A']. split.
      * intros x. simpl. rewrite L1. apply A.
      * intros l. simpl. unfold has_lease. rewrite R1. apply A'.
    + rewrite ops_events_app. cbn [spec_event]. rewrite app_nil_r. destruct H16 as [A A']. split; auto.
      intros [X Y]. apply A'. split; auto. apply clean_ops_app in Y. tauto.
Qed.

Lemma busy_pending s l0 e dn m hi p armed : Busy s l0 e dn m hi -> (p = w_pending s \/ p = None) ->
  Busy (w_set_kv s (w_kv s) (w_index s) (w_log s) (w_busy s) (w_todo s) (w_main s) (w_sub s) p armed (w_events s)) l0 e dn m hi.
Proof.
  intros [] Hp. constructor; simpl; auto. destruct Hp as [->| ->]; auto. discriminate.
Qed.

Lemma ainv_pending s p armed : AInv s -> (p = w_pending s \/ p = None) ->
  AInv (w_set_kv s (w_kv s) (w_index s) (w_log s) (w_busy s) (w_todo s) (w_main s) (w_sub s) p armed (w_events s)).
Proof.
  unfold AInv. simpl w_busy. destruct (w_busy s) eqn:B.
  - intros (l0 & e & dn & m & hi & H) Hp. exists l0, e, dn, m, hi. pose proof (busy_pending _ _ _ _ _ _ p armed H Hp) as G. rewrite B in G. exact G.
  - intros [] Hp. constructor; simpl; auto. destruct Hp as [->| ->]; auto.
Qed.

Lemma ainv_check s : AInv s -> AInv (w_check s).
Proof.
  intros H. unfold w_check. destruct (w_pending s) as [p|] eqn:E; [|exact H].
  destruct (w_nodes s); apply ainv_pending; auto.
Qed.

Lemma ainv_trigger s : AInv s -> AInv (w_trigger s).
Proof.
  intros H. unfold w_trigger. destruct (w_lock s); [exact H|]. destruct (w_pending s) as [[key ev]|]; [|exact H].
  destruct (w_armed s); [|exact H]. cbv zeta. apply ainv_pending; [|auto].
  eapply ainv_frame; [apply remove_all_apply|]. eapply ainv_frame; [apply fill_all_apply|]. exact H.
Qed.

Lemma ainv_final s : AInv s -> AInv (w_final s).
Proof.
  intros H0. unfold w_final, entry_done. destruct (w_busy s) eqn:B; [|exact H0]. simpl.
  destruct (w_todo s) as [|o todo] eqn:Td; [|exact H0]. destruct (w_pending s) as [p|] eqn:Pd; [exact H0|].
  unfold AInv in H0. rewrite B in H0. destruct H0 as (l0 & e & dn & m & hi & H).
  destruct H as [H1 H2 H3 H4 H5 H6 H7 H7b H8 H9 H10 H11 H12 H13 H14 H15 H16]. set (k := w_kv s) in *.
  rewrite Td, app_nil_r in H2. subst dn.
  unfold AInv. simpl w_busy. cbv iota.
  assert (Es : spec_log (w_log s) = spec_entry (spec_log l0) e).
  { unfold spec_log. rewrite H1, fold_left_app. auto. }
  constructor; simpl; auto.
  - rewrite H1, app_length. simpl. lia.
  - destruct H6 as [A A2 A3 A4]. rewrite H8. constructor; simpl.
    + exists hi. split; [constructor; auto|auto].
    + rewrite H9. destruct (existsb _ _); lia.
    + rewrite H9, H10. destruct (existsb _ _); lia.
    + lia.
    + lia.
  - rewrite Es. unfold spec_entry. fold (at_start l0 e). rewrite <- H4. destruct H13 as [A A']. split; [|split]; simpl; auto.
    rewrite H9. unfold writes. destruct (existsb _ _); lia.
  - rewrite H1. unfold log_events. rewrite events_from_app. unfold entry_events.
    change (fold_left spec_entry l0 store0) with (spec_log l0). fold (at_start l0 e). rewrite <- H4.
    destruct H16 as [A A']. split; auto. intros C. apply A'. unfold clean in C. apply clean_from_app in C.
    destruct C as [C [C' _]]. split; auto. unfold clean_entry in C'. change (fold_left spec_entry l0 store0) with (spec_log l0) in C'.
    fold (at_start l0 e) in C'. rewrite <- H4 in C'. auto.
Qed.

Lemma ainv_step s e : AInv s -> AInv (wstep s e).
Proof.
  intros H. destruct e as [e| | | | |q| |id| | |]; simpl.
  - destruct (w_busy s) eqn:B; [exact H|]. apply ainv_entry; auto.
  - apply ainv_op; auto.
  - apply ainv_check; auto.
  - apply ainv_trigger; auto.
  - apply ainv_final; auto.
  - unfold w_read. destruct (w_lock s); [exact H|]. destruct (_ || _); eapply ainv_frame; eauto; unfold same_apply; simpl; auto 12.
  - unfold w_register. destruct (w_lock s) as [[[[t q] st] f]|]; [|exact H].
    destruct (at_once q st f); eapply ainv_frame; eauto; unfold same_apply; simpl; auto 12.
  - eapply ainv_frame; eauto; unfold same_apply; simpl; auto 12.
  - unfold w_cron. destruct (w_lock s); [exact H|]. eapply ainv_frame; [apply remove_all_apply|auto].
  - unfold w_start. destruct (w_lock s); [exact H|]. destruct (w_busy s) eqn:B; [exact H|]. eapply ainv_frame; eauto; unfold same_apply; simpl; auto 12.
  - unfold w_stop. destruct (w_lock s); [exact H|]. destruct (w_busy s) eqn:B; [exact H|]. eapply ainv_frame; eauto; unfold same_apply; simpl; auto 12.
Qed.

Lemma ainv0 : AInv ws0.
Proof.
  unfold AInv. simpl. constructor; simpl; auto.
  - apply good0.
  - apply abs0.
  - intros r v. discriminate.
  - split; [apply sub_refl|auto].
Qed.

Lemma ainv_steps es : forall s, AInv s -> AInv (wsteps s es).
Proof. induction es as [|e es IH]; intros s H; [auto|]. apply IH. apply ainv_step. auto. Qed.
