(** Histories served one request at a time. *)
From Coq Require Import ZArith List Lia Bool Sorted Permutation.
From Verif Require Import Bytes SMap KvModel KvSpec KvProofs KvProofs2 KvProofs3 WatchModel WatchSpec LeaseProofs WatchProofs WatchProofs2 WatchProofs3 WatchProofs4 WatchProofs5.
Import ListNotations.
Open Scope Z_scope.

Lemma beqb_sym a b : beqb a b = beqb b a.
Proof.
  destruct (beqb a b) eqn:E.
  - apply beqb_true in E. subst. symmetry. apply beqb_refl.
  - destruct (beqb b a) eqn:E'; auto. apply beqb_true in E'. subst. rewrite beqb_refl in E. discriminate.
Qed.

Lemma fires_eq id q start key ev : (ev_type ev = EvPut \/ ev_type ev = EvDelete) ->
  fires (mkW id (q_key q) start (q_noput q) (q_nodel q) (q_prev q)) key ev = wanted q start (key, ev).
Proof.
  intros T. unfold fires, wanted. simpl. rewrite beqb_sym, Z.leb_antisym. rewrite <- !andb_assoc. f_equal.
  destruct T as [T|T]; rewrite T; simpl; destruct (q_noput q), (q_nodel q), (_ <? _); auto.
Qed.

Lemma fill_keep s ev n c : In c (undone (w_closures s)) -> c_id c <> wn_id n -> In c (undone (w_closures (fill s ev n))).
Proof.
  intros H N. unfold fill. destruct (find_closure _ _); [|exact H]. simpl. rewrite set_resp_undone. apply in_map_iff. exists c. split; auto.
  destruct (Z.eqb_spec (c_id c) (wn_id n)); congruence.
Qed.

Lemma fill_all_keep ev l : forall s c, In c (undone (w_closures s)) -> ~ In (c_id c) (map wn_id l) ->
  In c (undone (w_closures (fold_left (fun s n => fill s ev n) l s))).
Proof.
  induction l as [|n l IH]; intros s c H N; [exact H|]. simpl in *. apply IH; [|tauto]. apply fill_keep; auto.
Qed.

Lemma link_fields asked n c t q start f (R : closure -> Prop) s : TInv R s -> asked = w_asked s -> link asked n c -> c_ticket c = t ->
  In (t, q, start, f) asked -> n = mkW (c_id c) (q_key q) start (q_noput q) (q_nodel q) (q_prev q).
Proof.
  intros H -> (q' & f' & A & B & C & D) E Ha. rewrite E in A. destruct (asked_uniq _ _ _ _ _ _ _ _ H Ha A) as (<- & E3 & _).
  rewrite <- E3 in D. auto.
Qed.

Lemma waiting_trigger s key ev t id q start k : WInv s -> w_lock s = None -> w_pending s = Some (key, ev) -> w_armed s = true ->
  Waiting s t id q start k ->
  if wanted q start (key, ev) then In (t, Some (told q ev)) (w_answers (w_trigger s)) else Waiting (w_trigger s) t id q start k.
Proof.
  intros HW El Ep Ea W. pose proof (wi_t _ HW) as H. destruct (wi_p _ HW _ Ep) as [He T]. simpl in T.
  pose proof W as ((c & Hc & E1 & E2) & (f & Ha) & Hk).
  rewrite (trigger_eq s key ev El Ep Ea). cbv zeta. set (hit := filter (fun n => fires n key ev) (w_nodes s)).
  set (n := mkW id (q_key q) start (q_noput q) (q_nodel q) (q_prev q)).
  assert (Fn : fires n key ev = wanted q start (key, ev)) by (apply fires_eq; auto).
  assert (Hn : In n (w_nodes s)).
  { destruct (waiting_node _ _ _ _ _ _ H W) as (c' & n' & _ & _ & _ & A & _ & ->). exact A. }
  assert (Hu : forall n', In n' (w_nodes s) -> wn_id n' = id -> n' = n).
  { intros n' Hn' Ei. destruct (link_closure _ _ _ H Hn') as (c' & Hc' & L). destruct (link_id _ _ _ L) as [Li _].
    assert (c' = c). { apply in_undone in Hc'. apply in_undone in Hc. apply (same_id _ _ _ (ti_ids _ _ H)); try tauto. congruence. }
    subst c'. unfold n. rewrite <- E2. eapply link_fields; eauto. }
  assert (Hh : In id (map wn_id hit) <-> wanted q start (key, ev) = true).
  { rewrite <- Fn, in_map_iff. split.
    - intros (n' & Ei & Hi). apply filter_In in Hi. destruct Hi as [Hi Fi]. rewrite (Hu n' Hi Ei) in Fi. auto.
    - intros F. exists n. split; auto. apply filter_In. auto. }
  assert (H0 : TInv (filled key ev s []) s) by (apply tinv_weaken with (1 := H); intros x _ Hx; exact Hx).
  destruct (tinv_fill_all key ev hit s [] H0) as (l' & G & F1 & F2 & F3 & F4 & F5); auto.
  { intros x Hx. unfold hit in Hx. apply filter_In in Hx. auto. }
  destruct (fill_all_tickets ev hit s) as (X1 & X2 & X3 & X4 & X5).
  set (s1 := fold_left (fun s n => fill s ev n) hit s) in *. cbv zeta in *.
  destruct (wanted q start (key, ev)) eqn:Wn.
  - simpl w_answers. assert (Hi : In id (map wn_id hit)) by tauto.
    assert (Gt : In t (all_tickets (remove_all s1 (map wn_id hit)))).
    { eapply Permutation_in; [apply remove_all_tickets; rewrite X2; apply (ti_ids _ _ H)|]. rewrite X1. unfold all_tickets. rewrite !in_app_iff.
      right. left. rewrite <- E1. apply in_map. auto. }
    (* the closure in s1 with this ticket *)
    assert (Hs1 : forall c', In c' (undone (w_closures s1)) -> c_ticket c' = t -> c_id c' = id).
    { assert (Y : In t (map c_ticket (undone (w_closures s1))) -> forall c', In c' (undone (w_closures s1)) -> c_ticket c' = t -> c_id c' = id).
      { intros _ c' Hc' Et. destruct (link_asked _ _ _ G Hc') as (n' & Hn' & L).
        rewrite F1 in Hn'. rewrite F2 in L. destruct (link_id _ _ _ L) as [Li _].
        destruct (link_closure _ _ _ H Hn') as (c0 & Hc0 & L0). destruct (link_id _ _ _ L0) as [Li0 _].
        assert (Et0 : c_ticket c0 = c_ticket c').
        { destruct L as (q1 & f1 & A1 & B1 & C1 & D1), L0 as (q2 & f2 & A2 & B2 & C2 & D2).
          (* ids equal: same closure position; tickets come from asked, so use the ids *)
          assert (I1 : In (c_id c') (map c_id (w_closures s1))) by (apply in_map; apply in_undone in Hc'; tauto).
          assert (Z0 : c_ticket c0 = c_ticket c').
          { clear - Hc0 Hc' Li Li0 H.
            assert (Q : forall l x, NoDup (map c_id (w_closures x)) -> forall y z, In y (w_closures x) ->
                     In z (w_closures (fold_left (fun s n => fill s ev n) l x)) -> c_id y = c_id z -> c_ticket y = c_ticket z).
            { induction l as [|m l IH]; intros x N y z Hy Hz E; simpl in Hz.
              - rewrite (same_id _ _ _ N Hy Hz E). auto.
              - assert (Hm : exists y', In y' (w_closures (fill x ev m)) /\ c_id y' = c_id y /\ c_ticket y' = c_ticket y).
                { unfold fill. destruct (find_closure _ _); [|exists y; auto]. simpl. unfold set_resp.
                  exists (if (c_id y =? wn_id m) && negb (c_done y) then mkCl (c_id y) (c_ticket y) (c_key y) false (Some (shown (wn_prev m) ev)) else y).
                  split; [apply in_map_iff; exists y; auto|]. destruct (_ && _); auto. }
                destruct Hm as (y' & A & B & C). rewrite <- C. eapply IH; [|exact A|exact Hz|congruence].
                destruct (fill_tickets x ev m) as (_ & -> & _). auto. }
            apply in_undone in Hc0. apply in_undone in Hc'.
            apply (Q hit s (ti_ids _ _ H)); [tauto|exact (proj1 Hc')|congruence]. }
          exact Z0. }
        assert (c0 = c) by (apply (ticket_uniq s c0 c H); auto; congruence). subst c0. congruence. }
      intros c' Hc' Et. apply Y; auto. rewrite <- Et. apply in_map. auto. }
    destruct (remove_all_answers (map wn_id hit) s1) as (l & Ela & Hl).
    unfold all_tickets in Gt. rewrite !in_app_iff in Gt. destruct Gt as [Gt|[Gt|Gt]].
    + apply in_map_iff in Gt. destruct Gt as ([t' a] & E & Gt). simpl in E. subst t'. pose proof Gt as G0. rewrite Ela in Gt. apply in_app_iff in Gt.
      destruct Gt as [Gt|Gt].
      * exfalso. pose proof (waiting_open _ _ _ _ _ _ H W) as O. rewrite X3 in Gt. apply answers_to_in in Gt. rewrite O in Gt. destruct Gt.
      * destruct (Hl _ Gt) as (c' & A & B & C). inversion C as [[Et Er]].
        assert (Fl := ti_resp _ _ G c' A). unfold filled in Fl. rewrite F5 in Fl.
        assert (Xi : existsb (Z.eqb (c_id c')) (map wn_id hit) = true) by (apply existsb_in; auto). rewrite Xi in Fl. simpl in Fl.
        destruct Fl as (n' & L & Fi & Rs).
        assert (En : n' = mkW (c_id c') (q_key q) start (q_noput q) (q_nodel q) (q_prev q)).
        { eapply (link_fields (w_asked s) n' c' t q start f _ s H eq_refl L); auto. }
        rewrite Er in G0. rewrite Rs, En in G0. cbn [wn_prev] in G0. rewrite <- Et. exact G0.
    + exfalso. apply in_map_iff in Gt. destruct Gt as (c' & E & Gt). apply remove_all_undone in Gt. destruct Gt as [Gt N]. apply N. rewrite (Hs1 c' Gt E). auto.
    + exfalso. unfold lock_tickets in Gt. destruct (remove_all_rest (map wn_id hit) s1) as [_ Y]. rewrite Y, F4, El in Gt. destruct Gt.
  - assert (Hi : ~ In id (map wn_id hit)) by (intros Y; apply Hh in Y; discriminate).
    unfold Waiting. simpl. destruct (remove_all_rest (map wn_id hit) s1) as [-> _]. rewrite F2. split; [|split].
    + exists c. rewrite remove_all_undone, E2. split; [|auto]. split; auto. apply fill_all_keep; auto. rewrite E2. auto.
    + exists f. auto.
    + rewrite remove_all_status, X4. simpl. tauto.
Qed.

(** ** One operation of an entry *)

Definition Serial (s : wst) : Prop := w_lock s = None /\ w_pending s = None.

Definition round (s : wst) : wst := w_trigger (w_check (w_op s)).

Lemma trigger_tables s : w_lock (w_trigger s) = w_lock s /\ w_todo (w_trigger s) = w_todo s /\ w_events (w_trigger s) = w_events s /\
  w_busy (w_trigger s) = w_busy s /\ w_log (w_trigger s) = w_log s.
Proof.
  destruct (trigger_cases s) as [->|(key & ev & A & B & C)]; [auto|].
  rewrite (trigger_eq s key ev A B C). cbv zeta. set (hit := filter _ _). set (s1 := fold_left _ hit s).
  pose proof (fill_all_apply ev hit s) as Y1. fold s1 in Y1. pose proof (remove_all_apply (map wn_id hit) s1) as Y2.
  destruct (same_apply_trans _ _ _ Y1 Y2) as (_ & _ & E3 & E4 & E5 & _ & _ & _ & _ & E10). simpl.
  destruct (remove_all_rest (map wn_id hit) s1) as [_ ->].
  assert (E : w_lock s1 = w_lock s).
  { unfold s1. generalize hit. intros l. clear. revert s. induction l as [|n l IH]; intros s; [auto|]. simpl. rewrite IH. unfold fill. destruct (find_closure _ _); auto. }
  auto.
Qed.

Lemma round_serial s o todo : Serial s -> w_todo s = o :: todo -> w_busy s = true ->
  let ev := if takes_revision o then op_event (w_kv s) (match w_main s with Some m => m | None => k_rev (w_kv s) + 1 end, w_sub s) o else None in
  Serial (round s) /\ w_todo (round s) = todo /\ w_busy (round s) = true /\ w_log (round s) = w_log s /\
  w_events (round s) = w_events s ++ match ev with Some p => [p] | None => [] end.
Proof.
  intros [El Ep] Et Eb. cbv zeta. unfold round.
  set (s1 := w_op s).
  assert (A : w_lock s1 = None /\ w_todo s1 = todo /\ w_busy s1 = true /\ w_log s1 = w_log s /\
    let ev := if takes_revision o then op_event (w_kv s) (match w_main s with Some m => m | None => k_rev (w_kv s) + 1 end, w_sub s) o else None in
    w_pending s1 = ev /\ w_events s1 = w_events s ++ match ev with Some p => [p] | None => [] end).
  { unfold s1, w_op. rewrite Ep, Et. destruct (takes_revision o); simpl; rewrite ?app_nil_r; auto 10. }
  destruct A as (A1 & A2 & A3 & A4 & A5 & A6). clearbody s1. set (ev := if takes_revision o then _ else None) in *. clearbody ev.
  destruct (trigger_tables (w_check s1)) as (B1 & B2 & B3 & B4 & B5). unfold Serial. rewrite B1, B2, B3, B4, B5.
  assert (C : w_lock (w_check s1) = w_lock s1 /\ w_todo (w_check s1) = w_todo s1 /\ w_events (w_check s1) = w_events s1 /\
     w_busy (w_check s1) = w_busy s1 /\ w_log (w_check s1) = w_log s1 /\ (w_pending (w_check s1) = None \/ w_armed (w_check s1) = true)).
  { unfold w_check. destruct (w_pending s1) eqn:P; [|auto 10]. destruct (w_nodes s1); simpl; auto 10. }
  destruct C as (C1 & C2 & C3 & C4 & C5 & C6). rewrite C1, C2, C3, C4, C5, A1, A2, A3, A4, A6.
  split; [|auto]. split; auto. unfold w_trigger. rewrite C1, A1. destruct (w_pending (w_check s1)) as [[key e]|] eqn:P; auto.
  destruct C6 as [C6|C6]; [discriminate|]. rewrite C6. auto.
Qed.

Lemma round_waiting s o todo t id q start k : WInv s -> Serial s -> w_todo s = o :: todo -> Waiting s t id q start k ->
  let ev := if takes_revision o then op_event (w_kv s) (match w_main s with Some m => m | None => k_rev (w_kv s) + 1 end, w_sub s) o else None in
  match find (wanted q start) (match ev with Some p => [p] | None => [] end) with
  | Some (_, e) => In (t, Some (told q e)) (w_answers (round s))
  | None => Waiting (round s) t id q start k
  end.
Proof.
  intros HW [El Ep] Et W. cbv zeta. unfold round.
  pose proof (winv_step _ WOp HW) as HW1. simpl in HW1. set (s1 := w_op s) in *.
  assert (A : w_lock s1 = None /\ w_closures s1 = w_closures s /\ w_status s1 = w_status s /\ w_asked s1 = w_asked s /\
    let ev := if takes_revision o then op_event (w_kv s) (match w_main s with Some m => m | None => k_rev (w_kv s) + 1 end, w_sub s) o else None in
    w_pending s1 = ev).
  { unfold s1, w_op. rewrite Ep, Et. destruct (takes_revision o); simpl; auto 10. }
  destruct A as (A1 & A2 & A3 & A4 & A5). clearbody s1. set (ev := if takes_revision o then _ else None) in *. clearbody ev.
  assert (W1 : Waiting s1 t id q start k) by (apply waiting_frame with (s := s); auto; rewrite A4; apply incl_refl).
  destruct (waiting_node _ _ _ _ _ _ (wi_t _ HW1) W1) as (c & n & _ & _ & _ & Hn & _).
  pose proof (winv_step _ WCheck HW1) as HW2. simpl in HW2. cbv zeta in A5. unfold w_check in *. rewrite A5 in *. destruct ev as [[key e]|].
  - destruct (w_nodes s1) as [|n0 ns] eqn:En; [destruct Hn|].
    set (s2 := w_set_kv s1 _ _ _ _ _ _ _ _ _ _) in *.
    assert (W2 : Waiting s2 t id q start k) by (apply waiting_frame with (s := s1); auto; apply incl_refl).
    pose proof (waiting_trigger s2 key e t id q start k HW2 A1 eq_refl eq_refl W2) as G.
    unfold find. destruct (wanted q start (key, e)); exact G.
  - simpl. unfold w_trigger. rewrite A1, A5. exact W1.
Qed.

Lemma rounds ops : forall s t id q start k, WInv s -> Serial s -> w_todo s = ops -> w_busy s = true ->
  let s' := wsteps s (flat_map (fun _ => [WOp; WCheck; WTrigger]) ops) in
  exists l, w_events s' = w_events s ++ l /\ Serial s' /\ w_todo s' = [] /\ w_busy s' = true /\ w_log s' = w_log s /\
    (Waiting s t id q start k ->
     match find (wanted q start) l with
     | Some (_, e) => answers_to s' t = [Some (told q e)]
     | None => Waiting s' t id q start k
     end).
Proof.
  induction ops as [|o ops IH]; intros s t id q start k HW HS Et Eb; cbv zeta.
  - exists []. simpl. rewrite app_nil_r. auto 10.
  - change (wsteps s (flat_map (fun _ => [WOp; WCheck; WTrigger]) (o :: ops))) with
      (wsteps (round s) (flat_map (fun _ => [WOp; WCheck; WTrigger]) ops)).
    assert (HW1 : WInv (round s)).
    { change (round s) with (wsteps s [WOp; WCheck; WTrigger]). apply winv_steps. auto. }
    destruct (round_serial s o ops HS Et Eb) as (A1 & A2 & A3 & A4 & A5). cbv zeta in A5.
    pose proof (fun W => round_waiting s o ops t id q start k HW HS Et W) as B. cbv zeta in B.
    set (ev := if takes_revision o then _ else None) in *. clearbody ev.
    destruct (IH (round s) t id q start k HW1 A1 A2 A3) as (l & C1 & C2 & C3 & C4 & C5 & C6).
    exists (match ev with Some p => [p] | None => [] end ++ l). split; [rewrite C1, A5, app_assoc; auto|].
    split; [auto|]. split; [auto|]. split; [auto|]. split; [congruence|].
    intros W. specialize (B W). destruct ev as [[key e]|]; simpl app; simpl find in *.
    + destruct (wanted q start (key, e)).
      * apply answered_stays; auto. eapply answered_once; [apply (wi_t _ HW1)|auto].
      * apply C6. auto.
    + apply C6. auto.
Qed.

(** ** One request *)

(** between requests *)
Record Rest (s : wst) (log : list incr) : Prop := mkRest { re_inv : WInv s; re_lock : w_lock s = None; re_busy : w_busy s = false; re_log : w_log s = log }.

Lemma rest_idle s log : Rest s log -> Idle s.
Proof. intros [H _ B _]. pose proof (wi_a _ H) as A. unfold AInv in A. rewrite B in A. auto. Qed.

Lemma wsteps_app s a b : wsteps s (a ++ b) = wsteps (wsteps s a) b.
Proof. unfold wsteps. apply fold_left_app. Qed.

Lemma serve_apply s log e t id q start k : Rest s log -> clean (log ++ [e]) ->
  let s' := wsteps s (wevents (SApply e)) in
  Rest s' (log ++ [e]) /\
  (Waiting s t id q start k ->
   match find (wanted q start) (entry_events (spec_log log) e) with
   | Some (_, ev) => answers_to s' t = [Some (told q ev)]
   | None => Waiting s' t id q start k
   end).
Proof.
  intros HR HC. cbv zeta. pose proof (rest_idle _ _ HR) as HI. destruct HR as [HW El Eb Elog].
  unfold wevents. change (wsteps s (WEntry e :: flat_map (fun _ => [WOp; WCheck; WTrigger]) (in_ops e) ++ [WFinal])) with
    (wsteps (wstep s (WEntry e)) (flat_map (fun _ => [WOp; WCheck; WTrigger]) (in_ops e) ++ [WFinal])).
  rewrite wsteps_app. pose proof (winv_step s (WEntry e) HW) as HW1. simpl wstep in *. rewrite Eb in *.
  set (s1 := w_entry s e) in *.
  destruct (rounds (in_ops e) s1 t id q start k HW1) as (l & A1 & A2 & A3 & A4 & A5 & A6); [split; auto|auto|auto|].
  pose proof (winv_steps (flat_map (fun _ => [WOp; WCheck; WTrigger]) (in_ops e)) s1 HW1) as HW2.
  set (s2 := wsteps s1 (flat_map (fun _ => [WOp; WCheck; WTrigger]) (in_ops e))) in *. cbv zeta in *. destruct A2 as [A2 A2'].
  pose proof (winv_step s2 WFinal HW2) as HW3. change (wsteps s2 [WFinal]) with (w_final s2). simpl wstep in HW3.
  assert (Ed : entry_done s2 = true) by (unfold entry_done; rewrite A4, A3, A2'; auto).
  assert (HR' : Rest (w_final s2) (log ++ [e])).
  { constructor; auto; unfold w_final; rewrite Ed; simpl; auto. rewrite A5. simpl. congruence. }
  split; [exact HR'|].
  intros W. assert (W1 : Waiting s1 t id q start k) by (apply waiting_frame with (s := s); auto; apply incl_refl).
  specialize (A6 W1).
  assert (El' : l = entry_events (spec_log log) e).
  { pose proof (rest_idle _ _ HR') as HI'. pose proof (id_events _ HI') as [_ Y']. pose proof (id_events _ HI) as [_ Y].
    rewrite (re_log _ _ HR') in Y'. specialize (Y' HC). rewrite Elog in Y.
    assert (HC' : clean log) by (unfold clean in HC; apply clean_from_app in HC; tauto). specialize (Y HC').
    unfold log_events in Y'. rewrite events_from_app in Y'. fold (log_events log) in Y'. rewrite <- Y in Y'.
    change (fold_left spec_entry log store0) with (spec_log log) in Y'.
    assert (Ev : w_events (w_final s2) = w_events s2) by (unfold w_final; rewrite Ed; auto). rewrite Ev, A1 in Y'. simpl in Y'.
    apply app_inv_head in Y'. auto. }
  rewrite <- El'. destruct (find (wanted q start) l) as [[k0 ev]|].
  - apply (answered_stays s2 t _ [WFinal]); auto.
  - apply waiting_frame with (s := s2); auto; unfold w_final; rewrite Ed; simpl; auto. apply incl_refl.
Qed.

Lemma rest_other s log r : Rest s log -> (forall e, r <> SApply e) -> Rest (wsteps s (wevents r)) log.
Proof.
  intros [HW El Eb Elog] N. pose proof (winv_steps (wevents r) s HW) as HW'. constructor; auto.
  - destruct r as [e|q|id| | |]; simpl; [destruct (N e eq_refl)| | | | |].
    + unfold w_read. rewrite El. destruct (_ || _); unfold w_register; simpl; auto. destruct (at_once _ _ _); auto.
    + auto.
    + unfold w_cron. rewrite El. destruct (remove_all_rest (map fst (filter snd (w_status s))) s) as [_ ->]. auto.
    + unfold w_stop. rewrite El, Eb. auto.
    + unfold w_start. rewrite El, Eb. auto.
  - destruct r as [e|q|id| | |]; simpl; [destruct (N e eq_refl)| | | | |].
    + unfold w_read. rewrite El. destruct (_ || _); unfold w_register; simpl; auto. destruct (at_once _ _ _); auto.
    + auto.
    + unfold w_cron. rewrite El. destruct (remove_all_apply (map fst (filter snd (w_status s))) s) as (_ & _ & _ & -> & _). auto.
    + unfold w_stop. rewrite El, Eb. auto.
    + unfold w_start. rewrite El, Eb. auto.
  - destruct r as [e|q|id| | |]; simpl; [destruct (N e eq_refl)| | | | |].
    + unfold w_read. rewrite El. destruct (_ || _); unfold w_register; simpl; auto. destruct (at_once _ _ _); auto.
    + auto.
    + unfold w_cron. rewrite El. destruct (remove_all_apply (map fst (filter snd (w_status s))) s) as (_ & _ & -> & _). auto.
    + unfold w_stop. rewrite El, Eb. auto.
    + unfold w_start. rewrite El, Eb. auto.
Qed.

Lemma clean_prefix a b : clean (a ++ b) -> clean a.
Proof. unfold clean. intros H. apply clean_from_app in H. tauto. Qed.

Lemma spec_log_snoc log e : spec_log (log ++ [e]) = spec_entry (spec_log log) e.
Proof. unfold spec_log. rewrite fold_left_app. auto. Qed.

(** the answers of a watch that waits *)
Lemma serve_waits h : forall s log t id q start k, Rest s log -> clean (log ++ entries h) -> id < w_seq s -> Waiting s t id q start k ->
  answers_to (wsteps s (flat_map wevents h)) t = waits q start id k (spec_log log) h.
Proof.
  induction h as [|r h IH]; intros s log t id q start k HR HC Hid W.
  - simpl. eapply waiting_open; eauto. apply (wi_t _ (re_inv _ _ HR)).
  - cbn [flat_map]. rewrite wsteps_app.
    assert (Hseq : w_seq s <= w_seq (wsteps s (wevents r))).
    { assert (Q : forall e s, w_seq s <= w_seq (wstep s e)).
      { assert (Rm : forall ids s, w_seq (remove_all s ids) = w_seq s).
        { induction ids as [|i ids IHi]; intros s0; [auto|]. change (remove_all s0 (i :: ids)) with (remove_all (remove_one s0 i) ids). rewrite IHi.
          unfold remove_one. destruct (find_closure _ _); auto. }
        assert (Fl : forall ev l s, w_seq (fold_left (fun s n => fill s ev n) l s) = w_seq s).
        { intros ev l. induction l as [|n l IHl]; intros s0; [auto|]. simpl. rewrite IHl. unfold fill. destruct (find_closure _ _); auto. }
        intros e s0. destruct e as [e| | | | |q0| |id0| | |]; simpl; try lia.
        - destruct (w_busy s0); simpl; lia.
        - unfold w_op. destruct (w_pending s0); [lia|]. destruct (w_todo s0) as [|o todo]; [lia|]. destruct (takes_revision o); simpl; lia.
        - unfold w_check. destruct (w_pending s0); [|lia]. destruct (w_nodes s0); simpl; lia.
        - unfold w_trigger. destruct (w_lock s0); [lia|]. destruct (w_pending s0) as [[key ev]|]; [|lia]. destruct (w_armed s0); [|lia]. simpl. rewrite Rm, Fl. lia.
        - unfold w_final. destruct (entry_done s0); simpl; lia.
        - unfold w_read. destruct (w_lock s0); [lia|]. destruct (_ || _); simpl; lia.
        - unfold w_register. destruct (w_lock s0) as [[[[? ?] ?] ?]|]; [|lia]. destruct (at_once _ _ _); simpl; lia.
        - unfold w_cron. destruct (w_lock s0); [lia|]. rewrite Rm. lia.
        - unfold w_start. destruct (w_lock s0); [lia|]. destruct (w_busy s0); simpl; lia.
        - unfold w_stop. destruct (w_lock s0); [lia|]. destruct (w_busy s0); simpl; lia. }
      clear - Q. revert s. generalize (wevents r). intros l. induction l as [|e l IHl]; intros s; [simpl; lia|].
      change (wsteps s (e :: l)) with (wsteps (wstep s e) l). specialize (Q e s). specialize (IHl (wstep s e)). lia. }
    destruct r as [e|q0|id0| | |].
    + simpl entries in HC. cbn [waits].
      assert (HC1 : clean (log ++ [e])).
      { apply clean_prefix with (b := entries h). rewrite <- app_assoc. auto. }
      destruct (serve_apply s log e t id q start k HR HC1) as [HR' A]. specialize (A W).
      destruct (find (wanted q start) (entry_events (spec_log log) e)) as [[k0 ev]|].
      * apply answered_stays; auto. apply (re_inv _ _ HR').
      * rewrite (IH _ (log ++ [e]) t id q start k); auto; [rewrite spec_log_snoc; auto|rewrite <- app_assoc; auto|lia].
    + cbn [waits]. assert (HR' := rest_other s log (SWatch q0) HR ltac:(discriminate)).
      apply (IH _ log); auto; try lia. destruct HR as [HW El Eb Elog].
      simpl. unfold w_read. rewrite El. destruct (_ || _).
      * unfold w_register. simpl. apply waiting_frame with (s := s); auto. simpl. apply incl_appl, incl_refl.
      * unfold w_register. simpl. destruct (at_once _ _ _).
        -- apply waiting_frame with (s := s); auto. simpl. apply incl_appl, incl_refl.
        -- destruct W as ((c & Hc & E1 & E2) & (f & Ha) & Hk). unfold Waiting. simpl. split; [|split].
           ++ exists c. unfold undone. rewrite filter_app. split; auto. apply in_app_iff. left. auto.
           ++ exists f. apply in_app_iff. auto.
           ++ rewrite in_app_iff. unfold status_erase. rewrite filter_In. simpl.
              destruct (Z.eqb_spec id (w_seq s)); [lia|]. simpl. rewrite <- Hk. intuition congruence.
    + cbn [waits]. assert (HR' := rest_other s log (SCancel id0) HR ltac:(discriminate)).
      apply (IH _ log); auto; try lia. destruct W as ((c & Hc & E1 & E2) & (f & Ha) & Hk). unfold Waiting. simpl. split; [|split].
      * exists c. auto.
      * exists f. auto.
      * rewrite in_app_iff. unfold status_erase. rewrite filter_In. simpl. destruct (Z.eqb_spec id0 id) as [->|N].
        -- rewrite orb_true_r. split; auto.
        -- rewrite orb_false_r, <- Hk. destruct (Z.eqb_spec id id0); [congruence|]. simpl. intuition congruence.
    + cbn [waits]. assert (HR' := rest_other s log SCron HR ltac:(discriminate)).
      pose proof (waiting_remove s (map fst (filter snd (w_status s))) t id q start k (wi_t _ (re_inv _ _ HR)) W) as A.
      assert (X : existsb (Z.eqb id) (map fst (filter snd (w_status s))) = k).
      { destruct W as (_ & _ & Hk). destruct (existsb _ _) eqn:X.
        - symmetry. apply Hk. apply existsb_in in X. apply in_map_iff in X. destruct X as ([i b] & E & X). apply filter_In in X. simpl in *.
          destruct X as [X Y]. subst. exact X.
        - destruct k; auto. exfalso. assert (Y : In id (map fst (filter snd (w_status s)))).
          { apply in_map_iff. exists (id, true). split; auto. apply filter_In. split; auto. apply Hk. auto. }
          apply existsb_in in Y. congruence. }
      rewrite X in A. assert (Ec : wsteps s (wevents SCron) = remove_all s (map fst (filter snd (w_status s)))).
      { simpl. unfold w_cron. rewrite (re_lock _ _ HR). auto. }
      rewrite Ec in *. destruct k.
      * apply answered_stays; [apply (re_inv _ _ HR')|]. eapply answered_once; [apply (wi_t _ (re_inv _ _ HR'))|auto].
      * apply (IH _ log); auto. lia.
    + cbn [waits]. assert (HR' := rest_other s log SStop HR ltac:(discriminate)).
      apply answered_stays; [apply (re_inv _ _ HR')|]. eapply answered_once; [apply (wi_t _ (re_inv _ _ HR'))|].
      destruct HR as [HW El Eb Elog]. simpl. unfold w_stop. rewrite El, Eb. simpl. apply in_app_iff. right.
      destruct W as ((c & Hc & E1 & E2) & _). pose proof (ti_resp _ _ (wi_t _ HW) c Hc) as Q. apply in_undone in Hc. apply in_flat_map. exists c.
      split; [tauto|]. unfold done_answer. destruct Hc as [_ ->]. left. unfold quiet in Q. congruence.
    + cbn [waits]. assert (HR' := rest_other s log SStart HR ltac:(discriminate)).
      assert (O := waiting_open _ _ _ _ _ _ (wi_t _ (re_inv _ _ HR)) W).
      assert (Tk : t < w_tick s).
      { destruct W as ((c & Hc & E1 & E2) & _). apply (ti_tick _ _ (wi_t _ (re_inv _ _ HR))). unfold all_tickets. rewrite !in_app_iff. right. left. rewrite <- E1. apply in_map. auto. }
      apply lost_stays; [apply (re_inv _ _ HR')| |].
      * destruct HR as [HW El Eb Elog]. simpl. unfold w_start. rewrite El, Eb. unfold all_tickets, lock_tickets. simpl. rewrite app_nil_r.
        intros Y. apply in_map_iff in Y. destruct Y as ([t' a] & E & Y). simpl in E. subst t'. apply answers_to_in in Y. rewrite O in Y. destruct Y.
      * destruct HR as [HW El Eb Elog]. simpl. unfold w_start. rewrite El, Eb. simpl. auto.
Qed.
