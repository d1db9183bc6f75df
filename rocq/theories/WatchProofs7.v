(** The answers of served histories, and what every interleaving keeps. *)
From Coq Require Import ZArith List Lia Bool Sorted Permutation.
From Verif Require Import Bytes SMap KvModel KvSpec KvProofs KvProofs2 KvProofs3 WatchModel WatchSpec LeaseProofs WatchProofs WatchProofs2 WatchProofs3 WatchProofs4 WatchProofs5 WatchProofs6.
Import ListNotations.
Open Scope Z_scope.

Lemma f2_length {A B} (R : A -> B -> Prop) l l' : Forall2 R l l' -> length l = length l'.
Proof. induction 1; simpl; auto. Qed.

(** ** Served histories *)

Lemma rest0 : Rest ws0 [].
Proof. constructor; auto. apply winv0. Qed.

Lemma nodes_asked s : TInv quiet s -> (length (w_nodes s) <= length (w_asked s))%nat.
Proof.
  intros H. rewrite (f2_length _ _ _ (ti_link _ _ H)), <- (map_length c_ticket), <- (map_length ask_ticket).
  apply NoDup_incl_length.
  - pose proof (ti_tickets _ _ H) as N. unfold all_tickets in N.
    revert N. generalize (map fst (w_answers s)). intros l. induction l as [|x l IH]; simpl; intros N; [eapply NoDup_app_l; eauto|]. inversion N; auto.
  - intros t Ht. apply in_map_iff in Ht. destruct Ht as (c & <- & Hc). destruct (link_asked _ _ _ H Hc) as (n & _ & q & f & A & _).
    apply in_map_iff. exists (c_ticket c, q, wn_start n, f). auto.
Qed.

Lemma fill_tab ev l : forall s, w_asked (fold_left (fun s n => fill s ev n) l s) = w_asked s /\ w_tick (fold_left (fun s n => fill s ev n) l s) = w_tick s.
Proof.
  induction l as [|n l IH]; intros s; [auto|]. simpl. destruct (IH (fill s ev n)) as [-> ->]. unfold fill. destruct (find_closure _ _); auto.
Qed.

Lemma asked_step s e : (forall q, e <> WRead q) -> w_asked (wstep s e) = w_asked s /\ w_tick (wstep s e) = w_tick s.
Proof.
  intros N. destruct e as [e| | | | |q| |id| | |]; simpl; auto.
  - destruct (w_busy s); auto.
  - unfold w_op. destruct (w_pending s); auto. destruct (w_todo s) as [|o todo]; auto. destruct (takes_revision o); auto.
  - unfold w_check. destruct (w_pending s); auto. destruct (w_nodes s); auto.
  - unfold w_trigger. destruct (w_lock s); auto. destruct (w_pending s) as [[key ev]|]; auto. destruct (w_armed s); auto.
    cbv zeta. simpl. rewrite remove_all_tick. destruct (remove_all_rest (map wn_id (filter (fun n => fires n key ev) (w_nodes s)))
      (fold_left (fun s n => fill s ev n) (filter (fun n => fires n key ev) (w_nodes s)) s)) as [-> _]. apply fill_tab.
  - unfold w_final. destruct (entry_done s); auto.
  - destruct (N q eq_refl).
  - unfold w_register. destruct (w_lock s) as [[[[t q] st] f]|]; auto. destruct (at_once q st f); auto.
  - unfold w_cron. destruct (w_lock s); auto. rewrite remove_all_tick. destruct (remove_all_rest (map fst (filter snd (w_status s))) s) as [-> _]. auto.
  - unfold w_start. destruct (w_lock s); auto. destruct (w_busy s); auto.
  - unfold w_stop. destruct (w_lock s); auto. destruct (w_busy s); auto.
Qed.

Lemma asked_steps es : forall s, (forall q, ~ In (WRead q) es) -> w_asked (wsteps s es) = w_asked s /\ w_tick (wsteps s es) = w_tick s.
Proof.
  induction es as [|e es IH]; intros s N; [auto|]. change (wsteps s (e :: es)) with (wsteps (wstep s e) es).
  destruct (IH (wstep s e)) as [-> ->]; [intros q X; apply (N q); right; auto|]. apply asked_step. intros q ->. apply (N q). left. auto.
Qed.

Lemma serve_count s log r : Rest s log -> let s' := wsteps s (wevents r) in
  w_tick s' = w_tick s + Z.of_nat (length (watches [r])) /\ length (w_asked s') = (length (w_asked s) + length (watches [r]))%nat.
Proof.
  intros HR. cbv zeta. destruct r as [e|q|id| | |].
  2:{ simpl. destruct HR as [_ El _ _]. unfold w_read. rewrite El. destruct (_ || _); unfold w_register; simpl.
      - rewrite app_length. auto.
      - destruct (at_once _ _ _); simpl; rewrite app_length; auto. }
  all: match goal with |- context [wevents ?r] => destruct (asked_steps (wevents r) s) as [E1 E2]; [|rewrite E1, E2; cbn; split; lia] end.
  1:{ intros q X. simpl in X. destruct X as [X|X]; [discriminate|]. apply in_app_iff in X. destruct X as [X|[X|[]]]; [|discriminate].
      apply in_flat_map in X. destruct X as (o & _ & [X|[X|[X|[]]]]); discriminate. }
  all: intros q [X|[]]; discriminate.
Qed.

Lemma wserves_snoc h r : wserves (h ++ [r]) = wsteps (wserves h) (wevents r).
Proof. unfold wserves. rewrite flat_map_app, wsteps_app. simpl. rewrite app_nil_r. auto. Qed.

Lemma wserves_app h h' : wserves (h ++ h') = wsteps (wserves h) (flat_map wevents h').
Proof. unfold wserves. rewrite flat_map_app, wsteps_app. auto. Qed.

(** here the log need not be clean *)
Lemma rest_serves h : Rest (wserves h) (entries h) /\
  w_tick (wserves h) = Z.of_nat (length (watches h)) /\ length (w_asked (wserves h)) = length (watches h).
Proof.
  induction h as [|r h (IH1 & IH2 & IH3)] using rev_ind; [split; [apply rest0|auto]|].
  rewrite wserves_snoc. unfold entries, watches. rewrite !flat_map_app, app_length. fold (entries h) (entries [r]) (watches h) (watches [r]).
  destruct (serve_count _ _ r IH1) as [E1 E2]. split; [|rewrite E1, E2, IH2, IH3; split; lia].
  destruct r as [e|q|id| | |]; try (simpl entries; rewrite app_nil_r; apply rest_other; auto; discriminate).
  simpl entries. destruct IH1 as [HW El Eb Elog]. pose proof (winv_steps (wevents (SApply e)) (wserves h) HW) as HW'.
  unfold wevents in *. change (wsteps (wserves h) (WEntry e :: flat_map (fun _ => [WOp; WCheck; WTrigger]) (in_ops e) ++ [WFinal])) with
    (wsteps (wstep (wserves h) (WEntry e)) (flat_map (fun _ => [WOp; WCheck; WTrigger]) (in_ops e) ++ [WFinal])) in *.
  rewrite wsteps_app in *. pose proof (winv_step (wserves h) (WEntry e) HW) as HW1. simpl wstep in *. rewrite Eb in *.
  set (s1 := w_entry (wserves h) e) in *.
  destruct (rounds (in_ops e) s1 0 0 (mkQ [] 0 false false false false) 0 false HW1) as (l & A1 & A2 & A3 & A4 & A5 & _); [split; auto|auto|auto|].
  set (s2 := wsteps s1 _) in *. cbv zeta in *. destruct A2 as [A2 A2'].
  assert (Ed : entry_done s2 = true) by (unfold entry_done; rewrite A4, A3, A2'; auto).
  constructor; [exact HW'| | |]; simpl; unfold w_final; rewrite Ed; simpl; auto. rewrite A5. unfold s1. simpl. rewrite Elog. auto.
Qed.

Lemma at_once_imm s log q : Rest s log -> at_once q (if q_start q =? 0 then k_rev (w_kv s) else q_start q) (current (w_kv s) (q_key q)) = immediate q (spec_log log) /\
  (if q_start q =? 0 then k_rev (w_kv s) else q_start q) = start_of q (spec_log log).
Proof.
  intros HR. pose proof (rest_idle _ _ HR) as HI. pose proof (re_log _ _ HR) as El.
  pose proof (id_abs _ HI) as (A1 & A2 & A3). rewrite El in *.
  assert (Ec : current (w_kv s) (q_key q) = st_data (spec_log log) (q_key q)).
  { rewrite current_of by (eapply good_rinv, (id_good _ HI)). apply A1. }
  assert (Er : k_rev (w_kv s) = st_rev (spec_log log)) by exact A3.
  unfold at_once, immediate, start_of. rewrite Ec, Er. auto.
Qed.

Lemma watched_le l : (length (watched_keys l) <= length l)%nat.
Proof.
  unfold watched_keys. rewrite <- (map_length wn_key l). apply NoDup_incl_length; [apply NoDup_nodup|]. intros x. apply nodup_In.
Qed.

Lemma serial_answers h1 q h2 : clean (entries h1 ++ entries h2) -> q_key q <> [] -> Z.of_nat (length (watches h1)) <= kMaxWatch ->
  answers_to (wserves (h1 ++ SWatch q :: h2)) (Z.of_nat (length (watches h1))) =
  expected q (w_seq (wserves h1)) (spec_log (entries h1)) h2.
Proof.
  intros HC Hk Hn. destruct (rest_serves h1) as (HR & Et & Ea). set (s := wserves h1) in *.
  change (h1 ++ SWatch q :: h2) with (h1 ++ [SWatch q] ++ h2). rewrite app_assoc, wserves_app, wserves_snoc. fold s.
  pose proof (rest_other s _ (SWatch q) HR ltac:(discriminate)) as HR'.
  assert (Es : wsteps s (wevents (SWatch q)) = w_register (w_read s q)) by reflexivity. rewrite Es in *.
  destruct (at_once_imm s _ q HR) as [Ei Est]. unfold expected. rewrite <- Ei.
  destruct (beqb (q_key q) []) eqn:Eb; [apply beqb_true in Eb; congruence|].
  assert (El : kMaxWatch <? Z.of_nat (length (watched_keys (w_nodes s))) = false).
  { apply Z.ltb_ge. pose proof (watched_le (w_nodes s)). pose proof (nodes_asked s (wi_t _ (re_inv _ _ HR))). lia. }
  unfold w_read in *. rewrite (re_lock _ _ HR), Eb, El in *. cbn [orb] in *. unfold w_register in *. cbn [w_lock w_set_tables] in *.
  set (start := if q_start q =? 0 then k_rev (w_kv s) else q_start q) in *. set (found := current (w_kv s) (q_key q)) in *.
  destruct (at_once q start found) as [ev|] eqn:Eo.
  - apply answered_stays; [apply (re_inv _ _ HR')|]. eapply answered_once; [apply (wi_t _ (re_inv _ _ HR'))|]. simpl. apply in_app_iff. right. left.
    rewrite Et. auto.
  - rewrite <- Est. apply serve_waits with (log := entries h1); auto.
    + simpl. lia.
    + unfold Waiting. simpl. split; [|split].
      * exists (mkCl (w_seq s) (w_tick s) (q_key q) false None). unfold undone. rewrite filter_app, in_app_iff. simpl. auto.
      * exists found. rewrite in_app_iff. right. left. rewrite Et. auto.
      * unfold status_erase. rewrite in_app_iff, filter_In. simpl. rewrite Z.eqb_refl. simpl. split; [|discriminate].
        intros [[_ X]|[X|[]]]; [discriminate|congruence].
Qed.

(** ** All interleavings *)

(** the watch waits, whether or not its client has gone *)
Definition Open (s : wst) (t : Z) (q : wreq) (start : Z) : Prop := exists id k, Waiting s t id q start k.

Lemma open_intro s t q start c f : In c (undone (w_closures s)) -> c_ticket c = t -> In (t, q, start, f) (w_asked s) -> Open s t q start.
Proof.
  intros A B C. exists (c_id c).
  destruct (in_dec (fun a b : Z * bool => ltac:(decide equality; [apply bool_dec|apply Z.eq_dec]) : {a = b} + {a <> b}) (c_id c, true) (w_status s)) as [D|D].
  - exists true. split; [exists c; auto|]. split; [exists f; auto|]. tauto.
  - exists false. split; [exists c; auto|]. split; [exists f; auto|]. split; [tauto|discriminate].
Qed.

Lemma open_elim s t q start : Open s t q start -> exists c f, In c (undone (w_closures s)) /\ c_ticket c = t /\ In (t, q, start, f) (w_asked s).
Proof. intros (id & k & (c & A & B & _) & (f & C) & _). exists c, f. auto. Qed.

Lemma open_frame s s' t q start : incl (w_closures s) (w_closures s') -> incl (w_asked s) (w_asked s') -> Open s t q start -> Open s' t q start.
Proof.
  intros A B H. destruct (open_elim _ _ _ _ H) as (c & f & C & D & E). apply (open_intro s' t q start c f); auto.
  apply in_undone in C. apply in_undone. split; [apply A|]; tauto.
Qed.

Definition answered (s : wst) (t : Z) : Prop := exists a, In (t, a) (w_answers s).

Lemma answered_step s t e : answered s t -> answered (wstep s e) t.
Proof. intros (a & H). exists a. destruct (answers_step s e) as [l ->]. apply in_app_iff. auto. Qed.

Definition waits_for (s : wst) (t : Z) (q : wreq) (start : Z) (ev0 : list (bytes * event)) : Prop :=
  exists l, w_events s = ev0 ++ l /\
  (answered s t \/ (Open s t q start /\ forall p, In p l -> wanted q start p = true -> w_pending s = Some p)).

Lemma waits_for_step s t q start ev0 e : WInv s -> e <> WStart -> waits_for s t q start ev0 -> waits_for (wstep s e) t q start ev0.
Proof.
  intros HW Ne (l & El & H).
  destruct H as [H|[HO H]].
  { assert (X : exists l', w_events (wstep s e) = w_events s ++ l').
    { assert (Same : forall x, w_events x = w_events s -> exists l' : list (bytes * event), w_events x = w_events s ++ l') by (intros x E; exists []; rewrite app_nil_r; auto).
      destruct e as [e| | | | |q0| |id| | |]; simpl.
      - destruct (w_busy s); apply Same; auto.
      - unfold w_op. destruct (w_pending s); [apply Same; auto|]. destruct (w_todo s) as [|o todo]; [apply Same; auto|].
        destruct (takes_revision o); [|apply Same; auto]. simpl. eexists. reflexivity.
      - unfold w_check. destruct (w_pending s); [|apply Same; auto]. destruct (w_nodes s); apply Same; auto.
      - apply Same. destruct (trigger_tables s) as (_ & _ & -> & _). auto.
      - apply Same. unfold w_final. destruct (entry_done s); auto.
      - apply Same. unfold w_read. destruct (w_lock s); auto. destruct (_ || _); auto.
      - apply Same. unfold w_register. destruct (w_lock s) as [[[[? ?] ?] ?]|]; auto. destruct (at_once _ _ _); auto.
      - apply Same. auto.
      - apply Same. unfold w_cron. destruct (w_lock s); auto. destruct (remove_all_apply (map fst (filter snd (w_status s))) s) as (_ & _ & _ & _ & _ & _ & _ & _ & _ & Y). exact Y.
      - apply Same. unfold w_start. destruct (w_lock s); auto. destruct (w_busy s); auto.
      - apply Same. unfold w_stop. destruct (w_lock s); auto. destruct (w_busy s); auto. }
    destruct X as [l' E]. exists (l ++ l'). rewrite E, El, app_assoc. split; auto. left. apply answered_step. auto. }
  assert (Same : forall x, w_events x = w_events s -> w_pending x = w_pending s -> answered x t \/ Open x t q start -> waits_for x t q start ev0).
  { intros x E1 E2 [X|X]; exists l; (split; [congruence|]); [left; auto|right]. split; auto. rewrite E2. auto. }
  pose proof (wi_t _ HW) as HT.
  destruct e as [e| | | | |q0| |id| | |]; simpl.
  - destruct (w_busy s) eqn:B; [apply Same; auto|].
    assert (HI : Idle s) by (pose proof (wi_a _ HW) as X; unfold AInv in X; rewrite B in X; auto).
    apply Same; [auto|rewrite (id_pending _ HI); auto|]. right. apply open_frame with (s := s); auto; apply incl_refl.
  - unfold w_op. destruct (w_pending s) as [p|] eqn:Ep; [apply Same; auto|]. destruct (w_todo s) as [|o todo]; [apply Same; auto|].
    assert (Nl : forall p, In p l -> wanted q start p = true -> False) by (intros p A B; specialize (H p A B); discriminate).
    destruct (takes_revision o).
    + simpl. set (ev := op_event _ _ _). exists (l ++ match ev with Some p => [p] | None => [] end). split; [simpl; rewrite El, app_assoc; auto|].
      right. split; [apply open_frame with (s := s); auto; apply incl_refl|]. simpl. intros p A B. apply in_app_iff in A. destruct A as [A|A]; [destruct (Nl p A B)|].
      destruct ev as [p'|]; [destruct A as [->|[]]; auto|destruct A].
    + apply Same; auto.
  - unfold w_check. destruct (w_pending s) as [p|] eqn:Ep; [|apply Same; auto]. destruct HO as (id & k & W).
    destruct (waiting_node _ _ _ _ _ _ HT W) as (c & n & _ & _ & _ & Hn & _). destruct (w_nodes s) as [|n0 ns] eqn:En; [destruct Hn|].
    apply Same; auto. right. exists id, k. apply waiting_frame with (s := s); auto. apply incl_refl.
  - destruct (trigger_cases s) as [E|(key & ev & A & B & C)]; [rewrite E; apply Same; auto|]. destruct HO as (id & k & W).
    pose proof (waiting_trigger s key ev t id q start k HW A B C W) as G. exists l. destruct (trigger_tables s) as (_ & _ & -> & _). split; auto.
    destruct (wanted q start (key, ev)) eqn:Wn.
    + left. eexists. exact G.
    + right. split; [exists id, k; exact G|]. intros p X Y. specialize (H p X Y). rewrite B in H. inversion H; subst. congruence.
  - unfold w_final. destruct (entry_done s) eqn:Ed; [|apply Same; auto].
    assert (Ep : w_pending s = None) by (unfold entry_done in Ed; destruct (w_busy s), (w_todo s), (w_pending s); auto; discriminate).
    apply Same; [auto|auto|]. right. apply open_frame with (s := s); auto; apply incl_refl.
  - unfold w_read. destruct (w_lock s); [apply Same; auto|]. destruct (_ || _); (apply Same; [auto|auto|]); right;
      (apply open_frame with (s := s); [apply incl_refl|apply incl_appl, incl_refl|auto]).
  - unfold w_register. destruct (w_lock s) as [[[[t0 q0] st0] f0]|]; [|apply Same; auto]. destruct (at_once q0 st0 f0); (apply Same; [auto|auto|]); right.
    + apply open_frame with (s := s); [apply incl_refl|apply incl_refl|auto].
    + apply open_frame with (s := s); [apply incl_appl, incl_refl|apply incl_refl|auto].
  - apply Same; auto. right. apply open_frame with (s := s); [apply incl_refl|apply incl_refl|auto].
  - unfold w_cron. destruct (w_lock s); [apply Same; auto|]. destruct HO as (id & k & W).
    pose proof (waiting_remove s (map fst (filter snd (w_status s))) t id q start k HT W) as G.
    destruct (remove_all_apply (map fst (filter snd (w_status s))) s) as (_ & _ & _ & _ & _ & _ & _ & Y1 & _ & Y).
    apply Same; auto. destruct (existsb _ _); [left; eexists; exact G|right; exists id, k; exact G].
  - congruence.
  - unfold w_stop. destruct (w_lock s); [apply Same; auto|]. destruct (w_busy s) eqn:B; [apply Same; auto|]. apply Same; auto. left.
    destruct HO as (id & k & (c & Hc & E1 & E2) & _). exists (c_resp c). simpl. apply in_app_iff. right. apply in_undone in Hc. apply in_flat_map. exists c.
    split; [tauto|]. unfold done_answer. destruct Hc as [_ ->]. left. congruence.
Qed.

Lemma waits_for_steps es : forall s t q start ev0, WInv s -> ~ In WStart es -> waits_for s t q start ev0 -> waits_for (wsteps s es) t q start ev0.
Proof.
  induction es as [|e es IH]; intros s t q start ev0 HW N H; [exact H|]. change (wsteps s (e :: es)) with (wsteps (wstep s e) es).
  apply IH; [apply winv_step; auto|intros X; apply N; right; auto|]. apply waits_for_step; auto. intros ->. apply N. left. auto.
Qed.

Lemma registered_woken es q es2 : let s := wsteps ws0 es in w_lock s = None -> ~ In WStart es2 ->
  let s1 := wsteps s [WRead q; WRegister] in
  let s2 := wsteps s1 es2 in
  w_pending s2 = None ->
  exists l, w_events s2 = w_events s1 ++ l /\
  forall p start found, In (w_tick s, q, start, found) (w_asked s1) -> In p l -> wanted q start p = true -> answers_to s2 (w_tick s) <> [].
Proof.
  cbv zeta. intros El Ns Ep. set (s := wsteps ws0 es) in *. assert (HW : WInv s) by apply winv.
  set (start := if q_start q =? 0 then k_rev (w_kv s) else q_start q).
  assert (HW1 : WInv (wsteps s [WRead q; WRegister])) by (apply winv_steps; auto).
  assert (G : waits_for (wsteps s [WRead q; WRegister]) (w_tick s) q start (w_events (wsteps s [WRead q; WRegister])) /\
    forall st found, In (w_tick s, q, st, found) (w_asked (wsteps s [WRead q; WRegister])) -> st = start).
  { assert (F : In (w_tick s, q, start, current (w_kv s) (q_key q)) (w_asked (wsteps s [WRead q; WRegister]))).
    { simpl. unfold w_read. rewrite El. fold start. destruct (_ || _); unfold w_register; simpl; [apply in_app_iff; right; left; auto|].
      destruct (at_once _ _ _); simpl; apply in_app_iff; right; left; auto. }
    split.
    - exists []. rewrite app_nil_r. split; auto. simpl. unfold w_read in *. rewrite El in *. fold start in F |- *.
      destruct (_ || _); unfold w_register; simpl; [left; exists None; simpl; apply in_app_iff; right; left; auto|].
      destruct (at_once q start _) as [ev|]; [left; exists (Some ev); simpl; apply in_app_iff; right; left; auto|].
      right. split; [|intros p []].
      apply (open_intro _ (w_tick s) q start (mkCl (w_seq s) (w_tick s) (q_key q) false None) (current (w_kv s) (q_key q))).
      + simpl. unfold undone. rewrite filter_app, in_app_iff. simpl. auto.
      + auto.
      + simpl. apply in_app_iff. right. left. auto.
    - intros st found H. destruct (asked_uniq _ _ _ _ _ _ _ _ (wi_t _ HW1) H F) as (_ & X & _). auto. }
  destruct G as [G1 G2]. set (s1 := wsteps s [WRead q; WRegister]) in *. clearbody s1.
  destruct (waits_for_steps es2 s1 _ _ _ _ HW1 Ns G1) as (l & E & H). exists l. split; auto.
  intros p st found Ha Hp Hw. rewrite (G2 _ _ Ha) in Hw. destruct H as [(a & H)|[_ H]].
  - apply answers_to_in in H. intros X. rewrite X in H. destruct H.
  - specialize (H p Hp Hw). congruence.
Qed.

Lemma ops_events_app2 m dn : forall a l,
  ops_events m a (dn ++ l) = ops_events m a dn ++ ops_events m (fold_left (spec_op m) dn a) l.
Proof.
  induction dn as [|x dn IH]; intros a l; simpl app; cbn [ops_events fold_left]; auto. rewrite IH, app_assoc. auto.
Qed.

Lemma sub_incl {A} (l l' : list A) : sub l l' -> incl l l'.
Proof. induction 1; intros x Hx; simpl in *; auto. destruct Hx; auto. Qed.

Lemma events_logged s : WInv s -> incl (w_events s) (log_events (w_log s)).
Proof.
  intros HW. pose proof (wi_a _ HW) as X. unfold AInv in X. destruct (w_busy s).
  - destruct X as (l0 & e & dn & m & hi & HB). destruct (bu_events _ _ _ _ _ _ HB) as [X _]. intros p Hp. apply (sub_incl _ _ X) in Hp.
    rewrite (bu_log _ _ _ _ _ _ HB). unfold log_events in *. rewrite events_from_app. apply in_app_iff in Hp. apply in_app_iff.
    destruct Hp as [Hp|Hp]; auto. right. unfold entry_events. rewrite (bu_ops _ _ _ _ _ _ HB), ops_events_app2.
    apply in_app_iff. left. rewrite (bu_m _ _ _ _ _ _ HB) in Hp. exact Hp.
  - destruct (id_events _ X) as [Y _]. apply sub_incl. exact Y.
Qed.

Lemma answer_content es t ev : let s := wsteps ws0 es in In (t, Some ev) (w_answers s) ->
  exists q start found a, In (t, q, start, found) (w_asked s) /\ moment (w_log s) a /\
  (immediate q a = Some ev \/
   (immediate q a = None /\ exists ev0, In (q_key q, ev0) (log_events (w_log s)) /\ wanted q (start_of q a) (q_key q, ev0) = true /\ ev = told q ev0)).
Proof.
  cbv zeta. set (s := wsteps ws0 es). intros H. assert (HW : WInv s) by apply winv.
  destruct (ti_answers _ _ (wi_t _ HW) _ H) as (q & start & found & Ha & G). simpl in Ha, G.
  destruct (wi_s _ HW _ _ _ _ Ha) as (a & M & Es & Ef). exists q, start, found, a. split; [auto|]. split; [auto|].
  assert (Ei : at_once q start found = immediate q a) by (unfold at_once, immediate; rewrite Ef, Es; auto).
  rewrite Ei in G. destruct G as [G|(G & ev0 & A & B & C)]; [auto|]. right. split; auto. exists ev0. split; [apply events_logged; auto|].
  rewrite <- Es. auto.
Qed.

(** when the leader stops every watch is answered *)
Lemma stop_answers es : let s := wsteps ws0 es in w_lock s = None -> w_busy s = false ->
  forall n, In n (w_nodes s) -> exists t q found, In (t, q, wn_start n, found) (w_asked s) /\ q_key q = wn_key n /\
    answers_to s t = [] /\ answers_to (wstep s WStop) t = [None].
Proof.
  cbv zeta. set (s := wsteps ws0 es). intros El Eb n Hn. assert (HW : WInv s) by apply winv. pose proof (wi_t _ HW) as HT.
  destruct (link_closure _ _ _ HT Hn) as (c & Hc & L). pose proof L as (q & f & A & B & C & D). exists (c_ticket c), q, f.
  split; [auto|]. split; [rewrite D; auto|].
  destruct (open_intro s (c_ticket c) q (wn_start n) c f Hc eq_refl A) as (id & k & W).
  split; [eapply waiting_open; eauto|]. eapply answered_once; [apply (wi_t _ (winv_step s WStop HW))|].
  simpl. unfold w_stop. rewrite El, Eb. simpl. apply in_app_iff. right. pose proof (ti_resp _ _ HT c Hc) as Q.
  apply in_undone in Hc. apply in_flat_map. exists c. split; [tauto|]. unfold done_answer. destruct Hc as [_ ->]. left. unfold quiet in Q. congruence.
Qed.

Lemma never_fatal es : w_fatal (wsteps ws0 es) = false.
Proof. apply (ti_fatal _ _ (wi_t _ (winv es))). Qed.

Lemma at_most_once es t : (length (answers_to (wsteps ws0 es) t) <= 1)%nat.
Proof.
  destruct (answers_to (wsteps ws0 es) t) as [|a l] eqn:E; [simpl; lia|].
  assert (H : In (t, a) (w_answers (wsteps ws0 es))) by (apply answers_to_in; rewrite E; left; auto).
  rewrite (answered_once quiet _ t a (wi_t _ (winv es)) H) in E. inversion E. simpl. lia.
Qed.

Lemma leader_start_loses es es2 n t q found : let s := wsteps ws0 es in w_lock s = None -> w_busy s = false ->
  In n (w_nodes s) -> In (t, q, wn_start n, found) (w_asked s) -> answers_to s t = [] ->
  answers_to (wsteps s (WStart :: es2)) t = [].
Proof.
  cbv zeta. set (s := wsteps ws0 es). intros El Eb Hn Ha Hno. assert (HW : WInv s) by apply winv.
  change (wsteps s (WStart :: es2)) with (wsteps (wstep s WStart) es2). apply lost_stays; [apply winv_step; auto| |].
  - simpl. unfold w_start. rewrite El, Eb. unfold all_tickets, lock_tickets. simpl. rewrite app_nil_r.
    intros Y. apply in_map_iff in Y. destruct Y as ([t' a] & E & Y). simpl in E. subst t'. apply answers_to_in in Y. rewrite Hno in Y. destruct Y.
  - simpl. unfold w_start. rewrite El, Eb. simpl. apply (ti_asked_lt _ _ (wi_t _ HW) _ Ha).
Qed.
