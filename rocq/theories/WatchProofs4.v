(** The invariants hold in every interleaving. *)
From Coq Require Import ZArith List Lia Bool Sorted Permutation.
From Verif Require Import Bytes SMap KvModel KvSpec KvProofs KvProofs2 KvProofs3 WatchModel WatchSpec LeaseProofs WatchProofs WatchProofs2 WatchProofs3.
Import ListNotations.
Open Scope Z_scope.

(** the tables of watches *)
Definition same_tables (s t : wst) : Prop :=
  w_lock t = w_lock s /\ w_nodes t = w_nodes s /\ w_closures t = w_closures s /\ w_status t = w_status s /\
  w_seq t = w_seq s /\ w_tick t = w_tick s /\ w_asked t = w_asked s /\ w_answers t = w_answers s /\ w_fatal t = w_fatal s.

Lemma good_answer_more asked asked' events events' p : incl asked asked' -> incl events events' ->
  good_answer asked events p -> good_answer asked' events' p.
Proof.
  intros H1 H2 (q & st & f & A & B). exists q, st, f. split; [auto|]. destruct (snd p); auto.
  destruct B as [B|[B (ev0 & C & D)]]; auto. right. split; auto. exists ev0. split; auto.
Qed.

Lemma tinv_frame R s t : same_tables s t -> incl (w_events s) (w_events t) -> TInv R s -> TInv R t.
Proof.
  intros (E1 & E2 & E3 & E4 & E5 & E6 & E7 & E8 & E9) Hi [].
  constructor; unfold all_tickets, lock_tickets in *; rewrite ?E1, ?E2, ?E3, ?E4, ?E5, ?E6, ?E7, ?E8, ?E9; auto.
  intros p Hp. eapply good_answer_more; [apply incl_refl|exact Hi|auto].
Qed.

Lemma F2_impl {A B} (R R' : A -> B -> Prop) l l' : (forall x y, R x y -> R' x y) -> Forall2 R l l' -> Forall2 R' l l'.
Proof. intros H. induction 1; constructor; auto. Qed.

Lemma link_more asked asked' n c : incl asked asked' -> link asked n c -> link asked' n c.
Proof. intros H (q & f & A & B). exists q, f. split; auto. Qed.

Lemma NoDup_snoc {A} (l : list A) x : NoDup l -> ~ In x l -> NoDup (l ++ [x]).
Proof.
  intros N H. apply Permutation_NoDup with (l := x :: l); [|constructor; auto].
  apply Permutation_cons_append.
Qed.

Lemma tinv_read s q : TInv quiet s -> TInv quiet (w_read s q).
Proof.
  intros H. unfold w_read. destruct (w_lock s) as [lk|] eqn:El; [exact H|].
  set (start := if q_start q =? 0 then _ else _). set (found := current _ _).
  pose proof H as [T1 T2 T3 T4 T5 T6 T7 T8 T9 T10 T11 T12 T13].
  assert (Hi : incl (w_asked s) (w_asked s ++ [(w_tick s, q, start, found)])) by (apply incl_appl, incl_refl).
  assert (Fr : ~ In (w_tick s) (all_tickets s)) by (intros X; apply T7 in X; lia).
  assert (N8 : NoDup (map ask_ticket (w_asked s ++ [(w_tick s, q, start, found)]))).
  { rewrite map_app. apply NoDup_snoc; auto. intros X. apply in_map_iff in X. destruct X as (p & E & X). apply T9 in X.
    unfold ask_ticket at 2 in E. simpl in E. lia. }
  assert (N9 : forall p, In p (w_asked s ++ [(w_tick s, q, start, found)]) -> ask_ticket p < w_tick s + 1).
  { intros p X. apply in_app_iff in X. destruct X as [X|[<-|[]]]; [apply T9 in X; lia|]. unfold ask_ticket. simpl. lia. }
  assert (N4 : Forall2 (link (w_asked s ++ [(w_tick s, q, start, found)])) (w_nodes s) (undone (w_closures s))).
  { eapply F2_impl; [|exact T4]. intros. eapply link_more; eauto. }
  assert (N11 : forall p, In p (w_answers s) -> good_answer (w_asked s ++ [(w_tick s, q, start, found)]) (w_events s) p).
  { intros p X. eapply good_answer_more; [exact Hi|apply incl_refl|auto]. }
  unfold all_tickets, lock_tickets in *. rewrite El, app_nil_r in *.
  destruct (beqb (q_key q) [] || _) eqn:B.
  - assert (P : Permutation (w_tick s :: (map fst (w_answers s) ++ map c_ticket (undone (w_closures s))))
       (map fst (w_answers s ++ [(w_tick s, None)]) ++ map c_ticket (undone (w_closures s)))).
    { rewrite map_app, <- app_assoc. simpl. apply Permutation_middle. }
    constructor; simpl; auto; unfold all_tickets, lock_tickets; simpl; rewrite ?app_nil_r.
    + eapply Permutation_NoDup; [exact P|]. constructor; auto.
    + intros t Ht. apply (Permutation_in _ (Permutation_sym P)) in Ht. destruct Ht as [<-|Ht]; [lia|]. apply T7 in Ht. lia.
    + discriminate.
    + intros p X. apply in_app_iff in X. destruct X as [X|[<-|[]]]; auto. exists q, start, found. simpl. split; auto. apply in_app_iff. right. left. auto.
  - constructor; simpl; auto; unfold all_tickets, lock_tickets; simpl.
    + rewrite app_assoc. apply NoDup_snoc; auto.
    + rewrite app_assoc. intros t Ht. apply in_app_iff in Ht. destruct Ht as [Ht|[<-|[]]]; [apply T7 in Ht; lia|lia].
    + intros t0 q0 st f E. inversion E; subst. split; [apply in_app_iff; right; left; auto|].
      intros Eq. rewrite Eq in B. discriminate.
Qed.

Lemma tinv_register s : TInv quiet s -> TInv quiet (w_register s).
Proof.
  intros H. unfold w_register. destruct (w_lock s) as [[[[t q] st] f]|] eqn:El; [|exact H].
  pose proof H as [T1 T2 T3 T4 T5 T6 T7 T8 T9 T10 T11 T12 T13].
  unfold all_tickets, lock_tickets in *. rewrite El in *. destruct (T10 _ _ _ _ eq_refl) as [Hq Hk].
  destruct (at_once q st f) as [ev|] eqn:A.
  - assert (P : Permutation (map fst (w_answers s) ++ map c_ticket (undone (w_closures s)) ++ [t])
       (map fst (w_answers s ++ [(t, Some ev)]) ++ map c_ticket (undone (w_closures s)))).
    { rewrite map_app, <- app_assoc. simpl. apply Permutation_app_head. apply Permutation_sym, Permutation_cons_append. }
    constructor; simpl; auto; unfold all_tickets, lock_tickets; simpl; rewrite ?app_nil_r.
    + eapply Permutation_NoDup; [exact P|]. auto.
    + intros t0 Ht. apply (Permutation_in _ (Permutation_sym P)) in Ht. auto.
    + discriminate.
    + intros p X. apply in_app_iff in X. destruct X as [X|[<-|[]]]; auto. exists q, st, f. simpl. auto.
  - set (c := mkCl (w_seq s) t (q_key q) false None).
    assert (U : undone (w_closures s ++ [c]) = undone (w_closures s) ++ [c]) by (unfold undone; rewrite filter_app; auto).
    constructor; simpl; auto; unfold all_tickets, lock_tickets; simpl; rewrite ?U, ?app_nil_r.
    + rewrite map_app. apply NoDup_snoc; auto. simpl. intros X. apply in_map_iff in X. destruct X as (x & E & X). apply T2 in X. lia.
    + intros x X. apply in_app_iff in X. destruct X as [X|[<-|[]]]; [apply T2 in X; lia|]. simpl. lia.
    + intros x X. apply in_app_iff in X. destruct X as [X|[<-|[]]]; auto.
    + apply Forall2_app; auto. constructor; [|constructor]. exists q, f. simpl. auto.
    + intros x X. apply in_app_iff in X. destruct X as [X|[<-|[]]]; auto. reflexivity.
    + rewrite map_app. simpl. auto.
    + rewrite map_app. simpl. auto.
    + discriminate.
    + rewrite map_app. apply NoDup_snoc; [apply nodup_erase; auto|]. apply erase_out.
Qed.

Lemma tinv_cancel s id : TInv quiet s -> TInv quiet (w_cancel s id).
Proof.
  intros []. constructor; auto. simpl. rewrite map_app. apply NoDup_snoc; [apply nodup_erase; auto|]. apply erase_out.
Qed.

Lemma tinv_cron s : TInv quiet s -> TInv quiet (w_cron s).
Proof.
  intros H. unfold w_cron. destruct (w_lock s); [exact H|]. apply tinv_remove_all; auto.
  intros c Hc Hq. apply quiet_answer; auto.
Qed.

Lemma NoDup_app_l {A} (a b : list A) : NoDup (a ++ b) -> NoDup a.
Proof. induction a as [|x a IH]; simpl; intros N; [constructor|]. inversion N; subst. constructor; auto. intros X. apply H1. apply in_app_iff. auto. Qed.

Lemma tinv_start s : TInv quiet s -> TInv quiet (w_start s).
Proof.
  intros H. unfold w_start. destruct (w_lock s) eqn:El; [exact H|]. destruct (w_busy s); [exact H|].
  destruct H as [T1 T2 T3 T4 T5 T6 T7 T8 T9 T10 T11 T12 T13]. unfold all_tickets in *.
  constructor; simpl; auto; try constructor; try (intros; contradiction); try discriminate; unfold all_tickets, lock_tickets; simpl; rewrite app_nil_r.
  - apply NoDup_app_l in T6. auto.
  - intros t Ht. apply T7. apply in_app_iff. auto.
Qed.

Lemma stop_tickets l : map fst (flat_map done_answer l) = map c_ticket (undone l).
Proof.
  induction l as [|c l IH]; simpl; auto. unfold done_answer at 1. destruct (c_done c); simpl; rewrite ?IH; auto.
Qed.

Lemma stop_answers l p : In p (flat_map done_answer l) -> exists c, In c (undone l) /\ p = (c_ticket c, c_resp c).
Proof.
  intros H. apply in_flat_map in H. destruct H as (c & H & E). unfold done_answer in E. destruct (c_done c) eqn:D; [destruct E|].
  destruct E as [<-|[]]. exists c. rewrite in_undone. auto.
Qed.

Lemma tinv_stop s : TInv quiet s -> TInv quiet (w_stop s).
Proof.
  intros H. unfold w_stop. destruct (w_lock s) eqn:El; [exact H|]. destruct (w_busy s); [exact H|].
  pose proof H as [T1 T2 T3 T4 T5 T6 T7 T8 T9 T10 T11 T12 T13]. unfold all_tickets, lock_tickets in *. rewrite El, app_nil_r in *.
  constructor; simpl; auto; try constructor; try (intros; contradiction); try discriminate; unfold all_tickets, lock_tickets; simpl; rewrite ?app_nil_r, ?map_app, ?stop_tickets; auto.
  intros p X. apply in_app_iff in X. destruct X as [X|X]; auto. apply stop_answers in X. destruct X as (c & X & ->). apply quiet_answer; auto.
Qed.

(** ** The pending event *)

Lemma remove_all_rest ids : forall s, w_asked (remove_all s ids) = w_asked s /\ w_lock (remove_all s ids) = w_lock s.
Proof.
  induction ids as [|i ids IH]; intros s; [auto|]. change (remove_all s (i :: ids)) with (remove_all (remove_one s i) ids).
  destruct (IH (remove_one s i)) as [-> ->]. destruct (remove_one_asked s i) as (-> & _ & ->). auto.
Qed.

Lemma pinv_frame s t : w_pending t = w_pending s \/ w_pending t = None -> incl (w_events s) (w_events t) -> PInv s -> PInv t.
Proof. intros [E|E] Hi H p Hp; rewrite E in Hp; [|discriminate]. destruct (H p Hp). auto. Qed.

Lemma apply_pinv s t : same_apply s t -> PInv s -> PInv t.
Proof.
  intros (E1 & E2 & E3 & E4 & E5 & E6 & E7 & E8 & E9 & E10) H. eapply pinv_frame; eauto. rewrite E10. apply incl_refl.
Qed.

Lemma pinv_step s e : PInv s -> PInv (wstep s e).
Proof.
  intros H. destruct e as [e| | | | |q| |id| | |]; simpl.
  - destruct (w_busy s); [exact H|]. intros p. simpl. discriminate.
  - unfold w_op. destruct (w_pending s) as [p|] eqn:Ep; [exact H|]. destruct (w_todo s) as [|o todo]; [exact H|].
    destruct (takes_revision o); intros p; simpl; [|discriminate]. intros E. rewrite E. split.
    + apply in_app_iff. right. left. auto.
    + eapply op_event_type; eauto.
  - unfold w_check. destruct (w_pending s) as [p|] eqn:Ep; [|exact H].
    destruct (w_nodes s); (apply pinv_frame with (s := s); [|apply incl_refl|exact H]); simpl; auto.
  - unfold w_trigger. destruct (w_lock s); [exact H|]. destruct (w_pending s) as [[key ev]|]; [|exact H]. destruct (w_armed s); [|exact H].
    intros p. simpl. discriminate.
  - unfold w_final. destruct (entry_done s); [|exact H]. intros p. simpl. discriminate.
  - unfold w_read. destruct (w_lock s); [exact H|]. destruct (_ || _); apply apply_pinv with (2 := H); unfold same_apply; simpl; auto 12.
  - unfold w_register. destruct (w_lock s) as [[[[t q] st] f]|]; [|exact H].
    destruct (at_once q st f); apply apply_pinv with (2 := H); unfold same_apply; simpl; auto 12.
  - apply apply_pinv with (2 := H); unfold same_apply; simpl; auto 12.
  - unfold w_cron. destruct (w_lock s); [exact H|]. apply apply_pinv with (2 := H). apply remove_all_apply.
  - unfold w_start. destruct (w_lock s); [exact H|]. destruct (w_busy s) eqn:B; [exact H|]. apply apply_pinv with (2 := H); unfold same_apply; simpl; auto 12.
  - unfold w_stop. destruct (w_lock s); [exact H|]. destruct (w_busy s) eqn:B; [exact H|]. apply apply_pinv with (2 := H); unfold same_apply; simpl; auto 12.
Qed.

Lemma tinv_step s e : TInv quiet s -> PInv s -> TInv quiet (wstep s e).
Proof.
  intros H HP. destruct e as [e| | | | |q| |id| | |]; simpl.
  - destruct (w_busy s); [exact H|]. apply tinv_frame with (s := s); [|apply incl_refl|exact H]. unfold same_tables; simpl; auto 12.
  - unfold w_op. destruct (w_pending s) as [p|] eqn:Ep; [exact H|]. destruct (w_todo s) as [|o todo]; [exact H|].
    destruct (takes_revision o); (apply tinv_frame with (s := s); [| |exact H]; [unfold same_tables; simpl; auto 12|]); simpl.
    + apply incl_appl, incl_refl.
    + apply incl_refl.
  - unfold w_check. destruct (w_pending s) as [p|] eqn:Ep; [|exact H].
    destruct (w_nodes s) eqn:En; (apply tinv_frame with (s := s); [|apply incl_refl|exact H]); unfold same_tables; simpl; auto 12.
  - apply tinv_trigger; auto.
  - unfold w_final. destruct (entry_done s); [|exact H]. apply tinv_frame with (s := s); [|apply incl_refl|exact H]. unfold same_tables; simpl; auto 12.
  - apply tinv_read; auto.
  - apply tinv_register; auto.
  - apply tinv_cancel; auto.
  - apply tinv_cron; auto.
  - apply tinv_start; auto.
  - apply tinv_stop; auto.
Qed.

(** ** What a request has seen *)

Definition Seen (s : wst) : Prop := forall t q st f, In (t, q, st, f) (w_asked s) ->
  exists a, moment (w_log s) a /\ st = start_of q a /\ f = st_data a (q_key q).

Lemma moment_more l l' a : moment l a -> moment (l ++ l') a.
Proof.
  intros [->|(l0 & e & l1 & dn & todo & -> & H)]; [left; auto|]. right. exists l0, e, (l1 ++ l'), dn, todo.
  rewrite <- app_assoc. auto.
Qed.

Lemma store_at_all l0 e : store_at l0 e (in_ops e) = spec_log (l0 ++ [e]).
Proof.
  unfold store_at, spec_log. rewrite fold_left_app. cbn [fold_left]. unfold spec_entry, writes. f_equal.
  destruct (existsb _ _); lia.
Qed.

Lemma now_moment s : AInv s -> exists a, moment (w_log s) a /\ k_rev (w_kv s) = st_rev a /\
  forall k, current (w_kv s) k = st_data a k.
Proof.
  unfold AInv. destruct (w_busy s).
  - intros (l0 & e & dn & m & hi & H). exists (store_at l0 e dn). split; [|split].
    + right. exists l0, e, [], dn, (w_todo s). split; [apply (bu_log _ _ _ _ _ _ H)|]. split; [apply (bu_ops _ _ _ _ _ _ H)|auto].
    + rewrite (bu_rev _ _ _ _ _ _ H). unfold store_at. simpl. rewrite <- (bu_m _ _ _ _ _ _ H). auto.
    + intros k. rewrite current_of by (eapply inv_rinv, (bu_inv _ _ _ _ _ _ H)). unfold store_at. simpl.
      rewrite <- (bu_m _ _ _ _ _ _ H). apply (bu_abs _ _ _ _ _ _ H).
  - intros H. exists (spec_log (w_log s)). split; [|split].
    + destruct (w_log s) as [|e l] using rev_ind; [left; auto|]. right. exists l, e, [], (in_ops e), [].
      rewrite app_nil_r, store_at_all. auto.
    + apply (id_abs _ H).
    + intros k. rewrite current_of by (eapply good_rinv, (id_good _ H)). apply (id_abs _ H).
Qed.

Lemma seen_frame s t : w_asked t = w_asked s -> (exists l, w_log t = w_log s ++ l) -> Seen s -> Seen t.
Proof.
  intros E [l El] H tk q st f X. rewrite E in X. destruct (H _ _ _ _ X) as (a & A & B). exists a. rewrite El.
  split; [apply moment_more; auto|auto].
Qed.

Lemma seen_step s e : AInv s -> Seen s -> Seen (wstep s e).
Proof.
  intros HA H. destruct e as [e| | | | |q| |id| | |]; simpl.
  - destruct (w_busy s); [exact H|]. apply seen_frame with (s := s); [| |exact H]; simpl; eauto.
  - unfold w_op. destruct (w_pending s); [exact H|]. destruct (w_todo s) as [|o todo]; [exact H|].
    destruct (takes_revision o); (apply seen_frame with (s := s); [| |exact H]; [auto|exists []; rewrite app_nil_r; auto]).
  - unfold w_check. destruct (w_pending s) as [p|] eqn:Ep; [|exact H].
    destruct (w_nodes s) eqn:En; (apply seen_frame with (s := s); [| |exact H]; [auto|exists []; rewrite app_nil_r; auto]).
  - unfold w_trigger. destruct (w_lock s); [exact H|]. destruct (w_pending s) as [[key ev]|]; [|exact H]. destruct (w_armed s); [|exact H].
    cbv zeta. set (hit := filter _ _). set (s1 := fold_left _ hit s).
    assert (E1 : w_asked s1 = w_asked s).
    { unfold s1. generalize hit. intros l. generalize s. clear. induction l as [|n l IH]; intros s; [auto|]. simpl. rewrite IH. unfold fill.
      destruct (find_closure _ _); auto. }
    pose proof (fill_all_apply ev hit s) as (_ & _ & E2 & _). fold s1 in E2.
    pose proof (remove_all_apply (map wn_id hit) s1) as (_ & _ & E3 & _). destruct (remove_all_rest (map wn_id hit) s1) as [E4 _].
    apply seen_frame with (s := s); [| |exact H]; simpl; [congruence|]. exists []. rewrite app_nil_r. congruence.
  - unfold w_final. destruct (entry_done s); [|exact H]. apply seen_frame with (s := s); [| |exact H]; [auto|exists []; rewrite app_nil_r; auto].
  - unfold w_read. destruct (w_lock s); [exact H|].
    destruct (now_moment s HA) as (a & M & Er & Ec).
    assert (G : forall t q0 st f, In (t, q0, st, f) (w_asked s ++ [(w_tick s, q, if q_start q =? 0 then k_rev (w_kv s) else q_start q, current (w_kv s) (q_key q))]) ->
      exists a, moment (w_log s) a /\ st = start_of q0 a /\ f = st_data a (q_key q0)).
    { intros t q0 st f X. apply in_app_iff in X. destruct X as [X|[X|[]]]; [eapply H; eauto|]. inversion X; subst.
      exists a. split; auto. unfold start_of. rewrite Er. auto. }
    destruct (_ || _); exact G.
  - unfold w_register. destruct (w_lock s) as [[[[t q] st] f]|]; [|exact H].
    destruct (at_once q st f); exact H.
  - exact H.
  - unfold w_cron. destruct (w_lock s); [exact H|]. pose proof (remove_all_apply (map fst (filter snd (w_status s))) s) as (_ & _ & E3 & _).
    destruct (remove_all_rest (map fst (filter snd (w_status s))) s) as [E4 _]. apply seen_frame with (s := s); [| |exact H]; [auto|exists []; rewrite app_nil_r; auto].
  - unfold w_start. destruct (w_lock s); [exact H|]. destruct (w_busy s) eqn:B; [exact H|]. exact H.
  - unfold w_stop. destruct (w_lock s); [exact H|]. destruct (w_busy s) eqn:B; [exact H|]. exact H.
Qed.

Record WInv (s : wst) : Prop := mkWI { wi_a : AInv s; wi_t : TInv quiet s; wi_p : PInv s; wi_s : Seen s }.

Lemma winv0 : WInv ws0.
Proof.
  constructor.
  - apply ainv0.
  - constructor; simpl; try constructor; try discriminate; try (intros; contradiction).
  - intros p. discriminate.
  - intros t q st f [].
Qed.

Lemma winv_step s e : WInv s -> WInv (wstep s e).
Proof.
  intros [A T P S]. constructor; [apply ainv_step|apply tinv_step|apply pinv_step|apply seen_step]; auto.
Qed.

Lemma winv_steps es : forall s, WInv s -> WInv (wsteps s es).
Proof. induction es as [|e es IH]; intros s H; [auto|]. apply IH. apply winv_step. auto. Qed.

Lemma winv es : WInv (wsteps ws0 es).
Proof. apply winv_steps, winv0. Qed.
