(** The tables of watches, in every interleaving. *)
From Coq Require Import ZArith List Lia Bool Sorted Permutation.
From Verif Require Import Bytes SMap KvModel KvSpec KvProofs KvProofs2 KvProofs3 WatchModel WatchSpec LeaseProofs WatchProofs WatchProofs2.
Import ListNotations.
Open Scope Z_scope.

(** ** Lists *)

Definition undone (l : list closure) : list closure := filter (fun c => negb (c_done c)) l.

Lemma F2_filter {A B} (R : A -> B -> Prop) f g l l' : Forall2 R l l' ->
  (forall x y, R x y -> In y l' -> f x = g y) -> Forall2 R (filter f l) (filter g l').
Proof.
  induction 1 as [|x y l l' H H2 IH]; intros E; simpl; [constructor|].
  rewrite (E x y H (or_introl eq_refl)). destruct (g y); [constructor; auto|]; apply IH; intros; apply E; auto; right; auto.
Qed.

Lemma find_closure_in l id c : find_closure l id = Some c -> In c l /\ c_id c = id.
Proof. unfold find_closure. intros H. apply find_some in H. destruct H as [H E]. apply Z.eqb_eq in E. auto. Qed.

Lemma find_closure_uniq l c : NoDup (map c_id l) -> In c l -> find_closure l (c_id c) = Some c.
Proof.
  unfold find_closure. induction l as [|x l IH]; intros N H; [destruct H|]. inversion N; subst. simpl.
  destruct H as [->|H].
  - rewrite Z.eqb_refl. auto.
  - destruct (Z.eqb_spec (c_id x) (c_id c)) as [E|_]; [|auto]. exfalso. apply H2. rewrite E. apply in_map. auto.
Qed.

Lemma find_closure_none l id : find_closure l id = None -> forall c, In c l -> c_id c <> id.
Proof. unfold find_closure. intros H c Hc E. apply find_none with (x := c) in H; auto. apply Z.eqb_neq in H. auto. Qed.

Lemma same_id l c c' : NoDup (map c_id l) -> In c l -> In c' l -> c_id c = c_id c' -> c = c'.
Proof.
  intros N H H' E. pose proof (find_closure_uniq _ _ N H) as F. pose proof (find_closure_uniq _ _ N H') as F'. congruence.
Qed.

Lemma finish_ids id l : map c_id (finish id l) = map c_id l.
Proof. unfold finish. rewrite map_map. apply map_ext. intros c. destruct (c_id c =? id); auto. Qed.

Lemma undone_finish id l : undone (finish id l) = filter (fun c => negb (c_id c =? id)) (undone l).
Proof.
  unfold undone, finish. induction l as [|c l IH]; simpl; auto.
  destruct (c_id c =? id) eqn:E; simpl.
  - destruct (c_done c); simpl; rewrite ?E; simpl; auto.
  - destruct (c_done c); simpl; rewrite ?E; simpl; rewrite ?IH; auto.
Qed.

Lemma in_undone l c : In c (undone l) <-> In c l /\ c_done c = false.
Proof. unfold undone. rewrite filter_In. destruct (c_done c); simpl; intuition congruence. Qed.

Lemma undone_ids l : NoDup (map c_id l) -> NoDup (map c_id (undone l)).
Proof.
  induction l as [|c l IH]; simpl; intros N; [constructor|]. inversion N; subst.
  destruct (c_done c); simpl; auto. constructor; auto. intros H. apply H1. apply in_map_iff in H. destruct H as (x & <- & H).
  apply in_map. apply in_undone in H. tauto.
Qed.

Lemma filter_all {A} (f : A -> bool) l : (forall x, In x l -> f x = true) -> filter f l = l.
Proof. induction l as [|x l IH]; simpl; intros H; auto. rewrite (H x) by auto. f_equal. auto. Qed.

(** taking the closure [id] out of the list *)
Lemma take_out (l : list closure) c : NoDup (map c_id l) -> In c l ->
  Permutation (map c_ticket l) (c_ticket c :: map c_ticket (filter (fun x => negb (c_id x =? c_id c)) l)).
Proof.
  induction l as [|x l IH]; intros N H; [destruct H|]. inversion N; subst. destruct H as [->|H]; simpl.
  - rewrite Z.eqb_refl. simpl. rewrite filter_all; [auto|]. intros y Hy. destruct (Z.eqb_spec (c_id y) (c_id c)) as [E|]; auto.
    exfalso. apply H2. rewrite <- E. apply in_map. auto.
  - destruct (Z.eqb_spec (c_id x) (c_id c)) as [E|_].
    + exfalso. apply H2. rewrite E. apply in_map. auto.
    + simpl. rewrite (IH H3 H) at 1. apply perm_swap.
Qed.

(** ** The invariant *)

Definition link (asked : list (Z * wreq * Z * option kvo)) (n : wnode) (c : closure) : Prop :=
  exists q found, In (c_ticket c, q, wn_start n, found) asked /\ at_once q (wn_start n) found = None /\
    c_key c = q_key q /\ n = mkW (c_id c) (q_key q) (wn_start n) (q_noput q) (q_nodel q) (q_prev q).

Definition good_answer (asked : list (Z * wreq * Z * option kvo)) (events : list (bytes * event)) (p : Z * option event) : Prop :=
  exists q start found, In (fst p, q, start, found) asked /\
    match snd p with
    | None => True
    | Some ev => at_once q start found = Some ev \/
        (at_once q start found = None /\
         exists ev0, In (q_key q, ev0) events /\ wanted q start (q_key q, ev0) = true /\ ev = told q ev0)
    end.

Definition lock_tickets (s : wst) : list Z := match w_lock s with Some (t, _, _, _) => [t] | None => [] end.

Definition all_tickets (s : wst) : list Z :=
  map fst (w_answers s) ++ map c_ticket (undone (w_closures s)) ++ lock_tickets s.

Definition ask_ticket (p : Z * wreq * Z * option kvo) : Z := fst (fst (fst p)).

Record TInv (R : closure -> Prop) (s : wst) : Prop := mkT {
  ti_ids : NoDup (map c_id (w_closures s));
  ti_lt : forall c, In c (w_closures s) -> c_id c < w_seq s;
  ti_keys : forall c, In c (w_closures s) -> c_key c <> [];
  ti_link : Forall2 (link (w_asked s)) (w_nodes s) (undone (w_closures s));
  ti_resp : forall c, In c (undone (w_closures s)) -> R c;
  ti_tickets : NoDup (all_tickets s);
  ti_tick : forall t, In t (all_tickets s) -> t < w_tick s;
  ti_asked : NoDup (map ask_ticket (w_asked s));
  ti_asked_lt : forall p, In p (w_asked s) -> ask_ticket p < w_tick s;
  ti_lock : forall t q st f, w_lock s = Some (t, q, st, f) -> In (t, q, st, f) (w_asked s) /\ q_key q <> [];
  ti_answers : forall p, In p (w_answers s) -> good_answer (w_asked s) (w_events s) p;
  ti_status : NoDup (map fst (w_status s));
  ti_fatal : w_fatal s = false }.

Definition quiet (c : closure) : Prop := c_resp c = None.

Lemma link_id asked n c : link asked n c -> wn_id n = c_id c /\ wn_key n = c_key c.
Proof. intros (q & f & _ & _ & H1 & H2). rewrite H2. simpl. auto. Qed.

(** every undone closure is of some request *)
Lemma link_asked R s c : TInv R s -> In c (undone (w_closures s)) -> exists n, In n (w_nodes s) /\ link (w_asked s) n c.
Proof.
  intros H. pose proof (ti_link _ _ H) as L. revert c.
  induction L as [|n c0 l l' L1 L2 IH]; intros c Hc; [destruct Hc|]. destruct Hc as [->|Hc].
  - exists n. split; auto. left. auto.
  - destruct (IH c Hc) as (n' & A & B). exists n'. split; auto. right. auto.
Qed.

Lemma link_closure R s n : TInv R s -> In n (w_nodes s) -> exists c, In c (undone (w_closures s)) /\ link (w_asked s) n c.
Proof.
  intros H. pose proof (ti_link _ _ H) as L. revert n.
  induction L as [|n0 c l l' L1 L2 IH]; intros n Hc; [destruct Hc|]. destruct Hc as [->|Hc].
  - exists c. split; auto. left. auto.
  - destruct (IH n Hc) as (n' & A & B). exists n'. split; auto. right. auto.
Qed.

Lemma nodup_erase id l : NoDup (map fst l) -> NoDup (map fst (status_erase id l)).
Proof.
  unfold status_erase. induction l as [|p l IH]; simpl; intros N; [constructor|]. inversion N; subst.
  destruct (negb (fst p =? id)); simpl; auto. constructor; auto.
  intros H. apply H1. apply in_map_iff in H. destruct H as (x & <- & H). apply filter_In in H. apply in_map. tauto.
Qed.

Lemma erase_out id l : ~ In id (map fst (status_erase id l)).
Proof.
  intros H. apply in_map_iff in H. destruct H as (x & E & H). apply filter_In in H. destruct H as [_ H].
  rewrite E, Z.eqb_refl in H. discriminate.
Qed.

(** ** Removing a watch *)

Lemma remove_tickets R s id : TInv R s -> Permutation (all_tickets s) (all_tickets (remove_one s id)).
Proof.
  intros H. unfold remove_one. destruct (find_closure (w_closures s) id) as [c|] eqn:F; [|apply Permutation_refl].
  destruct (find_closure_in _ _ _ F) as [Hc Hid].
  unfold all_tickets. simpl. rewrite undone_finish, map_app, <- app_assoc. apply Permutation_app_head. rewrite app_assoc. apply Permutation_app_tail.
  unfold done_answer. destruct (c_done c) eqn:Ed; simpl.
  - rewrite filter_all; auto. intros x Hx. destruct (Z.eqb_spec (c_id x) id) as [E|]; auto. apply in_undone in Hx.
    rewrite (same_id _ _ _ (ti_ids _ _ H) (proj1 Hx) Hc) in Hx by congruence. destruct Hx. congruence.
  - subst id. apply take_out; [apply undone_ids, (ti_ids _ _ H)|apply in_undone; auto].
Qed.

Lemma remove_one_answers s id : exists l : list (Z * option event), w_answers (remove_one s id) = w_answers s ++ l /\ forall p, In p l -> exists c, In c (undone (w_closures s)) /\ c_id c = id /\ p = (c_ticket c, c_resp c).
Proof.
  unfold remove_one. destruct (find_closure (w_closures s) id) as [c|] eqn:F; simpl.
  - exists (done_answer c). split; auto. intros p Hp. unfold done_answer in Hp. destruct (c_done c) eqn:Ed; [destruct Hp|].
    destruct Hp as [<-|[]]. destruct (find_closure_in _ _ _ F). exists c. rewrite in_undone. auto.
  - exists []. rewrite app_nil_r. split; auto. intros p [].
Qed.

Lemma tinv_remove R s id : TInv R s ->
  (forall c, In c (undone (w_closures s)) -> R c -> good_answer (w_asked s) (w_events s) (c_ticket c, c_resp c)) ->
  TInv R (remove_one s id).
Proof.
  intros H HR. unfold remove_one. destruct (find_closure (w_closures s) id) as [c|] eqn:F.
  2:{ destruct H. constructor; simpl; auto. apply nodup_erase; auto. }
  destruct (find_closure_in _ _ _ F) as [Hc Hid].
  assert (Hk := ti_keys _ _ H c Hc). destruct (c_key c) as [|b0 ky] eqn:Ek; [congruence|]. rewrite <- Ek. clear Ek.
  assert (Hn : forall x y, link (w_asked s) x y -> In y (undone (w_closures s)) ->
             negb ((wn_id x =? id) && beqb (wn_key x) (c_key c)) = negb (c_id y =? id)).
  { intros x y L Hy. destruct (link_id _ _ _ L) as [E1 E2]. rewrite E1, E2. f_equal.
    destruct (Z.eqb_spec (c_id y) id) as [E|]; auto. simpl. apply in_undone in Hy.
    rewrite (same_id _ _ _ (ti_ids _ _ H) (proj1 Hy) Hc) by congruence. apply beqb_refl. }
  pose proof (remove_tickets R s id H) as Hp. unfold remove_one in Hp. rewrite F in Hp.
  pose proof H as [T1 T2 T3 T4 T5 T6 T7 T8 T9 T10 T11 T12 T13].
  constructor; simpl; auto.
  - rewrite finish_ids. auto.
  - intros x Hx. unfold finish in Hx. apply in_map_iff in Hx. destruct Hx as (y & <- & Hy). destruct (c_id y =? id); simpl; auto.
  - intros x Hx. unfold finish in Hx. apply in_map_iff in Hx. destruct Hx as (y & <- & Hy). destruct (c_id y =? id); simpl; auto.
  - rewrite undone_finish. apply F2_filter; auto.
  - rewrite undone_finish. intros x Hx. apply filter_In in Hx. apply T5. tauto.
  - eapply Permutation_NoDup; [exact Hp|auto].
  - intros t Ht. apply T7. eapply Permutation_in; [symmetry; exact Hp|exact Ht].
  - intros p Hpi. apply in_app_iff in Hpi. destruct Hpi as [Hpi|Hpi]; auto.
    unfold done_answer in Hpi. destruct (c_done c) eqn:Ed; [destruct Hpi|]. destruct Hpi as [<-|[]].
    assert (Hu : In c (undone (w_closures s))) by (apply in_undone; auto). auto.
  - apply nodup_erase; auto.
Qed.

Lemma remove_one_undone s id c : In c (undone (w_closures (remove_one s id))) <-> In c (undone (w_closures s)) /\ c_id c <> id.
Proof.
  unfold remove_one. destruct (find_closure (w_closures s) id) as [d|] eqn:F; simpl.
  - rewrite undone_finish, filter_In. destruct (Z.eqb_spec (c_id c) id); simpl; intuition congruence.
  - split; [|tauto]. intros H. split; auto. apply in_undone in H. eapply find_closure_none; [exact F|tauto].
Qed.

Lemma remove_one_asked s id : w_asked (remove_one s id) = w_asked s /\ w_events (remove_one s id) = w_events s /\
  w_lock (remove_one s id) = w_lock s.
Proof. unfold remove_one. destruct (find_closure (w_closures s) id); auto. Qed.

Lemma tinv_remove_all R ids : forall s, TInv R s ->
  (forall c, In c (undone (w_closures s)) -> R c -> good_answer (w_asked s) (w_events s) (c_ticket c, c_resp c)) ->
  TInv R (remove_all s ids) /\
  (forall c, In c (undone (w_closures (remove_all s ids))) -> In c (undone (w_closures s)) /\ ~ In (c_id c) ids).
Proof.
  induction ids as [|i ids IH]; intros s H HR.
  - simpl. split; auto.
  - change (remove_all s (i :: ids)) with (remove_all (remove_one s i) ids).
    destruct (IH (remove_one s i)) as [A B].
    + apply tinv_remove; auto.
    + destruct (remove_one_asked s i) as (-> & -> & _). intros c Hc. apply HR. apply remove_one_undone in Hc. tauto.
    + split; auto. intros c Hc. apply B in Hc. destruct Hc as [Hc N]. apply remove_one_undone in Hc. destruct Hc. split; auto.
      intros [E|E]; auto.
Qed.

(** ** Filling the answers of a trigger *)

(** the closures in [l] hold an answer, the others none *)
Definition filled (key : bytes) (ev : event) (s : wst) (l : list Z) (c : closure) : Prop :=
  if existsb (Z.eqb (c_id c)) l
  then exists n, link (w_asked s) n c /\ fires n key ev = true /\ c_resp c = Some (shown (wn_prev n) ev)
  else c_resp c = None.

Lemma set_resp_undone id ev l : undone (set_resp id ev l) =
  map (fun c => if c_id c =? id then mkCl (c_id c) (c_ticket c) (c_key c) false (Some ev) else c) (undone l).
Proof.
  unfold undone, set_resp. induction l as [|c l IH]; simpl; auto.
  destruct (c_id c =? id) eqn:E; destruct (c_done c) eqn:D; simpl; rewrite ?D, ?E; simpl; rewrite ?IH; auto.
Qed.

Lemma set_resp_map {A} (f : closure -> A) id ev l :
  (forall c r, f (mkCl (c_id c) (c_ticket c) (c_key c) (c_done c) r) = f c) -> map f (set_resp id ev l) = map f l.
Proof.
  intros H. unfold set_resp. rewrite map_map. apply map_ext. intros c.
  destruct (c_id c =? id); simpl; auto. destruct (c_done c) eqn:D; simpl; auto. rewrite <- (H c (Some ev)), D. auto.
Qed.

Lemma F2_map_r {A B C} (R : A -> B -> Prop) (R' : A -> C -> Prop) (f : B -> C) l l' : Forall2 R l l' ->
  (forall x y, R x y -> R' x (f y)) -> Forall2 R' l (map f l').
Proof. induction 1; intros E; simpl; constructor; auto. Qed.

Lemma fires_wanted asked n c key ev : link asked n c -> fires n key ev = true ->
  (ev_type ev = EvPut \/ ev_type ev = EvDelete) ->
  exists q found, In (c_ticket c, q, wn_start n, found) asked /\ at_once q (wn_start n) found = None /\
    key = q_key q /\ wanted q (wn_start n) (key, ev) = true /\ shown (wn_prev n) ev = told q ev.
Proof.
  intros (q & f & H1 & H2 & H3 & H4) F T. exists q, f. split; auto. split; auto. rewrite H4 in F |- *. unfold fires in F. simpl in *.
  apply andb_true_iff in F. destruct F as [F F4]. apply andb_true_iff in F. destruct F as [F F3]. apply andb_true_iff in F. destruct F as [F1 F2].
  apply beqb_true in F1. split; [auto|]. split; [|reflexivity]. unfold wanted. simpl. rewrite F1, beqb_refl. simpl.
  apply negb_true_iff in F4. apply Z.ltb_ge in F4. apply andb_true_iff. split; [|apply Z.leb_le; lia].
  destruct T as [T|T]; rewrite T in *; simpl in *; destruct (q_noput q), (q_nodel q); auto.
Qed.

Lemma tinv_fill l s key ev n : TInv (filled key ev s l) s -> In n (w_nodes s) -> fires n key ev = true ->
  (ev_type ev = EvPut \/ ev_type ev = EvDelete) -> In (key, ev) (w_events s) ->
  TInv (filled key ev s (wn_id n :: l)) (fill s ev n) /\
  w_nodes (fill s ev n) = w_nodes s /\ w_asked (fill s ev n) = w_asked s /\ w_events (fill s ev n) = w_events s /\
  w_lock (fill s ev n) = w_lock s.
Proof.
  intros H Hn F T He. unfold fill.
  destruct (link_closure _ _ _ H Hn) as (c & Hc & L). destruct (link_id _ _ _ L) as [Li Lk].
  pose proof Hc as Hc'. apply in_undone in Hc. destruct Hc as [Hc Hd].
  assert (Fc : find_closure (w_closures s) (wn_id n) = Some c) by (rewrite Li; apply find_closure_uniq; auto; apply (ti_ids _ _ H)).
  rewrite Fc. split; [|simpl; auto].
  pose proof H as [T1 T2 T3 T4 T5 T6 T7 T8 T9 T10 T11 T12 T13].
  assert (Eid : forall x ev0 i l0, In x (set_resp i ev0 l0) -> exists y, In y l0 /\ c_id x = c_id y /\ c_key x = c_key y).
  { intros x ev0 i l0 Hx. unfold set_resp in Hx. apply in_map_iff in Hx. destruct Hx as (y & <- & Hy). exists y. split; auto. destruct (_ && _); auto. }
  assert (Et : all_tickets (fill s ev n) = all_tickets s).
  { unfold fill. rewrite Fc. unfold all_tickets. simpl. rewrite set_resp_undone, map_map. f_equal. f_equal. apply map_ext. intros x.
    destruct (c_id x =? wn_id n); auto. }
  unfold fill in Et. rewrite Fc in Et.
  constructor; simpl; auto.
  - rewrite set_resp_map; auto.
  - intros x Hx. destruct (Eid _ _ _ _ Hx) as (y & Hy & -> & _). auto.
  - intros x Hx. destruct (Eid _ _ _ _ Hx) as (y & Hy & _ & ->). auto.
  - rewrite set_resp_undone. apply F2_map_r with (1 := T4). intros x y Hl. destruct (c_id y =? wn_id n); auto.
  - rewrite set_resp_undone. intros x Hx. apply in_map_iff in Hx. destruct Hx as (y & <- & Hy).
    unfold filled. simpl existsb. destruct (Z.eqb_spec (c_id y) (wn_id n)) as [E|E]; simpl c_id.
    + rewrite E, Z.eqb_refl. simpl.
      assert (y = c). { apply in_undone in Hy. apply (same_id _ _ _ T1); try tauto. congruence. } subst y.
      exists n. split; [|auto]. destruct L as (q & f & A). exists q, f. simpl. rewrite <- Li in A. exact A.
    + destruct (Z.eqb_spec (c_id y) (wn_id n)); [congruence|]. simpl. apply T5. auto.
  - rewrite Et. auto.
  - rewrite Et. auto.
Qed.

Lemma tinv_fill_all key ev hit : forall s l, TInv (filled key ev s l) s ->
  (forall n, In n hit -> In n (w_nodes s) /\ fires n key ev = true) ->
  (ev_type ev = EvPut \/ ev_type ev = EvDelete) -> In (key, ev) (w_events s) ->
  let s' := fold_left (fun s n => fill s ev n) hit s in
  exists l', TInv (filled key ev s l') s' /\ w_nodes s' = w_nodes s /\ w_asked s' = w_asked s /\ w_events s' = w_events s /\ w_lock s' = w_lock s /\
    (forall i, existsb (Z.eqb i) l' = existsb (Z.eqb i) (map wn_id hit) || existsb (Z.eqb i) l).
Proof.
  induction hit as [|n hit IH]; intros s l H Hh T He; cbv zeta; simpl fold_left.
  - exists l. split; [exact H|]. auto 10.
  - destruct (Hh n (or_introl eq_refl)) as [Hn F].
    destruct (tinv_fill l s key ev n H Hn F T He) as (G & E1 & E2 & E3 & E4).
    destruct (IH (fill s ev n) (wn_id n :: l)) as (l' & G' & E1' & E2' & E3' & E4' & E5'); auto.
    + destruct G. constructor; auto. intros c Hc. specialize (ti_resp0 c Hc). unfold filled in *. rewrite E2. auto.
    + intros x Hx. rewrite E1. apply Hh. right. auto.
    + rewrite E3. auto.
    + exists l'. split; [|split; [congruence|split; [congruence|split; [congruence|split; [congruence|]]]]].
      * destruct G'. constructor; auto. intros c Hc. specialize (ti_resp0 c Hc). unfold filled in *. rewrite E2 in ti_resp0. auto.
      * intros i. rewrite E5'. simpl. destruct (i =? wn_id n), (existsb (Z.eqb i) (map wn_id hit)); auto.
Qed.

Lemma tinv_weaken (R R' : closure -> Prop) s : TInv R s -> (forall c, In c (undone (w_closures s)) -> R c -> R' c) -> TInv R' s.
Proof. intros [] H. constructor; auto. Qed.

Lemma existsb_in i l : existsb (Z.eqb i) l = true <-> In i l.
Proof. rewrite existsb_exists. split; [intros (x & H & E); apply Z.eqb_eq in E; subst; auto|intros H; exists i; split; auto; apply Z.eqb_refl]. Qed.

Lemma quiet_answer s c : TInv quiet s -> In c (undone (w_closures s)) -> quiet c ->
  good_answer (w_asked s) (w_events s) (c_ticket c, c_resp c).
Proof.
  intros H Hc Hq. destruct (link_asked _ _ _ H Hc) as (n & _ & (q & f & L1 & L2 & _)). rewrite Hq.
  exists q, (wn_start n), f. simpl. auto.
Qed.

(** the types of events of operations *)
Lemma op_event_type s r o p : op_event s r o = Some p -> ev_type (snd p) = EvPut \/ ev_type (snd p) = EvDelete.
Proof.
  destruct o as [key il lid iv value|key|key c]; cbn [op_event].
  - destruct (put_record _ _ _ _ _ _ _) as [[v i]|]; [|discriminate]. intros E. inversion E. simpl. auto.
  - destruct (iget (k_index s) key) as [i|]; [|discriminate]. destruct (delete_index i r) as [[i' c] ver]. intros E. inversion E. simpl. auto.
  - discriminate.
Qed.

(** the pending event is one of the log *)
Definition PInv (s : wst) : Prop :=
  forall p, w_pending s = Some p -> In p (w_events s) /\ (ev_type (snd p) = EvPut \/ ev_type (snd p) = EvDelete).

Lemma tinv_trigger s : TInv quiet s -> PInv s -> TInv quiet (w_trigger s).
Proof.
  intros H HP. unfold w_trigger. destruct (w_lock s) as [lk|] eqn:El; [exact H|]. destruct (w_pending s) as [[key ev]|] eqn:Ep; [|exact H].
  destruct (w_armed s); [|exact H]. cbv zeta. destruct (HP _ Ep) as [He T]. simpl in T.
  set (hit := filter (fun n => fires n key ev) (w_nodes s)).
  assert (H0 : TInv (filled key ev s []) s) by (apply tinv_weaken with (1 := H); intros c _ Hc; exact Hc).
  destruct (tinv_fill_all key ev hit s [] H0) as (l' & G & E1 & E2 & E3 & E4 & E5); auto.
  { intros n Hn. unfold hit in Hn. apply filter_In in Hn. auto. }
  set (s1 := fold_left (fun s n => fill s ev n) hit s) in *.
  assert (G1 : forall c, In c (undone (w_closures s1)) -> filled key ev s l' c -> good_answer (w_asked s1) (w_events s1) (c_ticket c, c_resp c)).
  { intros c Hc Hf. unfold filled in Hf. rewrite E2, E3. destruct (existsb (Z.eqb (c_id c)) l').
    { destruct Hf as (n & L & F & ->). destruct (fires_wanted _ _ _ _ _ L F T) as (q & f & X1 & X2 & X3 & X4 & X5).
      exists q, (wn_start n), f. simpl. split; auto. right. split; auto. exists ev. rewrite <- X3, <- X5. auto. }
    destruct (link_asked _ _ _ G Hc) as (n & _ & (q & f & L1 & L2 & _)). rewrite Hf. exists q, (wn_start n), f. simpl. rewrite E2 in L1. auto. }
  destruct (tinv_remove_all _ (map wn_id hit) s1 G G1) as [G2 G3].
  set (s2 := remove_all s1 (map wn_id hit)) in *.
  assert (G4 : TInv quiet s2).
  { apply tinv_weaken with (1 := G2). intros c Hc Hf. apply G3 in Hc. destruct Hc as [_ N]. unfold filled in Hf. rewrite E5 in Hf.
    simpl in Hf. rewrite orb_false_r in Hf. destruct (existsb (Z.eqb (c_id c)) (map wn_id hit)) eqn:X; [|exact Hf].
    apply existsb_in in X. contradiction. }
  destruct G4. constructor; auto.
Qed.
