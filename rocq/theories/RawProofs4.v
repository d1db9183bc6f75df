(** Proofs for the raw API, part 4: every calm step keeps the invariant. *)
From Coq Require Import ZArith List Lia Bool PeanoNat.
From Verif Require Import Bytes SMap Outcome CodecModel CodecSpec CodecProofs2 MvccModel RawModel RawSpec RawProofs1 RawProofs2 RawProofs3.
Import ListNotations.
Open Scope Z_scope.

Definition advance (s s' : rst) (L : lin) : Prop :=
  exists xs L' rl' lp', lin_run (r_range s) L xs L' /\ r_hist s' = r_hist s ++ visible_events xs /\
    r_range s' = r_range s /\ Inv s' L' rl' lp'.

Lemma inv_ext s L L' rl lp : l_map L = l_map L' -> l_now L = l_now L' -> (forall id, l_calls L id = l_calls L' id) ->
  Inv s L rl lp -> Inv s L' rl lp.
Proof.
  intros M N C I. destruct I. constructor; auto; try congruence.
  - intros j id c H1 H2. destruct (iv_pend j id c H1 H2) as (q & t & r & H). exists q, t, r. rewrite <- C. auto.
  - intros id U. rewrite <- C. auto.
  - intros o O T. specialize (iv_cur o O T). unfold op_ok in *. rewrite <- C. auto.
Qed.

Lemma firstn_all_ge {A} (l : list A) n : (length l <= n)%nat -> firstn n l = l.
Proof. intros. rewrite firstn_all2; auto. Qed.

(** ** steps that only touch a peer that does not lead *)
Lemma other_peer s L rl lp n p p' : Inv s L rl lp -> n <> r_leader s -> nth_error (r_peers s) n = Some p ->
  (p_applied p <= p_applied p' <= length (r_log s))%nat -> Inv (with_peer s n p') L rl lp.
Proof.
  intros I N P A. destruct I. constructor; cbn [with_peer r_range r_log r_peers r_leader r_term r_elect r_ops r_now r_hist]; auto.
  - unfold leader_peer in *. cbn. rewrite nth_set_nth. apply Nat.eqb_neq in N. rewrite N. auto.
  - intros x X. apply In_set_nth in X. destruct X as [->|X]; auto. lia.
  - eapply In_set_nth_ex; eauto. cbv beta. lia.
  - intros o O T. assert (LE: unapplied (with_peer s n p') = unapplied s).
    { unfold unapplied, leader_peer. cbn. rewrite nth_set_nth. apply Nat.eqb_neq in N. rewrite N. auto. }
    specialize (iv_cur o O T). unfold op_ok in *. rewrite LE. exact iv_cur.
Qed.

Lemma advance_quiet s s' L rl lp : Inv s' L rl lp -> r_hist s' = r_hist s -> r_range s' = r_range s -> advance s s' L.
Proof.
  intros I H R. exists [], L, rl, lp. split; [constructor|]. split; [cbn; rewrite app_nil_r; auto|]. auto.
Qed.

Lemma step_install s L rl lp n m s' : Inv s L rl lp -> install s n m = Next s' -> advance s s' L.
Proof.
  intros I. unfold install. destruct (nth_error (r_peers s) n) as [p|] eqn:P; [|discriminate].
  destruct (_ && _) eqn:G; [|discriminate]. apply andb_true_iff in G. destruct G as [G G3]. apply andb_true_iff in G. destruct G as [G1 G2].
  apply Nat.ltb_lt in G1. apply Nat.leb_le in G2. apply negb_true_iff in G3. apply Nat.eqb_neq in G3.
  intros H. inversion H; subst. eapply advance_quiet; auto. eapply other_peer; eauto. cbn [p_applied]. lia.
Qed.

Lemma step_deposed s L rl lp n s' : Inv s L rl lp -> deposed s n = Next s' -> advance s s' L.
Proof.
  intros I. unfold deposed. destruct (nth_error (r_peers s) n) as [p|] eqn:P; [|discriminate].
  destruct (Nat.eqb n (r_leader s)) eqn:E; [discriminate|]. apply Nat.eqb_neq in E.
  intros H. inversion H; subst. eapply advance_quiet; auto. eapply other_peer; eauto. cbn [p_applied].
  split; auto. eapply iv_len; eauto. eapply nth_error_In; eauto.
Qed.

(** ** the leader's on_leader_start *)
Lemma step_ready s L rl lp n s' : Inv s L rl lp -> calm s (LReady n) -> ready s n = Next s' -> advance s s' L.
Proof.
  intros I C. unfold ready. destruct (nth_error (r_peers s) n) as [p|] eqn:P; [|discriminate].
  destruct (_ && _) eqn:G; [|discriminate]. apply andb_true_iff in G. destruct G as [G1 G2].
  apply Nat.eqb_eq in G1. apply Nat.leb_le in G2. subst n.
  intros H. inversion H; subst. clear H.
  assert (E: p = lp). { pose proof (iv_lead _ _ _ _ I) as X. unfold leader_peer in X. congruence. } subst p.
  assert (RL: rl = p_applied lp).
  { destruct (p_ready lp) eqn:R; [apply (iv_ready _ _ _ _ I R)|].
    pose proof (inv_rl_len _ _ _ _ I). pose proof (iv_rl _ _ _ _ I). pose proof (iv_nready _ _ _ _ I R) as [X _]. lia. }
  set (lp' := mkP (p_applied lp) (Z.max (p_floor lp) (p_maxts lp)) (p_leads lp) true (p_maxts lp)).
  assert (LE: leader_peer (with_peer s (r_leader s) lp') = Some lp').
  { unfold leader_peer. cbn. rewrite nth_set_nth, Nat.eqb_refl, P. auto. }
  assert (UN: unapplied (with_peer s (r_leader s) lp') = unapplied s).
  { unfold unapplied. rewrite LE, (iv_lead _ _ _ _ I). auto. }
  apply (advance_quiet _ _ _ rl lp'); auto.
  pose proof I as I0. destruct I. constructor; cbn [with_peer r_range r_log r_peers r_leader r_term r_elect r_ops r_now r_hist]; auto.
  - intros x X. apply In_set_nth in X. destruct X as [->|X]; auto. cbn. eapply iv_len. eapply nth_error_In; eauto.
  - intros _. split; [auto|]. split; auto. cbn [p_applied lp' p_floor].
    destruct (p_ready lp) eqn:R.
    + destruct (iv_ready eq_refl) as (A & B & C1 & D). split; auto. intros id ts items X. specialize (C1 id ts items X). lia.
    + destruct (iv_nready eq_refl) as [A B]. pose proof (inv_rl_len _ _ _ _ I0) as RLL. split.
      * intros id ts items X. specialize (C lp id ts items P). rewrite firstn_all_ge in C by lia. specialize (C X). lia.
      * intros j id c J X. exfalso. assert (j < length (r_log s))%nat by (apply nth_error_Some; congruence). lia.
  - discriminate.
  - eapply In_set_nth_ex; eauto.
  - intros o O T. specialize (iv_cur o O T). unfold op_ok in *. rewrite UN.
    destruct iv_cur as (A1 & A2 & A3 & A4 & A5 & A6). split; auto. split; auto. split; auto. split; auto. split; auto.
    intros X. destruct (A5 X). split; auto. cbn [lp' p_floor]. lia.
Qed.

(** ** time *)
Lemma alog_deadline cs k v d : alog cs k = Some (v, Some d) ->
  exists ts items i, In (CWrite ts items) cs /\ In i items /\ i_flag i = kPutTTL /\ i_ttl i = d.
Proof.
  induction cs as [|c cs IH] using rev_ind; [discriminate|]. rewrite alog_snoc. intros H.
  assert (Old: alog cs k = Some (v, Some d) -> exists ts items i, In (CWrite ts items) (cs ++ [c]) /\ In i items /\ i_flag i = kPutTTL /\ i_ttl i = d).
  { intros X. destruct (IH X) as (ts & items & i & A & B). exists ts, items, i. split; auto. apply in_app_iff; auto. }
  destruct c as [ts items|r]; cbn [eff] in H.
  - assert (X: forall its m, fold_left (fun m i => aset m (i_key i) (ival i)) its m k = Some (v, Some d) ->
       m k = Some (v, Some d) \/ exists i, In i its /\ i_flag i = kPutTTL /\ i_ttl i = d).
    { induction its as [|i its IHi]; intros m; cbn [fold_left]; auto. intros Y. apply IHi in Y.
      destruct Y as [Y|(j & J & F)]; [|right; exists j; split; auto; right; auto].
      destruct (bytes_eq_dec k (i_key i)) as [->|N].
      - rewrite aset_same in Y. right. exists i. split; [left; auto|]. unfold ival in Y. destruct (i_flag i); inversion Y; auto.
      - rewrite aset_other in Y by auto. auto. }
    apply X in H. destruct H as [H|(i & A & B)]; auto. exists ts, items, i. split; auto. apply in_app_iff; right; left; auto.
  - destruct (bltb (fst r) (snd r)); auto. destruct (bleb (fst r) k && bltb k (snd r)); [discriminate|auto].
Qed.

Lemma existsb_ext {A} (f g : A -> bool) l : (forall a, f a = g a) -> existsb f l = existsb g l.
Proof. intros H. induction l; cbn; auto. rewrite H, IHl. auto. Qed.
Lemma find_ext {A} (f g : A -> bool) l : (forall a, f a = g a) -> find f l = find g l.
Proof. intros H. induction l; cbn; auto. rewrite H, IHl. auto. Qed.

Lemma spec_time range m now now' t0 q : is_get q = false -> (forall k, aview m now k = aview m now' k) ->
  spec range m now t0 q = spec range m now' t0 q.
Proof.
  intros G H.
  assert (P: forall k, present m now k = present m now' k) by (intros k; unfold present; rewrite H; auto).
  assert (M: forall k e, matches m now k e = matches m now' k e) by (intros k e; unfold matches; rewrite H; auto).
  destruct q as [keys|kvs ttl|kvs ttl atomic|keys|rg|kvs expects ttl atomic]; cbn [spec is_get] in *; try discriminate; auto.
  - destruct atomic.
    + rewrite (existsb_ext (fun kv => present m now (fst kv)) (fun kv => present m now' (fst kv))); auto.
    + rewrite (filter_ext (fun kv => negb (present m now (fst kv))) (fun kv => negb (present m now' (fst kv)))) by (intros; rewrite P; auto).
      rewrite (map_ext (fun kv => negb (present m now (fst kv))) (fun kv => negb (present m now' (fst kv)))) by (intros; rewrite P; auto). auto.
  - rewrite (map_ext (present m now) (present m now')); auto.
  - destruct atomic.
    + assert (X: first_mismatch m now kvs expects = first_mismatch m now' kvs expects).
      { unfold first_mismatch. rewrite (find_ext (fun x => negb (matches m now (fst (fst x)) (snd x))) (fun x => negb (matches m now' (fst (fst x)) (snd x)))); auto.
        intros a. rewrite M. auto. }
      rewrite X. destruct (first_mismatch m now' kvs expects); auto. rewrite P. auto.
    + rewrite (filter_ext (fun x => matches m now (fst (fst x)) (snd x)) (fun x => matches m now' (fst (fst x)) (snd x))) by auto.
      rewrite (map_ext (fun x => matches m now (fst (fst x)) (snd x)) (fun x => matches m now' (fst (fst x)) (snd x))) by auto. auto.
Qed.

Lemma In_cmds s j c : In c (cmds s j) -> exists id, In (id, c) (r_log s).
Proof.
  unfold cmds. intros I. apply in_map_iff in I. destruct I as ([id c'] & <- & I). exists id.
  rewrite <- (firstn_skipn j (r_log s)). apply in_app_iff. auto.
Qed.

Lemma step_tick s L rl lp t s' : Inv s L rl lp -> calm s (LTick t) -> step s (LTick t) = Next s' -> advance s s' L.
Proof.
  intros I C. cbn [step]. destruct (r_now s <=? t) eqn:T; [|discriminate]. apply Z.leb_le in T.
  intros H. inversion H; subst. clear H.
  set (s' := mkR _ _ _ _ _ _ _ t _).
  exists [XTime t], (mkL (l_map L) t (l_calls L)), rl, lp. split; [|split; [|split]]; auto.
  { apply lin_run_one. pose proof (iv_now _ _ _ _ I) as NW. destruct L as [m now c]. cbn [l_now l_map l_calls] in *. apply lin_time. lia. }
  assert (V: ~ deadline_passes s t -> forall j k, aview (alog (cmds s j)) (r_now s) k = aview (alog (cmds s j)) t k).
  { intros D j k. unfold aview. destruct (alog (cmds s j) k) as [[v [d|]]|] eqn:E; auto.
    destruct (r_now s <=? d) eqn:E1, (t <=? d) eqn:E2; auto.
    - exfalso. apply D. apply alog_deadline in E. destruct E as (ts & items & i & A & B & C1 & C2).
      apply In_cmds in A. destruct A as [id A]. exists id, ts, items, i. apply Z.leb_le in E1. apply Z.leb_gt in E2.
      repeat split; auto; lia.
    - apply Z.leb_gt in E1. apply Z.leb_le in E2. lia. }
  pose proof (inv_rl_len _ _ _ _ I) as RL. pose proof (iv_rl _ _ _ _ I) as AP.
  assert (U: forall x, In x (skipn (p_applied lp) (r_log s)) -> idle s -> False).
  { intros x X [U _]. unfold unapplied in U. rewrite (iv_lead _ _ _ _ I) in U. apply existsb_map_nil in U. rewrite U in X. destruct X. }
  destruct I. constructor; cbn [s' r_range r_log r_peers r_leader r_term r_elect r_ops r_now r_hist]; auto; try lia.
  - intros j id c J X. destruct (iv_pend j id c J X) as (q & t0 & r & A & B & D & E). exists q, t0, r.
    split; auto. split; auto. split; auto. cbn [s' r_range r_now].
    change (cmds s' j) with (cmds s j). rewrite <- D. symmetry. apply spec_time; auto.
    destruct C as [C|C]; auto. exfalso. eapply (U (id, c)); auto.
    rewrite <- (firstn_skipn (p_applied lp) (r_log s)) in X. rewrite nth_error_app2 in X by (rewrite firstn_length; lia).
    eapply nth_error_In; eauto.
  - intros i US. rewrite used_app, orb_false_r in US. apply (iv_used1 i US).
  - intros o O. rewrite used_app, orb_false_r. auto.
  - intros i c X. rewrite used_app, orb_false_r. eauto.
  - intros o O T'. specialize (iv_cur o O T'). unfold op_ok in *.
    destruct iv_cur as (A1 & A2 & A3 & A4 & A5 & A6 & A7 & A8).
    split; auto. split; auto. split; auto. split; auto. split; auto. split; auto. split; auto.
    intros P. destruct (A7 P) as (B1 & B2 & B3 & B4 & B5). split; auto. split; auto. split; auto.
    intros G. specialize (B3 G). cbn [s' r_now]. change (cmds s' (p_applied lp)) with (cmds s (p_applied lp)).
    eapply agree_ext; [|exact B3]. intros k K. destruct C as [C|[_ C]]; auto.
    exfalso. rewrite (C o O T') in K. destruct K.
Qed.
