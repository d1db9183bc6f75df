(** Proofs for the raw API, part 6: requests; calm runs are linearizable. *)
From Coq Require Import ZArith List Lia Bool PeanoNat.
From Verif Require Import Bytes SMap Outcome CodecModel CodecSpec CodecProofs2 MvccModel RawModel RawSpec
  RawProofs1 RawProofs2 RawProofs3 RawProofs4 RawProofs5.
Import ListNotations.
Open Scope Z_scope.

Lemma inv_hist s L rl lp es : Inv s L rl lp -> Inv (with_ops s (r_ops s) es) L rl lp.
Proof.
  intros I. destruct I. constructor; cbn [with_ops with_peer r_range r_log r_peers r_leader r_term r_elect r_ops r_now r_hist]; auto.
  - intros id U. rewrite used_app in U. apply orb_false_iff in U. apply iv_used1. tauto.
  - intros o O. rewrite used_app, iv_used2; auto.
  - intros id c X. rewrite used_app, (iv_used3 id c); auto.
Qed.

Lemma cur_ready s L rl lp o : Inv s L rl lp -> In o (r_ops s) -> o_term o = r_term s -> p_ready lp = true.
Proof.
  intros I O T. destruct (p_ready lp) eqn:R; auto. destruct (iv_nready _ _ _ _ I R) as [_ X]. exfalso. eapply X; eauto.
Qed.

Lemma unapplied_nth s lp c : leader_peer s = Some lp -> In c (unapplied s) ->
  exists j id, (p_applied lp <= j)%nat /\ nth_error (r_log s) j = Some (id, c).
Proof.
  intros L. unfold unapplied. rewrite L. intros I. apply in_map_iff in I. destruct I as ([id c'] & <- & I).
  apply In_nth_error in I. destruct I as [i I]. exists (p_applied lp + i)%nat, id. split; [lia|].
  rewrite <- (firstn_skipn (p_applied lp) (r_log s)).
  assert (LE: (p_applied lp <= length (r_log s))%nat).
  { destruct (Nat.le_gt_cases (p_applied lp) (length (r_log s))); auto. rewrite skipn_all2 in I by lia. destruct i; discriminate. }
  rewrite nth_error_app2; rewrite firstn_length; [|lia]. replace (p_applied lp + i - min (p_applied lp) (length (r_log s)))%nat with i by lia. auto.
Qed.

(** ** a request arrives *)
Lemma step_start s L rl lp id n q ts s' : Inv s L rl lp -> calm s (LStart id n q ts) -> start s id n q ts = Next s' -> advance s s' L.
Proof.
  intros I (-> & RD & RQ & CV). unfold start.
  pose proof (iv_lead _ _ _ _ I) as LE. specialize (RD lp LE). unfold leader_peer in LE. rewrite LE.
  destruct (used id (r_hist s)) eqn:U; [discriminate|].
  assert (CN: l_calls L id = None) by (apply (iv_used1 _ _ _ _ I); auto).
  destruct (_ || _) eqn:RJ.
  { intros H. inversion H; subst. clear H.
    set (L' := mkL (l_map L) (l_now L) (set_call (set_call (l_calls L) id (Some (Waiting q (r_now s) []))) id None)).
    exists [XInv id q (r_now s); XRes id PReject], L', rl, lp. split; [|split; [|split]]; auto.
    - pose proof (iv_now _ _ _ _ I) as NW. destruct L as [m now c]. cbn [l_map l_now l_calls] in *. subst now. econstructor; [apply lin_inv; auto|].
      apply lin_run_one. eapply lin_res_reject. apply set_call_same.
    - eapply inv_ext; [| | |apply inv_hist; exact I]; auto. intros i. cbn [L' l_calls].
      destruct (Z.eq_dec i id) as [->|N]; [rewrite set_call_same; auto|rewrite !set_call_other; auto]. }
  apply orb_false_iff in RJ. destruct RJ as [V RJ]. apply negb_false_iff in V.
  destruct (negb (latch_free _ _ _)) eqn:LF; [discriminate|]. apply negb_false_iff in LF.
  destruct (takes_ts q && negb (ts_valid ts && (p_floor lp <? ts))) eqn:TV; [discriminate|].
  assert (TS: takes_ts q = true -> ts_ok ts /\ p_floor lp < ts).
  { intros T. rewrite T in TV. cbn [andb] in TV. apply negb_false_iff in TV. apply andb_true_iff in TV. destruct TV as [A B].
    unfold ts_valid in A. apply andb_true_iff in A. destruct A as [A1 A2]. apply Z.ltb_lt in A1, A2, B.
    split; auto. unfold ts_ok. change two63 with (2 ^ 63) in A2. lia. }
  intros H. inversion H; subst. clear H.
  set (p' := mkP (p_applied lp) (if takes_ts q then ts else p_floor lp) (p_leads lp) (p_ready lp) (p_maxts lp)).
  set (o := mkO id (r_leader s) (r_term s) q (if takes_ts q then ts else 0) (r_now s) [] None).
  set (s' := with_ops _ _ _).
  set (L' := mkL (l_map L) (l_now L) (set_call (l_calls L) id (Some (Waiting q (r_now s) [])))).
  assert (FL: p_floor lp <= p_floor p').
  { cbn [p' p_floor]. destruct (takes_ts q) eqn:T; [|lia]. destruct (TS eq_refl). lia. }
  assert (LE': leader_peer s' = Some p').
  { unfold leader_peer. cbn. rewrite nth_set_nth, Nat.eqb_refl, LE. auto. }
  assert (UN: unapplied s' = unapplied s).
  { unfold unapplied. rewrite LE'. unfold leader_peer. rewrite LE. auto. }
  exists [XInv id q (r_now s)], L', rl, p'. split; [|split; [|split]]; auto.
  { pose proof (iv_now _ _ _ _ I) as NW. destruct L as [m now c]. cbn [l_map l_now l_calls] in *. subst now. apply lin_run_one. apply lin_inv; auto. }
  assert (CO: forall i, used i (r_hist s) = true -> l_calls L' i = l_calls L i).
  { intros i Ui. cbn [L' l_calls]. apply set_call_other. intros ->. congruence. }
  destruct (iv_ready _ _ _ _ I RD) as (R1 & R2 & R3 & R4).
  assert (CURP: forall o', In o' (r_ops s) -> o_term o' = r_term s -> o_peer o' = r_leader s).
  { intros o' O' T'. apply (iv_cur _ _ _ _ I o' O' T'). }
  pose proof I as I0. destruct I. constructor; cbn [s' with_ops with_peer r_range r_log r_peers r_leader r_term r_elect r_ops r_now r_hist]; auto.
  - intros x X. apply In_set_nth in X. destruct X as [->|X]; auto. cbn. apply iv_len. eapply nth_error_In; eauto.
  - intros _. cbn [p' p_applied]. split; auto. split; auto. split.
    + intros i t items X. specialize (R3 i t items X). lia.
    + intros j i c J X. destruct (R4 j i c J X) as (o' & A & B). exists o'. split; auto. apply in_app_iff; auto.
  - cbn [p' p_ready]. congruence.
  - eapply In_set_nth_ex; eauto.
  - intros j i c J X. destruct (iv_pend j i c J X) as (q' & t' & r' & A & B & D & F).
    exists q', t', r'. rewrite CO by (eapply iv_used3; eapply nth_error_In; eauto). split; auto. split; auto. split; auto.
    intros o' O'. apply in_app_iff in O'. destruct O' as [O'|[<-|[]]]; auto. cbn [o o_id]. intros <-.
    rewrite (iv_used3 id c) in U; [discriminate|]. eapply nth_error_In; eauto.
  - intros i Ui. rewrite used_app in Ui. apply orb_false_iff in Ui. destruct Ui as [U1 U2]. cbn [used existsb] in U2.
    rewrite orb_false_r in U2. cbn [L' l_calls]. rewrite set_call_other; auto. apply Z.eqb_neq in U2. auto.
  - intros o' O'. rewrite used_app. apply in_app_iff in O'. destruct O' as [O'|[<-|[]]].
    + rewrite iv_used2; auto.
    + cbn [used existsb o o_id]. rewrite Z.eqb_refl. apply orb_true_r.
  - intros i c X. rewrite used_app, (iv_used3 i c); auto.
  - rewrite map_app. cbn [map o o_id]. assert (X: ~ In id (map o_id (r_ops s))).
    { intros X. apply in_map_iff in X. destruct X as (o' & E & X). rewrite <- E, (iv_used2 o' X) in U. discriminate. }
    clear - X iv_nodup. induction (map o_id (r_ops s)) as [|a l IH]; cbn.
    + repeat constructor; auto.
    + inversion iv_nodup; subst. constructor; [|apply IH; auto; intros Y; apply X; right; auto].
      intros Y. apply in_app_iff in Y. destruct Y as [Y|[Y|[]]]; auto. apply X. left. auto.
  - intros o' O'. apply in_app_iff in O'. destruct O' as [O'|[<-|[]]]; auto. cbn [o o_term o_prop]. split; [lia|congruence].
  - intros o' O' T'. apply in_app_iff in O'. destruct O' as [O'|[<-|[]]].
    + destruct (iv_cur o' O' T') as (A1 & A2 & A3 & A4 & A5 & A6 & A7 & A8).
      unfold op_ok. rewrite CO by (apply iv_used2; auto). rewrite UN.
      split; auto. split; auto. split; auto. split; auto. split; [|auto].
      intros X. destruct (A5 X). split; auto. lia.
    + unfold op_ok. cbn [o o_peer o_req o_t0 o_id o_reads o_prop o_ts].
      split; auto. split; auto. split; auto. split; [cbn [L' l_calls]; rewrite set_call_same; destruct (is_get q); auto|].
      split; [intros T; rewrite T; cbn [p' p_floor]; rewrite T; destruct (TS T); split; auto; lia|].
      split; [intros T; rewrite T; auto|]. split; [|congruence]. intros _.
      split. { intros c X. rewrite (iv_used3 id c X) in U. discriminate. }
      split; [intros; cbn; lia|]. split; [intros; apply agree_nil|].
      split.
      * intros i c k X K KL. destruct c as [t items|r]; [|destruct K]. cbn [cmd_ts].
        destruct (takes_ts q) eqn:T; [|destruct q; discriminate || destruct KL].
        specialize (R3 i t items X). destruct (TS eq_refl). lia.
      * intros c k X K. rewrite UN in X. split; [apply CV; auto|]. intros KO.
        destruct (unapplied_nth s lp c) as (j & i & J & E); [unfold leader_peer; auto|auto|].
        destruct (R4 j i c J E) as (o' & B1 & B2 & B3 & B4 & B5).
        eapply (latch_free_spec (r_leader s) (latch_keys q) (r_ops s) o' k); eauto.
  - intros o1 o2 k O1 O2 T1 T2 K1 K2. apply in_app_iff in O1. apply in_app_iff in O2.
    destruct O1 as [O1|[<-|[]]], O2 as [O2|[<-|[]]].
    + eapply iv_latch; eauto.
    + exfalso. eapply (latch_free_spec (r_leader s) (latch_keys q) (r_ops s) o1 k); eauto.
    + exfalso. eapply (latch_free_spec (r_leader s) (latch_keys q) (r_ops s) o2 k); eauto.
    + auto.
Qed.

Lemma forallb_In {A} (f : A -> bool) l a : forallb f l = true -> In a l -> f a = true.
Proof. intros H I. rewrite forallb_forall in H. auto. Qed.

(** the keys a request reads are legal *)
Definition read_keys (q : req) : list bytes := match q with RGet keys => keys | _ => latch_keys q end.
Lemma read_keys_ok range t0 q k : valid_req range q = true -> req_ok t0 q -> In k (read_keys q) -> bytes_ok k /\ k <> [].
Proof.
  assert (KV: forall k, key_valid range k = true -> k <> []).
  { intros k' H ->. discriminate. }
  assert (FO: forall kvs : list (bytes * bytes), Forall (fun kv => bytes_ok (fst kv)) kvs -> In k (map fst kvs) -> bytes_ok k).
  { intros kvs F I. apply in_map_iff in I. destruct I as (kv & <- & I). rewrite Forall_forall in F. auto. }
  assert (FB: forall l, forallb (key_valid range) l = true -> In k l -> key_valid range k = true).
  { intros l F I. eapply forallb_In; eauto. }
  intros V R K. destruct q as [keys|kvs ttl|kvs ttl atomic|keys|rg|kvs expects ttl atomic];
    cbn [read_keys latch_keys valid_req req_ok] in *; unfold kvs_ok in *; rewrite ?andb_true_iff in V.
  - rewrite Forall_forall in R. split; auto. apply KV. eapply FB; eauto; tauto.
  - split; [apply (FO kvs); tauto|]. apply KV. eapply FB; eauto; tauto.
  - split; [apply (FO kvs); tauto|]. apply KV. eapply FB; eauto; tauto.
  - rewrite Forall_forall in R. split; auto. apply KV. eapply FB; eauto; tauto.
  - destruct K.
  - split; [apply (FO kvs); tauto|]. apply KV. eapply FB; eauto; tauto.
Qed.

Lemma next_read_key s L lp o k : op_ok s L lp o -> o_prop o = None ->
  next_action (r_range s) (o_req o) (o_ts o) (o_t0 o) (o_reads o) = NRead k ->
  nth_error (read_keys (o_req o)) (length (o_reads o)) = Some k.
Proof.
  intros (A1 & A2 & A3 & A4 & A5 & A6 & A7 & A8) PN NX. destruct (A7 PN) as (B1 & B2 & B3 & B4 & B5).
  destruct (is_get (o_req o)) eqn:G.
  - destruct (o_req o) as [keys| | | | |] eqn:Q; try discriminate. cbn [read_keys next_action] in *.
    specialize (B2 eq_refl keys eq_refl). assert (W := get_walk_spec keys (o_reads o) [] B2).
    destruct (get_walk keys (o_reads o) []) as [k'|r|]; cbn [of_walk] in NX; [|discriminate|contradiction].
    injection NX as <-. auto.
  - specialize (B3 eq_refl). assert (W := next_spec (r_range s) (o_req o) (o_ts o) (o_t0 o) _ _ _ A2 A3 G B3). rewrite NX in W.
    destruct (o_req o); auto. discriminate.
Qed.

(** ** one read *)
Lemma step_read s L rl lp id : Inv s L rl lp -> calm s (LRead id) ->
  read s id <> Died /\ forall s', read s id = Next s' -> advance s s' L.
Proof.
  intros I C. unfold read. destruct (find_op s id) as [o|] eqn:F; [|split; discriminate].
  cbn [calm] in C. specialize (C o F). apply find_op_some in F. destruct F as [O OID].
  pose proof (iv_cur _ _ _ _ I o O C) as OK. pose proof OK as (A1 & A2 & A3 & A4 & A5 & A6 & A7 & A8).
  destruct (o_prop o) as [r|] eqn:PN; [split; discriminate|].
  destruct (next_action (r_range s) (o_req o) (o_ts o) (o_t0 o) (o_reads o)) as [k| |] eqn:NX; try (split; discriminate).
  rewrite A1. pose proof (iv_lead _ _ _ _ I) as LE. unfold leader_peer in LE. rewrite LE.
  pose proof (next_read_key _ _ _ _ _ OK PN NX) as NK.
  destruct (read_keys_ok (r_range s) (o_t0 o) (o_req o) k A2 A3 (nth_error_In _ _ NK)) as [BK NE].
  assert (RD := cur_ready _ _ _ _ _ I O C). destruct (iv_ready _ _ _ _ I RD) as (R1 & R2 & R3 & R4).
  assert (FC: Forall cmd_ok (cmds s (p_applied lp))).
  { apply Forall_forall. intros c IC. pose proof (iv_cmds _ _ _ _ I) as FC. rewrite Forall_forall in FC. apply FC.
    apply In_cmds in IC. destruct IC as [i IC]. apply in_map_iff. exists (i, c). auto. }
  assert (OD: ordered (cmds s (p_applied lp))).
  { unfold cmds. rewrite <- firstn_map. apply ordered_firstn. apply (iv_ord _ _ _ _ I). }
  assert (G := kv_get_alog (cmds s (p_applied lp)) (r_now s) k FC OD BK NE).
  change (peer_store s lp) with (apply_cmds (cmds s (p_applied lp))). rewrite G.
  set (x := match aview _ _ k with Some v => ROk v | None => RNotFound end).
  assert (EX: match x with ROk v => Some v | _ => None end = aview (alog (cmds s (p_applied lp))) (r_now s) k).
  { unfold x. destruct (aview _ _ k); auto. }
  rewrite EX. split; [discriminate|]. intros s' H. inversion H; subst s'. clear H G EX x.
  set (v := aview _ _ k). set (o' := mkO _ _ _ _ _ _ _ _).
  assert (MP: l_map L = alog (cmds s (p_applied lp))) by (rewrite (iv_map _ _ _ _ I), R2; auto).
  destruct (A7 eq_refl) as (B1 & B2 & B3 & B4 & B5).
  set (L' := if is_get (o_req o) then mkL (l_map L) (r_now s) (set_call (l_calls L) id (Some (Waiting (o_req o) (o_t0 o) (o_reads o ++ [v])))) else L).
  assert (CO: forall i, i <> id -> l_calls L' i = l_calls L i).
  { intros i N. unfold L'. destruct (is_get (o_req o)); auto. cbn. apply set_call_other; auto. }
  assert (NW: l_now L' = r_now s). { unfold L'. destruct (is_get (o_req o)); [auto|apply (iv_now _ _ _ _ I)]. }
  assert (ML: l_map L' = l_map L). { unfold L'. destruct (is_get (o_req o)); auto. }
  assert (NL: forall i c, In (i, c) (r_log s) -> i <> id). { intros i c X ->. apply (B1 c). rewrite OID. auto. }
  exists (if is_get (o_req o) then [XRead id] else []), L', rl, lp. split; [|split; [|split]].
  - unfold L'. destruct (is_get (o_req o)) eqn:G; [|constructor].
    destruct (o_req o) as [keys| | | | |] eqn:Q; try discriminate. cbn [read_keys] in NK.
    apply lin_run_one. unfold v. rewrite <- MP. pose proof (iv_now _ _ _ _ I) as NW0. destruct L as [m now c]. cbn [l_map l_now l_calls] in *. subst now.
    eapply lin_read; eauto. rewrite <- OID. exact A4.
  - destruct (is_get (o_req o)); reflexivity.
  - reflexivity.
  - assert (SO: forall y, In y (set_op o' (r_ops s)) -> y = o' \/ (In y (r_ops s) /\ o_id y <> id)).
    { intros y Y. apply set_op_In in Y. cbn [o' o_id] in Y. rewrite OID in Y. tauto. }
    destruct I. constructor; cbn [with_ops with_peer r_range r_log r_peers r_leader r_term r_elect r_ops r_now r_hist]; auto.
    + intros _. split; auto. split; auto. split; auto. intros j i c J X. destruct (R4 j i c J X) as (y & Y1 & Y2 & Y3 & Y4 & Y5).
      exists y. split; auto. apply set_op_In2; auto. cbn [o' o_id]. rewrite OID, Y2. eapply NL. eapply nth_error_In; eauto.
    + congruence.
    + rewrite ML. auto.
    + intros j i c J X. destruct (iv_pend j i c J X) as (q & t & r & D1 & D2 & D3 & D4).
      assert (N: i <> id) by (eapply NL; eapply nth_error_In; eauto).
      exists q, t, r. rewrite CO by auto. split; auto. split; auto. split; auto.
      intros y Y E. apply SO in Y. destruct Y as [->|[Y _]]; auto. cbn [o' o_id] in E. congruence.
    + intros i U. rewrite used_app, orb_false_r in U. destruct (Z.eq_dec i id) as [->|N]; [|rewrite CO; auto].
      exfalso. rewrite <- OID, (iv_used2 o O) in U. discriminate.
    + intros y Y. rewrite used_app, orb_false_r. apply SO in Y. destruct Y as [->|[Y _]]; auto. apply (iv_used2 o O).
    + intros i c X. rewrite used_app, orb_false_r. eauto.
    + rewrite set_op_ids. auto.
    + intros y Y. apply SO in Y. destruct Y as [->|[Y _]]; auto. cbn [o' o_term o_prop]. split; [lia|congruence].
    + intros y Y T. apply SO in Y. destruct Y as [->|[Y N]].
      * unfold op_ok. cbn [o' o_peer o_req o_t0 o_id o_reads o_prop o_ts with_ops r_leader r_range r_log r_now].
        split; auto. split; auto. split; auto. split.
        { unfold L'. destruct (is_get (o_req o)); auto. cbn [l_calls]. rewrite OID. apply set_call_same. }
        split; auto. split; auto. split; [|congruence]. intros _. split; auto. split; [|split; [|split; auto]].
        { intros G keys E. rewrite app_length. cbn [length]. rewrite E in NK. cbn [read_keys] in NK.
          assert (length (o_reads o) < length keys)%nat by (apply nth_error_Some; congruence). lia. }
        intros G. specialize (B3 G). cbn [with_ops r_now]. change (cmds (with_ops s (set_op o' (r_ops s)) []) (p_applied lp)) with (cmds s (p_applied lp)).
        apply agree_snoc; auto. destruct (o_req o); auto. discriminate.
      * unfold op_ok. rewrite CO by auto. apply (iv_cur y Y T).
    + intros o1 o2 k' O1 O2 T1 T2 K1 K2.
      assert (X: forall y, In y (set_op o' (r_ops s)) -> exists z, In z (r_ops s) /\ o_id z = o_id y /\ o_term z = o_term y /\ o_req z = o_req y).
      { intros y Y. apply SO in Y. destruct Y as [->|[Y _]]; [exists o|exists y]; auto. }
      destruct (X o1 O1) as (z1 & Z1 & Z2 & Z3 & Z4). destruct (X o2 O2) as (z2 & W1 & W2 & W3 & W4).
      rewrite <- Z2, <- W2. eapply (iv_latch z1 z2 k'); auto; congruence.
Qed.

(** dropping a request that is not in the log *)
Lemma inv_drop s L L' rl lp o es : Inv s L rl lp -> In o (r_ops s) -> (forall c, ~ In (o_id o, c) (r_log s)) ->
  l_map L' = l_map L -> l_now L' = r_now s -> (forall i, i <> o_id o -> l_calls L' i = l_calls L i) ->
  Inv (with_ops s (drop_op (o_id o) (r_ops s)) es) L' rl lp.
Proof.
  intros I O B1 ML NW CO.
  assert (NL: forall i c, In (i, c) (r_log s) -> i <> o_id o). { intros i c X ->. apply (B1 c). auto. }
  destruct I. constructor; cbn [with_ops with_peer r_range r_log r_peers r_leader r_term r_elect r_ops r_now r_hist]; auto.
  - intros R. destruct (iv_ready R) as (R1 & R2 & R3 & R4). split; auto. split; auto. split; auto.
    intros j i c J X. destruct (R4 j i c J X) as (y & Y1 & Y2 & Y3 & Y4 & Y5). exists y. split; auto. apply drop_In.
    split; auto. rewrite Y2. eapply NL. eapply nth_error_In; eauto.
  - intros R. destruct (iv_nready R) as [X Y]. split; auto. intros y D. apply drop_In in D. apply Y. tauto.
  - rewrite ML. auto.
  - intros j i c J X. destruct (iv_pend j i c J X) as (q & t & r & D1 & D2 & D3 & D4).
    exists q, t, r. rewrite CO by (eapply NL; eapply nth_error_In; eauto). split; auto. split; auto. split; auto.
    intros y Y. apply drop_In in Y. apply D4. tauto.
  - intros i U. rewrite used_app in U. apply orb_false_iff in U. destruct U as [U _]. destruct (Z.eq_dec i (o_id o)) as [->|N].
    + rewrite (iv_used2 o O) in U. discriminate.
    + rewrite CO; auto.
  - intros y Y. apply drop_In in Y. rewrite used_app, iv_used2 by tauto. auto.
  - intros i c X. rewrite used_app, (iv_used3 i c); auto.
  - apply drop_nodup; auto.
  - intros y Y. apply drop_In in Y. apply iv_term. tauto.
  - intros y Y T. apply drop_In in Y. destruct Y as [Y N]. unfold op_ok. rewrite CO by auto. apply (iv_cur y Y T).
  - intros o1 o2 k O1 O2. apply drop_In in O1. apply drop_In in O2. apply iv_latch; tauto.
Qed.

(** ** an answer without a write *)
Lemma step_reply s L rl lp id s' : Inv s L rl lp -> calm s (LReply id) -> reply s id = Next s' -> advance s s' L.
Proof.
  intros I C. unfold reply. destruct (find_op s id) as [o|] eqn:F; [|discriminate].
  cbn [calm] in C. specialize (C o F). apply find_op_some in F. destruct F as [O OID].
  pose proof (iv_cur _ _ _ _ I o O C) as (A1 & A2 & A3 & A4 & A5 & A6 & A7 & A8).
  destruct (o_prop o) as [r|] eqn:PN; [discriminate|].
  destruct (next_action (r_range s) (o_req o) (o_ts o) (o_t0 o) (o_reads o)) as [|r|] eqn:NX; try discriminate.
  intros H. inversion H; subst s'. clear H. destruct (A7 eq_refl) as (B1 & B2 & B3 & B4 & B5).
  assert (RD := cur_ready _ _ _ _ _ I O C). destruct (iv_ready _ _ _ _ I RD) as (R1 & R2 & R3 & R4).
  assert (MP: l_map L = alog (cmds s (p_applied lp))) by (rewrite (iv_map _ _ _ _ I), R2; auto).
  rewrite <- OID in *. destruct (is_get (o_req o)) eqn:G.
  - set (L' := mkL (l_map L) (l_now L) (set_call (l_calls L) (o_id o) None)).
    exists [XRes (o_id o) r], L', rl, lp. split; [|split; [|split]]; auto.
    + destruct (o_req o) as [keys| | | | |] eqn:Q; try discriminate. cbn [next_action] in NX.
      specialize (B2 eq_refl keys eq_refl). assert (W := get_walk_spec keys (o_reads o) [] B2).
      destruct (get_walk keys (o_reads o) []) as [k'|r'|]; cbn [of_walk] in NX; [discriminate| |contradiction].
      injection NX as <-. destruct W as [W ->]. apply lin_run_one. destruct L as [m now c]. eapply lin_res_get; eauto.
    + apply (inv_drop s L); auto; [apply (iv_now _ _ _ _ I)|]. intros i N. cbn. apply set_call_other; auto.
  - specialize (B3 eq_refl). assert (W := next_spec (r_range s) (o_req o) (o_ts o) (o_t0 o) _ _ _ A2 A3 G B3). rewrite NX, <- MP in W.
    set (L1 := mkL (l_map L) (r_now s) (set_call (l_calls L) (o_id o) (Some (Acted r)))).
    set (L' := mkL (l_map L) (r_now s) (set_call (l_calls L1) (o_id o) None)).
    exists [XAct (o_id o); XRes (o_id o) r], L', rl, lp. split; [|split; [|split]]; auto.
    + pose proof (iv_now _ _ _ _ I) as NW. destruct L as [m now c]. cbn [l_map l_now l_calls] in *. subst now. econstructor; [eapply lin_act; eauto|].
      apply lin_run_one. apply lin_res. apply set_call_same.
    + apply (inv_drop s L); auto; []. intros i N. cbn. rewrite !set_call_other; auto.
Qed.

Lemma ordered_snoc cs c : ordered cs -> (forall d k, In d cs -> key_of d k -> key_of c k -> cmd_ts d < cmd_ts c) -> ordered (cs ++ [c]).
Proof.
  intros O H i j d e k E1 E2 L K1 K2. destruct (Nat.lt_ge_cases j (length cs)) as [J|J].
  - rewrite nth_error_app1 in E1, E2 by lia. eapply O; eauto.
  - rewrite nth_error_app2 in E2 by lia. destruct (j - length cs)%nat as [|m] eqn:M; cbn in E2; [|destruct m; discriminate].
    injection E2 as <-. rewrite nth_error_app1 in E1 by lia. eapply H; eauto. eapply nth_error_In; eauto.
Qed.

(** ** a proposal *)
Lemma step_propose s L rl lp id s' : Inv s L rl lp -> calm s (LWrite id) -> propose s id = Next s' -> advance s s' L.
Proof.
  intros I C. unfold propose. destruct (find_op s id) as [o|] eqn:F; [|discriminate].
  cbn [calm] in C. destruct (C o F) as [T CV]. apply find_op_some in F. destruct F as [O OID]. clear C.
  pose proof (iv_cur _ _ _ _ I o O T) as OK. pose proof OK as (A1 & A2 & A3 & A4 & A5 & A6 & A7 & A8).
  destruct (o_prop o) as [r|] eqn:PN; [discriminate|].
  destruct (next_action (r_range s) (o_req o) (o_ts o) (o_t0 o) (o_reads o)) as [|r|c r] eqn:NX; try discriminate.
  rewrite A1. pose proof (iv_lead _ _ _ _ I) as LE. unfold leader_peer in LE. rewrite LE, Nat.eqb_refl. cbn [negb].
  destruct (A7 eq_refl) as (B1 & B2 & B3 & B4 & B5).
  rewrite <- OID in *.
  destruct (p_leads lp) eqn:LD; cbn [negb].
  2: { intros H. inversion H; subst s'. clear H.
    set (L' := mkL (l_map L) (l_now L) (set_call (l_calls L) (o_id o) None)).
    exists [XRes (o_id o) PReject], L', rl, lp. split; [|split; [|split]]; auto.
    - apply lin_run_one. destruct L as [m now c0]. eapply lin_res_reject; eauto.
    - apply (inv_drop s L); auto; [apply (iv_now _ _ _ _ I)|]. intros i N. cbn. apply set_call_other; auto. }
  intros H. inversion H; subst s'. clear H.
  assert (RD := cur_ready _ _ _ _ _ I O T). destruct (iv_ready _ _ _ _ I RD) as (R1 & R2 & R3 & R4).
  assert (G: is_get (o_req o) = false).
  { destruct (o_req o) as [keys| | | | |]; auto. exfalso. cbn [next_action] in NX. apply of_walk_write in NX.
    destruct NX as (items & states & W & _). specialize (B2 eq_refl keys eq_refl).
    assert (X := get_walk_spec keys (o_reads o) [] B2). rewrite W in X. auto. }
  specialize (B3 G).
  destruct (walk_items _ _ _ _ _ _ _ NX) as [WT WK].
  assert (CK := write_ok _ _ _ _ _ _ _ NX (proj1 (iv_rng _ _ _ _ I)) (proj2 (iv_rng _ _ _ _ I)) A3 (fun X => proj1 (A5 X))).
  set (o' := mkO _ _ _ _ _ _ _ _). set (s' := mkR _ _ _ _ _ _ _ _ _).
  assert (LE': leader_peer s' = Some lp) by auto.
  assert (AL: (p_applied lp <= length (r_log s))%nat) by (apply (iv_len _ _ _ _ I); eapply nth_error_In; eauto).
  assert (UN: unapplied s' = unapplied s ++ [c]).
  { unfold unapplied. rewrite LE'. unfold leader_peer. rewrite LE. cbn [s' r_log]. rewrite skipn_app.
    replace (p_applied lp - length (r_log s))%nat with 0%nat by lia. rewrite map_app. auto. }
  assert (CM: forall j, (j <= length (r_log s))%nat -> cmds s' j = cmds s j).
  { intros j J. unfold cmds. cbn [s' r_log]. rewrite firstn_app_le; auto. }
  assert (ALL: forall k, In k (latch_keys (o_req o)) -> alog (cmds s (length (r_log s))) k = alog (cmds s (p_applied lp)) k).
  { intros k K. assert (X: cmds s (length (r_log s)) = cmds s (p_applied lp) ++ unapplied s).
    { unfold cmds, unapplied, leader_peer. rewrite LE, firstn_all, <- map_app, firstn_skipn. auto. }
    rewrite X. apply alog_untouched. intros d D. apply B5; auto. }
  assert (SP: spec (r_range s) (alog (cmds s (length (r_log s)))) (r_now s) (o_t0 o) (o_req o) =
     (eff c (alog (cmds s (length (r_log s)))), r)).
  { assert (AG: agree (alog (cmds s (length (r_log s)))) (r_now s) (latch_keys (o_req o)) (o_reads o)).
    { eapply agree_ext; [|exact B3]. intros k K. apply aview_ext. symmetry. auto. }
    assert (W := next_spec (r_range s) (o_req o) (o_ts o) (o_t0 o) _ _ _ A2 A3 G AG). rewrite NX in W. auto. }
  assert (SO: forall y, In y (set_op o' (r_ops s)) -> y = o' \/ (In y (r_ops s) /\ o_id y <> o_id o)).
  { intros y Y. apply set_op_In in Y. cbn [o' o_id] in Y. tauto. }
  assert (SI: In o' (set_op o' (r_ops s))) by (eapply set_op_In3; eauto).
  assert (NL: forall i d, In (i, d) (r_log s) -> i <> o_id o). { intros i d X ->. apply (B1 d). auto. }
  assert (TCMD: forall t items, c = CWrite t items -> takes_ts (o_req o) = true /\ t = o_ts o).
  { intros t items ->. destruct (takes_ts (o_req o)) eqn:TK; [split; auto; apply WT; auto|].
    exfalso. destruct (o_req o); cbn [takes_ts is_get] in TK, G; try discriminate. cbn [next_action] in NX.
    destruct (negb _); discriminate. }
  assert (FLR: forall t items, c = CWrite t items -> t <= p_floor lp).
  { intros t items E. destruct (TCMD t items E) as [X ->]. apply A5; auto. }
  apply (advance_quiet s s' L rl lp); auto.
  pose proof I as I0. destruct I. constructor; cbn [s' r_range r_log r_peers r_leader r_term r_elect r_ops r_now r_hist]; auto.
  - rewrite app_length. lia.
  - intros p P. rewrite app_length. specialize (iv_len p P). lia.
  - intros _. split; auto. split; auto. split.
    + intros i t items X. apply in_app_iff in X. destruct X as [X|[X|[]]]; [eauto|]. inversion X; subst. eauto.
    + intros j i d J X. destruct (Nat.lt_ge_cases j (length (r_log s))) as [JL|JL].
      * rewrite nth_error_app1 in X by auto. destruct (R4 j i d J X) as (y & Y1 & Y2 & Y3 & Y4 & Y5).
        exists y. split; auto. apply set_op_In2; auto. cbn [o' o_id]. rewrite Y2. eapply NL. eapply nth_error_In; eauto.
      * rewrite nth_error_app2 in X by auto. destruct (j - length (r_log s))%nat as [|m]; cbn in X; [|destruct m; discriminate].
        inversion X; subst. exists o'. split; auto. cbn [o' o_id o_term o_prop o_req]. split; auto. split; auto. split; [congruence|].
        intros k K. apply (WK k K).
  - congruence.
  - rewrite CM by (eapply inv_rl_len; eauto). auto.
  - rewrite map_app. apply Forall_app. split; [auto|]. constructor; [exact CK|constructor].
  - rewrite map_app. apply ordered_snoc; auto. intros d k D K1 K2. cbn [snd map] in *.
    apply in_map_iff in D. destruct D as ([i d'] & <- & D). cbn [snd] in *.
    destruct (WK k K2) as [TK KL]. rewrite (WT TK). eapply B4; eauto.
  - rewrite map_app. cbn [map fst].
    assert (X: ~ In (o_id o) (map fst (r_log s))).
    { intros X. apply in_map_iff in X. destruct X as ([i d] & E & X). cbn in E. subst. apply (B1 d X). }
    clear - X iv_ids. induction (map fst (r_log s)) as [|a l IH]; cbn.
    + repeat constructor; auto.
    + inversion iv_ids; subst. constructor; [|apply IH; auto; intros Y; apply X; right; auto].
      intros Y. apply in_app_iff in Y. destruct Y as [Y|[Y|[]]]; auto. apply X. left. auto.
  - intros j i d J X. destruct (Nat.lt_ge_cases j (length (r_log s))) as [JL|JL].
    + rewrite nth_error_app1 in X by auto. destruct (iv_pend j i d J X) as (q & t & r' & D1 & D2 & D3 & D4).
      exists q, t, r'. rewrite CM by lia. split; auto. split; auto. split; auto.
      intros y Y E. apply SO in Y. destruct Y as [->|[Y _]]; auto. cbn [o' o_id] in E.
      exfalso. eapply NL; [eapply nth_error_In; eauto|]. auto.
    + rewrite nth_error_app2 in X by auto. destruct (j - length (r_log s))%nat as [|m] eqn:M; cbn in X; [|destruct m; discriminate].
      inversion X; subst. assert (j = length (r_log s)) as -> by lia.
      exists (o_req o), (o_t0 o), r. rewrite CM by lia. rewrite G in A4. split; auto. split; auto. split; auto.
      intros y Y E. apply SO in Y. destruct Y as [->|[Y N]]; auto. congruence.
  - intros y Y. apply SO in Y. destruct Y as [->|[Y _]]; auto. apply (iv_used2 o O).
  - intros i d X. apply in_app_iff in X. destruct X as [X|[X|[]]]; [eauto|]. inversion X; subst. apply (iv_used2 o O).
  - rewrite set_op_ids. auto.
  - intros y Y. apply SO in Y. destruct Y as [->|[Y _]]; auto. cbn [o' o_term]. split; [lia|auto].
  - intros y Y TY. apply SO in Y. destruct Y as [->|[Y N]].
    + unfold op_ok. cbn [o' o_peer o_req o_t0 o_id o_reads o_prop o_ts s' r_leader r_range r_log r_now].
      split; auto. split; auto. split; auto. split; auto. split; auto. split; auto. split; [congruence|].
      intros _. exists (length (r_log s)), c. split; auto. rewrite nth_error_app2, Nat.sub_diag by lia. auto.
    + destruct (iv_cur y Y TY) as (C1 & C2 & C3 & C4 & C5 & C6 & C7 & C8).
      unfold op_ok. cbn [s' r_leader r_range r_log r_now].
      split; auto. split; auto. split; auto. split; auto. split; auto. split; auto. split.
      * intros PY. destruct (C7 PY) as (D1 & D2 & D3 & D4 & D5). split; [|split; [|split; [|split]]]; auto.
        { intros d X. apply in_app_iff in X. destruct X as [X|[X|[]]]; [apply (D1 d X)|]. inversion X. congruence. }
        { intros GY. specialize (D3 GY). rewrite CM by lia. auto. }
        { intros i d k X K KL. apply in_app_iff in X. destruct X as [X|[X|[]]]; [eapply D4; eauto|]. inversion X; subst.
          exfalso. apply N. symmetry. eapply (iv_latch o y k); auto. apply (WK k K). }
        intros d k X K. rewrite UN in X. apply in_app_iff in X. destruct X as [X|[<-|[]]]; [apply D5; auto|]. split.
        { destruct c as [t items|rg]; [intros []|]. destruct (o_req o) as [| | | |rr|] eqn:Q; cbn [next_action] in NX;
            try (apply of_walk_write in NX; destruct NX as (items & states & _ & NX); discriminate); try discriminate.
          destruct (negb _); [discriminate|]. inversion NX; subst. eapply (CV rr y k); eauto. }
        intros KO. apply N. symmetry. eapply (iv_latch o y k); auto. apply (WK k KO).
      * intros PY. destruct (C8 PY) as (j & d & J & X). exists j, d. split; auto. rewrite nth_error_app1; auto.
        apply nth_error_Some. congruence.
  - intros o1 o2 k' O1 O2 T1 T2 K1 K2.
    assert (X: forall y, In y (set_op o' (r_ops s)) -> exists z, In z (r_ops s) /\ o_id z = o_id y /\ o_term z = o_term y /\ o_req z = o_req y).
    { intros y Y. apply SO in Y. destruct Y as [->|[Y _]]; [exists o|exists y]; auto. }
    destruct (X o1 O1) as (z1 & Z1 & Z2 & Z3 & Z4). destruct (X o2 O2) as (z2 & W1 & W2 & W3 & W4).
    rewrite <- Z2, <- W2. eapply (iv_latch z1 z2 k'); auto; congruence.
Qed.

Lemma step_advance s L rl lp l : Inv s L rl lp -> calm s l ->
  step s l <> Died /\ forall s', step s l = Next s' -> advance s s' L.
Proof.
  intros I C. destruct l as [id n q ts|id|id|id|n|n m|n keep|n|n|t]; cbn [step].
  - split; [|intros s' H; eapply step_start; eauto]. unfold start. destruct (nth_error _ _); [|discriminate].
    destruct (used _ _); [discriminate|]. destruct (_ || _); [discriminate|]. destruct (negb _); [discriminate|].
    destruct (_ && _); discriminate.
  - eapply step_read; eauto.
  - split; [|intros s' H; eapply step_reply; eauto]. unfold reply. destruct (find_op s id) as [o|]; [|discriminate].
    destruct (o_prop o); [discriminate|]. destruct (next_action _ _ _ _ _); discriminate.
  - split; [|intros s' H; eapply step_propose; eauto]. unfold propose. destruct (find_op s id) as [o|]; [|discriminate].
    destruct (o_prop o); [discriminate|]. destruct (next_action _ _ _ _ _); try discriminate.
    destruct (nth_error _ _); [|discriminate]. destruct (negb _); [discriminate|]. destruct (negb _); discriminate.
  - split; [|intros s' H; eapply step_apply; eauto]. unfold apply_entry. destruct (nth_error _ _); [|discriminate].
    destruct (nth_error _ _) as [[id c]|]; [|discriminate]. destruct (find_op s id) as [o|]; [|discriminate].
    destruct (o_prop o); [|discriminate]. destruct (Nat.eqb _ _); discriminate.
  - split; [|intros s' H; eapply step_install; eauto]. unfold install. destruct (nth_error _ _); [|discriminate].
    destruct (_ && _); discriminate.
  - split; [|intros s' H; eapply step_elect; eauto]. unfold elect. destruct (nth_error _ _); [|discriminate].
    destruct (_ && _); discriminate.
  - split; [|intros s' H; eapply step_ready; eauto]. unfold ready. destruct (nth_error _ _); [|discriminate].
    destruct (_ && _); discriminate.
  - split; [|intros s' H; eapply step_deposed; eauto]. unfold deposed. destruct (nth_error _ _); [|discriminate].
    destruct (Nat.eqb _ _); discriminate.
  - split; [destruct (r_now s <=? t); discriminate|]. intros s' H. apply (step_tick s L rl lp t s'); auto.
Qed.

Lemma run_lin ls : forall s L rl lp x now0, Inv s L rl lp -> calm_run s ls -> lin_run (r_range s) (lin0 now0) x L ->
  visible_events x = r_hist s ->
  run s ls <> Died /\ forall s', run s ls = Next s' -> r_range s' = r_range s /\ linearizable (r_range s) now0 (r_hist s').
Proof.
  induction ls as [|l ls IH]; intros s L rl lp x now0 I C RX HX; cbn [run].
  - split; [discriminate|]. intros s' H. inversion H; subst. split; auto. exists x, L. auto.
  - cbn [calm_run] in C. destruct C as [C1 C2]. destruct (step_advance s L rl lp l I C1) as [NA AD].
    destruct (step s l) as [s1| |] eqn:E; [|split; discriminate|exfalso; apply NA; auto].
    destruct (AD s1 eq_refl) as (xs & L' & rl' & lp' & A & B & D & F).
    rewrite <- D. eapply (IH s1 L' rl' lp' (x ++ xs) now0); eauto.
    + rewrite D. eapply lin_run_app; eauto.
    + rewrite visible_app, HX, B. auto.
Qed.

Lemma init_inv range n now : bytes_ok (fst range) -> bytes_ok (snd range) ->
  Inv (init range n now) (lin0 now) 0 (mkP 0 0 true true 0).
Proof.
  intros R1 R2. unfold init. constructor; cbn [r_range r_log r_peers r_leader r_term r_elect r_ops r_now r_hist lin0 l_now l_map l_calls]; auto.
  - intros p [<-|P]; [cbn; lia|]. apply repeat_spec in P. subst. cbn. lia.
  - intros _. split; auto. split; auto. split; [intros id ts items []|]. intros j id c J X. destruct j; discriminate.
  - exists (mkP 0 0 true true 0). split; [left|]; auto.
  - constructor.
  - intros i j c d k X. destruct i; discriminate.
  - constructor.
  - intros j id c J X. destruct j; discriminate.
  - constructor.
  - intros o [].
  - intros o [].
  - intros o1 o2 k [].
Qed.

Lemma raw_linearizable range n now ls : bytes_ok (fst range) -> bytes_ok (snd range) ->
  calm_run (init range n now) ls ->
  run (init range n now) ls <> Died /\
  forall s, run (init range n now) ls = Next s -> linearizable range now (r_hist s).
Proof.
  intros R1 R2 C.
  destruct (run_lin ls (init range n now) (lin0 now) 0%nat (mkP 0 0 true true 0) [] now (init_inv range n now R1 R2) C) as [A B].
  - constructor.
  - reflexivity.
  - split; auto. intros s H. apply (B s H).
Qed.
