(** Proofs about the text index of a document region. *)
Require Import ZArith List Bool Arith Lia.
From Verif Require Import DiModel DiSpec.
Import ListNotations.
Open Scope nat_scope.

(** * Batches *)
Definition one (r : list doc) (c : cmd) : list doc :=
  match c with CAdd _ ds => r ++ ds | CDel l => filter (fun d => negb (mem (fst d) l)) r | COther => r end.

Lemma obo_eq : forall cs r, one_by_one r cs = fold_left one cs r.
Proof. reflexivity. Qed.

Lemma mem_app : forall x a b, mem x (a ++ b) = mem x a || mem x b.
Proof. intros. unfold mem. apply existsb_app. Qed.

Lemma del_app : forall r a b, ix_del r (a ++ b) = ix_del (ix_del r a) b.
Proof.
  unfold ix_del. induction r as [| d r IH]; intros; cbn; auto.
  rewrite mem_app. destruct (mem (fst d) a); cbn.
  - apply IH.
  - destruct (mem (fst d) b); cbn; rewrite IH; reflexivity.
Qed.

Lemma del_nil : forall r, ix_del r [] = r.
Proof. unfold ix_del. induction r; cbn; auto. f_equal. auto. Qed.

Definition binv (s : list doc * list doc * list Z) : Prop :=
  let '(_, ds, l) := s in ds = [] \/ l = [].

Lemma rest_add : forall r ds, replay_rest (r, ds, []) = r ++ ds.
Proof. intros. destruct ds; cbn; auto. rewrite app_nil_r. auto. Qed.

Lemma rest_del : forall r l, replay_rest (r, [], l) = ix_del r l.
Proof. intros. destruct l; cbn; auto. rewrite del_nil. auto. Qed.

Lemma step_rest : forall b s c, binv s ->
  binv (replay_one b s c) /\ replay_rest (replay_one b s c) = one (replay_rest s) c.
Proof.
  intros b [[r ds] l] c I. cbn [binv] in I.
  destruct c as [u new | new |]; cbn [replay_one one].
  - destruct l as [| x l'].
    + rewrite rest_add. destruct (b <=? length (ds ++ new)); split; cbn [binv]; auto;
        rewrite rest_add; unfold ix_add; rewrite ?app_nil_r, ?app_assoc; auto.
    + destruct I as [-> | I]; [| discriminate].
      rewrite rest_del.
      destruct (b <=? length ([] ++ new)); split; cbn [binv]; auto;
        rewrite rest_add; unfold ix_add; rewrite ?app_nil_r; auto.
  - destruct ds as [| x ds'].
    + rewrite rest_del. destruct (b <=? length (l ++ new)); split; cbn [binv]; auto;
        rewrite rest_del, ?del_nil, ?del_app; reflexivity.
    + destruct I as [I | ->]; [discriminate |].
      rewrite rest_add.
      destruct (b <=? length ([] ++ new)); split; cbn [binv]; auto;
        rewrite rest_del, ?del_nil; reflexivity.
  - auto.
Qed.

Lemma fold_rest : forall b cs s, binv s ->
  replay_rest (fold_left (replay_one b) cs s) = fold_left one cs (replay_rest s).
Proof.
  induction cs as [| c cs IH]; intros s I; cbn [fold_left]; auto.
  destruct (step_rest b s c I) as [I' E]. rewrite IH by auto. rewrite E. auto.
Qed.

Lemma batches_same : forall b r cs, replay_list b r cs = one_by_one r cs.
Proof.
  intros. unfold replay_list. rewrite fold_rest by (cbn; auto). reflexivity.
Qed.

(** * What an index says about a document *)
Definition okv (s : bool) (r : list doc) (id : Z) (v : option Z) : Prop :=
  match v with Some c => In (id, c) r | None => s = true -> ~ In id (map fst r) end.

Lemma mem_in : forall x l, mem x l = true <-> In x l.
Proof.
  intros. unfold mem. rewrite existsb_exists. split.
  - intros [y [H E]]. apply Z.eqb_eq in E. subst. auto.
  - intros H. exists x. split; auto. apply Z.eqb_refl.
Qed.

Lemma in_del : forall r l d, In d (ix_del r l) <-> In d r /\ mem (fst d) l = false.
Proof.
  intros. unfold ix_del. rewrite filter_In. rewrite negb_true_iff. tauto.
Qed.

Lemma in_del_id : forall r l id, In id (map fst (ix_del r l)) <-> In id (map fst r) /\ mem id l = false.
Proof.
  intros. rewrite !in_map_iff. split.
  - intros [d [E H]]. subst. apply in_del in H. destruct H. split; auto. exists d; auto.
  - intros [[d [E H]] M]. subst. exists d. split; auto. apply in_del. auto.
Qed.

Lemma find_rev_in : forall id (ds : list doc) (d : doc), find (fun d : doc => Z.eqb (fst d) id) (rev ds) = Some d -> In (id, snd d) ds.
Proof.
  intros id ds [i c] H. apply find_some in H. destruct H as [H E]. cbn in *. apply Z.eqb_eq in E. subst.
  apply in_rev. auto.
Qed.

Lemma find_rev_none : forall id (ds : list doc), find (fun d : doc => Z.eqb (fst d) id) (rev ds) = None -> ~ In id (map fst ds).
Proof.
  intros id ds H C. apply in_map_iff in C. destruct C as [d [E C]].
  apply in_rev in C. eapply find_none in H; [| exact C]. cbn in H. subst. rewrite Z.eqb_refl in H. discriminate.
Qed.

(** Either way of applying a command. *)
Definition applies (f : list doc -> cmd -> list doc) : Prop := f = ix_apply \/ f = one.

Lemma ok_said : forall f s r c id v, applies f -> says id c = Some v -> okv s (f r c) id v.
Proof.
  intros f s r c id v A H. destruct c as [u ds | l |]; cbn in H.
  - destruct (find _ _) as [d |] eqn:F; [| discriminate]. injection H as <-. cbn [okv].
    apply find_rev_in in F.
    destruct A as [-> | ->]; cbn; [destruct u |]; unfold ix_upsert, ix_add; apply in_or_app; auto.
  - destruct (mem id l) eqn:M; [| discriminate]. injection H as <-. cbn [okv]. intros _ C.
    assert (f r (CDel l) = ix_del r l) as E by (destruct A as [-> | ->]; reflexivity).
    rewrite E in C. apply in_del_id in C. destruct C. congruence.
  - discriminate.
Qed.

Lemma ok_kept : forall f s r c id v, applies f -> says id c = None -> okv s r id v -> okv s (f r c) id v.
Proof.
  intros f s r c id v A H K. destruct c as [u ds | l |]; cbn in H.
  - destruct (find _ _) as [d |] eqn:F; [discriminate |]. apply find_rev_none in F.
    assert (forall k, ~ In (id, k) ds) as N.
    { intros k C. apply F. apply in_map_iff. exists (id, k). auto. }
    assert (mem id (map fst ds) = false) as M.
    { destruct (mem id (map fst ds)) eqn:E; auto. apply mem_in in E. contradiction. }
    assert (f r (CAdd u ds) = r ++ ds \/ f r (CAdd u ds) = ix_del r (map fst ds) ++ ds) as E.
    { destruct A as [-> | ->]; cbn; auto. destruct u; auto. }
    destruct v as [k |]; cbn [okv] in *.
    + destruct E as [-> | ->]; apply in_or_app; left; auto. apply in_del. auto.
    + intros S C. specialize (K S).
      destruct E as [E | E]; rewrite E, map_app in C; apply in_app_or in C; destruct C as [C | C]; auto.
      apply in_del_id in C. destruct C. auto.
  - destruct (mem id l) eqn:M; [discriminate |].
    assert (f r (CDel l) = ix_del r l) as E by (destruct A as [-> | ->]; reflexivity).
    rewrite E. destruct v as [k |]; cbn [okv] in *.
    + apply in_del. auto.
    + intros S C. apply in_del_id in C. destruct C. apply K; auto.
  - assert (f r COther = r) as E by (destruct A as [-> | ->]; reflexivity). rewrite E. auto.
Qed.

(** * Positions *)
Definition quiet (log : list cmd) (a h : nat) (id : Z) : Prop :=
  forall j c, a <= j < h -> nth_error log j = Some c -> says id c = None.

(** Right about every document that the entries after [a] up to [h] do not name. *)
Definition pos (s : bool) (log : list cmd) (r : list doc) (a h : nat) : Prop :=
  forall id, quiet log a h id -> okv s r id (stored (firstn h log) id).

Lemma firstn_snoc : forall (log : list cmd) n c, nth_error log n = Some c ->
  firstn (S n) log = firstn n log ++ [c].
Proof.
  induction log as [| x log IH]; intros [| n] c H; cbn in *; try discriminate.
  - injection H as ->. auto.
  - f_equal. apply IH. auto.
Qed.

Lemma firstn_over : forall (log : list cmd) n, nth_error log n = None -> firstn (S n) log = firstn n log.
Proof.
  intros log n H. apply nth_error_None in H. rewrite !firstn_all2 by lia. auto.
Qed.

Lemma stored_snoc : forall cs c id,
  stored (cs ++ [c]) id = match says id c with Some v => v | None => stored cs id end.
Proof. intros. unfold stored. rewrite fold_left_app. reflexivity. Qed.

Lemma pos_up1 : forall s log r a h, pos s log r a h -> a <= h -> pos s log r a (S h).
Proof.
  intros s log r a h H L id Q.
  assert (quiet log a h id) as Q'. { intros j c J. apply Q. lia. }
  specialize (H id Q').
  destruct (nth_error log h) as [c |] eqn:E.
  - rewrite (firstn_snoc _ _ _ E), stored_snoc. rewrite (Q h c); auto.
  - rewrite firstn_over; auto.
Qed.

Lemma quiet_stored : forall log a h id, a <= h -> quiet log a h id ->
  stored (firstn h log) id = stored (firstn a log) id.
Proof.
  intros log a h id L. induction L as [| h L IH]; intros Q; auto.
  assert (quiet log a h id) as Q'. { intros j c J. apply Q. lia. }
  rewrite <- (IH Q'). destruct (nth_error log h) as [c |] eqn:E.
  - rewrite (firstn_snoc _ _ _ E), stored_snoc. rewrite (Q h c); auto.
  - rewrite firstn_over; auto.
Qed.

Lemma pos_down : forall s log r a a' h, pos s log r a h -> a' <= a -> pos s log r a' h.
Proof. intros s log r a a' h H L id Q. apply H. intros j c J. apply Q. lia. Qed.

Lemma pos_up : forall s log r a h h', pos s log r a h -> a <= h -> h <= h' -> pos s log r a h'.
Proof.
  intros s log r a h h' H L M. induction M; auto. apply pos_up1; auto. lia.
Qed.

Lemma pos_step : forall f s log r a h c, applies f -> nth_error log a = Some c -> a < h ->
  pos s log r a h -> pos s log (f r c) (S a) h.
Proof.
  intros f s log r a h c A N L H id Q.
  destruct (says id c) as [v |] eqn:S.
  - rewrite (quiet_stored log (Datatypes.S a) h id) by (auto; lia).
    rewrite (firstn_snoc _ _ _ N), stored_snoc, S. eapply ok_said; eauto.
  - apply ok_kept; auto. apply H. intros j c' J N'.
    destruct (Nat.eq_dec j a) as [-> |]; [congruence |]. apply (Q j); auto. lia.
Qed.

Lemma pos_skip : forall s log r a h, nth_error log a = None -> pos s log r a h -> pos s log r (S a) h.
Proof.
  intros s log r a h N H id Q. apply H. intros j c J N'.
  destruct (Nat.eq_dec j a) as [-> |]; [congruence |]. apply (Q j); auto. lia.
Qed.

Lemma skipn_next : forall (log : list cmd) a c rest, skipn a log = c :: rest -> skipn (S a) log = rest.
Proof.
  induction log as [| x log IH]; intros [| a] c rest H; cbn in *; try discriminate.
  - injection H as _ H. auto.
  - apply (IH a c). auto.
Qed.

Lemma pos_fold : forall s log h cs r a, pos s log r a h -> cs = firstn (length cs) (skipn a log) ->
  a + length cs <= h -> pos s log (fold_left one cs r) (a + length cs) h.
Proof.
  induction cs as [| c cs IH]; intros r a H E L; cbn [fold_left length] in *.
  - rewrite Nat.add_0_r. auto.
  - destruct (skipn a log) as [| x rest] eqn:K; [discriminate |].
    cbn in E. injection E as <- E.
    assert (nth_error log a = Some c) as N.
    { rewrite <- (firstn_skipn a log) at 1. rewrite K.
      assert (length (firstn a log) = a) as F.
      { apply firstn_length_le. destruct (Nat.le_gt_cases a (length log)); auto.
        rewrite skipn_all2 in K by lia. discriminate. }
      rewrite nth_error_app2 by lia. rewrite F, Nat.sub_diag. auto. }
    replace (a + S (length cs)) with (S a + length cs) by lia. apply IH; try lia.
    + apply (pos_step one); auto; try lia. right; auto.
    + assert (skipn (S a) log = rest) as K'.
      { apply (skipn_next _ _ _ _ K). }
      rewrite K'. auto.
Qed.

Lemma pos_nil_up : forall s log r n a h, pos s log r a h -> length log <= a -> pos s log r (a + n) h.
Proof.
  intros s log r n a h H L. induction n; [rewrite Nat.add_0_r; auto |].
  replace (a + S n) with (S (a + n)) by lia. apply pos_skip; auto. apply nth_error_None. lia.
Qed.

Lemma pos_replay : forall s b log r a e h, pos s log r a h -> a <= e -> e <= h ->
  pos s log (replay_list b r (entries log (S a) e)) e h.
Proof.
  intros s b log r a e h H L M. rewrite batches_same, obo_eq. unfold entries.
  replace (S a - 1) with a by lia. replace (S e - S a) with (e - a) by lia.
  set (cs := firstn (e - a) (skipn a log)).
  assert (length cs = Nat.min (e - a) (length log - a)) as LE
    by (unfold cs; rewrite firstn_length, skipn_length; auto).
  assert (pos s log (fold_left one cs r) (a + length cs) h) as P.
  { apply pos_fold; auto; try lia. rewrite LE. unfold cs.
    destruct (Nat.le_gt_cases (e - a) (length log - a)).
    - rewrite Nat.min_l by lia. auto.
    - rewrite Nat.min_r by lia. rewrite !firstn_all2; auto; rewrite skipn_length; lia. }
  destruct (Nat.le_gt_cases (e - a) (length log - a)).
  - replace e with (a + length cs) at 1 by lia. auto.
  - replace e with (a + length cs + (e - (a + length cs))) at 1 by lia. apply pos_nil_up; auto. lia.
Qed.

(** The scan holds every live document. *)
Lemma stored_scan : forall log n id c, stored (firstn n log) id = Some c -> In (id, c) (scan log n).
Proof.
  intros log n id c. unfold scan. generalize (firstn n log) as cs.
  intros cs. induction cs as [| x cs IH] using rev_ind; intros H; [discriminate |].
  rewrite stored_snoc in H. rewrite flat_map_app. apply in_or_app.
  destruct (says id x) as [v |] eqn:S; auto.
  subst v. right. destruct x as [u ds | l |]; cbn in S.
  - destruct (find _ _) as [d |] eqn:F; [| discriminate]. injection S as <-. cbn. rewrite app_nil_r.
    apply find_rev_in in F. auto.
  - destruct (mem id l); discriminate.
  - discriminate.
Qed.

(** * The machine *)
Definition done (w : world) : nat := if busy w then S (applied w) else applied w.

Definition good_obj (s : bool) (log : list cmd) (o : obj) (a h : nat) : Prop :=
  a <= h /\ pos s log (rows o) a h /\ forall m, smeta o = Some m -> m <= a.

Definition inv (s : bool) (log : list cmd) (w : world) : Prop :=
  done w <= kv w /\
  (forall o, own w = Some o -> ready w = true /\ good_obj s log o (Nat.max (wapply w) (done w)) (kv w)) /\
  (ready w = true -> own w <> None) /\
  (forall o, bld w = Some o -> if oscan o then good_obj s log o (oapply o) (kv w)
                               else smeta o = None /\ oapply o <= kv w) /\
  (forall o m, disk w = Some o -> smeta o = Some m -> m <= kv w /\ pos s log (rows o) m (kv w)).

Lemma inv_start : forall s log, inv s log start.
Proof.
  intros. unfold inv, start, done; cbn. repeat split; try discriminate; lia.
Qed.

Lemma good_up : forall s log o a h h', good_obj s log o a h -> h <= h' -> good_obj s log o a h'.
Proof.
  intros s log o a h h' [L [P M]] U. repeat split; auto; try lia. eapply pos_up; eauto.
Qed.

Lemma good_meta : forall s log o a h m, good_obj s log o a h -> smeta o = Some m ->
  m <= h /\ pos s log (rows o) m h.
Proof.
  intros s log o a h m [L [P M]] E. specialize (M m E). split; [lia |]. eapply pos_down; eauto.
Qed.

Lemma calls_not : forall x r, calls x = false -> ix_apply r x = r.
Proof. intros [u ds | [| y l] |] r H; cbn in *; try discriminate; auto. apply del_nil. Qed.

Lemma inv_handle : forall s c log w, inv s log w -> inv s log (handle c log w).
Proof.
  intros s c log w I. pose proof I as [D [O [R [B K]]]]. unfold handle.
  destruct (busy w) eqn:Bu; auto.
  destruct (nth_error log (applied w)) as [x |] eqn:N; auto.
  assert (done w = applied w) as Dw by (unfold done; rewrite Bu; auto).
  set (h := Nat.max (kv w) (S (applied w))).
  assert (kv w <= h) as Lh by (unfold h; lia).
  assert (S (applied w) <= h) as Lk by (unfold h; lia).
  assert (forall o, bld w = Some o -> if oscan o then good_obj s log o (oapply o) h
                               else smeta o = None /\ oapply o <= h) as B'.
  { intros o E. specialize (B o E). destruct (oscan o).
    - eapply good_up; eauto.
    - destruct B. split; auto. lia. }
  assert (forall o m, disk w = Some o -> smeta o = Some m -> m <= h /\ pos s log (rows o) m h) as K'.
  { intros o m E F. destruct (K o m E F) as [L P]. split; [lia |]. eapply pos_up; eauto. }
  destruct (own w) as [o |] eqn:Ow.
  2: { unfold inv, done; cbn [kv applied busy own ready wapply lsave bld disk].
       split; [fold h; lia |]. split; [discriminate |]. split; auto. }
  destruct (O o eq_refl) as [Rd G]. rewrite Rd. cbn [andb].
  rewrite Dw in G. apply (good_up _ _ _ _ _ h) in G; auto. destruct G as [GL [GP GM]].
  destruct (wapply w <? S (applied w)) eqn:Wk; cbn [andb].
  - apply Nat.ltb_lt in Wk.
    replace (Nat.max (wapply w) (applied w)) with (applied w) in * by lia.
    assert (pos s log (ix_apply (rows o) x) (S (applied w)) h) as P.
    { apply pos_step; auto. left; auto. }
    destruct (calls x) eqn:Cx; cbn [andb].
    + unfold set_apply. cbn [kv applied busy own ready wapply lsave bld disk].
      destruct (gap c <? S (applied w) - lsave w);
        unfold inv, done; cbn [kv applied busy own ready wapply lsave bld disk save_meta];
        (split; [fold h; lia |]);
        (split; [intros o' E; injection E as <-; split; auto |]);
        try (split; [discriminate |]; split; auto);
        unfold good_obj; cbn [rows smeta save_meta]; rewrite Nat.max_id;
        repeat split; auto; intros m E; injection E as <- || apply GM in E; lia.
    + rewrite calls_not in P by auto.
      unfold inv, done; cbn [kv applied busy own ready wapply lsave bld disk].
      split; [fold h; lia |]. split; [| split; [discriminate |]; split; auto].
      intros o' E. injection E as <-. split; auto.
      replace (Nat.max (wapply w) (S (applied w))) with (S (applied w)) by lia.
      repeat split; auto.
  - apply Nat.ltb_ge in Wk.
    unfold inv, done; cbn [kv applied busy own ready wapply lsave bld disk].
    split; [fold h; lia |]. split; [| split; [discriminate |]; split; auto].
    intros o' E. injection E as <-. split; auto.
    replace (Nat.max (wapply w) (S (applied w))) with (Nat.max (wapply w) (applied w)) by lia.
    repeat split; auto.
Qed.

Definition ev_ok (s : bool) (log : list cmd) (w : world) (e : event) : Prop :=
  (e = ESwitch -> busy w = false /\ forall o, bld w = Some o -> applied w <> S (oapply o)) /\
  (s = true -> e = EScan -> forall d, In d (scan log (kv w)) -> stored (firstn (kv w) log) (fst d) <> None).

Ltac five := split; [| split; [| split; [| split]]].

Lemma inv_act : forall s c log w e, 1 <= cgap c -> inv s log w -> ev_ok s log w e -> inv s log (act c log w e).
Proof.
  intros s c log w e CG I [V1 V2]. pose proof I as [D [O [R [B K]]]].
  assert (applied w <= kv w) as LA by (unfold done in D; destruct (busy w); lia).
  destruct e; cbn [act].
  - apply inv_handle; auto.
  - unfold finish. destruct (busy w) eqn:Bu; auto. unfold done in *. rewrite Bu in *.
    unfold inv, done; cbn [kv applied busy own ready wapply lsave bld disk]. five; auto.
  - destruct (bld w) eqn:Bl; auto. destruct (own w) eqn:Ow; auto. destruct (disk w) as [o |] eqn:Di; auto.
    destruct (smeta o) as [m |] eqn:Sm; auto. destruct (K o m eq_refl Sm) as [Lm P].
    unfold inv, set_bld, done in *; cbn [kv applied busy own ready wapply lsave bld disk].
    rewrite Ow, Di. five; auto; try discriminate.
    intros o' E. injection E as <-. cbn [oscan]. repeat split; cbn [rows smeta oapply]; auto.
    intros m' E. injection E as <-. lia.
  - destruct (bld w) eqn:Bl; auto.
    unfold inv, set_bld, done in *; cbn [kv applied busy own ready wapply lsave bld disk].
    five; auto.
    intros o' E. injection E as <-. cbn. auto.
  - destruct (bld w) as [o |] eqn:Bl; auto. specialize (B o eq_refl).
    destruct (oscan o) eqn:Os; [auto |].
    destruct B as [Sm Lo].
    unfold inv, set_bld, done in *; cbn [kv applied busy own ready wapply lsave bld disk].
    five; auto.
    intros o' E. injection E as <-. cbn [oscan]. repeat split; cbn [rows smeta oapply]; auto; try discriminate.
    intros id _. destruct (stored (firstn (kv w) log) id) as [k |] eqn:St; cbn [okv].
    + apply stored_scan. auto.
    + intros S C. apply in_map_iff in C. destruct C as [d [E C]]. subst id. exact (V2 S eq_refl d C St).
  - destruct (bld w) as [o |] eqn:Bl; auto. specialize (B o eq_refl).
    destruct (oscan o) eqn:Os; cbn [andb]; auto.
    destruct (cgap c + S (oapply o) <=? applied w) eqn:Cg; auto. apply Nat.leb_le in Cg.
    destruct B as [L [P M]].
    unfold inv, set_bld, done in *; cbn [kv applied busy own ready wapply lsave bld disk].
    five; auto.
    intros o' E. injection E as <-. unfold replay.
    destruct (applied w <=? S (oapply o)) eqn:Le; [apply Nat.leb_le in Le; lia |].
    cbn [save_meta oscan rows oapply smeta]. rewrite Os.
    repeat split; cbn [save_meta oscan rows oapply smeta]; auto.
    + apply pos_replay; auto. lia.
    + intros m E. injection E as <-. lia.
  - destruct (bld w) as [o |] eqn:Bl; auto. specialize (B o eq_refl).
    destruct (oscan o) eqn:Os; [| auto].
    destruct (V1 eq_refl) as [Bu Ne]. specialize (Ne o eq_refl).
    destruct B as [L [P M]]. unfold replay, done in *. rewrite Bu in *.
    destruct (applied w <=? S (oapply o)) eqn:Le.
    + apply Nat.leb_le in Le.
      assert (S (oapply o) <? applied w = false) as Lt by (apply Nat.ltb_ge; lia). rewrite Lt.
      unfold inv, done; cbn [kv applied busy own ready wapply lsave bld disk].
      split; [auto |]. split; [| split; [discriminate | split; [discriminate | auto]]].
      intros o' E. injection E as <-. split; auto.
      replace (Nat.max (oapply o) (applied w)) with (oapply o) by lia. repeat split; auto.
    + apply Nat.leb_gt in Le.
      assert (S (oapply o) <? applied w = true) as Lt by (apply Nat.ltb_lt; lia). rewrite Lt.
      unfold inv, done; cbn [kv applied busy own ready wapply lsave bld disk save_meta oapply].
      split; [auto |]. split; [| split; [discriminate | split; [discriminate | auto]]].
      intros o' E. injection E as <-. split; auto. rewrite Nat.max_id.
      repeat split; cbn [rows smeta]; auto.
      * apply pos_replay; auto. lia.
      * intros m E. injection E as <-. lia.
  - unfold inv, done; cbn [kv applied busy own ready wapply lsave bld disk].
    split; [lia |]. split; [discriminate |]. split; [discriminate |]. split; [discriminate |].
    intros o m E F.
    destruct (bld w) as [ob |] eqn:Bl.
    + specialize (B ob eq_refl). injection E as <-. destruct (oscan ob) eqn:Os.
      * destruct B as [L [P M]]. cbn [torn rows smeta] in *. specialize (M m F). split; [lia |].
        destruct (Nat.le_gt_cases (applied w) (oapply ob)) as [C | C].
        -- assert (entries log (S (oapply ob)) (Nat.min (oapply ob + n) (applied w)) = []) as Em.
           { unfold entries. replace (S (Nat.min (oapply ob + n) (applied w)) - S (oapply ob)) with 0 by lia.
             reflexivity. }
           rewrite Em. rewrite batches_same. cbn. eapply pos_down; eauto.
        -- eapply pos_down; [apply pos_replay with (a := oapply ob); eauto; lia | lia].
      * destruct B. congruence.
    + destruct (own w) as [oo |] eqn:Ow.
      * injection E as <-. destruct (O oo eq_refl) as [_ G]. eapply good_meta; eauto.
      * eauto.
Qed.

Lemma inv_run : forall s c log es w, 1 <= cgap c -> inv s log w ->
  whenever ESwitch idle c log w es -> whenever ESwitch not_one_behind c log w es ->
  (s = true -> whenever EScan (none_deleted log) c log w es) -> inv s log (run c log w es).
Proof.
  induction es as [| e es IH]; intros w CG I G1 G2 G3; cbn; auto.
  cbn in G1, G2. destruct G1 as [V1 G1]. destruct G2 as [V2 G2].
  apply IH; auto.
  - apply inv_act; auto. split; [split; [apply V1 | apply V2]; auto |]. intros S. apply (G3 S).
  - intros S. apply (G3 S).
Qed.

Lemma rest_ok : forall s log w id, inv s log w -> at_rest w ->
  okv s (found w) id (stored (firstn (applied w) log) id).
Proof.
  intros s log w id [D [O [R [B K]]]] [Rd [Bu E]].
  unfold found. destruct (own w) as [o |] eqn:Ow; [| exfalso; apply R; auto].
  destruct (O o eq_refl) as [_ [L [P M]]]. unfold done in *. rewrite Bu in *. rewrite E.
  apply P. intros j c J. lia.
Qed.

Lemma nothing_lost : forall c log es id v, 1 <= cgap c ->
  whenever ESwitch idle c log start es -> whenever ESwitch not_one_behind c log start es ->
  at_rest (run c log start es) ->
  stored (firstn (applied (run c log start es)) log) id = Some v ->
  In (id, v) (found (run c log start es)).
Proof.
  intros c log es id v CG G1 G2 A H.
  pose proof (rest_ok false log _ id
    (inv_run false c log es start CG (inv_start _ _) G1 G2 ltac:(discriminate)) A) as P.
  rewrite H in P. exact P.
Qed.

Lemma deleted_gone : forall c log es id, 1 <= cgap c ->
  whenever ESwitch idle c log start es -> whenever ESwitch not_one_behind c log start es ->
  whenever EScan (none_deleted log) c log start es -> at_rest (run c log start es) ->
  stored (firstn (applied (run c log start es)) log) id = None ->
  ~ In id (map fst (found (run c log start es))).
Proof.
  intros c log es id CG G1 G2 G3 A H.
  pose proof (rest_ok true log _ id
    (inv_run true c log es start CG (inv_start _ _) G1 G2 (fun _ => G3)) A) as P.
  rewrite H in P. exact (P eq_refl).
Qed.

(** * Exact under writes *)
Lemma filt_del : forall r l id, filter (fun d : doc => Z.eqb (fst d) id) (ix_del r l) =
  if mem id l then [] else filter (fun d : doc => Z.eqb (fst d) id) r.
Proof.
  induction r as [| d r IH]; intros; cbn.
  - destruct (mem id l); auto.
  - unfold ix_del in *. cbn. destruct (mem (fst d) l) eqn:M; cbn.
    + rewrite IH. destruct (mem id l) eqn:M'; auto.
      destruct (Z.eqb (fst d) id) eqn:E; auto. apply Z.eqb_eq in E. congruence.
    + rewrite IH. destruct (Z.eqb (fst d) id) eqn:E; auto. apply Z.eqb_eq in E. subst. rewrite M. auto.
Qed.

Lemma filt_none : forall (ds : list doc) id, ~ In id (map fst ds) -> filter (fun d : doc => Z.eqb (fst d) id) ds = [].
Proof.
  induction ds as [| d ds IH]; intros id H; cbn in *; auto.
  destruct (Z.eqb (fst d) id) eqn:E; auto. apply Z.eqb_eq in E. tauto.
Qed.

Lemma filt_one : forall (ds : list doc) id v, NoDup (map fst ds) -> In (id, v) ds ->
  filter (fun d : doc => Z.eqb (fst d) id) ds = [(id, v)].
Proof.
  induction ds as [| d ds IH]; intros id v N H; cbn in *; [contradiction |].
  inversion N as [| ? ? N1 N2]; subst. destruct H as [-> | H]; cbn in *.
  - rewrite Z.eqb_refl. f_equal. apply filt_none. auto.
  - destruct (Z.eqb (fst d) id) eqn:E; auto. apply Z.eqb_eq in E. exfalso. apply N1.
    rewrite E. apply in_map_iff. exists (id, v). auto.
Qed.

Lemma exact_step : forall log n x r, careful log -> nth_error log n = Some x ->
  exact r (firstn n log) -> exact (ix_apply r x) (firstn (S n) log).
Proof.
  intros log n x r C N H id. rewrite (firstn_snoc _ _ _ N), stored_snoc.
  specialize (H id). destruct x as [u ds | l |]; cbn [says].
  - destruct (C n u ds N) as [ND NU].
    destruct (find _ _) as [d |] eqn:F.
    + apply find_rev_in in F. rewrite <- (filt_one ds id (snd d)) by auto.
      assert (In id (map fst ds)) as Im by (apply in_map_iff; exists (id, snd d); auto).
      destruct u; cbn [ix_apply]; unfold ix_upsert, ix_add; rewrite filter_app.
      * rewrite filt_del. apply mem_in in Im. rewrite Im. auto.
      * specialize (NU eq_refl (id, snd d) F). cbn in NU. rewrite NU in H. rewrite H. auto.
    + apply find_rev_none in F. rewrite <- H.
      destruct u; cbn [ix_apply]; unfold ix_upsert, ix_add; rewrite filter_app, (filt_none ds), app_nil_r by auto; auto.
      rewrite filt_del. destruct (mem id (map fst ds)) eqn:M; auto. apply mem_in in M. contradiction.
  - cbn [ix_apply]. rewrite filt_del. destruct (mem id l); auto.
  - auto.
Qed.

Definition winv (log : list cmd) (w : world) : Prop :=
  ready w = true /\ own w <> None /\ wapply w <= done w /\ exact (found w) (firstn (done w) log).

Lemma winv_act : forall c log w e, careful log -> e = EHandle \/ e = EFinish -> winv log w ->
  winv log (act c log w e).
Proof.
  intros c log w e C [-> | ->] I; pose proof I as [R [O [W H]]]; cbn [act].
  - unfold handle. destruct (busy w) eqn:Bu; auto.
    destruct (nth_error log (applied w)) as [x |] eqn:N; auto.
    destruct (own w) as [o |] eqn:Ow; [| congruence].
    unfold done, found in *. rewrite Bu, Ow in *. rewrite R.
    assert (wapply w <? S (applied w) = true) as Lt by (apply Nat.ltb_lt; lia). rewrite Lt. cbn [andb].
    pose proof (exact_step log (applied w) x (rows o) C N H) as X.
    destruct (calls x) eqn:Cx.
    + unfold set_apply. cbn [lsave].
      destruct (gap c <? S (applied w) - lsave w); unfold winv, done, found; cbn;
        repeat split; auto; discriminate.
    + rewrite calls_not in X by auto. unfold winv, done, found; cbn. repeat split; auto; discriminate.
  - unfold finish. destruct (busy w) eqn:Bu; auto. unfold winv, done, found in *. rewrite Bu in *. cbn. auto.
Qed.

Lemma exact_run : forall c log es w, careful log -> only_writes es ->
  ready w = true -> busy w = false -> wapply w <= applied w -> own w <> None ->
  exact (found w) (firstn (applied w) log) -> busy (run c log w es) = false ->
  exact (found (run c log w es)) (firstn (applied (run c log w es)) log).
Proof.
  intros c log es w C OW R Bu W O H Bf.
  assert (winv log w) as I by (unfold winv, done; rewrite Bu; auto).
  clear R Bu W O H.
  assert (winv log (run c log w es)) as J.
  { clear Bf. revert w I. induction es as [| e es IH]; intros w I; cbn; auto.
    apply IH; [intros e' He'; apply OW; right; auto |].
    apply winv_act; auto. apply OW. left; auto. }
  destruct J as [_ [_ [_ X]]]. unfold done in X. rewrite Bf in X. auto.
Qed.
