(** From session objects to session ids; proofs. *)
From Coq Require Import ZArith List Bool Lia Sorted PeanoNat.
From Verif Require Import Bytes Outcome CodecModel CodecSpec MvccModel MvccSpec MvccProofs SessModel SessSpec SessProofs SessInv SessStep SessStep2 SessLive.
Import ListNotations.
Open Scope Z_scope.

Lemma once_eq {A} (f : A -> bool) l x y : (length (filter f l) <= 1)%nat -> In x l -> In y l -> f x = true -> f y = true -> x = y.
Proof.
  intros L X Y FX FY. assert (HX : In x (filter f l)) by (apply filter_In; auto).
  assert (HY : In y (filter f l)) by (apply filter_In; auto).
  destruct (filter f l) as [|a [|b r]]; cbn in *; [tauto| |lia]. destruct HX as [<-|[]], HY as [<-|[]]. auto.
Qed.

Lemma same_session g own s t p b st page : inv g own s -> In (t, EBegin p b st page) (s_log s) ->
  begun_once (b_id b) (s_log s) ->
  own p = b_id b /\
  forall te, In te (s_log s) -> is_use (b_id b) te = use_at p te /\ delivered_by (b_id b) (snd te) = given_by p (snd te).
Proof.
  intros I H O. destruct (i_log _ _ _ I _ _ p H eq_refl) as [OP _]. cbn in OP. split; auto.
  assert (BQ : forall t' q b' st' page', In (t', EBegin q b' st' page') (s_log s) -> b_id b' = b_id b -> q = p).
  { intros t' q b' st' page' H' E. assert (X : (t', EBegin q b' st' page') = (t, EBegin p b st page)); [|congruence].
    apply (once_eq (is_begin (b_id b)) (s_log s)); auto; unfold is_begin; cbn; apply Z.eqb_eq; auto. }
  assert (UQ : forall te q, In te (s_log s) -> use_at q te = true -> own q = b_id b -> q = p).
  { intros te q HT U OQ. assert (T : touches q (snd te)).
    { unfold use_at in U. destruct (snd te); try discriminate; apply Nat.eqb_eq in U; subst; reflexivity. }
    destruct te as [tt e]. destruct (i_log _ _ _ I _ _ q HT T) as [_ L]. apply nth_error_Some in L.
    destruct (nth_error (s_heap s) q) as [c|] eqn:E; [|congruence].
    destruct (i_sess _ _ _ I _ _ E) as [(_ & _ & _ & X)|(t0 & b0 & st0 & page0 & vs & l & rem & it & X & _)].
    - assert (Y : In (tt, e) (filter (use_at q) (s_log s))) by (apply filter_In; auto). rewrite X in Y. destruct Y.
    - assert (Y : In (t0, EBegin q b0 st0 page0) (s_log s)).
      { assert (Z : In (t0, EBegin q b0 st0 page0) (filter (begin_at q) (s_log s))) by (rewrite X; cbn; auto).
        apply filter_In in Z. tauto. }
      eapply BQ; eauto. destruct (i_log _ _ _ I _ _ q Y eq_refl) as [Z _]. cbn in Z. congruence. }
  intros [tt e] HT. unfold is_use, use_at, delivered_by, given_by; cbn. destruct e as [q b' st' page'|q i max page' more| |]; auto.
  - destruct (i_log _ _ _ I _ _ q HT eq_refl) as [OQ _]. cbn in OQ.
    destruct (b_id b' =? b_id b) eqn:E, (Nat.eqb q p) eqn:Q; auto; exfalso.
    + apply Z.eqb_eq in E. apply Nat.eqb_neq in Q. apply Q. eapply BQ; eauto.
    + apply Nat.eqb_eq in Q. apply Z.eqb_neq in E. subst q. congruence.
  - destruct (i_log _ _ _ I _ _ q HT eq_refl) as [OQ _]. cbn in OQ.
    destruct (i =? b_id b) eqn:E, (Nat.eqb q p) eqn:Q; auto; exfalso.
    + apply Z.eqb_eq in E. apply Nat.eqb_neq in Q. apply Q. apply (UQ _ _ HT); [|congruence]. unfold use_at; cbn. apply Nat.eqb_refl.
    + apply Nat.eqb_eq in Q. apply Z.eqb_neq in E. subst q. congruence.
Qed.

Lemma flat_map_ext_in {A B} (f h : A -> list B) l : (forall a, In a l -> f a = h a) -> flat_map f l = flat_map h l.
Proof. induction l as [|a l IH]; intros H; cbn; auto. rewrite H by (cbn; auto). rewrite IH; auto. intros; apply H; cbn; auto. Qed.

Lemma filter_ext_in' {A} (f h : A -> bool) l : (forall a, In a l -> f a = h a) -> filter f l = filter h l.
Proof. induction l as [|a l IH]; intros H; cbn; auto. rewrite H by (cbn; auto). rewrite IH; auto. intros; apply H; cbn; auto. Qed.

Lemma inv_pages g own s t p b st page : inv g own s -> In (t, EBegin p b st page) (s_log s) ->
  begun_once (b_id b) (s_log s) ->
  exists vs l rest, represents st vs /\ snapshot_of vs (b_ts b) t (b_start b) (b_end b) l /\
    map (reported (b_key_only b)) l = delivered (b_id b) (s_log s) ++ rest /\
    (told_the_end (b_id b) (s_log s) -> rest = []).
Proof.
  intros I H O. destruct (same_session _ _ _ _ _ _ _ _ I H O) as (OP & SS).
  destruct (i_log _ _ _ I _ _ p H eq_refl) as [_ L]. apply nth_error_Some in L.
  destruct (nth_error (s_heap s) p) as [c|] eqn:E; [|congruence].
  destruct (i_sess _ _ _ I _ _ E) as [(_ & X & _)|(t0 & b0 & st0 & page0 & vs & l & rem & it & S1 & S2 & S3 & S4 & S5 & S6 & S7 & S8 & S9 & S10 & S11 & _)].
  - exfalso. assert (Y : In (t, EBegin p b st page) (filter (begin_at p) (s_log s))).
    { apply filter_In. split; auto. unfold begin_at; cbn. apply Nat.eqb_refl. }
    rewrite X in Y. destruct Y.
  - assert (Y : In (t, EBegin p b st page) (filter (begin_at p) (s_log s))).
    { apply filter_In. split; auto. unfold begin_at; cbn. apply Nat.eqb_refl. }
    rewrite S1 in Y. destruct Y as [Y|[]]. injection Y as -> -> -> ->.
    exists vs, l, (map (reported (b_key_only b)) rem). split; auto. split; auto. split.
    + rewrite S10. f_equal. unfold given, delivered. apply flat_map_ext_in. intros te HT. symmetry. apply SS; auto.
    + intros (t' & q & max & pg & more & HT & D). rewrite S11; auto. exists t', (b_id b), max, pg, more. split; auto.
      assert (Q : q = p); [|congruence].
      destruct (SS _ HT) as [U _]. unfold is_use, use_at in U. cbn in U. rewrite Z.eqb_refl in U. symmetry in U. apply Nat.eqb_eq in U. auto.
Qed.

Lemma session_pages g t0 st0 acts s : 0 < c_count g < 2 ^ 63 -> store_ok st0 -> Forall action_ok acts ->
  run g (init t0 st0) acts = Some s ->
  forall t p b st page, In (t, EBegin p b st page) (s_log s) -> begun_once (b_id b) (s_log s) ->
  exists vs l rest, represents st vs /\ snapshot_of vs (b_ts b) t (b_start b) (b_end b) l /\
    map (reported (b_key_only b)) l = delivered (b_id b) (s_log s) ++ rest /\
    (told_the_end (b_id b) (s_log s) -> rest = []).
Proof.
  intros G ST F R t p b st page H O.
  destruct (inv_run g acts G F _ _ _ (init_inv g t0 st0 ST) R) as (own & I). eapply inv_pages; eauto.
Qed.

Lemma count_limit_page max server : max <> 0 -> int64 max -> 0 < server < 2 ^ 63 -> count_limit max server = page_limit max server.
Proof.
  intros N M S. unfold int64 in M. unfold count_limit, page_limit. destruct (0 <? max) eqn:E.
  - apply Z.ltb_lt in E. apply Z.mod_small. lia.
  - apply Z.ltb_ge in E. rewrite Z.min_l by lia. rewrite <- (Z_mod_plus_full max 1). rewrite Z.mod_small; lia.
Qed.

(** the page sizes asked for are those of the requests *)
Definition event_sane (e : event) : Prop := match e with EPage _ _ max _ _ => max <> 0 /\ int64 max | _ => True end.

Lemma step_log g own s a s' : ask_ok g -> inv g own s -> step g s a = Some s' ->
  s_log s' = s_log s \/ exists e, s_log s' = s_log s ++ [(s_now s, e)] /\ event_sane e.
Proof.
  intros G I. unfold step. rewrite (i_dead _ _ _ I).
  assert (OK : forall e (s1 : state), s_log s1 = s_log s ++ [(s_now s, e)] -> event_sane e -> Some s1 = Some s' ->
     s_log s' = s_log s \/ exists e, s_log s' = s_log s ++ [(s_now s, e)] /\ event_sane e).
  { intros e s1 H1 H2 H; injection H as <-. right. eauto. }
  assert (NO : forall (s1 : state), s_log s1 = s_log s -> Some s1 = Some s' ->
     s_log s' = s_log s \/ exists e, s_log s' = s_log s ++ [(s_now s, e)] /\ event_sane e).
  { intros s1 H1 H; injection H as <-. left. auto. }
  assert (FL : forall tid id h, Some (fail tid id (with_heap h s)) = Some s' -> s_log s' = s_log s \/ exists e, s_log s' = s_log s ++ [(s_now s, e)] /\ event_sane e).
  { intros tid id h. apply (OK (EFailed id)); [reflexivity|exact Logic.I]. }
  assert (FL0 : forall tid id, Some (fail tid id s) = Some s' -> s_log s' = s_log s \/ exists e, s_log s' = s_log s ++ [(s_now s, e)] /\ event_sane e).
  { intros tid id. apply (OK (EFailed id)); [reflexivity|exact Logic.I]. }
  destruct a as [r|tid busy|busy|t|st]; try (apply NO; reflexivity).
  - destruct (nth_error (s_reqs s) tid) as [k|] eqn:K; [|discriminate].
    pose proof (i_req _ _ _ I) as R. rewrite Forall_forall in R. pose proof (R _ (nth_error_In _ _ K)) as RK.
    destruct k; cbn [go].
    + destruct (find_scan _ _); [apply (OK (EFailed (b_id b))); [reflexivity|exact Logic.I]|apply NO; reflexivity].
    + destruct (nth_error (s_heap s) _) as [c|]; [|discriminate]. destruct (x_state c); try apply FL. apply NO; reflexivity.
    + destruct (nth_error (s_heap s) _) as [c|]; [|discriminate]. unfold do_begin.
      destruct (bad_range b); [apply FL0|]. destruct (x_state c); try apply FL.
      destruct (first_page _ _ _ _) as [[[pg m] it]|]; [|apply NO; reflexivity].
      apply (OK (EBegin p b (s_store s) pg)); [reflexivity|exact Logic.I].
    + destruct (max =? 0); [apply (OK (EFailed id)); [reflexivity|exact Logic.I]|].
      destruct (find_scan _ _); [apply NO; reflexivity|apply (OK (EFailed id)); [reflexivity|exact Logic.I]].
    + destruct (nth_error (s_heap s) _) as [c|]; [|discriminate]. unfold do_continue.
      destruct (negb _); [apply FL0|]. destruct (max =? 0) eqn:M; [apply FL0|]. apply Z.eqb_neq in M.
      assert (D : forall it, Some match fetch (S (length (snd it))) (count_limit max (c_count g)) (c_bytes g)
                (x_key_only c) (x_ts c) (x_now c) 0 0 it with
        | Crash => kill s
        | Ok (page, more, it') =>
            emit (EPage p id max page more) (set_pc tid PDone (on_ctx p (set_continued it' (s_now s)) s))
        end = Some s' -> s_log s' = s_log s \/ exists e, s_log s' = s_log s ++ [(s_now s, e)] /\ event_sane e).
      { intros it. destruct (fetch _ _ _ _ _ _ _ _ it) as [[[pg m] it']|]; [|apply NO; reflexivity].
        apply (OK (EPage p id max pg m)); [reflexivity|]. cbn. split; auto. apply RK. }
      destruct (x_state c), (x_it c) as [it|]; try apply FL; apply D.
    + destruct (find_scan _ _); [apply NO; reflexivity|apply (OK (EFailed id)); [reflexivity|exact Logic.I]].
    + destruct (nth_error (s_heap s) _) as [c|]; [|discriminate]. unfold do_release. destruct (negb _); [apply FL0|].
      destruct (x_state c); try apply FL; apply (OK (EReleased p id)); try reflexivity; exact Logic.I.
    + destruct busy; [apply NO; reflexivity|]. destruct (find_scan _ _); [|apply NO; reflexivity].
      destruct (nth_error (s_heap s) _) as [c|]; [|discriminate]. destruct (recyclable _ _ _); apply NO; reflexivity.
    + apply NO; reflexivity.
    + discriminate.
  - destruct (clean _ _ _ _ _) as [a' h']. apply NO; reflexivity.
Qed.

Lemma run_sane g acts : ask_ok g -> Forall action_ok acts -> forall own s s', inv g own s ->
  (forall t e, In (t, e) (s_log s) -> event_sane e) -> run g s acts = Some s' ->
  forall t e, In (t, e) (s_log s') -> event_sane e.
Proof.
  intros G. induction acts as [|a acts IH]; intros F own s s' I SN H; cbn [run] in H.
  - injection H as <-. auto.
  - inversion F; subst. destruct (step g s a) as [s1|] eqn:E; [|discriminate].
    destruct (inv_step _ _ _ _ _ G I ltac:(eassumption) E) as (own1 & I1 & _).
    apply (IH ltac:(eassumption) own1 s1 s'); auto.
    destruct (step_log _ _ _ _ _ G I E) as [->|(e & -> & X)]; auto.
    intros t e' Y. apply in_app_or in Y. destruct Y as [Y|[Y|[]]]; eauto. injection Y as <- <-. auto.
Qed.

Lemma page_limits g t0 st0 acts s : 0 < c_count g < 2 ^ 63 -> store_ok st0 -> Forall action_ok acts ->
  run g (init t0 st0) acts = Some s ->
  (forall t p b st page, In (t, EBegin p b st page) (s_log s) ->
     if 0 <? b_max b then page_fits (page_limit (b_max b) (c_count g)) (c_bytes g) page else page = []) /\
  (forall t p id max page more, In (t, EPage p id max page more) (s_log s) ->
     page_fits (page_limit max (c_count g)) (c_bytes g) page /\
     (more = true -> page_full (page_limit max (c_count g)) (c_bytes g) page)).
Proof.
  intros G ST F R. destruct (inv_run g acts G F _ _ _ (init_inv g t0 st0 ST) R) as (own & I). split.
  - intros t p b st page H. pose proof (i_pages _ _ _ I _ _ H) as X. cbn in X. unfold page_limit.
    destruct (0 <? b_max b); auto.
  - intros t p id max page more H. pose proof (i_pages _ _ _ I _ _ H) as X. cbn in X.
    assert (SN : event_sane (EPage p id max page more)).
    { eapply (run_sane g acts G F _ _ _ (init_inv g t0 st0 ST)); eauto. intros ? ? []. }
    destruct SN as [N M]. rewrite <- count_limit_page; auto.
Qed.

Lemma never_dead g t0 st0 acts s : 0 < c_count g < 2 ^ 63 -> store_ok st0 -> Forall action_ok acts ->
  run g (init t0 st0) acts = Some s -> s_dead s = false.
Proof. intros G ST F R. destruct (inv_run g acts G F _ _ _ (init_inv g t0 st0 ST) R) as (own & I). apply (i_dead _ _ _ I). Qed.

(** ** Survival *)

Lemma nth_error_snoc {A} (l : list A) x : nth_error (l ++ [x]) (length l) = Some x.
Proof. rewrite nth_error_app2 by auto. rewrite Nat.sub_diag. reflexivity. Qed.

Lemma upd_snoc {A} (l : list A) x f : upd (l ++ [x]) (length l) f = l ++ [f x].
Proof. induction l; cbn; auto. rewrite IHl. auto. Qed.

Lemma session_survives g t0 st0 acts s : 0 < c_count g < 2 ^ 63 -> store_ok st0 -> Forall action_ok acts ->
  clock_forward t0 acts -> run g (init t0 st0) acts = Some s ->
  forall t p b st page max, In (t, EBegin p b st page) (s_log s) -> begun_once (b_id b) (s_log s) ->
  ~ failed (b_id b) (s_log s) -> ~ released (b_id b) (s_log s) ->
  used_within (c_timeout g) (uses (b_id b) (s_log s)) (s_now s) ->
  max <> 0 -> int64 max ->
  exists s' pg more,
    run g s [Arrive (RContinue (b_id b) max); Go (length (s_reqs s)) false; Go (length (s_reqs s)) false] = Some s' /\
    s_log s' = s_log s ++ [(s_now s, EPage p (b_id b) max pg more)].
Proof.
  intros G ST F CF R t p b st page max H O NF NR UW M0 MI.
  destruct (active_run g acts G F _ _ _ (init_inv g t0 st0 ST) (init_active _ _ _ _) CF R) as (own & I & A).
  destruct (same_session _ _ _ _ _ _ _ _ I H O) as (OP & SS).
  destruct (i_log _ _ _ I _ _ p H eq_refl) as [_ L]. apply nth_error_Some in L.
  destruct (nth_error (s_heap s) p) as [c|] eqn:E; [|congruence].
  assert (BN : filter (begin_at p) (s_log s) <> []).
  { intros X. assert (Y : In (t, EBegin p b st page) (filter (begin_at p) (s_log s))).
    { apply filter_In. split; auto. unfold begin_at; cbn. apply Nat.eqb_refl. } rewrite X in Y. destruct Y. }
  destruct (A p c E BN) as [RN _]; try (rewrite OP; auto; fail).
  { replace (uses_at p (s_log s)) with (uses (b_id b) (s_log s)); auto. unfold uses, uses_at. f_equal.
    apply filter_ext_in'. intros te HT. apply SS; auto. }
  assert (NG : ~ gone c) by (intros [X|X]; destruct RN as [Y|Y]; congruence).
  destruct (i_keep _ _ _ I _ _ E NG) as [AL|X]; [|rewrite OP in X; tauto]. rewrite OP in AL.
  pose proof (find_scan_uniq _ _ _ (i_nodup _ _ _ I) AL) as FS.
  destruct (i_begun _ _ _ I _ _ E RN) as [XT XD].
  destruct (i_sess _ _ _ I _ _ E) as [(S1 & _)|(t1 & b1 & st1 & page1 & vs & l & rem & it & S1 & S2 & S3 & S4 & S5 & S6 & S7 & S8 & S9 & S10 & _)]; [congruence|].
  destruct (fetch_ok (count_limit max (c_count g)) (c_bytes g) (x_key_only c) (read_ts (b_ts b1)) t1 (S (length (snd it))) 0 0 it rem S9)
    as (pg & more & it' & rem' & FE & _); [lia|split; [lia|apply count_limit_pos; auto]|].
  cbn [run]. unfold step. rewrite (i_dead _ _ _ I).
  cbn [s_dead s_reqs with_reqs]. rewrite (i_dead _ _ _ I), nth_error_snoc. cbn [start go].
  destruct (max =? 0) eqn:Z0; [apply Z.eqb_eq in Z0; tauto|].
  cbn [s_alive with_reqs]. rewrite FS. cbn [set_pc with_reqs s_dead s_reqs]. rewrite (i_dead _ _ _ I), upd_snoc, nth_error_snoc.
  cbv beta. cbn [go set_pc with_reqs s_heap]. unfold set_pc. cbn [with_reqs s_heap]. rewrite E. unfold do_continue.
  assert (IS : is_scan_id c (b_id b) = true) by (unfold is_scan_id; rewrite XD, OP; apply Z.eqb_refl).
  rewrite IS, Z0. cbn [negb]. rewrite S4, S5, S6.
  destruct RN as [X|X]; rewrite X, FE; do 3 eexists; (split; [reflexivity|]); reflexivity.
Qed.

(** ** Cleaning *)

Lemma cleaning_keeps_recent g t0 st0 acts s s' : 0 < c_count g < 2 ^ 63 -> store_ok st0 -> Forall action_ok acts ->
  run g (init t0 st0) acts = Some s -> quiet s -> step g s (Clean []) = Some s' ->
  forall id p, find_scan id (s_alive s') = Some p ->
  (exists t e, In (t, e) (s_log s) /\ of_session id e /\ s_now s - t < c_timeout g) /\
  (forall t b st page, In (t, EBegin p b st page) (s_log s) -> b_no_auto b = false ->
     forall t', ~ In (t', EReleased p id) (s_log s)).
Proof.
  intros G ST F R Q H id p FS. destruct (inv_run g acts G F _ _ _ (init_inv g t0 st0 ST) R) as (own & I).
  unfold step in H. rewrite (i_dead _ _ _ I) in H.
  destruct (clean g (s_now s) [] (s_alive s) (s_heap s)) as [a' h'] eqn:C. injection H as <-.
  cbn [s_alive with_alive] in FS. apply find_scan_In in FS.
  destruct (clean_facts _ _ _ _ _ _ _ C) as (H1 & H2 & H3 & H4 & H5 & H6).
  pose proof (H3 _ FS) as AL. destruct (i_alive _ _ _ I _ _ AL) as [OP L]. apply nth_error_Some in L.
  destruct (nth_error (s_heap s) p) as [c|] eqn:E; [|congruence].
  pose proof (H6 _ _ _ FS (fun x => x) E) as NR.
  assert (NG : ~ gone c /\ s_now s - x_last c < c_timeout g).
  { unfold recyclable in NR. unfold gone. destruct (x_state c); try discriminate; apply Z.leb_gt in NR;
      (split; [intros [X|X]; discriminate|lia]). }
  destruct NG as [NG LT].
  assert (BN : filter (begin_at p) (s_log s) <> []).
  { unfold quiet in Q. rewrite Forall_forall in Q.
    destruct (i_open _ _ _ I _ _ AL) as [X|[(b & [X|X])|X]]; auto; apply Q in X; discriminate. }
  destruct (i_sess _ _ _ I _ _ E) as [(_ & S1 & _)|(t1 & b1 & st1 & page1 & vs & l & rem & it & S1 & S2 & S3 & S4 & S5 & S6 & S7 & S8 & S9 & S10 & S11 & S12 & S13 & (e & S14 & S15))]; [congruence|].
  split.
  - exists (x_last c), e. split; auto. split; auto. destruct (i_log _ _ _ I _ _ p S14 S15) as [X _].
    rewrite OP in X. destruct e; cbn in *; auto.
  - intros t b st page HB NA t' HR. destruct (i_rel _ _ _ I _ _ _ _ HR E) as [_ [X|(_ & X)]]; [tauto|].
    assert (Y : In (t, EBegin p b st page) (filter (begin_at p) (s_log s))).
    { apply filter_In. split; auto. unfold begin_at; cbn. apply Nat.eqb_refl. }
    rewrite S1 in Y. destruct Y as [Y|[]]. injection Y as -> -> -> ->. congruence.
Qed.

Lemma released_removed g t0 st0 acts s s' : 0 < c_count g < 2 ^ 63 -> store_ok st0 -> Forall action_ok acts ->
  run g (init t0 st0) acts = Some s -> quiet s -> step g s (Clean []) = Some s' ->
  forall t p b st page, In (t, EBegin p b st page) (s_log s) -> begun_once (b_id b) (s_log s) ->
  b_no_auto b = false -> released (b_id b) (s_log s) -> find_scan (b_id b) (s_alive s') = None.
Proof.
  intros G ST F R Q H t p b st page HB O NA (t' & q & HR).
  destruct (find_scan (b_id b) (s_alive s')) as [r|] eqn:FS; auto. exfalso.
  pose proof (cleaning_keeps_recent _ _ _ _ _ _ G ST F R Q H _ _ FS) as [_ K].
  destruct (inv_run g acts G F _ _ _ (init_inv g t0 st0 ST) R) as (own & I).
  (* an object that has delivered is the one begun *)
  assert (BQ : forall q c, nth_error (s_heap s) q = Some c -> own q = b_id b -> filter (begin_at q) (s_log s) <> [] -> q = p).
  { intros q' c E OQ BN. destruct (filter (begin_at q') (s_log s)) as [|[t1 e1] r'] eqn:FB; [congruence|].
    assert (Y : In (t1, e1) (filter (begin_at q') (s_log s))) by (rewrite FB; cbn; auto).
    apply filter_In in Y. destruct Y as [Y1 Y2]. unfold begin_at in Y2. cbn in Y2.
    destruct e1 as [q1 b1 st1 page1| | |]; try discriminate. apply Nat.eqb_eq in Y2. subst q1.
    destruct (i_log _ _ _ I _ _ q' Y1 eq_refl) as [Z _]. cbn in Z.
    assert (X : (t1, EBegin q' b1 st1 page1) = (t, EBegin p b st page)); [|congruence].
    apply (once_eq (is_begin (b_id b)) (s_log s)); auto; unfold is_begin; cbn; apply Z.eqb_eq; congruence. }
  assert (Q1 : q = p).
  { destruct (i_log _ _ _ I _ _ q HR eq_refl) as [OQ L]. cbn in OQ. apply nth_error_Some in L.
    destruct (nth_error (s_heap s) q) as [c|] eqn:E; [|congruence].
    destruct (i_rel _ _ _ I _ _ _ _ HR E) as [XT _]. eapply BQ; eauto.
    destruct (i_sess _ _ _ I _ _ E) as [(S0 & _)|(t1 & b1 & st1 & page1 & vs & l & rem & it & S1 & _)]; [congruence|].
    rewrite S1. discriminate. }
  assert (R1 : r = p).
  { unfold step in H. rewrite (i_dead _ _ _ I) in H.
    destruct (clean g (s_now s) [] (s_alive s) (s_heap s)) as [a' h'] eqn:C. injection H as <-.
    cbn [s_alive with_alive] in FS. apply find_scan_In in FS.
    destruct (clean_facts _ _ _ _ _ _ _ C) as (_ & _ & H3 & _). pose proof (H3 _ FS) as AL.
    destruct (i_alive _ _ _ I _ _ AL) as [OP L]. apply nth_error_Some in L.
    destruct (nth_error (s_heap s) r) as [c|] eqn:E; [|congruence]. eapply BQ; eauto.
    unfold quiet in Q. rewrite Forall_forall in Q.
    destruct (i_open _ _ _ I _ _ AL) as [X|[(b' & [X|X])|X]]; auto; apply Q in X; discriminate. }
  subst q r. eapply K; eauto.
Qed.
