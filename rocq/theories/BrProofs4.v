(** Files, the tool's threads, region shapes, registration and garbage collection. *)
From Coq Require Import ZArith List Bool Lia.
From Verif Require Import Bytes SMap Outcome TxnModel TxnSpec TxnBase TxnReadModel TxnReadSpec BrModel BrSpec BrProofs BrProofs3.
Import ListNotations.
Open Scope Z_scope.

(** * Files *)
Lemma altered_refused sum cfs decode d files env s n cf c :
  In (n, cf, c) files -> d n <> File c -> (forall c', d n = File c' -> sum c' = sum c -> c' = c) ->
  restore_request sum cfs decode d (metas_of sum files) env s = (s, EBACKUP).
Proof.
  intros I ND NC. unfold restore_request. assert (E : valid_files sum cfs d (metas_of sum files) = false); [|rewrite E; auto].
  rewrite <- not_true_iff_false. intros V. unfold valid_files in V. rewrite forallb_forall in V.
  specialize (V (describe sum n cf c)). assert (IM : In (describe sum n cf c) (metas_of sum files)).
  { unfold metas_of. apply in_map_iff. exists (n, cf, c). auto. }
  specialize (V IM). unfold valid_file in V. simpl in V. destruct (d n) as [| |c'] eqn:D; try discriminate.
  rewrite !andb_true_iff in V. destruct V as [_ V]. apply beqb_true in V. apply ND. rewrite (NC c'); auto.
Qed.

Lemma intact_passes sum cfs decode d files env s :
  (forall f, In f files -> intact d f /\ In (snd (fst f)) cfs) ->
  restore_request sum cfs decode d (metas_of sum files) env s =
  match decode (map snd files) with
  | Some bs => read_and_restore true bs env s
  | None => read_and_restore false [] env s
  end.
Proof.
  intros H. unfold restore_request. assert (E : valid_files sum cfs d (metas_of sum files) = true).
  { unfold valid_files, metas_of. rewrite forallb_forall. intros m I. apply in_map_iff in I. destruct I as (f & <- & I).
    destruct (H f I) as [A B]. unfold valid_file. simpl. unfold intact in A. rewrite A. rewrite Z.eqb_refl. cbn [andb].
    rewrite andb_true_iff. split; [|apply beqb_iff; auto]. apply existsb_exists. exists (snd (fst f)). split; auto. apply beqb_iff. auto. }
  rewrite E. assert (M : map (fun m => match d (m_name m) with File c => c | _ => [] end) (metas_of sum files) = map snd files).
  { unfold metas_of. rewrite map_map. apply map_ext_in. intros f I. simpl. destruct (H f I) as [A _]. unfold intact in A. rewrite A. auto. }
  rewrite M. auto.
Qed.

Lemma accepted_intact sum cfs decode d files env s s1 :
  (forall f c', In f files -> d (fst (fst f)) = File c' -> sum c' = sum (snd f) -> c' = snd f) ->
  restore_request sum cfs decode d (metas_of sum files) env s = (s1, 0) ->
  forall f, In f files -> intact d f.
Proof.
  intros NC E [[n cf] c] I. unfold intact. simpl.
  assert (X : d n = File c \/ d n <> File c).
  { destruct (d n) as [| |c'] eqn:D; [right; discriminate|right; discriminate|]. destruct (bytes_eq_dec c' c); [left; congruence|right; congruence]. }
  destruct X as [X|X]; auto. exfalso.
  rewrite (altered_refused sum cfs decode d files env s n cf c I X) in E; [|intros c' D S; apply (NC (n, cf, c) c' I D S)].
  discriminate.
Qed.

(** * The threads of the tool *)
Record linv (jobs : list (list Z)) (hist : list lev) (s : tool) : Prop := mkLinv {
  w_len : length (l_thr s) = length jobs;
  w_cover : forall i j t r, nth_error jobs i = Some j -> nth_error (l_thr s) i = Some t -> In r j ->
     In r (l_saved s) \/ In r (t_todo t) \/ t_pc t = PSent r \/ l_exit s = true;
  w_left : forall i t, nth_error (l_thr s) i = Some t -> l_exit s = false ->
     match t_pc t with PLoop | PSent _ => True | _ => t_todo t = [] end;
  w_exit : l_exit s = true -> exists t, In (LAnswer t false) hist;
  w_ret : forall b, l_ret s = Some b -> l_exit s = false -> b = true /\ forall r, In r (concat jobs) -> In r (l_saved s);
  w_sound : forall r, In r (l_saved s) -> In r (concat jobs);
  w_sent : forall i t r, nth_error (l_thr s) i = Some t -> (In r (t_todo t) \/ t_pc t = PSent r) -> In r (concat jobs) }.

Lemma in_concat_nth {A} (ls : list (list A)) r : In r (concat ls) <-> exists i j, nth_error ls i = Some j /\ In r j.
Proof.
  rewrite in_concat. split.
  - intros (j & I & R). apply In_nth_error in I. destruct I as (i & E). exists i, j. auto.
  - intros (i & j & E & R). exists j. split; auto. eapply nth_error_In; eauto.
Qed.

Lemma linv_init jobs : linv jobs [] (init_tool jobs).
Proof.
  constructor; simpl; try discriminate; try (intros; contradiction).
  - apply map_length.
  - intros i j t r J T I. rewrite nth_error_map in T. rewrite J in T. simpl in T. injection T as <-. simpl. auto.
  - intros i t T _. rewrite nth_error_map in T. destruct (nth_error jobs i); [|discriminate]. simpl in T. injection T as <-. simpl. auto.
  - intros i t r T D. rewrite nth_error_map in T. destruct (nth_error jobs i) as [j|] eqn:J; [|discriminate]. simpl in T. injection T as <-.
    simpl in D. destruct D as [D|D]; [|discriminate]. apply in_concat_nth. exists i, j. auto.
Qed.
Lemma length_upd {A} (l : list A) : forall n x, length (upd l n x) = length l.
Proof. induction l; intros [|n] x; simpl; auto. Qed.

Lemma linv_step jobs hist s e s1 : linv jobs hist s -> lstep s e = Some s1 -> linv jobs (hist ++ [e]) s1.
Proof.
  intros [LN CV LF EX RT SO SE] E. destruct s as [ts ex er sv dn tot rt]. cbn [l_thr l_exit l_err l_saved l_done l_total l_ret] in *.
  assert (EX' : ex = true -> exists t, In (LAnswer t false) (hist ++ [e])).
  { intros X. destruct (EX X) as (t & I). exists t. apply in_app_iff. auto. }
  destruct e as [i|i ok|i|i|]; cbn [lstep] in E.
  - destruct (nth_error ts i) as [[todo pc0]|] eqn:T; [|discriminate]. destruct pc0; try discriminate.
    destruct todo as [|r0 rest].
    + injection E as <-. constructor; cbn [l_thr l_exit l_err l_saved l_done l_total l_ret]; auto.
      * rewrite length_upd. auto.
      * intros n j t r J H I. rewrite nth_upd, T in H. destruct (Nat.eq_dec i n) as [<-|N]; [|eapply CV; eauto].
        injection H as <-. destruct (CV _ _ _ _ J T I) as [A|[A|[A|A]]]; simpl in *; auto. discriminate.
      * intros n t H X. rewrite nth_upd, T in H. destruct (Nat.eq_dec i n) as [<-|N]; [|eapply LF; eauto]. injection H as <-. simpl. auto.
      * intros n t r H D. rewrite nth_upd, T in H. destruct (Nat.eq_dec i n) as [<-|N]; [|eapply SE; eauto]. injection H as <-. simpl in D. destruct D as [[]|D]; discriminate.
    + destruct ex eqn:X; injection E as <-; constructor; cbn [l_thr l_exit l_err l_saved l_done l_total l_ret]; auto.
      * rewrite length_upd. auto.
      * discriminate.
      * intros n t r H D. rewrite nth_upd, T in H. destruct (Nat.eq_dec i n) as [<-|N]; [|eapply SE; eauto]. injection H as <-. simpl in D.
        destruct D as [D|D]; [|discriminate]. apply (SE _ _ r T). left. auto.
      * rewrite length_upd. auto.
      * intros n j t r J H I. rewrite nth_upd, T in H. destruct (Nat.eq_dec i n) as [<-|N]; [|eapply CV; eauto].
        injection H as <-. destruct (CV _ _ _ _ J T I) as [A|[A|[A|A]]]; simpl in *; auto; try discriminate.
        destruct A as [->|A]; auto.
      * intros n t H Y. rewrite nth_upd, T in H. destruct (Nat.eq_dec i n) as [<-|N]; [|eapply LF; eauto]. injection H as <-. simpl. auto.
      * intros n t r H D. rewrite nth_upd, T in H. destruct (Nat.eq_dec i n) as [<-|N]; [|eapply SE; eauto]. injection H as <-. simpl in D.
        apply (SE _ _ r T). left. simpl. destruct D as [D|D]; [auto|]. injection D as ->. auto.
  - destruct (nth_error ts i) as [[todo pc0]|] eqn:T; [|discriminate]. destruct pc0 as [|r0| | |]; try discriminate.
    destruct ok; injection E as <-; constructor; cbn [l_thr l_exit l_err l_saved l_done l_total l_ret]; auto.
    + rewrite length_upd. auto.
    + intros n j t r J H I. rewrite nth_upd, T in H. destruct (Nat.eq_dec i n) as [<-|N].
      * injection H as <-. destruct (CV _ _ _ _ J T I) as [A|[A|[A|A]]]; simpl in *; auto. injection A as ->. auto.
      * destruct (CV _ _ _ _ J H I) as [A|A]; auto. left. right. auto.
    + intros n t H Y. rewrite nth_upd, T in H. destruct (Nat.eq_dec i n) as [<-|N]; [|eapply LF; eauto]. injection H as <-. simpl. auto.
    + intros b R Y. destruct (RT b R Y) as [A B]. split; auto. intros r I. right. auto.
    + intros r [<-|I]; [|auto]. apply (SE _ _ r0 T). right. auto.
    + intros n t r H D. rewrite nth_upd, T in H. destruct (Nat.eq_dec i n) as [<-|N]; [|eapply SE; eauto]. injection H as <-. simpl in D.
      apply (SE _ _ r T). left. simpl. destruct D; [auto|discriminate].
    + rewrite length_upd. auto.
    + discriminate.
    + intros _. exists i. apply in_app_iff. right. left. auto.
    + discriminate.
    + intros n t r H D. rewrite nth_upd, T in H. destruct (Nat.eq_dec i n) as [<-|N]; [|eapply SE; eauto]. injection H as <-. simpl in D.
      apply (SE _ _ r T). left. simpl. destruct D; [auto|discriminate].
  - destruct (nth_error ts i) as [[todo pc0]|] eqn:T; [|discriminate]. destruct pc0 as [| |ok| |]; try discriminate.
    injection E as <-. constructor; cbn [l_thr l_exit l_err l_saved l_done l_total l_ret]; auto.
    + rewrite length_upd. auto.
    + intros n j t r J H I. rewrite nth_upd, T in H. destruct (Nat.eq_dec i n) as [<-|N]; [|eapply CV; eauto].
      injection H as <-. destruct (CV _ _ _ _ J T I) as [A|[A|[A|A]]]; simpl in *; auto. discriminate.
    + intros n t H Y. rewrite nth_upd, T in H. destruct (Nat.eq_dec i n) as [<-|N]; [|eapply LF; eauto]. injection H as <-. simpl.
      apply (LF _ _ T Y).
    + intros n t r H D. rewrite nth_upd, T in H. destruct (Nat.eq_dec i n) as [<-|N]; [|eapply SE; eauto]. injection H as <-. simpl in D.
      apply (SE _ _ r T). left. simpl. destruct D; [auto|discriminate].
  - destruct (nth_error ts i) as [[todo pc0]|] eqn:T; [|discriminate]. destruct pc0 as [| | |ok|]; try discriminate.
    injection E as <-. constructor; cbn [l_thr l_exit l_err l_saved l_done l_total l_ret]; auto.
    + rewrite length_upd. auto.
    + intros n j t r J H I. rewrite nth_upd, T in H. destruct (Nat.eq_dec i n) as [<-|N]; [|eapply CV; eauto].
      injection H as <-. destruct (CV _ _ _ _ J T I) as [A|[A|[A|A]]]; simpl in *; auto. discriminate.
    + intros n t H Y. rewrite nth_upd, T in H. destruct (Nat.eq_dec i n) as [<-|N]; [|eapply LF; eauto]. injection H as <-. simpl.
      apply (LF _ _ T Y).
    + intros n t r H D. rewrite nth_upd, T in H. destruct (Nat.eq_dec i n) as [<-|N]; [|eapply SE; eauto]. injection H as <-. simpl in D.
      apply (SE _ _ r T). left. simpl. destruct D; [auto|discriminate].
  - destruct rt; [discriminate|]. destruct ((ex || (tot <=? dn)%nat) && forallb ended ts) eqn:G; [|discriminate]. injection E as <-.
    apply andb_true_iff in G. destruct G as [_ FB]. rewrite forallb_forall in FB.
    constructor; cbn [l_thr l_exit l_err l_saved l_done l_total l_ret]; auto.
    intros b R Y. injection R as <-. rewrite Y. split; auto. intros r I. apply in_concat_nth in I. destruct I as (n & j & J & I).
    destruct (nth_error ts n) as [t|] eqn:T.
    + assert (EN := FB t (nth_error_In _ _ T)). assert (L := LF _ _ T Y). unfold ended in EN.
      destruct (CV _ _ _ _ J T I) as [A|[A|[A|A]]]; auto.
      * destruct (t_pc t); try discriminate; rewrite L in A; destruct A.
      * rewrite A in EN. discriminate.
      * congruence.
    + exfalso. apply nth_error_None in T. assert (n < length jobs)%nat by (apply nth_error_Some; congruence). lia.
Qed.

Lemma linv_run jobs : forall es hist s s1, linv jobs hist s -> lrun s es = Some s1 -> linv jobs (hist ++ es) s1.
Proof.
  induction es as [|e es IH]; intros hist s s1 V E; simpl in E.
  - injection E as <-. rewrite app_nil_r. auto.
  - destruct (lstep s e) as [s0|] eqn:S; [|discriminate]. replace (hist ++ e :: es) with ((hist ++ [e]) ++ es) by (rewrite <- app_assoc; auto).
    apply (IH _ s0); auto. eapply linv_step; eauto.
Qed.
Lemma tool_covers jobs es s : lrun (init_tool jobs) es = Some s -> no_request_failed es -> forall b, l_ret s = Some b ->
  b = true /\ forall r, In r (l_saved s) <-> In r (concat jobs).
Proof.
  intros E NF b R. assert (V := linv_run jobs es [] _ _ (linv_init jobs) E). simpl in V. destruct V as [_ _ _ EX RT SO _].
  assert (X : l_exit s = false). { destruct (l_exit s) eqn:Q; auto. exfalso. destruct (EX eq_refl) as (t & I). apply (NF t). auto. }
  destruct (RT b R X) as [A B]. split; auto. intros r. split; auto.
Qed.
Lemma tool_error jobs es s : lrun (init_tool jobs) es = Some s -> l_ret s = Some false -> exists t, In (LAnswer t false) es.
Proof.
  intros E R. assert (V := linv_run jobs es [] _ _ (linv_init jobs) E). simpl in V. destruct V as [_ _ _ EX RT SO _].
  apply EX. destruct (l_exit s) eqn:Q; auto. destruct (RT false R eq_refl). discriminate.
Qed.

(** * Region shapes *)
Lemma shape_covered hist asked checked scanned s tso fw fd : store_ok s -> sh_a asked <> [] ->
  (forall x y, In x hist -> In y hist -> sh_ver x = sh_ver y -> x = y) ->
  In asked hist -> In checked hist -> In scanned hist -> sh_ver scanned = sh_ver checked ->
  backup_region checked scanned (sh_ver asked) (sh_a asked) (sh_b asked) s tso = Some (BOk fw fd) ->
  forall k t w, get vcmp fw (k, t) = Some w <-> in_range (sh_a asked) (sh_b asked) k /\ newest s SI tso k t w.
Proof.
  intros H NA U IA IC IS SV E k t w. unfold backup_region in E. destruct (admit_request _ _ _ _) eqn:AD; [|discriminate].
  unfold admit_request in AD. rewrite !andb_true_iff, Z.eqb_eq in AD. destruct AD as [[V _] _].
  assert (asked = checked) by (apply U; auto). assert (scanned = checked) by (apply U; auto). subst.
  injection E as E. apply (proj1 (backup_exact s tso _ _ fw fd H NA E)).
Qed.

(** * Registration *)
Lemma dog_exclusive es n a to now es2 m a' to' now2 : m <> n ->
  (forall i, drun None es = Some i -> i_name i <> n) ->
  snd (dstep (drun None es) (DReg n a to now)) = true ->
  (forall e, In e es2 -> within_lease n a to e) ->
  now2 <= a + to ->
  let d := drun None (es ++ DReg n a to now :: es2) in
  dstep d (DReg m a' to' now2) = (d, false) /\ (forall k, k <> n -> dstep d (DUnreg k) = (d, false)) /\ backing_up d now2 = true.
Proof.
  intros NM NH OK ALL LE d.
  assert (X : exists a3, d = Some (mkInfo n a3 to) /\ a <= a3).
  { unfold d, drun. rewrite fold_left_app. fold (drun None es). cbn [fold_left].
    assert (S0 : exists a3, fst (dstep (drun None es) (DReg n a to now)) = Some (mkInfo n a3 to) /\ a <= a3).
    { simpl in *. destruct (drun None es) as [i|]; simpl in *; [|exists a; split; [auto|lia]].
      specialize (NH i eq_refl). destruct (i_name i =? n) eqn:Q; [apply Z.eqb_eq in Q; congruence|].
      destruct (i_at i + i_for i <? now); [|discriminate]. exists a. split; [auto|lia]. }
    generalize dependent (fst (dstep (drun None es) (DReg n a to now))). clear d OK.
    induction es2 as [|e es2 IH]; intros d0 S0; [auto|]. cbn [fold_left]. apply IH.
    - intros e' I. apply ALL. right; auto.
    - destruct S0 as (a3 & -> & L). specialize (ALL e (or_introl eq_refl)). destruct e as [k a2 t2 now3|k]; simpl in ALL; simpl.
      + destruct (n =? k) eqn:Q.
        * apply Z.eqb_eq in Q. subst k. exists a2. simpl. split; auto. apply ALL. auto.
        * apply Z.eqb_neq in Q. destruct ALL as [_ ALL]. specialize (ALL ltac:(congruence)).
          destruct (a3 + to <? now3) eqn:Q2; [apply Z.ltb_lt in Q2; lia|]. exists a3. auto.
      + destruct (n =? k) eqn:Q; [apply Z.eqb_eq in Q; congruence|]. exists a3. auto. }
  destruct X as (a3 & -> & L). simpl. split; [|split].
  - destruct (n =? m) eqn:Q; [apply Z.eqb_eq in Q; congruence|]. destruct (a3 + to <? now2) eqn:Q2; [apply Z.ltb_lt in Q2; lia|]. auto.
  - intros k NK. destruct (n =? k) eqn:Q; [apply Z.eqb_eq in Q; congruence|]. auto.
  - apply Z.leb_le. lia.
Qed.
Lemma dog_free d n : snd (unregister d n) = true ->
  fst (unregister d n) = None /\ forall m a to now, register (fst (unregister d n)) m a to now = (Some (mkInfo m a to), true).
Proof.
  intros H. assert (E : fst (unregister d n) = None).
  { destruct d as [i|]; simpl in *; auto. destruct (i_name i =? n); auto. discriminate. }
  split; auto. intros. rewrite E. reflexivity.
Qed.
Lemma dog_expired d i m a to now : d = Some i -> i_at i + i_for i < now -> i_name i <> m ->
  register d m a to now = (Some (mkInfo m a to), true) /\ backing_up d now = false.
Proof.
  intros -> L N. simpl. destruct (i_name i =? m) eqn:Q; [apply Z.eqb_eq in Q; congruence|].
  destruct (i_at i + i_for i <? now) eqn:Q2; [|apply Z.ltb_ge in Q2; lia]. split; auto. apply Z.leb_gt. auto.
Qed.

(** * Garbage collection *)
Definition busy (p : bpc) : Prop := match p with QNew | QOver => False | _ => True end.
Record sinv (g0 : bool) (s : site) : Prop := mkSinv {
  z_one : forall p q c e, nth_error (s_tools s) p = Some c -> nth_error (s_tools s) q = Some e -> busy c -> busy e -> p = q;
  z_state : forall p c, nth_error (s_tools s) p = Some c -> match c with
     | QNew | QOver => True
     | QSeen b | QReg b => b = g0 /\ s_gc_stopped s = g0
     | QRun m => s_gc_stopped s = true /\ m = negb g0
     | QUnreg m => s_gc_stopped s = true /\ m = negb g0 end;
  z_idle : (forall p c, nth_error (s_tools s) p = Some c -> ~ busy c) -> s_gc_stopped s = g0;
  z_owner : forall p c, nth_error (s_tools s) p = Some c -> match c with QReg _ | QRun _ => s_owner s = Some p | _ => True end;
  z_free : forall p, s_owner s = Some p -> exists c, nth_error (s_tools s) p = Some c /\ match c with QReg _ | QRun _ => True | _ => False end }.

Lemma sinv_init g0 n : sinv g0 (init_site g0 n).
Proof.
  assert (N : forall p c, nth_error (repeat QNew n) p = Some c -> c = QNew).
  { intros p c H. apply nth_error_In in H. apply repeat_spec in H. auto. }
  constructor; simpl; auto.
  - intros p q c e H1 H2 B. apply N in H1. subst. destruct B.
  - intros p c H. apply N in H. subst. auto.
  - intros p c H. apply N in H. subst. auto.
  - discriminate.
Qed.
Lemma sinv_step g0 s e s1 : one_by_one s e -> sinv g0 s -> sstep s e = Some s1 -> sinv g0 s1.
Proof.
  intros OB [ON ST ID OW FR] E. destruct s as [gc ow ps]. cbn [s_gc_stopped s_owner s_tools] in *.
  assert (SELF : forall p c, nth_error ps p = Some c -> busy c -> forall q d, nth_error ps q = Some d -> q <> p -> ~ busy d).
  { intros p c H B q d H2 N B2. apply N. eapply ON; eauto. }
  destruct e as [p|p|p|p|p]; cbn [sstep] in E.
  - destruct (nth_error ps p) as [[]|] eqn:P; try discriminate. injection E as <-. simpl in OB.
    assert (QUIET : forall q d, nth_error ps q = Some d -> ~ busy d).
    { intros q d H B. destruct (Nat.eq_dec q p) as [->|N]; [rewrite P in H; injection H as <-; destruct B|].
      destruct (OB q d N H); subst; destruct B. }
    assert (G := ID QUIET).
    constructor; cbn [s_gc_stopped s_owner s_tools].
    + intros a b c e H1 H2 B1 B2. rewrite nth_upd, P in H1, H2. destruct (Nat.eq_dec p a), (Nat.eq_dec p b); try congruence.
      * exfalso. eapply QUIET; [exact H2|auto].
      * exfalso. eapply QUIET; [exact H1|auto].
      * exfalso. eapply QUIET; [exact H1|auto].
    + intros q c H. rewrite nth_upd, P in H. destruct (Nat.eq_dec p q); [injection H as <-; auto|apply (ST q c H)].
    + intros X. exfalso. apply (X p (QSeen gc)); [|simpl; auto]. rewrite nth_upd, P. destruct (Nat.eq_dec p p); congruence.
    + intros q c H. rewrite nth_upd, P in H. destruct (Nat.eq_dec p q); [injection H as <-; auto|apply (OW q c H)].
    + intros q H. destruct (FR q H) as (c & C & D). exists c. split; auto. rewrite nth_upd, P. destruct (Nat.eq_dec p q); auto.
      subst. assert (c = QNew) by congruence. subst. destruct D.
  - destruct (nth_error ps p) as [[]|] eqn:P; try discriminate. assert (SP := ST _ _ P). simpl in SP. destruct SP as [SP1 SP2].
    assert (OTH := SELF _ _ P I).
    assert (NOW : ow = None).
    { destruct ow as [q|]; auto. exfalso. destruct (FR q eq_refl) as (c & C & D). destruct (Nat.eq_dec q p) as [->|N].
      - assert (c = QSeen stopped) by congruence. subst. destruct D.
      - apply (OTH q c C N). destruct c; simpl; auto. }
    rewrite NOW in E. injection E as <-. constructor; cbn [s_gc_stopped s_owner s_tools].
    + intros a b c e H1 H2 B1 B2. rewrite nth_upd, P in H1, H2. destruct (Nat.eq_dec p a), (Nat.eq_dec p b); try congruence.
      * exfalso. apply (OTH b e); auto.
      * exfalso. apply (OTH a c); auto.
      * eapply ON; eauto.
    + intros q c H. rewrite nth_upd, P in H. destruct (Nat.eq_dec p q); [injection H as <-; auto|apply (ST q c H)].
    + intros X. exfalso. apply (X p (QReg stopped)); [|simpl; auto]. rewrite nth_upd, P. destruct (Nat.eq_dec p p); congruence.
    + intros q c H. rewrite nth_upd, P in H. destruct (Nat.eq_dec p q) as [<-|N]; [injection H as <-; auto|].
      assert (NB := OTH q c H ltac:(congruence)). destruct c; auto; exfalso; apply NB; simpl; auto.
    + intros q H. injection H as <-. exists (QReg stopped). rewrite nth_upd, P. destruct (Nat.eq_dec p p); [auto|congruence].
  - destruct (nth_error ps p) as [[]|] eqn:P; try discriminate. assert (SP := ST _ _ P). simpl in SP. destruct SP as [SP1 SP2].
    assert (OP := OW _ _ P). simpl in OP. assert (OTH := SELF _ _ P I).
    assert (GO : forall gc' m, gc' = true -> m = negb g0 -> sinv g0 (mkSite gc' ow (upd ps p (QRun m)))).
    { intros gc' m -> ->. constructor; cbn [s_gc_stopped s_owner s_tools].
      + intros a b c e H1 H2 B1 B2. rewrite nth_upd, P in H1, H2. destruct (Nat.eq_dec p a), (Nat.eq_dec p b); try congruence.
        * exfalso. apply (OTH b e); auto.
        * exfalso. apply (OTH a c); auto.
        * eapply ON; eauto.
      + intros q c H. rewrite nth_upd, P in H. destruct (Nat.eq_dec p q) as [<-|N]; [injection H as <-; auto|].
        assert (NB := OTH q c H ltac:(congruence)). destruct c; auto; exfalso; apply NB; simpl; auto.
      + intros X. exfalso. apply (X p (QRun (negb g0))); [|simpl; auto]. rewrite nth_upd, P. destruct (Nat.eq_dec p p); congruence.
      + intros q c H. rewrite nth_upd, P in H. destruct (Nat.eq_dec p q) as [<-|N]; [injection H as <-; auto|].
        apply (OW q c H).
      + intros q H. exists (QRun (negb g0)). assert (q = p) by congruence. subst. rewrite nth_upd, P. destruct (Nat.eq_dec p p); [auto|congruence]. }
    destruct stopped; injection E as <-; apply GO; subst; auto.
  - destruct (nth_error ps p) as [[]|] eqn:P; try discriminate. injection E as <-. assert (SP := ST _ _ P). simpl in SP. destruct SP as [SP1 SP2].
    assert (OTH := SELF _ _ P I).
    constructor; cbn [s_gc_stopped s_owner s_tools].
    + intros a b c e H1 H2 B1 B2. rewrite nth_upd, P in H1, H2. destruct (Nat.eq_dec p a), (Nat.eq_dec p b); try congruence.
      * exfalso. apply (OTH b e); auto.
      * exfalso. apply (OTH a c); auto.
      * eapply ON; eauto.
    + intros q c H. rewrite nth_upd, P in H. destruct (Nat.eq_dec p q) as [<-|N]; [injection H as <-; auto|apply (ST q c H)].
    + intros X. exfalso. apply (X p (QUnreg mine)); [|simpl; auto]. rewrite nth_upd, P. destruct (Nat.eq_dec p p); congruence.
    + intros q c H. rewrite nth_upd, P in H. destruct (Nat.eq_dec p q) as [<-|N]; [injection H as <-; auto|].
      assert (NB := OTH q c H ltac:(congruence)). destruct c; auto; exfalso; apply NB; simpl; auto.
    + discriminate.
  - destruct (nth_error ps p) as [[]|] eqn:P; try discriminate. injection E as <-. assert (SP := ST _ _ P). simpl in SP. destruct SP as [SP1 SP2].
    assert (OTH := SELF _ _ P I).
    constructor; cbn [s_gc_stopped s_owner s_tools].
    + intros a b c e H1 H2 B1 B2. rewrite nth_upd, P in H1, H2. destruct (Nat.eq_dec p a), (Nat.eq_dec p b); try congruence.
      * exfalso. injection H1 as <-. destruct B1.
      * exfalso. injection H2 as <-. destruct B2.
      * eapply ON; eauto.
    + intros q c H. rewrite nth_upd, P in H. destruct (Nat.eq_dec p q) as [<-|N]; [injection H as <-; auto|].
      assert (NB := OTH q c H ltac:(congruence)). destruct c; auto; exfalso; apply NB; simpl; auto.
    + intros X. subst mine. rewrite SP1. destruct g0; auto.
    + intros q c H. rewrite nth_upd, P in H. destruct (Nat.eq_dec p q) as [<-|N]; [injection H as <-; auto|].
      apply (OW q c H).
    + intros q H. destruct (FR q H) as (c & C & D). exists c. split; auto. rewrite nth_upd, P. destruct (Nat.eq_dec p q) as [<-|N]; auto.
      assert (c = QUnreg mine) by congruence. subst. destruct D.
Qed.
Lemma shist_inv g0 s es s1 : shist one_by_one s es s1 -> sinv g0 s -> sinv g0 s1.
Proof. induction 1; auto. intros. apply IHshist. eapply sinv_step; eauto. Qed.
Lemma gc_stays_stopped g0 n es s p m : shist one_by_one (init_site g0 n) es s -> nth_error (s_tools s) p = Some (QRun m) -> s_gc_stopped s = true.
Proof. intros H P. apply (z_state _ _ (shist_inv _ _ _ _ H (sinv_init g0 n)) _ _ P). Qed.
Lemma gc_given_back g0 n es s : shist one_by_one (init_site g0 n) es s ->
  (forall p c, nth_error (s_tools s) p = Some c -> c = QNew \/ c = QOver) -> s_gc_stopped s = g0.
Proof.
  intros H Q. apply (z_idle _ _ (shist_inv _ _ _ _ H (sinv_init g0 n))). intros p c P B. destruct (Q p c P); subst; destruct B.
Qed.
(** two tools never run at the same time, whatever the order *)
Definition powner (s : site) : Prop := (forall p c, nth_error (s_tools s) p = Some c -> match c with QReg _ | QRun _ => s_owner s = Some p | _ => True end).
Lemma powner_step s e s1 : powner s -> sstep s e = Some s1 -> powner s1.
Proof.
  intros H E. destruct s as [gc ow ps]. unfold powner in *. cbn [s_owner s_tools] in *.
  destruct e as [p|p|p|p|p]; cbn [sstep] in E; destruct (nth_error ps p) as [[]|] eqn:P; try discriminate;
    try (injection E as <-; cbn [s_owner s_tools]; intros q c Q; rewrite nth_upd, P in Q; destruct (Nat.eq_dec p q) as [<-|N]; [injection Q as <-; auto|apply (H q c Q)]; fail).
  - destruct ow as [o|]; injection E as <-; cbn [s_owner s_tools]; intros q c Q; rewrite nth_upd, P in Q; destruct (Nat.eq_dec p q) as [<-|N];
      try (injection Q as <-; auto); [apply (H q c Q)|]. assert (X := H q c Q). destruct c; auto; discriminate.
  - assert (X := H _ _ P). simpl in X. destruct stopped; injection E as <-; cbn [s_owner s_tools]; intros q c Q; rewrite nth_upd, P in Q;
      destruct (Nat.eq_dec p q) as [<-|N]; try (injection Q as <-; auto); apply (H q c Q).
  - assert (X := H _ _ P). simpl in X. injection E as <-; cbn [s_owner s_tools]; intros q c Q; rewrite nth_upd, P in Q.
    destruct (Nat.eq_dec p q) as [<-|N]; [injection Q as <-; auto|]. assert (Y := H q c Q). destruct c; auto; congruence.
Qed.
Lemma one_runs g0 n es s p q m m' : shist any_order (init_site g0 n) es s ->
  nth_error (s_tools s) p = Some (QRun m) -> nth_error (s_tools s) q = Some (QRun m') -> p = q.
Proof.
  intros H P Q. assert (O : powner s).
  { assert (O0 : powner (init_site g0 n)).
    { intros r c R. simpl in R. apply nth_error_In in R. apply repeat_spec in R. subst. auto. }
    clear P Q. revert O0. induction H; auto. intros. apply IHshist. eapply powner_step; eauto. }
  assert (A := O _ _ P). assert (B := O _ _ Q). simpl in A, B. congruence.
Qed.

Lemma kinds_apart : forall start, sql_region start = true -> sdk_region start = false.
Proof.
  intros [|b l] H; [discriminate|]. unfold sql_region in H. apply Z.eqb_eq in H. subst. reflexivity.
Qed.

Lemma always_ok : forall bs env r, snd (read_and_restore true bs env r) = 0.
Proof. intros. unfold read_and_restore. destruct (send bs env 0 r). reflexivity. Qed.

Lemma stale_refused : forall checked scanned ver a b s tso, ver <> sh_ver checked ->
  backup_region checked scanned ver a b s tso = None.
Proof.
  intros checked scanned ver a b s tso N. unfold backup_region, admit_request.
  destruct (ver =? sh_ver checked) eqn:E; [apply Z.eqb_eq in E; contradiction|]. reflexivity.
Qed.
