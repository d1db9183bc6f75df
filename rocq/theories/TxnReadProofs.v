(** Point reads: the newest visible version. *)
From Coq Require Import ZArith List Lia Bool Sorted.
From Verif Require Import Bytes SMap Outcome TxnModel TxnSpec TxnBase TxnReadModel TxnReadSpec.
Import ListNotations.
Open Scope Z_scope.

Lemma lock_conflict_iff i ts rs l : lock_conflict i ts rs l = true <-> conflicting i ts rs l.
Proof.
  unfold lock_conflict, conflicting.
  assert (E : existsb (Z.eqb (l_ts l)) rs = true <-> In (l_ts l) rs).
  { rewrite existsb_exists. split; [intros (x & A & B); apply Z.eqb_eq in B; subst; auto|intros A; exists (l_ts l); split; [auto|apply Z.eqb_refl]]. }
  destruct (existsb _ rs) eqn:X; [split; [discriminate|intros (A & _); exfalso; tauto]|].
  assert (NI : ~ In (l_ts l) rs) by (intros A; apply E in A; discriminate).
  destruct (ts <? l_minc l) eqn:M; [apply Z.ltb_lt in M; split; [discriminate|intros (_ & A & _); lia]|]. apply Z.ltb_ge in M.
  destruct (0 <? l_ts l) eqn:T; [|apply Z.ltb_ge in T; split; [discriminate|intros (_ & _ & A & _); lia]]. apply Z.ltb_lt in T.
  destruct i; destruct (0 <? l_fut l) eqn:F.
  - apply Z.ltb_lt in F. rewrite Z.ltb_lt. split; [intros; repeat split; auto; lia|intros (_ & _ & _ & A & _); auto].
  - apply Z.ltb_ge in F. rewrite Z.ltb_lt. split; [intros; repeat split; auto; lia|intros (_ & _ & _ & _ & A); auto].
  - apply Z.ltb_lt in F. destruct (op_eqb (l_type l) OpLock) eqn:O.
    + apply op_eqb_eq in O. split; [discriminate|intros (_ & _ & _ & _ & A); congruence].
    + apply op_eqb_neq in O. rewrite Z.ltb_lt. split; [intros; repeat split; auto; lia|intros (_ & _ & _ & A & _); lia].
  - apply Z.ltb_ge in F. split; [discriminate|intros (_ & _ & _ & A & _); lia].
Qed.

(** * The versions of a key, newest first *)
Definition versions_in (ws : list (bytes * Z * wrec)) (k : bytes) : list (Z * wrec) :=
  map (fun e => (snd (fst e), snd e)) (filter (fun e => beqb (fst (fst e)) k) ws).
Definition versions (s : store) (k : bytes) := versions_in (writes s) k.

Definition newer (a b : Z * wrec) : Prop := fst b < fst a.

Lemma versions_In s k t w : store_ok s -> (In (t, w) (versions s k) <-> write_at s k t = Some w).
Proof.
  intros H. unfold versions, versions_in. rewrite in_map_iff. split.
  - intros ([[k' t'] w'] & E & I). apply filter_In in I. simpl in *. destruct I as [I B]. apply beqb_true in B.
    inversion E; subst. apply (In_get vcmp vcmp_ok); [apply H|auto].
  - intros W. apply get_In in W; [|apply vcmp_ok]. exists ((k, t), w). split; auto. apply filter_In. split; auto.
    simpl. apply beqb_refl.
Qed.

Lemma versions_sorted ws k : sorted vcmp ws -> StronglySorted newer (versions_in ws k).
Proof.
  intros S. apply (sorted_filter vcmp (fun e => beqb (fst (fst e)) k)) in S. unfold versions_in.
  assert (A : Forall (fun e : bytes * Z * wrec => fst (fst e) = k) (filter (fun e => beqb (fst (fst e)) k) ws)).
  { apply Forall_forall. intros e I. apply filter_In in I. apply beqb_true. tauto. }
  revert S A. generalize (filter (fun e : bytes * Z * wrec => beqb (fst (fst e)) k) ws) as l.
  induction l as [|[[k0 t0] w0] l IH]; simpl; intros S A; constructor.
  - apply sorted_cons in S. inversion A; subst. apply IH; tauto.
  - apply sorted_cons in S. destruct S as [S F]. inversion A as [|? ? A1 A2]; subst. simpl in *.
    apply Forall_forall. intros [t w] I. apply in_map_iff in I. destruct I as ([[k1 t1] w1] & E & I). simpl in E. inversion E; subst.
    rewrite Forall_forall in F, A2. specialize (F _ I). specialize (A2 _ I). simpl in A2. subst k1.
    unfold klt, vcmp in F. simpl in F. rewrite bcmp_refl in F. unfold newer; simpl. rewrite Z.compare_lt_iff in F. lia.
Qed.

(** what a read makes of a list of versions; None: the value is missing *)
Fixpoint rv (ds : smap (bytes * Z) bytes) (i : iso) (ts : Z) (k : bytes) (vs : list (Z * wrec)) : option bytes :=
  match vs with
  | [] => Some []
  | (t, w) :: r =>
      if match i with SI => ts <? t | RC => false end then rv ds i ts k r
      else match w_op w with
           | OpDelete => Some []
           | OpPut => if negb (beqb (w_short w) []) then Some (w_short w) else get vcmp ds (k, w_start w)
           | _ => rv ds i ts k r
           end
  end.

Definition skipped (i : iso) (ts : Z) (e : Z * wrec) : Prop :=
  (i = SI /\ ts < fst e) \/ w_op (snd e) = OpRollback.
Definition three (w : wrec) : Prop := w_op w = OpPut \/ w_op w = OpDelete \/ w_op w = OpRollback.

Lemma rv_cases ds i ts k : forall vs, (forall t w, In (t, w) vs -> three w) ->
  (exists pre t w post, vs = pre ++ (t, w) :: post /\ Forall (skipped i ts) pre /\ ~ skipped i ts (t, w) /\
     ((w_op w = OpDelete /\ rv ds i ts k vs = Some []) \/
      (w_op w = OpPut /\ w_short w <> [] /\ rv ds i ts k vs = Some (w_short w)) \/
      (w_op w = OpPut /\ w_short w = [] /\ rv ds i ts k vs = get vcmp ds (k, w_start w)))) \/
  (Forall (skipped i ts) vs /\ rv ds i ts k vs = Some []).
Proof.
  induction vs as [|[t w] vs IH]; intros T; [right; split; auto|].
  assert (IH' := IH (fun t w I => T t w (or_intror I))). cbn [rv].
  assert (SK : skipped i ts (t, w) ->
      match i with SI => ts <? t | RC => false end = true \/ (match i with SI => ts <? t | RC => false end = false /\ w_op w = OpRollback)).
  { intros [[A B]|B].
    - subst i. left. apply Z.ltb_lt. auto.
    - destruct (match i with SI => ts <? t | RC => false end); auto. }
  assert (D : skipped i ts (t, w) \/ ~ skipped i ts (t, w)).
  { unfold skipped; simpl. destruct (T t w (or_introl eq_refl)) as [O|[O|O]]; rewrite O.
    - destruct i; [destruct (Z_lt_dec ts t); [left; auto|]|]; right; intros [[A B]|A]; try discriminate; lia.
    - destruct i; [destruct (Z_lt_dec ts t); [left; auto|]|]; right; intros [[A B]|A]; try discriminate; lia.
    - left; auto. }
  destruct D as [D|D].
  - assert (E : rv ds i ts k ((t, w) :: vs) = rv ds i ts k vs).
    { cbn [rv]. destruct (SK D) as [E|[E O]]; rewrite E; auto. rewrite O. auto. }
    cbn [rv] in E. rewrite E. destruct IH' as [(pre & t1 & w1 & post & E1 & F & N & C)|[F C]].
    + left. exists ((t, w) :: pre), t1, w1, post. subst vs. simpl. split; auto. 
    + right. split; auto.
  - left. exists [], t, w, vs. split; [auto|split; [auto|split; [auto|]]].
    assert (E : match i with SI => ts <? t | RC => false end = false).
    { destruct i; auto. apply Z.ltb_ge. destruct (Z_lt_dec ts t); [|lia]. exfalso; apply D; left; auto. }
    rewrite E. destruct (T t w (or_introl eq_refl)) as [O|[O|O]]; rewrite O.
    + right. destruct (beqb (w_short w) []) eqn:B; simpl.
      * apply beqb_true in B. right; auto.
      * apply beqb_false in B. left; auto.
    + left; auto.
    + exfalso. apply D. right; auto.
Qed.

Definition bounded_commits (s : store) : Prop :=
  forall k t w, write_at s k t = Some w -> w_op w <> OpRollback -> t <= kMaxVer.

Lemma three_ok s k t w : store_ok s -> write_at s k t = Some w -> three w.
Proof. intros H W. destruct (ok_write _ H _ _ _ W) as (_ & [(A & _)|([A|A] & _)]); unfold three; auto. Qed.

(** reading the versions in front of [f] and after, when [f] drops only what is skipped anyway *)
Lemma rv_reads s ds i ts k vs : store_ok s -> values_there s -> same_values s ds ->
  (i = RC -> bounded_commits s) ->
  StronglySorted newer vs ->
  (forall t w, In (t, w) vs -> write_at s k t = Some w) ->
  (forall t w, write_at s k t = Some w -> t <= sees_up_to i ts -> In (t, w) vs) ->
  exists v, rv ds i ts k vs = Some v /\ reads s i ts k v.
Proof.
  intros H V SV BC SS IN OUT.
  assert (T : forall t w, In (t, w) vs -> three w) by (intros t w I; eapply three_ok; eauto).
  assert (LE : forall t w, In (t, w) vs -> ~ skipped i ts (t, w) -> t <= sees_up_to i ts).
  { intros t w I N. destruct i; simpl.
    - destruct (Z_lt_dec ts t); [|lia]. exfalso. apply N. left; auto.
    - apply (BC eq_refl k t w); auto. intros O. apply N. right; auto. }
  destruct (rv_cases ds i ts k vs T) as [(pre & t & w & post & E & F & N & C)|[F C]].
  - assert (I : In (t, w) vs) by (rewrite E; apply in_app_iff; right; left; auto).
    assert (NW : newest s i ts k t w).
    { split; [auto|split; [eapply LE; eauto|split]].
      - intros O. apply N. right; auto.
      - intros t' w' W' L'. assert (I' := OUT t' w' W' ltac:(lia)). rewrite E in I'. apply in_app_iff in I'.
        destruct I' as [I'|[I'|I']].
        + rewrite Forall_forall in F. destruct (F _ I') as [[A B]|A]; auto. subst i. simpl in *. lia.
        + inversion I'; subst. lia.
        + exfalso. rewrite E in SS. clear -SS I' L'. induction pre as [|x pre IH]; simpl in SS.
          * inversion SS as [|? ? S1 S2]; subst. rewrite Forall_forall in S2. specialize (S2 _ I'). unfold newer in S2. simpl in S2. lia.
          * inversion SS; subst. auto. }
    destruct C as [[O C]|[(O & S & C)|(O & S & C)]].
    + exists []. split; auto. right; left. exists t, w. auto.
    + exists (w_short w). split; auto. left. exists t, w. split; [auto|split; [auto|left; auto]].
    + destruct (V k t w (IN t w I) O S) as (v & V1 & V2). exists v. split.
      * rewrite C. rewrite (SV k t w (IN t w I) O S). auto.
      * left. exists t, w. split; [auto|split; [auto|right; auto]].
  - exists []. split; auto. right; right. split; auto. intros t w W L. rewrite Forall_forall in F.
    destruct (F _ (OUT t w W L)) as [[A B]|A]; auto. subst i. simpl in *. lia.
Qed.

(** at most one answer *)
Lemma newest_unique s i ts k t w t' w' : newest s i ts k t w -> newest s i ts k t' w' -> t = t' /\ w = w'.
Proof.
  intros (A1 & A2 & A3 & A4) (B1 & B2 & B3 & B4).
  assert (t = t').
  { destruct (Z.lt_trichotomy t t') as [L|[L|L]]; auto.
    - exfalso. apply B3. apply (A4 t' w'); auto; lia.
    - exfalso. apply A3. apply (B4 t w); auto; lia. }
  subst. split; congruence.
Qed.
Lemma reads_unique s i ts k v v' : reads s i ts k v -> reads s i ts k v' -> v = v'.
Proof.
  assert (VU : forall w v v', value_of s k w v -> value_of s k w v' -> v = v').
  { intros w a b [[A1 A2]|[A1 A2]] [[B1 B2]|[B1 B2]]; congruence. }
  assert (NN : forall t w, newest s i ts k t w -> nothing_visible s i ts k -> False).
  { intros t w (A1 & A2 & A3 & _) N. apply A3. eapply N; eauto. }
  intros [(t & w & N & O & V)|[(t & w & N & O & V)|[N V]]] [(t' & w' & N' & O' & V')|[(t' & w' & N' & O' & V')|[N' V']]];
    try (exfalso; eapply NN; eauto; fail); try congruence;
    destruct (newest_unique _ _ _ _ _ _ _ _ N N'); subst; eauto; congruence.
Qed.

Lemma filter_ext_sorted {A} (R : A -> A -> Prop) (f : A -> bool) l : StronglySorted R l -> StronglySorted R (filter f l).
Proof.
  induction 1 as [|a l S IH F]; simpl; [constructor|]. destruct (f a); auto. constructor; auto.
  rewrite Forall_forall in *. intros x I. apply filter_In in I. apply F. tauto.
Qed.

Lemma get_versions_rv ds i ts k : forall ws, (forall e, In e ws -> three (snd e)) ->
  (forall e w, In e ws -> snd e = w -> w_op w = OpPut -> w_short w = [] -> get vcmp ds (k, w_start w) <> None) ->
  exists v, get_versions ds i ts k ws = RdVal v /\ rv ds i ts k (map (fun e => (snd (fst e), snd e)) ws) = Some v.
Proof.
  induction ws as [|[[k0 t] w] ws IH]; intros T D; [exists []; auto|].
  destruct (IH (fun e I => T e (or_intror I)) (fun e w I => D e w (or_intror I))) as (v & V1 & V2).
  cbn [get_versions map rv fst snd].
  assert (E : match i with SI => t <=? ts | RC => true end = negb match i with SI => ts <? t | RC => false end).
  { destruct i; auto. rewrite Z.leb_antisym. auto. }
  rewrite E. destruct (match i with SI => ts <? t | RC => false end); cbn [negb]; [eauto|].
  destruct (T _ (or_introl eq_refl)) as [O|[O|O]]; simpl in O; rewrite O; eauto.
  destruct (beqb (w_short w) []) eqn:B; cbn [negb]; [|eauto]. apply beqb_true in B.
  specialize (D _ w (or_introl eq_refl) eq_refl O B). destruct (get vcmp ds (k, w_start w)); [eauto|congruence].
Qed.

(** C14: point reads *)
Lemma get_key_spec s i ts rs k : store_ok s -> values_there s -> ts <= kMaxVer ->
  (exists l, get_key s i ts rs k = RdConflict l /\ lock_at s k = Some l /\ conflicting i ts rs l) \/
  (exists v, get_key s i ts rs k = RdVal v /\ no_conflict s i ts rs k /\ reads s i ts k v).
Proof.
  intros H V LT. unfold get_key.
  destruct (lock_conflict i ts rs (get_lock s k)) eqn:C.
  - left. exists (get_lock s k). split; auto. apply lock_conflict_iff in C.
    destruct (get_lock_spec s k H) as [(l & L1 & L2 & _)|(L1 & L2)]; rewrite L2 in *; auto.
    destruct C as (_ & _ & C & _). simpl in C. lia.
  - right. set (f := fun e : bytes * Z * wrec => let '((k0, t), _) := e in beqb k0 k && (t <=? seek_ts i ts) && (0 <? t)).
    assert (IN : forall e, In e (filter f (writes s)) -> fst (fst e) = k /\ write_at s k (snd (fst e)) = Some (snd e) /\ snd (fst e) <= seek_ts i ts).
    { intros [[k0 t] w] I. apply filter_In in I. destruct I as [I F]. unfold f in F. rewrite !andb_true_iff in F.
      destruct F as [[F1 F2] F3]. apply beqb_true in F1. subst. simpl. split; auto. split; [|apply Z.leb_le; auto].
      apply (In_get vcmp vcmp_ok); [apply H|auto]. }
    destruct (get_versions_rv (datas s) i ts k (filter f (writes s))) as (v & V1 & V2).
    { intros e I. eapply three_ok; eauto. apply IN; auto. }
    { intros e w I E O S. subst w. destruct (IN e I) as (_ & W & _). destruct (V _ _ _ W O S) as (v & _ & D).
      unfold data_at in D. rewrite D. discriminate. }
    exists v. split; auto. split.
    + intros l L CO. assert (X : get_lock s k = l) by (unfold get_lock; unfold lock_at in L; rewrite L; auto). rewrite X in C. apply lock_conflict_iff in CO. congruence.
    + assert (SS : sorted vcmp (filter f (writes s))) by (apply sorted_filter; apply H).
      assert (ALLK : filter (fun e => beqb (fst (fst e)) k) (filter f (writes s)) = filter f (writes s)).
      { clear -IN. induction (filter f (writes s)) as [|e l IH]; simpl; auto.
        rewrite (proj2 (beqb_true (fst (fst e)) k)) by (apply IN; left; auto). f_equal. apply IH. intros; apply IN; right; auto. }
      assert (RR : exists v', rv (datas s) i ts k (map (fun e => (snd (fst e), snd e)) (filter f (writes s))) = Some v' /\ reads s i ts k v').
      { assert (SO := versions_sorted _ k SS). unfold versions_in in SO. rewrite ALLK in SO.
        assert (I2 : forall t w, In (t, w) (map (fun e => (snd (fst e), snd e)) (filter f (writes s))) -> write_at s k t = Some w /\ t <= seek_ts i ts).
        { intros t w I. apply in_map_iff in I. destruct I as (e & E & I). destruct (IN e I) as (_ & A & B).
          inversion E; subst. auto. }
        assert (O2 : forall t w, write_at s k t = Some w -> t <= sees_up_to i ts -> In (t, w) (map (fun e => (snd (fst e), snd e)) (filter f (writes s)))).
        { intros t w W L. apply in_map_iff. exists ((k, t), w). split; auto. apply filter_In. split; [apply get_In in W; auto; apply vcmp_ok|].
          unfold f. rewrite beqb_refl. simpl. rewrite andb_true_iff, Z.leb_le, Z.ltb_lt. split; [destruct i; exact L|].
          destruct (ok_write _ H _ _ _ W) as (W1 & [(_ & W2)|(_ & W2)]); lia. }
        destruct i.
        - apply rv_reads; auto; [intros ? ? ? ? ? ?; reflexivity|discriminate|intros; apply I2; auto].
        - (* the filter has bounded the versions *)
          set (s' := mkStore (locks s) (filter (fun e => snd (fst e) <=? kMaxVer) (writes s)) (datas s)).
          assert (WA : forall k t w, write_at s' k t = Some w <-> write_at s k t = Some w /\ t <= kMaxVer).
          { intros k0 t w. unfold write_at, s'; cbn [writes].
            rewrite (get_iff vcmp vcmp_ok) by (apply sorted_filter; apply H). rewrite (get_iff vcmp vcmp_ok) by apply H.
            rewrite filter_In. simpl. rewrite Z.leb_le. tauto. }
          assert (H' : store_ok s').
          { constructor; try apply H. 
            - apply sorted_filter; apply H.
            - intros k0 t w W. apply WA in W. eapply ok_write; [exact H|apply W]. }
          destruct (rv_reads s' (datas s) RC ts k (map (fun e => (snd (fst e), snd e)) (filter f (writes s)))) as (v' & A & B); auto.
          + intros k0 t w W. apply WA in W. apply V with (t := t). apply W.
          + intros ? ? ? ? ? ?; reflexivity.
          + intros _ k0 t w W _. apply WA in W. tauto.
          + intros t w I. apply WA. apply I2 in I. exact I.
          + intros t w W L. apply WA in W. apply O2; tauto.
          + exists v'. split; auto.
            assert (NEW : forall t w, newest s' RC ts k t w -> newest s RC ts k t w).
            { intros t w (N1 & N2 & N3 & N4). apply WA in N1. split; [tauto|split; [auto|split; auto]].
              intros t' w' W' L'. apply (N4 t' w'); auto. apply WA. simpl in L'. split; [auto|lia]. }
            destruct B as [(t & w & N & B)|[(t & w & N & B)|[N B]]].
            * left. exists t, w. split; auto.
            * right; left. exists t, w. split; auto.
            * right; right. split; auto. intros t w W L. apply (N t w); auto. apply WA. auto. }
      destruct RR as (v' & A & B). congruence.
Qed.

Lemma batch_get_app s i ts rs : forall keys acc, batch_get s i ts rs keys acc =
  let r := batch_get s i ts rs keys [] in (acc ++ fst r, snd r).
Proof.
  induction keys as [|k keys IH]; intros acc; simpl; [rewrite app_nil_r; auto|].
  destruct (get_key s i ts rs k); simpl; try (rewrite app_nil_r; auto).
  rewrite (IH (acc ++ _)), (IH [_]). simpl. rewrite <- app_assoc. auto.
Qed.

(** batch get: the point reads of its keys up to the first conflict *)
Lemma batch_get_spec s i ts rs : store_ok s -> values_there s -> ts <= kMaxVer -> forall keys kvs e,
  batch_get s i ts rs keys [] = (kvs, e) ->
  Forall2 (fun k kv => fst kv = k /\ no_conflict s i ts rs k /\ reads s i ts k (snd kv)) (firstn (length kvs) keys) kvs /\
  match e with
  | RdVal _ => length kvs = length keys
  | RdConflict l => exists k, nth_error keys (length kvs) = Some k /\ lock_at s k = Some l /\ conflicting i ts rs l
  | RdErr => False
  end.
Proof.
  intros H V LT. induction keys as [|k keys IH]; simpl; intros kvs e E.
  - inversion E; subst. simpl. split; auto.
  - destruct (get_key_spec s i ts rs k H V LT) as [(l & G & L & C)|(v & G & N & R)]; rewrite G in E.
    + inversion E; subst. simpl. split; auto. exists k. auto.
    + rewrite batch_get_app in E. destruct (batch_get s i ts rs keys []) as [kvs1 e1]. simpl in E. inversion E; subst.
      destruct (IH _ _ eq_refl) as [A B]. simpl. split; [constructor; auto|]. destruct e; auto.
Qed.
