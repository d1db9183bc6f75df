(** Proofs for the vector store, part 1: the column families hold what the history says. *)
From Coq Require Import ZArith List Lia Bool PeanoNat Sorted.
From Verif Require Import Bytes SMap Outcome CodecModel CodecSpec CodecProofs CodecProofs2
  MvccModel MvccSpec MvccProofs RawModel RawProofs1 VqModel VqSpec VrModel VrSpec.
Import ListNotations.
Open Scope Z_scope.

(** ** the versions left by a list of writes *)
Definition build (ws : list version) : list version := fold_left (fun vs v => vput v vs) ws [].
Definition same (u w : version) : bool := beqb (vkey w) (vkey u) && (vts w =? vts u).

Lemma build_snoc ws w : build (ws ++ [w]) = vput w (build ws).
Proof. unfold build. rewrite fold_left_app. auto. Qed.
Lemma build_app ws ws' : build (ws ++ ws') = fold_left (fun vs v => vput v vs) ws' (build ws).
Proof. unfold build. rewrite fold_left_app. auto. Qed.
Lemma build_sorted ws : vsorted (build ws).
Proof. induction ws as [|w ws IH] using rev_ind; [constructor|]. rewrite build_snoc. apply vput_sorted; auto. Qed.
Lemma build_ok ws : Forall version_ok ws -> Forall version_ok (build ws).
Proof.
  induction ws as [|w ws IH] using rev_ind; intros F; [constructor|]. rewrite build_snoc.
  apply Forall_app in F. destruct F as [F1 F2]. inversion F2; subst. apply vput_ok; auto.
Qed.
Lemma build_repr ws : Forall version_ok ws -> represents (map enc (build ws)) (build ws).
Proof. intros. apply enc_represents; auto using build_sorted, build_ok. Qed.

Lemma same_iff u w : same u w = true <-> vkey w = vkey u /\ vts w = vts u.
Proof. unfold same. rewrite andb_true_iff, beqb_true, Z.eqb_eq. tauto. Qed.

Lemma build_In ws u : In u (build ws) <-> find (same u) (rev ws) = Some u.
Proof.
  induction ws as [|w ws IH] using rev_ind; [simpl; split; [tauto|discriminate]|].
  rewrite build_snoc, vput_In by apply build_sorted. rewrite rev_app_distr. cbn [rev app find].
  destruct (same u w) eqn:E.
  - pose proof (proj1 (same_iff _ _) E) as [E1 E2]. split.
    + intros [->|[_ N]]; auto. exfalso. apply N. auto.
    + intros H. left. congruence.
  - rewrite IH. split.
    + intros [->|[I _]]; auto. exfalso. assert (same w w = true) by (apply same_iff; auto). congruence.
    + intros I. right. split; auto. intros [A B]. assert (same u w = true) by (apply same_iff; auto). congruence.
Qed.

Lemma find_filter {A} (p f : A -> bool) l : (forall x, p x = true -> f x = true) -> find p (filter f l) = find p l.
Proof.
  intros H. induction l as [|a l IH]; cbn [filter find]; auto. destruct (f a) eqn:E; cbn [find].
  - rewrite IH. auto.
  - destruct (p a) eqn:P; auto. rewrite (H _ P) in E. discriminate.
Qed.
Lemma filter_rev {A} (f : A -> bool) l : filter f (rev l) = rev (filter f l).
Proof.
  induction l as [|a l IH]; auto. cbn [rev filter]. rewrite filter_app, IH. cbn [filter].
  destruct (f a); cbn [rev]; auto. apply app_nil_r.
Qed.

(** ** events *)
Definition same_ev (i t : Z) (e : event) : bool := (fst (fst e) =? i) && (snd (fst e) =? t).
Lemma same_ev_iff i t e : same_ev i t e = true <-> fst (fst e) = i /\ snd (fst e) = t.
Proof. unfold same_ev. rewrite andb_true_iff, !Z.eqb_eq. tauto. Qed.

Lemma find_split {A} (p : A -> bool) l x : find p l = Some x <->
  p x = true /\ exists b a, l = b ++ x :: a /\ forall y, In y b -> p y = false.
Proof.
  induction l as [|a l IH]; cbn [find].
  - split; [discriminate|]. intros (_ & b & c & E & _). destruct b; discriminate.
  - destruct (p a) eqn:E.
    + split.
      * intros H. assert (a = x) by congruence. subst. split; auto. exists [], l. split; auto. intros y [].
      * intros (P & b & c & Eq & N). destruct b as [|b0 b]; cbn [app] in Eq; [congruence|].
        assert (a = b0) by congruence. subst b0. rewrite (N a) in E by (left; auto). discriminate.
    + rewrite IH. split.
      * intros (P & b & c & -> & N). split; auto. exists (a :: b), c. split; auto. intros y [<-|I]; auto.
      * intros (P & b & c & Eq & N). split; auto. destruct b as [|b0 b]; cbn [app] in Eq; [congruence|].
        exists b, c. split; [congruence|]. intros y I. apply N. right. auto.
Qed.

Lemma last_at_find h i t x : last_at h i t x <-> find (same_ev i t) (rev (events h)) = Some (i, t, x).
Proof.
  rewrite find_split. unfold last_at. split.
  - intros (b & a & E & N). split; [apply same_ev_iff; auto|]. exists (rev a), (rev b). split.
    + rewrite E, rev_app_distr. cbn [rev]. rewrite <- app_assoc. auto.
    + intros [[i' t'] y] I. apply in_rev in I. destruct (same_ev i t (i', t', y)) eqn:S; auto.
      apply same_ev_iff in S. cbn [fst snd] in S. destruct S as [-> ->]. exfalso. eapply N; eauto.
  - intros (_ & b & a & E & N). exists (rev a), (rev b). split.
    + rewrite <- (rev_involutive (events h)), E, rev_app_distr. cbn [rev]. rewrite <- app_assoc. auto.
    + intros y I. apply in_rev in I. apply N in I.
      assert (X: same_ev i t (i, t, y) = true) by (apply same_ev_iff; auto). congruence.
Qed.

Lemma last_at_in h i t x : last_at h i t x -> In (i, t, x) (events h).
Proof. intros (b & a & -> & _). apply in_app_iff. right. left. auto. Qed.
Lemma last_at_unique h i t x y : last_at h i t x -> last_at h i t y -> x = y.
Proof. rewrite !last_at_find. congruence. Qed.

Lemma stored_unique h ts now i v v' : stored h ts now i v -> stored h ts now i v' -> v = v'.
Proof.
  intros (t & ttl & T & L & A & N) (t' & ttl' & T' & L' & A' & N').
  assert (t = t').
  { apply Z.le_antisymm; [eapply N'; eauto|eapply N; eauto]. }
  subst t'. pose proof (last_at_unique _ _ _ _ _ L L'). congruence.
Qed.

(** ** the version an event leaves under a key *)
Definition evv (key : Z -> bytes) (val : vec -> bytes) (e : event) : version :=
  match e with
  | (i, t, Some (ttl, v)) => {| vkey := key i; vts := t; vflag := vflag_of ttl; vttl := ttl; vval := val v |}
  | (i, t, None) => {| vkey := key i; vts := t; vflag := kDelete; vttl := 0; vval := [] |}
  end.

Lemma evv_key key val e : vkey (evv key val e) = key (fst (fst e)).
Proof. destruct e as [[i t] [[ttl v]|]]; auto. Qed.
Lemma evv_ts key val e : vts (evv key val e) = snd (fst e).
Proof. destruct e as [[i t] [[ttl v]|]]; auto. Qed.
Lemma evv_live key val now e : live now (evv key val e) <->
  exists ttl v, snd e = Some (ttl, v) /\ (ttl = 0 \/ now <= ttl).
Proof.
  destruct e as [[i t] [[ttl v]|]]; unfold live; cbn [evv vflag vttl snd].
  - unfold vflag_of. destruct (Z.eqb_spec ttl 0) as [->|N].
    + split; auto. intros _. exists 0, v. auto.
    + split; [intros L; exists ttl, v; auto|]. intros (ttl' & v' & E & H).
      assert (ttl = ttl') by congruence. subst. destruct H; congruence.
  - split; [tauto|]. intros (ttl & v & E & _). discriminate.
Qed.

(** the writes [ws] touch the keys [key i] exactly as the events say *)
Definition legal (i : Z) : Prop := 0 <= i < 2 ^ 63.
Definition strict (i : Z) : Prop := 1 <= i < 2 ^ 63 - 1.
Lemma strict_legal i : strict i -> legal i.
Proof. unfold strict, legal. lia. Qed.
Definition inj_on (key : Z -> bytes) : Prop := forall i j, legal i -> legal j -> key i = key j -> i = j.
Definition tracks (key : Z -> bytes) (val : vec -> bytes) (h : list op) (ws : list version) : Prop :=
  forall i, legal i -> filter (fun u => beqb (vkey u) (key i)) ws =
                       filter (fun u => beqb (vkey u) (key i)) (map (evv key val) (events h)).
Definition ids_legal (h : list op) : Prop := forall i t x, In (i, t, x) (events h) -> strict i.

Lemma find_map {A B} (f : A -> B) (p : B -> bool) l : find p (map f l) = option_map f (find (fun x => p (f x)) l).
Proof. induction l as [|a l IH]; auto. cbn [map find]. destruct (p (f a)); auto. Qed.
Lemma find_ext_in {A} (p q : A -> bool) l : (forall x, In x l -> p x = q x) -> find p l = find q l.
Proof.
  induction l as [|a l IH]; auto. intros H. cbn [find]. rewrite (H a) by (left; auto).
  destruct (q a); auto. apply IH. intros x I. apply H. right. auto.
Qed.

Lemma tracks_In key val h ws u i : inj_on key -> ids_legal h -> tracks key val h ws -> legal i -> vkey u = key i ->
  (In u (build ws) <-> exists x, last_at h i (vts u) x /\ u = evv key val (i, vts u, x)).
Proof.
  intros J L T Hi K. rewrite build_In.
  rewrite <- (find_filter (same u) (fun w => beqb (vkey w) (key i))).
  2:{ intros w S. apply same_iff in S. apply beqb_true. rewrite <- K. apply S. }
  rewrite filter_rev, T by auto. rewrite <- filter_rev. rewrite find_filter.
  2:{ intros w S. apply same_iff in S. apply beqb_true. rewrite <- K. apply S. }
  rewrite <- map_rev, find_map.
  rewrite (find_ext_in _ (same_ev i (vts u))).
  2:{ intros [[i' t'] y] I. apply in_rev in I. apply eq_true_iff_eq. rewrite same_iff, same_ev_iff.
      rewrite evv_key, evv_ts. cbn [fst snd]. rewrite K. split; intros [A B]; subst; auto. split; auto.
      apply J; auto. apply strict_legal. apply (L _ _ _ I). }
  split.
  - destruct (find (same_ev i (vts u)) (rev (events h))) as [[[i' t'] y]|] eqn:F; [|discriminate].
    pose proof F as F'. apply find_some in F'. destruct F' as [_ S]. apply same_ev_iff in S. cbn [fst snd] in S.
    destruct S as [-> ->]. cbn [option_map]. intros E. exists y. split; [apply last_at_find; auto|congruence].
  - intros (x & E & U). apply last_at_find in E. rewrite E. cbn [option_map]. congruence.
Qed.

(** what a reader sees under a key is what is stored *)
Lemma tracks_visible key val h ws i ts now u : inj_on key -> ids_legal h -> tracks key val h ws -> legal i ->
  (visible (build ws) (key i) ts now u <->
   exists ttl v, last_at h i (vts u) (Some (ttl, v)) /\ u = evv key val (i, vts u, Some (ttl, v)) /\
     vts u <= effective_ts ts /\ (ttl = 0 \/ now <= ttl) /\
     forall t' x, last_at h i t' x -> t' <= effective_ts ts -> t' <= vts u).
Proof.
  intros J L T Hi. unfold visible, newest. split.
  - intros ((I & K & B & M) & V). apply (tracks_In key val h ws u i) in I; auto. destruct I as (x & A & E).
    rewrite E in V. apply evv_live in V. destruct V as (ttl & v & Ex & V). cbn [snd] in Ex. subst x.
    exists ttl, v. split; auto. split; auto. split; auto. split; auto.
    intros t' x A' B'. set (u' := evv key val (i, t', x)).
    assert (K': vkey u' = key i) by (unfold u'; rewrite evv_key; auto).
    assert (T': vts u' = t') by (unfold u'; rewrite evv_ts; auto).
    rewrite <- T'. apply M; auto; [|lia]. apply (tracks_In key val h ws u' i); auto.
    exists x. rewrite T'. auto.
  - intros (ttl & v & A & E & B & V & M).
    assert (K: vkey u = key i) by (rewrite E, evv_key; auto).
    split; [split; [|split; [|split]]|]; auto.
    + apply (tracks_In key val h ws u i); auto. eexists; eauto.
    + intros w I KW BW. apply (tracks_In key val h ws w i) in I; auto. destruct I as (x & AW & _). eapply M; eauto.
    + rewrite E. apply evv_live. exists ttl, v. auto.
Qed.

Lemma tracks_stored key val h ws i ts now v : inj_on key -> ids_legal h -> tracks key val h ws -> legal i ->
  stored h ts now i v ->
  exists u, visible (build ws) (key i) ts now u /\ vval u = val v.
Proof.
  intros J L T Hi (t & ttl & B & A & V & M).
  exists (evv key val (i, t, Some (ttl, v))). split; auto.
  apply (tracks_visible key val h); auto. rewrite evv_ts. cbn [fst snd]. exists ttl, v. auto 10.
Qed.
Lemma tracks_visible_stored key val h ws i ts now u : inj_on key -> ids_legal h -> tracks key val h ws -> legal i ->
  visible (build ws) (key i) ts now u -> exists v, stored h ts now i v /\ vval u = val v.
Proof.
  intros J L T Hi V. apply (tracks_visible key val h) in V; auto. destruct V as (ttl & v & A & E & B & V & M).
  exists v. split; [|rewrite E; auto]. exists (vts u), ttl. auto.
Qed.

(** ** the column families *)
Definition dkey (p a : Z) (i : Z) : bytes := plain4 p a i [].
Definition skey (p a : Z) (s : bytes) (i : Z) : bytes := plain4 p a i s.

Lemma comp_id p a i : comp_ok p a 0 -> 0 <= i < 2 ^ 63 -> comp_ok p a i.
Proof. unfold comp_ok. intuition. Qed.
Lemma legal_comp p a i : comp_ok p a 0 -> legal i -> comp_ok p a i.
Proof. unfold legal. intros. apply comp_id; auto. Qed.

Lemma plain4_inj p a i s j s' : comp_ok p a i -> comp_ok p a j -> plain4 p a i s = plain4 p a j s' -> i = j /\ s = s'.
Proof.
  intros C C' E. pose proof (plain4_order p a i s p a j s' C C') as O. rewrite E, bcmp_refl in O.
  unfold vector_order in O. rewrite !Z.compare_refl in O.
  destruct (Z.compare_spec i j); try discriminate. split; auto. symmetry in O. apply bcmp_eq in O. auto.
Qed.

Lemma inj_skey p a s : comp_ok p a 0 -> inj_on (skey p a s).
Proof. intros C i j Hi Hj E. unfold skey in E. apply plain4_inj in E; auto using legal_comp. tauto. Qed.

(** the writes to the speed-up column for one event *)
Definition speed_keys (s : schema) : list bytes := map f_key (filter f_speed s).
Definition no_val : sval := mkS TNone [].
Definition sval_of (s : bytes) (v : vec) : sval := match lookup s (v_scalar v) with Some x => x | None => no_val end.
Definition speed_writes (W : wire) (p a : Z) (sc : schema) (e : event) : list version :=
  map (fun s => evv (skey p a s) (fun v => ser_val W (sval_of s v)) e) (speed_keys sc).

(** events as the service lets them through *)
Definition event_ok (W : wire) (sc : schema) (e : event) : Prop :=
  ts_ok (snd (fst e)) /\ strict (fst (fst e)) /\
  match snd e with None => True | Some (ttl, v) => 0 <= ttl < 2 ^ 63 /\ vec_ok W sc ttl v end.

Lemma op_events_ok W sc o : op_ok W sc o -> Forall (event_ok W sc) (events_of o).
Proof.
  destruct o as [ts ttl vs|ts ids]; cbn [op_ok events_of].
  - intros (T & L & F). rewrite Forall_map. eapply Forall_impl; [|exact F]. cbv beta. intros v V.
    split; auto. split; [apply V|]. cbn [snd]. auto.
  - intros (T & F). rewrite Forall_map. eapply Forall_impl; [|exact F]. cbv beta. intros i I.
    split; auto. split; auto. cbn [snd]. auto.
Qed.
Lemma events_ok W sc h : Forall (op_ok W sc) h -> Forall (event_ok W sc) (events h).
Proof.
  intros F. unfold events. apply Forall_forall. intros e I. apply in_flat_map in I. destruct I as (o & O & E).
  rewrite Forall_forall in F. specialize (F o O). apply op_events_ok in F. rewrite Forall_forall in F. auto.
Qed.
Lemma events_legal W sc h : Forall (op_ok W sc) h -> ids_legal h.
Proof. intros F i t x I. apply events_ok in F. rewrite Forall_forall in F. apply F in I. apply I. Qed.

Lemma evv_ok W sc key val e : event_ok W sc e -> bytes_ok (key (fst (fst e))) ->
  (forall ttl v, snd e = Some (ttl, v) -> ttl <> 0 -> val v <> []) -> version_ok (evv key val e).
Proof.
  intros (T & _ & E) K V. destruct e as [[i t] [[ttl v]|]]; cbn [evv fst snd] in *.
  - split; auto. split; auto. split; [apply E|]. cbn [vflag vval]. unfold vflag_of.
    destruct (Z.eqb_spec ttl 0); [discriminate|]. intros _. eapply V; eauto.
  - split; auto. split; auto. cbn. split; [lia|discriminate].
Qed.

Lemma dkey_ok p a i : comp_ok p a 0 -> legal i -> bytes_ok (dkey p a i).
Proof. intros C L. apply plain4_ok; [apply legal_comp; auto|constructor]. Qed.
Lemma skey_ok p a s i : comp_ok p a 0 -> bytes_ok s -> legal i -> bytes_ok (skey p a s i).
Proof. intros C S L. apply plain4_ok; auto. apply legal_comp; auto. Qed.

Lemma data_ok W sc p a e : comp_ok p a 0 -> event_ok W sc e ->
  version_ok (evv (dkey p a) (fun v => ser_vec W (v_data v)) e) /\
  version_ok (evv (dkey p a) (fun v => ser_map W (v_scalar v)) e) /\
  version_ok (evv (dkey p a) (fun v => ser_tab W (v_table v)) e).
Proof.
  intros C E. assert (K: bytes_ok (dkey p a (fst (fst e)))) by (apply dkey_ok; auto; apply strict_legal, E).
  split; [|split]; apply (evv_ok W sc); auto; intros ttl v X N; destruct E as (_ & _ & E); rewrite X in E;
    destruct E as (_ & _ & _ & E); specialize (E N); tauto.
Qed.

Lemma lookup_in k m x : lookup k m = Some x -> In (k, x) m.
Proof.
  induction m as [|[k' y] m IH]; cbn [lookup]; [discriminate|]. destruct (beqb k k') eqn:E.
  - intros H. apply beqb_true in E. left. congruence.
  - intros H. right. auto.
Qed.
Lemma in_lookup k m x : In (k, x) m -> exists y, lookup k m = Some y.
Proof.
  induction m as [|[k' y] m IH]; [intros []|]. cbn [lookup]. intros [E|I].
  - assert (k' = k) by congruence. subst. rewrite beqb_refl. eauto.
  - destruct (beqb k k'); eauto.
Qed.

(** a speed-up attribute is always there *)
Lemma valid_speed sc m s : valid_scalars sc m = true -> In s (speed_keys sc) -> exists x, lookup s m = Some x.
Proof.
  intros V I. apply in_map_iff in I. destruct I as (f & <- & I). apply filter_In in I. destruct I as [I S].
  unfold valid_scalars in V. rewrite forallb_forall in V. specialize (V f I).
  destruct (lookup (f_key f) m) as [x|]; eauto. rewrite S in V. discriminate.
Qed.

Lemma speed_ok W sc p a e : comp_ok p a 0 -> schema_ok sc -> event_ok W sc e -> Forall version_ok (speed_writes W p a sc e).
Proof.
  intros C [_ S] E. unfold speed_writes. rewrite Forall_map. apply Forall_forall. intros s I.
  assert (Hs: bytes_ok s).
  { apply in_map_iff in I. destruct I as (f & <- & I). apply filter_In in I. apply S. tauto. }
  apply (evv_ok W sc); auto.
  - apply skey_ok; auto. apply strict_legal, E.
  - intros ttl v X N. destruct E as (_ & _ & E). rewrite X in E. destruct E as (_ & _ & V & E).
    destruct (valid_speed _ _ _ V I) as (x & Lx). unfold sval_of. rewrite Lx. apply lookup_in in Lx.
    specialize (E N). eapply E; eauto.
Qed.

(** ** writing *)
Lemma split_valid sc m : valid_scalars sc m = true -> split_scalars sc m =
  map (fun s => (s, match lookup s m with Some x => x | None => no_val end)) (speed_keys sc).
Proof.
  unfold speed_keys, valid_scalars. induction sc as [|f r IH]; auto. cbn [forallb split_scalars filter]. intros V.
  apply andb_true_iff in V. destruct V as [V1 V2]. destruct (f_speed f); auto. cbn [map].
  destruct (lookup (f_key f) m); [|discriminate]. rewrite IH; auto.
Qed.

Lemma omap_list_ok {A B} (f : A -> outcome B) (g : A -> B) l : (forall x, In x l -> f x = Ok (g x)) ->
  omap_list f l = Ok (map g l).
Proof.
  induction l as [|a l IH]; auto. intros H. cbn [omap_list map]. rewrite (H a) by (left; auto). cbn [obind].
  rewrite IH by (intros x I; apply H; right; auto). reflexivity.
Qed.

Lemma fold_put_items ts items : forall vs, ts_ok ts -> Forall item_ok items -> Forall version_ok vs ->
  fold_left (put_item ts) items (map enc vs) = map enc (fold_left (fun vs v => vput v vs) (map (ver ts) items) vs).
Proof.
  induction items as [|i items IH]; intros vs T FI F; auto. inversion FI; subst. cbn [fold_left map].
  rewrite (put_item_enc ts i _ vs) by auto. apply IH; auto. apply vput_ok; auto. apply ver_ok; auto.
Qed.

Lemma version_item ts i : version_ok (ver ts i) -> ts_ok ts /\ item_ok i.
Proof. intros (A & B & C & D). split; auto. split; auto. Qed.

Section Write.
  Variables (W : wire) (g : region) (p a l hi : Z).
  Hypothesis SV : serves g p a l hi.
  Hypothesis SC : schema_ok (g_schema g).
  Let sc := g_schema g.

  Lemma serves_comp : comp_ok p a 0. Proof. apply SV. Qed.
  Lemma serves_prefix : key_prefix g = Ok p.
  Proof.
    destruct SV as (C & _ & [[E _]|[E L]] & _); unfold key_prefix.
    - rewrite (package_key2_eq p a 0) in E by auto. apply Ok_inj in E. rewrite <- E. auto.
    - rewrite package_key3_eq in E by (apply comp_id; auto). apply Ok_inj in E. rewrite <- E. auto.
  Qed.
  Lemma serves_part : g_part g = a. Proof. apply SV. Qed.

  Lemma plain_of_ok i : 0 <= i < 2 ^ 63 -> plain_of g i = Ok (dkey p a i).
  Proof.
    intros L. unfold plain_of. rewrite serves_prefix. cbn [obind]. rewrite serves_part.
    apply package_key3_eq. apply comp_id; auto. apply serves_comp.
  Qed.
  Lemma key4_ok i s : legal i -> s <> [] -> package_key4 p (g_part g) i s = Ok (skey p a s i).
  Proof.
    intros L N. rewrite serves_part. apply package_key4_eq; auto. apply legal_comp; auto. apply serves_comp.
  Qed.

  Definition ws_data (es : list event) := map (evv (dkey p a) (fun v => ser_vec W (v_data v))) es.
  Definition ws_scalar (es : list event) := map (evv (dkey p a) (fun v => ser_map W (v_scalar v))) es.
  Definition ws_table (es : list event) := map (evv (dkey p a) (fun v => ser_tab W (v_table v))) es.
  Definition ws_speed (es : list event) := flat_map (speed_writes W p a sc) es.
  Definition holds (es : list event) (c : cfs) : Prop :=
    cf_data c = map enc (build (ws_data es)) /\ cf_scalar c = map enc (build (ws_scalar es)) /\
    cf_table c = map enc (build (ws_table es)) /\ cf_speed c = map enc (build (ws_speed es)).

  Lemma ws_ok es : Forall (event_ok W sc) es ->
    Forall version_ok (ws_data es) /\ Forall version_ok (ws_scalar es) /\
    Forall version_ok (ws_table es) /\ Forall version_ok (ws_speed es).
  Proof.
    intros F. rewrite Forall_forall in F. pose proof serves_comp as C.
    split; [|split; [|split]].
    1-3: unfold ws_data, ws_scalar, ws_table; rewrite Forall_map; apply Forall_forall; intros e I;
      destruct (data_ok W sc p a e C (F e I)) as (A & B & D); auto.
    unfold ws_speed. apply Forall_forall. intros u I. apply in_flat_map in I. destruct I as (e & Ie & I).
    pose proof (speed_ok W sc p a e C SC (F e Ie)) as X. rewrite Forall_forall in X. auto.
  Qed.

  Lemma speed_nonempty s : In s (speed_keys sc) -> s <> [].
  Proof. intros I. apply in_map_iff in I. destruct I as (f & <- & I). apply filter_In in I. apply SC. tauto. Qed.

  Lemma put_holds ts i ws v : version_ok v -> ver ts i = v -> Forall version_ok ws ->
    put_item ts (map enc (build ws)) i = map enc (build (ws ++ [v])).
  Proof.
    intros V E F. subst v. apply version_item in V. destruct V as [T I].
    rewrite (put_item_enc ts i _ (build ws)) by (auto using build_ok). rewrite build_snoc. auto.
  Qed.
  Lemma puts_hold ts items ws vs : ts_ok ts -> Forall version_ok vs -> map (ver ts) items = vs -> Forall version_ok ws ->
    fold_left (put_item ts) items (map enc (build ws)) = map enc (build (ws ++ vs)).
  Proof.
    intros T V E F. subst vs. rewrite fold_put_items; auto using build_ok.
    - rewrite build_app. auto.
    - rewrite Forall_map in V. eapply Forall_impl; [|exact V]. cbv beta. intros i I. apply version_item in I. tauto.
  Qed.

  Lemma add_vec_ok es ts ttl v c : Forall (event_ok W sc) es -> event_ok W sc (v_id v, ts, Some (ttl, v)) -> holds es c ->
    exists c', add_vec W g ts ttl c v = Ok c' /\ holds (es ++ [(v_id v, ts, Some (ttl, v))]) c'.
  Proof.
    intros F E (H1 & H2 & H3 & H4). pose proof serves_comp as C.
    assert (L: legal (v_id v)) by apply strict_legal, E. assert (T: ts_ok ts) by apply E.
    assert (V: valid_scalars sc (v_scalar v) = true) by apply E.
    destruct (ws_ok es F) as (F1 & F2 & F3 & F4).
    destruct (data_ok W sc p a _ C E) as (D1 & D2 & D3).
    pose proof (speed_ok W sc p a _ C SC E) as D4.
    unfold add_vec. rewrite serves_prefix. cbn [obind].
    assert (PK: package_key3 p (g_part g) (v_id v) = Ok (dkey p a (v_id v))).
    { rewrite serves_part. apply package_key3_eq. apply legal_comp; auto. }
    rewrite PK. cbn [obind].
    rewrite (omap_list_ok _ (fun kv => add_item (skey p a (fst kv) (v_id v)) ttl (ser_val W (snd kv)))).
    2:{ intros [s x] I. cbn [fst snd]. fold sc in I. rewrite split_valid in I by auto. apply in_map_iff in I.
        destruct I as (s' & E' & I). assert (s = s') by congruence. subst s'.
        rewrite key4_ok by (auto; apply speed_nonempty; auto). reflexivity. }
    cbn [obind]. eexists. split; [reflexivity|]. unfold holds, ws_data, ws_scalar, ws_table, ws_speed. cbn [cf_data cf_scalar cf_table cf_speed].
    rewrite !map_app, flat_map_app. cbn [map flat_map]. rewrite app_nil_r.
    rewrite H1, H2, H3, H4. split; [|split; [|split]].
    1-3: apply put_holds; auto.
    apply puts_hold; auto. rewrite map_map. cbn [fst snd]. fold sc. rewrite split_valid by auto. rewrite map_map. reflexivity.
  Qed.

  Lemma del_vec_ok es ts i c : Forall (event_ok W sc) es -> event_ok W sc (i, ts, None) -> holds es c ->
    exists c', del_vec g ts c i = Ok c' /\ holds (es ++ [(i, ts, None)]) c'.
  Proof.
    intros F E (H1 & H2 & H3 & H4). pose proof serves_comp as C.
    assert (L: legal i) by apply strict_legal, E. assert (T: ts_ok ts) by apply E.
    destruct (ws_ok es F) as (F1 & F2 & F3 & F4).
    destruct (data_ok W sc p a _ C E) as (D1 & D2 & D3).
    pose proof (speed_ok W sc p a _ C SC E) as D4.
    unfold del_vec. rewrite serves_prefix. cbn [obind].
    assert (PK: package_key3 p (g_part g) i = Ok (dkey p a i)).
    { rewrite serves_part. apply package_key3_eq. apply legal_comp; auto. }
    rewrite PK. cbn [obind].
    rewrite (omap_list_ok _ (fun f => del_item (skey p a (f_key f) i))).
    2:{ intros f I. rewrite key4_ok; auto. apply speed_nonempty. apply in_map. auto. }
    cbn [obind]. eexists. split; [reflexivity|]. unfold holds, ws_data, ws_scalar, ws_table, ws_speed. cbn [cf_data cf_scalar cf_table cf_speed].
    rewrite !map_app, flat_map_app. cbn [map flat_map]. rewrite app_nil_r.
    rewrite H1, H2, H3, H4. split; [|split; [|split]].
    1-3: apply put_holds; auto.
    apply puts_hold; auto. unfold speed_writes, speed_keys. rewrite !map_map. reflexivity.
  Qed.

  Lemma ofold_events {X} (f : cfs -> X -> outcome cfs) (ev : X -> event) xs :
    (forall es x c, Forall (event_ok W sc) es -> event_ok W sc (ev x) -> holds es c ->
       exists c', f c x = Ok c' /\ holds (es ++ [ev x]) c') ->
    forall es c, Forall (event_ok W sc) es -> Forall (event_ok W sc) (map ev xs) -> holds es c ->
      exists c', ofold f c xs = Ok c' /\ holds (es ++ map ev xs) c'.
  Proof.
    intros H. induction xs as [|x xs IH]; intros es c F FX HC; cbn [ofold map].
    - exists c. rewrite app_nil_r. auto.
    - inversion FX; subst. destruct (H es x c F H2 HC) as (c1 & E1 & HC1). rewrite E1. cbn [obind].
      destruct (IH (es ++ [ev x]) c1) as (c2 & E2 & HC2); auto.
      { apply Forall_app. split; auto. }
      exists c2. split; auto. rewrite <- app_assoc in HC2. auto.
  Qed.

  Lemma apply_op_ok es o c : Forall (event_ok W sc) es -> op_ok W sc o -> holds es c ->
    exists c', apply_op W g c o = Ok c' /\ holds (es ++ events_of o) c'.
  Proof.
    intros F O HC. pose proof (op_events_ok W sc o O) as FO. destruct o as [ts ttl vs|ts ids]; cbn [apply_op events_of] in *.
    - apply (ofold_events (add_vec W g ts ttl) (fun v => (v_id v, ts, Some (ttl, v))) vs); auto.
      intros. apply add_vec_ok; auto.
    - apply (ofold_events (del_vec g ts) (fun i => (i, ts, None)) ids); auto.
      intros. apply del_vec_ok; auto.
  Qed.

  Lemma apply_ops_ok h : Forall (op_ok W sc) h -> exists c, apply_ops W g h = Ok c /\ holds (events h) c.
  Proof.
    unfold apply_ops. intros F.
    enough (X: forall es c, Forall (event_ok W sc) es -> holds es c ->
      exists c', ofold (apply_op W g) c h = Ok c' /\ holds (es ++ events h) c').
    { destruct (X [] cfs0) as (c & E & HC); auto. unfold holds. cbn. auto. exists c. auto. }
    induction F as [|o h O F IH]; intros es c FE HC; cbn [ofold].
    - exists c. unfold events. cbn [flat_map]. rewrite app_nil_r. auto.
    - destruct (apply_op_ok es o c FE O HC) as (c1 & E1 & HC1). rewrite E1. cbn [obind].
      destruct (IH (es ++ events_of o) c1) as (c2 & E2 & HC2); auto.
      { apply Forall_app. split; auto. apply op_events_ok; auto. }
      exists c2. split; auto. unfold events. cbn [flat_map]. fold (events h). rewrite app_assoc. auto.
  Qed.

  (** each column tracks the events *)
  Lemma tracks_map key val h : tracks key val h (map (evv key val) (events h)).
  Proof. intros i L. auto. Qed.

  Lemma tracks_speed s h : Forall (op_ok W sc) h -> In s (speed_keys sc) ->
    tracks (skey p a s) (fun v => ser_val W (sval_of s v)) h (ws_speed (events h)).
  Proof.
    intros F I i L. apply events_ok in F. pose proof serves_comp as C.
    assert (ND: NoDup (speed_keys sc)).
    { unfold speed_keys. destruct SC as [ND _]. fold sc in ND. clear - ND. induction sc as [|f r IH]; [constructor|].
      cbn [map] in ND. inversion ND; subst. cbn [filter]. destruct (f_speed f); cbn [map]; auto. constructor; auto.
      intros I. apply H1. apply in_map_iff in I. destruct I as (f' & E & I). apply filter_In in I. apply in_map_iff. exists f'. tauto. }
    induction F as [|e es E F IH]; auto.
    unfold ws_speed in *. cbn [flat_map map]. rewrite filter_app, IH. cbn [filter].
    assert (X: filter (fun u => beqb (vkey u) (skey p a s i)) (speed_writes W p a sc e) =
      if beqb (vkey (evv (skey p a s) (fun v => ser_val W (sval_of s v)) e)) (skey p a s i)
      then [evv (skey p a s) (fun v => ser_val W (sval_of s v)) e] else []).
    { unfold speed_writes. clear IH. revert ND I. generalize (speed_keys sc) as ks. induction ks as [|k ks IHk]; [intros _ []|].
      intros ND I. inversion ND; subst. cbn [map filter]. rewrite evv_key at 1.
      assert (NE: forall k', k' <> s -> beqb (skey p a k' (fst (fst e))) (skey p a s i) = false).
      { intros k' N. apply beqb_false. intros X. apply plain4_inj in X; [tauto| |]; apply legal_comp; auto. apply strict_legal, E. }
      destruct I as [->|I].
      - assert (Z0: filter (fun u => beqb (vkey u) (skey p a s i))
                 (map (fun s0 => evv (skey p a s0) (fun v => ser_val W (sval_of s0 v)) e) ks) = []).
        { clear IHk ND H2. induction ks as [|k' ks IH2]; auto. cbn [map filter]. rewrite evv_key. rewrite NE.
          - apply IH2. intros X. apply H1. right. auto.
          - intros ->. apply H1. left. auto. }
        rewrite Z0. rewrite evv_key. auto.
      - assert (N: k <> s) by (intros ->; auto). rewrite NE by auto. apply IHk; auto. }
    rewrite X. destruct (beqb _ _); auto.
  Qed.
End Write.
