(** Proofs for the raw API, part 2: the writer does what the specification says. *)
From Coq Require Import ZArith List Lia Bool PeanoNat.
From Verif Require Import Bytes SMap Outcome CodecModel CodecSpec CodecProofs2 MvccModel RawModel RawSpec RawProofs1.
Import ListNotations.
Open Scope Z_scope.

Definition agree (m : amap) (now : Z) (keys : list bytes) (reads : list (option bytes)) : Prop :=
  reads = map (aview m now) (firstn (length reads) keys).

Lemma agree_nil m now keys : agree m now keys [].
Proof. reflexivity. Qed.
Lemma agree_cons m now k keys x reads : agree m now (k :: keys) (x :: reads) ->
  x = aview m now k /\ agree m now keys reads.
Proof. unfold agree. cbn [length firstn map]. intros H. injection H. auto. Qed.
Lemma agree_nil_keys m now x reads : ~ agree m now [] (x :: reads).
Proof. unfold agree. rewrite firstn_nil. discriminate. Qed.
Lemma agree_snoc m now keys reads k : agree m now keys reads -> nth_error keys (length reads) = Some k ->
  agree m now keys (reads ++ [aview m now k]).
Proof.
  revert reads. induction keys as [|k0 keys IH]; intros reads A N.
  - destruct (length reads); discriminate.
  - destruct reads as [|x reads]; cbn [length nth_error app] in *.
    + injection N as ->. reflexivity.
    + apply agree_cons in A. destruct A as [-> A]. unfold agree. cbn [length firstn map]. f_equal. apply (IH reads); auto.
Qed.
Lemma agree_ext m m' now now' keys reads : (forall k, In k keys -> aview m now k = aview m' now' k) ->
  agree m now keys reads -> agree m' now' keys reads.
Proof.
  unfold agree. intros H A. rewrite A at 1. apply map_ext_in. intros k I. apply H.
  rewrite <- (firstn_skipn (length reads) keys). apply in_app_iff. auto.
Qed.

Definition dl_ok (t0 ttl : Z) : Prop := ttl <> 0 -> 0 < t0 + ttl.

Lemma value_ival t0 ttl k v : dl_ok t0 ttl -> ival (value_item (deadline t0 ttl) k v) = Some (v, expiry t0 ttl).
Proof.
  intros D. unfold value_item, deadline, expiry. destruct (ttl =? 0) eqn:E; [reflexivity|].
  apply Z.eqb_neq in E. specialize (D E). destruct (t0 + ttl =? 0) eqn:F; [apply Z.eqb_eq in F; lia|]. reflexivity.
Qed.
Lemma value_key dl k v : i_key (value_item dl k v) = k.
Proof. unfold value_item. destruct (dl =? 0); auto. Qed.
Lemma cas_key dl k v : i_key (cas_item dl k v) = k.
Proof. unfold cas_item. destruct v; auto. apply value_key. Qed.

Lemma eff_put ts t0 ttl kvs : dl_ok t0 ttl -> forall m,
  eff (CWrite ts (map (fun kv => value_item (deadline t0 ttl) (fst kv) (snd kv)) kvs)) m = put_all m (expiry t0 ttl) kvs.
Proof.
  intros D. unfold eff, put_all. induction kvs as [|kv kvs IH]; intros m; cbn [map fold_left]; auto.
  rewrite value_key, value_ival by auto. apply IH.
Qed.
Lemma eff_cas ts t0 ttl kvs : dl_ok t0 ttl -> forall m,
  eff (CWrite ts (map (fun kv => cas_item (deadline t0 ttl) (fst kv) (snd kv)) kvs)) m = cas_all m (expiry t0 ttl) kvs.
Proof.
  intros D. unfold eff, cas_all. induction kvs as [|[k v] kvs IH]; intros m; cbn [map fold_left fst snd]; auto.
  rewrite cas_key. replace (ival (cas_item (deadline t0 ttl) k v)) with
    (if is_empty v then None else Some (v, expiry t0 ttl)); [apply IH|].
  destruct v; [reflexivity|]. cbn [cas_item]. rewrite value_ival; auto.
Qed.
Lemma eff_delete ts keys : forall m, eff (CWrite ts (map (fun k => mkI k kDelete 0 []) keys)) m = remove_all m keys.
Proof. unfold eff, remove_all. induction keys as [|k keys IH]; intros m; cbn [map fold_left]; auto. Qed.

(** put-if-absent *)
Lemma pia_atomic m now dl af kvs : forall reads, agree m now (map fst kvs) reads ->
  match pia_walk true dl af kvs reads with
  | WRead k => nth_error (map fst kvs) (length reads) = Some k
  | WStop r => existsb (fun kv => present m now (fst kv)) kvs = true /\ r = PStates af
  | WDone items states => existsb (fun kv => present m now (fst kv)) kvs = false /\
      items = map (fun kv => value_item dl (fst kv) (snd kv)) kvs /\ states = map (fun _ => true) kvs
  end.
Proof.
  induction kvs as [|[k v] kvs IH]; intros reads A; cbn [pia_walk].
  - auto.
  - destruct reads as [|x reads]; [reflexivity|]. cbn [map fst] in A. apply agree_cons in A. destruct A as [X A].
    cbn [existsb fst map snd]. assert (PX: present m now k = match x with Some _ => true | None => false end).
    { unfold present. rewrite <- X. auto. }
    rewrite PX. destruct x as [x|]; [split; auto|].
    specialize (IH reads A). destruct (pia_walk true dl af kvs reads); cbn [wadd orb length nth_error app]; auto.
    destruct IH as (I1 & -> & ->). rewrite I1. auto.
Qed.
Lemma pia_each m now dl af kvs : forall reads, agree m now (map fst kvs) reads ->
  match pia_walk false dl af kvs reads with
  | WRead k => nth_error (map fst kvs) (length reads) = Some k
  | WStop r => False
  | WDone items states =>
      items = map (fun kv => value_item dl (fst kv) (snd kv)) (filter (fun kv => negb (present m now (fst kv))) kvs) /\
      states = map (fun kv => negb (present m now (fst kv))) kvs
  end.
Proof.
  induction kvs as [|[k v] kvs IH]; intros reads A; cbn [pia_walk].
  - auto.
  - destruct reads as [|x reads]; [reflexivity|]. cbn [map fst] in A. apply agree_cons in A. destruct A as [X A].
    cbn [filter fst map snd]. assert (PX: present m now k = match x with Some _ => true | None => false end).
    { unfold present. rewrite <- X. auto. }
    rewrite PX.
    specialize (IH reads A). destruct x as [x|]; cbn [negb];
      destruct (pia_walk false dl af kvs reads); cbn [wadd length nth_error app map fst snd]; auto;
      destruct IH as (-> & ->); auto.
Qed.

(** delete *)
Lemma delete_spec m now keys : forall reads, agree m now keys reads ->
  match delete_walk keys reads with
  | WRead k => nth_error keys (length reads) = Some k
  | WStop r => False
  | WDone items states => items = map (fun k => mkI k kDelete 0 []) keys /\ states = map (present m now) keys
  end.
Proof.
  induction keys as [|k keys IH]; intros reads A; cbn [delete_walk].
  - auto.
  - destruct reads as [|x reads]; [reflexivity|]. apply agree_cons in A. destruct A as [X A].
    specialize (IH reads A). destruct (delete_walk keys reads); cbn [wadd length nth_error app map]; auto.
    destruct IH as (-> & ->). split; auto. f_equal. unfold present. rewrite <- X. auto.
Qed.

(** compare-and-set *)
Lemma cas_atomic m now dl af kvs : forall expects reads, length kvs = length expects -> agree m now (map fst kvs) reads ->
  match cas_walk true dl af kvs expects reads with
  | WRead k => nth_error (map fst kvs) (length reads) = Some k
  | WStop r => exists k, first_mismatch m now kvs expects = Some k /\
                 r = if present m now k then PStates af else PNotFound
  | WDone items states => first_mismatch m now kvs expects = None /\
      items = map (fun kv => cas_item dl (fst kv) (snd kv)) kvs /\ states = map (fun _ => true) kvs
  end.
Proof.
  unfold first_mismatch.
  induction kvs as [|[k v] kvs IH]; intros expects reads L A; cbn [cas_walk].
  - auto.
  - destruct expects as [|e expects]; [discriminate|]. cbn [length] in L.
    destruct reads as [|x reads]; [reflexivity|]. cbn [map fst] in A. apply agree_cons in A. destruct A as [X A]. injection L as L.
    specialize (IH expects reads L A). cbn [combine find fst snd].
    assert (M: matches m now k e = match x with Some v => beqb v e | None => is_empty e end).
    { unfold matches. rewrite <- X. auto. }
    rewrite M. destruct x as [x|].
    + destruct (beqb x e); cbn [negb].
      * destruct (cas_walk true dl af kvs expects reads); cbn [wadd length nth_error app map fst snd]; auto.
        destruct IH as (I1 & -> & ->). auto.
      * exists k. cbn [option_map fst]. split; auto. unfold present. rewrite <- X. auto.
    + destruct (is_empty e); cbn [negb].
      * destruct (cas_walk true dl af kvs expects reads); cbn [wadd length nth_error app map fst snd]; auto.
        destruct IH as (I1 & -> & ->). auto.
      * exists k. cbn [option_map fst]. split; auto. unfold present. rewrite <- X. auto.
Qed.
Lemma cas_each m now dl af kvs : forall expects reads, length kvs = length expects -> agree m now (map fst kvs) reads ->
  match cas_walk false dl af kvs expects reads with
  | WRead k => nth_error (map fst kvs) (length reads) = Some k
  | WStop r => False
  | WDone items states =>
      items = map (fun kv => cas_item dl (fst kv) (snd kv))
        (map fst (filter (fun x => matches m now (fst (fst x)) (snd x)) (combine kvs expects))) /\
      states = map (fun x => matches m now (fst (fst x)) (snd x)) (combine kvs expects)
  end.
Proof.
  induction kvs as [|[k v] kvs IH]; intros expects reads L A; cbn [cas_walk].
  - auto.
  - destruct expects as [|e expects]; [discriminate|]. cbn [length] in L.
    destruct reads as [|x reads]; [reflexivity|]. cbn [map fst] in A. apply agree_cons in A. destruct A as [X A]. injection L as L.
    specialize (IH expects reads L A). cbn [combine filter map fst snd].
    assert (M: matches m now k e = match x with Some v => beqb v e | None => is_empty e end).
    { unfold matches. rewrite <- X. auto. }
    rewrite M. destruct x as [x|]; [destruct (beqb x e)|destruct (is_empty e)];
      destruct (cas_walk false dl af kvs expects reads); cbn [wadd length nth_error app map fst snd]; auto;
      destruct IH as (-> & ->); auto.
Qed.

Lemma req_dl t0 q : req_ok t0 q ->
  match q with RPut _ ttl | RPutIfAbsent _ ttl _ | RCas _ _ ttl _ => dl_ok t0 ttl | _ => True end.
Proof. destruct q; cbn; unfold kvs_ok, dl_ok; tauto. Qed.

Lemma existsb_map_nil {A B} (f : A -> B) l : map f l = [] -> l = [].
Proof. destruct l; [auto|discriminate]. Qed.

(** the main lemma of this part *)
Lemma next_spec range q ts t0 now m reads : valid_req range q = true -> req_ok t0 q -> is_get q = false ->
  agree m now (latch_keys q) reads ->
  match next_action range q ts t0 reads with
  | NRead k => nth_error (latch_keys q) (length reads) = Some k
  | NReply r => spec range m now t0 q = (m, r)
  | NWrite c r => spec range m now t0 q = (eff c m, r)
  end.
Proof.
  intros V R G A. apply req_dl in R. destruct q as [keys|kvs ttl|kvs ttl atomic|keys|r|kvs expects ttl atomic];
    cbn [is_get] in G; try discriminate; cbn [latch_keys next_action valid_req spec] in *.
  - rewrite eff_put; auto.
  - apply andb_true_iff in V. destruct V as [V _]. apply andb_true_iff in V. destruct V as [V _].
    destruct atomic.
    + assert (P := pia_atomic m now (deadline t0 ttl) (map (fun _ => false) kvs) kvs reads A).
      destruct (pia_walk true _ _ kvs reads) as [k|r|items states]; cbn [of_walk]; auto.
      * destruct P as [-> ->]. auto.
      * destruct P as (-> & -> & ->). destruct kvs as [|kv kvs]; [discriminate|].
        cbn [map of_walk]. rewrite <- (eff_put ts t0 ttl (kv :: kvs)) by auto. reflexivity.
    + assert (P := pia_each m now (deadline t0 ttl) (map (fun _ => false) kvs) kvs reads A).
      destruct (pia_walk false _ _ kvs reads) as [k|r|items states]; cbn [of_walk]; auto; [contradiction|].
      destruct P as (-> & ->). set (l := filter _ kvs). rewrite <- (eff_put ts t0 ttl l) by auto.
      destruct l as [|kv l]; reflexivity.
  - assert (P := delete_spec m now keys reads A).
    destruct (delete_walk keys reads) as [k|r|items states]; cbn [of_walk]; auto; [contradiction|].
    destruct P as (-> & ->). rewrite <- (eff_delete ts keys). destruct keys as [|k keys]; reflexivity.
  - destruct (negb (bltb (fst r) (snd r))); auto. cbv zeta. cbn [eff].
    destruct (bltb (fst (intersect_range range r)) (snd (intersect_range range r))); auto.
  - apply andb_true_iff in V. destruct V as [V L]. apply Nat.eqb_eq in L.
    apply andb_true_iff in V. destruct V as [V _]. apply andb_true_iff in V. destruct V as [V _].
    destruct atomic.
    + assert (P := cas_atomic m now (deadline t0 ttl) (map (fun _ => false) kvs) kvs expects reads L A).
      destruct (cas_walk true _ _ kvs expects reads) as [k|r|items states]; cbn [of_walk]; auto.
      * destruct P as (k & -> & ->). auto.
      * destruct P as (-> & -> & ->). destruct kvs as [|kv kvs]; [discriminate|].
        cbn [map of_walk]. rewrite <- (eff_cas ts t0 ttl (kv :: kvs)) by auto. reflexivity.
    + assert (P := cas_each m now (deadline t0 ttl) (map (fun _ => false) kvs) kvs expects reads L A).
      destruct (cas_walk false _ _ kvs expects reads) as [k|r|items states]; cbn [of_walk]; auto; [contradiction|].
      destruct P as (-> & ->). set (l := map fst _). rewrite <- (eff_cas ts t0 ttl l) by auto.
      destruct l as [|kv l]; reflexivity.
Qed.

(** reads *)
Lemma get_walk_spec keys : forall reads found, (length reads <= length keys)%nat ->
  match get_walk keys reads found with
  | WRead k => nth_error keys (length reads) = Some k
  | WStop r => length reads = length keys /\
      r = PVals (found ++ flat_map (fun x => match snd x with Some v => [(fst x, v)] | None => [] end) (combine keys reads))
  | WDone _ _ => False
  end.
Proof.
  induction keys as [|k keys IH]; intros reads found L; cbn [get_walk].
  - destruct reads; [|cbn in L; lia]. split; auto. cbn. rewrite app_nil_r. auto.
  - destruct reads as [|x reads]; [reflexivity|]. cbn [length] in *.
    specialize (IH reads (found ++ match x with Some v => [(k, v)] | None => [] end) ltac:(lia)).
    destruct (get_walk keys reads _); auto. destruct IH as [IH ->]. split; auto.
    rewrite <- app_assoc. cbn [combine flat_map fst snd]. auto.
Qed.

(** the keys a command writes are among the latched ones, the command is well formed *)
Lemma walk_items range q ts t0 reads c r : next_action range q ts t0 reads = NWrite c r ->
  (takes_ts q = true -> cmd_ts c = ts) /\ (forall k, key_of c k -> takes_ts q = true /\ In k (latch_keys q)).
Proof.
  assert (OW: forall w, of_walk ts w = NWrite c r -> exists items states, w = WDone items states /\ c = CWrite ts items).
  { intros w. destruct w as [k|r'|items states]; cbn [of_walk]; try discriminate.
    destruct items; intros H; inversion H; subst. eauto. }
  assert (K: forall (P : list bytes) items, (forall i, In i items -> In (i_key i) P) -> c = CWrite ts items ->
     (true = true -> cmd_ts c = ts) /\ forall k, key_of c k -> true = true /\ In k P).
  { intros P items H ->. split; auto. intros k I. cbn in I. apply in_map_iff in I. destruct I as (i & <- & I). auto. }
  destruct q as [keys|kvs ttl|kvs ttl atomic|keys|rg|kvs expects ttl atomic]; cbn [next_action latch_keys takes_ts].
  - intros H. exfalso. apply OW in H. destruct H as (items & states & W & _). revert W.
    generalize (@nil (bytes * bytes)). revert reads. induction keys as [|k keys IH]; intros reads found; cbn [get_walk]; try discriminate.
    destruct reads; try discriminate. apply IH.
  - intros H. inversion H; subst. eapply K; [|reflexivity]. intros i I. apply in_map_iff in I. destruct I as (kv & <- & I).
    rewrite value_key. apply in_map; auto.
  - intros H. apply OW in H. destruct H as (items & states & W & E). eapply K; [|exact E]. clear E K OW.
    revert reads items states W. generalize (map (fun _ : bytes * bytes => false) kvs) as af.
    induction kvs as [|[k v] kvs IH]; intros af reads items states; cbn [pia_walk].
    + intros H. inversion H. intros i [].
    + destruct reads as [|[x|] reads]; try discriminate.
      * destruct atomic; try discriminate. destruct (pia_walk false (deadline t0 ttl) af kvs reads) eqn:W; cbn [wadd]; try discriminate.
        intros H. inversion H; subst. intros i I. right. eapply IH; eauto.
      * destruct (pia_walk atomic (deadline t0 ttl) af kvs reads) eqn:W; cbn [wadd]; try discriminate.
        intros H. inversion H; subst. intros i [<-|I]; [left; rewrite value_key; auto|]. right. eapply IH; eauto.
  - intros H. apply OW in H. destruct H as (items & states & W & E). eapply K; [|exact E]. clear E K OW.
    revert reads items states W. induction keys as [|k keys IH]; intros reads items states; cbn [delete_walk].
    + intros H. inversion H. intros i [].
    + destruct reads as [|x reads]; try discriminate.
      destruct (delete_walk keys reads) eqn:W; cbn [wadd]; try discriminate.
      intros H. inversion H; subst. intros i [<-|I]; [left; auto|]. right. eapply IH; eauto.
  - destruct (negb _); try discriminate. intros H. inversion H; subst. split; [discriminate|]. intros k [].
  - intros H. apply OW in H. destruct H as (items & states & W & E). eapply K; [|exact E]. clear E K OW.
    revert expects reads items states W. generalize (map (fun _ : bytes * bytes => false) kvs) as af.
    induction kvs as [|[k v] kvs IH]; intros af expects reads items states; cbn [cas_walk].
    + intros H. inversion H. intros i [].
    + destruct reads as [|[x|] reads]; destruct expects as [|e expects]; try discriminate.
      * intros H. inversion H. intros i [].
      * destruct (beqb x e).
        { destruct (cas_walk atomic (deadline t0 ttl) af kvs expects reads) eqn:W; cbn [wadd]; try discriminate.
          intros H. inversion H; subst. intros i [<-|I]; [left; rewrite cas_key; auto|]. right. eapply IH; eauto. }
        destruct atomic; try discriminate.
        destruct (cas_walk false (deadline t0 ttl) af kvs expects reads) eqn:W; cbn [wadd]; try discriminate.
        intros H. inversion H; subst. intros i I. right. eapply IH; eauto.
      * intros H. inversion H. intros i [].
      * destruct (is_empty e).
        { destruct (cas_walk atomic (deadline t0 ttl) af kvs expects reads) eqn:W; cbn [wadd]; try discriminate.
          intros H. inversion H; subst. intros i [<-|I]; [left; rewrite cas_key; auto|]. right. eapply IH; eauto. }
        destruct atomic; try discriminate.
        destruct (cas_walk false (deadline t0 ttl) af kvs expects reads) eqn:W; cbn [wadd]; try discriminate.
        intros H. inversion H; subst. intros i I. right. eapply IH; eauto.
Qed.
