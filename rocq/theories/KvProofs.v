(** Proofs about the versioned key-value store: the invariant and one step. *)
From Coq Require Import ZArith List Lia Bool Sorted.
From Verif Require Import Bytes SMap KvModel KvSpec.
Import ListNotations.
Open Scope Z_scope.

Definition rlt (a b : rev) : Prop := fst a < fst b \/ (fst a = fst b /\ snd a < snd b).
Definition rle (a b : rev) : Prop := a = b \/ rlt a b.

Lemma rlt_irrefl a : ~ rlt a a.
Proof. unfold rlt. lia. Qed.
Lemma rlt_trans a b c : rlt a b -> rlt b c -> rlt a c.
Proof. unfold rlt. lia. Qed.
Lemma rle_lt_trans a b c : rle a b -> rlt b c -> rlt a c.
Proof. intros [->|H] H'; auto. eapply rlt_trans; eauto. Qed.
Lemma rle_refl a : rle a a.
Proof. left; auto. Qed.
Lemma rlt_neq a b : rlt a b -> a <> b.
Proof. intros H E. subst. exact (rlt_irrefl _ H). Qed.
Lemma rlt_le a b : rlt a b -> rle a b.
Proof. right; auto. Qed.
Lemma rle_trans a b c : rle a b -> rle b c -> rle a c.
Proof. intros [->|H] H'; auto. destruct H' as [<-|H']; right; auto. eapply rlt_trans; eauto. Qed.

Lemma reqb_true a b : reqb a b = true <-> a = b.
Proof.
  unfold reqb. destruct a as [a1 a2], b as [b1 b2]. simpl. rewrite andb_true_iff, !Z.eqb_eq.
  split; [intros [-> ->]; auto | intros E; inversion E; auto].
Qed.
Lemma reqb_refl a : reqb a a = true.
Proof. apply reqb_true; auto. Qed.
Lemma rput_same f r v : rput f r v r = v.
Proof. unfold rput. rewrite reqb_refl. auto. Qed.
Lemma rput_other f r v x : x <> r -> rput f r v x = f x.
Proof. intros N. unfold rput. destruct (reqb x r) eqn:E; auto. apply reqb_true in E. contradiction. Qed.

(** ** Generations *)

Lemma last_gen_app gs g : last_gen (gs ++ [g]) = Some g.
Proof. induction gs as [|a gs IH]; auto. simpl. destruct (gs ++ [g]) eqn:E; auto. destruct gs; discriminate. Qed.

Lemma last_gen_split gs g : last_gen gs = Some g -> gs = removelast gs ++ [g].
Proof.
  induction gs as [|a gs IH]; [discriminate|]. destruct gs as [|b gs].
  - simpl. intros H. inversion H; auto.
  - intros H. change (last_gen (b :: gs) = Some g) in H.
    change (a :: b :: gs = (a :: removelast (b :: gs)) ++ [g]). simpl. f_equal. apply IH; auto.
Qed.

Lemma last_gen_none gs : last_gen gs = None -> gs = [].
Proof. induction gs as [|a gs IH]; auto. destruct gs; [discriminate|]. intros H. specialize (IH H). discriminate. Qed.

Lemma removelast_snoc {A} (gs : list A) g : removelast (gs ++ [g]) = gs.
Proof. apply removelast_last. Qed.

Definition all_revs (gs : list gen) : list rev := concat (map g_revs gs).

Lemma all_revs_app a b : all_revs (a ++ b) = all_revs a ++ all_revs b.
Proof. unfold all_revs. rewrite map_app, concat_app. auto. Qed.
Lemma all_revs_one g : all_revs [g] = g_revs g.
Proof. unfold all_revs. simpl. apply app_nil_r. Qed.

(** ** The invariant *)

Record wf_idx (revs : rev -> option kvr) (hi : rev) (k : bytes) (i : idx) : Prop := mkWf {
  wf_gens : exists gs g, i_gens i = gs ++ [g] /\ Forall (fun g => g_create g <> None) gs /\
    match g_create g with
    | None => g = gnull /\ forall v, revs (i_mod i) = Some v -> v_value v = [] /\ v_lease v = 0
    | Some c => exists rs v, g_revs g = rs ++ [i_mod i] /\ revs (i_mod i) = Some v /\ v_key v = k /\
        v_create v = c /\ v_mod v = i_mod i /\ v_ver v = g_ver g /\ v_del v = false
    end;
  wf_sorted : StronglySorted rlt (all_revs (i_gens i));
  wf_listed : forall r, In r (all_revs (i_gens i)) -> rle r hi /\ exists v, revs r = Some v /\ v_key v = k;
  wf_mod : rle (i_mod i) hi }.

Record Inv (hi : rev) (s : kvst) : Prop := mkInv {
  inv_sorted : sorted bcmp (k_index s);
  inv_idx : forall k i, iget (k_index s) k = Some i -> wf_idx (k_revs s) hi k i;
  inv_revs : forall r v, k_revs s r = Some v -> rle r hi /\ 0 < fst r;
  inv_leases : sorted Z.compare (k_leases s) }.

(** the entry a client sees *)
Definition look (s : kvst) (k : bytes) : option kvo :=
  match iget (k_index s) k with
  | Some i => if live_idx i then option_map (to_kvo false) (k_revs s (i_mod i)) else None
  | None => None
  end.

Lemma iget_iput_same m k i : iget (iput m k i) k = Some i.
Proof. apply (get_put_same _ bcmp_ok). Qed.
Lemma iget_iput_other m k k' i : k <> k' -> iget (iput m k i) k' = iget m k'.
Proof. apply (get_put_other _ bcmp_ok). Qed.
Lemma iget_idel_same m k : sorted bcmp m -> iget (idel m k) k = None.
Proof. apply (get_del_same _ bcmp_ok). Qed.
Lemma iget_idel_other m k k' : sorted bcmp m -> k <> k' -> iget (idel m k) k' = iget m k'.
Proof. apply (get_del_other _ bcmp_ok). Qed.

Lemma set_key_same d k v : set_key d k v k = v.
Proof. unfold set_key. rewrite beqb_refl. auto. Qed.
Lemma set_key_other d k v x : x <> k -> set_key d k v x = d x.
Proof. intros N. unfold set_key. destruct (beqb x k) eqn:E; auto. apply beqb_true in E. contradiction. Qed.

(** moving the bound, and adding a record above it *)
Lemma wf_more revs revs' hi hi' k i :
  wf_idx revs hi k i -> rle hi hi' -> (forall r, rle r hi -> revs' r = revs r) -> wf_idx revs' hi' k i.
Proof.
  intros [[gs [g [Eg [Hh Hg]]]] Hs Hl Hm] Hle Hr. constructor; auto.
  - exists gs, g. split; [auto|split; [auto|]]. rewrite (Hr _ Hm). destruct (g_create g) as [c|]; auto.
  - intros r Hin. destruct (Hl r Hin) as [Hle' [v [Ev Hk]]]. split; [eapply rle_trans; eauto|].
    exists v. rewrite (Hr _ Hle'). auto.
  - eapply rle_trans; eauto.
Qed.

Lemma live_create i gs g : i_gens i = gs ++ [g] ->
  live_idx i = match g_create g, g_revs g with Some _, _ :: _ => true | _, _ => false end.
Proof. intros E. unfold live_idx. rewrite E, last_gen_app. auto. Qed.

Lemma wf_live revs hi k i : wf_idx revs hi k i ->
  live_idx i = true ->
  exists gs g c rs v, i_gens i = gs ++ [g] /\ Forall (fun g => g_create g <> None) gs /\
    g_create g = Some c /\ g_revs g = rs ++ [i_mod i] /\ revs (i_mod i) = Some v /\
    v_key v = k /\ v_create v = c /\ v_mod v = i_mod i /\ v_ver v = g_ver g /\ v_del v = false.
Proof.
  intros [[gs [g [Eg [Hh Hg]]]] _ _ _] L. rewrite (live_create _ _ _ Eg) in L.
  destruct (g_create g) as [c|] eqn:C; [|discriminate].
  destruct Hg as (rs & v & H). exists gs, g, c, rs, v. tauto.
Qed.

Lemma wf_dead revs hi k i : wf_idx revs hi k i ->
  live_idx i = false ->
  exists gs, i_gens i = gs ++ [gnull] /\ Forall (fun g => g_create g <> None) gs /\
    forall v, revs (i_mod i) = Some v -> v_value v = [] /\ v_lease v = 0.
Proof.
  intros [[gs [g [Eg [Hh Hg]]]] _ _ _] L. rewrite (live_create _ _ _ Eg) in L.
  destruct (g_create g) as [c|] eqn:C.
  - destruct Hg as (rs & v & E & _). rewrite E in L. destruct rs; discriminate.
  - destruct Hg as [-> Hv]. exists gs. auto.
Qed.

Lemma SS_snoc l r : StronglySorted rlt l -> Forall (fun x => rlt x r) l -> StronglySorted rlt (l ++ [r]).
Proof.
  induction l as [|a l IH]; intros H F; simpl.
  - constructor; constructor.
  - inversion H; subst. inversion F; subst. constructor; auto.
    apply Forall_app. split; auto.
Qed.

(** the index after a put is well formed *)
Lemma put_wf revs hi k o r i c ver v :
  match o with Some i0 => wf_idx revs hi k i0 | None => True end -> rlt hi r ->
  put_index o r = (i, c, ver) -> v_key v = k -> v_create v = c -> v_mod v = r -> v_ver v = ver -> v_del v = false ->
  wf_idx (rput revs r (Some v)) r k i /\ i_mod i = r /\ live_idx i = true.
Proof.
  intros Hwf Hlt Hp Vk Vc Vm Vv Vd.
  assert (Keep : forall r0, rle r0 hi -> rput revs r (Some v) r0 = revs r0).
  { intros r0 H. apply rput_other. apply rlt_neq. eapply rle_lt_trans; eauto. }
  assert (Fresh : forall gl, i = mkI r [mkG (Some r) 1 [r]] -> c = r -> ver = 1 -> gl = tt ->
     wf_idx (rput revs r (Some v)) r k i /\ i_mod i = r /\ live_idx i = true).
  { intros _ -> Ec Ev _. split; [|auto]. constructor.
    - exists [], (mkG (Some r) 1 [r]). split; [auto|split; [constructor|]]. simpl.
      exists [], v. rewrite rput_same. subst. repeat split; auto.
    - simpl. constructor; constructor.
    - simpl. intros r0 [<-|[]]. split; [left; auto|]. exists v. rewrite rput_same. auto.
    - left; auto. }
  destruct o as [i0|]; simpl in Hp.
  2:{ injection Hp as E1 E2 E3. apply (Fresh tt); auto. }
  destruct Hwf as [[gs [g [Eg [Hh Hg]]]] Hs Hl Hm].
  rewrite Eg, last_gen_app, removelast_snoc in Hp.
  assert (Ltr : forall x, In x (all_revs (i_gens i0)) -> rlt x r).
  { intros x Hx. eapply rle_lt_trans; [apply (Hl x Hx)|auto]. }
  assert (Old : forall x, In x (all_revs (i_gens i0)) -> rle x r /\ exists v0, rput revs r (Some v) x = Some v0 /\ v_key v0 = k).
  { intros x Hx. destruct (Hl x Hx) as [Hle [v0 [E0 K0]]]. split; [right; apply Ltr; auto|].
    exists v0. rewrite Keep by auto. auto. }
  assert (Rev : all_revs (i_gens i0) = all_revs gs ++ g_revs g).
  { rewrite Eg, all_revs_app, all_revs_one. auto. }
  destruct (g_create g) as [c0|] eqn:C; injection Hp as Ei Ec Ever; subst i.
  - split; [|split; [auto|]].
    2:{ rewrite (live_create _ gs (mkG (Some c0) (g_ver g + 1) (g_revs g ++ [r]))); auto. simpl. destruct (g_revs g); auto. }
    constructor; simpl i_gens; simpl i_mod.
    + exists gs, (mkG (Some c0) (g_ver g + 1) (g_revs g ++ [r])). split; [auto|split; [auto|]]. simpl.
      exists (g_revs g), v. rewrite rput_same. repeat split; congruence.
    + rewrite all_revs_app, all_revs_one. simpl. rewrite app_assoc, <- Rev. apply SS_snoc; auto. apply Forall_forall; auto.
    + rewrite all_revs_app, all_revs_one. simpl. rewrite app_assoc, <- Rev. intros x Hx.
      apply in_app_iff in Hx. destruct Hx as [Hx|[<-|[]]]; auto.
      split; [left; auto|]. exists v. rewrite rput_same. auto.
    + left; auto.
  - destruct Hg as [-> _]. cbn [g_revs gnull app] in *. split; [|split; [auto|]].
    2:{ rewrite (live_create _ gs (mkG (Some r) 1 [r])); auto. }
    rewrite app_nil_r in Rev.
    constructor; simpl i_gens; simpl i_mod.
    + exists gs, (mkG (Some r) 1 [r]). split; [auto|split; [auto|]]. cbn [g_create g_revs g_ver].
      exists [], v. rewrite rput_same. repeat split; congruence.
    + rewrite all_revs_app, all_revs_one. cbn [g_revs]. rewrite <- Rev. apply SS_snoc; auto. apply Forall_forall; auto.
    + rewrite all_revs_app, all_revs_one. cbn [g_revs]. rewrite <- Rev. intros x Hx.
      apply in_app_iff in Hx. destruct Hx as [Hx|[<-|[]]]; auto.
      split; [left; auto|]. exists v. rewrite rput_same. auto.
    + left; auto.
Qed.

Lemma look_idx s k i : iget (k_index s) k = Some i ->
  look s k = if live_idx i then option_map (to_kvo false) (k_revs s (i_mod i)) else None.
Proof. unfold look. intros ->. auto. Qed.


(** ** Effects that touch only the two tables *)

Definition table_eff (e : eff) : bool :=
  match e with ERev _ _ | EDelRev _ | EIdx _ _ | EDelIdx _ => true | _ => false end.

Definition same_rest (s s' : kvst) : Prop :=
  k_leases s' = k_leases s /\ k_rev s' = k_rev s /\ k_applied s' = k_applied s /\
  k_srev s' = k_srev s /\ k_sapplied s' = k_sapplied s.

Lemma same_rest_refl s : same_rest s s.
Proof. repeat split. Qed.
Lemma same_rest_trans a b c : same_rest a b -> same_rest b c -> same_rest a c.
Proof. unfold same_rest. intuition congruence. Qed.

Lemma performs_app s a b : performs s (a ++ b) = performs (performs s a) b.
Proof. apply fold_left_app. Qed.

Lemma performs_rest es : forall s, Forall (fun e => table_eff e = true) es -> same_rest s (performs s es).
Proof.
  induction es as [|e es IH]; intros s H; [apply same_rest_refl|].
  inversion H; subst. change (performs s (e :: es)) with (performs (perform s e) es).
  eapply same_rest_trans; [|apply IH; auto]. destruct e; try discriminate; repeat split.
Qed.

Lemma op_effs_table s r o : Forall (fun e => table_eff e = true) (op_effs s r o).
Proof.
  destruct o; simpl.
  - unfold put_effs. destruct (put_record _ _ _ _ _ _ _) as [[v i]|]; repeat constructor.
  - unfold delete_effs. destruct (iget _ _); [|constructor]. destruct (delete_index _ _) as [[? ?] ?]; repeat constructor.
  - unfold compact_effs. destruct (iget _ _) as [i|]; [|constructor]. destruct (i_gens i); [constructor|].
    destruct (compact_gens _ _) as [gs out]. constructor; [destruct gs; auto|].
    apply Forall_forall. intros e He. apply in_map_iff in He. destruct He as (r0 & <- & _). auto.
Qed.

(** ** The store a client sees *)

Definition has_lease (s : kvst) (l : Z) : bool := match lget (k_leases s) l with Some _ => true | None => false end.

Definition abs (s : kvst) : store := mkSt (look s) (has_lease s) (k_rev s).

Definition seq (a b : store) : Prop :=
  (forall k, st_data a k = st_data b k) /\ (forall l, st_leases a l = st_leases b l) /\ st_rev a = st_rev b.

Lemma seq_refl a : seq a a.
Proof. repeat split. Qed.
Lemma seq_sym a b : seq a b -> seq b a.
Proof. intros (H1 & H2 & H3). repeat split; auto. Qed.
Lemma seq_trans a b c : seq a b -> seq b c -> seq a c.
Proof. intros (H1 & H2 & H3) (I1 & I2 & I3). repeat split; intros; congruence. Qed.

Lemma spec_op_seq m o a b : seq a b -> seq (spec_op m a o) (spec_op m b o).
Proof.
  intros (H1 & H2 & H3). destruct o as [key il lid iv value|key|key c]; simpl.
  - unfold spec_put. rewrite (H1 key).
    set (l := if il then _ else _). rewrite (H2 l).
    destruct ((0 <? l) && negb (st_leases b l)); [repeat split; auto|].
    repeat split; auto. intros k. simpl. unfold set_key. destruct (beqb k key); auto.
  - repeat split; auto. intros k. simpl. unfold set_key. destruct (beqb k key); auto.
  - repeat split; auto.
Qed.

Lemma spec_lop_seq o a b : seq a b -> seq (spec_lop a o) (spec_lop b o).
Proof.
  intros (H1 & H2 & H3). destruct o; repeat split; auto; intros l0; simpl; unfold set_lease;
    destruct (l0 =? id); auto.
Qed.

(** ** Put *)

Lemma last_record hi s k : Inv hi s ->
  value_of (k_revs s (mod_of (iget (k_index s) k))) = match look s k with Some o => o_value o | None => [] end /\
  lease_of (k_revs s (mod_of (iget (k_index s) k))) = match look s k with Some o => o_lease o | None => 0 end.
Proof.
  intros [Hs Hi Hr _]. unfold look. destruct (iget (k_index s) k) as [i|] eqn:E; simpl.
  - specialize (Hi k i E). destruct (live_idx i) eqn:L.
    + destruct (wf_live _ _ _ _ Hi L) as (gs & g & c & rs & v & _ & _ & _ & _ & Ev & _).
      rewrite Ev. auto.
    + destruct (wf_dead _ _ _ _ Hi L) as (gs & _ & _ & Hv).
      destruct (k_revs s (i_mod i)) as [v|]; auto. destruct (Hv v eq_refl) as [E1 E2]. auto.
  - destruct (k_revs s zero_rev) as [v|] eqn:Z; auto. apply Hr in Z. simpl in Z. lia.
Qed.

Lemma put_index_look hi s k r i c ver : Inv hi s -> put_index (iget (k_index s) k) r = (i, c, ver) ->
  match look s k with
  | Some o => fst c = o_create o /\ ver = o_ver o + 1
  | None => c = r /\ ver = 1
  end.
Proof.
  intros [Hs Hi _ _] Hp. unfold look. destruct (iget (k_index s) k) as [i0|] eqn:E; simpl in Hp.
  2:{ injection Hp as _ <- <-. auto. }
  specialize (Hi k i0 E). destruct (live_idx i0) eqn:L.
  - destruct (wf_live _ _ _ _ Hi L) as (gs & g & c0 & rs & v & Eg & _ & C & _ & Ev & _ & Ec & _ & Er & _).
    rewrite Eg, last_gen_app, C in Hp. injection Hp as _ <- <-. rewrite Ev. simpl. subst c0. rewrite Er. auto.
  - destruct (wf_dead _ _ _ _ Hi L) as (gs & Eg & _). rewrite Eg, last_gen_app in Hp. simpl in Hp.
    injection Hp as _ <- <-. auto.
Qed.

Lemma inv_more hi hi' s : Inv hi s -> rle hi hi' -> Inv hi' s.
Proof.
  intros [Hs Hi Hr Hl] H. constructor; auto.
  - intros k i E. eapply wf_more; eauto.
  - intros r v E. destruct (Hr r v E). split; auto. eapply rle_trans; eauto.
Qed.

Lemma put_step hi s r key il lid iv value : Inv hi s -> rlt hi r -> 0 < fst r ->
  Inv r (performs s (put_effs s r key il lid iv value)) /\
  forall k, look (performs s (put_effs s r key il lid iv value)) k =
            st_data (spec_put (abs s) (fst r) key il lid iv value) k.
Proof.
  intros H Hlt Hpos. unfold put_effs, put_record.
  destruct (put_index (iget (k_index s) key) r) as [[i c] ver] eqn:Hp.
  pose proof (put_index_look _ _ _ _ _ _ _ H Hp) as Hlook.
  destruct (last_record _ _ key H) as [Ev El]. rewrite Ev, El. clear Ev El.
  unfold spec_put. simpl st_data. simpl st_leases. simpl v_lease.
  set (l := if il then _ else lid).
  unfold has_lease.
  replace (match lget (k_leases s) l with Some _ => false | None => true end)
    with (negb (match lget (k_leases s) l with Some _ => true | None => false end))
    by (destruct (lget (k_leases s) l); auto).
  destruct ((0 <? l) && negb _).
  { split; [|auto]. simpl. eapply inv_more; eauto. right; auto. }
  set (v := mkV key _ c r ver l false).
  assert (Hwf : match iget (k_index s) key with Some i0 => wf_idx (k_revs s) hi key i0 | None => True end).
  { destruct (iget (k_index s) key) eqn:E; auto. apply (inv_idx _ _ H); auto. }
  destruct (put_wf _ _ _ _ _ _ _ _ v Hwf Hlt Hp eq_refl eq_refl eq_refl eq_refl eq_refl) as (W & Em & L).
  destruct H as [Hs Hi Hr Hl].
  assert (Keep : forall r0, rle r0 hi -> rput (k_revs s) r (Some v) r0 = k_revs s r0).
  { intros r0 H0. apply rput_other. apply rlt_neq. eapply rle_lt_trans; eauto. }
  split.
  - constructor; simpl.
    + apply (sorted_put _ bcmp_ok); auto.
    + intros k i1 E. destruct (bytes_eq_dec key k) as [->|N].
      * rewrite iget_iput_same in E. inversion E; subst. auto.
      * rewrite iget_iput_other in E by auto. eapply wf_more; [apply Hi; eauto|right; auto|auto].
    + intros r0 v0. unfold rput. destruct (reqb r0 r) eqn:E.
      * apply reqb_true in E. subst. intros _. split; [left; auto|auto].
      * intros H0. destruct (Hr _ _ H0). split; auto. eapply rle_trans; eauto. right; auto.
    + auto.
  - intros k. destruct (bytes_eq_dec k key) as [->|N].
    + unfold look at 1. simpl. rewrite iget_iput_same, L, Em, rput_same. simpl. rewrite set_key_same.
      f_equal. unfold v, to_kvo. simpl.
      destruct (look s key) as [o|]; destruct Hlook as [Ec Ever]; rewrite Ever; [rewrite Ec|rewrite Ec]; auto.
    + unfold look at 1. simpl. rewrite iget_iput_other by auto. rewrite set_key_other by auto.
      unfold look. destruct (iget (k_index s) k) as [i1|] eqn:E1; auto. destruct (live_idx i1); auto.
      rewrite Keep; auto. apply (wf_mod _ _ _ _ (Hi k i1 E1)).
Qed.

(** ** Delete *)

Lemma delete_step hi s r key : Inv hi s -> rlt hi r -> 0 < fst r ->
  Inv r (performs s (delete_effs s r key)) /\
  forall k, look (performs s (delete_effs s r key)) k = set_key (look s) key None k.
Proof.
  intros H Hlt Hpos. unfold delete_effs. destruct (iget (k_index s) key) as [i|] eqn:E.
  2:{ split; [eapply inv_more; eauto; right; auto|]. intros k. simpl. unfold set_key.
      destruct (beqb k key) eqn:Ek; auto. apply beqb_true in Ek. subst. unfold look. rewrite E. auto. }
  destruct H as [Hs Hi Hr Hl]. pose proof (Hi key i E) as W.
  destruct (delete_index i r) as [[i' c] ver] eqn:Ed.
  set (v := mkV key [] c r ver 0 true).
  assert (Keep : forall r0, rle r0 hi -> rput (k_revs s) r (Some v) r0 = k_revs s r0).
  { intros r0 H0. apply rput_other. apply rlt_neq. eapply rle_lt_trans; eauto. }
  assert (Old : forall x, In x (all_revs (i_gens i)) -> rle x r /\ exists v0, rput (k_revs s) r (Some v) x = Some v0 /\ v_key v0 = key).
  { intros x Hx. destruct (wf_listed _ _ _ _ W x Hx) as [Hle [v0 [E0 K0]]]. split; [right; eapply rle_lt_trans; eauto|].
    exists v0. rewrite Keep by auto. auto. }
  assert (Ltr : Forall (fun x => rlt x r) (all_revs (i_gens i))).
  { apply Forall_forall. intros x Hx. eapply rle_lt_trans; [apply (wf_listed _ _ _ _ W x Hx)|auto]. }
  assert (D : wf_idx (rput (k_revs s) r (Some v)) r key i' /\ live_idx i' = false).
  { unfold delete_index in Ed. destruct (live_idx i) eqn:L.
    - destruct (wf_live _ _ _ _ W L) as (gs & g & c0 & rs & v0 & Eg & Hh & C & Er & _).
      rewrite Eg, last_gen_app, C, removelast_snoc in Ed. injection Ed as <- _ _.
      assert (Ea : forall x y : gen, gs ++ [x; y] = (gs ++ [x]) ++ [y]) by (intros; rewrite <- app_assoc; auto).
      rewrite Ea. split.
      2:{ rewrite (live_create _ (gs ++ [mkG (Some c0) (g_ver g + 1) (g_revs g ++ [r])]) gnull); auto. }
      assert (Rev : all_revs ((gs ++ [mkG (Some c0) (g_ver g + 1) (g_revs g ++ [r])]) ++ [gnull]) = all_revs (i_gens i) ++ [r]).
      { rewrite Eg, !all_revs_app, !all_revs_one. simpl. rewrite app_nil_r, app_assoc. auto. }
      constructor; simpl i_gens; simpl i_mod.
      + exists (gs ++ [mkG (Some c0) (g_ver g + 1) (g_revs g ++ [r])]), gnull. split; [auto|split].
        * apply Forall_app. split; auto. constructor; [|constructor]. simpl. congruence.
        * simpl. split; auto. intros v1. rewrite rput_same. intros E1. inversion E1; subst. auto.
      + rewrite Rev. apply SS_snoc; auto. apply (wf_sorted _ _ _ _ W).
      + rewrite Rev. intros x Hx. apply in_app_iff in Hx. destruct Hx as [Hx|[<-|[]]]; auto.
        split; [left; auto|]. exists v. rewrite rput_same. auto.
      + left; auto.
    - destruct (wf_dead _ _ _ _ W L) as (gs & Eg & Hh & Hv). rewrite Eg, last_gen_app in Ed. simpl in Ed.
      injection Ed as <- _ _. split.
      2:{ rewrite (live_create _ gs gnull); auto. }
      constructor; simpl i_gens; simpl i_mod.
      + exists gs, gnull. split; [auto|split; [auto|]]. simpl. split; auto. intros v1. rewrite rput_same. intros E1. inversion E1; subst. auto.
      + rewrite <- Eg. apply (wf_sorted _ _ _ _ W).
      + rewrite <- Eg. auto.
      + left; auto. }
  destruct D as [D DL]. split.
  - constructor; simpl.
    + apply (sorted_put _ bcmp_ok); auto.
    + intros k i1 E1. destruct (bytes_eq_dec key k) as [->|N].
      * rewrite iget_iput_same in E1. inversion E1; subst. auto.
      * rewrite iget_iput_other in E1 by auto. eapply wf_more; [apply Hi; eauto|right; auto|auto].
    + intros r0 v0. unfold rput. destruct (reqb r0 r) eqn:E0.
      * apply reqb_true in E0. subst. intros _. split; [left; auto|auto].
      * intros H0. destruct (Hr _ _ H0). split; auto. eapply rle_trans; eauto. right; auto.
    + auto.
  - intros k. destruct (bytes_eq_dec k key) as [->|N].
    + unfold look at 1. simpl. rewrite iget_iput_same, DL. rewrite set_key_same. auto.
    + unfold look at 1. simpl. rewrite iget_iput_other by auto. rewrite set_key_other by auto.
      unfold look. destruct (iget (k_index s) k) as [i1|] eqn:E1; auto. destruct (live_idx i1); auto.
      rewrite Keep; auto. apply (wf_mod _ _ _ _ (Hi k i1 E1)).
Qed.
