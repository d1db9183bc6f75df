(** Regions that have grown are split. *)
From Coq Require Import ZArith List Lia Bool Sorted Permutation.
From Verif Require Import Bytes SMap Outcome CodecModel CodecSpec CodecThms ScModel ScSpec ScProofs1 ScProofs2.
Import ListNotations.
Open Scope Z_scope.

(** *** sampling every chunk *)
Lemma sizes_app a b : sizes (a ++ b) = sizes a + sizes b.
Proof. unfold sizes. induction a; simpl; auto. fold (sizes b) in *. lia. Qed.
Lemma sizes_one x : sizes [x] = key_value_size x. Proof. unfold sizes. simpl. lia. Qed.

Section Half.
Variables thr chunk u : Z.
Hypothesis CH : 0 < chunk.

Definition sampled (p : list item) (c : Z) (keys : list bytes) : Prop :=
  0 <= c < chunk /\ num keys * chunk + c <= sizes p <= num keys * (chunk + u) + c /\
  forall i, (i < length keys)%nat -> exists p1 x p2, p = p1 ++ x :: p2 /\ nth i keys [] = fst x /\
    (Z.of_nat i + 1) * chunk <= sizes (p1 ++ [x]) /\ (num keys - 1 - Z.of_nat i) * chunk + c <= sizes p2.

Lemma sampled_step p c keys x : sampled p c keys -> 0 <= key_value_size x <= u ->
  sampled (p ++ [x]) (if chunk <=? c + key_value_size x then 0 else c + key_value_size x)
    (if chunk <=? c + key_value_size x then keys ++ [fst x] else keys).
Proof.
  intros (C & [B1 B2] & N) S. set (s := key_value_size x) in *. unfold sampled. rewrite sizes_app, sizes_one. fold s.
  destruct (Z.leb_spec chunk (c + s)).
  - unfold num in *. rewrite app_length, Nat2Z.inj_add. cbn [length]. split; [lia|]. split; [nia|].
    intros i L. destruct (Nat.eq_dec i (length keys)) as [->|NE].
    + exists p, x, []. split; auto. rewrite app_nth2, Nat.sub_diag by lia. split; auto. rewrite sizes_app, sizes_one. fold s. cbn [sizes fold_right]. nia.
    + destruct (N i ltac:(lia)) as (p1 & y & p2 & E & K & L1 & L2). exists p1, y, (p2 ++ [x]). split; [rewrite E, <- app_assoc; reflexivity|].
      rewrite app_nth1 by lia. split; auto. split; auto. rewrite sizes_app, sizes_one. fold s. nia.
  - split; [lia|]. split; [lia|]. intros i L. destruct (N i L) as (p1 & y & p2 & E & K & L1 & L2). exists p1, y, (p2 ++ [x]).
    split; [rewrite E, <- app_assoc; reflexivity|]. split; auto. split; auto. rewrite sizes_app, sizes_one. fold s. lia.
Qed.

Lemma half_samples : forall l p c keys hit prev count, Forall (fun x => 0 <= key_value_size x <= u) l ->
  sampled p c keys -> (hit = true \/ sizes p < thr \/ p = []) -> thr <= sizes (p ++ l) -> 0 < sizes (p ++ l) -> chunk <= sizes (p ++ l) ->
  exists n p1 x p2, p ++ l = p1 ++ x :: p2 /\ v_key (half_loop thr chunk l (sizes p) c keys hit prev count) = fst x /\
    1 <= n /\ sizes (p ++ l) < n * (chunk + u) + chunk /\ (n / 2 + 1) * chunk <= sizes (p1 ++ [x]) /\
    (n - 1 - n / 2) * chunk <= sizes p2.
Proof.
  induction l as [|x l IH]; intros p c keys hit prev count F S H T Z0 C0.
  - rewrite app_nil_r in *. cbn [half_loop v_key]. destruct H as [->|[H| ->]]; [|lia|unfold sizes in Z0; simpl in Z0; lia].
    destruct S as (C & [B1 B2] & N).
    assert (K : (1 <= length keys)%nat). { destruct keys; [unfold num in *; cbn [length] in *; lia|simpl; lia]. }
    assert (L : (length keys / 2 < length keys)%nat) by (apply Nat.div_lt; lia).
    destruct (N _ L) as (p1 & x & p2 & E & K1 & L1 & L2). exists (num keys), p1, x, p2.
    rewrite Nat2Z.inj_div in L1, L2. change (Z.of_nat 2) with 2 in *. unfold num in *. split; auto. split; auto. split; [lia|]. split; [lia|]. split; [auto|lia].
  - inversion F as [|? ? F1 F2]; subst. cbn [half_loop]. set (s := key_value_size x) in *.
    assert (E : sizes p + s = sizes (p ++ [x])) by (rewrite sizes_app, sizes_one; reflexivity). rewrite E.
    assert (A : p ++ x :: l = (p ++ [x]) ++ l) by (rewrite <- app_assoc; reflexivity). rewrite A in *.
    assert (S' := sampled_step p c keys x S F1). fold s in S'.
    assert (H' : hit || (thr <=? sizes (p ++ [x])) = true \/ sizes (p ++ [x]) < thr \/ p ++ [x] = []).
    { destruct (Z.leb_spec thr (sizes (p ++ [x]))); [left; apply orb_true_r|right; left; auto]. }
    destruct (same_key prev (fst x)); apply (IH _ _ _ _ _ _ F2 S' H' T Z0 C0).
Qed.
End Half.

(** *** the other policies *)
Lemma size_second ss pos : forall l size key hit prev count, key <> [] -> hit = true \/ size < ss -> ss <= size + sizes l ->
  v_key (size_loop ss pos l size key hit prev count) = key.
Proof.
  induction l as [|x l IH]; intros size key hit prev count K H T; cbn [size_loop v_key].
  - unfold sizes in T. simpl in T. destruct H as [->|H]; auto. lia.
  - apply no_key_false in K. rewrite K. cbn [andb negb]. apply no_key_false in K. cbn [sizes fold_right] in T. fold (sizes l) in T.
    assert (H' : hit || (ss <=? size + key_value_size x) = true \/ size + key_value_size x < ss).
    { destruct (Z.leb_spec ss (size + key_value_size x)); [left; apply orb_true_r|right; auto]. }
    destruct (same_key prev (fst x)); apply IH; auto; lia.
Qed.
Lemma size_first ss pos u : pos + u <= ss -> 0 <= u -> forall (l : list item) size prev count, Forall (fun x : item => 0 <= key_value_size x <= u /\ fst x <> []) l ->
  size < pos -> ss <= size + sizes l ->
  exists (p1 : list item) (x : item) (p2 : list item), l = p1 ++ x :: p2 /\ v_key (size_loop ss pos l size [] false prev count) = fst x /\
    size + sizes p1 < pos /\ pos <= size + sizes (p1 ++ [x]).
Proof.
  intros PS U0. induction l as [|x l IH]; intros size prev count F L T; [unfold sizes in T; simpl in T; lia|].
  inversion F as [|? ? [F1 F1'] F2]; subst. cbn [sizes fold_right] in T. fold (sizes l) in T. cbn [size_loop no_key andb orb].
  destruct (Z.leb_spec pos (size + key_value_size x)) as [P|P].
  - exists [], x, l. split; auto. cbn [negb andb]. split.
    + destruct (same_key prev (fst x)); apply size_second; auto; lia.
    + cbn [app]. rewrite sizes_one. unfold sizes at 1. simpl. lia.
  - cbn [negb andb]. assert (N : ss <=? size + key_value_size x = false) by (apply Z.leb_gt; lia). rewrite N.
    assert (G : forall prev count, exists p1 y p2, x :: l = p1 ++ y :: p2 /\
      v_key (size_loop ss pos l (size + key_value_size x) [] false prev count) = fst y /\ size + sizes p1 < pos /\ pos <= size + sizes (p1 ++ [y])).
    { intros prev' count'. destruct (IH (size + key_value_size x) prev' count' F2 P ltac:(lia)) as (p1 & y & p2 & E & K & A & B).
      exists (x :: p1), y, p2. split; [rewrite E; reflexivity|]. split; auto. cbn [app sizes fold_right]. fold (sizes p1) (sizes (p1 ++ [y])). lia. }
    destruct (same_key prev (fst x)); apply G.
Qed.

Lemma keys_second number pos : forall l size key hit prev count, key <> [] -> hit = true \/ count < number -> number <= count + changes prev l ->
  v_key (keys_loop number pos l size key hit prev count) = key.
Proof.
  induction l as [|x l IH]; intros size key hit prev count K H T; cbn [keys_loop v_key].
  - cbn [changes] in T. destruct H as [->|H]; auto. lia.
  - apply no_key_false in K. rewrite K. cbn [andb negb]. apply no_key_false in K. cbn [changes] in T.
    destruct (same_key prev (fst x)); apply IH; auto; try lia;
      (match goal with |- context[?a =? number] => destruct (Z.eqb_spec a number) end; [left; apply orb_true_r|]; rewrite orb_false_r; destruct H; [left; auto|right; lia]).
Qed.
Lemma keys_first number pos : pos < number -> forall (l : list item) size prev count, Forall (fun x : item => fst x <> []) l ->
  count < pos -> number <= count + changes prev l ->
  exists (p1 : list item) (x : item) (p2 : list item), l = p1 ++ x :: p2 /\ v_key (keys_loop number pos l size [] false prev count) = fst x /\
    count + changes prev p1 = pos - 1 /\ count + changes prev (p1 ++ [x]) = pos.
Proof.
  intros PN. induction l as [|x l IH]; intros size prev count F L T; [cbn [changes] in T; lia|].
  inversion F as [|? ? F1 F2]; subst. cbn [changes] in T. cbn [keys_loop no_key andb orb].
  destruct (same_key prev (fst x)) eqn:E; cbn [negb andb orb].
  - assert (P : pos <=? count = false) by (apply Z.leb_gt; lia). rewrite P. cbn [negb andb].
    assert (N : count =? number = false) by (apply Z.eqb_neq; lia). rewrite N.
    destruct (IH (size + key_value_size x) prev count F2 L T) as (p1 & y & p2 & E1 & K & A & B).
    exists (x :: p1), y, p2. split; [rewrite E1; reflexivity|]. split; auto. cbn [app changes]. rewrite E. auto.
  - destruct (Z.leb_spec pos (count + 1)) as [P|P]; cbn [negb andb].
    + exists [], x, l. split; auto. split; [apply keys_second; auto; lia|]. cbn [app changes]. rewrite E. cbn [changes]. lia.
    + assert (N : count + 1 =? number = false) by (apply Z.eqb_neq; lia). rewrite N.
      destruct (IH (size + key_value_size x) (fst x) (count + 1) F2 ltac:(lia) ltac:(lia)) as (p1 & y & p2 & E1 & K & A & B).
      exists (x :: p1), y, p2. split; [rewrite E1; reflexivity|]. split; auto. cbn [app changes]. rewrite E. lia.
Qed.

(** *** around a version of a sorted list *)
Lemma filter_perm {A} (f : A -> bool) a b : Permutation a b -> Permutation (filter f a) (filter f b).
Proof.
  induction 1; cbn [filter]; auto.
  - destruct (f x); auto.
  - destruct (f x), (f y); auto. apply perm_swap.
  - eapply Permutation_trans; eauto.
Qed.
Lemma filter_bytes_le f a : bytes_in (filter f a) <= bytes_in a.
Proof. induction a as [|x a IH]; cbn [filter]; [lia|]. destruct (f x); rewrite ?bytes_in_cons; pose proof (size_of_pos x); lia. Qed.

Section Around.
Variables (q1 : list stored) (e : stored) (q2 : list stored).
Let es := q1 ++ e :: q2.
Hypothesis LO : Forall (fun f => ble (key_of f) (key_of e)) q1.
Hypothesis HI : Forall (fun f => ble (key_of e) (key_of f)) q2.

Lemma split_at a : Forall (fun f => ble (key_of f) (key_of e)) a -> bytes_in a = bytes_in (below (key_of e) a) + bytes_in (at_key (key_of e) a).
Proof.
  induction 1 as [|f a L F IH]; [reflexivity|]. unfold below, at_key in *. cbn [filter]. unfold ble in L. destruct (bcmp (key_of f) (key_of e)); rewrite ?bytes_in_cons; try congruence; lia.
Qed.
Lemma around_below : bytes_in (q1 ++ [e]) <= bytes_in (below (key_of e) es) + bytes_in (at_key (key_of e) es).
Proof.
  rewrite (split_at (q1 ++ [e])) by (apply Forall_app; split; [auto|constructor; [apply ble_refl|constructor]]).
  unfold es, below, at_key. change (e :: q2) with ([e] ++ q2). rewrite app_assoc, !(filter_app _ (q1 ++ [e]) q2), !bytes_in_app.
  pose proof (bytes_in_nonneg (filter (fun f => match bcmp (key_of f) (key_of e) with Lt => true | _ => false end) q2)).
  pose proof (bytes_in_nonneg (filter (fun f => match bcmp (key_of f) (key_of e) with Eq => true | _ => false end) q2)). lia.
Qed.
Lemma around_from : bytes_in q2 + size_of e <= bytes_in (from (key_of e) es).
Proof.
  unfold es, from. rewrite filter_app, bytes_in_app. cbn [filter]. rewrite bcmp_refl, bytes_in_cons.
  assert (X : filter (fun f => match bcmp (key_of f) (key_of e) with Lt => false | _ => true end) q2 = q2).
  { clear -HI. induction HI as [|f a L F IH]; [reflexivity|]. cbn [filter]. unfold ble in L. rewrite (bcmp_opp (key_of e) (key_of f)). destruct (bcmp (key_of e) (key_of f)); cbn [CompOpp]; try congruence; f_equal; auto. }
  rewrite X. pose proof (bytes_in_nonneg (filter (fun f => match bcmp (key_of f) (key_of e) with Lt => false | _ => true end) q1)). lia.
Qed.
Lemma below_first : below (key_of e) es = below (key_of e) q1.
Proof.
  unfold es, below. rewrite filter_app. cbn [filter]. rewrite bcmp_refl.
  assert (X : filter (fun f => match bcmp (key_of f) (key_of e) with Lt => true | _ => false end) q2 = []).
  { clear -HI. induction HI as [|f a L F IH]; [reflexivity|]. cbn [filter]. unfold ble in L. rewrite (bcmp_opp (key_of e) (key_of f)). destruct (bcmp (key_of e) (key_of f)); cbn [CompOpp]; try congruence; auto. }
  rewrite X, app_nil_r. auto.
Qed.
Lemma around_versions : num (versions (q1 ++ [e])) <= num (versions (below (key_of e) es)) + num (versions (at_key (key_of e) es)).
Proof.
  unfold num. rewrite <- Nat2Z.inj_add, <- app_length. apply inj_le. apply NoDup_incl_length; [apply NoDup_nodup|]. intros v I.
  unfold versions in *. apply nodup_In in I. apply in_map_iff in I. destruct I as (f & <- & I). apply in_or_app. rewrite !nodup_In.
  assert (J : In f es). { unfold es. rewrite in_app_iff in *. cbn [In] in *. tauto. }
  assert (L : ble (key_of f) (key_of e)). { apply in_app_or in I. rewrite Forall_forall in LO. destruct I as [I|[<-|[]]]; auto. apply ble_refl. }
  unfold ble in L. destruct (bcmp (key_of f) (key_of e)) eqn:E; [right|left|congruence]; apply in_map; apply filter_In; rewrite E; auto.
Qed.
Lemma versions_incl a b : incl a b -> num (versions a) <= num (versions b).
Proof.
  intros I. unfold num. apply inj_le. apply NoDup_incl_length; [apply NoDup_nodup|]. intros v J. unfold versions in *. rewrite nodup_In in *. apply in_map_iff in J. destruct J as (x & <- & J). apply in_map. auto.
Qed.
End Around.

Lemma F2_split {A B} (R : A -> B -> Prop) l1 x l2 es : Forall2 R (l1 ++ x :: l2) es ->
  exists e1 e e2, es = e1 ++ e :: e2 /\ Forall2 R l1 e1 /\ R x e /\ Forall2 R l2 e2.
Proof.
  revert es. induction l1 as [|y l1 IH]; intros es F; cbn [app] in F; inversion F as [|? e ? es' R0 F']; subst.
  - exists [], e, es'. auto.
  - destruct (IH _ F') as (e1 & f & e2 & -> & A1 & A2 & A3). exists (e :: e1), f, e2. split; auto.
Qed.
Lemma sorted_app l1 x l2 : StronglySorted kle (l1 ++ x :: l2) -> Forall (fun y => kle y x) l1 /\ Forall (kle x) l2 /\ StronglySorted kle (l1 ++ [x]) /\ StronglySorted kle l1.
Proof.
  induction l1 as [|y l1 IH]; cbn [app]; intros S; inversion S as [|? ? S1 F1]; subst.
  - split; [constructor|]. split; [auto|]. split; [constructor; constructor|constructor].
  - destruct (IH S1) as (A & B & C & D). split; [constructor; auto|]. { rewrite Forall_forall in F1. apply F1. apply in_or_app. right. left. auto. }
    split; auto. apply Forall_app in F1. destruct F1 as [F1 F2]. inversion F2; subst. split; constructor; auto. apply Forall_app. split; auto.
Qed.
Lemma F2_forall_le l es e x : Forall2 matches l es -> matches x e -> Forall (fun y => kle y x) l -> Forall (fun f => ble (key_of f) (key_of e)) es.
Proof. induction 1; intros M F; inversion F; subst; constructor; auto. eapply matches_le; eauto. Qed.
Lemma F2_forall_ge l es e x : Forall2 matches l es -> matches x e -> Forall (kle x) l -> Forall (fun f => ble (key_of e) (key_of f)) es.
Proof. induction 1; intros M F; inversion F; subst; constructor; auto. eapply matches_le; eauto. Qed.

Lemma keys_small_size u es e : keys_small u es -> In e es -> 0 <= size_of e <= u.
Proof.
  intros K I. pose proof (size_of_pos e). split; [lia|]. specialize (K (key_of e)).
  enough (size_of e <= bytes_in (at_key (key_of e) es)) by lia. clear K. unfold at_key. induction es as [|f es IH]; [destruct I|].
  cbn [filter]. destruct I as [->|I].
  - rewrite bcmp_refl, bytes_in_cons. pose proof (bytes_in_nonneg (filter (fun f => match bcmp (key_of f) (key_of e) with Eq => true | _ => false end) es)). lia.
  - specialize (IH I). destruct (bcmp (key_of f) (key_of e)); rewrite ?bytes_in_cons; pose proof (size_of_pos f); lia.
Qed.
Lemma items_small u l es : Forall2 matches l es -> (forall e, In e es -> 0 <= size_of e <= u) -> Forall (fun x => 0 <= key_value_size x <= u /\ fst x <> []) l.
Proof.
  induction 1 as [|x e l es M F IH]; intros H; constructor.
  - rewrite (matches_size _ _ M). split; [apply H; left; auto|apply (matches_nonempty _ _ M)].
  - apply IH. intros f I. apply H. right. auto.
Qed.
Lemma below_in k es : 0 < bytes_in (below k es) -> exists f, In f es /\ blt (key_of f) k.
Proof.
  intros H. destruct (below k es) as [|f r] eqn:E; [unfold bytes_in in H; simpl in H; lia|]. exists f. assert (I : In f (below k es)) by (rewrite E; left; auto).
  unfold below in I. apply filter_In in I. destruct I as [I1 I2]. split; auto. unfold blt. destruct (bcmp (key_of f) k); congruence.
Qed.
Lemma below_in_versions k es : 0 < num (versions (below k es)) -> exists f, In f es /\ blt (key_of f) k.
Proof.
  intros H. destruct (below k es) as [|f r] eqn:E; [unfold num in H; simpl in H; lia|]. exists f. assert (I : In f (below k es)) by (rewrite E; left; auto).
  unfold below in I. apply filter_In in I. destruct I as [I1 I2]. split; auto. unfold blt. destruct (bcmp (key_of f) k); congruence.
Qed.
Lemma ble_blt_trans a b c : ble a b -> blt b c -> blt a c.
Proof. rewrite ble_or. intros [H| ->]; auto. unfold blt in *. intros. apply (bcmp_trans a b c); auto. Qed.

(** the request follows from the key *)
Lemma asked tb p cfs data n es x e f0 : Forall2 holds cfs data -> bytes_ok (fst (n_range0 n)) -> bytes_ok (snd (n_range0 n)) ->
  Permutation (inside (n_range0 n) data) es -> In e es -> matches x e ->
  v_key (split_key p (walk tb cfs (encode_bytes (fst (n_range0 n))) (encode_bytes (snd (n_range0 n))))) = fst x ->
  ready n -> In f0 es -> blt (key_of f0) (key_of e) ->
  exists f, split_check tb p cfs n = Ok f /\ f_split f = Some (key_of e) /\ blt (fst (n_range0 n)) (key_of e) /\ blt (key_of e) (snd (n_range0 n)).
Proof.
  intros H R1 R2 P I M K (V & RR & D1 & D2 & NO & LE & MO & BU) I0 L0.
  assert (J : forall g, In g es -> in_range (n_range0 n) (key_of g)).
  { intros g Ig. apply (Permutation_in _ (Permutation_sym P)) in Ig. unfold inside in Ig. apply filter_In in Ig. destruct Ig as [_ Ig]. apply in_rangeb_iff. auto. }
  assert (W1 : blt (fst (n_range0 n)) (key_of e)) by (destruct (J f0 I0); eapply ble_blt_trans; eauto).
  assert (W2 : blt (key_of e) (snd (n_range0 n))) by (destruct (J e I); auto).
  unfold split_check, encode_range. rewrite K, (proj2 (no_key_false _) (matches_nonempty _ _ M)), (matches_decode _ _ M). cbn [obind].
  destruct (fst e) as [k t] eqn:E. assert (KE : key_of e = k) by (unfold key_of; rewrite E; reflexivity). rewrite KE in *. cbn [obind].
  eexists. split; [reflexivity|]. cbn [f_split]. rewrite V, Z.eqb_refl, RR, D1, D2, NO, LE, BU.
  assert (NK : no_key k = false). { apply no_key_false. intros ->. unfold blt in L0. destruct (key_of f0); discriminate. }
  assert (IR : key_in_range k (n_range0 n) = true). { apply key_in_range_iff. split; auto. apply blt_ble. auto. }
  rewrite NK, IR. cbn [negb andb]. split; auto. destruct (n_mono n); [rewrite (MO eq_refl)|]; reflexivity.
Qed.

Theorem C95_half_core : forall tb thr chunk u cfs data n, Forall2 holds cfs data -> bytes_ok (fst (n_range0 n)) -> bytes_ok (snd (n_range0 n)) -> ready n ->
  let es := inside (n_range0 n) data in
  keys_small u es -> u < chunk -> thr <= bytes_in es -> chunk <= bytes_in es ->
  exists f k, split_check tb (PHalf thr chunk) cfs n = Ok f /\ f_split f = Some k /\ watershed_ok (n_range0 n) k = true /\
    bytes_in es <= 4 * (bytes_in (below k es) + u) /\ bytes_in es <= 4 * bytes_in (from k es) + 5 * chunk.
Proof.
  intros tb thr chunk u cfs data n H R1 R2 RD es KS UC T C. destruct (walk_holds _ R1 R2 tb _ _ H) as (vs & P & F & S). fold es in P.
  assert (U0 : 0 <= u). { specialize (KS []). pose proof (bytes_in_nonneg (at_key [] es)). lia. }
  assert (KS' : forall e, In e vs -> 0 <= size_of e <= u). { intros e I. apply (keys_small_size u es); auto. apply (Permutation_in _ (Permutation_sym P) I). }
  set (l := walk tb cfs _ _) in *. assert (FI := items_small u l vs F KS').
  assert (TL : sizes l = bytes_in es) by (rewrite (sizes_match _ _ F); symmetry; apply bytes_in_perm; auto).
  destruct (half_samples thr chunk u ltac:(lia) l [] 0 [] false [] 0) as (m & p1 & x & p2 & E & K & N1 & B & L1 & L2); cbn [app] in *.
  - eapply Forall_impl; [|exact FI]. cbv beta. tauto.
  - split; [lia|]. unfold num, sizes. cbn. split; [lia|]. intros i L. lia.
  - auto.
  - lia.
  - lia.
  - lia.
  - change (sizes []) with 0 in K. rewrite E in F, S. destruct (F2_split _ _ _ _ _ F) as (q1 & e & q2 & EV & M1 & M & M2).
    destruct (sorted_app _ _ _ S) as (S1 & S2 & _ & _).
    assert (LO := F2_forall_le _ _ _ _ M1 M S1). assert (HI := F2_forall_ge _ _ _ _ M2 M S2).
    assert (A1 := around_below q1 e q2 LO). assert (A2 := around_from q1 e q2 HI). rewrite <- EV in A1, A2.
    assert (X1 : bytes_in (q1 ++ [e]) = sizes (p1 ++ [x])). { symmetry. apply sizes_match. apply F2_app; auto. }
    assert (X2 : bytes_in q2 = sizes p2) by (symmetry; apply sizes_match; auto).
    assert (PB : bytes_in (below (key_of e) vs) = bytes_in (below (key_of e) es)) by (apply bytes_in_perm; apply filter_perm; apply Permutation_sym; auto).
    assert (PA : bytes_in (at_key (key_of e) vs) = bytes_in (at_key (key_of e) es)) by (apply bytes_in_perm; apply filter_perm; apply Permutation_sym; auto).
    assert (PF : bytes_in (from (key_of e) vs) = bytes_in (from (key_of e) es)) by (apply bytes_in_perm; apply filter_perm; apply Permutation_sym; auto).
    assert (KE := KS (key_of e)). pose proof (size_of_pos e).
    assert (D := Z.div_mod m 2 ltac:(lia)). assert (D2 := Z.mod_pos_bound m 2 ltac:(lia)).
    assert (BE : 0 < bytes_in (below (key_of e) vs)) by nia.
    destruct (below_in _ _ BE) as (f0 & I0 & L0). assert (IE : In e vs) by (rewrite EV; apply in_or_app; right; left; auto).
    destruct (asked tb (PHalf thr chunk) cfs data n vs x e f0 H R1 R2 P IE M) as (f & O & SP & W1 & W2); auto.
    exists f, (key_of e). split; auto. split; auto. split.
    { unfold watershed_ok. rewrite (proj2 (bltb_blt _ _) W1), (proj2 (bltb_blt _ _) W2). destruct (key_of e); [|reflexivity]. exfalso. unfold blt in L0. destruct (key_of f0); discriminate. }
    rewrite <- TL, <- PB, <- PF. split; nia.
Qed.

Theorem C95_size_core : forall tb ss pos u cfs data n, Forall2 holds cfs data -> bytes_ok (fst (n_range0 n)) -> bytes_ok (snd (n_range0 n)) -> ready n ->
  let es := inside (n_range0 n) data in
  keys_small u es -> u < pos -> pos + u <= ss -> ss <= bytes_in es ->
  exists f k, split_check tb (PSize ss pos) cfs n = Ok f /\ f_split f = Some k /\ watershed_ok (n_range0 n) k = true /\
    pos - u <= bytes_in (below k es) < pos.
Proof.
  intros tb ss pos u cfs data n H R1 R2 RD es KS UC PS T. destruct (walk_holds _ R1 R2 tb _ _ H) as (vs & P & F & S). fold es in P.
  assert (U0 : 0 <= u). { specialize (KS []). pose proof (bytes_in_nonneg (at_key [] es)). lia. }
  assert (KS' : forall e, In e vs -> 0 <= size_of e <= u). { intros e I. apply (keys_small_size u es); auto. apply (Permutation_in _ (Permutation_sym P) I). }
  set (l := walk tb cfs _ _) in *. assert (FI := items_small u l vs F KS').
  assert (TL : sizes l = bytes_in es) by (rewrite (sizes_match _ _ F); symmetry; apply bytes_in_perm; auto).
  destruct (size_first ss pos u PS U0 l 0 [] 0 FI ltac:(lia) ltac:(lia)) as (p1 & x & p2 & E & K & L1 & L2).
  rewrite E in F, S. destruct (F2_split _ _ _ _ _ F) as (q1 & e & q2 & EV & M1 & M & M2).
  destruct (sorted_app _ _ _ S) as (S1 & S2 & _ & _).
  assert (LO := F2_forall_le _ _ _ _ M1 M S1). assert (HI := F2_forall_ge _ _ _ _ M2 M S2).
  assert (A1 := around_below q1 e q2 LO). assert (A2 := below_first q1 e q2 HI). rewrite <- EV in A1, A2.
  assert (X1 : bytes_in (q1 ++ [e]) = sizes (p1 ++ [x])). { symmetry. apply sizes_match. apply F2_app; auto. }
  assert (X2 : bytes_in q1 = sizes p1) by (symmetry; apply sizes_match; auto).
  assert (PB : bytes_in (below (key_of e) vs) = bytes_in (below (key_of e) es)) by (apply bytes_in_perm; apply filter_perm; apply Permutation_sym; auto).
  assert (PA : bytes_in (at_key (key_of e) vs) = bytes_in (at_key (key_of e) es)) by (apply bytes_in_perm; apply filter_perm; apply Permutation_sym; auto).
  assert (KE := KS (key_of e)).
  assert (BE : 0 < bytes_in (below (key_of e) vs)) by lia.
  destruct (below_in _ _ BE) as (f0 & I0 & L0). assert (IE : In e vs) by (rewrite EV; apply in_or_app; right; left; auto).
  destruct (asked tb (PSize ss pos) cfs data n vs x e f0 H R1 R2 P IE M) as (f & O & SP & W1 & W2); auto.
  exists f, (key_of e). split; auto. split; auto. split.
  { unfold watershed_ok. rewrite (proj2 (bltb_blt _ _) W1), (proj2 (bltb_blt _ _) W2). destruct (key_of e); [|reflexivity]. exfalso. unfold blt in L0. destruct (key_of f0); discriminate. }
  rewrite <- PB. split; [lia|]. rewrite A2. unfold below. pose proof (filter_bytes_le (fun f => match bcmp (key_of f) (key_of e) with Lt => true | _ => false end) q1). lia.
Qed.

Theorem C95_keys_core : forall tb number pos v cfs data n, Forall2 holds cfs data -> bytes_ok (fst (n_range0 n)) -> bytes_ok (snd (n_range0 n)) -> ready n ->
  let es := inside (n_range0 n) data in
  few_versions v es -> v < pos -> pos < number -> number <= num (versions es) ->
  exists f k, split_check tb (PKeys number pos) cfs n = Ok f /\ f_split f = Some k /\ watershed_ok (n_range0 n) k = true /\
    pos - v <= num (versions (below k es)) < pos.
Proof.
  intros tb number pos v cfs data n H R1 R2 RD es FV VP PN T. destruct (walk_holds _ R1 R2 tb _ _ H) as (vs & P & F & S). fold es in P.
  assert (V0 : 0 <= v). { specialize (FV []). unfold num in FV. lia. }
  set (l := walk tb cfs _ _) in *.
  assert (FI : Forall (fun x : item => fst x <> []) l). { clear -F. induction F; constructor; auto. eapply matches_nonempty; eauto. }
  assert (TL : changes [] l = num (versions es)) by (rewrite (changes_versions _ _ F S); symmetry; apply versions_perm; auto).
  destruct (keys_first number pos PN l 0 [] 0 FI ltac:(lia) ltac:(lia)) as (p1 & x & p2 & E & K & L1 & L2).
  rewrite E in F, S. destruct (F2_split _ _ _ _ _ F) as (q1 & e & q2 & EV & M1 & M & M2).
  destruct (sorted_app _ _ _ S) as (S1 & S2 & S3 & S4).
  assert (LO := F2_forall_le _ _ _ _ M1 M S1). assert (HI := F2_forall_ge _ _ _ _ M2 M S2).
  assert (A1 := around_versions q1 e q2 LO). assert (A2 := below_first q1 e q2 HI). rewrite <- EV in A1, A2.
  assert (X1 : num (versions (q1 ++ [e])) = changes [] (p1 ++ [x])). { symmetry. apply changes_versions; auto. apply F2_app; auto. }
  assert (X2 : num (versions q1) = changes [] p1) by (symmetry; apply changes_versions; auto).
  assert (PB : num (versions (below (key_of e) vs)) = num (versions (below (key_of e) es))) by (apply versions_perm; apply filter_perm; apply Permutation_sym; auto).
  assert (PA : num (versions (at_key (key_of e) vs)) = num (versions (at_key (key_of e) es))) by (apply versions_perm; apply filter_perm; apply Permutation_sym; auto).
  assert (KE := FV (key_of e)).
  assert (BE : 0 < num (versions (below (key_of e) vs))) by lia.
  destruct (below_in_versions _ _ BE) as (f0 & I0 & L0). assert (IE : In e vs) by (rewrite EV; apply in_or_app; right; left; auto).
  destruct (asked tb (PKeys number pos) cfs data n vs x e f0 H R1 R2 P IE M) as (f & O & SP & W1 & W2); auto.
  exists f, (key_of e). split; auto. split; auto. split.
  { unfold watershed_ok. rewrite (proj2 (bltb_blt _ _) W1), (proj2 (bltb_blt _ _) W2). destruct (key_of e); [|reflexivity]. exfalso. unfold blt in L0. destruct (key_of f0); discriminate. }
  rewrite <- PB. split; [lia|]. rewrite A2. assert (Y := versions_incl (below (key_of e) q1) q1 ltac:(intros g G; apply filter_In in G; tauto)). lia.
Qed.

(** *** bounds on all keys from bounds on the keys there are *)
Lemma at_key_cases k es : at_key k es = [] \/ exists e, In e es /\ key_of e = k.
Proof.
  destruct (at_key k es) as [|e r] eqn:E; auto. right. exists e. assert (I : In e (at_key k es)) by (rewrite E; left; auto).
  unfold at_key in I. apply filter_In in I. destruct I as [I1 I2]. split; auto. destruct (bcmp (key_of e) k) eqn:B; try discriminate. apply bcmp_eq. auto.
Qed.
Lemma keys_small_check u es : 0 <= u -> forallb (fun e => bytes_in (at_key (key_of e) es) <=? u) es = true -> keys_small u es.
Proof.
  intros U F k. destruct (at_key_cases k es) as [->|(e & I & <-)]; [unfold bytes_in; simpl; lia|]. rewrite forallb_forall in F. apply Z.leb_le. apply F. auto.
Qed.
Lemma few_versions_check u es : 0 <= u -> forallb (fun e => num (versions (at_key (key_of e) es)) <=? u) es = true -> few_versions u es.
Proof.
  intros U F k. destruct (at_key_cases k es) as [->|(e & I & <-)]; [unfold num; simpl; lia|]. rewrite forallb_forall in F. apply Z.leb_le. apply F. auto.
Qed.
Definition enc (k : bytes) (t : Z) : bytes := match encode_key k t with Ok e => e | _ => [] end.
Definition store (d : list stored) : cf := map (fun e => (enc (key_of e) (snd (fst e)), snd e)) d.
Fixpoint sortedb (c : cf) : bool :=
  match c with
  | a :: ((b :: _) as r) => bltb (fst a) (fst b) && sortedb r
  | _ => true
  end.
Lemma sortedb_ok c : sortedb c = true -> StronglySorted (fun a b => blt (fst a) (fst b)) c.
Proof.
  intros H. apply Sorted_StronglySorted; [intros x y z A B; unfold blt in *; eapply bcmp_trans; eauto|].
  induction c as [|a [|b r] IH]; [constructor|constructor; constructor|]. cbn [sortedb] in H. apply andb_true_iff in H. destruct H as [H1 H2]. constructor; [apply IH; exact H2|constructor; apply bltb_blt; auto].
Qed.
Lemma holds_check d : forallb (fun e => forallb (fun b => (0 <=? b) && (b <? 256)) (key_of e) && (0 <=? snd (fst e)) && (snd (fst e) <? 2 ^ 63)) d = true ->
  sortedb (store d) = true -> holds (store d) d.
Proof.
  intros F S. split; [|apply sortedb_ok; auto]. clear S. induction d as [|e d IH]; [constructor|]. cbn [forallb] in F. rewrite !andb_true_iff in F. destruct F as (((F1 & F2) & F3) & F4).
  cbn [store map]. constructor; auto.
  assert (B : bytes_ok (key_of e)). { unfold bytes_ok. rewrite forallb_forall in F1. apply Forall_forall. intros x I. specialize (F1 x I). unfold byte_ok. lia. }
  assert (T : ts_ok (snd (fst e))) by (unfold ts_ok; lia). split; auto. split; auto. cbn [fst snd]. split; auto. unfold enc.
  destruct (C01_key_roundtrip _ _ B T) as (x & E & _). rewrite E. reflexivity.
Qed.
