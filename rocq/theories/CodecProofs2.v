From Coq Require Import ZArith List Lia Bool PeanoNat ZifyNat ZifyBool.
From Verif Require Import Bytes Outcome CodecModel CodecSpec CodecProofs.
Import ListNotations.
Open Scope Z_scope.
Ltac Zify.zify_post_hook ::= Z.div_mod_to_equations.

(** ** vector keys *)
Definition plain4 (p a v : Z) (s : bytes) : bytes := p :: write_long a ++ write_long_cmp v ++ s.

Lemma bcmp_app_len a b s t : length a = length b ->
  bcmp (a ++ s) (b ++ t) = match bcmp a b with Eq => bcmp s t | c => c end.
Proof.
  revert b. induction a as [|x a IH]; intros [|y b] H; simpl in H; try lia; auto.
  cbn [app bcmp]. destruct (Z.compare x y); auto.
Qed.

Lemma comp_ok_ranges p a v : comp_ok p a v ->
  - two63 <= a < two63 /\ - two63 <= v < two63 /\ 0 <= a /\ 0 <= v.
Proof. unfold comp_ok. rewrite two63_val. lia. Qed.

Lemma bytes_ok_write_long v : bytes_ok (write_long v).
Proof. apply be_ok. Qed.

Lemma plain4_ok p a v s : comp_ok p a v -> bytes_ok s -> bytes_ok (plain4 p a v s).
Proof.
  intros C Hs. unfold plain4. constructor. { unfold comp_ok, byte_ok in *; lia. }
  apply Forall_app; split; [apply be_ok|]. apply Forall_app; split; auto.
  rewrite write_long_cmp_eq by apply (comp_ok_ranges _ _ _ C). apply be_ok.
Qed.

Lemma plain2_ok p a v : comp_ok p a v -> bytes_ok (p :: write_long a).
Proof. intros C. constructor. { unfold comp_ok, byte_ok in *; lia. } apply be_ok. Qed.

Lemma plain4_length p a v s : comp_ok p a v -> length (plain4 p a v s) = (17 + length s)%nat.
Proof.
  intros C. unfold plain4. cbn [length]. rewrite !app_length, write_long_length, write_long_cmp_length.
  lia. apply (comp_ok_ranges _ _ _ C).
Qed.

Lemma plain4_order p1 a1 v1 s1 p2 a2 v2 s2 : comp_ok p1 a1 v1 -> comp_ok p2 a2 v2 ->
  bcmp (plain4 p1 a1 v1 s1) (plain4 p2 a2 v2 s2) = vector_order p1 a1 v1 s1 p2 a2 v2 s2.
Proof.
  intros C1 C2. destruct (comp_ok_ranges _ _ _ C1) as (A1 & V1 & N1 & M1).
  destruct (comp_ok_ranges _ _ _ C2) as (A2 & V2 & N2 & M2).
  unfold plain4, vector_order. cbn [bcmp]. destruct (Z.compare p1 p2); auto.
  rewrite bcmp_app_len by (rewrite !write_long_length; auto).
  rewrite write_long_cmp_order by (auto; lia).
  destruct (Z.compare a1 a2); auto.
  rewrite bcmp_app_len by (rewrite !write_long_cmp_length; auto).
  rewrite write_long_cmp_ord by auto. auto.
Qed.

(** the two-component key is the lower bound of its partition *)
Lemma plain2_order p1 a1 p2 a2 v2 s2 : comp_ok p1 a1 0 -> comp_ok p2 a2 v2 ->
  bcmp (p1 :: write_long a1) (plain4 p2 a2 v2 s2) =
  match Z.compare p1 p2 with Eq => match Z.compare a1 a2 with Eq => Lt | c => c end | c => c end.
Proof.
  intros C1 C2. destruct (comp_ok_ranges _ _ _ C1) as (A1 & V1 & N1 & M1).
  destruct (comp_ok_ranges _ _ _ C2) as (A2 & V2 & N2 & M2).
  unfold plain4. cbn [bcmp]. destruct (Z.compare p1 p2); auto.
  rewrite <- (app_nil_r (write_long a1)).
  rewrite bcmp_app_len by (rewrite !write_long_length; auto).
  rewrite write_long_cmp_order by (auto; lia).
  destruct (Z.compare a1 a2); auto.
Qed.

Lemma package_key3_eq p a v : comp_ok p a v -> package_key3 p a v = Ok (plain4 p a v []).
Proof.
  intros [H1 [H2 H3]]. unfold package_key3, plain4.
  replace ((p =? 0) || (a <=? 0) || (v <? 0)) with false by lia. rewrite app_nil_r. auto.
Qed.
Lemma package_key2_eq p a v : comp_ok p a v -> package_key2 p a = Ok (p :: write_long a).
Proof.
  intros [H1 [H2 H3]]. unfold package_key2.
  replace ((p =? 0) || (a <=? 0)) with false by lia. auto.
Qed.
Lemma package_key4_eq p a v s : comp_ok p a v -> s <> [] -> package_key4 p a v s = Ok (plain4 p a v s).
Proof.
  intros [H1 [H2 H3]] Hs. unfold package_key4, plain4. destruct s; [congruence|].
  replace ((p =? 0) || (a <=? 0) || (v <? 0) || false) with false by lia. auto.
Qed.

Lemma unpackage_partition4 p a v s : comp_ok p a v -> unpackage_partition (plain4 p a v s) = Ok a.
Proof.
  intros C. destruct (comp_ok_ranges _ _ _ C) as (A1 & V1 & N1 & M1).
  unfold unpackage_partition. rewrite plain4_length with (1:=C).
  unfold kVectorKeyMinLenWithPrefix. destruct (Nat.ltb_spec (17 + length s) 9); [lia|].
  unfold plain4. change (skipn 1 (p :: ?x)) with x.
  rewrite firstn_app. rewrite write_long_length, firstn_all2 by (rewrite write_long_length; lia).
  apply read_write_long; auto.
Qed.
Lemma unpackage_partition2 p a : comp_ok p a 0 -> unpackage_partition (p :: write_long a) = Ok a.
Proof.
  intros C. destruct (comp_ok_ranges _ _ _ C) as (A1 & V1 & N1 & M1).
  unfold unpackage_partition. cbn [length]. rewrite write_long_length.
  change (9 <? kVectorKeyMinLenWithPrefix)%nat with false. cbv iota.
  change (skipn 1 (p :: ?x)) with x.
  rewrite firstn_all2 by (rewrite write_long_length; lia).
  pose proof (read_write_long a [] A1) as R. rewrite app_nil_r in R. exact R.
Qed.
Lemma unpackage_vector_id4 p a v s : comp_ok p a v -> unpackage_vector_id (plain4 p a v s) = Ok v.
Proof.
  intros C. destruct (comp_ok_ranges _ _ _ C) as (A1 & V1 & N1 & M1).
  unfold unpackage_vector_id. rewrite plain4_length with (1:=C).
  unfold kVectorKeyMaxLenWithPrefix. destruct (Nat.leb_spec 17 (17 + length s)); [|lia].
  unfold plain4.
  assert (E: skipn 9 (p :: write_long a ++ write_long_cmp v ++ s) = write_long_cmp v ++ s).
  { change (p :: write_long a ++ write_long_cmp v ++ s) with ((p :: write_long a) ++ (write_long_cmp v ++ s)).
    apply skipn_app_exact. cbn [length]. rewrite write_long_length. auto. }
  rewrite E. rewrite firstn_app, firstn_all2 by (rewrite write_long_cmp_length; auto; lia).
  apply read_write_long_cmp; auto.
Qed.
Lemma unpackage_vector_id2 p a : unpackage_vector_id (p :: write_long a) = Ok 0.
Proof. unfold unpackage_vector_id. cbn [length]. rewrite write_long_length. reflexivity. Qed.
Lemma unpackage_scalar4 p a v s : comp_ok p a v -> s <> [] -> unpackage_scalar (plain4 p a v s) = Ok s.
Proof.
  intros C Hs. destruct (comp_ok_ranges _ _ _ C) as (A1 & V1 & N1 & M1).
  unfold unpackage_scalar. rewrite plain4_length with (1:=C).
  unfold kVectorKeyMaxLenWithPrefix. destruct s; [congruence|].
  destruct (Nat.leb_spec (17 + length (z :: s)) 17); [cbn [length] in *; lia|].
  reflexivity.
Qed.

Lemma enc_len4 p a v s : comp_ok p a v -> (27 <= length (encode_bytes (plain4 p a v s)))%nat.
Proof. intros C. rewrite encode_bytes_length, plain4_length with (1:=C). lia. Qed.
Lemma enc_len2 p a : length (encode_bytes (p :: write_long a)) = 18%nat.
Proof. rewrite encode_bytes_length. cbn [length]. rewrite write_long_length. reflexivity. Qed.

Lemma decode_or_abort_enc k : decode_or_abort (encode_bytes k) = Ok k.
Proof. unfold decode_or_abort. rewrite decode_encode_bytes. auto. Qed.

Lemma decode4 p a v s : comp_ok p a v ->
  let e := encode_bytes (plain4 p a v s) in
  decode_partition e = Ok a /\ decode_vector_id e = Ok v /\ decode_from_key3 e = Ok (a, v) /\
  (s <> [] -> decode_scalar e = Ok s /\ decode_from_key4 e = Ok (a, v, s)).
Proof.
  intros C e. pose proof (enc_len4 p a v s C) as L. fold e in L.
  assert (LO: negb (enc_len_ok (length e)) = false) by (unfold enc_len_ok; lia).
  unfold decode_partition, decode_vector_id, decode_from_key3, decode_scalar, decode_from_key4. rewrite LO.
  replace (length e <? 27)%nat with false by lia.
  unfold e. rewrite decode_or_abort_enc. cbn [obind].
  rewrite unpackage_partition4, unpackage_vector_id4 by auto. cbn [obind].
  repeat split; auto. intros. rewrite unpackage_scalar4; auto. intros. rewrite unpackage_scalar4; auto.
Qed.

Lemma decode2 p a : comp_ok p a 0 ->
  let e := encode_bytes (p :: write_long a) in
  decode_partition e = Ok a /\ decode_vector_id e = Ok 0 /\ decode_from_key3 e = Ok (a, 0).
Proof.
  intros C e. pose proof (enc_len2 p a) as L. fold e in L.
  assert (LO: negb (enc_len_ok (length e)) = false) by (unfold enc_len_ok; lia).
  unfold decode_partition, decode_vector_id, decode_from_key3. rewrite LO.
  unfold e. rewrite decode_or_abort_enc. cbn [obind].
  rewrite unpackage_partition2, unpackage_vector_id2 by auto. auto.
Qed.

Lemma decode4_ts p a v s ts : comp_ok p a v -> ts_ok ts ->
  let e := encode_bytes (plain4 p a v s) ++ write_long (Z.lnot ts) in
  vector_truncate_ts e = Ok (encode_bytes (plain4 p a v s)) /\ vector_truncate_key e = Ok ts /\
  decode_from_key3_ts e = Ok (a, v) /\ (s <> [] -> decode_from_key4_ts e = Ok (a, v, s)).
Proof.
  intros C Ht e. pose proof (enc_len4 p a v s C) as L.
  assert (Le: length e = (length (encode_bytes (plain4 p a v s)) + 8)%nat)
    by (unfold e; rewrite app_length, write_long_length; auto).
  assert (LO: negb (enc_ts_len_ok (length e)) = false) by (unfold enc_ts_len_ok; lia).
  assert (T: vector_truncate_ts e = Ok (encode_bytes (plain4 p a v s))).
  { unfold vector_truncate_ts. replace (length e <? 25)%nat with false by lia. f_equal.
    rewrite Le. unfold e. apply firstn_app_exact. lia. }
  split; auto. split.
  { unfold vector_truncate_key. replace (length e <? 8)%nat with false by lia.
    rewrite Le. unfold e. rewrite skipn_app_exact by lia.
    pose proof (read_write_long_neg ts [] Ht) as R. rewrite app_nil_r in R. exact R. }
  unfold decode_from_key3_ts, decode_from_key4_ts. rewrite LO, T. cbn [obind].
  rewrite decode_or_abort_enc. cbn [obind].
  rewrite unpackage_partition4, unpackage_vector_id4 by auto. cbn [obind].
  split; auto. intros. rewrite unpackage_scalar4; auto.
Qed.

(** ** ranges *)
Lemma bleb_iff a b : bleb a b = true <-> ble a b.
Proof. unfold bleb, ble. destruct (bcmp a b); split; congruence. Qed.
Lemma ble_lt_dec a b : ble a b \/ blt b a.
Proof. unfold ble, blt. rewrite (bcmp_opp a b). destruct (bcmp a b); simpl; [left|left|right]; congruence. Qed.
Lemma ble_not_lt a b : ble a b <-> ~ blt b a.
Proof. unfold ble, blt. rewrite (bcmp_opp a b). destruct (bcmp a b); simpl; split; congruence. Qed.
Lemma ble_trans a b c : ble a b -> ble b c -> ble a c.
Proof.
  unfold ble. intros H1 H2. destruct (bcmp a b) eqn:E1; try congruence.
  - apply bcmp_eq in E1. subst. auto.
  - destruct (bcmp b c) eqn:E2; try congruence.
    + apply bcmp_eq in E2. subst. congruence.
    + rewrite (bcmp_trans _ _ _ E1 E2). congruence.
Qed.
Lemma blt_le_trans a b c : blt a b -> ble b c -> blt a c.
Proof.
  unfold ble, blt. intros H1 H2. destruct (bcmp b c) eqn:E2; try congruence.
  - apply bcmp_eq in E2. subst. auto.
  - eapply bcmp_trans; eauto.
Qed.
Lemma ble_lt_trans a b c : ble a b -> blt b c -> blt a c.
Proof.
  unfold ble, blt. intros H1 H2. destruct (bcmp a b) eqn:E2; try congruence.
  - apply bcmp_eq in E2. subst. auto.
  - eapply bcmp_trans; eauto.
Qed.
Lemma ble_refl a : ble a a. Proof. unfold ble. rewrite bcmp_refl. congruence. Qed.

Lemma bleb_false a b : bleb a b = false -> ble b a.
Proof.
  intros E. destruct (ble_lt_dec a b) as [X|X].
  - apply bleb_iff in X. congruence.
  - unfold ble, blt in *. congruence.
Qed.

Lemma intersect_spec r1 r2 k : in_range (intersect_range r1 r2) k <-> in_range r1 k /\ in_range r2 k.
Proof.
  unfold in_range, intersect_range. destruct r1 as [s1 e1], r2 as [s2 e2]. cbn [fst snd].
  destruct (bleb s1 s2) eqn:E1; destruct (bleb e1 e2) eqn:E2;
    try apply bleb_iff in E1; try apply bleb_false in E1; try apply bleb_iff in E2; try apply bleb_false in E2;
    split; intros; repeat match goal with H : _ /\ _ |- _ => destruct H end; repeat split; auto;
    try (eapply ble_trans; eassumption); try (eapply blt_le_trans; eassumption).
Qed.

Lemma contain_spec r1 r2 : blt (fst r2) (snd r2) ->
  (is_contain_range r1 r2 = true <-> forall k, in_range r2 k -> in_range r1 k).
Proof.
  intros NE. unfold is_contain_range, in_range. destruct r1 as [s1 e1], r2 as [s2 e2]. cbn [fst snd] in *.
  rewrite andb_true_iff, !bleb_iff. split.
  - intros [H1 H2] k [H3 H4]. split; [eapply ble_trans|eapply blt_le_trans]; eauto.
  - intros H. split. { apply (H s2). split; auto. apply ble_refl. }
    destruct (ble_lt_dec e2 e1) as [|L]; auto. exfalso.
    destruct (ble_lt_dec s2 e1) as [L2|L2].
    + destruct (H e1); [split; auto|]. unfold blt in *. rewrite bcmp_refl in *. discriminate.
    + destruct (H s2); [split; auto; apply ble_refl|]. unfold blt in *.
      rewrite bcmp_opp in L2. rewrite H1 in L2. discriminate.
Qed.

Lemma conflict_spec r1 r2 : blt (fst r1) (snd r1) -> blt (fst r2) (snd r2) ->
  (is_conflict_range r1 r2 = true <-> exists k, in_range r1 k /\ in_range r2 k).
Proof.
  intros N1 N2. unfold is_conflict_range, in_range. destruct r1 as [s1 e1], r2 as [s2 e2]. cbn [fst snd] in *.
  rewrite negb_true_iff, orb_false_iff. split.
  - intros [H1 H2].
    assert (L1: blt s1 e2) by (destruct (ble_lt_dec e2 s1) as [X|]; auto; apply bleb_iff in X; congruence).
    assert (L2: blt s2 e1) by (destruct (ble_lt_dec e1 s2) as [X|]; auto; apply bleb_iff in X; congruence).
    destruct (ble_lt_dec s1 s2) as [L|L].
    + exists s2. repeat split; auto. apply ble_refl.
    + exists s1. repeat split; auto. apply ble_refl. unfold ble, blt in *; congruence.
  - intros [k [[H1 H2] [H3 H4]]]. split.
    + destruct (bleb e2 s1) eqn:E; auto. apply bleb_iff in E. exfalso.
      pose proof (blt_le_trans _ _ _ H4 (ble_trans _ _ _ E H1)) as X. unfold blt in X. rewrite bcmp_refl in X. discriminate.
    + destruct (bleb e1 s2) eqn:E; auto. apply bleb_iff in E. exfalso.
      pose proof (blt_le_trans _ _ _ H2 (ble_trans _ _ _ E H3)) as X. unfold blt in X. rewrite bcmp_refl in X. discriminate.
Qed.

Lemma invalid_spec r : invalid_range r = true <-> forall k, ~ in_range r k.
Proof.
  unfold invalid_range, in_range. rewrite bleb_iff. destruct r as [s e]. cbn [fst snd]. split.
  - intros H k [H1 H2]. pose proof (blt_le_trans _ _ _ H2 (ble_trans _ _ _ H H1)) as X.
    unfold blt in X. rewrite bcmp_refl in X. discriminate.
  - intros H. destruct (ble_lt_dec e s); auto. exfalso. apply (H s). split; auto. apply ble_refl.
Qed.

(** PrefixNext as an upper bound: keys with prefix s lie below it; it is the least
    string of the same length above s *)
Lemma bcmp_len_eq p b n m : 0 <= b < 255 -> n = m ->
  bcmp (p ++ b :: repeat 255 n) (p ++ (b + 1) :: repeat 0 m) = Lt.
Proof. intros. rewrite bcmp_app. cbn [bcmp]. destruct (Z.compare_spec b (b + 1)); auto; lia. Qed.

Lemma prefix_next_gt l r : bytes_ok l -> prefix_next l <> l -> blt (l ++ r) (prefix_next l).
Proof.
  intros H N. destruct (prefix_next_spec l H) as [[_ E]|[p [b [n [E1 [Hb E2]]]]]]; [congruence|].
  unfold blt. rewrite E2, E1, <- app_assoc. rewrite bcmp_app. cbn [app bcmp].
  destruct (Z.compare_spec b (b + 1)); auto; lia.
Qed.

Lemma repeat255_max n : forall x, bytes_ok x -> length x = n -> bcmp x (repeat 255 n) <> Gt.
Proof.
  induction n as [|n IH]; intros [|y x] Hok L; simpl in L; try discriminate; cbn [repeat bcmp]; try congruence.
  inversion Hok as [|? ? Hy Hx]; subst. unfold byte_ok in Hy. destruct (Z.compare_spec y 255); try congruence; try lia.
  apply IH; auto.
Qed.
Lemma repeat0_min n : forall x, bytes_ok x -> length x = n -> bcmp (repeat 0 n) x <> Gt.
Proof.
  induction n as [|n IH]; intros [|y x] Hok L; simpl in L; try discriminate; cbn [repeat bcmp]; try congruence.
  inversion Hok as [|? ? Hy Hx]; subst. unfold byte_ok in Hy. destruct (Z.compare_spec 0 y); try congruence; try lia.
  apply IH; auto.
Qed.

Lemma prefix_next_least l x : bytes_ok l -> bytes_ok x -> prefix_next l <> l -> length x = length l ->
  blt l x -> ble (prefix_next l) x.
Proof.
  intros H Hx N L LT. destruct (prefix_next_spec l H) as [[_ E]|[p [b [n [E1 [Hb E2]]]]]]; [congruence|].
  unfold blt, ble in *. rewrite E2. rewrite E1 in LT, L. clear - LT L Hx Hb.
  revert x Hx L LT. induction p as [|c p IH]; intros [|y x] Hx L LT; cbn [app length] in L; try discriminate.
  - cbn [app bcmp] in *. inversion Hx as [|? ? Hy Hx']; subst. rewrite repeat_length in L. unfold byte_ok in Hy.
    destruct (Z.compare_spec b y); try discriminate.
    + exfalso. subst. assert (Lx: length x = n) by lia. pose proof (repeat255_max n x Hx' Lx) as X.
      rewrite bcmp_opp in LT. destruct (bcmp x (repeat 255 n)); simpl in LT; congruence.
    + destruct (Z.compare_spec (b + 1) y); try congruence; try lia.
      apply repeat0_min; auto.
  - cbn [app bcmp] in *. inversion Hx; subst. destruct (Z.compare c y); try congruence. apply IH; auto.
Qed.

(** ** statements used by CodecThms *)
Lemma roundtrip_key k ts : bytes_ok k -> ts_ok ts ->
  exists e, encode_key k ts = Ok e /\ bytes_ok e /\ decode_key e = Ok (Some (k, ts)) /\
            truncate_ts e = Ok (memcomparable k) /\ truncate_key e = Ok ts /\
            e = memcomparable k ++ be 8 (2 ^ 64 - 1 - ts).
Proof.
  intros Hk Ht. exists (encode_bytes k ++ write_long (Z.lnot ts)).
  assert (E := encode_key_eq k ts Ht). split; auto.
  destruct (truncate_ts_encode _ _ _ Ht E) as [T1 T2].
  rewrite <- encode_bytes_memcomparable.
  split; [|split; [|split; [|split]]]; auto.
  - apply bytes_ok_app. split; [apply encode_bytes_ok; auto|apply be_ok].
  - eapply decode_encode_key; eauto.
  - f_equal. unfold write_long. f_equal. unfold to_u64, Z.lnot, ts_ok in *. rewrite two64_val.
    change (2 ^ 64) with 18446744073709551616. lia.
Qed.

Lemma decode_bytes_iff e k : bytes_ok e ->
  (decode_bytes e = Ok (Some k) <->
   (length e mod 9 = 0)%nat /\ last e 0 <> 255 /\ decodable e k).
Proof.
  intros He. rewrite <- accepted_shape_iff.
  assert (B: e <> [] -> (back e <> Ok 255 <-> last e 0 <> 255)).
  { intros Hne. destruct (exists_last Hne) as [p [b ->]]. rewrite back_snoc, last_last. split; congruence. }
  split.
  - intros H. apply decode_bytes_shape in H; auto. destruct H as [S [M Bk]].
    repeat split; auto. apply B; auto. intro; subst. destruct S as [[rest E]|[rest [_ E]]].
    + apply (f_equal (@length Z)) in E. rewrite app_length in E. pose proof (encode_bytes_len_ge k). cbn [length] in E. lia.
    + apply (f_equal (@length Z)) in E. rewrite !app_length, repeat_length in E. cbn [length] in E. lia.
  - intros [M [L S]]. apply shape_decode_bytes; auto. apply B; auto.
    intro; subst. destruct S as [[rest E]|[rest [_ E]]].
    + apply (f_equal (@length Z)) in E. rewrite app_length in E. pose proof (encode_bytes_len_ge k). cbn [length] in E. lia.
    + apply (f_equal (@length Z)) in E. rewrite !app_length, repeat_length in E. cbn [length] in E. lia.
Qed.

Lemma encode_key_inj k1 t1 k2 t2 e : bytes_ok k1 -> bytes_ok k2 -> ts_ok t1 -> ts_ok t2 ->
  encode_key k1 t1 = Ok e -> encode_key k2 t2 = Ok e -> k1 = k2 /\ t1 = t2.
Proof.
  intros. pose proof (decode_encode_key _ _ _ H1 H3). pose proof (decode_encode_key _ _ _ H2 H4).
  rewrite H5 in H6. injection H6 as -> ->. auto.
Qed.

Lemma key_range_versions k k' ts e : bytes_ok k -> bytes_ok k' -> ts_ok ts -> encode_key k' ts = Ok e ->
  (in_range (encode_bytes k, prefix_next (encode_bytes k)) e <-> k' = k).
Proof. intros. rewrite encode_key_eq in H2 by auto. apply Ok_inj in H2. subst. apply key_range_iff; auto. Qed.

Lemma user_range_versions a b k ts e : bytes_ok a -> bytes_ok b -> bytes_ok k -> ts_ok ts -> encode_key k ts = Ok e ->
  (in_range (encode_range (a, b)) e <-> in_range (a, b) k).
Proof. intros. rewrite encode_key_eq in H3 by auto. apply Ok_inj in H3. subst. apply range_encode_iff; auto. Qed.

Lemma decode_range_encode a b : decode_range (encode_range (a, b)) = Ok (a, b).
Proof. unfold decode_range, encode_range. cbn [fst snd]. rewrite !decode_encode_bytes. auto. Qed.

Lemma vector_roundtrip p a v : comp_ok p a v ->
  exists e, encode_vector_key3 p a v = Ok e /\ decode_partition e = Ok a /\ decode_vector_id e = Ok v /\
            decode_from_key3 e = Ok (a, v).
Proof.
  intros C. unfold encode_vector_key3. rewrite package_key3_eq by auto. eexists; split; [reflexivity|].
  destruct (decode4 p a v [] C) as (H1 & H2 & H3 & _). auto.
Qed.
Lemma vector_roundtrip_scalar p a v s : comp_ok p a v -> s <> [] ->
  exists e, encode_vector_key4 p a v s = Ok e /\ decode_partition e = Ok a /\ decode_vector_id e = Ok v /\
            decode_scalar e = Ok s /\ decode_from_key4 e = Ok (a, v, s).
Proof.
  intros C Hs. unfold encode_vector_key4. rewrite package_key4_eq by auto. eexists; split; [reflexivity|].
  destruct (decode4 p a v s C) as (H1 & H2 & H3 & H4). destruct (H4 Hs). auto.
Qed.
Lemma vector_roundtrip_ts p a v ts : comp_ok p a v -> ts_ok ts ->
  exists e, encode_vector_key3_ts p a v ts = Ok e /\ decode_from_key3_ts e = Ok (a, v) /\
            vector_truncate_key e = Ok ts /\ omap Some (vector_truncate_ts e) = omap Some (encode_vector_key3 p a v).
Proof.
  intros C Ht. unfold encode_vector_key3_ts, encode_vector_key3. rewrite package_key3_eq by auto. cbn [obind omap].
  rewrite encode_key_eq by auto. eexists; split; [reflexivity|].
  destruct (decode4_ts p a v [] ts C Ht) as (H1 & H2 & H3 & _). rewrite H1. auto.
Qed.
Lemma vector_roundtrip_scalar_ts p a v s ts : comp_ok p a v -> s <> [] -> ts_ok ts ->
  exists e, encode_vector_key4_ts p a v s ts = Ok e /\ decode_from_key4_ts e = Ok (a, v, s) /\
            vector_truncate_key e = Ok ts.
Proof.
  intros C Hs Ht. unfold encode_vector_key4_ts. rewrite package_key4_eq by auto. cbn [obind].
  rewrite encode_key_eq by auto. eexists; split; [reflexivity|].
  destruct (decode4_ts p a v s ts C Ht) as (H1 & H2 & H3 & H4). auto.
Qed.

Lemma vector_stored_key_eq p a v s ts : comp_ok p a v -> ts_ok ts ->
  vector_stored_key p a v s ts = Ok (encode_bytes (plain4 p a v s) ++ write_long (Z.lnot ts)).
Proof.
  intros C Ht. destruct s; unfold vector_stored_key, encode_vector_key3_ts, encode_vector_key4_ts.
  - rewrite package_key3_eq by auto. cbn [obind]. apply encode_key_eq; auto.
  - rewrite package_key4_eq by (auto; congruence). cbn [obind]. apply encode_key_eq; auto.
Qed.

Lemma vector_stored_order p1 a1 v1 s1 t1 p2 a2 v2 s2 t2 e1 e2 :
  comp_ok p1 a1 v1 -> comp_ok p2 a2 v2 -> bytes_ok s1 -> bytes_ok s2 -> ts_ok t1 -> ts_ok t2 ->
  vector_stored_key p1 a1 v1 s1 t1 = Ok e1 -> vector_stored_key p2 a2 v2 s2 t2 = Ok e2 ->
  bcmp e1 e2 = match vector_order p1 a1 v1 s1 p2 a2 v2 s2 with Eq => Z.compare t2 t1 | c => c end.
Proof.
  intros C1 C2 S1 S2 T1 T2 E1 E2. rewrite vector_stored_key_eq in E1, E2 by auto.
  apply Ok_inj in E1. subst. apply Ok_inj in E2. subst.
  rewrite encode_bytes_cmp_app by (apply plain4_ok; auto). rewrite plain4_order by auto.
  destruct (vector_order _ _ _ _ _ _ _ _); auto. apply neg_order; auto.
Qed.

Lemma vector_bound_eq p a id : bound_ok p a id ->
  vector_bound p a id = Ok (encode_bytes (match id with None => p :: write_long a | Some v => plain4 p a v [] end)).
Proof.
  intros C. destruct id; unfold vector_bound, bound_ok, encode_vector_key2, encode_vector_key3 in *.
  - rewrite package_key3_eq; auto.
  - rewrite (package_key2_eq p a 0); auto.
Qed.

Lemma decode_vector_id_bound p a id : bound_ok p a id ->
  decode_vector_id (encode_bytes (match id with None => p :: write_long a | Some v => plain4 p a v [] end))
  = Ok (match id with Some v => v | None => 0 end) /\
  decode_partition (encode_bytes (match id with None => p :: write_long a | Some v => plain4 p a v [] end)) = Ok a.
Proof.
  intros C. destruct id; unfold bound_ok in *.
  - destruct (decode4 p a z [] C) as (H1 & H2 & _). auto.
  - destruct (decode2 p a C) as (H1 & H2 & _). auto.
Qed.

Lemma bound_le p a lo v s ts : bound_ok p a lo -> comp_ok p a v -> bytes_ok s -> ts_ok ts ->
  (ble (encode_bytes (match lo with None => p :: write_long a | Some v => plain4 p a v [] end))
       (encode_bytes (plain4 p a v s) ++ write_long (Z.lnot ts)) <->
   (match lo with Some l => l | None => 0 end) <= v).
Proof.
  intros CL CV Hs Ht. unfold ble.
  rewrite <- (app_nil_r (encode_bytes (match lo with None => _ | Some _ => _ end))).
  rewrite encode_bytes_cmp_app.
  2:{ destruct lo; [apply plain4_ok; auto; constructor|apply (plain2_ok _ _ _ CL)]. }
  2:{ apply plain4_ok; auto. }
  destruct lo as [l|].
  - rewrite plain4_order by auto. unfold vector_order. rewrite !Z.compare_refl.
    destruct (Z.compare_spec l v); destruct s; simpl; split; intros; try congruence; try lia.
  - rewrite (plain2_order p a p a v s) by auto. rewrite !Z.compare_refl. unfold comp_ok in CV. split; intros; [lia|congruence].
Qed.

Lemma vector_range_ids p a lo hi_a hi v s ts ks ke e :
  bound_ok p a lo -> bound_ok p hi_a hi ->
  (* the end is either an id > 0 in the same partition, or the start of a later partition *)
  (hi_a = a /\ 0 < match hi with Some h => h | None => 0 end \/ a < hi_a /\ match hi with Some h => h | None => 0 end = 0) ->
  comp_ok p a v -> v < 2 ^ 63 - 1 -> bytes_ok s -> ts_ok ts ->
  vector_bound p a lo = Ok ks -> vector_bound p hi_a hi = Ok ke -> vector_stored_key p a v s ts = Ok e ->
  exists l h, decode_range_to_vector_id (ks, ke) = Ok (l, h) /\ (in_range (ks, ke) e <-> l <= v < h).
Proof.
  intros CL CH D CV Vm Hs Ht EL EH EK.
  rewrite vector_bound_eq in EL, EH by auto. apply Ok_inj in EL. subst. apply Ok_inj in EH. subst.
  rewrite vector_stored_key_eq in EK by auto. apply Ok_inj in EK. subst.
  unfold decode_range_to_vector_id. cbn [fst snd].
  destruct (decode_vector_id_bound p a lo CL) as [L1 L2].
  destruct (decode_vector_id_bound p hi_a hi CH) as [H1 H2].
  rewrite L1, H1, L2, H2. cbn [obind].
  pose proof (bound_le p a lo v s ts CL CV Hs Ht) as BL.
  assert (BH: blt (encode_bytes (plain4 p a v s) ++ write_long (Z.lnot ts))
     (encode_bytes (match hi with None => p :: write_long hi_a | Some v => plain4 p hi_a v [] end)) <->
     (a < hi_a \/ v < match hi with Some h => h | None => 0 end)).
  { destruct (Z.eq_dec a hi_a).
    - subst hi_a. pose proof (bound_le p a hi v s ts CH CV Hs Ht) as B.
      rewrite ble_not_lt in B.
      split; intros X.
      + right. destruct (Z_lt_ge_dec v (match hi with Some h => h | None => 0 end)); auto.
        exfalso. assert (Y: match hi with Some h => h | None => 0 end <= v) by lia. apply B in Y. auto.
      + destruct (ble_lt_dec (encode_bytes (match hi with None => p :: write_long a | Some v => plain4 p a v [] end))
                   (encode_bytes (plain4 p a v s) ++ write_long (Z.lnot ts))) as [Y|Y]; auto.
        apply ble_not_lt in Y. apply B in Y. lia.
    - assert (a < hi_a) by lia. split; auto. intros _. unfold blt.
      rewrite <- (app_nil_r (encode_bytes (match hi with None => _ | Some _ => _ end))).
      rewrite encode_bytes_cmp_app.
      2:{ apply plain4_ok; auto. }
      2:{ destruct hi; [apply plain4_ok; auto; constructor|apply (plain2_ok _ _ _ CH)]. }
      destruct hi as [h|].
      + rewrite plain4_order by auto. unfold vector_order. rewrite !Z.compare_refl.
        destruct (Z.compare_spec a hi_a); auto; lia.
      + rewrite bcmp_opp, (plain2_order p hi_a p a v s) by auto. rewrite !Z.compare_refl.
        destruct (Z.compare_spec hi_a a); auto; lia. }
  destruct D as [[-> D]|[D1 D2]].
  - destruct (Z.eqb_spec (match hi with Some h => h | None => 0 end) 0); [lia|].
    eexists _, _; split; [reflexivity|]. unfold in_range. cbn [fst snd]. rewrite BL, BH. lia.
  - rewrite D2. cbn [Z.eqb]. destruct (Z.ltb_spec a hi_a); [|lia].
    eexists _, _; split; [reflexivity|]. unfold in_range. cbn [fst snd]. rewrite BL, BH. rewrite two63_val. lia.
Qed.

Lemma prefix_range l k : bytes_ok l -> l <> [] -> last l 0 <> 255 ->
  (is_prefix l k <-> ble l k /\ blt k (prefix_next l)).
Proof.
  intros Hok Hne HL. destruct (exists_last Hne) as [p [b ->]]. rewrite last_last in HL.
  rewrite prefix_next_snoc by auto. rewrite <- range_prefix_snoc. reflexivity.
Qed.
Lemma prefix_next_lt l : bytes_ok l -> l <> [] -> last l 0 <> 255 -> blt l (prefix_next l).
Proof. intros. apply prefix_range; auto. exists []. rewrite app_nil_r; auto. Qed.

Lemma blt_ble a b : blt a b -> ble a b.
Proof. unfold blt, ble. congruence. Qed.

Lemma transform_range_spec ws we s e k : bytes_ok s -> bytes_ok e ->
  (ws = false -> s <> [] /\ last s 0 <> 255) -> (we = true -> e <> [] /\ last e 0 <> 255) ->
  (in_range (transform_range ws we (s, e)) k <->
   (ble s k /\ (ws = false -> ~ is_prefix s k)) /\ (blt k e \/ (we = true /\ is_prefix e k))).
Proof.
  intros Hs He Ls Le. unfold in_range, transform_range. cbn [fst snd].
  assert (A: ble (if ws then s else prefix_next s) k <-> (ble s k /\ (ws = false -> ~ is_prefix s k))).
  { destruct ws; [intuition congruence|]. destruct (Ls eq_refl) as [L1 L2].
    rewrite prefix_range by auto. split.
    - intros H. split.
      + eapply ble_trans; [|exact H]. apply blt_ble, prefix_next_lt; auto.
      + intros _ [_ X]. apply ble_not_lt in H. auto.
    - intros [H1 H2]. apply ble_not_lt. intros X. apply (H2 eq_refl). auto. }
  assert (B: blt k (if we then prefix_next e else e) <-> (blt k e \/ (we = true /\ is_prefix e k))).
  { destruct we; [|intuition congruence]. destruct (Le eq_refl) as [L1 L2].
    rewrite prefix_range by auto. split.
    - intros H. destruct (ble_lt_dec e k); auto.
    - intros [H|[_ [_ H]]]; auto. eapply blt_le_trans; [exact H|]. apply blt_ble, prefix_next_lt; auto. }
  rewrite A, B. tauto.
Qed.
