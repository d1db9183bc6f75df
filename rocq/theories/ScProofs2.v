(** From keys and sizes back to versions. *)
From Coq Require Import ZArith List Lia Bool Sorted Permutation.
From Verif Require Import Bytes SMap Outcome CodecModel CodecSpec CodecThms ScModel ScSpec ScProofs1.
Import ListNotations.
Open Scope Z_scope.

Definition matches (x : item) (e : stored) : Prop :=
  bytes_ok (key_of e) /\ ts_ok (snd (fst e)) /\ encode_key (key_of e) (snd (fst e)) = Ok (fst x) /\
  snd x = Z.of_nat (length (snd e)).

Lemma matches_size x e : matches x e -> key_value_size x = size_of e.
Proof.
  intros (B & T & E & S). destruct (C01_key_roundtrip _ _ B T) as (e' & E' & _ & _ & _ & _ & F). rewrite E in E'.
  assert (fst x = e') by congruence. subst e'. unfold key_value_size, size_of. rewrite H, S, app_length, be_length. lia.
Qed.
Lemma matches_nonempty x e : matches x e -> fst x <> [].
Proof.
  intros (B & T & E & S). destruct (C01_key_roundtrip _ _ B T) as (e' & E' & _ & _ & _ & _ & F). rewrite E in E'.
  assert (fst x = e') by congruence. subst e'. intros X. rewrite X in H. apply (f_equal (@length Z)) in H. rewrite app_length, be_length in H. simpl in H. lia.
Qed.
Lemma matches_decode x e : matches x e -> decode_key (fst x) = Ok (Some (fst e)).
Proof.
  intros (B & T & E & S). destruct (C01_key_roundtrip _ _ B T) as (e' & E' & _ & D & _). rewrite E in E'.
  assert (fst x = e') by congruence. subst e'. unfold key_of in D. rewrite D. destruct (fst e); reflexivity.
Qed.
Lemma matches_same x e y f : matches x e -> matches y f -> (fst x = fst y <-> fst e = fst f).
Proof.
  intros (B & T & E & _) (B' & T' & E' & _). split.
  - intros X. rewrite <- X in E'. destruct (C02_injective _ _ _ _ _ B B' T T' E E') as [U V]. unfold key_of in U.
    destruct (fst e), (fst f). cbn in *. congruence.
  - intros X. unfold key_of in *. rewrite <- X in E'. congruence.
Qed.
Lemma matches_le x e y f : matches x e -> matches y f -> kle x y -> ble (key_of e) (key_of f).
Proof.
  intros (B & T & E & _) (B' & T' & E' & _) L. unfold kle, ble in *. rewrite (C02_order _ _ _ _ _ _ B B' T T' E E') in L.
  unfold version_order in L. destruct (bcmp (key_of e) (key_of f)); congruence.
Qed.
Lemma size_of_pos e : 0 < size_of e. Proof. unfold size_of. lia. Qed.
Lemma bytes_in_app a b : bytes_in (a ++ b) = bytes_in a + bytes_in b.
Proof. unfold bytes_in. induction a; simpl; auto. fold (bytes_in b) in *. lia. Qed.
Lemma bytes_in_cons e l : bytes_in (e :: l) = size_of e + bytes_in l. Proof. reflexivity. Qed.
Lemma bytes_in_nonneg l : 0 <= bytes_in l.
Proof. induction l; [unfold bytes_in; simpl; lia|]. rewrite bytes_in_cons. pose proof (size_of_pos a). lia. Qed.
Lemma bytes_in_perm a b : Permutation a b -> bytes_in a = bytes_in b.
Proof. induction 1; auto; rewrite ?bytes_in_cons in *; try lia. Qed.

(** *** ranges *)
Lemma in_rangeb_iff r k : in_rangeb r k = true <-> in_range r k.
Proof.
  unfold in_rangeb, in_range, ble, blt. destruct (bcmp (fst r) k); destruct (bcmp k (snd r)); split; intros H; try discriminate; try (destruct H; congruence); split; congruence.
Qed.
Lemma scan_range start stop k : bleb start k && bltb k stop = true <-> in_range (start, stop) k.
Proof. rewrite andb_true_iff, bleb_ble, bltb_blt. unfold in_range. cbn. tauto. Qed.

Section Scan.
Variable r : bytes * bytes.
Hypothesis R1 : bytes_ok (fst r).
Hypothesis R2 : bytes_ok (snd r).
Let start := encode_bytes (fst r).
Let stop := encode_bytes (snd r).

Lemma seek_holds c d : holds c d ->
  Forall2 matches (seek_cf start stop c) (filter (fun e => in_rangeb r (key_of e)) d) /\
  StronglySorted kle (seek_cf start stop c).
Proof.
  intros [F S]. unfold seek_cf. split.
  - clear S. induction F as [|kv e c d (B & T & E & V) F IH]; [constructor|]. cbn [filter].
    assert (X := C02_user_range (fst r) (snd r) _ _ _ R1 R2 B T E).
    assert (Y : bleb start (fst kv) && bltb (fst kv) stop = in_rangeb r (key_of e)).
    { apply eq_true_iff_eq. rewrite in_rangeb_iff, scan_range. unfold start, stop. rewrite X. destruct r; reflexivity. }
    rewrite Y. destruct (in_rangeb r (key_of e)); auto. cbn [map]. constructor; auto. split; auto. split; auto. split; [exact E|]. change (Z.of_nat (length (snd kv)) = Z.of_nat (length (snd e))). rewrite V. reflexivity.
  - clear F. induction S as [|kv c S IH F]; [constructor|]. cbn [filter]. destruct (_ && _); auto. cbn [map]. constructor; auto.
    apply Forall_forall. intros x I. apply in_map_iff in I. destruct I as (y & <- & I). apply filter_In in I. destruct I as [I _].
    rewrite Forall_forall in F. unfold kle. cbn [fst]. apply blt_ble. auto.
Qed.

Lemma F2_app {A B} (R : A -> B -> Prop) a b c d : Forall2 R a b -> Forall2 R c d -> Forall2 R (a ++ c) (b ++ d).
Proof. induction 1; simpl; auto. Qed.

Lemma seeks_hold cfs data : Forall2 holds cfs data -> Forall2 matches (concat (map (seek_cf start stop) cfs)) (inside r data).
Proof.
  unfold inside. induction 1 as [|c d cfs data H F IH]; [constructor|]. cbn [map concat]. rewrite filter_app. apply F2_app; auto. apply (seek_holds c d H).
Qed.

Lemma F2_perm {A B} (R : A -> B -> Prop) a a' : Permutation a a' -> forall b, Forall2 R a b -> exists b', Permutation b b' /\ Forall2 R a' b'.
Proof.
  induction 1 as [|x a a' P IH|x y a|a a' a'' P1 IH1 P2 IH2]; intros b F.
  - inversion F; subst. exists []. auto.
  - inversion F as [|? z ? b0 R0 F0]; subst. destruct (IH _ F0) as (b' & P' & F'). exists (z :: b'). auto.
  - inversion F as [|? z ? b0 R0 F0]; subst. inversion F0 as [|? w ? b1 R1' F1]; subst. exists (w :: z :: b1). split; [apply perm_swap|auto].
  - destruct (IH1 _ F) as (b' & P' & F'). destruct (IH2 _ F') as (b'' & P'' & F''). exists b''. split; auto. eapply Permutation_trans; eauto.
Qed.

Lemma walk_holds tb cfs data : Forall2 holds cfs data ->
  exists es, Permutation (inside r data) es /\ Forall2 matches (walk tb cfs start stop) es /\
    StronglySorted kle (walk tb cfs start stop).
Proof.
  intros H. destruct (walk_spec tb cfs start stop) as [P S].
  - intros c I. clear -H I R1 R2. induction H as [|c0 d0 cfs data H F IH]; [destruct I|]. destruct I as [->|I]; auto. apply (seek_holds c d0 H).
  - destruct (F2_perm matches _ _ (Permutation_sym P) _ (seeks_hold _ _ H)) as (es & P' & F). exists es. auto.
Qed.
End Scan.

(** *** sizes and counts *)
Definition sizes (l : list item) : Z := fold_right (fun x n => key_value_size x + n) 0 l.
Lemma sizes_match l es : Forall2 matches l es -> sizes l = bytes_in es.
Proof. induction 1; auto. rewrite bytes_in_cons. cbn [sizes fold_right]. fold (sizes l). rewrite (matches_size _ _ H), IHForall2. reflexivity. Qed.

Fixpoint changes (prev : bytes) (l : list item) : Z :=
  match l with
  | [] => 0
  | x :: r => if same_key prev (fst x) then changes prev r else 1 + changes (fst x) r
  end.
Lemma same_key_iff a b : same_key a b = true <-> a = b.
Proof. unfold same_key. destruct (bcmp a b) eqn:E; split; intros H; try discriminate; auto; [apply bcmp_eq; auto| |]; subst; rewrite bcmp_refl in E; discriminate. Qed.
Lemma same_key_false a b : same_key a b = false <-> a <> b.
Proof. rewrite <- same_key_iff. destruct (same_key a b); split; congruence. Qed.

Lemma changes_nodup : forall l prev, StronglySorted kle l -> Forall (fun x => ble prev (fst x)) l ->
  Z.of_nat (length (nodup bytes_eq_dec (prev :: map fst l))) = 1 + changes prev l.
Proof.
  induction l as [|x l IH]; intros prev S F; [reflexivity|]. inversion S as [|? ? S1 F1]; subst. inversion F as [|? ? B1 F2]; subst. cbn [map changes].
  destruct (same_key prev (fst x)) eqn:E.
  - apply same_key_iff in E. rewrite <- (IH prev S1 F2). subst prev. cbn [nodup]. destruct (in_dec bytes_eq_dec (fst x) (fst x :: map fst l)) as [I|I]; [reflexivity|]. exfalso. apply I. left. auto.
  - apply same_key_false in E. rewrite <- (IH (fst x) S1 F1). cbn [nodup]. destruct (in_dec bytes_eq_dec prev (fst x :: map fst l)) as [I|I].
    + exfalso. destruct I as [I|I]; [congruence|]. apply in_map_iff in I. destruct I as (y & I1 & I2). rewrite Forall_forall in F1. specialize (F1 y I2). unfold kle in F1. rewrite I1 in F1. apply E. apply ble_antisym; auto.
    + cbn [length]. lia.
Qed.
Lemma ble_nil k : ble [] k. Proof. unfold ble. destruct k; discriminate. Qed.

Lemma matches_in l es : Forall2 matches l es -> forall x e, matches x e -> (In (fst x) (map fst l) <-> In (fst e) (map fst es)).
Proof.
  induction 1 as [|y f l es M F IH]; intros x e M'; cbn [map In]; [tauto|]. rewrite (IH x e M'). assert (X := matches_same _ _ _ _ M M'). tauto.
Qed.
Lemma versions_cons e l : versions (e :: l) = if in_dec version_dec (fst e) (map fst l) then versions l else fst e :: versions l.
Proof. reflexivity. Qed.
Lemma nodup_match l es : Forall2 matches l es -> length (nodup bytes_eq_dec (map fst l)) = length (versions es).
Proof.
  induction 1 as [|y f l es M F IH]; auto. rewrite versions_cons. cbn [map nodup]. assert (X := matches_in _ _ F _ _ M).
  destruct (in_dec bytes_eq_dec (fst y) (map fst l)); destruct (in_dec version_dec (fst f) (map fst es)); try tauto. cbn [length]. auto.
Qed.
Lemma changes_versions l es : Forall2 matches l es -> StronglySorted kle l -> changes [] l = num (versions es).
Proof.
  intros F S. assert (C := changes_nodup l [] S). unfold num. rewrite <- (nodup_match _ _ F). cbn [nodup] in C.
  destruct (in_dec bytes_eq_dec [] (map fst l)) as [I|I].
  - exfalso. apply in_map_iff in I. destruct I as (x & E & I). clear -F I E. induction F as [|y f l es M F IH]; [destruct I|]. destruct I as [->|I]; auto. apply (matches_nonempty _ _ M). auto.
  - cbn [length] in C. rewrite Nat2Z.inj_succ in C. specialize (C ltac:(apply Forall_forall; intros; apply ble_nil)). lia.
Qed.
Lemma versions_perm a b : Permutation a b -> num (versions a) = num (versions b).
Proof.
  intros P. unfold num, versions. f_equal. apply Permutation_length. apply NoDup_Permutation; try apply NoDup_nodup.
  intros x. rewrite !nodup_In. split; apply Permutation_in; [|apply Permutation_sym]; apply Permutation_map; auto.
Qed.

(** *** what the loops report *)
Lemma half_count thr chunk : forall l size c keys hit prev count,
  v_count (half_loop thr chunk l size c keys hit prev count) = count + changes prev l /\
  v_size (half_loop thr chunk l size c keys hit prev count) = size + sizes l.
Proof.
  induction l as [|x l IH]; intros; cbn [half_loop changes sizes fold_right]; [cbn [v_count v_size]; lia|]. fold (sizes l).
  destruct (same_key prev (fst x)); match goal with |- context[half_loop _ _ _ ?a ?b ?c ?d ?e ?f] => destruct (IH a b c d e f) as [A B]; rewrite A, B end; lia.
Qed.
Lemma size_count ss pos : forall l size key hit prev count,
  v_count (size_loop ss pos l size key hit prev count) = count + changes prev l /\
  v_size (size_loop ss pos l size key hit prev count) = size + sizes l.
Proof.
  induction l as [|x l IH]; intros; cbn [size_loop changes sizes fold_right]; [cbn [v_count v_size]; lia|]. fold (sizes l).
  destruct (same_key prev (fst x)); match goal with |- context[size_loop _ _ _ ?a ?b ?c ?d ?e] => destruct (IH a b c d e) as [A B]; rewrite A, B end; lia.
Qed.
Lemma keys_count number pos : forall l size key hit prev count,
  v_count (keys_loop number pos l size key hit prev count) = count + changes prev l /\
  v_size (keys_loop number pos l size key hit prev count) = size + sizes l.
Proof.
  induction l as [|x l IH]; intros; cbn [keys_loop changes sizes fold_right]; [cbn [v_count v_size]; lia|]. fold (sizes l).
  destruct (same_key prev (fst x)); match goal with |- context[keys_loop _ _ _ ?a ?b ?c ?d ?e] => destruct (IH a b c d e) as [A B]; rewrite A, B end; lia.
Qed.
Lemma verdict_metrics p l : v_count (split_key p l) = changes [] l /\ v_size (split_key p l) = sizes l.
Proof. destruct p; cbn [split_key]; [destruct (half_count threshold chunk l 0 0 [] false [] 0)|destruct (size_count size pos l 0 [] false [] 0)|destruct (keys_count number pos l 0 [] false [] 0)]; lia. Qed.

(** *** which key *)
Lemma changes_nonneg : forall l prev, 0 <= changes prev l.
Proof. induction l as [|x l IH]; intros; cbn [changes]; [lia|]. destruct (same_key prev (fst x)); [apply IH|specialize (IH (fst x)); lia]. Qed.
Lemma sizes_nonneg l : Forall (fun x => 0 <= snd x) l -> 0 <= sizes l.
Proof. induction 1; cbn [sizes fold_right]; [lia|]. fold (sizes l). unfold key_value_size at 1. lia. Qed.

Lemma half_key thr chunk : forall l size c keys hit prev count, Forall (fun x => 0 <= snd x) l ->
  let k := v_key (half_loop thr chunk l size c keys hit prev count) in
  (hit = true -> thr <= size) -> k <> [] -> (In k keys \/ In k (map fst l)) /\ thr <= size + sizes l.
Proof.
  induction l as [|x l IH]; intros size c keys hit prev count F k H N; subst k; cbn [half_loop v_key map In sizes fold_right] in *.
  - destruct hit; [|congruence]. split; [|specialize (H eq_refl); lia]. left. revert N. destruct (nth_in_or_default (length keys / 2) keys []) as [I|E]; [auto|]. rewrite E. congruence.
  - inversion F as [|? ? F1 F2]; subst. fold (sizes l). set (s := key_value_size x) in *. set (keys' := if chunk <=? c + s then keys ++ [fst x] else keys) in *.
    assert (H' : hit || (thr <=? size + s) = true -> thr <= size + s).
    { rewrite orb_true_iff, Z.leb_le. intros [X|X]; auto. specialize (H X). unfold s, key_value_size. lia. }
    assert (K : forall k, In k keys' -> In k keys \/ k = fst x).
    { intros k. unfold keys'. destruct (_ <=? _); auto. rewrite in_app_iff. cbn. intros [|[|[]]]; auto. }
    destruct (same_key prev (fst x));
      (match type of N with v_key (half_loop _ _ _ ?a ?b ?c ?d ?e ?f) <> _ => destruct (IH a b c d e f F2 H' N) as [[I|I] T] end;
       (split; [|lia]); [apply K in I; destruct I; auto|auto]).
Qed.
Lemma size_key ss pos : forall l size key hit prev count, Forall (fun x => 0 <= snd x) l ->
  let k := v_key (size_loop ss pos l size key hit prev count) in
  (hit = true -> ss <= size) -> k <> [] -> (k = key \/ In k (map fst l)) /\ ss <= size + sizes l.
Proof.
  induction l as [|x l IH]; intros size key hit prev count F k H N; subst k; cbn [size_loop v_key map In sizes fold_right] in *.
  - destruct hit; [|congruence]. split; [|specialize (H eq_refl); lia]. auto.
  - inversion F as [|? ? F1 F2]; subst. fold (sizes l). set (s := key_value_size x) in *. set (here := no_key key && (pos <=? size + s)) in *.
    assert (H' : hit || (negb here && (ss <=? size + s)) = true -> ss <= size + s).
    { rewrite orb_true_iff, andb_true_iff, Z.leb_le. intros [X|[_ X]]; auto. specialize (H X). unfold s, key_value_size. lia. }
    destruct (same_key prev (fst x));
      (match type of N with v_key (size_loop _ _ _ ?a ?b ?c ?d ?e) <> _ => destruct (IH a b c d e F2 H' N) as [[I|I] T] end;
       (split; [|lia]); [destruct here; auto|auto]).
Qed.
Lemma keys_key number pos : forall l size key hit prev count,
  let k := v_key (keys_loop number pos l size key hit prev count) in
  (hit = true -> number <= count) -> k <> [] -> (k = key \/ In k (map fst l)) /\ number <= count + changes prev l.
Proof.
  induction l as [|x l IH]; intros size key hit prev count k H N; subst k; cbn [keys_loop v_key map In changes] in *.
  - destruct hit; [|congruence]. split; [|specialize (H eq_refl); lia]. auto.
  - destruct (same_key prev (fst x)) eqn:E; cbn [negb] in *;
      (match type of N with v_key (keys_loop _ _ _ ?a ?b ?c ?d ?e) <> _ => assert (H' : c = true -> number <= e) by
         (rewrite orb_true_iff, andb_true_iff, Z.eqb_eq; intros [X|[_ X]]; [specialize (H X); lia|lia]);
       destruct (IH a b c d e H' N) as [[I|I] T] end;
       (split; [|lia]); [rewrite I; match goal with |- context[if ?h then _ else _] => destruct h end; auto|auto]).
Qed.

Lemma split_key_spec p l es : Forall2 matches l es -> StronglySorted kle l -> v_key (split_key p l) <> [] ->
  In (v_key (split_key p l)) (map fst l) /\ grown p es.
Proof.
  intros F S N. assert (P : Forall (fun x => 0 <= snd x) l). { clear -F. induction F as [|x e l es (_ & _ & _ & V) F IH]; constructor; auto. lia. }
  destruct p; cbn [split_key grown] in *.
  - destruct (half_key threshold chunk l 0 0 [] false [] 0 P ltac:(discriminate) N) as [[[]|I] T]. rewrite (sizes_match _ _ F) in T. auto.
  - destruct (size_key size pos l 0 [] false [] 0 P ltac:(discriminate) N) as [[I|I] T]; [congruence|]. rewrite (sizes_match _ _ F) in T. auto.
  - destruct (keys_key number pos l 0 [] false [] 0 ltac:(discriminate) N) as [[I|I] T]; [congruence|]. rewrite (changes_versions _ _ F S) in T. auto.
Qed.

Lemma in_match l es k : Forall2 matches l es -> In k (map fst l) -> exists x e, In x l /\ In e es /\ matches x e /\ k = fst x.
Proof.
  induction 1 as [|x e l es M F IH]; intros I; [destruct I|]. destruct I as [<-|I]; [exists x, e; split; [left; auto|split; [left; auto|auto]]|].
  destruct (IH I) as (y & f & A & B & C). exists y, f. split; [right; auto|split; [right; auto|auto]].
Qed.

Lemma grown_perm p a b : Permutation a b -> grown p a -> grown p b.
Proof. intros P. destruct p; cbn [grown]; rewrite ?(bytes_in_perm _ _ P), ?(versions_perm _ _ P); auto. Qed.

Lemma no_key_iff k : no_key k = true <-> k = []. Proof. destruct k; split; auto; discriminate. Qed.
Lemma no_key_false k : no_key k = false <-> k <> []. Proof. destruct k; split; auto; try discriminate; congruence. Qed.

Lemma key_in_range_iff k r : key_in_range k r = true <-> in_range r k.
Proof. unfold key_in_range, in_range. rewrite andb_true_iff, bleb_ble, bltb_blt. tauto. Qed.

Theorem C94_core : forall tb p cfs data n, Forall2 holds cfs data -> bytes_ok (fst (n_range0 n)) -> bytes_ok (snd (n_range0 n)) ->
  let es := inside (n_range0 n) data in
  exists f, split_check tb p cfs n = Ok f /\
    f_count f = (if 0 <? num (versions es) then Some (num (versions es)) else None) /\
    f_size f = (if 0 <? bytes_in es then Some (bytes_in es) else None) /\
    forall k, f_split f = Some k ->
      (exists e, In e es /\ key_of e = k) /\ k <> [] /\ in_range (n_range1 n) k /\ n_version1 n = n_version0 n /\
      grown p es /\ n_disabled n = false /\ n_temp_disabled n = false /\ n_normal n = true /\ n_leader n = true /\
      (n_mono n = true -> n_lite n = true) /\ n_busy n = false.
Proof.
  intros tb p cfs data n H R1 R2 es. destruct (walk_holds _ R1 R2 tb _ _ H) as (vs & P & F & S). fold es in P.
  unfold split_check, encode_range. set (l := walk tb cfs _ _) in *. destruct (verdict_metrics p l) as [MC MS].
  rewrite (changes_versions _ _ F S), <- (versions_perm _ _ P) in MC. rewrite (sizes_match _ _ F), <- (bytes_in_perm _ _ P) in MS.
  destruct (no_key (v_key (split_key p l))) eqn:NK.
  - cbn [obind]. eexists. split; [reflexivity|]. cbn [f_count f_size f_split no_key negb andb]. rewrite MC, MS. split; [auto|split; [auto|discriminate]].
  - apply no_key_false in NK. destruct (split_key_spec p l vs F S NK) as [I G]. destruct (in_match _ _ _ F I) as (x & e & Ix & Ie & M & E).
    rewrite E, (matches_decode _ _ M). cbn [obind]. destruct (fst e) as [k0 t0] eqn:EF. cbn [obind]. eexists. split; [reflexivity|]. cbn [f_count f_size f_split].
    rewrite MC, MS. split; [auto|split; [auto|]]. intros k. match goal with |- (if ?b then _ else _) = _ -> _ => destruct b eqn:B end; [|discriminate].
    intros K. assert (k0 = k) by congruence. subst k0. rewrite !andb_true_iff, !negb_true_iff in B.
    destruct B as [[[[[[[[B1 B2] B3] B4] B5] B6] B7] B8] B9]. apply Z.eqb_eq in B2. apply key_in_range_iff in B3. apply no_key_false in B1.
    split; [exists e; split; [apply (Permutation_in _ (Permutation_sym P) Ie)|unfold key_of; rewrite EF; reflexivity]|].
    split; auto. split; auto. split; auto. split; [apply (grown_perm _ _ _ (Permutation_sym P) G)|].
    split; auto. split; auto. split; auto. split; auto. split; auto. intros X. rewrite X in B8. destruct (n_lite n); auto.
Qed.
