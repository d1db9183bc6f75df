From Coq Require Import ZArith List Lia Bool PeanoNat ZifyNat ZifyBool Sorted.
From Verif Require Import Bytes Outcome CodecModel CodecSpec CodecProofs CodecProofs2 MvccModel MvccSpec MvccProofs
  GcModel GcSpec.
Import ListNotations.
Open Scope Z_scope.

(** ** what the scan proposes to delete *)
Lemma enc_key_inj a b : version_ok a -> version_ok b -> fst (enc a) = fst (enc b) -> vkey a = vkey b /\ vts a = vts b.
Proof.
  intros A B E. assert (D := decode_enc a A). rewrite E, (decode_enc b B) in D. apply Ok_inj in D.
  split; congruence.
Qed.

Lemma vsorted_older v vs x : vsorted (v :: vs) -> In x vs -> vkey x = vkey v -> vts x < vts v.
Proof.
  intros S I K. inversion S as [|? ? _ F]; subst. rewrite Forall_forall in F. specialize (F x I).
  unfold vlt in F. apply vlt_key_le in F. destruct F as [F|[_ F]]; [|lia].
  rewrite K, bcmp_refl in F. discriminate.
Qed.

Definition removed (sp now : Z) (vs : list version) (v : version) : Prop :=
  In v vs /\ vts v <= sp /\
  ((exists v', In v' vs /\ vkey v' = vkey v /\ vts v < vts v') \/ ~ live now v).

Lemma flag_enc v : version_ok v -> get_value_flag (snd (enc v)) = Ok (vflag v).
Proof. intros V. apply (unpackage_package (vflag v) (vttl v) (vval v) (ttl_range v V)). Qed.

Lemma ttl_enc v : version_ok v -> vflag v = kPutTTL -> get_value_ttl (snd (enc v)) = Ok (vttl v).
Proof.
  intros V F. cbn [snd enc]. rewrite F, get_value_ttl_package by (apply ttl_range; auto).
  destruct V as (_ & _ & _ & V4). specialize (V4 F). destruct (vval v) as [|x l]; [congruence|].
  cbn [length]. change (0 <? S (length l))%nat with true. reflexivity.
Qed.

Lemma gc_kv_scan_spec sp now : forall vs cur gt first, Forall version_ok vs -> vsorted vs ->
  (forall v, In v vs -> bcmp cur (vkey v) <> Gt) ->
  (gt = true \/ first = false \/ forall v, In v vs -> vkey v <> cur) ->
  exists items, gc_kv_scan sp now (map enc vs) cur gt first = Ok items /\
    forall x, In x (concat items) <-> exists v, In v vs /\ x = fst (enc v) /\ vts v <= sp /\
      (vkey v = cur \/ (exists v', In v' vs /\ vkey v' = vkey v /\ vts v < vts v') \/ ~ live now v).
Proof.
  induction vs as [|v vs IH]; intros cur gt first FO SO LE H.
  { exists []. split; auto. intros x. simpl. split; [tauto|intros (v & [] & _)]. }
  inversion FO as [|? ? V FO']; subst. assert (SO' : vsorted vs) by (inversion SO; auto).
  assert (OLD := vsorted_older v vs).
  assert (LE' : forall u, In u vs -> bcmp (vkey v) (vkey u) <> Gt).
  { intros u I. inversion SO as [|? ? _ F]; subst. rewrite Forall_forall in F. apply F, vlt_key_le in I.
    destruct I as [E|[E _]]; [congruence|]. rewrite E, bcmp_refl. discriminate. }
  assert (CUR : forall u, In u vs -> vkey u = cur -> vkey v = cur).
  { intros u I K. assert (A := LE' u I). assert (B := LE v (or_introl eq_refl)). rewrite K in A.
    destruct (bcmp cur (vkey v)) eqn:E; [symmetry; apply bcmp_eq; auto| |congruence].
    exfalso. apply A. rewrite bcmp_opp, E. reflexivity. }
  cbn [map gc_kv_scan]. rewrite (decode_enc v V). cbn [obind].
  (* the tail, with any flags that say "something newer was seen" *)
  assert (T : forall gt' first', gt' = true \/ first' = false ->
    exists items, gc_kv_scan sp now (map enc vs) (vkey v) gt' first' = Ok items /\
      forall x, In x (concat items) <-> exists u, In u vs /\ x = fst (enc u) /\ vts u <= sp /\
        (vkey u = cur \/ (exists u', In u' (v :: vs) /\ vkey u' = vkey u /\ vts u < vts u') \/ ~ live now u)).
  { intros gt' first' Q. destruct (IH (vkey v) gt' first' FO' SO' LE') as (items & E & J); [tauto|].
    exists items. split; auto. intros x. rewrite J. split; intros (u & A & B & C & D); exists u; (split; [auto|split; [auto|split; [auto|]]]).
    - destruct D as [D|[(u' & D1 & D2)|D]]; [|right; left; exists u'; simpl; tauto|tauto].
      right; left. exists v. simpl. split; [auto|split; [auto|]]. apply OLD; auto.
    - destruct D as [D|[(u' & [<-|D1] & D2 & D3)|D]]; [|left; auto|right; left; exists u'; auto|tauto].
      left. rewrite (CUR u A D). auto. }
  (* the head *)
  assert (HD : forall gt' first' it,  gt' = true \/ first' = false ->
     (it = [] \/ it = [fst (enc v)]) ->
     (it = [fst (enc v)] <-> vts v <= sp /\ (vkey v = cur \/ ~ live now v)) ->
     exists items, omap (cons it) (gc_kv_scan sp now (map enc vs) (vkey v) gt' first') = Ok items /\
     forall x, In x (concat items) <-> exists u, In u (v :: vs) /\ x = fst (enc u) /\ vts u <= sp /\
      (vkey u = cur \/ (exists v', In v' (v :: vs) /\ vkey v' = vkey u /\ vts u < vts v') \/ ~ live now u)).
  { intros gt' first' it Q1 Q2 Q3. destruct (T gt' first' Q1) as (items & E & J). exists (it :: items).
    rewrite E. split; [reflexivity|]. intros x. cbn [concat]. rewrite in_app_iff, J. split.
    - intros [I|(u & A & B)]; [|exists u; simpl; tauto].
      exists v. destruct Q2 as [->| ->]; [destruct I|]. destruct I as [<-|[]].
      destruct (proj1 Q3 eq_refl) as [Q4 Q5]. simpl. tauto.
    - intros (u & [<-|A] & B & C & D); [|right; exists u; auto].
      left. assert (it = [fst (enc v)]) as ->; [|simpl; auto].
      apply Q3. split; auto. destruct D as [D|[(u' & [<-|D1] & D2 & D3)|D]]; [auto|lia| |auto].
      exfalso. specialize (OLD u' SO D1 D2). lia. }
  assert (NL : ~ live now v <-> liveb now v = false).
  { rewrite <- liveb_iff. destruct (liveb now v); split; congruence. }
  destruct (beqb cur (vkey v)) eqn:K.
  - apply beqb_true in K. subst cur.
    assert (Q : gt = true \/ first = false).
    { destruct H as [H|[H|H]]; auto. exfalso. apply (H v); simpl; auto. }
    destruct (sp <? vts v) eqn:E.
    { apply HD; [auto|auto|]. split; [discriminate|lia]. }
    rewrite (flag_enc v V). cbn [obind].
    replace (negb gt && first) with false by (destruct Q as [-> | ->]; [auto|rewrite andb_false_r; auto]).
    destruct (vflag v); apply HD; auto; split; auto; intros; split; auto; lia.
  - assert (KN : vkey v <> cur) by (intros X; rewrite <- X, beqb_refl in K; discriminate).
    destruct (sp <? vts v) eqn:E; cbn [negb].
    { apply HD; [auto|auto|]. split; [discriminate|lia]. }
    rewrite (flag_enc v V). cbn [obind]. change (negb false && true) with true. cbv iota.
    destruct (vflag v) eqn:F.
    + apply HD; auto. split; [discriminate|]. rewrite NL. unfold liveb. rewrite F. intros (_ & [X|X]); [congruence|discriminate].
    + rewrite (ttl_enc v V F). cbn [obind]. destruct (now <=? vttl v) eqn:N; apply HD; auto; rewrite NL; unfold liveb; rewrite F, N.
      * split; [discriminate|]. intros (_ & [X|X]); [congruence|discriminate].
      * split; auto. intros _. split; auto. lia.
    + apply HD; auto. rewrite NL. unfold liveb. rewrite F. split; auto. intros _. split; auto. lia.
Qed.

Lemma gc_kv_flush_concat limit per : forall items acc, concat (gc_kv_flush limit per items acc) = acc ++ concat items.
Proof.
  induction items as [|it items IH]; intros acc; cbn [gc_kv_flush concat].
  - destruct acc; simpl; rewrite ?app_nil_r; auto.
  - destruct it as [|y it]; [apply IH|].
    destruct (limit <=? _); cbn [concat]; rewrite IH; cbn [app]; rewrite <- ?app_assoc; auto.
Qed.

Lemma gc_kv_spec limit per sp now st vs : represents st vs -> keys_ok vs ->
  exists bs, gc_kv limit per sp now st = Ok bs /\
    forall x, In x (concat bs) <-> exists v, removed sp now vs v /\ x = fst (enc v).
Proof.
  intros R KO. apply represents_enc in R. destruct R as (-> & F & S).
  destruct (gc_kv_scan_spec sp now vs [] false true F S) as (items & E & J).
  - intros v _. destruct (vkey v); simpl; discriminate.
  - right; right. intros v I K. apply (KO v); auto.
  - unfold gc_kv. rewrite E. exists (gc_kv_flush limit per items []). split; [reflexivity|].
    intros x. rewrite gc_kv_flush_concat. cbn [app]. rewrite J. unfold removed. split.
    + intros (v & A & B & C & D). exists v. repeat split; auto. destruct D as [D|D]; auto.
      exfalso. apply (KO v); auto.
    + intros (v & (A & B & C) & D). exists v. auto.
Qed.

(** ** applying the batches *)
Definition keptb (keys : list bytes) (v : version) : bool := negb (existsb (beqb (fst (enc v))) keys).

Lemma keptb_iff keys v : keptb keys v = true <-> ~ In (fst (enc v)) keys.
Proof.
  unfold keptb. rewrite negb_true_iff. split.
  - intros E I. assert (X : existsb (beqb (fst (enc v))) keys = true); [|congruence].
    apply existsb_exists. exists (fst (enc v)). split; auto. apply beqb_refl.
  - intros N. destruct (existsb _ keys) eqn:E; auto. apply existsb_exists in E. destruct E as (x & I & E).
    apply beqb_true in E. subst x. tauto.
Qed.

Lemma kv_deletes_enc bs : forall vs, kv_deletes (map enc vs) bs = map enc (filter (keptb (concat bs)) vs).
Proof.
  induction bs as [|b bs IH]; intros vs; cbn [kv_deletes fold_left concat].
  - f_equal. induction vs as [|v vs IHv]; auto. simpl. rewrite <- IHv. auto.
  - assert (E : kv_delete (map enc vs) b = map enc (filter (keptb b) vs)).
    { unfold kv_delete, keptb. clear. induction vs as [|v vs IHv]; auto.
      cbn [map filter]. destruct (negb (existsb (beqb (fst (enc v))) b)); cbn [map]; rewrite IHv; auto. }
    rewrite E. change (fold_left kv_delete bs ?x) with (kv_deletes x bs). rewrite IH. f_equal.
    clear. induction vs as [|v vs IHv]; auto. cbn [filter].
    assert (K : keptb (b ++ concat bs) v = keptb b v && keptb (concat bs) v).
    { unfold keptb. rewrite existsb_app, negb_orb. auto. }
    rewrite K. destruct (keptb b v); cbn [filter andb]; [|auto]. destruct (keptb (concat bs) v); rewrite IHv; auto.
Qed.

Lemma kv_deletes_represents st vs bs : represents st vs ->
  represents (kv_deletes st bs) (filter (keptb (concat bs)) vs).
Proof.
  intros R. apply represents_enc in R. destruct R as (-> & F & S). rewrite kv_deletes_enc.
  apply enc_represents; [|apply SSorted_filter; auto].
  rewrite Forall_forall in *. intros v I. apply filter_In in I. apply F. tauto.
Qed.

(** a version of the later content is proposed for deletion iff it was one of the removed ones *)
Lemma gone_iff limit per sp now st vs bs st2 vs2 v : represents st vs -> keys_ok vs -> represents st2 vs2 -> grown sp vs vs2 ->
  gc_kv limit per sp now st = Ok bs -> In v vs2 -> (In (fst (enc v)) (concat bs) <-> removed sp now vs v).
Proof.
  intros R KO R2 (G1 & G2) E I. destruct (gc_kv_spec limit per sp now st vs R KO) as (bs' & E' & J).
  rewrite E in E'. apply Ok_inj in E'. subst bs'. rewrite J. split; [|exists v; auto].
  intros (u & U & X). pose proof (represents_enc _ _ R) as (_ & F & S). pose proof (represents_enc _ _ R2) as (_ & F2 & S2).
  rewrite Forall_forall in F, F2. assert (Iu : In u vs2) by (apply G2, U).
  destruct (enc_key_inj v u) as [K T]; auto.
  assert (v = u); [|subst; auto].
  (* two versions of the same key and timestamp in a sorted list *)
  clear - S2 I Iu K T. induction S2 as [|x l S IH FF]; [destruct I|].
  rewrite Forall_forall in FF.
  assert (N : forall y, In y l -> vkey y = vkey x -> vts y = vts x -> False).
  { intros y Hy A B. apply FF, vlt_key_le in Hy. destruct Hy as [Hy|[_ Hy]]; [|lia]. rewrite A, bcmp_refl in Hy. discriminate. }
  destruct I as [<-|I], Iu as [<-|Iu]; auto.
  - exfalso. eapply N; eauto; congruence.
  - exfalso. apply (N v); congruence.
Qed.

Section Reads.
  Variables (limit per sp now0 : Z) (st : store) (vs : list version) (bs : list (list bytes))
            (st2 : store) (vs2 : list version).
  Hypotheses (R : represents st vs) (KO : keys_ok vs) (R2 : represents st2 vs2) (G : grown sp vs vs2)
             (E : gc_kv limit per sp now0 st = Ok bs).

  Lemma kept_above part v : incl part bs -> In v vs2 -> sp < vts v -> In v (filter (keptb (concat part)) vs2).
  Proof.
    intros P I T. apply filter_In. split; auto. apply keptb_iff. intros X.
    assert (Y : In (fst (enc v)) (concat bs)).
    { apply in_concat in X. destruct X as (b & B1 & B2). apply in_concat. exists b. auto. }
    apply (gone_iff limit per sp now0 st vs bs st2 vs2 v R KO R2 G E I) in Y. destruct Y as (_ & Y & _). lia.
  Qed.

  Lemma visible_kept part k ts now v : incl part bs -> now0 <= now ->
    gc_safe_read sp vs vs2 k (effective_ts ts) ->
    visible vs2 k ts now v -> visible (filter (keptb (concat part)) vs2) k ts now v.
  Proof.
    intros P NW (TS & SF) ((A & B & C & D) & L). destruct G as (G1 & G2).
    split; auto. split; [|split; [auto|split; [auto|]]].
    2: { intros v' I K T. apply filter_In in I. apply D; tauto. }
    destruct (Z_lt_dec sp (vts v)) as [T|T]; [apply kept_above; auto|].
    assert (TV : vts v <= sp) by lia.
    apply filter_In. split; auto. apply keptb_iff. intros X.
    assert (Y : In (fst (enc v)) (concat bs)).
    { apply in_concat in X. destruct X as (b & B1 & B2). apply in_concat. exists b. auto. }
    apply (gone_iff limit per sp now0 st vs bs st2 vs2 v R KO R2 (conj G1 G2) E A) in Y.
    destruct Y as (Y1 & _ & Y). destruct Y as [(v' & V1 & V2 & V3)|Y].
    - destruct SF as [(u & U1 & U2 & U3)|SF].
      + assert (vts u <= vts v) by (apply D; auto; lia). lia.
      + assert (vts v' <= sp) by (apply SF; auto; congruence).
        assert (vts v' <= vts v) by (apply D; [apply G2; auto|congruence|lia]). lia.
    - apply Y. unfold live in *. destruct (vflag v); auto. lia.
  Qed.

  Lemma visible_back k ts now v : now0 <= now -> gc_safe_read sp vs vs2 k (effective_ts ts) ->
    visible (filter (keptb (concat bs)) vs2) k ts now v -> visible vs2 k ts now v.
  Proof.
    intros NW (TS & SF) ((A & B & C & D) & L). destruct G as (G1 & G2).
    apply filter_In in A. destruct A as [A0 A]. apply keptb_iff in A.
    split; auto. split; [auto|split; [auto|split; [auto|]]].
    intros v' I K T. destruct (Z_le_dec (vts v') (vts v)) as [|N]; auto. exfalso.
    destruct (Z_lt_dec sp (vts v')) as [S|S].
    - assert (X := kept_above bs v' (incl_refl bs) I S). specialize (D v' X K T). lia.
    - apply A. apply (gone_iff limit per sp now0 st vs bs st2 vs2 v R KO R2 (conj G1 G2) E A0).
      split; [apply G1; [lia|auto]|]. split; [lia|]. left. exists v'. split; [apply G1; [lia|auto]|].
      split; [congruence|lia].
  Qed.
  (* [SF] is not needed for this direction *)

  Lemma kv_get_gc k ts now : bytes_ok k -> now0 <= now -> gc_safe_read sp vs vs2 k (effective_ts ts) ->
    kv_get (kv_deletes st2 bs) ts now k = kv_get st2 ts now k.
  Proof.
    intros Hk NW SR. destruct k as [|x k]; [reflexivity|].
    assert (NE : x :: k <> []) by discriminate.
    assert (RR := kv_deletes_represents st2 vs2 bs R2).
    destruct (kv_get_total st2 vs2 ts now _ R2 Hk NE) as [(v & V & ->)|[N ->]].
    - apply (proj1 (kv_get_spec _ _ ts now _ RR Hk NE)). apply visible_kept; auto. apply incl_refl.
    - apply (proj2 (kv_get_spec _ _ ts now _ RR Hk NE)). intros v V. apply (N v). apply visible_back; auto.
  Qed.

  Lemma kv_get_part part k ts now x : incl part bs -> bytes_ok k -> now0 <= now ->
    gc_safe_read sp vs vs2 k (effective_ts ts) ->
    kv_get st2 ts now k = Ok (ROk x) -> kv_get (kv_deletes st2 part) ts now k = Ok (ROk x).
  Proof.
    intros P Hk NW SR Gt. destruct k as [|y k]; [discriminate|].
    assert (NE : y :: k <> []) by discriminate.
    assert (RR := kv_deletes_represents st2 vs2 part R2).
    destruct (kv_get_total st2 vs2 ts now _ R2 Hk NE) as [(v & V & Q)|[N Q]]; [|congruence].
    rewrite Q in Gt. apply Ok_inj in Gt. assert (x = vval v) by congruence. subst x.
    apply (proj1 (kv_get_spec _ _ ts now _ RR Hk NE)). apply visible_kept; auto.
  Qed.

  Lemma kv_scan_gc a b ts now : bytes_ok a -> bytes_ok b -> now0 <= now ->
    (forall k, in_range (a, b) k -> gc_safe_read sp vs vs2 k (effective_ts ts)) ->
    kv_scan (kv_deletes st2 bs) ts now a b = kv_scan st2 ts now a b.
  Proof.
    intros Ha Hb NW SR. destruct a as [|xa a]; [reflexivity|]. destruct b as [|xb b]; [reflexivity|].
    assert (NA : xa :: a <> []) by discriminate. assert (NB : xb :: b <> []) by discriminate.
    assert (RR := kv_deletes_represents st2 vs2 bs R2).
    destruct (scan_forward _ _ ts now _ _ R2 Ha Hb NA NB) as (l & (I1 & J1) & -> & _).
    destruct (scan_forward _ _ ts now _ _ RR Ha Hb NA NB) as (l' & (I2 & J2) & -> & _).
    assert (l' = l) as ->; [|reflexivity].
    refine (SSorted_ext (fun x y => bcmp (vkey x) (vkey y) = Lt) _ _ _ _ I2 I1 _).
    - intros v. rewrite bcmp_refl. discriminate.
    - intros u v w. apply bcmp_trans.
    - intros v. rewrite J1, J2. split; intros (A & B); (split; [auto|]).
      + apply visible_back; auto.
      + apply visible_kept; auto. apply incl_refl.
  Qed.

  Lemma newer_untouched part v : incl part bs -> sp < vts v -> In v vs2 ->
    In v (filter (keptb (concat part)) vs2).
  Proof. intros P T I. apply kept_above; auto. Qed.

  Lemma reclaimed v : In v (filter (keptb (concat bs)) vs2) -> vts v <= sp ->
    live now0 v /\ forall v', In v' vs -> vkey v' = vkey v -> vts v' <= vts v.
  Proof.
    intros I T. apply filter_In in I. destruct I as [I K]. apply keptb_iff in K.
    assert (Iv : In v vs) by (apply (proj1 G); auto).
    assert (NR : ~ removed sp now0 vs v).
    { intros X. apply K. apply (gone_iff limit per sp now0 st vs bs st2 vs2 v R KO R2 G E I). auto. }
    split.
    - destruct (liveb now0 v) eqn:L; [apply liveb_iff; auto|]. exfalso. apply NR. split; [auto|split; [auto|right]].
      rewrite <- liveb_iff. congruence.
    - intros v' I' K'. destruct (Z_le_dec (vts v') (vts v)); auto. exfalso. apply NR. split; [auto|split; [auto|left]].
      exists v'. split; [auto|split; [auto|lia]].
  Qed.
End Reads.

Lemma never_stale limit per sp now0 st vs bs st2 vs2 k ts now : represents st vs -> keys_ok vs ->
  represents st2 vs2 -> grown sp vs vs2 -> gc_kv limit per sp now0 st = Ok bs -> bytes_ok k ->
  kv_get (kv_deletes st2 bs) ts now k = kv_get st2 ts now k \/
  kv_get (kv_deletes st2 bs) ts now k = Ok RNotFound.
Proof.
  intros R KO R2 (G1 & G2) E Hk. destruct k as [|x k]; [left; reflexivity|].
  assert (NE : x :: k <> []) by discriminate.
  assert (RR := kv_deletes_represents st2 vs2 bs R2).
  destruct (kv_get_total _ _ ts now _ RR Hk NE) as [(v & V & Q)|[N ->]]; [|auto].
  left. rewrite Q. symmetry. apply (proj1 (kv_get_spec _ _ ts now _ R2 Hk NE)).
  destruct V as ((A & B & C & D) & L).
  apply filter_In in A. destruct A as [A0 A]. apply keptb_iff in A.
  split; auto. split; [auto|split; [auto|split; [auto|]]].
  intros v' I K T. destruct (Z_le_dec (vts v') (vts v)) as [|NN]; auto. exfalso.
  destruct (Z_lt_dec sp (vts v')) as [S|S].
  - assert (X := kept_above limit per sp now0 st vs bs st2 vs2 R KO R2 (conj G1 G2) E bs v' (incl_refl bs) I S).
    specialize (D v' X K T). lia.
  - apply A. apply (gone_iff limit per sp now0 st vs bs st2 vs2 v R KO R2 (conj G1 G2) E A0).
    split; [apply G1; [lia|auto]|]. split; [lia|]. left. exists v'. split; [apply G1; [lia|auto]|].
    split; [congruence|lia].
Qed.

Lemma gc_total limit per sp now st vs : represents st vs -> keys_ok vs ->
  exists bs, gc_kv limit per sp now st = Ok bs.
Proof. intros R K. destruct (gc_kv_spec limit per sp now st vs R K) as (bs & A & _). eauto. Qed.

Lemma deletes_represents st vs part : represents st vs ->
  exists vs', represents (kv_deletes st part) vs' /\ forall v, In v vs' -> In v vs.
Proof.
  intros R. exists (filter (keptb (concat part)) vs). split; [apply kv_deletes_represents; auto|].
  intros v I. apply filter_In in I. tauto.
Qed.

Lemma contents limit per sp now0 st vs bs st2 vs2 : represents st vs -> keys_ok vs ->
  represents st2 vs2 -> grown sp vs vs2 -> gc_kv limit per sp now0 st = Ok bs ->
  exists vs', represents (kv_deletes st2 bs) vs' /\
    (forall v, In v vs' -> In v vs2) /\
    (forall v, sp < vts v -> In v vs2 -> In v vs') /\
    (forall v, In v vs' -> vts v <= sp ->
       live now0 v /\ forall v', In v' vs -> vkey v' = vkey v -> vts v' <= vts v) /\
    (forall v, In v vs2 -> vts v <= sp -> live now0 v ->
       (forall v', In v' vs -> vkey v' = vkey v -> vts v' <= vts v) -> In v vs').
Proof.
  intros R KO R2 G E. exists (filter (keptb (concat bs)) vs2). split; [apply kv_deletes_represents; auto|].
  split; [intros v I; apply filter_In in I; tauto|].
  split; [intros v T I; exact (kept_above _ _ _ _ _ _ _ _ _ R KO R2 G E bs v (incl_refl bs) I T)|].
  split; [intros v I T; exact (reclaimed _ _ _ _ _ _ _ _ _ R KO R2 G E v I T)|].
  intros v I T L M. apply filter_In. split; auto. apply keptb_iff. intros X.
  apply (gone_iff limit per sp now0 st vs bs st2 vs2 v R KO R2 G E I) in X.
  destruct X as (_ & _ & [(v' & A & B & C)|X]); [|tauto]. specialize (M v' A B). lia.
Qed.

Lemma newer_kept limit per sp now0 st vs bs st2 vs2 part : represents st vs -> keys_ok vs ->
  represents st2 vs2 -> grown sp vs vs2 -> gc_kv limit per sp now0 st = Ok bs -> incl part bs ->
  exists vs', represents (kv_deletes st2 part) vs' /\
    (forall v, In v vs' -> In v vs2) /\ (forall v, sp < vts v -> In v vs2 -> In v vs').
Proof.
  intros R KO R2 G E P. exists (filter (keptb (concat part)) vs2). split; [apply kv_deletes_represents; auto|].
  split; [intros v I; apply filter_In in I; tauto|]. intros v T I; exact (kept_above _ _ _ _ _ _ _ _ _ R KO R2 G E part v P I T).
Qed.

(** ** a concrete content: key "a" written at 10 and 30, key "b" written at 8 and deleted at 12,
    key "c" with an expiry time *)
Definition vA10 := {| vkey := [97]; vts := 10; vflag := kPut; vttl := 0; vval := [1; 1] |}.
Definition vA30 := {| vkey := [97]; vts := 30; vflag := kPut; vttl := 0; vval := [2; 2] |}.
Definition vB8 := {| vkey := [98]; vts := 8; vflag := kPut; vttl := 0; vval := [3] |}.
Definition vB12 := {| vkey := [98]; vts := 12; vflag := kDelete; vttl := 0; vval := [] |}.
Definition vC5 := {| vkey := [99]; vts := 5; vflag := kPut; vttl := 0; vval := [4] |}.
Definition vC7 := {| vkey := [99]; vts := 7; vflag := kPutTTL; vttl := 1000; vval := [5] |}.
Definition vA22 := {| vkey := [97]; vts := 22; vflag := kPut; vttl := 0; vval := [6] |}.
Definition gc_demo : list version := [vA30; vA10; vB12; vB8; vC7; vC5].
(** the same after another write of "a" *)
Definition gc_demo2 : list version := [vA30; vA22; vA10; vB12; vB8; vC7; vC5].

Lemma demo_reps : represents (map enc gc_demo) gc_demo /\ represents (map enc gc_demo2) gc_demo2.
Proof.
  assert (O : Forall version_ok gc_demo2).
  { unfold gc_demo2. repeat (apply Forall_cons || apply Forall_nil);
      (split; [repeat constructor; unfold byte_ok; lia|
       split; [unfold ts_ok; simpl; lia|split; [simpl; lia|vm_compute; try discriminate; intros; discriminate]]]). }
  assert (S : vsorted gc_demo2).
  { repeat (constructor; [|repeat (constructor; [vm_compute; reflexivity|]); constructor]). constructor. }
  split; [|apply enc_represents; auto].
  apply enc_represents.
  - rewrite Forall_forall in *. intros v I. apply O. simpl in *. tauto.
  - repeat (constructor; [|repeat (constructor; [vm_compute; reflexivity|]); constructor]). constructor.
Qed.

Lemma demo_keys : keys_ok gc_demo.
Proof. intros v I. simpl in I. repeat (destruct I as [<-|I]; [discriminate|]). destruct I. Qed.
Lemma demo_grown : grown 20 gc_demo gc_demo2.
Proof.
  split.
  - intros v T. simpl. split; [|tauto]. intros [A|[A|A]]; auto. subst v. simpl in T. lia.
  - intros v. simpl. tauto.
Qed.
