(** Proofs about lookups over an index whose ranges do not overlap. *)
From Coq Require Import ZArith List Bool Lia Sorted.
From Verif Require Import Bytes SMap Outcome LogProofs2 RtModel RtSpec.
Import ListNotations.
Open Scope Z_scope.

(** ** order of keys *)

Lemma blt_trans a b c : blt a b -> blt b c -> blt a c.
Proof. unfold blt. apply bcmp_trans. Qed.
Lemma blt_irrefl a : ~ blt a a.
Proof. unfold blt. rewrite bcmp_refl. congruence. Qed.
Lemma ble_cases a b : ble a b <-> blt a b \/ a = b.
Proof.
  unfold ble, blt. rewrite <- (bcmp_eq a b). destruct (bcmp a b); split; intros; try tauto; try congruence.
  destruct H; congruence.
Qed.
Lemma nlt_ble a b : ~ blt a b <-> ble b a.
Proof. unfold ble, blt. rewrite (bcmp_opp a b). destruct (bcmp a b); simpl; split; congruence. Qed.
Lemma nle_blt a b : ~ ble a b <-> blt b a.
Proof. unfold ble, blt. rewrite (bcmp_opp a b). destruct (bcmp a b); simpl; split; try congruence; intros; exfalso; apply H; congruence. Qed.
Lemma blt_total a b : blt a b \/ a = b \/ blt b a.
Proof. unfold blt. rewrite (bcmp_opp a b). rewrite <- (bcmp_eq a b). destruct (bcmp a b); simpl; auto. Qed.
Lemma ble_refl a : ble a a.
Proof. apply ble_cases; auto. Qed.
Lemma blt_ble a b : blt a b -> ble a b.
Proof. intros; apply ble_cases; auto. Qed.
Lemma blt_le_trans a b c : blt a b -> ble b c -> blt a c.
Proof. intros H K. apply ble_cases in K. destruct K; subst; eauto using blt_trans. Qed.
Lemma ble_lt_trans a b c : ble a b -> blt b c -> blt a c.
Proof. intros H K. apply ble_cases in H. destruct H; subst; eauto using blt_trans. Qed.
Lemma ble_trans a b c : ble a b -> ble b c -> ble a c.
Proof. intros H K. apply ble_cases in H. destruct H; subst; auto. apply blt_ble. eauto using blt_le_trans. Qed.
Lemma blt_nle a b : blt a b -> ~ ble b a.
Proof. intros H K. apply (blt_irrefl a). eauto using blt_le_trans. Qed.
Lemma blt_neq a b : blt a b -> a <> b.
Proof. intros H E. subst. exact (blt_irrefl _ H). Qed.
Lemma bltb_iff a b : bltb a b = true <-> blt a b.
Proof. unfold bltb, blt. destruct (bcmp a b); split; congruence. Qed.
Lemma bltb_niff a b : bltb a b = false <-> ble b a.
Proof. rewrite <- nlt_ble, <- bltb_iff. destruct (bltb a b); split; congruence. Qed.
Lemma bleb_iff a b : bleb a b = true <-> ble a b.
Proof. unfold bleb, ble. destruct (bcmp a b); split; congruence. Qed.
Lemma bleb_niff a b : bleb a b = false <-> blt b a.
Proof. rewrite <- nle_blt, <- bleb_iff. destruct (bleb a b); split; congruence. Qed.
Lemma ble_antisym a b : ble a b -> ble b a -> a = b.
Proof. intros H K. apply ble_cases in H. destruct H as [H|H]; auto. exfalso. exact (blt_nle _ _ H K). Qed.

(** ** FindIntervalValues *)

Lemma split_at_ok k : forall m seen,
  exists A B, split_at seen m k = (rev A ++ seen, B) /\ m = A ++ B /\ Forall (fun e => blt (fst e) k) A /\
    match B with [] => True | e :: _ => ble k (fst e) end.
Proof.
  induction m as [|e m IH]; intros seen; simpl.
  - exists [], []. auto.
  - destruct (bltb (fst e) k) eqn:E.
    + destruct (IH (e :: seen)) as (A & B & H1 & H2 & H3 & H4). exists (e :: A), B. simpl.
      rewrite H1, H2. rewrite <- app_assoc. simpl. repeat split; auto. constructor; auto. apply bltb_iff; auto.
    + exists [], (e :: m). simpl. repeat split; auto. apply bltb_niff in E. auto.
Qed.

Lemma take_below_ok up : forall m, sorted bcmp m -> take_below m up = map snd (filter (fun e => bltb (fst e) up) m).
Proof.
  induction m as [|e m IH]; intros H; simpl; auto.
  apply sorted_cons in H. destruct H as [H1 H2].
  destruct (bleb up (fst e)) eqn:E.
  - apply bleb_iff in E. replace (bltb (fst e) up) with false by (symmetry; apply bltb_niff; auto).
    replace (filter _ m) with (@nil (bytes * region)); auto. symmetry.
    rewrite Forall_forall in H2. clear IH H1. induction m as [|x m IH]; simpl; auto.
    replace (bltb (fst x) up) with false.
    + apply IH. intros y Hy. apply H2. right; auto.
    + symmetry. apply bltb_niff. apply blt_ble. eapply ble_lt_trans; eauto. apply H2. left; auto.
  - apply bleb_niff in E. replace (bltb (fst e) up) with true by (symmetry; apply bltb_iff; auto).
    simpl. f_equal. auto.
Qed.

(** the range of each entry ends before the next entry starts *)
Definition chained (m : xmap) : Prop := StronglySorted (fun a b => ble (r_end (snd a)) (fst b)) m.

Lemma SSorted_app {A} (R : A -> A -> Prop) (l k : list A) : StronglySorted R (l ++ k) ->
  StronglySorted R l /\ StronglySorted R k /\ forall x y, In x l -> In y k -> R x y.
Proof.
  induction l as [|a l IH]; simpl; intros H.
  - repeat split; auto. constructor. intros; tauto.
  - inversion H; subst. destruct (IH H2) as (P & Q & R0). rewrite Forall_app in H3. destruct H3 as [F1 F2].
    repeat split; auto. constructor; auto. intros x y [->|Hx] Hy; auto. rewrite Forall_forall in F2. auto.
Qed.

Lemma filter_none {A} (f : A -> bool) l : (forall x, In x l -> f x = false) -> filter f l = [].
Proof. induction l as [|a l IH]; simpl; intros H; auto. rewrite H by auto. apply IH. intros; apply H; auto. Qed.
Lemma filter_all {A} (f : A -> bool) l : (forall x, In x l -> f x = true) -> filter f l = l.
Proof. induction l as [|a l IH]; simpl; intros H; auto. rewrite H by auto. f_equal. apply IH. intros; apply H; auto. Qed.

Lemma find_interval_ok m lo up keep : sorted bcmp m -> chained m -> blt lo up ->
  (forall r, keep r = true -> blt lo (r_end r)) ->
  find_interval m lo up keep = filter keep (map snd (filter (fun e => bltb (fst e) up) m)).
Proof.
  intros Hs Hch Hlu Hk. unfold find_interval.
  assert (Hne : m = [] \/ match m with [] => true | _ => false end = false) by (destruct m; auto).
  destruct Hne as [->|Hne]; [reflexivity|]. rewrite Hne.
  replace (bleb up lo) with false by (symmetry; apply bleb_niff; auto).
  cbn [orb]. clear Hne.
  destruct (split_at_ok lo m []) as (A & B & E1 & E2 & H3 & H4). rewrite E1, app_nil_r. clear E1.
  assert (HA : forall e, In e A -> bltb (fst e) up = true).
  { intros e He. rewrite Forall_forall in H3. apply bltb_iff. eapply blt_trans; [apply H3; auto|auto]. }
  subst m. apply sorted_app in Hs. destruct Hs as (_ & HsB & HAB).
  apply SSorted_app in Hch. destruct Hch as (HcA & HcB & HcAB).
  rewrite filter_app, map_app, filter_app, (filter_all _ A) by auto.
  assert (Hinit : forall A0 z, A = A0 ++ [z] -> filter keep (map snd A) = filter keep [snd z]).
  { intros A0 z ->. rewrite map_app, filter_app. rewrite (filter_none keep (map snd A0)); auto.
    intros r Hr. apply in_map_iff in Hr. destruct Hr as (e & <- & He).
    destruct (keep (snd e)) eqn:K; auto. apply Hk in K. exfalso.
    apply SSorted_app in HcA. destruct HcA as (_ & _ & HH). specialize (HH e z He (or_introl eq_refl)).
    rewrite Forall_app in H3. destruct H3 as [_ F]. inversion F; subst.
    apply (blt_irrefl lo). eapply blt_trans; [exact K|]. eapply ble_lt_trans; eauto. }
  destruct (rev A) as [|z A'] eqn:EA.
  - assert (A = []) as -> by (rewrite <- (rev_involutive A), EA; auto). simpl.
    destruct B as [|e B]; auto.
    destruct (bltb lo (fst e)); rewrite take_below_ok; auto.
  - assert (EA' : A = rev A' ++ [z]) by (rewrite <- (rev_involutive A), EA; auto).
    rewrite (Hinit _ _ EA').
    assert (Hz : In z A) by (rewrite EA'; apply in_or_app; right; left; auto).
    destruct B as [|e B].
    + rewrite (proj2 (bleb_niff up (fst z))) by (apply bltb_iff; auto). simpl. rewrite app_nil_r. reflexivity.
    + destruct (bltb lo (fst e)) eqn:E.
      * rewrite take_below_ok.
        -- cbn [filter]. rewrite (HA z Hz). cbn [map].
           change (snd z :: ?l) with ([snd z] ++ l). rewrite filter_app. reflexivity.
        -- apply sorted_cons. split; auto. apply Forall_forall. intros y Hy. apply HAB; auto.
      * rewrite take_below_ok by auto. apply bltb_niff in E.
        assert (fst e = lo) by (apply ble_antisym; auto). rewrite (filter_none keep [snd z]); auto.
        intros r [<-|[]]. destruct (keep (snd z)) eqn:K; auto. apply Hk in K. exfalso.
        specialize (HcAB z e Hz (or_introl eq_refl)). rewrite H in HcAB.
        exact (blt_nle _ _ K HcAB).
Qed.

(** without any assumption on the ranges: what is found is in the index, starts before the upper
    bound and passes the filter *)
Lemma take_below_in up : forall m r, In r (take_below m up) -> exists e, In e m /\ snd e = r /\ blt (fst e) up.
Proof.
  induction m as [|e m IH]; intros r H; simpl in *; [tauto|].
  destruct (bleb up (fst e)) eqn:E; simpl in H; [tauto|]. apply bleb_niff in E.
  destruct H as [<-|H]; eauto. destruct (IH _ H) as (x & P & Q & R). eauto.
Qed.
Lemma find_interval_in m lo up keep r : In r (find_interval m lo up keep) ->
  keep r = true /\ exists e, In e m /\ snd e = r /\ blt (fst e) up.
Proof.
  unfold find_interval. destruct (_ || _) eqn:E0; [simpl; tauto|].
  destruct (split_at_ok lo m []) as (A & B & E1 & E2 & H3 & H4). rewrite E1, app_nil_r.
  destruct B as [|e B].
  - destruct (rev A) as [|z A'] eqn:EA; [simpl; tauto|].
    destruct (bleb up (fst z)) eqn:E; [simpl; tauto|]. apply bleb_niff in E.
    intros H. apply filter_In in H. destruct H as [[<-|[]] H]. split; auto. exists z. repeat split; auto.
    rewrite E2, app_nil_r. apply in_rev. rewrite EA. left; auto.
  - intros H. apply filter_In in H. destruct H as [H K]. split; auto. apply take_below_in in H.
    destruct H as (x & P & Q & R). exists x. repeat split; auto. rewrite E2.
    destruct (bltb lo (fst e)); [|apply in_or_app; auto].
    destruct (rev A) as [|z A'] eqn:EA; [apply in_or_app; auto|].
    destruct P as [<-|P]; apply in_or_app; auto. left. apply in_rev. rewrite EA. left; auto.
Qed.
Lemma take_below_sorted up : forall m, sorted bcmp m -> (forall k r, In (k, r) m -> r_start r = k) -> by_start (take_below m up).
Proof.
  unfold by_start. induction m as [|e m IH]; intros H K; simpl; [constructor|].
  apply sorted_cons in H. destruct H as [H1 H2].
  destruct (bleb up (fst e)); constructor.
  - apply IH; auto. intros; apply K; right; auto.
  - apply Forall_forall. intros r Hr. apply take_below_in in Hr. destruct Hr as ([k x] & P & Q & R). simpl in Q; subst x.
    rewrite Forall_forall in H2. specialize (H2 _ P). rewrite (K k r) by (right; auto).
    destruct e as [k0 r0]. cbn [snd]. rewrite (K k0 r0) by (left; auto). exact H2.
Qed.
Lemma SSorted_filter {A} (R : A -> A -> Prop) f l : StronglySorted R l -> StronglySorted R (filter f l).
Proof.
  induction 1; simpl; [constructor|]. destruct (f a); auto. constructor; auto.
  rewrite Forall_forall in *. intros x Hx. apply filter_In in Hx. apply H0; tauto.
Qed.
Lemma find_interval_sorted m lo up keep : sorted bcmp m -> (forall k r, In (k, r) m -> r_start r = k) ->
  by_start (find_interval m lo up keep).
Proof.
  intros Hs Hk. unfold find_interval. destruct (_ || _) eqn:E0; [constructor|].
  destruct (split_at_ok lo m []) as (A & B & E1 & E2 & H3 & H4). rewrite E1, app_nil_r.
  destruct B as [|e B].
  - destruct (rev A) as [|z A'] eqn:EA; [constructor|].
    destruct (bleb up (fst z)) eqn:E; [constructor|]. simpl. destruct (keep (snd z)); repeat constructor.
  - apply SSorted_filter. apply take_below_sorted.
    + subst m. apply sorted_app in Hs. destruct Hs as (HA & HB & HAB).
      destruct (bltb lo (fst e)); auto. destruct (rev A) as [|z A'] eqn:EA; auto.
      apply sorted_cons. split; auto. apply Forall_forall. intros y Hy. apply HAB; auto. apply in_rev. rewrite EA. left; auto.
    + intros k r H. apply Hk. rewrite E2. destruct (bltb lo (fst e)); [|apply in_or_app; auto].
      destruct (rev A) as [|z A'] eqn:EA; [apply in_or_app; auto|].
      destruct H as [<-|H]; apply in_or_app; auto. left. apply in_rev. rewrite EA. left; auto.
Qed.

(** ** ScanRegions *)

Lemma scan_loop_range start up limit : forall l n, Forall (fun r => blt (r_start r) up) l -> 0 <= n -> (0 < limit -> n < limit) ->
  scan_loop start up false limit n l = Ok (if limit <=? 0 then l else firstn (Z.to_nat (limit - n)) l).
Proof.
  induction l as [|r l IH]; intros n F Hn Hl; simpl.
  - destruct (limit <=? 0); auto. destruct (Z.to_nat (limit - n)); auto.
  - inversion F; subst. rewrite (proj2 (bltb_iff _ _) H1). simpl.
    destruct (0 <? limit) eqn:E; simpl.
    + apply Z.ltb_lt in E. replace (limit <=? 0) with false by (symmetry; apply Z.leb_gt; lia).
      destruct (limit <=? n + 1) eqn:E2.
      * apply Z.leb_le in E2. replace (limit - n) with 1 by lia. reflexivity.
      * apply Z.leb_gt in E2. rewrite IH by (auto; lia).
        replace (limit <=? 0) with false by (symmetry; apply Z.leb_gt; lia).
        replace (Z.to_nat (limit - n)) with (S (Z.to_nat (limit - (n + 1)))) by lia. reflexivity.
    + apply Z.ltb_ge in E. rewrite IH by (auto; lia).
      replace (limit <=? 0) with true by (symmetry; apply Z.leb_le; lia). reflexivity.
Qed.
Lemma scan_loop_point start up limit : forall l n,
  scan_loop start up true limit n l = Ok (firstn 1 (filter (fun r => bleb (r_start r) start && bltb start (r_end r)) l)).
Proof.
  induction l as [|r l IH]; intros n; simpl; auto.
  destruct (bleb (r_start r) start && bltb start (r_end r)); auto.
Qed.

Lemma scan_never_crashes m start end_ limit : (forall k r, In (k, r) m -> r_start r = k) -> sorted bcmp m ->
  exists rs, scan_regions m start end_ limit = Ok rs /\ by_start rs /\
    forall r, In r rs -> In (r_start r, r) m /\ blt (r_start r) (upper_of start end_) /\ blt start (r_end r).
Proof.
  intros Hk Hs. unfold scan_regions. remember (upper_of start end_) as up.
  remember (find_interval m start up (fun r => (0 <? r_id r) && bltb start (r_end r))) as l.
  assert (Hl : forall r, In r l -> In (r_start r, r) m /\ blt (r_start r) up /\ blt start (r_end r)).
  { intros r Hr. subst l. apply find_interval_in in Hr. destruct Hr as (K & [k x] & P & Q & R). simpl in Q. subst x.
    rewrite (Hk k r P). apply andb_prop in K. destruct K as [_ K]. apply bltb_iff in K. auto. }
  assert (Hsl : by_start l) by (subst l; apply find_interval_sorted; auto).
  destruct end_ as [|z e].
  - rewrite scan_loop_point. eexists. split; [reflexivity|].
    remember (filter _ l) as fl.
    assert (by_start fl) by (subst fl; apply SSorted_filter; auto).
    assert (forall r, In r fl -> In r l) by (subst fl; intros r Hr; apply filter_In in Hr; tauto).
    destruct fl as [|r fl]; simpl; split.
    + constructor.
    + intros ? [].
    + constructor; constructor.
    + intros x [<-|[]]. apply Hl. apply H0. left; auto.
  - rewrite scan_loop_range; try lia.
    + eexists. split; [reflexivity|]. destruct (limit <=? 0); [split; auto|].
      assert (l = firstn (Z.to_nat (limit - 0)) l ++ skipn (Z.to_nat (limit - 0)) l) as E by (symmetry; apply firstn_skipn).
      split.
      * unfold by_start in *. rewrite E in Hsl. apply SSorted_app in Hsl. tauto.
      * intros r Hr. apply Hl. rewrite E. apply in_or_app; auto.
    + apply Forall_forall. intros r Hr. apply Hl; auto.
Qed.

(** exact answers over an index of disjoint ranges, with perhaps one more entry at the key of nine
    bytes 0xff *)
Definition exact_index (m : xmap) (exist : region -> Prop) : Prop :=
  sorted bcmp m /\
  (forall k r, In (k, r) m -> r_start r = k /\ blt (r_end r) max_start_key) /\
  (forall k r, In (k, r) m -> k = max_start_key \/ exist r /\ blt (r_start r) (r_end r)) /\
  (forall r, exist r -> blt (r_start r) (r_end r) -> In (r_start r, r) m) /\
  (forall r, exist r -> 0 < r_id r) /\
  (forall r q k, exist r -> exist q -> r_id r <> r_id q -> ~ (holds r k /\ holds q k)) /\
  (forall r q, exist r -> exist q -> r_id r = r_id q -> r = q).

Lemma exact_chained m ex : exact_index m ex -> chained m.
Proof.
  intros (Hs & Hk & He & Hall & Hid & Hd & Hu). unfold chained.
  assert (forall l, sorted bcmp l -> (forall e, In e l -> In e m) -> StronglySorted (fun a b => ble (r_end (snd a)) (fst b)) l) as HH; auto.
  clear Hs.
  intros l Hs. induction l as [|[k r] l IH]; intros Hsub; [constructor|].
  apply sorted_cons in Hs. destruct Hs as [H1 H2]. constructor; [apply IH; auto; intros; apply Hsub; right; auto|].
  apply Forall_forall. intros [k' r'] Hin. simpl. rewrite Forall_forall in H2. specialize (H2 _ Hin).
  change (blt k k') in H2.
  assert (Hkr : In (k, r) m) by (apply Hsub; left; auto).
  assert (Hkr' : In (k', r') m) by (apply Hsub; right; auto).
  destruct (Hk _ _ Hkr) as [Ek Wr]. destruct (Hk _ _ Hkr') as [Ek' Wr'].
  destruct (He _ _ Hkr') as [->|[Er' Pr']]; [apply blt_ble; auto|].
  assert (blt k max_start_key).
  { eapply blt_trans; [exact H2|]. rewrite <- Ek'. eapply blt_trans; eauto. }
  destruct (He _ _ Hkr) as [->|[Er Pr]]; [exfalso; eapply blt_irrefl; eauto|].
  destruct (Z.eq_dec (r_id r) (r_id r')) as [E|E].
  - assert (r = r') by (apply Hu; auto). subst r'. exfalso. rewrite Ek in Ek'. subst. exact (blt_irrefl _ H2).
  - apply nlt_ble. intros C. apply (Hd r r' k' Er Er' E). unfold holds. rewrite Ek, Ek' in *.
    repeat split; auto using ble_refl, blt_ble.
Qed.

Lemma asks_iff start end_ k : end_ <> [] -> (asks start end_ k <-> ble start k /\ blt k (upper_of start end_)).
Proof.
  intros He. unfold asks, upper_of. destruct end_ as [|z e]; [congruence|].
  destruct (beqb (z :: e) [0]) eqn:E.
  - apply beqb_true in E. injection E as -> ->. tauto.
  - apply beqb_false in E. destruct z; try tauto. destruct e; try tauto.
Qed.
Lemma asks_holds start end_ r : blt (r_start r) (r_end r) -> blt start (upper_of start end_) ->
  end_ <> [] -> ((exists k, asks start end_ k /\ holds r k) <-> blt (r_start r) (upper_of start end_) /\ blt start (r_end r)).
Proof.
  intros Hr Hu He. pose proof (fun k => asks_iff start end_ k He) as Ha.
  split.
  - intros (k & A & B & C). apply Ha in A. destruct A as [A1 A2]. split; eapply ble_lt_trans; eauto.
  - intros [A B]. destruct (blt_total start (r_start r)) as [C|[C|C]].
    + exists (r_start r). split; [apply Ha; split; auto using blt_ble|split; auto using ble_refl].
    + exists (r_start r). split; [apply Ha; rewrite <- C; split; auto using ble_refl|split; auto using ble_refl].
    + exists start. split; [apply Ha; split; auto using ble_refl|split; auto using blt_ble].
Qed.
Lemma upper_nonempty start end_ : end_ = [] -> blt start (upper_of start end_).
Proof. intros ->. unfold blt, upper_of. simpl. apply bcmp_prefix_lt. Qed.

Lemma by_start_map m : sorted bcmp m -> (forall k r, In (k, r) m -> r_start r = k) -> by_start (map snd m).
Proof.
  unfold by_start. induction m as [|[k r] m IH]; intros H K; simpl; [constructor|].
  apply sorted_cons in H. destruct H as [H1 H2]. constructor; [apply IH; auto; intros; apply K; right; auto|].
  apply Forall_forall. intros x Hx. apply in_map_iff in Hx. destruct Hx as ([k' x'] & E & Hx). simpl in E; subst x'.
  rewrite Forall_forall in H2. rewrite (K k r) by (left; auto). rewrite (K k' x) by (right; auto). exact (H2 _ Hx).
Qed.

Lemma answer_none (ex : region -> Prop) start end_ limit : (forall r k, ex r -> asks start end_ k -> ~ holds r k) -> answer ex start end_ limit [].
Proof.
  intros H. exists []. split; [constructor|]. split.
  - intros r. split; [intros []|]. intros (A & k & B & C). exact (H r k A B C).
  - destruct (limit <=? 0); auto. destruct (Z.to_nat limit); auto.
Qed.

Lemma scan_exact m ex start end_ limit : exact_index m ex -> ble end_ max_start_key -> exists rs,
  scan_regions m start end_ limit = Ok rs /\ answer ex start end_ limit rs.
Proof.
  intros Hx Hend. pose proof (exact_chained _ _ Hx) as Hch.
  destruct Hx as (Hs & Hk & He & Hall & Hid & Hd & Hu).
  unfold scan_regions. remember (upper_of start end_) as up.
  destruct (blt_total start up) as [Hlu|Hlu].
  2:{ (* nothing is asked for *)
    assert (Hus : ble up start) by (destruct Hlu as [E|E]; [rewrite <- E; apply ble_refl|apply blt_ble; auto]).
    unfold find_interval. rewrite (proj2 (bleb_iff _ _) Hus), orb_true_r.
    exists []. split; [destruct end_; reflexivity|]. apply answer_none.
    intros r k _ A _.
    assert (Hne : end_ <> []). { intros E. pose proof (upper_nonempty start end_ E). rewrite <- Hequp in H. exact (blt_nle _ _ H Hus). }
    apply (asks_iff _ _ _ Hne) in A. rewrite <- Hequp in A. destruct A as [A1 A2].
    apply (blt_irrefl k). eapply blt_le_trans; [exact A2|]. eapply ble_trans; eauto. }
  rewrite find_interval_ok; auto.
  2:{ intros r K. apply andb_prop in K. apply bltb_iff. tauto. }
  remember (filter (fun r => (0 <? r_id r) && bltb start (r_end r)) (map snd (filter (fun e => bltb (fst e) up) m))) as l.
  (* the members of l *)
  assert (Hl : forall r, In r l <-> In (r_start r, r) m /\ 0 < r_id r /\ blt (r_start r) up /\ blt start (r_end r)).
  { intros r. subst l. rewrite filter_In, in_map_iff, andb_true_iff, bltb_iff, Z.ltb_lt. split.
    - intros (([k x] & E & H) & K). simpl in E. subst x. apply filter_In in H. simpl in H. rewrite bltb_iff in H.
      destruct H as [H C]. destruct (Hk _ _ H) as [<- _]. tauto.
    - intros (A & B & C & D). split; auto. exists (r_start r, r). split; auto. apply filter_In. rewrite bltb_iff. auto. }
  assert (Hls : by_start l).
  { subst l. apply SSorted_filter. apply by_start_map; [apply sorted_filter; auto|].
    intros k r H. apply filter_In in H. apply Hk. tauto. }
  clear Heql Hch.
  destruct end_ as [|z e].
  - rewrite scan_loop_point. eexists. split; [reflexivity|].
    remember (filter (fun r => bleb (r_start r) start && bltb start (r_end r)) l) as fl.
    assert (Hfl : forall r, In r fl <-> ex r /\ holds r start).
    { intros r. subst fl. rewrite filter_In, andb_true_iff, bleb_iff, bltb_iff, Hl. unfold holds. split.
      - intros ((A & B & C & D) & E & F). split; auto. destruct (He _ _ A) as [G|[G _]]; auto. exfalso.
        destruct (Hk _ _ A) as [_ K]. rewrite G in E. apply (blt_irrefl start). eapply blt_trans; [exact F|].
        eapply blt_le_trans; eauto.
      - intros (A & B & C). repeat split; auto. apply Hall; auto. eapply ble_lt_trans; eauto.
        subst up. eapply ble_lt_trans; [exact B|]. apply upper_nonempty; auto. }
    assert (Hone : (length fl <= 1)%nat).
    { assert (Hfs : by_start fl) by (subst fl; apply SSorted_filter; auto).
      destruct fl as [|r [|q fl]]; simpl; auto. exfalso.
      destruct (proj1 (Hfl r) (or_introl eq_refl)) as [R1 R2]. destruct (proj1 (Hfl q) (or_intror (or_introl eq_refl))) as [Q1 Q2].
      inversion Hfs as [|? ? _ F]; subst. inversion F; subst.
      destruct (Z.eq_dec (r_id r) (r_id q)) as [E|E].
      - rewrite (Hu r q) in H1 by auto. exact (blt_irrefl _ H1).
      - exact (Hd r q start R1 Q1 E (conj R2 Q2)). }
    exists fl. split; [subst fl; apply SSorted_filter; auto|]. split.
    + intros r. rewrite Hfl. simpl. split; intros [A B]; split; auto.
      * exists start; auto.
      * destruct B as (k & -> & B). auto.
    + destruct fl as [|r [|q fl]]; simpl in *; try lia; destruct (limit <=? 0) eqn:E; auto; [destruct (Z.to_nat limit); auto|].
      apply Z.leb_gt in E. replace (Z.to_nat limit) with (S (Z.to_nat (limit - 1))) by lia. simpl.
      destruct (Z.to_nat (limit - 1)); auto.
  - rewrite scan_loop_range; try lia.
    2:{ apply Forall_forall. intros r Hr. apply Hl in Hr. tauto. }
    eexists. split; [reflexivity|]. exists l. split; auto. split.
    2:{ rewrite Z.sub_0_r. reflexivity. }
    assert (Hum : ble up max_start_key).
    { subst up. unfold upper_of. destruct (beqb (z :: e) [0]); auto using ble_refl. }
    intros r. rewrite Hl. split.
    + intros (A & B & C & D). destruct (He _ _ A) as [G|[G P]].
      * exfalso. rewrite G in C. exact (blt_nle _ _ C Hum).
      * split; auto. apply asks_holds; auto; try congruence. subst up; auto.
    + intros (A & k & B & C). assert (P : blt (r_start r) (r_end r)) by (destruct C; eapply ble_lt_trans; eauto).
      assert (blt (r_start r) up /\ blt start (r_end r)).
      { subst up. apply asks_holds; auto; try congruence. exists k; auto. }
      repeat split; auto; tauto.
Qed.
