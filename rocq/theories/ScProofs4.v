(** Checks under way, and merges. *)
From Coq Require Import ZArith List Lia Bool.
From Verif Require Import Bytes SMap Outcome CodecModel CodecSpec ScModel ScSpec ScProofs1 ScProofs2.
Import ListNotations.
Open Scope Z_scope.

Lemma memz_iff r l : memz r l = true <-> In r l.
Proof. unfold memz. rewrite existsb_exists. split; [intros (x & I & E); apply Z.eqb_eq in E; subst; auto|intros I; exists r; split; auto; apply Z.eqb_refl]. Qed.
Lemma memz_false r l : memz r l = false <-> ~ In r l.
Proof. rewrite <- memz_iff. destruct (memz r l); split; congruence. Qed.
Lemma remove_one_in r x l : In x (remove_one r l) -> In x l.
Proof. induction l as [|y l IH]; cbn [remove_one]; auto. destruct (y =? r); [right; auto|]. intros [->|I]; [left; auto|right; auto]. Qed.
Lemma remove_one_nodup r l : NoDup l -> NoDup (remove_one r l) /\ ~ In r (remove_one r l) /\ (forall x, In x l -> x <> r -> In x (remove_one r l)).
Proof.
  induction 1 as [|y l NI ND (A & B & C)]; cbn [remove_one]; [split; [constructor|auto]|]. destruct (Z.eqb_spec y r) as [->|NE].
  - split; auto. split; auto. intros x [->|I] N; [congruence|auto].
  - split; [constructor; auto; intros I; apply NI; apply (remove_one_in _ _ _ I)|]. split; [intros [X|X]; auto|]. intros x [->|I] N; [left; auto|right; auto].
Qed.

Definition good (d : desk) : Prop :=
  NoDup (d_tasks d) /\ (forall r, In r (d_tasks d) -> In r (d_checking d) \/ d_adding d = Some r).
Lemma dstep_good d e d' : good d -> dstep d e = Some d' -> good d'.
Proof.
  intros [N C]. destruct e as [r| |r]; cbn [dstep].
  - destruct (d_adding d) eqn:A; [discriminate|]. destruct (memz r (d_checking d)) eqn:M; [discriminate|]. intros E. assert (d' = mkDesk (d_checking d) (r :: d_tasks d) (Some r)) by congruence. subst d'. clear E.
    apply memz_false in M. split; cbn [d_tasks d_checking d_adding].
    + constructor; auto. intros I. destruct (C r I); [auto|discriminate].
    + intros x [->|I]; auto. destruct (C x I); [auto|discriminate].
  - destruct (d_adding d) as [r|] eqn:A; [|discriminate]. intros E. match type of E with Some ?z = _ => assert (d' = z) by congruence end. subst d'. clear E. split; cbn [d_tasks d_checking d_adding]; auto.
    intros x I. left. destruct (memz r (d_checking d)) eqn:M; destruct (C x I) as [K|K]; auto.
    + apply memz_iff in M. congruence.
    + right. auto.
    + left. congruence.
  - destruct (memz r (d_tasks d)) eqn:M; [|discriminate]. intros E. match type of E with Some ?z = _ => assert (d' = z) by congruence end. subst d'. clear E.
    destruct (remove_one_nodup r _ N) as (N1 & N2 & _). split; cbn [d_tasks d_checking d_adding]; auto.
    intros x I. assert (x <> r) by (intros ->; auto). destruct (C x (remove_one_in _ _ _ I)) as [K|K]; auto. left. apply filter_In. split; auto. apply negb_true_iff. apply Z.eqb_neq. auto.
Qed.
Lemma drun_good : forall es d d', good d -> drun d es = Some d' -> good d'.
Proof. induction es as [|e es IH]; intros d d' G R; cbn [drun] in R; [congruence|]. destruct (dstep d e) as [d1|] eqn:E; [|discriminate]. eapply (IH d1); [eapply dstep_good; eauto|exact R]. Qed.
Lemma no_checks_good : good no_checks. Proof. split; [constructor|intros r []]. Qed.
Theorem C96_core : forall es d, drun no_checks es = Some d -> NoDup (d_tasks d).
Proof. intros es d R. apply (drun_good _ _ _ no_checks_good R). Qed.

Definition exact_set (d : desk) : Prop :=
  (forall r, In r (d_checking d) -> In r (d_tasks d)) /\ (forall r, d_adding d = Some r -> In r (d_tasks d)).
Lemma dstep_exact d e d' : good d -> exact_set d -> (match e with DEnd x => d_adding d <> Some x | _ => True end) -> dstep d e = Some d' -> exact_set d'.
Proof.
  intros [N C] [X Y] O. destruct e as [r| |r]; cbn [dstep].
  - destruct (d_adding d) eqn:A; [discriminate|]. destruct (memz r (d_checking d)) eqn:M; [discriminate|]. intros E. match type of E with Some ?z = _ => assert (d' = z) by congruence end. subst d'. clear E.
    split; cbn [d_tasks d_checking d_adding]; intros x I; [right; auto|left; congruence].
  - destruct (d_adding d) as [r|] eqn:A; [|discriminate]. intros E. match type of E with Some ?z = _ => assert (d' = z) by congruence end. subst d'. clear E. split; cbn [d_tasks d_checking d_adding]; [|discriminate].
    intros x. destruct (memz r (d_checking d)); auto. intros [<-|I]; auto.
  - destruct (memz r (d_tasks d)) eqn:M; [|discriminate]. intros E. match type of E with Some ?z = _ => assert (d' = z) by congruence end. subst d'. clear E.
    destruct (remove_one_nodup r _ N) as (_ & _ & N3). split; cbn [d_tasks d_checking d_adding].
    + intros x I. apply filter_In in I. destruct I as [I1 I2]. apply negb_true_iff in I2. apply Z.eqb_neq in I2. auto.
    + intros x I. apply N3; auto. intros ->. auto.
Qed.
Lemma drun_exact : forall es d d', good d -> exact_set d -> orderly d es -> drun d es = Some d' -> exact_set d'.
Proof.
  induction es as [|e es IH]; intros d d' G X O R; cbn [drun] in R; [congruence|]. cbn [orderly] in O. destruct O as [O1 O2].
  destruct (dstep d e) as [d1|] eqn:E; [|discriminate]. eapply (IH d1); [eapply dstep_good; eauto|eapply dstep_exact; eauto|exact O2|exact R].
Qed.
Theorem C97_core : forall es d r, drun no_checks es = Some d -> orderly no_checks es -> d_adding d = None -> ~ In r (d_tasks d) ->
  exists d', dstep d (DStart r) = Some d'.
Proof.
  intros es d r R O A N. assert (X : exact_set d). { eapply (drun_exact es no_checks); eauto; [apply no_checks_good|split; [intros ? []|discriminate]]. }
  destruct X as [X _]. cbn [dstep]. rewrite A. assert (M : memz r (d_checking d) = false) by (apply memz_false; auto). rewrite M. eexists; reflexivity.
Qed.
Lemma stuck_step r d e d' : In r (d_checking d) -> ~ In r (d_tasks d) -> dstep d e = Some d' -> In r (d_checking d') /\ ~ In r (d_tasks d').
Proof.
  intros I N. destruct e as [x| |x]; cbn [dstep].
  - destruct (d_adding d); [discriminate|]. destruct (memz x (d_checking d)) eqn:M; [discriminate|]. intros E. match type of E with Some ?z = _ => assert (d' = z) by congruence end. subst d'. clear E. cbn [d_tasks d_checking]. split; auto.
    intros [->|J]; auto. apply memz_false in M. auto.
  - destruct (d_adding d) as [x|]; [|discriminate]. intros E. match type of E with Some ?z = _ => assert (d' = z) by congruence end. subst d'. clear E. cbn [d_tasks d_checking]. split; auto. destruct (memz x (d_checking d)); [auto|right; auto].
  - destruct (memz x (d_tasks d)) eqn:M; [|discriminate]. intros E. match type of E with Some ?z = _ => assert (d' = z) by congruence end. subst d'. clear E. cbn [d_tasks d_checking]. apply memz_iff in M. split.
    + apply filter_In. split; auto. apply negb_true_iff. apply Z.eqb_neq. intros ->. auto.
    + intros J. apply N. apply (remove_one_in _ _ _ J).
Qed.
Lemma stuck_run r : forall es d d', In r (d_checking d) -> ~ In r (d_tasks d) -> drun d es = Some d' -> In r (d_checking d') /\ ~ In r (d_tasks d').
Proof.
  induction es as [|e es IH]; intros d d' I N R; cbn [drun] in R; [assert (d = d') by congruence; subst; auto|]. destruct (dstep d e) as [d1|] eqn:E; [|discriminate].
  destruct (stuck_step r d e d1 I N E). apply (IH d1); auto.
Qed.
Theorem C97_stuck_core : forall r, exists d, drun no_checks [DStart r; DEnd r; DAdd] = Some d /\ d_tasks d = [] /\ d_adding d = None /\
  forall es d', drun d es = Some d' -> ~ In r (d_tasks d') /\ dstep d' (DStart r) = None.
Proof.
  intros r. exists (mkDesk [r] [] None). split.
  - cbn [drun dstep no_checks d_adding d_checking d_tasks memz existsb orb filter remove_one]. rewrite Z.eqb_refl. cbn [orb drun dstep d_adding d_checking d_tasks filter memz existsb]. reflexivity.
  - split; [auto|split; [auto|]]. intros es d' R. destruct (stuck_run r es (mkDesk [r] [] None) d' (or_introl eq_refl) (fun X => X) R) as [I N]. split; auto.
    cbn [dstep]. destruct (d_adding d'); auto. assert (M : memz r (d_checking d') = true) by (apply memz_iff; auto). rewrite M. auto.
Qed.

(** *** merges *)
Lemma different_peers_iff a b : different_peers a b = false <-> length a = length b /\ (forall x, In x a -> In x b).
Proof.
  unfold different_peers. rewrite orb_false_iff, negb_false_iff, Nat.eqb_eq. split; intros [H1 H2]; split; auto.
  - intros x I. assert (X : negb (existsb (Z.eqb x) b) = false). { destruct (negb _) eqn:E; auto. assert (existsb (fun y => negb (existsb (Z.eqb y) b)) a = true); [|congruence]. apply existsb_exists. exists x. auto. }
    apply negb_false_iff in X. apply existsb_exists in X. destruct X as (y & J & E). apply Z.eqb_eq in E. subst. auto.
  - destruct (existsb _ a) eqn:E; auto. apply existsb_exists in E. destruct E as (x & I & E). apply negb_true_iff in E. exfalso.
    assert (existsb (Z.eqb x) b = true); [|congruence]. apply existsb_exists. exists x. split; auto. apply Z.eqb_refl.
Qed.

Lemma pre_merge_iff l busy seqn ck a b : pre_merge l busy seqn ck a b = true <-> mergeable l seqn a b /\ busy = false /\ ~ In (g_id a) ck.
Proof.
  unfold pre_merge, mergeable. destruct (g_metrics a) as [ma|] eqn:MA; [|split; [discriminate|intros ((_ & _ & _ & _ & _ & _ & _ & _ & _ & _ & _ & _ & _ & ma & mb & X & _) & _); congruence]].
  destruct (g_metrics b) as [mb|] eqn:MB; [|split; [discriminate|intros ((_ & _ & _ & _ & _ & _ & _ & _ & _ & _ & _ & _ & _ & m1 & m2 & _ & X & _) & _); congruence]].
  unfold valid_region, need_merge, size_and_count. rewrite !andb_true_iff, !negb_true_iff, !Z.ltb_ge, !Z.eqb_eq, different_peers_iff, memz_false.
  assert (SK : (if seqn then same_key (g_stop a) (g_start b) else same_key (g_start a) (g_stop b)) = true <->
               (if seqn then g_stop a = g_start b else g_start a = g_stop b)) by (destruct seqn; apply same_key_iff). rewrite SK. clear SK.
  assert (NM : (let '(sa, ka) := if g_fresh a then ma else g_scan a in
     if (l_size l <? sa) || (l_keys l <? ka) then false
     else let '(sb, kb) := if g_fresh b then mb else g_scan b in negb (l_sum_size l <? sa + sb) && negb (l_sum_keys l <? ka + kb)) = true <->
     (let x := if g_fresh a then ma else g_scan a in let y := if g_fresh b then mb else g_scan b in
      fst x <= l_size l /\ snd x <= l_keys l /\ fst x + fst y <= l_sum_size l /\ snd x + snd y <= l_sum_keys l)).
  { cbv zeta. destruct (if g_fresh a then ma else g_scan a) as [sa ka]. destruct (if g_fresh b then mb else g_scan b) as [sb kb]. cbn [fst snd].
    destruct (Z.ltb_spec (l_size l) sa); cbn [orb]; [split; [discriminate|lia]|]. destruct (Z.ltb_spec (l_keys l) ka); [split; [discriminate|lia]|].
    rewrite andb_true_iff, !negb_true_iff, !Z.ltb_ge. tauto. }
  rewrite NM. clear NM. cbv zeta. split.
  - intros H. split; [|tauto]. repeat (split; [tauto|]). exists ma, mb. tauto.
  - intros ((A1 & A2 & A3 & A4 & A5 & A6 & A7 & A8 & A9 & A10 & A11 & A12 & A13 & m1 & m2 & E1 & E2 & E3) & B & C).
    assert (m1 = ma) by congruence. assert (m2 = mb) by congruence. subst m1 m2. tauto.
Qed.

Lemma merge_loop_in l busy seqn : forall left rs ck p, In p (merge_loop l busy seqn ck left rs) ->
  mergeable l seqn (fst p) (snd p) /\ busy = false /\ ~ In (g_id (fst p)) ck /\ exists pre post, rs = pre ++ fst p :: snd p :: post.
Proof.
  intros left. induction left as [left IH] using lt_wf_ind. intros rs ck p I. destruct left as [|n]; [destruct I|].
  destruct rs as [|a [|b rest]]; try destruct I. cbn [merge_loop] in I. destruct (pre_merge l busy seqn ck a b) eqn:P.
  - apply pre_merge_iff in P. destruct I as [<-|I].
    + cbn [fst snd]. destruct P as (P1 & P2 & P3). split; auto. split; auto. split; auto. exists [], rest. reflexivity.
    + destruct (IH (pred n) ltac:(lia) _ _ _ I) as (A & B & C & pre & post & E). split; auto. split; auto. split; [intros X; apply C; right; right; auto|].
      exists (a :: b :: pre), post. rewrite E. reflexivity.
  - destruct (IH n ltac:(lia) _ _ _ I) as (A & B & C & pre & post & E). split; auto. split; auto. split; auto. exists (a :: pre), post. rewrite E. reflexivity.
Qed.
Lemma merge_loop_ids l busy seqn : forall left rs ck, NoDup (map g_id rs) ->
  NoDup (taken (merge_loop l busy seqn ck left rs)) /\ incl (taken (merge_loop l busy seqn ck left rs)) (map g_id rs).
Proof.
  intros left. induction left as [left IH] using lt_wf_ind. intros rs ck N. destruct left as [|n]; [split; [constructor|intros x []]|].
  destruct rs as [|a [|b rest]]; [split; [constructor|intros x []]|split; [constructor|intros x []]|]. cbn [merge_loop]. cbn [map] in N. inversion N as [|? ? NA N1]; subst. inversion N1 as [|? ? NB N2]; subst.
  destruct (pre_merge l busy seqn ck a b).
  - destruct (IH (pred n) ltac:(lia) rest (g_id a :: g_id b :: ck) N2) as [A B]. unfold taken in *. cbn [map concat app fst snd]. split.
    + constructor; [intros [X|X]; [apply NA; left; auto|apply NA; right; auto]|]. constructor; auto.
    + intros x [<-|[<-|I]]; [left; auto|right; left; auto|right; right; auto].
  - destruct (IH n ltac:(lia) (b :: rest) ck N1) as [A B]. split; auto. intros x I. right. auto.
Qed.

Theorem C98_core : forall l busy seqn ck rs a b, In (a, b) (pre_merge_check l busy seqn ck rs) ->
  mergeable l seqn a b /\ busy = false /\ ~ In (g_id a) ck /\ exists pre post, rs = pre ++ a :: b :: post.
Proof. intros l busy seqn ck rs a b I. unfold pre_merge_check in I. destruct (Nat.ltb (length rs) 2); [destruct I|]. apply (merge_loop_in l busy seqn _ _ _ _ I). Qed.
Theorem C98_disjoint_core : forall l busy seqn ck rs, NoDup (map g_id rs) -> NoDup (taken (pre_merge_check l busy seqn ck rs)).
Proof. intros l busy seqn ck rs N. unfold pre_merge_check. destruct (Nat.ltb (length rs) 2); [constructor|]. apply merge_loop_ids. auto. Qed.
Theorem C98_again_core : forall busy a b, merge_check busy a b = true <->
  busy = false /\ g_normal a = true /\ g_normal b = true /\ g_disabled a = false /\ g_disabled b = false /\ g_leader a = true /\
  g_engine a = g_engine b /\ g_raw a = g_raw b /\ g_part a = g_part b /\ length (g_peers a) = length (g_peers b) /\
  (forall x, In x (g_peers a) -> In x (g_peers b)).
Proof. intros. unfold merge_check, valid_region. rewrite !andb_true_iff, !negb_true_iff, !Z.eqb_eq, different_peers_iff. tauto. Qed.

Lemma merge_loop_progress l busy seqn a b post : post <> [] -> mergeable l seqn a b -> busy = false ->
  forall k pre ck, (length pre <= k)%nat -> NoDup (map g_id (pre ++ a :: b :: post)) -> ~ In (g_id a) ck ->
  exists p, In p (merge_loop l busy seqn ck (length (pre ++ a :: b :: post) - 2) (pre ++ a :: b :: post)) /\ (fst p = a \/ snd p = a).
Proof.
  intros NE M B. assert (LP : (1 <= length post)%nat) by (destruct post; [congruence|simpl; lia]).
  induction k as [|k IH]; intros pre ck L N C.
  - destruct pre; [|simpl in L; lia]. cbn [app length]. destruct (S (S (length post)) - 2)%nat eqn:E; [lia|]. cbn [merge_loop].
    rewrite (proj2 (pre_merge_iff l busy seqn ck a b)) by auto. exists (a, b). split; [left; auto|left; auto].
  - destruct pre as [|x pre].
    + apply (IH [] ck); auto. simpl. lia.
    + cbn [app] in *. destruct (length (x :: pre ++ a :: b :: post) - 2)%nat eqn:E; [cbn [length] in E; rewrite app_length in E; cbn [length] in E; lia|].
      assert (EN : n = (length (pre ++ a :: b :: post) - 2)%nat) by (cbn [length] in E; rewrite app_length in *; cbn [length] in *; lia).
      cbn [map] in N. inversion N as [|? ? NX N1]; subst x0 l0.
      destruct pre as [|y pre].
      * cbn [app] in *. cbn [merge_loop]. destruct (pre_merge l busy seqn ck x a).
        -- exists (x, a). split; [left; auto|right; auto].
        -- rewrite EN. apply (IH [] ck); auto. simpl. lia.
      * cbn [app] in *. cbn [merge_loop]. destruct (pre_merge l busy seqn ck x y).
        -- cbn [map] in N1. inversion N1 as [|? ? NY N2]; subst x0 l0.
           assert (EP : pred n = (length (pre ++ a :: b :: post) - 2)%nat) by (rewrite EN; cbn [length]; rewrite app_length; cbn [length]; lia). rewrite EP.
           destruct (IH pre (g_id x :: g_id y :: ck)) as (p & I & H); auto; [simpl in L; lia| |exists p; split; [right; auto|auto]].
           assert (IA : In (g_id a) (map g_id (pre ++ a :: b :: post))) by (apply in_map; apply in_or_app; right; left; auto).
           intros [X|[X|X]]; auto; [apply NX; right; rewrite X; auto|apply NY; rewrite X; auto].
        -- rewrite EN. apply (IH (y :: pre) ck); auto. simpl in *. lia.
Qed.
Theorem C99_core : forall l seqn ck pre a b post, post <> [] -> mergeable l seqn a b -> ~ In (g_id a) ck ->
  NoDup (map g_id (pre ++ a :: b :: post)) -> In (g_id a) (taken (pre_merge_check l false seqn ck (pre ++ a :: b :: post))).
Proof.
  intros l seqn ck pre a b post NE M C N. unfold pre_merge_check.
  assert (L : Nat.ltb (length (pre ++ a :: b :: post)) 2 = false) by (apply Nat.ltb_ge; rewrite app_length; simpl; lia). rewrite L.
  destruct (merge_loop_progress l false seqn a b post NE M eq_refl (length pre) pre ck (le_n _) N C) as ([x y] & I & H). cbn [fst snd] in H.
  unfold taken. apply in_concat. exists [g_id x; g_id y]. split; [apply in_map_iff; exists (x, y); auto|]. destruct H; subst; [left; auto|right; left; auto].
Qed.
Theorem C99_two_core : forall l busy seqn ck a b, pre_merge_check l busy seqn ck [a; b] = [].
Proof. reflexivity. Qed.
Theorem C99_last_core : forall l busy seqn ck rs a b, NoDup (map g_id (rs ++ [a; b])) ->
  ~ In (a, b) (pre_merge_check l busy seqn ck (rs ++ [a; b])).
Proof.
  intros l busy seqn ck rs a b N I. unfold pre_merge_check in I. destruct (Nat.ltb _ 2); [destruct I|].
  assert (E : (length (rs ++ [a; b]) - 2 = length rs)%nat) by (rewrite app_length; simpl; lia). rewrite E in I. clear E.
  assert (G : forall k rs ck, NoDup (map g_id (rs ++ [a; b])) -> (length rs <= k)%nat -> ~ In (a, b) (merge_loop l busy seqn ck (length rs) (rs ++ [a; b]))).
  { clear. induction k as [|k IH]; intros rs ck N L I.
    - destruct rs; [|simpl in L; lia]. cbn in I. auto.
    - destruct rs as [|x rs]; [cbn in I; auto|]. cbn [length app map] in *. inversion N as [|? ? NX N1]; subst x0 l0. destruct rs as [|y rs]; cbn [app length merge_loop] in I.
      + destruct (pre_merge l busy seqn ck x a).
        * destruct I as [I|I]; [assert (x = a) by congruence; subst; apply NX; left; auto|destruct I].
        * destruct I.
      + destruct (pre_merge l busy seqn ck x y).
        * destruct I as [I|I].
          { assert (x = a) by congruence. subst. apply NX. apply in_map. right. apply in_or_app. right. left. auto. }
          cbn [pred] in I. cbn [app map] in N1. inversion N1; subst. apply (IH rs _ ltac:(auto) ltac:(simpl in L; lia) I).
        * apply (IH (y :: rs) ck N1 ltac:(simpl in *; lia) I). }
  apply (G (length rs) rs ck N (le_n _) I).
Qed.
