(** Proofs about watches of the meta data. *)
Require Import ZArith List Bool Lia Sorted Permutation.
From Verif Require Import MwModel MwSpec.
Import ListNotations.
Open Scope Z_scope.

(** * The lists *)
Definition rising (h : evlist) : Prop := StronglySorted Z.lt (map fst h).

Record inv (s : state) : Prop := mkI {
  i_rise : rising (hist s);
  i_rev : 0 <= rev s;
  i_key : forall p, In p (hist s) -> 0 < fst p <= rev s;
  i_em : exists k, em s = skipn k (hist s) }.

Lemma skipn_skipn' : forall (A : Type) (l : list A) a b, skipn a (skipn b l) = skipn (b + a) l.
Proof.
  induction l as [| x l IH]; intros a b.
  - rewrite !skipn_nil. auto.
  - destruct b; cbn; auto.
Qed.

Lemma rising_snoc : forall h r l, rising h -> (forall p, In p h -> fst p < r) -> rising (h ++ [(r, l)]).
Proof.
  induction h as [| p h IH]; intros r l R K; unfold rising in *; cbn in *.
  - repeat constructor.
  - inversion R as [| ? ? R1 R2]; subst. constructor.
    + apply IH; auto.
    + rewrite Forall_forall in *. intros x I. rewrite map_app in I. apply in_app_or in I.
      destruct I as [I | [<- | []]]; auto.
Qed.

Lemma inv_act : forall s e, inv s -> inv (act s e).
Proof.
  intros s e I.
  assert (forall s', em s' = em s -> rev s' = rev s -> hist s' = hist s -> inv s') as Same.
  { intros s' E1 E2 E3. destruct I. constructor; rewrite ?E1, ?E2, ?E3; auto. }
  assert (forall s', em (cancel s') = em s' /\ rev (cancel s') = rev s' /\ hist (cancel s') = hist s') as Ca.
  { intros s'. unfold cancel. destruct (nd s') as [n |]; auto. destruct (nwait n); auto. }
  destruct e; cbn [act].
  - destruct I as [R V K [k E]].
    assert (forall s', em s' = em s ++ [(rev s + 1 + Z.of_nat gap, l)] -> rev s' = rev s + 1 + Z.of_nat gap ->
              hist s' = hist s ++ [(rev s + 1 + Z.of_nat gap, l)] -> inv s') as G.
    { intros s' E1 E2 E3. constructor; rewrite ?E1, ?E2, ?E3.
      - apply rising_snoc; auto. intros p J. apply K in J. lia.
      - lia.
      - intros p J. apply in_app_or in J. destruct J as [J | [<- | []]]; [apply K in J | cbn]; lia.
      - destruct (Nat.le_gt_cases k (length (hist s))).
        + exists k. rewrite skipn_app, E. f_equal. replace (k - length (hist s))%nat with 0%nat by lia. auto.
        + exists (length (hist s)). rewrite skipn_app, E, !skipn_all2 by lia. rewrite Nat.sub_diag. auto. }
    unfold add. destruct (nd s) as [n |]; [| apply G; auto].
    destruct (matches (ntypes n) l); [| apply G; auto].
    destruct (nwait n); [destruct (nstart n <? rev s + 1 + Z.of_nat gap) |]; apply G; auto.
  - destruct (nd s); auto. unfold create.
    destruct (start <? 0); [apply Same; auto |].
    destruct ((0 <? start) && (start <? first_key (em s))); [apply Same; auto |].
    destruct (start =? 0); apply Same; auto.
  - unfold supply. destruct (nd s) as [n |] eqn:N; auto. destruct (nnew n); auto.
    destruct (range (em s) (nstart n) (last_key (em s))); [apply Same; auto |].
    destruct (nstart n <? fst p); [| apply Same; auto].
    destruct (Ca s) as [A [B C]]. apply Same; auto.
  - unfold progress. destruct (nd s) as [n |]; [| apply Same; auto].
    destruct (npend n); [apply Same; auto |].
    destruct (snd (get (em s) (z :: l))); [| apply Same; auto].
    match goal with |- inv (cancel ?x) => destruct (Ca x) as [A [B C]] end. apply Same; auto.
  - destruct (Ca s) as [A [B C]]. apply Same; auto.
  - unfold recycle. destruct (nd s) as [n |]; auto.
    destruct (nwait n); [destruct outdated; auto | apply Same; auto].
    destruct (Ca s) as [A [B C]]. apply Same; auto.
  - destruct I as [R V K [k E]]. constructor; auto. unfold trim; cbn.
    exists (k + (length (em s) - max))%nat. rewrite E at 2. apply skipn_skipn'.
  - destruct I as [R V K [k E]]. constructor; auto. cbn.
    exists (length (hist s)). rewrite skipn_all2; auto.
Qed.

Lemma inv_begin : inv begin.
Proof.
  constructor; cbn.
  - constructor.
  - lia.
  - intros p [].
  - exists 0%nat. auto.
Qed.

Lemma inv_run : forall es s, inv s -> inv (run s es).
Proof. induction es as [| e es IH]; intros s I; cbn; auto. apply IH, inv_act; auto. Qed.

(** * Look-ups *)
Lemma look_in : forall h r l, look h r = Some l -> In (r, l) h.
Proof.
  intros h r l H. unfold look in H. destruct (find _ h) as [p |] eqn:F; [| discriminate].
  injection H as <-. apply find_some in F. destruct F as [I E]. apply Z.eqb_eq in E. subst. destruct p; auto.
Qed.

Lemma in_look : forall h r l, rising h -> In (r, l) h -> look h r = Some l.
Proof.
  unfold look, rising. induction h as [| p h IH]; intros r l R I; [contradiction |].
  cbn in *. inversion R as [| ? ? R1 R2]; subst. rewrite Forall_forall in R2.
  destruct I as [-> | I]; cbn.
  - rewrite Z.eqb_refl. auto.
  - destruct (fst p =? r) eqn:E; [| apply IH; auto]. apply Z.eqb_eq in E.
    assert (In r (map fst h)) as J by (apply in_map_iff; exists (r, l); auto). apply R2 in J. lia.
Qed.

Lemma em_hist : forall s p, inv s -> In p (em s) -> In p (hist s).
Proof.
  intros s p I J. destruct (i_em s I) as [k E]. rewrite E in J.
  rewrite <- (firstn_skipn k (hist s)). apply in_or_app; auto.
Qed.

Lemma em_rising : forall s, inv s -> rising (em s).
Proof.
  intros s I. destruct (i_em s I) as [k E]. rewrite E. pose proof (i_rise s I) as R.
  clear E. revert R. generalize (hist s) as h. induction k as [| k IH]; intros h R; auto.
  destruct h; auto. cbn. apply IH. unfold rising in *. cbn in R. inversion R; auto.
Qed.

Lemma look_em : forall s r l, inv s -> look (em s) r = Some l -> look (hist s) r = Some l.
Proof.
  intros s r l I H. apply in_look; [apply i_rise; auto |]. apply em_hist; auto. apply look_in; auto.
Qed.

(** The watched events of some revisions. *)
Definition held (ts : list nat) (h : evlist) (rs : list Z) : list ev :=
  flat_map (fun r => match look h r with Some l => filter (fun e : ev => has (fst e) ts) l | None => [] end) rs.

Lemma get_held : forall s ts rs, inv s -> snd (get (em s) rs) = false ->
  filter (fun e : ev => has (fst e) ts) (fst (get (em s) rs)) = held ts (hist s) rs.
Proof.
  intros s ts rs I. unfold get, held; cbn [fst snd].
  induction rs as [| r rs IH]; intros H; cbn in *; auto.
  apply orb_false_iff in H. destruct H as [H1 H2].
  rewrite filter_app. f_equal; [| apply IH; auto].
  destruct (look (em s) r) as [l |] eqn:E; [| discriminate]. rewrite (look_em _ _ _ I E). auto.
Qed.

Lemma look_snoc : forall h r l r', In r' (map fst h) -> look (h ++ [(r, l)]) r' = look h r'.
Proof.
  unfold look. induction h as [| p h IH]; intros r l r' I; cbn in *; [contradiction |].
  destruct (fst p =? r') eqn:E; auto. apply IH. destruct I; auto. subst. rewrite Z.eqb_refl in E. discriminate.
Qed.

Lemma held_snoc : forall ts h r l rs, (forall x, In x rs -> In x (map fst h)) ->
  held ts (h ++ [(r, l)]) rs = held ts h rs.
Proof.
  intros ts h r l rs. unfold held. induction rs as [| x rs IH]; intros K; cbn; auto.
  rewrite look_snoc by (apply K; left; auto). rewrite IH; auto. intros y I. apply K. right; auto.
Qed.

Lemma held_app : forall ts h a b, held ts h (a ++ b) = held ts h a ++ held ts h b.
Proof. intros. unfold held. apply flat_map_app. Qed.

Lemma no_match : forall ts l, matches ts l = false -> filter (fun e : ev => has (fst e) ts) l = [].
Proof.
  intros ts. unfold matches. induction l as [| e l IH]; cbn; intros H; auto.
  apply orb_false_iff in H. destruct H as [H1 H2]. rewrite H1. auto.
Qed.

(** * Answers only grow *)
Lemma cancel_outs : forall s, exists k, outs (cancel s) = outs s ++ k.
Proof.
  intros s. unfold cancel. destruct (nd s) as [n |]; [| exists []; rewrite app_nil_r; auto].
  destruct (nwait n) eqn:W; cbn; [exists []; rewrite app_nil_r; auto | eexists; reflexivity].
Qed.

Lemma outs_act : forall s e, exists k, outs (act s e) = outs s ++ k.
Proof.
  intros s e. assert (exists k, outs s = outs s ++ k) as Z0 by (exists []; rewrite app_nil_r; auto).
  destruct e; cbn [act].
  - unfold add. destruct (nd s) as [n |]; [| exact Z0]. destruct (matches (ntypes n) l); [| exact Z0].
    destruct (nwait n); [destruct (nstart n <? rev s + 1 + Z.of_nat gap); exact Z0 |].
    eexists. cbn. reflexivity.
  - destruct (nd s); [exact Z0 |]. unfold create. destruct (start <? 0); [exact Z0 |].
    destruct ((0 <? start) && (start <? first_key (em s))); [exact Z0 |]. destruct (start =? 0); exact Z0.
  - unfold supply. destruct (nd s) as [n |] eqn:N; [| exact Z0]. destruct (nnew n); [| exact Z0].
    destruct (range (em s) (nstart n) (last_key (em s))); [exact Z0 |].
    destruct (nstart n <? fst p); [| exact Z0]. destruct (cancel_outs s) as [k E]. exists k. exact E.
  - unfold progress. destruct (nd s) as [n |]; [| eexists; cbn; reflexivity].
    destruct (npend n); [exact Z0 |].
    destruct (snd (get (em s) (z :: l))); [| eexists; cbn; reflexivity].
    match goal with |- exists k, outs (cancel ?x) = _ => destruct (cancel_outs x) as [k E] end.
    rewrite E. cbn. eexists. rewrite <- app_assoc. reflexivity.
  - apply cancel_outs.
  - unfold recycle. destruct (nd s) as [n |]; [| exact Z0].
    destruct (nwait n); [destruct outdated; [apply cancel_outs | exact Z0] | eexists; cbn; reflexivity].
  - exact Z0.
  - exact Z0.
Qed.

Lemma outs_run : forall es s, exists k, outs (run s es) = outs s ++ k.
Proof.
  induction es as [| e es IH]; intros s; cbn; [exists []; rewrite app_nil_r; auto |].
  destruct (outs_act s e) as [k E]. destruct (IH (act s e)) as [k' E']. exists (k ++ k').
  unfold run in E'. rewrite E', E, app_assoc. auto.
Qed.

Lemma skipn_len : forall (A : Type) (a b : list A), skipn (length a) (a ++ b) = b.
Proof. intros. rewrite skipn_app, skipn_all, Nat.sub_diag. auto. Qed.

(** * The watch *)
Record told (ts : list nat) (keep : Z * list ev -> bool) (base : Z) (s1 s : state) : Prop := mkT {
  t_node : exists n, nd s = Some n /\ ntypes n = ts /\ nnew n = false /\ nstart n <= base /\
    (forall r, In r (npend n) -> In r (map fst (hist s))) /\ (nwait n <> [] -> npend n = []) /\
    watched ts (filter keep (hist s)) = brought (since s1 s) ++ held ts (hist s) (npend n);
  t_base : base <= rev s;
  t_outs : exists k, outs s = outs s1 ++ k }.

Lemma brought_app : forall a b, brought (a ++ b) = brought a ++ brought b.
Proof. intros. unfold brought. apply flat_map_app. Qed.

Lemma since_more : forall s1 s s' k, (exists j, outs s = outs s1 ++ j) -> outs s' = outs s ++ k ->
  since s1 s' = since s1 s ++ k.
Proof.
  intros s1 s s' k [j J] E. unfold since. rewrite E, J, <- app_assoc, !skipn_len. auto.
Qed.

Lemma told_more : forall ts keep base s1 s s' n rs k,
  told ts keep base s1 s -> inv s -> nd s = Some n -> outs s' = outs s ++ k ->
  hist s' = hist s -> rev s' = rev s ->
  (exists n', nd s' = Some n' /\ ntypes n' = ts /\ nnew n' = false /\ nstart n' = nstart n /\ npend n' = rs /\
     (nwait n' <> [] -> rs = [])) ->
  (forall r, In r rs -> In r (npend n)) ->
  held ts (hist s) (npend n) = brought k ++ held ts (hist s) rs ->
  told ts keep base s1 s'.
Proof.
  intros ts keep base s1 s s' n rs k [[n0 [N [T [W [L [P [E F]]]]]]] B O] I Nd Ou Hi Re
    [n' [N' [T' [W' [L' [P' E']]]]]] Sub He.
  rewrite N in Nd. injection Nd as ->. constructor.
  - exists n'. subst rs. repeat split; auto; try lia.
    + rewrite Hi. auto.
    + rewrite Hi, F, He, (since_more s1 s s' k O Ou), brought_app, app_assoc. auto.
  - lia.
  - destruct O as [j O]. exists (j ++ k). rewrite Ou, O, app_assoc. auto.
Qed.

Lemma told_act : forall ts keep base s1 s e,
  (forall p, base < fst p -> keep p = true) ->
  inv s -> told ts keep base s1 s -> e <> ERestart -> (forall a t, e <> ECreate a t) ->
  nd (act s e) <> None -> never_cancelled (since s1 (act s e)) -> told ts keep base s1 (act s e).
Proof.
  intros ts keep base s1 s e KP I Told NR NC Live Never.
  pose proof Told as [[n [N [T [W [L [P [E F]]]]]]] B O].
  destruct (outs_act s e) as [ko Eo]. pose proof (since_more s1 s (act s e) ko O Eo) as Sm.
  destruct e; cbn [act] in *.
  - pose proof (inv_act s (EAdd gap l) I) as I'. cbn [act] in I'.
    unfold add in *. rewrite N in *.
    set (r := rev s + 1 + Z.of_nat gap) in *.
    assert (keep (r, l) = true) as Kr by (apply KP; cbn; lia).
    assert (watched ts (filter keep (hist s ++ [(r, l)])) =
            watched ts (filter keep (hist s)) ++ filter (fun e : ev => has (fst e) ts) l) as Wa.
    { rewrite filter_app. unfold watched. rewrite flat_map_app. f_equal. cbn [filter]. rewrite Kr.
      cbn. apply app_nil_r. }
    assert (forall rs, (forall x, In x rs -> In x (npend n)) -> held ts (hist s ++ [(r, l)]) rs = held ts (hist s) rs) as Hs.
    { intros rs Q. apply held_snoc. auto. }
    assert (~ In r (map fst (hist s))) as Nr.
    { intros C. apply in_map_iff in C. destruct C as [p [Ep C]]. apply (i_key s I) in C. lia. }
    assert (held ts (hist s ++ [(r, l)]) [r] = filter (fun e : ev => has (fst e) ts) l) as Hr.
    { unfold held. cbn. rewrite app_nil_r. rewrite (in_look _ r l); auto.
      - apply rising_snoc; [apply i_rise; auto |]. intros p J. apply (i_key s I) in J. lia.
      - apply in_or_app. right. left. auto. }
    rewrite T in *.
    destruct (matches ts l) eqn:M.
    + destruct (nwait n) as [| w ws] eqn:Wt.
      * assert (nstart n <? r = true) as Lt by (apply Z.ltb_lt; lia). rewrite Lt in *.
        constructor; cbn [nd set_nd out rev outs hist].
        -- eexists. split; [reflexivity |]. cbn [ntypes nnew nstart npend nwait]. repeat split; auto.
           ++ intros x J. rewrite map_app. apply in_or_app. apply in_app_or in J.
              destruct J as [J | [<- | []]]; [left; auto | right; left; auto].
           ++ congruence.
           ++ rewrite Wa, F, held_app, Hr, Hs by auto. rewrite app_assoc. unfold since. cbn. auto.
        -- lia.
        -- auto.
      * assert (npend n = []) as Pn by (apply E; discriminate).
        unfold never_cancelled in Never. rewrite Sm in Never. cbn in Eo. apply app_inv_head in Eo.
        subst ko. rewrite Pn in *. cbn [app] in *.
        edestruct Never as [lv Lv]; [apply in_or_app; right; left; reflexivity |].
        cbn [snd] in Lv. unfold send in Lv. injection Lv as Lv1 Lv2.
        constructor; cbn [nd set_nd out rev outs hist].
        -- eexists. split; [reflexivity |]. cbn [ntypes nnew nstart npend nwait].
           split; [auto |]. split; [auto |]. split; [auto |]. split; [intros ? [] |]. split; [auto |].
           cbn [held flat_map]. rewrite app_nil_r, Wa, F. 
           match goal with |- _ = brought ?x => replace x with (since s1 s ++ [(w :: ws, send ts (get (em s ++ [(r, l)]) [r]))])
             by (symmetry; exact Sm) end.
           rewrite brought_app. f_equal.
           ++ cbn [held flat_map]. apply app_nil_r.
           ++ unfold brought. cbn [flat_map snd send]. rewrite app_nil_r, <- Hr.
              symmetry. apply (get_held _ ts [r] I'). exact Lv2.
        -- cbn. lia.
        -- cbn. destruct O as [j O]. rewrite O. eexists. rewrite <- app_assoc. reflexivity.
    + constructor; cbn [nd set_nd out rev outs hist]; auto; [| lia].
      exists n. repeat split; auto.
      * intros x J. rewrite map_app. apply in_or_app. auto.
      * rewrite Wa, F, (no_match ts l M), app_nil_r, Hs by auto. auto.
  - exfalso. eapply NC; eauto.
  - unfold supply. rewrite N, W. auto.
  - unfold progress in *. rewrite N in *. destruct (npend n) as [| z l] eqn:Pn.
    + eapply (told_more _ _ _ _ s _ n [] []); eauto; try (cbn; rewrite ?app_nil_r; reflexivity).
      * cbn. eexists. split; [reflexivity |]. cbn. auto.
      * intros r [].
      * rewrite Pn. auto.
    + destruct (snd (get (em s) (z :: l))) eqn:C; [exfalso; apply Live; reflexivity |].
      eapply (told_more _ _ _ _ s _ n [] [(ncall s :: nwait n, send (ntypes n) (get (em s) (z :: l)))]); eauto; try reflexivity.
      * cbn. eexists. split; [reflexivity |]. cbn. repeat split; auto.
      * intros r [].
      * unfold send. rewrite C. unfold brought. cbn [flat_map snd]. rewrite !app_nil_r, T, Pn.
        symmetry. apply get_held; auto.
  - exfalso. apply Live. unfold cancel. rewrite N. reflexivity.
  - unfold recycle in *. rewrite N in *. destruct (nwait n) as [| w ws] eqn:Wt.
    + destruct outdated; auto. exfalso. apply Live. unfold cancel. rewrite N. reflexivity.
    + assert (npend n = []) as Pn by (apply E; discriminate).
      eapply (told_more _ _ _ _ s _ n [] [(w :: ws, send (ntypes n) (get (em s) (npend n)))]); eauto; try reflexivity.
      * cbn. eexists. split; [reflexivity |]. cbn. repeat split; auto.
      * intros r [].
      * rewrite Pn. reflexivity.
  - constructor; cbn; auto. exists n. repeat split; auto.
  - congruence.
Qed.

Lemma dead_stays : forall es s, goes_on es -> nd s = None -> nd (run s es) = None.
Proof.
  induction es as [| e es IH]; intros s G N; cbn; auto.
  apply IH; [intros x J; apply G; right; auto |].
  destruct (G e (or_introl eq_refl)) as [NR NC].
  destruct e; cbn [act]; auto.
  - unfold add. rewrite N. auto.
  - exfalso. eapply NC; eauto.
  - unfold supply. rewrite N. auto.
  - unfold progress. rewrite N. auto.
  - unfold cancel. rewrite N. auto.
  - unfold recycle. rewrite N. auto.
Qed.

Lemma never_less : forall s1 s s', (exists j, outs s = outs s1 ++ j) -> (exists k, outs s' = outs s ++ k) ->
  never_cancelled (since s1 s') -> never_cancelled (since s1 s).
Proof.
  intros s1 s s' O [k K] N o I. apply N. rewrite (since_more s1 s s' k O K). apply in_or_app; auto.
Qed.

Lemma told_run : forall ts keep base s1 es s,
  (forall p, base < fst p -> keep p = true) ->
  inv s -> told ts keep base s1 s -> goes_on es ->
  nd (run s es) <> None -> never_cancelled (since s1 (run s es)) -> told ts keep base s1 (run s es).
Proof.
  intros ts keep base s1 es. induction es as [| e es IH]; intros s KP I T G Live Never; cbn in *; auto.
  destruct (G e (or_introl eq_refl)) as [NR NC].
  assert (goes_on es) as G' by (intros x J; apply G; right; auto).
  assert (nd (act s e) <> None) as L'.
  { intros C. apply Live. apply (dead_stays es); auto. }
  apply IH; auto.
  - apply inv_act; auto.
  - apply told_act; auto. eapply never_less; [| apply (outs_run es) | exact Never].
    destruct (t_outs _ _ _ _ _ T) as [j J]. destruct (outs_act s e) as [k K].
    exists (j ++ k). rewrite K, J, app_assoc. auto.
Qed.

(** What follows at the end. *)
Lemma told_end : forall ts keep base s1 s,
  (forall p, base < fst p -> keep p = true) -> inv s -> told ts keep base s1 s ->
  (exists rest, watched ts (filter keep (hist s)) = brought (since s1 s) ++ rest) /\
  (listening s -> brought (since s1 s) = watched ts (filter keep (hist s))) /\
  (never_cancelled (since s1 (act s EProgress)) ->
     brought (since s1 (act s EProgress)) = watched ts (filter keep (hist s))).
Proof.
  intros ts keep base s1 s KP I Told. pose proof Told as [[n [N [T [W [L [P [E F]]]]]]] B O].
  split; [eexists; eauto |]. split.
  - unfold listening, waiting. rewrite N. intros H. rewrite (E H) in F. cbn in F. rewrite app_nil_r in F. auto.
  - intros Never. destruct (outs_act s EProgress) as [k K]. pose proof (since_more s1 s _ k O K) as Sm.
    rewrite Sm, brought_app, F. f_equal.
    rewrite Sm in Never. cbn [act] in K. unfold progress in K. rewrite N in K.
    destruct (npend n) as [| z l] eqn:Pn.
    + cbn in K. rewrite <- (app_nil_r (outs s)) in K at 1. apply app_inv_head in K. subst k. auto.
    + destruct (snd (get (em s) (z :: l))) eqn:C.
      * cbn in K. apply app_inv_head in K. subst k.
        edestruct Never as [lv Lv]; [apply in_or_app; right; left; reflexivity |].
        cbn in Lv. unfold send in Lv. rewrite C in Lv. discriminate.
      * cbn [set_nd out outs] in K. apply app_inv_head in K. subst k.
        unfold brought, send. cbn [flat_map snd]. rewrite app_nil_r, T. apply get_held; auto.
Qed.

(** The watch is there and tells, or is gone and what it brought was right. *)
Definition told' (ts : list nat) (keep : Z * list ev -> bool) (base : Z) (s1 s : state) : Prop :=
  told ts keep base s1 s \/
  (nd s = None /\ (exists rest, watched ts (filter keep (hist s)) = brought (since s1 s) ++ rest) /\
   exists k, outs s = outs s1 ++ k).

Lemma hist_grows : forall s e, exists k, hist (act s e) = hist s ++ k.
Proof.
  intros s e. assert (exists k, hist s = hist s ++ k) as Z0 by (exists []; rewrite app_nil_r; auto).
  assert (forall x, hist (cancel x) = hist x) as Ca.
  { intros x. unfold cancel. destruct (nd x) as [n |]; auto. destruct (nwait n); auto. }
  destruct e; cbn [act].
  - unfold add. destruct (nd s) as [n |]; [| eexists; reflexivity]. destruct (matches (ntypes n) l); [| eexists; reflexivity].
    destruct (nwait n); [destruct (nstart n <? rev s + 1 + Z.of_nat gap) |]; eexists; reflexivity.
  - destruct (nd s); [exact Z0 |]. unfold create. destruct (start <? 0); [exact Z0 |].
    destruct ((0 <? start) && (start <? first_key (em s))); [exact Z0 |]. destruct (start =? 0); exact Z0.
  - unfold supply. destruct (nd s) as [n |]; [| exact Z0]. destruct (nnew n); [| exact Z0].
    destruct (range (em s) (nstart n) (last_key (em s))); [exact Z0 |].
    destruct (nstart n <? fst p); [| exact Z0]. cbn. rewrite Ca. exact Z0.
  - unfold progress. destruct (nd s) as [n |]; [| exact Z0]. destruct (npend n); [exact Z0 |].
    destruct (snd (get (em s) (z :: l))); [rewrite Ca |]; exact Z0.
  - rewrite Ca. exact Z0.
  - unfold recycle. destruct (nd s) as [n |]; [| exact Z0].
    destruct (nwait n); [destruct outdated; [rewrite Ca |] |]; exact Z0.
  - exact Z0.
  - exact Z0.
Qed.

Lemma watched_grows : forall ts keep h k, exists rest,
  watched ts (filter keep (h ++ k)) = watched ts (filter keep h) ++ rest.
Proof.
  intros. rewrite filter_app. unfold watched. rewrite flat_map_app. eexists. reflexivity.
Qed.

(** An event after which the watch is gone brought nothing, if no answer said so. *)
Lemma gone_quiet : forall s1 s e, nd (act s e) = None -> nd s <> None \/ nd s = None ->
  (exists j, outs s = outs s1 ++ j) -> e <> ERestart -> (forall a t, e <> ECreate a t) ->
  never_cancelled (since s1 (act s e)) -> (nd s = None \/ exists n, nd s = Some n /\ nnew n = false) ->
  brought (since s1 (act s e)) = brought (since s1 s).
Proof.
  intros s1 s e G _ O NR NC Never H.
  destruct (outs_act s e) as [k K]. pose proof (since_more s1 s (act s e) k O K) as Sm.
  rewrite Sm in *. rewrite brought_app.
  assert (k = [] -> brought (since s1 s) ++ brought k = brought (since s1 s)) as Q
    by (intros ->; cbn; apply app_nil_r).
  assert (outs s = outs (act s e) -> k = []) as Same.
  { intros E. rewrite <- E, <- (app_nil_r (outs s)) in K at 1. apply app_inv_head in K. auto. }
  assert (forall cs0 l k0, k = (cs0, REvents l true) :: k0 -> False) as No.
  { intros cs0 l k0 ->. edestruct Never as [lv Lv]; [apply in_or_app; right; left; reflexivity |].
    cbn in Lv. discriminate. }
  destruct H as [N | [n [N W]]].
  - destruct e; cbn [act] in *.
    + apply Q, Same. unfold add. rewrite N. auto.
    + exfalso. eapply NC; eauto.
    + apply Q, Same. unfold supply. rewrite N. auto.
    + unfold progress in K. rewrite N in K. cbn in K. apply app_inv_head in K. subst k. cbn.
      apply app_nil_r.
    + apply Q, Same. unfold cancel. rewrite N. auto.
    + apply Q, Same. unfold recycle. rewrite N. auto.
    + apply Q, Same. auto.
    + congruence.
  - destruct e; cbn [act] in *.
    + exfalso. unfold add in G. rewrite N in G. destruct (matches (ntypes n) l); [| cbn in G; congruence].
      destruct (nwait n); [destruct (nstart n <? rev s + 1 + Z.of_nat gap) |]; cbn in G; congruence.
    + exfalso. eapply NC; eauto.
    + exfalso. unfold supply in G. rewrite N, W in G. congruence.
    + unfold progress in G, K. rewrite N in G, K. destruct (npend n) as [| z l]; [cbn in G; discriminate |].
      destruct (snd (get (em s) (z :: l))) eqn:C; [| cbn in G; discriminate].
      exfalso. cbn [cancel set_nd nd nwait out outs] in K. apply app_inv_head in K.
      unfold send in K. rewrite C in K. eapply No. symmetry. exact K.
    + unfold cancel in K. rewrite N in K. destruct (nwait n) as [| w ws]; cbn in K.
      * apply Q, Same. unfold cancel. rewrite N. destruct (nwait n) eqn:Wt; auto.
        exfalso. cbn in K. revert K. rewrite <- (app_nil_r (outs s)) at 1. intros K. apply app_inv_head in K.
        unfold cancel in Sm. rewrite N, Wt in Sm. unfold since in Sm. cbn in Sm.
        destruct O as [j O]. rewrite O, <- app_assoc, !skipn_len in Sm. subst k. cbn in Sm.
        apply (f_equal (@length _)) in Sm. rewrite !app_length in Sm. cbn in Sm. lia.
      * apply app_inv_head in K. exfalso. eapply No. symmetry. exact K.
    + unfold recycle in G, K. rewrite N in G, K. destruct (nwait n) as [| w ws] eqn:Wt; [| cbn in G; discriminate].
      destruct outdated; [| congruence]. unfold cancel in K. rewrite N, Wt in K. cbn in K.
      rewrite <- (app_nil_r (outs s)) in K at 1. apply app_inv_head in K. apply Q. auto.
    + cbn in G. congruence.
    + congruence.
Qed.

Lemma told'_act : forall ts keep base s1 s e,
  (forall p, base < fst p -> keep p = true) ->
  inv s -> told' ts keep base s1 s -> e <> ERestart -> (forall a t, e <> ECreate a t) ->
  never_cancelled (since s1 (act s e)) -> told' ts keep base s1 (act s e).
Proof.
  intros ts keep base s1 s e KP I T NR NC Never.
  assert (exists j, outs s = outs s1 ++ j) as O by (destruct T as [[_ _ O] | [_ [_ O]]]; auto).
  assert (nd s = None \/ exists n, nd s = Some n /\ nnew n = false) as H.
  { destruct T as [[[n [N [_ [W _]]]] _ _] | [N _]]; eauto. }
  destruct (nd (act s e)) as [n' |] eqn:N'.
  - left. destruct T as [T | [N _]].
    + apply told_act; auto. congruence.
    + exfalso. assert (nd (run s [e]) = None) as C.
      { apply dead_stays; auto. intros x [<- | []]. auto. }
      cbn in C. congruence.
  - right. split; auto. split.
    + rewrite (gone_quiet s1 s e N'); auto; [| destruct (nd s); [left; discriminate | auto]].
      destruct (hist_grows s e) as [k K]. rewrite K. destruct (watched_grows ts keep (hist s) k) as [r1 R1].
      rewrite R1. destruct T as [[[n [_ [_ [_ [_ [_ [_ F]]]]]]] _ _] | [_ [[r2 F] _]]]; rewrite F, <- app_assoc;
        eexists; reflexivity.
    + destruct O as [j O]. destruct (outs_act s e) as [k K]. exists (j ++ k). rewrite K, O, app_assoc. auto.
Qed.

Lemma told'_run : forall ts keep base s1 es s,
  (forall p, base < fst p -> keep p = true) ->
  inv s -> told' ts keep base s1 s -> goes_on es ->
  never_cancelled (since s1 (run s es)) -> told' ts keep base s1 (run s es).
Proof.
  intros ts keep base s1 es. induction es as [| e es IH]; intros s KP I T G Never; cbn in *; auto.
  destruct (G e (or_introl eq_refl)) as [NR NC].
  assert (goes_on es) as G' by (intros x J; apply G; right; auto).
  assert (exists j, outs s = outs s1 ++ j) as [j J] by (destruct T as [[_ _ O] | [_ [_ O]]]; auto).
  apply IH; auto.
  - apply inv_act; auto.
  - apply told'_act; auto. eapply never_less; [| apply (outs_run es) | exact Never].
    destruct (outs_act s e) as [k K]. exists (j ++ k). rewrite K, J, app_assoc. auto.
Qed.

Lemma told'_end : forall ts keep base s1 s,
  (forall p, base < fst p -> keep p = true) -> inv s -> told' ts keep base s1 s ->
  (exists rest, watched ts (filter keep (hist s)) = brought (since s1 s) ++ rest) /\
  (listening s -> brought (since s1 s) = watched ts (filter keep (hist s))) /\
  (never_cancelled (since s1 (act s EProgress)) ->
     brought (since s1 (act s EProgress)) = watched ts (filter keep (hist s))).
Proof.
  intros ts keep base s1 s KP I [T | [N [R O]]]; [eapply told_end; eauto |].
  split; auto. split.
  - unfold listening, waiting. rewrite N. congruence.
  - intros Never. exfalso. destruct (outs_act s EProgress) as [k K].
    rewrite (since_more s1 s _ k O K) in Never. cbn [act] in K. unfold progress in K. rewrite N in K.
    cbn in K. apply app_inv_head in K. subst k.
    edestruct Never as [lv Lv]; [apply in_or_app; right; left; reflexivity |]. discriminate.
Qed.

(** * From now *)
Lemma filter_none : forall (f : Z * list ev -> bool) h, (forall p, In p h -> f p = false) -> filter f h = [].
Proof.
  intros f. induction h as [| p h IH]; intros H; cbn; auto. rewrite H by (left; auto). apply IH.
  intros q J. apply H. right; auto.
Qed.

Lemma told_now : forall ts s1, inv s1 -> nd s1 = None ->
  told ts (fun p => rev s1 <? fst p) (rev s1) s1 (act s1 (ECreate 0 ts)).
Proof.
  intros ts s1 I N. cbn [act]. rewrite N. unfold create. cbn.
  constructor; cbn.
  - eexists. split; [reflexivity |]. cbn.
    split; [auto |]. split; [auto |]. split; [apply i_rev; auto |]. split; [intros ? [] |].
    split; [auto |].
    rewrite filter_none.
    + unfold since. cbn. rewrite skipn_all. auto.
    + intros p J. apply Z.ltb_ge. apply (i_key s1 I) in J. lia.
  - lia.
  - exists []. rewrite app_nil_r. auto.
Qed.

Lemma watch_now : forall es1 ts es2,
  let s1 := run begin es1 in let s := run (act s1 (ECreate 0 ts)) es2 in
  nd s1 = None -> goes_on es2 -> never_cancelled (since s1 s) ->
  (exists rest, watched ts (after (rev s1) (hist s)) = brought (since s1 s) ++ rest) /\
  (listening s -> brought (since s1 s) = watched ts (after (rev s1) (hist s))) /\
  (never_cancelled (since s1 (act s EProgress)) ->
     brought (since s1 (act s EProgress)) = watched ts (after (rev s1) (hist s))).
Proof.
  cbv zeta. intros es1 ts es2 N G Never.
  assert (inv (run begin es1)) as I by (apply inv_run, inv_begin).
  apply (told'_end ts (fun p => rev (run begin es1) <? fst p) (rev (run begin es1))).
  - intros p H. apply Z.ltb_lt. auto.
  - apply inv_run, inv_act; auto.
  - apply told'_run; auto.
    + intros p H. apply Z.ltb_lt. auto.
    + apply inv_act; auto.
    + left. apply told_now; auto.
Qed.
