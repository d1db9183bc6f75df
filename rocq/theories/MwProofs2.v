(** Proofs about watches of the meta data: calls, and watches from a revision. *)
Require Import ZArith List Bool Lia Sorted Permutation.
From Verif Require Import MwModel MwSpec MwProofs.
Import ListNotations.
Open Scope Z_scope.

(** * Calls *)
Definition calls (s : state) : list nat := answered s ++ waiting s.

Definition fresh (s : state) (e : event) : list nat :=
  match e with EProgress => [ncall s] | _ => [] end.

Lemma cancel_calls : forall s, Permutation (calls (cancel s)) (calls s).
Proof.
  intros s. unfold cancel, calls, waiting, answered. destruct (nd s) as [n |] eqn:N.
  - destruct (nwait n) eqn:W; cbn; auto.
    rewrite flat_map_app. cbn. rewrite !app_nil_r. auto.
  - cbn. rewrite N. auto.
Qed.

Lemma calls_act : forall s e, e <> ERestart ->
  Permutation (calls (act s e)) (calls s ++ fresh s e).
Proof.
  intros s e NR.
  assert (Permutation (calls s) (calls s ++ [])) as Z0 by (rewrite app_nil_r; auto).
  destruct e; cbn [act fresh].
  - unfold add. destruct (nd s) as [n |] eqn:N.
    + assert (calls s = answered s ++ nwait n) as Cs by (unfold calls, waiting; rewrite N; auto).
      destruct (matches (ntypes n) l).
      * destruct (nwait n) eqn:W.
        -- destruct (nstart n <? rev s + 1 + Z.of_nat gap); rewrite Cs; unfold calls, waiting, answered; cbn;
             rewrite ?N, ?W, !app_nil_r; auto.
        -- rewrite Cs. unfold calls, waiting, answered; cbn. rewrite flat_map_app; cbn.
           rewrite !app_nil_r. auto.
      * rewrite Cs. unfold calls, waiting, answered; cbn. rewrite ?N, !app_nil_r. auto.
    + unfold calls, waiting, answered; cbn. rewrite ?N, !app_nil_r. auto.
  - destruct (nd s) eqn:N; auto. unfold create.
    destruct (start <? 0); [exact Z0 |].
    destruct ((0 <? start) && (start <? first_key (em s))); [exact Z0 |].
    unfold calls, waiting in *. rewrite N in *. destruct (start =? 0); exact Z0.
  - unfold supply. destruct (nd s) as [n |] eqn:N; auto. destruct (nnew n); auto.
    assert (Permutation (calls (say (set_nd s (Some (mkN (nstart n) (ntypes n)
      (map fst (filter (fun p => matches (ntypes n) (snd p)) (range (em s) (nstart n) (last_key (em s)))) ++ npend n)
      (nwait n) false))) Created)) (calls s ++ [])) as G.
    { unfold calls, waiting, answered in *. cbn. rewrite ?N in *. exact Z0. }
    destruct (range (em s) (nstart n) (last_key (em s))); [exact G |].
    destruct (nstart n <? fst p); [| exact G].
    rewrite app_nil_r. apply (cancel_calls s).
  - unfold progress. destruct (nd s) as [n |] eqn:N.
    + assert (calls s = answered s ++ nwait n) as Cs by (unfold calls, waiting; rewrite N; auto).
      rewrite Cs. destruct (npend n).
      * unfold calls, waiting, answered; cbn. rewrite app_assoc. auto.
      * assert (forall x, Permutation (calls (set_nd (out (mkS (em s) (Some n) (rev s) (S (ncall s)) (outs s) (cres s) (hist s))
          (ncall s :: nwait n) x) (Some (mkN (nstart n) (ntypes n) [] [] (nnew n))))) ((answered s ++ nwait n) ++ [ncall s])) as G.
        { intros x. unfold calls, waiting, answered; cbn. rewrite flat_map_app; cbn. rewrite !app_nil_r, <- app_assoc.
          apply Permutation_app_head. apply Permutation_cons_append. }
        destruct (snd (get (em s) (z :: l))); [| apply G].
        eapply Permutation_trans; [apply cancel_calls | apply G].
    + unfold calls, waiting, answered; cbn. rewrite ?N, flat_map_app; cbn. rewrite !app_nil_r. auto.
  - rewrite app_nil_r. apply cancel_calls.
  - unfold recycle. destruct (nd s) as [n |] eqn:N; auto.
    destruct (nwait n) eqn:W.
    + destruct outdated; auto. rewrite app_nil_r. apply cancel_calls.
    + unfold calls, waiting, answered; cbn. rewrite ?N, W, flat_map_app; cbn. rewrite !app_nil_r. auto.
  - unfold calls, waiting, answered in *; cbn. rewrite app_nil_r. auto.
  - congruence.
Qed.

Lemma ncall_cancel : forall s, ncall (cancel s) = ncall s.
Proof. intros s. unfold cancel. destruct (nd s) as [n |]; auto. destruct (nwait n); auto. Qed.

Lemma ncall_act : forall s e, ncall (act s e) = (ncall s + length (fresh s e))%nat.
Proof.
  intros s e. destruct e; cbn [act fresh length]; rewrite ?Nat.add_0_r.
  - unfold add. destruct (nd s) as [n |]; auto. destruct (matches (ntypes n) l); auto.
    destruct (nwait n); [destruct (nstart n <? rev s + 1 + Z.of_nat gap) |]; auto.
  - destruct (nd s); auto. unfold create. destruct (start <? 0); auto.
    destruct ((0 <? start) && (start <? first_key (em s))); auto. destruct (start =? 0); auto.
  - unfold supply. destruct (nd s) as [n |] eqn:N; auto. destruct (nnew n); auto.
    destruct (range (em s) (nstart n) (last_key (em s))); auto.
    destruct (nstart n <? fst p); auto. cbn. apply ncall_cancel.
  - unfold progress. destruct (nd s) as [n |]; [| cbn; lia]. destruct (npend n); [cbn; lia |].
    destruct (snd (get (em s) (z :: l))); [rewrite ncall_cancel |]; cbn; lia.
  - apply ncall_cancel.
  - unfold recycle. destruct (nd s) as [n |]; auto.
    destruct (nwait n); [destruct outdated; auto; apply ncall_cancel | auto].
  - auto.
  - auto.
Qed.

Lemma calls_run : forall es s, stays_up es -> Permutation (calls s) (seq 0 (ncall s)) ->
  Permutation (calls (run s es)) (seq 0 (ncall (run s es))).
Proof.
  induction es as [| e es IH]; intros s U P; cbn; auto.
  apply IH; [intros C; apply U; right; auto |].
  eapply Permutation_trans; [apply calls_act; intros ->; apply U; left; auto |].
  rewrite ncall_act, seq_app. cbn. apply Permutation_app; auto.
  destruct e; cbn; auto.
Qed.

Lemma calls_once : forall es, stays_up es ->
  Permutation (answered (run begin es) ++ waiting (run begin es)) (seq 0 (ncall (run begin es))).
Proof. intros es U. apply (calls_run es begin U). cbn. auto. Qed.

Lemma nodup_left : forall (a b : list nat), NoDup (a ++ b) -> NoDup a.
Proof.
  induction a as [| x a IH]; intros b D; [constructor |]. inversion D as [| ? ? D1 D2]; subst.
  constructor; [intros C; apply D1; apply in_or_app; auto | eapply IH; eauto].
Qed.

Record sound (s : state) : Prop := mkSd {
  sd_nodup : NoDup (calls s);
  sd_less : forall c, In c (calls s) -> (c < ncall s)%nat }.

Lemma sound_act : forall s e, sound s -> sound (act s e).
Proof.
  intros s e [D L].
  assert (e = ERestart \/ e <> ERestart) as [-> | NR] by (destruct e; auto; right; discriminate).
  - constructor; unfold calls, waiting, answered in *; cbn; rewrite app_nil_r.
    + apply nodup_left in D. auto.
    + intros c I. apply L. apply in_or_app; auto.
  - pose proof (calls_act s e NR) as P. constructor.
    + eapply Permutation_NoDup; [apply Permutation_sym, P |].
      destruct e; cbn; rewrite ?app_nil_r; auto.
      apply (Permutation_NoDup (Permutation_cons_append _ _)). constructor; auto.
      intros C. apply L in C. lia.
    + intros c I. apply (Permutation_in _ P) in I. rewrite ncall_act. apply in_app_or in I.
      destruct I as [I | I]; [apply L in I; lia |].
      destruct e; cbn in *; try contradiction. destruct I as [<- | []]. lia.
Qed.

Lemma calls_distinct : forall es, NoDup (answered (run begin es)).
Proof.
  intros es. assert (forall es s, sound s -> sound (run s es)) as G.
  { clear. induction es as [| e es IH]; intros s S; cbn; auto. apply IH, sound_act; auto. }
  assert (sound begin) as B by (constructor; cbn; [constructor | intros c []]).
  destruct (G es begin B) as [D _]. unfold calls in D. apply nodup_left in D. auto.
Qed.

(** * A watch from a revision *)
Lemma keys_last : forall h a, rising h -> In a (map fst h) -> a <= last_key h.
Proof.
  unfold rising, last_key. induction h as [| p h IH]; intros a R I; cbn [map] in *; [contradiction |].
  inversion R as [| ? ? R1 R2]; subst. rewrite Forall_forall in R2.
  destruct h as [| q h].
  - cbn in *. destruct I as [-> | []]. lia.
  - assert (last (map fst (p :: q :: h)) 0 = last (map fst (q :: h)) 0) as E by reflexivity.
    cbn [map] in E |- *. rewrite E. destruct I as [<- | I].
    + specialize (R2 (fst q) (or_introl eq_refl)). specialize (IH (fst q) R1 (or_introl eq_refl)).
      cbn [map] in IH. lia.
    + apply IH; auto.
Qed.

Lemma last_in : forall h, h <> [] -> In (last_key h) (map fst h).
Proof.
  unfold last_key. intros h H.
  destruct (exists_last H) as [l [a E]]. subst h. rewrite map_app. cbn [map]. rewrite last_last. apply in_or_app. right. left. auto.
Qed.

Lemma first_least : forall h p, rising h -> In p h -> first_key h <= fst p.
Proof.
  intros [| q h] p R I; [contradiction |]. cbn. unfold rising in R. cbn in R.
  inversion R as [| ? ? R1 R2]; subst. rewrite Forall_forall in R2.
  destruct I as [-> | I]; [lia |]. specialize (R2 (fst p) (in_map fst _ _ I)). lia.
Qed.

(** The entries not held are older than the first one held. *)
Lemma dropped_old : forall k h p, rising h -> skipn k h <> [] -> In p h ->
  In p (skipn k h) \/ fst p < first_key (skipn k h).
Proof.
  induction k as [| k IH]; intros h p R N I; cbn in *; auto.
  destruct h as [| q h]; [contradiction |]. unfold rising in R. cbn in R.
  inversion R as [| ? ? R1 R2]; subst. rewrite Forall_forall in R2.
  destruct I as [-> | I]; [| apply IH; auto]. right.
  assert (forall x, In x (skipn k h) -> In x h) as Sub.
  { intros x J. rewrite <- (firstn_skipn k h). apply in_or_app; auto. }
  destruct (skipn k h) as [| f t] eqn:E; [congruence |]. cbn. apply R2. apply in_map. apply Sub. left. auto.
Qed.

Lemma old_filter : forall (f : Z * list ev -> bool) k h, rising h -> skipn k h <> [] ->
  (forall p, fst p < first_key (skipn k h) -> f p = false) -> filter f h = filter f (skipn k h).
Proof.
  intros f. induction k as [| k IH]; intros h R N F; auto.
  destruct h as [| q h]; auto. cbn [skipn] in *.
  assert (fst q < first_key (skipn k h)) as Q.
  { unfold rising in R. cbn in R. inversion R as [| ? ? R1 R2]; subst. rewrite Forall_forall in R2.
    assert (forall x, In x (skipn k h) -> In x h) as Sub.
    { intros x J. rewrite <- (firstn_skipn k h). apply in_or_app; auto. }
    destruct (skipn k h) as [| a t] eqn:E; [congruence |]. cbn. apply R2. apply in_map. apply Sub. left. auto. }
  cbn [filter]. rewrite (F q Q). apply IH; auto. unfold rising in *. cbn in R. inversion R; auto.
Qed.

Lemma held_watched : forall ts h l, rising h -> (forall p, In p l -> In p h) ->
  held ts h (map fst (filter (fun p => matches ts (snd p)) l)) = watched ts l.
Proof.
  intros ts h. induction l as [| p l IH]; intros R Sub; cbn [filter map]; auto.
  assert (watched ts (p :: l) = filter (fun e : ev => has (fst e) ts) (snd p) ++ watched ts l) as E by reflexivity.
  rewrite E. rewrite <- IH by (auto; intros q J; apply Sub; right; auto).
  destruct (matches ts (snd p)) eqn:M.
  - cbn [map]. unfold held. cbn [flat_map]. f_equal.
    rewrite (in_look h (fst p) (snd p)); auto. apply Sub. left. destruct p; auto.
  - rewrite (no_match ts _ M). auto.
Qed.

Definition keep_of (start last : Z) (p : Z * list ev) : bool := (start <=? fst p) && negb (fst p =? last).

Lemma keep_split : forall start last h, filter (keep_of start last) h = but last (from start h).
Proof.
  intros start last. unfold but, from. induction h as [| p h IH]; cbn; auto. unfold keep_of at 1.
  destruct (start <=? fst p); cbn; rewrite IH; auto. 
Qed.

Lemma keep_range : forall start h, rising h -> filter (keep_of start (last_key h)) h = range h start (last_key h).
Proof.
  intros start h R. unfold range. apply filter_ext_in. intros p I. unfold keep_of. f_equal.
  pose proof (keys_last h (fst p) R (in_map fst _ _ I)).
  destruct (fst p =? last_key h) eqn:A, (fst p <? last_key h) eqn:B; cbn; auto.
  - apply Z.eqb_eq in A. apply Z.ltb_lt in B. lia.
  - apply Z.eqb_neq in A. apply Z.ltb_ge in B. lia.
Qed.

(** The two steps of a creation. *)
Definition made (s : state) (start : Z) (ts : list nat) : state := act (act s (ECreate start ts)) ESupply.

Definition more (s : state) (start : Z) (ts : list nat) : list Z :=
  map fst (filter (fun p => matches ts (snd p)) (range (em s) start (last_key (em s)))).

Lemma made_is : forall s start ts, nd s = None -> 0 < start -> first_key (em s) <= start ->
  (forall p t, range (em s) start (last_key (em s)) = p :: t -> fst p <= start) ->
  made s start ts = say (set_nd s (Some (mkN start ts (more s start ts) [] false))) Created.
Proof.
  intros s start ts N P F R. unfold made. cbn [act]. rewrite N. unfold create.
  replace (start <? 0) with false by (symmetry; apply Z.ltb_ge; lia).
  replace (start <? first_key (em s)) with false by (symmetry; apply Z.ltb_ge; lia).
  rewrite andb_false_r. replace (start =? 0) with false by (symmetry; apply Z.eqb_neq; lia).
  unfold supply. cbn [nd set_nd nnew nstart ntypes npend nwait em]. unfold more.
  destruct (range (em s) start (last_key (em s))) as [| p t] eqn:E; [reflexivity |].
  replace (start <? fst p) with false by (symmetry; apply Z.ltb_ge; apply (R p t); auto).
  rewrite app_nil_r. reflexivity.
Qed.

Lemma made_cases : forall s start ts, nd s = None -> 0 < start ->
  (exists r, In r (kept s) /\ start < r /\ nd (made s start ts) = None /\
     cres (made s start ts) = cres s ++ [Compacted r]) \/
  (made s start ts = say (set_nd s (Some (mkN start ts (more s start ts) [] false))) Created /\
     first_key (em s) <= start).
Proof.
  intros s start ts N P. destruct (Z_lt_le_dec start (first_key (em s))) as [L | L].
  - left. exists (first_key (em s)). destruct (em s) as [| p t] eqn:E; [cbn in L; lia |].
    split; [unfold kept; rewrite E; left; auto |]. split; auto.
    unfold made. cbn [act]. rewrite N. unfold create. rewrite E.
    replace (start <? 0) with false by (symmetry; apply Z.ltb_ge; lia).
    replace (0 <? start) with true by (symmetry; apply Z.ltb_lt; lia).
    replace (start <? first_key (p :: t)) with true by (symmetry; apply Z.ltb_lt; lia).
    cbn. unfold supply. cbn. rewrite N. auto.
  - destruct (range (em s) start (last_key (em s))) as [| p t] eqn:E.
    + right. split; auto. apply made_is; auto. rewrite E. discriminate.
    + destruct (Z_lt_le_dec start (fst p)) as [G | G].
      * left. exists (fst p).
        assert (In p (em s)) as I.
        { assert (In p (range (em s) start (last_key (em s)))) as J by (rewrite E; left; auto).
          unfold range in J. apply filter_In in J. tauto. }
        split; [unfold kept; apply in_map; auto |]. split; auto.
        unfold made. cbn [act]. rewrite N. unfold create.
        replace (start <? 0) with false by (symmetry; apply Z.ltb_ge; lia).
        replace (start <? first_key (em s)) with false by (symmetry; apply Z.ltb_ge; lia).
        rewrite andb_false_r. replace (start =? 0) with false by (symmetry; apply Z.eqb_neq; lia).
        unfold supply. cbn [nd set_nd nnew nstart ntypes npend nwait em]. rewrite E.
        replace (start <? fst p) with true by (symmetry; apply Z.ltb_lt; lia). auto.
      * right. split; auto. apply made_is; auto. rewrite E. intros q u H. injection H as <- <-. auto.
Qed.

Lemma held_creates : forall es start ts,
  let s := run begin es in nd s = None -> In start (kept s) -> 0 < start ->
  nd (made s start ts) <> None /\ cres (made s start ts) = cres s ++ [Created].
Proof.
  cbv zeta. intros es start ts N I P. set (s := run begin es) in *.
  assert (inv s) as V by (apply inv_run, inv_begin). pose proof (em_rising s V) as R.
  rewrite made_is; auto.
  - cbn. split; [discriminate | auto].
  - unfold kept in I. apply in_map_iff in I. destruct I as [p [<- I]]. apply first_least; auto.
  - intros p t E. unfold kept in I. apply in_map_iff in I. destruct I as [q [<- I]].
    destruct (Z_lt_le_dec (fst q) (fst p)) as [L |]; auto. exfalso.
    assert (In p (range (em s) (fst q) (last_key (em s)))) as Jp by (rewrite E; left; auto).
    assert (In q (range (em s) (fst q) (last_key (em s)))) as J.
    { unfold range in *. apply filter_In in Jp. destruct Jp as [Ip Cp]. apply andb_true_iff in Cp.
      destruct Cp as [_ Cp]. apply Z.ltb_lt in Cp. apply filter_In. split; auto. apply andb_true_iff.
      split; [apply Z.leb_le; lia | apply Z.ltb_lt; lia]. }
    assert (rising (range (em s) (fst q) (last_key (em s)))) as Rr.
    { clear -R. unfold range. generalize (fst q), (last_key (em s)). intros a b. unfold rising in *.
      induction (em s) as [| x l IH]; cbn; auto. inversion R as [| ? ? R1 R2]; subst.
      destruct ((a <=? fst x) && (fst x <? b)); auto. cbn. constructor; auto.
      rewrite Forall_forall in *. intros y J. apply R2. apply in_map_iff in J. destruct J as [z [<- J]].
      apply filter_In in J. apply in_map. tauto. }
    pose proof (first_least _ _ Rr J) as Lq. rewrite E in Lq. cbn in Lq. lia.
Qed.

Lemma all_kept : forall es start ts,
  let s := run begin es in nd s = None -> 0 < start <= last_key (em s) ->
  nd (made s start ts) <> None ->
  forall p, In p (hist s) -> start <= fst p -> In p (em s).
Proof.
  cbv zeta. intros es start ts N [P L] Live p I Lp. set (s := run begin es) in *.
  assert (inv s) as V by (apply inv_run, inv_begin).
  destruct (made_cases s start ts N P) as [[r [_ [_ [C _]]]] | [_ F]]; [congruence |].
  destruct (i_em s V) as [k E]. rewrite E in *.
  assert (skipn k (hist s) <> []) as Ne by (intros C; rewrite C in L; cbn in L; lia).
  destruct (dropped_old k (hist s) p (i_rise s V) Ne I) as [J | J]; auto. lia.
Qed.

Lemma refused_names : forall es start ts,
  let s := run begin es in nd s = None -> 0 < start ->
  nd (made s start ts) = None ->
  exists r, cres (made s start ts) = cres s ++ [Compacted r] /\ In r (kept s) /\ start < r.
Proof.
  cbv zeta. intros es start ts N P C.
  destruct (made_cases (run begin es) start ts N P) as [[r [A [B [D E]]]] | [E _]].
  - exists r. auto.
  - rewrite E in C. cbn in C. discriminate.
Qed.

Lemma last_rev : forall s, inv s -> last_key (em s) <= rev s.
Proof.
  intros s V. destruct (em s) as [| p t] eqn:E; [cbn; apply i_rev; auto |].
  assert (In (last_key (em s)) (map fst (em s))) as I by (apply last_in; rewrite E; discriminate).
  apply in_map_iff in I. destruct I as [q [Eq I]]. apply em_hist in I; auto.
  apply (i_key s V) in I. rewrite <- E. lia.
Qed.

Lemma watch_from : forall es1 start ts es2,
  let s1 := run begin es1 in let s := run (made s1 start ts) es2 in
  nd s1 = None -> 0 < start <= last_key (em s1) -> goes_on es2 ->
  never_cancelled (since s1 s) ->
  let all := watched ts (but (last_key (em s1)) (from start (hist s))) in
  (exists rest, all = brought (since s1 s) ++ rest) /\
  (listening s -> brought (since s1 s) = all) /\
  (never_cancelled (since s1 (act s EProgress)) -> brought (since s1 (act s EProgress)) = all).
Proof.
  cbv zeta. intros es1 start ts es2 N [P L] G Never.
  set (s1 := run begin es1) in *.
  assert (inv s1) as V by (apply inv_run, inv_begin).
  pose proof (last_rev s1 V) as Lr. pose proof (em_rising s1 V) as Re.
  assert (inv (made s1 start ts)) as V2 by (apply inv_act, inv_act; auto).
  rewrite <- keep_split.
  assert (forall p, rev s1 < fst p -> keep_of start (last_key (em s1)) p = true) as KP.
  { intros p H. unfold keep_of. apply andb_true_iff. split; [apply Z.leb_le; lia |].
    apply negb_true_iff. apply Z.eqb_neq. lia. }
  apply (told'_end ts (keep_of start (last_key (em s1))) (rev s1)); auto; [apply inv_run; auto |].
  apply told'_run; auto.
  destruct (made_cases s1 start ts N P) as [[r [_ [_ [C E]]]] | [E F]].
  { right. split; auto. assert (outs (made s1 start ts) = outs s1) as Eo.
    { revert C. unfold made. cbn [act]. rewrite N. unfold create.
      destruct (start <? 0); [unfold supply; cbn; rewrite N; auto |].
      destruct ((0 <? start) && (start <? first_key (em s1))); [unfold supply; cbn; rewrite N; auto |].
      destruct (start =? 0); unfold supply; cbn [nd set_nd say nnew nstart ntypes npend nwait em]; auto.
      destruct (range (em s1) start (last_key (em s1))); auto. destruct (start <? fst p); auto. }
    split; [| exists []; rewrite app_nil_r; auto].
    unfold since. rewrite Eo, skipn_all. cbn [brought flat_map app]. eexists. reflexivity. }
  left. rewrite E. constructor; cbn [nd set_nd say rev outs hist].
  - eexists. split; [reflexivity |]. cbn [ntypes nnew nstart npend nwait].
    split; [auto |]. split; [auto |]. split; [lia |].
    assert (forall p, In p (range (em s1) start (last_key (em s1))) -> In p (hist s1)) as Sub.
    { intros p J. unfold range in J. apply filter_In in J. apply em_hist; tauto. }
    split.
    + intros r J. unfold more in J. apply in_map_iff in J. destruct J as [p [<- J]]. apply filter_In in J.
      apply in_map. apply Sub. tauto.
    + split; [congruence |]. unfold more. rewrite held_watched; auto; [| apply i_rise; auto].
      unfold since. cbn [outs set_nd say]. rewrite skipn_all. cbn [brought flat_map app].
      f_equal. rewrite <- keep_range by auto.
      destruct (i_em s1 V) as [k Ek].
      assert (em s1 <> []) as Ne by (intros C; rewrite C in L; cbn in L; lia).
      rewrite Ek in Ne. rewrite Ek at 3.
      apply old_filter; auto; [apply i_rise; auto |].
      intros p H. unfold keep_of. apply andb_false_iff. left. apply Z.leb_gt. rewrite <- Ek in H. lia.
  - lia.
  - exists []. rewrite app_nil_r. auto.
Qed.
