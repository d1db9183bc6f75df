(** Proofs about periodic jobs: they go on. *)
Require Import List Bool PeanoNat Lia.
From Verif Require Import CrModel CrSpec CrProofs.
Import ListNotations.

Record alive (j : job) : Prop := mkAl {
  al_pause : pause j = false;
  al_gone : gone j = false;
  al_runs : runs j = count j + active j;
  al_live : wanted (maxt j) j -> 1 <= queued j + length (pend j) + active j }.

Lemma rearm_alive : forall j, pause j = false -> gone j = false -> runs j = count j + active j -> alive (rearm j).
Proof.
  intros j P G R. unfold rearm. destruct ((maxt j =? 0) || (count j <? maxt j)) eqn:E.
  - constructor; cbn; auto. intros _. lia.
  - apply orb_false_iff in E. rewrite Nat.eqb_neq, Nat.ltb_ge in E.
    constructor; cbn; auto. unfold wanted. cbn. lia.
Qed.

Lemma begin_alive : forall j, pause j = false -> gone j = false -> runs j = count j + active j -> alive (begin_run j).
Proof.
  intros j P G R. unfold begin_run. rewrite P. destruct (imm j); [destruct (async j) |].
  - apply rearm_alive; cbn; auto.
  - constructor; cbn; auto; try lia.
  - apply rearm_alive; cbn; auto.
Qed.

Lemma alive_act : forall j e, alive j -> e <> EPause -> e <> EDestroy -> alive (act j e).
Proof.
  intros j e Al NP ND. pose proof Al as [P G R L].
  destruct e; cbn [act]; try congruence.
  - rewrite G. constructor; cbn; auto; intros _; lia.
  - destruct (queued j); auto. apply begin_alive; cbn; auto.
  - destruct (existsb (Nat.eqb t) (pend j)); auto. apply begin_alive; cbn; auto.
  - destruct (active j) as [| a] eqn:A; auto. unfold end_run. apply rearm_alive; cbn; rewrite ?A; auto. cbn. lia.
  - constructor; cbn; auto.
Qed.

Lemma alive_run : forall es j, alive j -> ~ In EPause es -> ~ In EDestroy es -> alive (run j es).
Proof.
  induction es as [| e es IH]; intros j A P D; auto. cbn in *. apply IH; try tauto.
  apply alive_act; auto; intros ->; tauto.
Qed.

Lemma alive_start : forall a i m, alive (started a i m).
Proof. intros a i m. constructor; cbn; auto. Qed.

Lemma rearm_more : forall j, maxt j = 0 \/ count j < maxt j ->
  rearm j = mkJ (async j) (imm j) (maxt j) (count j) (pause j) (Some (next j)) (next j :: pend j) (S (next j))
              (queued j) (active j) (bodies j) (gone j) (runs j) (touched j || gone j).
Proof.
  intros j H. unfold rearm.
  replace ((maxt j =? 0) || (count j <? maxt j)) with true; auto.
  symmetry. apply orb_true_iff. rewrite Nat.eqb_eq, Nat.ltb_lt. exact H.
Qed.

Lemma rearm_runs : forall j, runs (rearm j) = runs j.
Proof. intros j. unfold rearm. destruct ((maxt j =? 0) || (count j <? maxt j)); reflexivity. Qed.

Lemma begin_imm : forall j, pause j = false -> imm j = true -> runs (begin_run j) = S (runs j).
Proof.
  intros j P I. unfold begin_run. rewrite P, I. destruct (async j); [rewrite rearm_runs |]; reflexivity.
Qed.

Lemma own : forall es, (forall e, In e es -> e <> EStart /\ e <> EPause /\ e <> EDestroy) -> by_itself es.
Proof. intros es H. repeat split; intros C; destruct (H _ C) as [A [B D]]; congruence. Qed.

(** A run that begins leads to one more run of the function. *)
Lemma begin_more : forall j, pause j = false -> maxt j = 0 \/ count j < maxt j ->
  exists es, by_itself es /\ runs (run (begin_run j) es) = S (runs j).
Proof.
  intros j P M. destruct (imm j) eqn:I.
  - exists []. split; [apply own; intros e [] |]. cbn. apply begin_imm; auto.
  - exists [EFire (next j)]. split; [apply own; intros e [<- | []]; repeat split; discriminate |].
    unfold begin_run at 1. rewrite P, I. rewrite rearm_more by exact M. cbn [run fold_left act pend existsb].
    cbn [async imm maxt count pause tid pend next queued active bodies gone runs touched].
    rewrite Nat.eqb_refl. cbn [orb]. rewrite begin_imm; cbn; auto.
Qed.

Lemma fire_more : forall j t, pause j = false -> maxt j = 0 \/ count j < maxt j -> In t (pend j) ->
  exists es, by_itself es /\ runs (run j es) = S (runs j).
Proof.
  intros j t P M I.
  destruct (begin_more (mkJ (async j) (imm j) (maxt j) (count j) (pause j) (tid j) (drop t (pend j)) (next j)
              (queued j) (active j) (bodies j) (gone j) (runs j) (touched j)) P M) as [es [[A [B C]] D]].
  exists (EFire t :: es). split.
  - repeat split; intros [H | H]; congruence || auto.
  - cbn [run fold_left act].
    replace (existsb (Nat.eqb t) (pend j)) with true; [exact D |].
    symmetry. apply existsb_exists. exists t. split; auto. apply Nat.eqb_refl.
Qed.

Lemma queued_more : forall j, pause j = false -> maxt j = 0 \/ count j < maxt j -> 1 <= queued j ->
  exists es, by_itself es /\ runs (run j es) = S (runs j).
Proof.
  intros j P M Q. destruct (queued j) as [| q] eqn:E; [lia |].
  destruct (begin_more (mkJ (async j) (imm j) (maxt j) (count j) (pause j) (tid j) (pend j) (next j)
              q (active j) (bodies j) (gone j) (runs j) (touched j)) P M) as [es [[A [B C]] D]].
  exists (EBegin :: es). split.
  - repeat split; intros [H | H]; congruence || auto.
  - cbn [run fold_left act]. rewrite E. exact D.
Qed.

Lemma alive_more : forall j, alive j -> wanted (maxt j) j ->
  exists es, by_itself es /\ runs (run j es) = S (runs j).
Proof.
  intros j [P G R L] W. specialize (L W). unfold wanted in W.
  destruct (queued j) as [| q] eqn:Q; [| apply queued_more; auto; lia].
  destruct (pend j) as [| t l] eqn:E; [| apply (fire_more j t); auto; [lia | rewrite E; left; reflexivity]].
  destruct (active j) as [| a] eqn:A; [cbn in L; lia |].
  assert (maxt j = 0 \/ S (count j) < maxt j \/ S (count j) = runs j /\ runs j < maxt j) as M by lia.
  assert (maxt j = 0 \/ S (count j) < maxt j) as M' by lia.
  assert (act j EEnd = mkJ (async j) (imm j) (maxt j) (S (count j)) (pause j) (Some (next j)) (next j :: pend j)
            (S (next j)) (queued j) (pred (active j)) (bodies j) (gone j) (runs j) (touched j || gone j)) as X.
  { cbn [act]. rewrite A. unfold end_run. rewrite rearm_more by exact M'. cbn. rewrite A. reflexivity. }
  destruct (fire_more (act j EEnd) (next j)) as [es [[A1 [B1 C1]] D1]].
  - rewrite X. exact P.
  - rewrite X. exact M'.
  - rewrite X. left. reflexivity.
  - exists (EEnd :: es). split.
    + repeat split; intros [H | H]; congruence || auto.
    + change (run j (EEnd :: es)) with (run (act j EEnd) es). rewrite D1, X. reflexivity.
Qed.

Lemma goes_on : forall a i m es, ~ In EPause es -> ~ In EDestroy es ->
  let j := run (started a i m) es in wanted m j ->
  exists es', by_itself es' /\ runs (run j es') = S (runs j).
Proof.
  cbv zeta. intros a i m es P D W. apply alive_more.
  - apply alive_run; auto. apply alive_start.
  - destruct (async_run es (started a i m)) as [_ B]. rewrite B. exact W.
Qed.

(** Every run of the function that has begun is counted when it has ended. *)
Lemma counted : forall j e, runs j = count j + active j -> runs (act j e) = count (act j e) + active (act j e).
Proof.
  intros j e R.
  assert (forall x, runs x = count x + active x -> runs (rearm x) = count (rearm x) + active (rearm x)) as Ra.
  { intros x Rx. unfold rearm. destruct ((maxt x =? 0) || (count x <? maxt x)); auto. }
  assert (forall x, runs x = count x + active x -> runs (begin_run x) = count (begin_run x) + active (begin_run x)) as Ba.
  { intros x Rx. unfold begin_run. destruct (pause x); auto.
    destruct (imm x); [destruct (async x) |]; try (apply Ra; cbn; lia); cbn; lia. }
  destruct e; cbn [act]; auto.
  - destruct (gone j); auto.
  - destruct (gone j); auto.
  - destruct (queued j); auto; apply Ba; auto.
  - destruct (existsb (Nat.eqb t) (pend j)); auto; apply Ba; auto.
  - destruct (active j) eqn:A; [cbn; lia |]. unfold end_run. apply Ra. cbn. rewrite A. cbn. lia.
Qed.

Lemma counted_run : forall es j, runs j = count j + active j ->
  runs (run j es) = count (run j es) + active (run j es).
Proof. induction es as [| e es IH]; intros j R; auto. cbn. apply IH. apply counted. exact R. Qed.

Lemma start_goes_on : forall a i m es,
  let j := run (started a i m) es in gone j = false -> wanted m j ->
  exists es', by_itself es' /\ runs (run (act j EStart) es') = S (runs j).
Proof.
  cbv zeta. intros a i m es G W.
  destruct (async_run es (started a i m)) as [_ B]. change (maxt (started a i m)) with m in B.
  pose proof (counted_run es (started a i m) eq_refl) as R.
  revert G W B R. generalize (run (started a i m) es). intros j G W B R. unfold wanted in W.
  destruct (queued_more (act j EStart)) as [es' [X Y]]; cbn [act]; rewrite ?G; cbn; try lia; auto.
  exists es'. split; [exact X |]. cbn [act] in Y. rewrite G in Y. exact Y.
Qed.
