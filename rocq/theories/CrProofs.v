(** Proofs about periodic jobs. *)
Require Import List Bool PeanoNat Lia.
From Verif Require Import CrModel CrSpec.
Import ListNotations.

Lemma drop_less : forall t l, length (drop t l) <= length l.
Proof. intros t l. unfold drop. induction l as [| x l IH]; cbn; auto. destruct (negb (Nat.eqb x t)); cbn; lia. Qed.

(** One run, timer or start at a time. *)
Record single (j : job) : Prop := mkSg {
  sg_one : queued j + length (pend j) + active j <= 1;
  sg_tid : forall t, In t (pend j) -> tid j = Some t;
  sg_runs : runs j = count j + active j;
  sg_more : 1 <= queued j + length (pend j) + active j -> maxt j = 0 \/ count j < maxt j;
  sg_most : maxt j = 0 \/ count j <= maxt j;
  sg_sync : async j = false -> bodies j = 0 }.

Lemma rearm_single : forall j,
  queued j = 0 -> pend j = [] -> active j = 0 -> runs j = count j -> (maxt j = 0 \/ count j <= maxt j) ->
  (async j = false -> bodies j = 0) -> single (rearm j).
Proof.
  intros j Q P A R M S. unfold rearm.
  destruct ((maxt j =? 0) || (count j <? maxt j)) eqn:E.
  - assert (maxt j = 0 \/ count j < maxt j) as E'.
    { apply orb_true_iff in E. rewrite Nat.eqb_eq, Nat.ltb_lt in E. exact E. }
    constructor; cbn; rewrite ?Q, ?P, ?A; cbn; auto; try lia.
    intros t [<- | []]. reflexivity.
  - constructor; cbn; rewrite ?Q, ?P, ?A; cbn; auto; try lia.
    all: try (intros t []; fail).
Qed.

Lemma begin_single : forall j,
  queued j = 0 -> pend j = [] -> active j = 0 -> runs j = count j -> (maxt j = 0 \/ count j < maxt j) ->
  (async j = false -> bodies j = 0) -> single (begin_run j).
Proof.
  intros j Q P A R M S. unfold begin_run. destruct (pause j).
  - constructor; cbn; rewrite ?Q, ?P, ?A; cbn; auto; try lia. all: try (intros t []; fail).
  - destruct (imm j); [destruct (async j) eqn:Y |].
    + apply rearm_single; cbn; auto; try lia; try discriminate.
    + constructor; cbn; rewrite ?Q, ?P, ?A; cbn; auto; try lia. all: try (intros t []; fail).
    + apply rearm_single; cbn; auto; lia.
Qed.

Lemma drop_single : forall t l, In t l -> length l <= 1 -> drop t l = [].
Proof.
  intros t [| x [| y l]] I L; cbn in *; auto; [| lia]. destruct I as [<- | []].
  unfold drop. cbn. rewrite Nat.eqb_refl. reflexivity.
Qed.

Lemma del_single : forall j, single j -> pend (del_timer j) = [].
Proof.
  intros j [O T _ _ _ _]. cbn. destruct (pend j) as [| x l] eqn:P; [destruct (tid j); reflexivity |].
  rewrite (T x (or_introl eq_refl)). apply drop_single; [left; reflexivity |]. cbn in *. lia.
Qed.

Lemma single_act : forall j e, single j -> e <> EStart -> single (act j e).
Proof.
  intros j e Sg NS. pose proof Sg as [O T R Mo Ms Sy]. pose proof (del_single j Sg) as D.
  destruct e; cbn [act]; [congruence | | | | | |].
  - destruct (gone j); auto.
    constructor; cbn [queued pend active tid runs count maxt async bodies]; rewrite ?D; cbn; auto; try lia.
    all: try (intros t []; fail); intros H; apply Mo; lia.
  - constructor; cbn [queued pend active tid runs count maxt async bodies]; rewrite ?D; cbn; auto; try lia.
    all: try (intros t []; fail); intros H; apply Mo; lia.
  - destruct (queued j) as [| q] eqn:Q; auto.
    assert (pend j = []) as P by (destruct (pend j); auto; cbn in O; lia).
    apply begin_single; cbn; auto; lia.
  - destruct (existsb (Nat.eqb t) (pend j)) eqn:X; auto.
    apply existsb_exists in X. destruct X as [y [I E]]. apply Nat.eqb_eq in E. subst y.
    assert (1 <= length (pend j)) as L1 by (destruct (pend j); [contradiction | cbn; lia]).
    apply begin_single; cbn; auto; try lia.
    apply drop_single; auto. lia.
  - destruct (active j) as [| a] eqn:A; auto.
    assert (pend j = []) as P by (destruct (pend j); auto; cbn in O; lia).
    unfold end_run. apply rearm_single; cbn; rewrite ?A; auto; try lia.
  - constructor; cbn; auto. intros H. rewrite (Sy H). reflexivity.
Qed.

Lemma single_start : forall a i m, single (started a i m).
Proof.
  intros a i m. constructor; cbn; auto; try lia. all: try (intros t []; fail).
Qed.

Lemma single_run : forall es j, single j -> no_start es -> single (run j es).
Proof.
  induction es as [| e es IH]; intros j S N; auto. cbn. apply IH.
  - apply single_act; auto. intros ->. apply N. left. reflexivity.
  - intros C. apply N. right. exact C.
Qed.

Lemma async_kept : forall j e, async (act j e) = async j /\ maxt (act j e) = maxt j.
Proof.
  intros j e.
  assert (forall x, async (rearm x) = async x /\ maxt (rearm x) = maxt x) as Ra.
  { intros x. unfold rearm. destruct ((maxt x =? 0) || (count x <? maxt x)); auto. }
  assert (forall x, async (begin_run x) = async x /\ maxt (begin_run x) = maxt x) as Ba.
  { intros x. unfold begin_run. destruct (pause x); auto. destruct (imm x); [destruct (async x) eqn:Y |]; auto.
    - destruct (Ra (mkJ true true (maxt x) (S (count x)) false (tid x) (pend x) (next x) (queued x)
        (active x) (S (bodies x)) (gone x) (S (runs x)) (touched x || gone x))) as [A B].
      match goal with |- async (rearm ?y) = _ /\ _ => destruct (Ra y) as [A' B'] end. cbn in *. auto.
    - match goal with |- async (rearm ?y) = _ /\ _ => destruct (Ra y) as [A' B'] end. cbn in *. auto. }
  destruct e; cbn [act]; auto.
  - destruct (gone j); auto.
  - destruct (gone j); auto.
  - destruct (queued j) as [| q]; auto.
    match goal with |- async (begin_run ?y) = _ /\ _ => destruct (Ba y) as [A' B'] end. cbn in *. auto.
  - destruct (existsb (Nat.eqb t) (pend j)); auto.
    match goal with |- async (begin_run ?y) = _ /\ _ => destruct (Ba y) as [A' B'] end. cbn in *. auto.
  - destruct (active j); auto. unfold end_run.
    match goal with |- async (rearm ?y) = _ /\ _ => destruct (Ra y) as [A' B'] end. cbn in *. auto.
Qed.

Lemma async_run : forall es j, async (run j es) = async j /\ maxt (run j es) = maxt j.
Proof.
  induction es as [| e es IH]; intros j; auto. cbn. destruct (IH (act j e)) as [A B].
  destruct (async_kept j e) as [C D]. unfold run in *. rewrite A, B. auto.
Qed.

Lemma once_and_limit : forall i m es, no_start es ->
  at_once (run (started false i m) es) <= 1 /\
  (0 < m -> runs (run (started false i m) es) <= m).
Proof.
  intros i m es N. pose proof (single_run es _ (single_start false i m) N) as Sg.
  destruct (async_run es (started false i m)) as [A B].
  change (async (started false i m)) with false in A. change (maxt (started false i m)) with m in B.
  revert Sg A B. generalize (run (started false i m) es). intros j [O T R Mo Ms Sy] A B.
  unfold at_once. rewrite (Sy A). split; [lia |]. intros P. rewrite R.
  destruct (active j) as [| a]; lia.
Qed.

Lemma limit_async : forall a i m es, no_start es -> 0 < m -> runs (run (started a i m) es) <= m.
Proof.
  intros a i m es N. pose proof (single_run es _ (single_start a i m) N) as Sg.
  destruct (async_run es (started a i m)) as [A B]. change (maxt (started a i m)) with m in B.
  revert Sg A B. generalize (run (started a i m) es). intros j [O T R Mo Ms Sy] A B P. rewrite R.
  destruct (active j) as [| k]; lia.
Qed.

(** * Paused *)
Lemma paused_act : forall j e, pause j = true -> e <> EStart -> pause (act j e) = true /\ runs (act j e) = runs j.
Proof.
  intros j e P NS.
  assert (forall x, pause (rearm x) = pause x /\ runs (rearm x) = runs x) as Ra.
  { intros x. unfold rearm. destruct ((maxt x =? 0) || (count x <? maxt x)); auto. }
  destruct e; cbn [act]; [congruence | | | | | |]; auto.
  - destruct (gone j); auto.
  - destruct (queued j); auto. unfold begin_run. cbn. rewrite P. auto.
  - destruct (existsb (Nat.eqb t) (pend j)); auto. unfold begin_run. cbn. rewrite P. auto.
  - destruct (active j); auto. unfold end_run.
    match goal with |- pause (rearm ?y) = _ /\ _ => destruct (Ra y) as [A B] end. cbn in *. rewrite A, B. auto.
Qed.

Lemma paused_run : forall es j, pause j = true -> no_start es -> runs (run j es) = runs j.
Proof.
  induction es as [| e es IH]; intros j P N; auto. cbn.
  destruct (paused_act j e P) as [A B]; [intros ->; apply N; left; reflexivity |].
  unfold run in *. rewrite IH; auto. intros C. apply N. right. exact C.
Qed.

Lemma after_pause : forall j es, gone j = false -> no_start es -> runs (run (act j EPause) es) = runs j.
Proof.
  intros j es G N. rewrite paused_run; auto; cbn [act]; rewrite G; reflexivity.
Qed.

(** * Destroyed *)
Lemma still : forall es j, queued j = 0 -> pend j = [] -> active j = 0 -> gone j = true ->
  runs (run j es) = runs j /\ touched (run j es) = touched j.
Proof.
  induction es as [| e es IH]; intros j Q P A G; auto. cbn.
  assert (queued (act j e) = 0 /\ pend (act j e) = [] /\ active (act j e) = 0 /\ gone (act j e) = true /\
          runs (act j e) = runs j /\ touched (act j e) = touched j) as [B1 [B2 [B3 [B4 [B5 B6]]]]].
  { destruct e; cbn [act]; rewrite ?G, ?Q, ?A; auto 8.
    - cbn. rewrite P. destruct (tid j); auto 8.
    - rewrite P. cbn. auto 8. }
  destruct (IH (act j e) B1 B2 B3 B4) as [C D]. unfold run in *. rewrite C, D. auto.
Qed.

Lemma after_destroy : forall a i m es es', no_start es -> ~ In EDestroy es ->
  let j := run (started a i m) es in quiet j -> touched j = false ->
  runs (run (act j EDestroy) es') = runs j /\ touched (run (act j EDestroy) es') = false.
Proof.
  cbv zeta. intros a i m es es' N _ [Q A] T.
  pose proof (single_run es _ (single_start a i m) N) as Sg.
  destruct (still es' (act (run (started a i m) es) EDestroy)) as [B C]; auto.
  - apply (del_single _ Sg).
  - rewrite B, C. auto.
Qed.

Lemma untouched_before : forall es j, gone j = false -> touched j = false -> ~ In EDestroy es ->
  touched (run j es) = false /\ gone (run j es) = false.
Proof.
  induction es as [| e es IH]; intros j G T N; auto. cbn. apply IH.
  - assert (forall x, gone (rearm x) = gone x) as Ra by (intros x; unfold rearm; destruct ((maxt x =? 0) || (count x <? maxt x)); auto).
    assert (forall x, gone (begin_run x) = gone x) as Ba.
    { intros x. unfold begin_run. destruct (pause x); auto. destruct (imm x); [destruct (async x) |]; rewrite ?Ra; auto. }
    destruct e; cbn [act]; rewrite ?G; auto.
    + exfalso. apply N. left. reflexivity.
    + destruct (queued j); auto; rewrite Ba; auto.
    + destruct (existsb (Nat.eqb t) (pend j)); auto; rewrite Ba; auto.
    + destruct (active j); auto; unfold end_run; rewrite Ra; auto.
  - assert (forall x, gone x = false -> touched x = false -> touched (rearm x) = false) as Ra.
    { intros x Gx Tx. unfold rearm. destruct ((maxt x =? 0) || (count x <? maxt x)); cbn; rewrite Gx, Tx; auto. }
    assert (forall x, gone x = false -> touched x = false -> touched (begin_run x) = false) as Ba.
    { intros x Gx Tx. unfold begin_run. rewrite Gx, Tx.
      destruct (pause x); auto. destruct (imm x); [destruct (async x) |]; auto; apply Ra; auto. }
    destruct e; cbn [act]; rewrite ?G; auto.
    + destruct (queued j); auto; apply Ba; auto.
    + destruct (existsb (Nat.eqb t) (pend j)); auto; apply Ba; auto.
    + destruct (active j); auto; unfold end_run; apply Ra; auto.
  - intros C. apply N. right. exact C.
Qed.

Lemma destroyed_quiet : forall a i m es es', no_start es -> ~ In EDestroy es ->
  let j := run (started a i m) es in quiet j ->
  runs (run (act j EDestroy) es') = runs j /\ touched (run (act j EDestroy) es') = false.
Proof.
  cbv zeta. intros a i m es es' N D Q. apply after_destroy; auto.
  apply (untouched_before es (started a i m)); auto.
Qed.
