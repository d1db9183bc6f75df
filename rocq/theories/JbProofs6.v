(** * Lemmas about jobs: after a failure *)

From Coq Require Import ZArith List Bool Arith Lia Permutation.
From Verif Require Import JbModel JbSpec JbProofs2 JbProofs3 JbProofs4 JbProofs5.
Import ListNotations.
Local Open Scope Z_scope.

Lemma get_put co j id : get (put co j) id = if j_id j =? id then Some j else get co id.
Proof.
  unfold get, put. cbn. induction (co_jobs co) as [|x l IH]; cbn [put_in find].
  - destruct (j_id j =? id); reflexivity.
  - destruct (j_id x =? j_id j) eqn:E; cbn [find].
    + apply Z.eqb_eq in E. rewrite E. destruct (j_id j =? id); reflexivity.
    + destruct (j_id x =? id) eqn:E2.
      * apply Z.eqb_eq in E2. destruct (j_id j =? id) eqn:E3; [|reflexivity]. apply Z.eqb_eq in E3. apply Z.eqb_neq in E. congruence.
      * exact IH.
Qed.

Lemma get_erase co j ok id id' : get (erase (archive co j ok) id) id' = if id =? id' then None else get co id'.
Proof.
  unfold get, erase, archive. cbn. induction (co_jobs co) as [|x l IH]; cbn [filter find]; [destruct (id =? id'); reflexivity|].
  destruct (j_id x =? id) eqn:E; cbn [negb].
  - rewrite IH. apply Z.eqb_eq in E. rewrite E. destruct (id =? id'); reflexivity.
  - cbn [find]. rewrite IH. destruct (j_id x =? id') eqn:E2; [|reflexivity]. apply Z.eqb_eq in E2. apply Z.eqb_neq in E.
    destruct (id =? id') eqn:E3; [apply Z.eqb_eq in E3; congruence | reflexivity].
Qed.

Definition inc_id (i : inc) : Z :=
  match i with ICreate j | IUpdate j => j_id j | IDelete id | IStatus id _ _ | IMove id _ _ => id end.

Lemma apply_status_id limit co j cid st : forall id, id <> j_id j -> get (apply_status limit co j cid st) id = get co id.
Proof.
  intros id Hne. assert (E : (j_id j =? id) = false) by (apply Z.eqb_neq; congruence).
  unfold apply_status. destruct (find_task j cid) as [step|]; [|reflexivity]. destruct st.
  - destruct (Nat.eqb step (j_next j)); rewrite get_put.
    + assert (Ej : j_id (job_done cid step j) = j_id j) by (unfold job_done; destruct (all_ok _); reflexivity).
      rewrite Ej, E. reflexivity.
    + rewrite E. reflexivity.
  - destruct (need_clean _ _ _); [rewrite get_erase, E; reflexivity|]. rewrite get_put. cbn [job_fail with_next on_task j_id]. rewrite E. reflexivity.
Qed.

(** Other jobs are left alone. *)
Lemma apply_inc_other limit co i co' id :
  inc_id i <> id -> apply_inc limit co i = Some co' -> get co' id = get co id.
Proof.
  intros Hne H. destruct i as [j|j|id'|id' cid st|id' cid st]; cbn in H, Hne.
  - destruct (j_id j =? 0); [discriminate|]. assert (co' = put co j) by congruence. subst co'. rewrite get_put.
    apply Z.eqb_neq in Hne. rewrite Hne. reflexivity.
  - destruct (j_id j =? 0); [discriminate|]. assert (co' = put co j) by congruence. subst co'. rewrite get_put.
    apply Z.eqb_neq in Hne. rewrite Hne. reflexivity.
  - destruct (get co id') as [j|]; [|discriminate]. assert (E : co' = erase (archive co j true) id') by congruence. subst co'.
    rewrite get_erase. apply Z.eqb_neq in Hne. rewrite Hne. reflexivity.
  - destruct (get co id') as [j|] eqn:Eg; [|congruence]. assert (E : co' = apply_status limit co j cid st) by congruence. subst co'.
    destruct (get_In _ _ _ Eg) as [_ Ej]. apply apply_status_id. congruence.
  - destruct (get co id') as [j|] eqn:Eg; [|congruence]. assert (E : co' = apply_move co j cid st) by congruence. subst co'.
    destruct (get_In _ _ _ Eg) as [_ Ej]. unfold apply_move. destruct (find_task j cid); [|reflexivity].
    rewrite get_put. cbn [on_task j_id]. rewrite Ej. apply Z.eqb_neq in Hne. rewrite Hne. reflexivity.
Qed.

(** ** After a failure *)

Section Held.
  Variables (limit : nat) (id cid : Z) (k : nat).

  Definition wok (i : inc) : Prop :=
    match i with
    | ICreate j | IUpdate j => j_id j <> id
    | IDelete id' => id' <> id
    | IStatus id' c Done => id' <> id
    | IStatus id' c Fail => id' = id -> c = cid
    | IMove _ _ _ => True
    end.

  Definition at_step (co : coord) : Prop := forall j, get co id = Some j -> j_next j = k.

  (** The job as it was created: command [cid] alone in step [k]. *)
  Definition alone (B : list job) : Prop :=
    exists j0 t0, In j0 B /\ fresh_job j0 /\ j_id j0 = id /\ nth_error (j_tasks j0) k = Some t0 /\ cmd_at j0 k cid
      /\ length (task_cmds t0) = 1%nat.

  Lemma alone_job A B j :
    NoDup (map j_id B) -> alone B -> vgood A B j -> j_id j = id ->
    exists t c, nth_error (j_tasks j) k = Some t /\ task_cmds t = [c] /\ c_id c = cid
                /\ forall n, cmd_at j n cid -> n = k.
  Proof.
    intros Hn (j0 & t0 & H1 & H2 & H3 & H4 & H5 & H6) V Ej.
    pose proof V as (_ & (j1 & V1 & V2 & V3 & V4) & _).
    assert (j0 = j1) by (apply (born_unique B); try assumption; congruence). subst j1.
    destruct (Forall2_nth_r _ _ _ _ _ V4 H4) as (t & Et & Hs).
    pose proof Hs as Hl. apply Permutation_length in Hl. rewrite !map_length in Hl.
    destruct (proj2 (cmd_at_same j j0 k cid V4) H5) as (t' & c & Et' & Hc & Ec).
    assert (t' = t) by congruence. subst t'. exists t, c. split; [exact Et|]. split.
    - destruct (task_cmds t) as [|x [|y l]]; cbn in Hl; try lia. destruct Hc as [Hc | []]. congruence.
    - split; [exact Ec|]. intros n Hat. apply (cmd_at_unique j0 _ _ cid); [apply H2 | |exact H5].
      apply (cmd_at_same j j0 n cid V4). exact Hat.
  Qed.

  Lemma wok_apply A B co i co' :
    NoDup (map j_id B) -> alone B -> cogood false A B co -> at_step co -> wok i ->
    apply_inc limit co i = Some co' -> at_step co'.
  Proof.
    intros Hn Ha C S W H.
    destruct (Z.eq_dec (inc_id i) id) as [Ei|Ei]; [|intros j Hj; apply S; rewrite (apply_inc_other limit co i co' id Ei H) in Hj; exact Hj].
    destruct i as [j|j|id'|id' c st|id' c st]; cbn in Ei, W, H; try (exfalso; exact (W Ei)).
    - destruct st; [exfalso; exact (W Ei)|]. rewrite Ei in *. specialize (W eq_refl). subst c.
      destruct (get co id) as [j|] eqn:Eg; [|assert (co' = co) by congruence; subst co'; exact S].
      assert (E : co' = apply_status limit co j cid Fail) by congruence. subst co'.
      destruct (get_In _ _ _ Eg) as [Hj Ej]. unfold apply_status.
      destruct (find_task j cid) as [step|] eqn:Ef; [|exact S].
      destruct (alone_job A B j Hn Ha (proj1 C j Hj) Ej) as (t & c & _ & _ & _ & Hu).
      assert (step = k) by (apply Hu; exact (proj1 (find_task_at _ _ _ Ef))). subst step.
      destruct (need_clean _ _ _); intros x Hx.
      + rewrite get_erase, Ej, Z.eqb_refl in Hx. discriminate.
      + rewrite get_put in Hx. cbn [job_fail with_next on_task j_id] in Hx. rewrite Ej, Z.eqb_refl in Hx.
        assert (Ex : x = job_fail cid k j) by congruence. subst x. reflexivity.
    - rewrite Ei in *. destruct (get co id) as [j|] eqn:Eg; [|assert (co' = co) by congruence; subst co'; exact S].
      assert (E : co' = apply_move co j c st) by congruence. subst co'. destruct (get_In _ _ _ Eg) as [Hj Ej].
      unfold apply_move. destruct (find_task j c) as [step|]; [|exact S]. intros x Hx. rewrite get_put in Hx.
      cbn [on_task j_id] in Hx. rewrite Ej, Z.eqb_refl in Hx.
      assert (Ex : x = on_task step (on_ops (move_ops c st)) j) by congruence. subst x. cbn. exact (S j Eg).
  Qed.

  Lemma wok_apply_all A B l : forall co co',
    NoDup (map j_id B) -> alone B -> cogood false A B co -> (forall i, In i l -> incgood false A B i) ->
    at_step co -> (forall i, In i l -> wok i) -> apply_all limit co l = Some co' -> at_step co'.
  Proof.
    induction l as [|i l IH]; intros co co' Hn Ha C G S W H; cbn in H; [assert (co' = co) by congruence; subst co'; exact S|].
    destruct (apply_inc limit co i) as [co1|] eqn:E; [|discriminate].
    apply (IH co1 co' Hn Ha); try assumption.
    - apply (apply_inc_good false limit A B co i co1 Hn C); [apply G; left; reflexivity | exact E].
    - intros i' Hi. apply G. right. exact Hi.
    - apply (wok_apply A B co i co1 Hn Ha C S); [apply W; left; reflexivity | exact E].
    - intros i' Hi. apply W. right. exact Hi.
  Qed.

  Record winv (s : sys) : Prop := mkWinv {
    wi_y : yinv false s;
    wi_alone : alone (y_born s);
    wi_at : at_step (y_co s);
    wi_log : forall m l i, In (m, l) (y_log s) -> In i l -> wok i;
    wi_round : match y_round s with
               | Sending _ todo incs =>
                   (forall i, In i incs -> wok i)
                   /\ (forall st xs x, In (st, xs) todo -> In x xs -> i_job x = id -> c_id (i_cmd x) = cid)
               | _ => True
               end
  }.

  Lemma winv_entry s : winv s -> winv (apply_entry limit s).
  Proof.
    intros [Y A S L R]. pose proof (apply_entry_good false limit s Y) as Y'.
    unfold apply_entry in *. destruct (y_log s) as [|[mine l] r] eqn:El; [constructor; try assumption; rewrite El; assumption|].
    destruct (apply_all limit (y_co s) l) as [co'|] eqn:Ea.
    - constructor; cbn -[In]; try assumption.
      + apply (wok_apply_all (y_acked s) (y_born s) l (y_co s) co'); try assumption.
        * exact (yi_born _ _ Y).
        * exact (yi_co _ _ Y).
        * intros i Hi. apply (yi_log _ _ Y mine l i); [rewrite El; left; reflexivity | exact Hi].
        * intros i Hi. apply (L mine l i (or_introl eq_refl) Hi).
      + intros m l' i Hm Hi. exact (L m l' i (or_intror Hm) Hi).
      + destruct mine; [exact I | exact R].
    - constructor; cbn -[In]; try assumption.
  Qed.

  Lemma winv_entries n : forall s, winv s -> winv (apply_entries limit n s).
  Proof.
    induction n as [|n IH]; intros s H; [exact H|]. cbn [apply_entries]. destruct (y_dead s); [exact H|].
    apply IH. apply winv_entry. exact H.
  Qed.

  Lemma process_job_wok A B v cap j incs m :
    NoDup (map j_id B) -> alone B -> vgood A B j -> (j_id j = id -> j_next j = k) ->
    (forall i, In i incs -> wok i) -> (forall x, sent_in m x -> i_job x = id -> c_id (i_cmd x) = cid) ->
    (forall i, In i (fst (process_job v cap j (incs, m))) -> wok i)
    /\ (forall x, sent_in (snd (process_job v cap j (incs, m))) x -> i_job x = id -> c_id (i_cmd x) = cid).
  Proof.
    intros Hn Ha V Hk Hi Hm. unfold process_job.
    assert (Hj : j_id j = id -> exists t c, nth_error (j_tasks j) (j_next j) = Some t /\ task_cmds t = [c] /\ c_id c = cid).
    { intros E. destruct (alone_job A B j Hn Ha V E) as (t & c & H1 & H2 & H3 & _). exists t, c. rewrite (Hk E).
      split; [exact H1 | split; assumption]. }
    destruct (Nat.eqb (j_next j) (length (j_tasks j))) eqn:En.
    - split; [|exact Hm]. cbn. intros i Hin. apply in_app_or in Hin. destruct Hin as [Hin | [<- | []]]; [exact (Hi i Hin)|].
      cbn. intros E. destruct (Hj E) as (t & c & H1 & _). apply Nat.eqb_eq in En.
      assert (Hx : nth_error (j_tasks j) (j_next j) <> None) by congruence. apply nth_error_Some in Hx. lia.
    - destruct (nth_error (j_tasks j) (j_next j)) as [t|] eqn:Et; [|split; assumption].
      destruct (negb (forallb (check_ok v) (t_ops t))); [split; assumption|].
      destruct (add_sends v cap (items j t) m) as [m' ok] eqn:Ea.
      assert (Hm' : forall x, sent_in m' x -> i_job x = id -> c_id (i_cmd x) = cid).
      { intros x Hx E. destruct (add_sends_In _ _ _ _ _ _ _ Ea Hx) as [Hx' | (st & Hx')]; [exact (Hm x Hx' E)|].
        destruct (items_In _ _ _ _ Hx') as (c & Hc & ->). cbn in E. destruct (Hj E) as (t' & c' & H1 & H2 & H3).
        assert (t' = t) by congruence. subst t'. rewrite H2 in Hc. destruct Hc as [<- | []]. exact H3. }
      destruct (negb ok); [split; assumption|]. destruct (negb (forallb (pv_drop v) (t_drops t))); [split; assumption|].
      destruct (forallb (fun o => match o_cmds o with [] => true | _ => false end) (t_ops t)) eqn:Eempty; [|split; assumption].
      split; [|exact Hm']. cbn. intros i Hin. apply in_app_or in Hin. destruct Hin as [Hin | [<- | []]]; [exact (Hi i Hin)|].
      cbn. intros E. destruct (Hj E) as (t' & c' & H1 & H2 & H3). assert (t' = t) by congruence. subst t'.
      assert (Hc : In c' (task_cmds t)) by (rewrite H2; left; reflexivity). apply task_cmds_In in Hc. destruct Hc as (o & Ho & Hc).
      rewrite forallb_forall in Eempty. specialize (Eempty o Ho). destruct (o_cmds o); [destruct Hc | discriminate].
  Qed.

  Lemma process_wok A B v cap js :
    NoDup (map j_id B) -> alone B -> (forall j, In j js -> vgood A B j /\ (j_id j = id -> j_next j = k)) ->
    (forall i, In i (fst (process v cap js)) -> wok i)
    /\ (forall x, sent_in (snd (process v cap js)) x -> i_job x = id -> c_id (i_cmd x) = cid).
  Proof.
    intros Hn Ha V. unfold process.
    assert (G : forall js a, (forall j, In j js -> vgood A B j /\ (j_id j = id -> j_next j = k)) ->
       (forall i, In i (fst a) -> wok i) -> (forall x, sent_in (snd a) x -> i_job x = id -> c_id (i_cmd x) = cid) ->
       (forall i, In i (fst (fold_left (fun a j => process_job v cap j a) js a)) -> wok i)
       /\ (forall x, sent_in (snd (fold_left (fun a j => process_job v cap j a) js a)) x -> i_job x = id -> c_id (i_cmd x) = cid)).
    { clear js V. induction js as [|j js IH]; intros [incs m] V Hi Hm; [split; assumption|]. cbn [fold_left].
      destruct (V j (or_introl eq_refl)) as [V1 V2].
      destruct (process_job_wok A B v cap j incs m Hn Ha V1 V2 Hi Hm) as [H1 H2].
      apply IH; [intros j' Hj; apply V; right; exact Hj | exact H1 | exact H2]. }
    apply G; [exact V | intros i [] | intros x (st & xs & [] & _)].
  Qed.

  Lemma reply_wok co stores st xs : forall rs,
    length rs = length xs ->
    (forall x, In x xs -> i_job x = id -> c_id (i_cmd x) = cid) ->
    ~ In (id, cid) (acks_of xs (RReply rs)) ->
    forall i, In i (reply_incs co stores st xs rs) -> wok i.
  Proof.
    induction xs as [|x xs IH]; intros [|r rs] Hl Hx Hn i Hi; cbn in Hl; try discriminate; [destruct Hi|].
    cbn [reply_incs] in Hi. cbn [acks_of combine flat_map fst snd] in Hn.
    assert (Hn1 : ~ In (id, cid) (acks_of xs (RReply rs))) by (intros H; apply Hn; apply in_or_app; right; exact H).
    assert (Hn2 : i_job x = id -> advances (c_kind (i_cmd x)) r = false).
    { intros E. destruct (advances (c_kind (i_cmd x)) r) eqn:Ea; [|reflexivity]. exfalso. apply Hn. apply in_or_app. left.
      left. rewrite E, (Hx x (or_introl eq_refl) E). reflexivity. }
    apply in_app_or in Hi. destruct Hi as [Hi | Hi].
    - assert (Hst : In i (match get co (i_job x) with
                    | None => []
                    | Some _ => [IStatus (i_job x) (c_id (i_cmd x)) (if advances (c_kind (i_cmd x)) r then Done else Fail)]
                    end) -> wok i).
      { intros Hin. destruct (get co (i_job x)); [|destruct Hin]. destruct Hin as [<- | []].
        destruct (advances (c_kind (i_cmd x)) r) eqn:Eadv; cbn.
        - intros E. specialize (Hn2 E). congruence.
        - intros E. exact (Hx x (or_introl eq_refl) E). }
      unfold one_inc in Hi. destruct r as [| |e|s']; try (exact (Hst Hi)).
      destruct ((s' =? 0) || (s' =? st)); [destruct Hi|]. destruct (stores st && stores s'); [|destruct Hi].
      destruct Hi as [<- | []]. exact I.
    - apply (IH rs); [congruence | intros y Hy; apply Hx; right; exact Hy | exact Hn1 | exact Hi].
  Qed.

  Lemma winv_step s e s' :
    NoDup (ids (y_co s)) ->
    winv s -> fits s e -> holds_back id cid s e -> step limit s e = Some s' -> winv s'.
  Proof.
    intros Nd W F Hb H.
    assert (Y' : yinv false s') by (apply (yinv_step false limit s e s' (wi_y _ W) F); [discriminate | exact H]).
    destruct W as [Y A S L R]. pose proof H as H0. unfold step in H. destruct (y_dead s) eqn:Ed; [discriminate|].
    destruct e as [j|id' cid'|id'|v cap|r| | |n].
    - cbn in H. match type of H with Some ?x = _ => assert (Es : s' = x) by congruence end. clear H. subst s'.
      constructor; cbn; try assumption.
      + destruct A as (j0 & t0 & H1 & H2). exists j0, t0. split; [right; exact H1 | exact H2].
      + intros m l i Hm Hi. apply in_app_or in Hm. destruct Hm as [Hm | [E | []]]; [exact (L m l i Hm Hi)|].
        assert (l = [ICreate j]) by congruence. subst l. destruct Hi as [<- | []]. cbn.
        destruct A as (j0 & t0 & H1 & _ & H3 & _). destruct F as [_ F]. intros E5. apply F. rewrite E5, <- H3. apply in_map. exact H1.
    - destruct (get (y_co s) id') as [j|] eqn:Eg; [|assert (s' = s) by congruence; subst s'; constructor; assumption].
      cbn in H. match type of H with Some ?x = _ => assert (Es : s' = x) by congruence end. clear H. subst s'.
      constructor; cbn; try assumption.
      intros m l i Hm Hi. apply in_app_or in Hm. destruct Hm as [Hm | [E | []]]; [exact (L m l i Hm Hi)|].
      assert (l = [IStatus id' cid' Fail]) by congruence. subst l. destruct Hi as [<- | []]. cbn. cbn in Hb. intros E5. exfalso. exact (Hb E5).
    - destruct Hb.
    - destruct (y_round s) eqn:Er; try discriminate.
      destruct (process v cap (co_jobs (y_co s))) as [incs m] eqn:Ep.
      match type of H with Some ?x = _ => assert (Es : s' = x) by congruence end. clear H. subst s'.
      destruct (process_wok (y_acked s) (y_born s) v cap (co_jobs (y_co s)) (yi_born _ _ Y) A) as [G1 G2].
      { intros j Hj. split; [exact (proj1 (yi_co _ _ Y) j Hj)|]. intros E. apply S.
        clear - Nd Hj E. unfold get, ids in *. induction (co_jobs (y_co s)) as [|x l IH]; [destruct Hj|]. cbn in *.
        inversion Nd as [|? ? N1 N2]; subst. destruct Hj as [-> | Hj]; [rewrite Z.eqb_refl; reflexivity|].
        destruct (j_id x =? j_id j) eqn:E2; [|exact (IH N2 Hj)]. apply Z.eqb_eq in E2. exfalso. apply N1. rewrite E2. apply in_map. exact Hj. }
      rewrite Ep in G1, G2. cbn in G1, G2. constructor; cbn; try assumption.
      split; [exact G1|]. intros st xs x H1 H2. apply G2. exact (sends_In _ _ _ _ H1 H2).
    - unfold fits in F. cbn in Hb. destruct (y_round s) as [|stores todo incs|] eqn:Er; try discriminate.
      destruct todo as [|[st xs] todo]; [discriminate|].
      destruct (match r with RReply rs => Nat.eqb (length rs) (length xs) | _ => true end) eqn:El; [|discriminate].
      match type of H with Some ?x = _ => assert (Es : s' = x) by congruence end. clear H. subst s'.
      destruct R as [R1 R2]. constructor; cbn -[In]; try assumption. split.
      + intros i Hi. apply in_app_or in Hi. destruct Hi as [Hi | Hi]; [exact (R1 i Hi)|].
        destruct r as [| |rs]; [destruct Hi | destruct F|]. cbn in Hi. apply Nat.eqb_eq in El.
        apply (reply_wok (y_co s) stores st xs rs El); [|exact Hb | exact Hi].
        intros x Hx. exact (R2 st xs x (or_introl eq_refl) Hx).
      + intros st' xs' x H1 H2. exact (R2 st' xs' x (or_intror H1) H2).
    - destruct (y_round s) as [|stores todo incs|] eqn:Er; try discriminate. destruct todo as [|p todo]; [|destruct incs; discriminate].
      destruct R as [R1 R2]. destruct incs as [|i0 incs].
      + match type of H with Some ?x = _ => assert (Es : s' = x) by congruence end. clear H. subst s'.
        constructor; cbn; assumption || exact I.
      + assert (Es : s' = mkSys (y_co s) Waiting (y_log s ++ [(true, i0 :: incs)]) false (y_born s) (y_acked s) (y_sent s) (y_fails s))
          by (cbn in H; congruence).
        clear H. subst s'. constructor; cbn -[In]; try assumption; try exact I.
        intros m l i Hm Hi. apply in_app_or in Hm. destruct Hm as [Hm | [E | []]]; [exact (L m l i Hm Hi)|].
        assert (l = i0 :: incs) by congruence. subst l. exact (R1 i Hi).
    - assert (Es : s' = apply_entry limit s) by (destruct (y_log s); congruence). subst s'.
      apply winv_entry. constructor; assumption.
    - assert (W : winv s) by (constructor; assumption).
      pose proof (winv_entries n s W) as J. set (s1 := apply_entries limit n s) in *.
      assert (Es : s' = mkSys (y_co s1) Idle [] (y_dead s1) (y_born s1) (y_acked s1) (y_sent s1) (y_fails s1)) by congruence.
      clear H. subst s'. destruct J as [J1 J2 J3 J4 J5]. constructor; cbn; try assumption; try exact I; intros; contradiction.
  Qed.
End Held.

(** ** One entry for each job *)

Lemma apply_inc_ids limit co i co' : NoDup (ids co) -> apply_inc limit co i = Some co' -> NoDup (ids co').
Proof.
  intros Hn H. destruct i as [j|j|id|id cid st|id cid st]; cbn in H.
  - destruct (j_id j =? 0); [discriminate|]. assert (co' = put co j) by congruence. subst co'. exact (ids_put_nodup _ _ Hn).
  - destruct (j_id j =? 0); [discriminate|]. assert (co' = put co j) by congruence. subst co'. exact (ids_put_nodup _ _ Hn).
  - destruct (get co id) as [j|]; [|discriminate]. assert (E : co' = erase (archive co j true) id) by congruence. subst co'.
    rewrite ids_erase. apply NoDup_filter. exact Hn.
  - destruct (get co id) as [j|] eqn:Eg; [|congruence]. assert (E : co' = apply_status limit co j cid st) by congruence. subst co'.
    unfold apply_status. destruct (find_task j cid) as [step|]; [|exact Hn]. destruct st.
    + destruct (Nat.eqb step (j_next j)); exact (ids_put_nodup _ _ Hn).
    + destruct (need_clean _ _ _); [rewrite ids_erase; apply NoDup_filter; exact Hn | exact (ids_put_nodup _ _ Hn)].
  - destruct (get co id) as [j|] eqn:Eg; [|congruence]. assert (E : co' = apply_move co j cid st) by congruence. subst co'.
    unfold apply_move. destruct (find_task j cid); [exact (ids_put_nodup _ _ Hn) | exact Hn].
Qed.

Lemma apply_all_ids limit l : forall co co', NoDup (ids co) -> apply_all limit co l = Some co' -> NoDup (ids co').
Proof.
  induction l as [|i l IH]; intros co co' Hn H; cbn in H; [congruence|].
  destruct (apply_inc limit co i) as [co1|] eqn:E; [|discriminate]. exact (IH co1 co' (apply_inc_ids _ _ _ _ Hn E) H).
Qed.

Lemma apply_entry_ids limit s : NoDup (ids (y_co s)) -> NoDup (ids (y_co (apply_entry limit s))).
Proof.
  intros Hn. unfold apply_entry. destruct (y_log s) as [|[mine l] r]; [exact Hn|].
  destruct (apply_all limit (y_co s) l) as [co'|] eqn:E; [exact (apply_all_ids _ _ _ _ Hn E) | exact Hn].
Qed.

Lemma apply_entries_ids limit n : forall s, NoDup (ids (y_co s)) -> NoDup (ids (y_co (apply_entries limit n s))).
Proof.
  induction n as [|n IH]; intros s H; [exact H|]. cbn [apply_entries]. destruct (y_dead s); [exact H|].
  apply IH. apply apply_entry_ids. exact H.
Qed.

Lemma step_ids limit s e s' : NoDup (ids (y_co s)) -> step limit s e = Some s' -> NoDup (ids (y_co s')).
Proof.
  intros Hn H. unfold step in H. destruct (y_dead s) eqn:Ed; [discriminate|].
  destruct e as [j|id' cid|id'|v cap|r| | |n].
  - cbn in H. match type of H with Some ?x = _ => assert (Es : s' = x) by congruence end. subst s'. exact Hn.
  - destruct (get (y_co s) id') as [j|]; [|assert (s' = s) by congruence; subst s'; exact Hn].
    cbn in H. match type of H with Some ?x = _ => assert (Es : s' = x) by congruence end. subst s'. exact Hn.
  - set (l := map (fun j => IDelete (j_id j)) _) in *.
    assert (Es : s' = s \/ s' = write s false l) by (destruct l; [left | right]; congruence).
    destruct Es as [Es | Es]; subst s'; exact Hn.
  - destruct (y_round s); try discriminate. destruct (process v cap (co_jobs (y_co s))) as [incs m].
    match type of H with Some ?x = _ => assert (Es : s' = x) by congruence end. subst s'. exact Hn.
  - destruct (y_round s) as [|stores todo incs|]; try discriminate. destruct todo as [|[st xs] todo]; [discriminate|].
    destruct (match r with RReply rs => Nat.eqb (length rs) (length xs) | _ => true end); [|discriminate].
    match type of H with Some ?x = _ => assert (Es : s' = x) by congruence end. subst s'. exact Hn.
  - destruct (y_round s) as [|stores todo incs|]; try discriminate. destruct todo as [|p todo]; [|destruct incs; discriminate].
    destruct incs; cbn in H; match type of H with Some ?x = _ => assert (Es : s' = x) by congruence end; subst s'; exact Hn.
  - assert (Es : s' = apply_entry limit s) by (destruct (y_log s); congruence). subst s'. apply apply_entry_ids. exact Hn.
  - match type of H with Some ?x = _ => assert (Es : s' = x) by congruence end. subst s'. cbn. apply apply_entries_ids. exact Hn.
Qed.

Lemma reach_ids limit (P : sys -> event -> Prop) s : reach limit P s -> NoDup (ids (y_co s)).
Proof. induction 1 as [|s e s' Hr IH Hp Hs]; [constructor | exact (step_ids limit s e s' IH Hs)]. Qed.

(** The job does not pass the step of the failed command. *)
Lemma held_back limit s m j id cid k t s1 s2 :
  reach limit fits s -> y_round s = Idle -> y_log s = [(m, [IStatus id cid Fail])] ->
  get (y_co s) id = Some j -> nth_error (j_tasks j) k = Some t -> (exists c, task_cmds t = [c] /\ c_id c = cid) ->
  step limit s EApply = Some s1 ->
  star limit (fun s e => fits s e /\ holds_back id cid s e) s1 s2 ->
  forall j2, get (y_co s2) id = Some j2 -> j_next j2 = k.
Proof.
  intros Rs Er El Eg Ht (c & Ec & Ecid) H1 H2.
  pose proof (yinv_reach false limit fits s (fun s e H => conj H (fun E => False_ind _ (Bool.diff_false_true E))) Rs) as Y.
  destruct (get_In _ _ _ Eg) as [Hj Ej]. pose proof (proj1 (yi_co _ _ Y) j Hj) as V.
  pose proof V as (_ & (j0 & V1 & V2 & V3 & V4) & _).
  assert (Hat : cmd_at j k cid) by (exists t, c; split; [exact Ht | split; [rewrite Ec; left; reflexivity | exact Ecid]]).
  assert (A : alone id cid k (y_born s)).
  { destruct (Forall2_nth _ _ _ _ _ V4 Ht) as (t0 & Et0 & Hs). exists j0, t0. split; [exact V1|]. split; [exact V2|].
    split; [congruence|]. split; [exact Et0|]. split; [apply (cmd_at_same j j0 _ _ V4); exact Hat|].
    apply Permutation_length in Hs. rewrite !map_length, Ec in Hs. cbn in Hs. congruence. }
  assert (W1 : winv id cid k s1).
  { assert (Y1 : yinv false s1) by (apply (yinv_step false limit s EApply s1 Y I); [discriminate | exact H1]).
    unfold step in H1. destruct (y_dead s); [discriminate|]. rewrite El in H1.
    assert (Es : s1 = apply_entry limit s) by congruence. unfold apply_entry in Es. rewrite El in Es.
    cbn [apply_all apply_inc] in Es. rewrite Eg in Es. subst s1. constructor; cbn -[In]; try assumption.
    - destruct (alone_job id cid k (y_acked s) (y_born s) j (yi_born _ _ Y) A V Ej) as (_ & _ & _ & _ & _ & Hu).
      unfold apply_status. destruct (find_task j cid) as [step|] eqn:Ef.
      + assert (step = k) by (apply Hu; exact (proj1 (find_task_at _ _ _ Ef))). subst step.
        destruct (need_clean _ _ _); intros x Hx.
        * rewrite get_erase, Ej, Z.eqb_refl in Hx. discriminate.
        * rewrite get_put in Hx. cbn [job_fail with_next on_task j_id] in Hx. rewrite Ej, Z.eqb_refl in Hx.
          assert (Ex : x = job_fail cid k j) by congruence. subst x. reflexivity.
      + exfalso. unfold find_task in Ef. clear - Ef Hat. destruct Hat as (t & c & Ht & Hc & E).
        assert (Hx : existsb (has cid) (t_ops t) = true).
        { apply task_cmds_In in Hc. destruct Hc as (o & Ho & Hc). apply existsb_exists. exists o. split; [exact Ho|].
          apply has_In. exists c. split; assumption. }
        apply nth_error_In in Ht. revert Ef Ht. induction (j_tasks j) as [|y l IH]; [intros _ []|]. cbn.
        destruct (existsb (has cid) (t_ops y)) eqn:Ey; [discriminate|].
        destruct (index _ l) eqn:Ei; [discriminate|]. intros _ [-> | Hin]; [congruence | exact (IH eq_refl Hin)].
    - intros m' l' i [].
    - rewrite Er. destruct m; exact I. }
  assert (N1 : NoDup (ids (y_co s1))) by (exact (step_ids limit s EApply s1 (reach_ids limit fits s Rs) H1)).
  clear - H2 W1 N1. induction H2 as [s|s e s3 s4 [P1 P2] Hs Hst IH]; [exact (wi_at _ _ _ _ W1)|].
  apply IH; [|exact (step_ids limit s e s3 N1 Hs)]. exact (winv_step limit id cid k s e s3 N1 W1 P1 P2 Hs).
Qed.
