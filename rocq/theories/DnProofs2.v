(** Imports under any history; errors that last; resets refused; the store's batches. *)
Require Import ZArith List Bool Lia.
From Verif Require Import DnModel DnSpec DnProofs.
Import ListNotations.
Open Scope Z_scope.

Section J.
Variable S : source.
Variable tmo : Z.

(** States a core can be in. *)
Definition cl (s : dst) : Prop := s <> Unknown /\ s <> Importing.

Definition job_cl (j : job) : Prop :=
  match j with JB2 s => cl s | JL2 s _ => cl s | JEnd s _ _ _ => cl s | _ => True end.

Definition core_cl (o : option core) : Prop := match o with None => True | Some c => cl (cst c) end.

Definition prefix_of (i : item) : Prop :=
  imp i = false /\ wopen i = true /\ its i = fst (S (itso i)) /\
  exists a c, snd (S (itso i)) = a ++ c /\ wrows i = map snd a /\ wids i = map fst a /\
    recv i = Z.of_nat (length a).

Definition J (i : item) : Prop :=
  (st i = Unknown -> wopen i = false /\ recv i = 0 /\ imp i = false) /\
  (st i = Importing -> lerr i = None -> prefix_of i) /\
  core_cl (icore i).

Lemma J_blank s : s <> Importing -> J (blank s).
Proof. intros Hs. split; [auto | split; [intros E; contradiction | exact I]]. Qed.

Lemma J_cl i : cl (st i) -> core_cl (icore i) -> J i.
Proof.
  intros [H1 H2] Hc. split; [intros E; contradiction |]. split; [intros E; contradiction | exact Hc].
Qed.

Lemma J_fail i e : J i -> J (fail_item i e).
Proof. intros (H1 & H2 & H3). split; [exact H1 |]. split; [intros _ E; discriminate E | exact H3]. Qed.

Lemma J_err i e : lerr i = Some e -> st i <> Unknown -> core_cl (icore i) -> J i.
Proof.
  intros H1 H2 H3. split; [intros E; contradiction |]. split; [intros _ E; congruence | exact H3].
Qed.

(** One push handled by DoImport: the item stays in order, and the push that ends an import leaves exactly
    that import in the files. *)
Lemma do_import_J d i q d' i' r :
  J i -> lerr i = None -> imp i = false -> (st i = Unknown \/ st i = Importing) ->
  (wopen i = true -> pts q = its i /\ ptso q = itso i) ->
  honest S q -> do_import tmo d i q = (d', i', r) ->
  J i' /\ (r = ROk -> pmore q = false -> holds S (ptso q) d').
Proof.
  intros HJ Hl Him Hst Hw [Hts (x & y & z & HL & Hi & Hv & Ho & Hm)] E.
  assert (HJ' := HJ). destruct HJ' as (J1 & J2 & J3).
  unfold do_import in E.
  destruct (Z.eqb_spec (poff q) (recv i)) as [Eo | Eo]; cbn [negb] in E.
  2:{ injection E as <- <- <-. split; [apply J_fail, HJ | discriminate]. }
  destruct (wopen i && _).
  { injection E as <- <- <-. split; [apply J_fail, HJ | discriminate]. }
  assert (K : exists a, snd (S (ptso q)) = a ++ y ++ z /\ recv i = Z.of_nat (length a) /\
    (if wopen (set_tlast i (pnow q)) then set_tlast i (pnow q)
     else open_writers (set_tlast i (pnow q)) (pts q) (ptso q)) =
    mkItem Importing None false true (map snd a) (map fst a) (ids i) (Z.of_nat (length a)) (pts q) (ptso q)
      (pnow q) (pre i) (icore i)).
  { destruct Hst as [Hs | Hs].
    - destruct (J1 Hs) as (W & R & _). exists []. cbn [wopen set_tlast]. rewrite W.
      rewrite R in Eo. rewrite Eo in Ho. destruct x; [| cbn in Ho; lia].
      split; [exact HL |]. split; [exact R |].
      unfold open_writers, set_tlast. cbn. rewrite Hl, Him, R. reflexivity.
    - destruct (J2 Hs Hl) as (P1 & P2 & P3 & a & c & A1 & A2 & A3 & A4).
      destruct (Hw P2) as [W1 W2]. exists a. rewrite <- W2 in A1.
      assert (Hx : length x = length a) by lia.
      rewrite HL in A1. destruct (app_len _ _ _ _ A1 Hx) as [-> _].
      split; [exact HL |]. split; [exact A4 |]. cbn [wopen set_tlast]. rewrite P2.
      unfold set_tlast. rewrite Hs, Hl, P1, P2, A2, A3, A4, W1, W2. reflexivity. }
  destruct K as (a & HK & HR & EK). rewrite EK in E. clear EK.
  destruct (pthrow q).
  { injection E as <- <- <-. split; [| discriminate].
    eapply J_err; [reflexivity | discriminate | exact J3]. }
  rewrite Hv, Hi, !map_length, Nat.eqb_refl in E. cbn [negb] in E.
  destruct (has_dup _).
  { injection E as <- <- <-. split; [| discriminate].
    eapply J_err; [reflexivity | discriminate | exact J3]. }
  destruct (kmax <? _).
  { injection E as <- <- <-. split; [| discriminate].
    eapply J_err; [reflexivity | discriminate | exact J3]. }
  unfold add_count, add_ids, add_rows in E.
  cbn [st lerr imp wopen wrows wids ids recv its itso tlast pre icore] in E.
  rewrite <- !map_app, <- Nat2Z.inj_add, <- app_length in E.
  destruct (pmore q).
  { injection E as <- <- <-. split; [| discriminate].
    split; [discriminate |]. split; [| exact J3]. intros _ _.
    split; [reflexivity |]. split; [reflexivity |]. split; [exact Hts |].
    exists (a ++ y), z. cbn. rewrite <- app_assoc. repeat split. exact HK. }
  specialize (Hm eq_refl). subst z. rewrite app_nil_r in HK. rewrite <- HK in E.
  unfold finish_import in E. cbn [recv wrows wids its] in E.
  destruct (_ <? kmin).
  { injection E as <- <- <-. split; [| discriminate].
    eapply J_err; [reflexivity | discriminate | exact J3]. }
  destruct (pren1 q); [destruct (pren2 q) | |]; injection E as <- <- <-;
    try (split; [| discriminate]; eapply J_err; [reflexivity | discriminate | exact J3]).
  split.
  - apply J_cl; [split; discriminate | exact J3].
  - intros _ _. split; cbn; [reflexivity | rewrite Hts; reflexivity].
Qed.

Lemma import_J d i q d' i' r :
  J i -> honest S q -> import tmo d i q = (d', i', r) ->
  J i' /\ (imp i = false -> r = ROk -> pmore q = false -> holds S (ptso q) d').
Proof.
  intros HJ Hq E. unfold import in E.
  destruct (lerr i) as [e |] eqn:Hl.
  { injection E as <- <- <-. split; [exact HJ | discriminate]. }
  destruct (imp i) eqn:Him.
  { split; [| discriminate]. destruct (st i); injection E as <- <- <-; exact HJ. }
  assert (K : forall s, st i = s -> (s = Unknown \/ s = Importing) ->
    (if wopen i && negb (pts q =? its i) then (d, i, RErr ETsMismatch)
     else if wopen i && negb (ptso q =? itso i) then (d, i, RErr ETsoMismatch)
     else do_import tmo d i q) = (d', i', r) ->
    J i' /\ (false = false -> r = ROk -> pmore q = false -> holds S (ptso q) d')).
  { intros s Hs Ho E'.
    destruct (wopen i) eqn:W; cbn [andb] in E'.
    - destruct (Z.eqb_spec (pts q) (its i)); cbn [negb] in E';
        [| injection E' as <- <- <-; split; [exact HJ | discriminate]].
      destruct (Z.eqb_spec (ptso q) (itso i)); cbn [negb] in E';
        [| injection E' as <- <- <-; split; [exact HJ | discriminate]].
      destruct (do_import_J d i q d' i' r HJ Hl Him) as [A B]; auto; [rewrite Hs; exact Ho].
    - destruct (do_import_J d i q d' i' r HJ Hl Him) as [A B]; auto; [rewrite Hs; exact Ho | congruence]. }
  destruct (st i) eqn:Hs; try (injection E as <- <- <-; split; [exact HJ | discriminate]).
  - exact (K Unknown eq_refl (or_introl eq_refl) E).
  - exact (K Importing eq_refl (or_intror eq_refl) E).
Qed.

Definition JW (w : world) : Prop := J (wi w) /\ Forall job_cl (wjobs w).

Lemma look_J d d' i : look d = (d', i) -> J i.
Proof.
  unfold look. destruct (files_exist d); [| destruct (dnod d)]; intros E; injection E as <- <-;
    apply J_blank; discriminate.
Qed.

Lemma close_J d i x d' i' r : J i -> do_close d i x = (d', i', r) -> J i'.
Proof.
  intros HJ E. unfold do_close in E. destruct (core_busy i); [injection E as <- <- <-; exact HJ |].
  destruct x as [[[f1 f2] f3] |].
  - injection E as <- <- <-. apply J_blank. discriminate.
  - destruct (look d) as [d1 i1] eqn:El. injection E as <- <- <-. eapply look_J, El.
Qed.

Lemma nodata_J d i d' i' r : J i -> set_no_data d i = (d', i', r) -> J i'.
Proof.
  intros HJ E. unfold set_no_data in E. destruct (lerr i); [injection E as <- <- <-; exact HJ |].
  destruct (st i); injection E as <- <- <-; try exact HJ.
  apply J_cl; [split; discriminate | exact (proj2 (proj2 HJ))].
Qed.

Lemma toomany_J i i' r : J i -> set_too_many i = (i', r) -> J i'.
Proof.
  intros HJ E. unfold set_too_many in E.
  destruct (st i) eqn:Hs, (lerr i) as [e |] eqn:Hl; try destruct e; injection E as <- <-; try exact HJ.
  eapply J_err; [reflexivity | discriminate | exact (proj2 (proj2 HJ))].
Qed.

Lemma run_J w s p c : J (wi w) -> cl s -> core_cl c -> J (set_run (wi w) s p c).
Proof. intros HJ Hs Hc. apply J_cl; assumption. Qed.

Lemma with_core_JW w s p : JW w -> cl s -> JW (with_core w s p).
Proof.
  intros [HJ HF] Hs. unfold with_core. destruct (icore (wi w)) as [c |] eqn:Hc.
  - split; [| exact HF]. apply run_J; auto. assert (H := proj2 (proj2 HJ)). rewrite Hc in H. exact H.
  - split; [| exact HF]. apply run_J; auto. split; discriminate.
Qed.

Lemma add_job_JW w j : JW w -> job_cl j -> JW (add_job w j).
Proof. intros [HJ HF] Hj. split; [exact HJ |]. apply Forall_app. split; [exact HF | constructor; auto]. Qed.

Lemma cl1 : forall s, s <> Unknown -> s <> Importing -> cl s.
Proof. intros; split; assumption. Qed.

Lemma build_JW w f : JW w -> JW (fst (build w f)).
Proof.
  intros H. unfold build. destruct (lerr (wi w)); [exact H |].
  destruct (st (wi w)); try exact H; destruct (imp (wi w)); cbn [negb]; try exact H.
  apply add_job_JW; [| exact I]. apply with_core_JW; [exact H | split; discriminate].
Qed.

Lemma load_JW w : JW w -> JW (fst (load w)).
Proof.
  intros H. unfold load. destruct (lerr (wi w)); [exact H |].
  destruct (st (wi w)); try exact H.
  apply add_job_JW; [| exact I]. destruct H as [HJ HF]. split; [| exact HF].
  apply run_J; [exact HJ | split; discriminate | exact (proj2 (proj2 HJ))].
Qed.

Lemma try_load_JW w : JW w -> JW (fst (try_load w)).
Proof.
  intros H. unfold try_load. destruct (lerr (wi w)); [exact H |].
  destruct (st (wi w)); try exact H; destruct (files_exist (wd w)); try exact H;
    (apply add_job_JW; [| exact I]; apply with_core_JW; [exact H | split; discriminate]).
Qed.

Lemma set_core_J i c : J i -> cl (cst c) -> J (set_core i (Some c)).
Proof. intros (H1 & H2 & H3) Hc. split; [exact H1 |]. split; [exact H2 | exact Hc]. Qed.

Definition res_J (w : world) (x : jres) : Prop :=
  match x with
  | JNext w' j => J (wi w') /\ wjobs w' = wjobs w /\ job_cl j
  | JDone w' => J (wi w') /\ wjobs w' = wjobs w
  | JCrash => True
  end.

Ltac cls := first [exact I | assumption | (split; discriminate)].

Lemma job_step_J w j v : JW w -> job_cl j -> res_J w (job_step w j v).
Proof.
  intros [HJ HF] Hj. assert (Hc := proj2 (proj2 HJ)). unfold job_step.
  destruct j.
  - destruct (icore (wi w)) as [c |]; [| exact I]. unfold core_build. cbn in Hc.
    destruct (negb force && cbuilt c).
    { split; [exact HJ |]. split; [reflexivity | exact Hc]. }
    destruct (cbuilt c), (cst c) eqn:Es, force;
      first [ (split; [exact HJ |]; split; [reflexivity | exact Hc])
            | (split; [apply set_core_J; [exact HJ | cls] |]; split; [reflexivity | exact I]) ].
  - destruct (icore (wi w)) as [c |]; [| exact I]. destruct (Nat.eqb (cgen c) g); [| exact I].
    unfold core_do_build. destruct (ddata (wd w)) as [[n rows] |].
    2:{ split; [exact HJ |]. split; [reflexivity | cls]. }
    destruct (n <? kmin); [split; [exact HJ |]; split; [reflexivity | cls] |].
    destruct (eok v); [| split; [exact HJ |]; split; [reflexivity | cls]].
    split; [apply set_core_J; [exact HJ | cls] |]. split; [reflexivity | cls].
  - destruct (rename_index _ _ _) as [d ok]. destruct ok; (split; [exact HJ |]; split; [reflexivity |]; cls).
  - destruct (icore (wi w)) as [c |]; [| exact I]. unfold core_update. cbn in Hc.
    destruct (cst c) eqn:Es; try (split; [exact HJ |]; split; [reflexivity | cls]).
    destruct (cbuilt c); cbn [negb]; [| split; [exact HJ |]; split; [reflexivity | cls]].
    destruct (didx (wd w)); (split; [apply set_core_J; [exact HJ | cls] |]; split; [reflexivity | cls]).
  - destruct (icore (wi w)) as [c |]; [| exact I]. unfold core_load. cbn in Hc.
    destruct (cload c); [split; [exact HJ |]; split; [reflexivity | exact Hc] |].
    destruct (cst c) eqn:Es; destruct try; try destruct (cupd c);
      try (split; [exact HJ |]; split; [reflexivity | exact Hc]);
      (split; [apply set_core_J; [exact HJ | cls] |]; split; [reflexivity | cls]).
  - destruct (icore (wi w)) as [c |]; [| exact I]. destruct (Nat.eqb (cgen c) g); [| exact I].
    unfold core_do_load.
    assert (B : res_J w (JNext w (JEnd Loading (Some EInternal) false None)))
      by (split; [exact HJ |]; split; [reflexivity | cls]).
    destruct (if try then _ else _) as [n |]; [| exact B].
    destruct (didx (wd w)) as [rows |]; [| exact B].
    destruct (eok v); [| exact B]. cbn [negb].
    destruct (n =? _); [| exact B].
    split; [apply set_core_J; [exact HJ | cls] |]. split; [reflexivity | cls].
  - unfold read_ids. destruct try; cbn [negb]; [| split; [exact HJ |]; split; [reflexivity | exact Hj]].
    destruct (did (wd w)) as [[[n ts] l] |]; [| split; [exact HJ |]; split; [reflexivity | exact Hj]].
    assert (Hi : J (set_ids (wi w) l)) by exact HJ.
    destruct (n =? _); (split; [exact Hi |]; split; [reflexivity | exact Hj]).
  - split; [| reflexivity]. apply J_cl; [exact Hj | exact Hc].
Qed.

Lemma set_nth_F l : forall n o, Forall job_cl l -> (forall j, o = Some j -> job_cl j) ->
  Forall job_cl (set_nth l n o).
Proof.
  induction l as [| x l IH]; intros n o H Ho; [destruct n; constructor |].
  inversion H; subst. destruct n as [| n]; cbn.
  - destruct o; [constructor; auto | assumption].
  - constructor; auto.
Qed.

Lemma run_job_JW w n v : JW w -> JW (run_job w n v).
Proof.
  intros H. unfold run_job. destruct (nth_error (wjobs w) n) as [j |] eqn:En; [| exact H].
  assert (Hj : job_cl j).
  { apply nth_error_In in En. destruct H as [_ HF]. rewrite Forall_forall in HF. apply HF, En. }
  assert (R := job_step_J w j v H Hj). destruct (job_step w j v) as [w' j' | w' |].
  - destruct R as (R1 & R2 & R3). split; [exact R1 |]. cbn. rewrite R2. apply set_nth_F; [exact (proj2 H) |].
    intros k E. injection E as <-. exact R3.
  - destruct R as (R1 & R2). split; [exact R1 |]. cbn. rewrite R2. apply set_nth_F; [exact (proj2 H) |].
    discriminate.
  - exact H.
Qed.

Lemma act_JW w e : JW w -> (forall q, e = EPush q -> honest S q) -> JW (fst (act tmo w e)).
Proof.
  intros H Hq.
  destruct e; unfold act; try (destruct (wdead w); [exact H |]).
  - destruct (import tmo (wd w) (wi w) q) as [[d i] r] eqn:E.
    split; [| exact (proj2 H)]. exact (proj1 (import_J _ _ _ _ _ _ (proj1 H) (Hq q eq_refl) E)).
  - apply build_JW, H.
  - apply load_JW, H.
  - apply try_load_JW, H.
  - destruct (do_close _ _ _) as [[d i] r] eqn:E. split; [| exact (proj2 H)].
    exact (close_J _ _ _ _ _ _ (proj1 H) E).
  - destruct (do_close _ _ _) as [[d i] r] eqn:E. split; [| exact (proj2 H)].
    exact (close_J _ _ _ _ _ _ (proj1 H) E).
  - destruct (set_no_data _ _) as [[d i] r] eqn:E. split; [| exact (proj2 H)].
    exact (nodata_J _ _ _ _ _ (proj1 H) E).
  - destruct (set_too_many _) as [i r] eqn:E. split; [| exact (proj2 H)].
    exact (toomany_J _ _ _ (proj1 H) E).
  - apply run_job_JW, H.
  - destruct (look (wd w)) as [d i] eqn:E. split; [exact (look_J _ _ _ E) | constructor].
Qed.

Lemma run_JW es : forall w, JW w -> pushes_honest S es -> JW (run tmo w es).
Proof.
  induction es as [| e es IH]; intros w H Hp; [exact H |].
  change (run tmo w (e :: es)) with (run tmo (fst (act tmo w e)) es). apply IH.
  - apply act_JW; [exact H |]. intros q ->. apply Hp. left; reflexivity.
  - intros q Hq. apply Hp. right; exact Hq.
Qed.

Lemma start_JW : JW start.
Proof. split; [apply J_blank; discriminate | constructor]. Qed.

Lemma dn_import_exact_lemma es q w' :
  pushes_honest S es -> honest S q ->
  imp (wi (run tmo start es)) = false ->
  act tmo (run tmo start es) (EPush q) = (w', ROk) -> pmore q = false ->
  holds S (ptso q) (wd w').
Proof.
  intros Hp Hq Hi E Hm. assert (H := run_JW es start start_JW Hp). revert H Hi E.
  generalize (run tmo start es) as w. intros w H Hi E. unfold act in E.
  destruct (wdead w); [discriminate |].
  destruct (import tmo (wd w) (wi w) q) as [[d i] r] eqn:Ei. injection E as <- ->.
  exact (proj2 (import_J _ _ _ _ _ _ (proj1 H) Hq Ei) Hi eq_refl Hm).
Qed.

End J.

(** Errors last until a reset or a restart. *)
Section E.
Variable tmo : Z.

Lemma err_job w n v e : lerr (wi w) = Some e -> exists e', lerr (wi (run_job w n v)) = Some e'.
Proof.
  intros H. unfold run_job. destruct (nth_error (wjobs w) n) as [j |]; [| exists e; exact H].
  assert (K : match job_step w j v with
              | JNext w' _ => lerr (wi w') = Some e
              | JDone w' => exists e', lerr (wi w') = Some e'
              | JCrash => True
              end).
  { unfold job_step. destruct j.
    - destruct (icore (wi w)) as [c |]; [| exact I]. unfold core_build.
      destruct (negb force && cbuilt c); [exact H |].
      destruct (cbuilt c), (cst c), force; exact H.
    - destruct (icore (wi w)) as [c |]; [| exact I]. destruct (Nat.eqb (cgen c) g); [| exact I].
      unfold core_do_build. destruct (ddata (wd w)) as [[m rows] |]; [| exact H].
      destruct (m <? kmin); [exact H |]. destruct (eok v); exact H.
    - destruct (rename_index _ _ _) as [d o]. destruct o; exact H.
    - destruct (icore (wi w)) as [c |]; [| exact I]. unfold core_update.
      destruct (cst c); try exact H. destruct (cbuilt c); [| exact H]. destruct (didx (wd w)); exact H.
    - destruct (icore (wi w)) as [c |]; [| exact I]. unfold core_load. destruct (cload c); [exact H |].
      destruct (cst c), try, (cupd c); exact H.
    - destruct (icore (wi w)) as [c |]; [| exact I]. destruct (Nat.eqb (cgen c) g); [| exact I].
      unfold core_do_load. destruct (if try then _ else _) as [m |]; [| exact H].
      destruct (didx (wd w)) as [rows |]; [| exact H]. destruct (eok v); [| exact H]. cbn [negb].
      destruct (m =? _); exact H.
    - unfold read_ids. destruct try; [| exact H]. cbn [negb].
      destruct (did (wd w)) as [[[m ts] l] |]; [| exact H]. destruct (m =? _); exact H.
    - cbn. destruct e0 as [e0 |]; [exists e0; reflexivity | exists e; exact H]. }
  destruct (job_step w j v) as [w' j' | w' |].
  - exists e. exact K.
  - exact K.
  - exists e. exact H.
Qed.

Lemma err_act w ev e : wdead w = false -> lerr (wi w) = Some e -> is_fresh ev = false ->
  (exists e', lerr (wi (fst (act tmo w ev))) = Some e') /\
  (wjobs w = [] -> lerr (wi (fst (act tmo w ev))) = Some e /\ wd (fst (act tmo w ev)) = wd w /\
     wjobs (fst (act tmo w ev)) = [] /\ wdead (fst (act tmo w ev)) = false) /\
  (is_work ev = true -> act tmo w ev = (w, RErr e)).
Proof.
  intros Hd H Hf. destruct ev; try discriminate Hf; unfold act; rewrite Hd.
  - unfold import. rewrite H. cbn. destruct w; cbn in *.
    split; [exists e; exact H |]. split; [intros ->; auto | intros _; reflexivity].
  - unfold build. rewrite H. cbn. split; [exists e; exact H |]. split; [intros ->; auto | intros _; reflexivity].
  - unfold load. rewrite H. cbn. split; [exists e; exact H |]. split; [intros ->; auto | intros _; reflexivity].
  - unfold try_load. rewrite H. cbn.
    split; [exists e; exact H |]. split; [intros ->; auto | intros _; reflexivity].
  - unfold set_no_data. rewrite H. cbn.
    split; [exists e; exact H |]. split; [intros ->; auto | discriminate].
  - unfold set_too_many. rewrite H.
    assert (E : forall (i : item) (r : rep), i = wi w ->
      (exists e', lerr (wi (fst (set_item w i, r))) = Some e') /\
      (wjobs w = [] -> lerr (wi (fst (set_item w i, r))) = Some e /\ wd (fst (set_item w i, r)) = wd w /\
        wjobs (fst (set_item w i, r)) = [] /\ wdead (fst (set_item w i, r)) = false) /\
      (is_work ESetTooMany = true -> (set_item w i, r) = (w, RErr e))).
    { intros i r ->. cbn. split; [exists e; exact H |]. split; [intros ->; auto | discriminate]. }
    destruct (st (wi w)); try (apply E; reflexivity). destruct e; apply E; reflexivity.
  - cbn [fst]. split; [apply (err_job _ _ _ e), H |]. split; [| discriminate].
    intros Hj. unfold run_job. rewrite Hj. destruct n; cbn; rewrite ?Hj; auto.
Qed.

Lemma dn_error_lasts_lemma es : forall w e,
  wdead w = false -> wjobs w = [] -> lerr (wi w) = Some e ->
  (forall x, In x es -> is_fresh x = false) ->
  wd (run tmo w es) = wd w /\
  (forall x, is_work x = true -> act tmo (run tmo w es) x = (run tmo w es, RErr e)) /\
  (forall ps, search (run tmo w es) ps = SErr e).
Proof.
  induction es as [| x es IH]; intros w e Hd Hj Hl Hf.
  - split; [reflexivity |]. split.
    + intros x Hx. assert (Hx' : is_fresh x = false) by (destruct x; try reflexivity; discriminate).
      exact (proj2 (proj2 (err_act w x e Hd Hl Hx')) Hx).
    + intros ps. unfold search. cbn [run fold_left]. rewrite Hl. reflexivity.
  - change (run tmo w (x :: es)) with (run tmo (fst (act tmo w x)) es).
    destruct (err_act w x e Hd Hl (Hf x (or_introl eq_refl))) as (_ & K & _).
    destruct (K Hj) as (K1 & K2 & K3 & K4).
    destruct (IH _ e K4 K3 K1 (fun y Hy => Hf y (or_intror Hy))) as (A & B & C).
    rewrite A. auto.
Qed.

Lemma dn_reset_clears_lemma w f1 f2 f3 e : wdead w = false -> lerr (wi w) = Some e ->
  forall ev, ev = EClose \/ ev = EDestroy f1 f2 f3 ->
  snd (act tmo w ev) = ROk /\ lerr (wi (fst (act tmo w ev))) = None /\
  recv (wi (fst (act tmo w ev))) = 0 /\ imp (wi (fst (act tmo w ev))) = false /\
  (ev = EDestroy f1 f2 f3 -> st (wi (fst (act tmo w ev))) = Unknown).
Proof.
  intros Hd H ev He. assert (B : core_busy (wi w) = None).
  { unfold core_busy. destruct (icore (wi w)); [rewrite H |]; reflexivity. }
  destruct He as [-> | ->]; unfold act; rewrite Hd; unfold do_close; rewrite B.
  - unfold look. destruct (files_exist (wd w)); [| destruct (dnod (wd w))]; cbn; repeat split; discriminate.
  - cbn. repeat split.
Qed.

(** A reset during the library's build or load is refused and changes nothing. *)
Lemma dn_reset_refused_lemma w c ev :
  wdead w = false -> lerr (wi w) = None -> icore (wi w) = Some c -> (cst c = Building \/ cst c = Loading) ->
  is_reset ev = true ->
  exists e, act tmo w ev = (w, RErr e) /\ (e = EIsBuilding \/ e = EIsLoading).
Proof.
  intros Hd Hl Hc Hs He. destruct w as [d i js g dead]. cbn in *. subst dead.
  destruct ev; try discriminate He; cbn; unfold do_close, core_busy; rewrite Hc, Hl;
    destruct Hs as [-> | ->]; eexists; (split; [reflexivity |]); auto.
Qed.

End E.

(** The store's batches. *)
Section B.
Variable fullb : nat -> bool.

Lemma batches_spec : forall rows acc sent,
  Z.of_nat (length acc) >= 0 ->
  concat (map (fun b => fst (fst b)) (batches fullb acc sent rows)) = acc ++ rows.
Proof.
  induction rows as [| r rows IH]; intros acc sent H; cbn.
  - rewrite app_nil_r. reflexivity.
  - destruct (fullb (length (acc ++ [r]))); cbn.
    + rewrite IH by (cbn; lia). rewrite <- app_assoc. reflexivity.
    + rewrite IH by lia. rewrite <- app_assoc. reflexivity.
Qed.

Lemma batches_honest : forall rows done acc,
  forall l off more, In (l, off, more) (batches fullb acc (Z.of_nat (length done)) rows) ->
  exists a c, (done ++ acc ++ rows = a ++ l ++ c) /\ off = Z.of_nat (length a) /\ (more = false -> c = []).
Proof.
  induction rows as [| r rows IH]; intros done acc l off more H; cbn in H.
  - destruct H as [H | []]. injection H as <- <- <-. exists done, []. rewrite !app_nil_r.
    repeat split; auto.
  - destruct (fullb (length (acc ++ [r]))); cbn in H.
    + destruct H as [H | H].
      * injection H as <- <- <-. exists done, rows. rewrite <- !app_assoc. repeat split; auto. discriminate.
      * rewrite <- Nat2Z.inj_add, <- app_length in H. apply IH in H.
        destruct H as (a & c & H1 & H2 & H3). exists a, c. repeat split; auto.
        rewrite <- H1, <- !app_assoc. reflexivity.
    + apply IH in H. destruct H as (a & c & H1 & H2 & H3). exists a, c. repeat split; auto.
      rewrite <- H1, <- !app_assoc. reflexivity.
Qed.

Lemma dn_batches_honest_lemma S ts tso now rows q ps :
  S tso = (ts, rows) -> client_plan fullb ts tso now rows = PlanPush ps -> In q ps -> honest S q.
Proof.
  intros HS Hp Hq. unfold client_plan in Hp. destruct (_ <? kmin); [discriminate |].
  destruct (kmax <? _); [discriminate |]. injection Hp as <-.
  apply in_map_iff in Hq. destruct Hq as ([[l off] more] & <- & Hin).
  destruct (batches_honest rows [] [] l off more Hin) as (a & c & H1 & H2 & H3).
  unfold honest. cbn. rewrite HS. split; [reflexivity |].
  exists a, l, c. repeat split; auto.
Qed.

Lemma nodup_len : forall l : list Z, NoDup l -> has_dup l = false.
Proof.
  intros l H. unfold has_dup. rewrite (nodup_fixed_point Z.eq_dec H), Nat.eqb_refl. reflexivity.
Qed.

Lemma NoDup_app1 {A} (l l' : list A) : NoDup (l ++ l') -> NoDup l.
Proof.
  induction l as [| x l IH]; intros H; [constructor |]. inversion H; subst. constructor.
  - intros Hi. apply H2, in_or_app. left; exact Hi.
  - apply IH, H3.
Qed.

Definition at_done (s : dst) (wo : bool) (wr wj : list Z) (ts0 tso0 tl ts tso now : Z) (done : list (Z * Z)) : Prop :=
  wo = true /\ s = Importing /\ wr = map snd done /\ wj = map fst done /\ ts0 = ts /\ tso0 = tso /\ tl = now \/
  wo = false /\ s = Unknown /\ done = [].

Lemma push_import tmo ts tso now d done x more wr wj wo s ts0 tso0 tl p :
  0 <= tmo ->
  NoDup (map fst (done ++ x)) ->
  Z.of_nat (length (done ++ x)) <= kmax ->
  at_done s wo wr wj ts0 tso0 tl ts tso now done ->
  let i5 := mkItem Importing None false true (map snd (done ++ x)) (map fst (done ++ x)) (map fst (done ++ x))
              (Z.of_nat (length (done ++ x))) ts tso now p None in
  import tmo d (mkItem s None false wo wr wj (map fst done) (Z.of_nat (length done)) ts0 tso0 tl p None)
    (to_push ts tso now (x, Z.of_nat (length done), more)) =
  if more then (d, i5, ROk) else finish_import d i5 RenOk RenOk.
Proof.
  intros Ht Hn Hk Hs. cbv zeta.
  set (q := to_push ts tso now (x, Z.of_nat (length done), more)).
  set (i := mkItem s None false wo wr wj (map fst done) (Z.of_nat (length done)) ts0 tso0 tl p None).
  assert (E1 : import tmo d i q = do_import tmo d i q).
  { destruct Hs as [(-> & -> & -> & -> & -> & -> & ->) | (-> & -> & ->)]; unfold import, i, q; cbn;
      rewrite ?Z.eqb_refl; reflexivity. }
  rewrite E1. clear E1. unfold do_import.
  replace (poff q) with (recv i) by reflexivity. rewrite Z.eqb_refl. cbn [negb].
  replace (wopen i && (tmo <? pnow q - tlast i)) with false.
  2:{ destruct Hs as [(-> & -> & -> & -> & -> & -> & ->) | (-> & -> & ->)]; [| reflexivity].
      symmetry. unfold i, q. cbn [wopen andb pnow to_push tlast]. apply Z.ltb_ge. lia. }
  assert (E2 : (if wopen (set_tlast i (pnow q)) then set_tlast i (pnow q)
                else open_writers (set_tlast i (pnow q)) (pts q) (ptso q)) =
    mkItem Importing None false true (map snd done) (map fst done) (map fst done) (Z.of_nat (length done))
      ts tso now p None).
  { destruct Hs as [(-> & -> & -> & -> & -> & -> & ->) | (-> & -> & ->)]; reflexivity. }
  rewrite E2. clear E2.
  change (pthrow q) with false. change (pvecs q) with (map snd x). change (pids q) with (map fst x).
  change (pmore q) with more. change (pren1 q) with RenOk. change (pren2 q) with RenOk.
  cbv iota. rewrite !map_length, Nat.eqb_refl. cbn [negb].
  set (i4 := add_ids _ _).
  assert (E4 : ids i4 = map fst (done ++ x)) by (rewrite map_app; reflexivity).
  rewrite E4, (nodup_len _ Hn).
  assert (E5 : add_count i4 (Z.of_nat (length x)) =
    mkItem Importing None false true (map snd (done ++ x)) (map fst (done ++ x)) (map fst (done ++ x))
      (Z.of_nat (length (done ++ x))) ts tso now p None).
  { rewrite !map_app, app_length, Nat2Z.inj_add. reflexivity. }
  rewrite E5. cbn [recv].
  replace (kmax <? Z.of_nat (length (done ++ x))) with false by (symmetry; apply Z.ltb_ge; exact Hk).
  reflexivity.
Qed.

(** The store's pushes, in order, on an item that is empty or has received the rows before them. *)
Lemma pushes_run tmo ts tso now : forall rows d g done acc wr wj wo s ts0 tso0 tl p,
  0 <= tmo ->
  NoDup (map fst (done ++ acc ++ rows)) ->
  kmin <= Z.of_nat (length (done ++ acc ++ rows)) <= kmax ->
  at_done s wo wr wj ts0 tso0 tl ts tso now done ->
  forall es w all,
  es = map (fun b => EPush (to_push ts tso now b)) (batches fullb acc (Z.of_nat (length done)) rows) ->
  w = mkWorld d (mkItem s None false wo wr wj (map fst done) (Z.of_nat (length done)) ts0 tso0 tl p None) [] g false ->
  all = done ++ acc ++ rows ->
  Forall (fun r => r = ROk) (answers tmo w es) /\
  st (wi (run tmo w es)) = Imported /\
  ddata (wd (run tmo w es)) = Some (Z.of_nat (length all), map snd all) /\
  did (wd (run tmo w es)) = Some (Z.of_nat (length all), ts, map fst all).
Proof.
  intros rows. induction rows as [| r rows IH];
    intros d g done acc wr wj wo s ts0 tso0 tl p Ht Hn Hc Hs es w all Hes Hw Hall.
  - cbn [batches map] in Hes. rewrite app_nil_r in *.
    assert (E : exists d' i', act tmo w (EPush (to_push ts tso now (acc, Z.of_nat (length done), false))) =
      (mkWorld d' i' [] g false, ROk) /\ st i' = Imported /\
      ddata d' = Some (Z.of_nat (length all), map snd all) /\
      did d' = Some (Z.of_nat (length all), ts, map fst all)).
    { subst w all. unfold act. cbn [wdead wd wi].
      rewrite (push_import tmo ts tso now d done acc false wr wj wo s ts0 tso0 tl p Ht Hn (proj2 Hc) Hs).
      unfold finish_import. cbn [recv].
      replace (Z.of_nat (length (done ++ acc)) <? kmin) with false by (symmetry; apply Z.ltb_ge; exact (proj1 Hc)).
      eexists _, _. split; [reflexivity |]. repeat split. }
    destruct E as (d' & i' & E & E1 & E2 & E3). subst es. cbn [answers run fold_left]. rewrite E. cbn [fst snd wi wd].
    split; [constructor; [reflexivity | constructor] |]. auto.
  - cbn [batches] in Hes. destruct (fullb (length (acc ++ [r]))).
    + cbn [map] in Hes.
      assert (Ha : done ++ acc ++ r :: rows = (done ++ acc ++ [r]) ++ [] ++ rows)
        by (rewrite <- !app_assoc; reflexivity).
      rewrite Ha in Hn, Hc, Hall. clear Ha. set (x := acc ++ [r]) in *.
      assert (Hn1 : NoDup (map fst (done ++ x))).
      { rewrite map_app in Hn. apply NoDup_app1 in Hn. exact Hn. }
      assert (Hk1 : Z.of_nat (length (done ++ x)) <= kmax).
      { rewrite (app_length (done ++ x)), Nat2Z.inj_add in Hc. lia. }
      set (es' := map _ _) in Hes.
      assert (E : act tmo w (EPush (to_push ts tso now (x, Z.of_nat (length done), true))) =
        (mkWorld d
           (mkItem Importing None false true (map snd (done ++ x)) (map fst (done ++ x)) (map fst (done ++ x))
              (Z.of_nat (length (done ++ x))) ts tso now p None) [] g false, ROk)).
      { subst w. unfold act. cbn [wdead wd wi].
        rewrite (push_import tmo ts tso now d done x true wr wj wo s ts0 tso0 tl p Ht Hn1 Hk1 Hs). reflexivity. }
      subst es. cbn [answers].
      match goal with |- context [run tmo ?w (?e :: ?es)] =>
        change (run tmo w (e :: es)) with (run tmo (fst (act tmo w e)) es) end.
      rewrite E. cbn [fst snd]. clear E.
      set (w1 := mkWorld d _ [] g false).
      destruct (IH d g (done ++ x) [] (map snd (done ++ x)) (map fst (done ++ x)) true Importing ts tso now p
        Ht Hn Hc (or_introl (conj eq_refl (conj eq_refl (conj eq_refl (conj eq_refl (conj eq_refl (conj eq_refl eq_refl))))))) es' w1 all) as (A1 & A2 & A3 & A4);
        [| reflexivity | exact Hall |].
      { unfold es'. rewrite app_length, Nat2Z.inj_add. reflexivity. }
      repeat split; try assumption. constructor; [reflexivity | exact A1].
    + assert (Ha : done ++ acc ++ r :: rows = done ++ (acc ++ [r]) ++ rows) by (rewrite <- !app_assoc; reflexivity).
      rewrite Ha in Hn, Hc, Hall. exact (IH d g done (acc ++ [r]) wr wj wo s ts0 tso0 tl p Ht Hn Hc Hs es w all Hes Hw Hall).
Qed.

Lemma dn_client_import_lemma tmo ts tso now rows ps d g :
  0 <= tmo -> NoDup (map fst rows) ->
  client_plan fullb ts tso now rows = PlanPush ps ->
  let w := mkWorld d (blank Unknown) [] g false in
  let es := map EPush ps in
  Forall (fun r => r = ROk) (answers tmo w es) /\
  st (wi (run tmo w es)) = Imported /\
  holds (fun _ => (ts, rows)) tso (wd (run tmo w es)).
Proof.
  intros Ht Hn Hp. unfold client_plan in Hp.
  destruct (Z.ltb_spec (Z.of_nat (length rows)) kmin); [discriminate |].
  destruct (Z.ltb_spec kmax (Z.of_nat (length rows))); [discriminate |]. injection Hp as <-.
  cbv zeta. rewrite map_map.
  destruct (pushes_run tmo ts tso now rows d g [] [] [] [] false Unknown (-1) (-1) 0 PNone Ht Hn
    (conj H H0) (or_intror (conj eq_refl (conj eq_refl eq_refl))) _ _ rows eq_refl eq_refl eq_refl) as (A1 & A2 & A3 & A4).
  repeat split; assumption.
Qed.

Lemma dn_destroy_fresh_lemma tmo ts tso now rows ps w w' :
  0 <= tmo -> NoDup (map fst rows) -> client_plan fullb ts tso now rows = PlanPush ps ->
  wjobs w = [] -> act tmo w (EDestroy true true true) = (w', ROk) ->
  let es := map EPush ps in
  ddata (wd w') = None /\ did (wd w') = None /\ didx (wd w') = None /\
  (forall p, search w' p = SErr ENotBuild) /\
  (forall p, search (run tmo w' [EStop]) p = SErr ENotBuild) /\
  Forall (fun r => r = ROk) (answers tmo w' es) /\
  st (wi (run tmo w' es)) = Imported /\
  holds (fun _ => (ts, rows)) tso (wd (run tmo w' es)).
Proof.
  intros Ht Hn Hp Hj E. unfold act in E. destruct (wdead w) eqn:Hd; [discriminate |].
  unfold do_close in E. destruct (core_busy (wi w)); [discriminate |].
  cbn in E. rewrite Hj, Hd in E. injection E as <-. cbv zeta.
  split; [reflexivity |]. split; [reflexivity |]. split; [reflexivity |]. split; [reflexivity |].
  split; [reflexivity |]. exact (dn_client_import_lemma tmo ts tso now rows ps _ (wgen w) Ht Hn Hp).
Qed.

Lemma dn_client_small_lemma ts tso now rows :
  (client_plan fullb ts tso now rows = PlanNoData <-> Z.of_nat (length rows) < 2) /\
  (client_plan fullb ts tso now rows = PlanTooMany <-> 2147483647 < Z.of_nat (length rows)).
Proof.
  unfold client_plan, kmin, kmax.
  destruct (Z.ltb_spec (Z.of_nat (length rows)) 2);
    [| destruct (Z.ltb_spec 2147483647 (Z.of_nat (length rows)))];
    split; split; intros E; try discriminate E; try reflexivity; lia.
Qed.

End B.
