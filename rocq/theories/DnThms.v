(** Properties of the DiskANN server's item. *)
Require Import ZArith List Bool Lia.
From Verif Require Import DnModel DnSpec DnProofs DnProofs2 DnDemo.
Import ListNotations.
Open Scope Z_scope.

(** C148.  Whatever pushes are lost, repeated or reordered, whatever imports interleave, wherever the
    process stops, a search's answer pairs the ids and vectors of one import, at the positions found, with
    that import's timestamp; missing: destroys cut short, resets under a build or load. *)
Theorem C148_answers_come_from_one_import_partial : forall (S : source) (tmo : Z) es ps rows ts,
  pushes_honest S es -> whole_destroys es -> calm tmo start es ->
  search (run tmo start es) ps = SAns rows ts ->
  exists k, ts = fst (S k) /\ holds S k (wd (run tmo start es)) /\ rows_of S k ps rows.
Proof. exact dn_one_import_lemma. Qed.
Print Assumptions C148_answers_come_from_one_import_partial.

Ltac honest_tac a b c :=
  split; [reflexivity |]; exists a, b, c; repeat split; intros; try discriminate; reflexivity.

Lemma demo_honest : pushes_honest src demo.
Proof.
  intros q Hq. repeat (destruct Hq as [Hq | Hq]; [try discriminate Hq; injection Hq as <- |]);
    [ honest_tac (@nil (Z * Z)) [(11, 100); (12, 200)] [(13, 300)]
    | honest_tac (@nil (Z * Z)) [(11, 100); (12, 200)] [(13, 300)]
    | honest_tac (@nil (Z * Z)) [(21, 400); (22, 500); (23, 600)] (@nil (Z * Z))
    | honest_tac [(11, 100); (12, 200)] [(13, 300)] (@nil (Z * Z)) | destruct Hq ].
Qed.

Example C148_case :
  pushes_honest src demo /\ whole_destroys demo /\ calm 30000 start demo /\
  search (run 30000 start demo) [2%nat; 0%nat; 7%nat] = SAns [(13, 300); (11, 100)] 5.
Proof.
  split; [exact demo_honest |]. split.
  - intros f1 f2 f3 H. repeat (destruct H as [H | H]; [discriminate H |]). destruct H.
  - split; [repeat (split; [intros E; try discriminate E; reflexivity |]); exact I | vm_compute; reflexivity].
Qed.

(** A destroy cut short after its first file, a new import, a restart: the old vectors answer under the
    new ids and timestamp. *)
Theorem C148_torn_destroy_refuted : exists (S : source) (tmo : Z) es ps rows ts,
  pushes_honest S es /\ calm tmo start es /\
  search (run tmo start es) ps = SAns rows ts /\
  ~ exists k, rows_of S k ps rows.
Proof.
  exists src, 30000, torn, [0%nat], [(21, 100)], 9.
  split; [| split; [| split]].
  - intros q Hq. repeat (destruct Hq as [Hq | Hq]; [try discriminate Hq; injection Hq as <- |]);
      [ honest_tac (@nil (Z * Z)) [(11, 100); (12, 200); (13, 300)] (@nil (Z * Z))
      | honest_tac (@nil (Z * Z)) [(21, 400); (22, 500); (23, 600)] (@nil (Z * Z)) | destruct Hq ].
  - repeat (split; [intros E; try discriminate E; reflexivity |]); exact I.
  - vm_compute. reflexivity.
  - intros [k H]. unfold rows_of, src in H.
    destruct (k =? 1); [cbn in H; inversion H; subst; discriminate |].
    destruct (k =? 2); [cbn in H; inversion H; subst; discriminate |].
    cbn in H. inversion H.
Qed.
Print Assumptions C148_torn_destroy_refuted.

(** C149.  In every history, resets under builds and destroys cut short included: when the push that ends
    an import is acknowledged, the files hold exactly that import; missing: an item that has already
    finished an import acknowledges and drops the push. *)
Theorem C149_acknowledged_import_is_in_the_files_partial : forall (S : source) (tmo : Z) es q w',
  pushes_honest S es -> honest S q ->
  imp (wi (run tmo start es)) = false ->
  act tmo (run tmo start es) (EPush q) = (w', ROk) -> pmore q = false ->
  holds S (ptso q) (wd w').
Proof. exact dn_import_exact_lemma. Qed.
Print Assumptions C149_acknowledged_import_is_in_the_files_partial.

Example C149_case :
  let es := [mk 1 0 2 true; EClose; mk 1 0 2 true; mk 2 0 3 false] in
  let q := mkPush [300] [13] false 2 5 1 1000 false RenOk RenOk in
  imp (wi (run 30000 start es)) = false /\ snd (act 30000 (run 30000 start es) (EPush q)) = ROk /\
  ddata (wd (fst (act 30000 (run 30000 start es) (EPush q)))) = Some (3, [100; 200; 300]).
Proof. vm_compute. auto. Qed.

(** The last push of import 2 is acknowledged, the files hold import 1. *)
Theorem C149_second_import_dropped_refuted : exists (S : source) (tmo : Z) es q w',
  pushes_honest S es /\ honest S q /\
  act tmo (run tmo start es) (EPush q) = (w', ROk) /\ pmore q = false /\
  ~ holds S (ptso q) (wd w').
Proof.
  exists src, 30000, [mk 1 0 3 false], (mkPush [400; 500; 600] [21; 22; 23] false 0 9 2 1000 false RenOk RenOk).
  eexists. split; [| split; [| split; [vm_compute; reflexivity | split; [reflexivity |]]]].
  - intros q [Hq | []]. injection Hq as <-. honest_tac (@nil (Z * Z)) [(11, 100); (12, 200); (13, 300)] (@nil (Z * Z)).
  - honest_tac (@nil (Z * Z)) [(21, 400); (22, 500); (23, 600)] (@nil (Z * Z)).
  - intros [H _]. vm_compute in H. discriminate H.
Qed.
Print Assumptions C149_second_import_dropped_refuted.

(** C150.  After an error, with no build or load under way, every push, build, load and search is refused
    with that error and the files stay as they are, until a reset or a restart. *)
Theorem C150_error_lasts : forall (tmo : Z) es w e,
  wdead w = false -> wjobs w = [] -> lerr (wi w) = Some e ->
  (forall x, In x es -> is_fresh x = false) ->
  wd (run tmo w es) = wd w /\
  (forall x, is_work x = true -> act tmo (run tmo w es) x = (run tmo w es, RErr e)) /\
  (forall ps, search (run tmo w es) ps = SErr e).
Proof. exact dn_error_lasts_lemma. Qed.
Print Assumptions C150_error_lasts.

(** A batch out of order is such an error. *)
Example C150_case :
  let w := run 30000 start [mk 1 0 2 true; mk 1 0 2 true] in
  wdead w = false /\ wjobs w = [] /\ lerr (wi w) = Some EQuantity.
Proof. vm_compute. auto. Qed.

(** C150.  A reset of an item in error is granted and ends the error. *)
Theorem C150_reset_clears : forall (tmo : Z) w f1 f2 f3 e,
  wdead w = false -> lerr (wi w) = Some e ->
  forall ev, ev = EClose \/ ev = EDestroy f1 f2 f3 ->
  snd (act tmo w ev) = ROk /\ lerr (wi (fst (act tmo w ev))) = None /\
  recv (wi (fst (act tmo w ev))) = 0 /\ imp (wi (fst (act tmo w ev))) = false /\
  (ev = EDestroy f1 f2 f3 -> st (wi (fst (act tmo w ev))) = Unknown).
Proof. exact dn_reset_clears_lemma. Qed.
Print Assumptions C150_reset_clears.

(** C151.  The server neither follows a null or freed core nor reads outside the id table; missing: resets
    under a build or load, destroys cut short. *)
Theorem C151_no_crash_partial : forall (S : source) (tmo : Z) es ps,
  pushes_honest S es -> whole_destroys es -> calm tmo start es ->
  wdead (run tmo start es) = false /\ search (run tmo start es) ps <> SBad.
Proof. exact dn_no_crash_lemma. Qed.
Print Assumptions C151_no_crash_partial.

(** A destroy, acknowledged, just after a build began: the build follows a null pointer. *)
Theorem C151_reset_under_build_refuted : exists (S : source) (tmo : Z) es,
  pushes_honest S es /\ whole_destroys es /\
  Forall (fun r => r = ROk \/ r = RPend) (answers tmo start es) /\
  wdead (run tmo start es) = true.
Proof.
  exists src, 30000, race. split; [| split; [| split]].
  - intros q Hq. repeat (destruct Hq as [Hq | Hq]; [try discriminate Hq; injection Hq as <- |]);
      [ honest_tac (@nil (Z * Z)) [(11, 100); (12, 200); (13, 300)] (@nil (Z * Z)) | destruct Hq ].
  - intros f1 f2 f3 H. cbn in H. destruct H as [H | [H | [H | [H | []]]]]; try discriminate H.
    injection H as <- <- <-. auto.
  - vm_compute. repeat (constructor; [auto |]). constructor.
  - vm_compute. reflexivity.
Qed.
Print Assumptions C151_reset_under_build_refuted.

(** C151.  While the library itself builds or loads, a reset is refused and changes nothing. *)
Theorem C151_reset_refused_while_library_works : forall (tmo : Z) w c ev,
  wdead w = false -> lerr (wi w) = None -> icore (wi w) = Some c ->
  (cst c = Building \/ cst c = Loading) -> is_reset ev = true ->
  exists e, act tmo w ev = (w, RErr e) /\ (e = EIsBuilding \/ e = EIsLoading).
Proof. exact dn_reset_refused_lemma. Qed.
Print Assumptions C151_reset_refused_while_library_works.

Example C151_case :
  let w := run 30000 start [mk 1 0 3 false; EBuild false; EJob 0 v0] in
  wdead w = false /\ lerr (wi w) = None /\ exists c, icore (wi w) = Some c /\ cst c = Building.
Proof. vm_compute. repeat split. eexists. split; reflexivity. Qed.

(** C152.  After an acknowledged destroy with no build or load under way, whatever the history before, the
    files are gone, a search finds no index, after a restart neither, and a new import is taken from its
    first push to its last; missing: a build or load under way. *)
Theorem C152_destroyed_is_as_new_partial : forall fullb (tmo ts tso now : Z) rows ps w w',
  0 <= tmo -> NoDup (map fst rows) -> client_plan fullb ts tso now rows = PlanPush ps ->
  wjobs w = [] -> act tmo w (EDestroy true true true) = (w', ROk) ->
  let es := map EPush ps in
  ddata (wd w') = None /\ did (wd w') = None /\ didx (wd w') = None /\
  (forall p, search w' p = SErr ENotBuild) /\
  (forall p, search (run tmo w' [EStop]) p = SErr ENotBuild) /\
  Forall (fun r => r = ROk) (answers tmo w' es) /\
  st (wi (run tmo w' es)) = Imported /\
  holds (fun _ => (ts, rows)) tso (wd (run tmo w' es)).
Proof. exact dn_destroy_fresh_lemma. Qed.
Print Assumptions C152_destroyed_is_as_new_partial.

Example C152_case :
  let w := run 30000 start demo in
  wjobs w = [] /\ snd (act 30000 w (EDestroy true true true)) = ROk /\
  exists ps, client_plan (fun n => Nat.leb 2 n) 9 2 1000 (snd (src 2)) = PlanPush ps /\ length ps = 2%nat.
Proof. vm_compute. repeat split. eexists. split; reflexivity. Qed.

(** A destroy acknowledged before a build has stored its state is undone by it: the first push of a new
    import is refused, and the load that the item invites follows a null pointer. *)
Theorem C152_destroy_undone_refuted : exists (tmo : Z) w w1,
  w = run tmo start late /\ act tmo w (EDestroy true true true) = (w1, ROk) /\
  let w2 := run tmo w1 [EJob 0 v0] in
  wjobs w2 = [] /\ snd (act tmo w2 (mk 2 0 3 true)) = RErr EStateWrong /\
  wdead (run tmo w2 [ELoad; EJob 0 v0]) = true.
Proof. exists 30000. eexists. eexists. split; [reflexivity |]. split; [vm_compute; reflexivity |].
  vm_compute. auto. Qed.
Print Assumptions C152_destroy_undone_refuted.

(** C153.  Once the no-data mark is acknowledged, through resets that keep the files and restarts and
    until a destroy, searches say no data and pushes, builds and loads are refused; missing: earlier
    destroys cut short, resets under a build or load. *)
Theorem C153_no_data_lasts_partial : forall (S : source) (tmo : Z) es w' fs,
  pushes_honest S es -> whole_destroys es -> calm tmo start es ->
  act tmo (run tmo start es) ESetNoData = (w', ROk) ->
  (forall e, In e fs -> is_destroy e = false) ->
  let w := run tmo w' fs in
  (forall ps, search w ps = SErr EIsNoData) /\
  (forall q, act tmo w (EPush q) = (w, RErr EStateWrong)) /\
  (forall f, act tmo w (EBuild f) = (w, RErr EStateWrong)) /\
  act tmo w ETryLoad = (w, RErr EStateWrong).
Proof. exact dn_no_data_lemma. Qed.
Print Assumptions C153_no_data_lasts_partial.

Example C153_case :
  let es := demo ++ [EDestroy true true true] in
  calm 30000 start es /\ snd (act 30000 (run 30000 start es) ESetNoData) = ROk.
Proof.
  split; [repeat (split; [intros E; try discriminate E; reflexivity |]); exact I | vm_compute; reflexivity].
Qed.

(** A destroy whose renames all fail is acknowledged; the mark is then taken and lost at the next
    restart. *)
Theorem C153_mark_lost_refuted : exists (tmo : Z) es w' fs,
  calm tmo start es /\ act tmo (run tmo start es) ESetNoData = (w', ROk) /\
  (forall e, In e fs -> is_destroy e = false) /\
  search (run tmo w' fs) [0%nat] <> SErr EIsNoData.
Proof.
  exists 30000, unmoved. eexists. exists [EStop]. split; [| split; [vm_compute; reflexivity | split]].
  - repeat (split; [intros E; try discriminate E; reflexivity |]); exact I.
  - intros e [<- | []]. reflexivity.
  - vm_compute. discriminate.
Qed.
Print Assumptions C153_mark_lost_refuted.

(** C154.  The store's pushes are stretches of the rows it read, counted right, and only the last says that
    nothing follows. *)
Theorem C154_pushes_are_stretches : forall fullb S (ts tso now : Z) rows q ps,
  S tso = (ts, rows) -> client_plan fullb ts tso now rows = PlanPush ps -> In q ps -> honest S q.
Proof. exact dn_batches_honest_lemma. Qed.
Print Assumptions C154_pushes_are_stretches.

(** C154.  On an empty item, with distinct ids, every push is acknowledged and in the end the files hold
    exactly the rows. *)
Theorem C154_import_completes : forall fullb (tmo ts tso now : Z) rows ps d g,
  0 <= tmo -> NoDup (map fst rows) ->
  client_plan fullb ts tso now rows = PlanPush ps ->
  let w := mkWorld d (blank Unknown) [] g false in
  let es := map EPush ps in
  Forall (fun r => r = ROk) (answers tmo w es) /\
  st (wi (run tmo w es)) = Imported /\
  holds (fun _ => (ts, rows)) tso (wd (run tmo w es)).
Proof. exact dn_client_import_lemma. Qed.
Print Assumptions C154_import_completes.

(** C154.  A region with fewer than two vectors is marked as having no data, one with more than the
    greatest 32-bit integer is marked as too large; all others are pushed. *)
Theorem C154_small_and_large_regions : forall fullb (ts tso now : Z) rows,
  (client_plan fullb ts tso now rows = PlanNoData <-> Z.of_nat (length rows) < 2) /\
  (client_plan fullb ts tso now rows = PlanTooMany <-> 2147483647 < Z.of_nat (length rows)).
Proof. exact dn_client_small_lemma. Qed.
Print Assumptions C154_small_and_large_regions.

Example C154_case :
  exists ps, client_plan (fun n => Nat.leb 2 n) 5 1 1000 (snd (src 1)) = PlanPush ps /\
    map poff ps = [0; 2] /\ map pids ps = [[11; 12]; [13]].
Proof. eexists. split; [vm_compute; reflexivity |]. vm_compute. auto. Qed.
