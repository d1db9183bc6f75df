(** The invariant of histories with whole destroys and no reset under a build or load. *)
Require Import ZArith List Bool Lia.
From Verif Require Import DnModel DnSpec.
Import ListNotations.
Open Scope Z_scope.

Section G.
Variable S : source.
Variable tmo : Z.

Definition L (k : Z) := snd (S k).
Definition T (k : Z) := fst (S k).
Definition N (k : Z) := Z.of_nat (length (L k)).

Definition full (d : disk) (k : Z) : Prop := holds S k d /\ didx d = Some (map snd (L k)).

Definition F (d : disk) : Prop := didx d = None \/ exists k, full d k.

Inductive bjob (d : disk) (k : Z) : core -> job -> Prop :=
| b0 g f : didx d = None -> bjob d k (mkCore g CInit false false false 0 []) (JB0 f)
| b1 g : didx d = None -> bjob d k (mkCore g Building false false false 0 []) (JB1 g)
| b2 g : didx d = None -> dtmp d = Some (map snd (L k)) ->
    bjob d k (mkCore g Builded true false false (N k) []) (JB2 Builded)
| b3 g : didx d = Some (map snd (L k)) ->
    bjob d k (mkCore g Builded true false false (N k) []) JB3
| b4 g : didx d = Some (map snd (L k)) ->
    bjob d k (mkCore g UpdatedPath true true false (N k) []) (JEnd UpdatedPath None true None)
| b5 c s e np nts : F d -> bjob d k c (JEnd s (Some e) np nts).

Inductive ljob (k : Z) : core -> list Z -> Z -> job -> Prop :=
| l0 g : ljob k (mkCore g UpdatedPath true true false (N k) []) (map fst (L k)) (T k) (JL0 false)
| l0t g ids ts : ljob k (mkCore g CInit false false false 0 []) ids ts (JL0 true)
| l1 g : ljob k (mkCore g Loading true true false (N k) []) (map fst (L k)) (T k) (JL1 g false)
| l1t g ids ts : ljob k (mkCore g Loading false false false 0 []) ids ts (JL1 g true)
| l2 c : cload c = true -> crows c = map snd (L k) ->
    ljob k c (map fst (L k)) (T k) (JL2 Loaded false)
| l2t c ids ts : cload c = true -> crows c = map snd (L k) -> ljob k c ids ts (JL2 Loaded true)
| l3 c : cload c = true -> crows c = map snd (L k) ->
    ljob k c (map fst (L k)) (T k) (JEnd Loaded None false None)
| l3t c ts : cload c = true -> crows c = map snd (L k) ->
    ljob k c (map fst (L k)) ts (JEnd Loaded None false (Some (T k)))
| l4 c ids ts s e np nts : ljob k c ids ts (JEnd s (Some e) np nts).

Inductive good : disk -> item -> list job -> Prop :=
| g_unknown d wr wj ts tso tl p : didx d = None ->
    good d (mkItem Unknown None false false wr wj [] 0 ts tso tl p None) []
| g_importing d k a c tl p : L k = a ++ c -> didx d = None ->
    good d (mkItem Importing None false true (map snd a) (map fst a) (map fst a) (Z.of_nat (length a))
              (T k) k tl p None) []
| g_err d i e : lerr i = Some e -> F d -> good d i []
| g_nodata d im wo wr wj ids rc ts tso tl p : didx d = None -> dnod d = true ->
    good d (mkItem NoData None im wo wr wj ids rc ts tso tl p None) []
| g_fake d k : full d k -> good d (blank FakeBuilded) []
| g_imported d k wr wj rc tso tl p : holds S k d -> didx d = None ->
    good d (mkItem Imported None true false wr wj (map fst (L k)) rc (T k) tso tl p None) []
| g_build d k c j wr wj rc tso tl : holds S k d -> bjob d k c j ->
    good d (mkItem Building None true false wr wj (map fst (L k)) rc (T k) tso tl PTmp (Some c)) [j]
| g_updated d k g wr wj rc tso tl p : full d k ->
    good d (mkItem UpdatedPath None true false wr wj (map fst (L k)) rc (T k) tso tl p
              (Some (mkCore g UpdatedPath true true false (N k) []))) []
| g_load d k c j im wo wr wj ids rc ts tso tl p : full d k -> ljob k c ids ts j ->
    good d (mkItem Loading None im wo wr wj ids rc ts tso tl p (Some c)) [j]
| g_loaded d k c im wo wr wj rc tso tl p : full d k -> cload c = true -> crows c = map snd (L k) ->
    good d (mkItem Loaded None im wo wr wj (map fst (L k)) rc (T k) tso tl p (Some c)) [].

Lemma full_exist d k : full d k -> files_exist d = true.
Proof. intros [[H1 H2] H3]. unfold files_exist. rewrite H1, H2, H3. reflexivity. Qed.

Lemma none_exist d : didx d = None -> files_exist d = false.
Proof. intros H. unfold files_exist. rewrite H. destruct (ddata d), (did d); reflexivity. Qed.

Lemma full_nod b d k : full d k -> full (set_nod b d) k.
Proof. intros H. exact H. Qed.

Lemma look_good d d' i : F d -> look d = (d', i) -> good d' i [].
Proof.
  intros [H | [k H]] E; unfold look in E.
  - rewrite (none_exist d H) in E. destruct (dnod d) eqn:N; injection E as <- <-.
    + apply g_nodata; assumption.
    + apply g_unknown; assumption.
  - rewrite (full_exist d k H) in E. injection E as <- <-. apply (g_fake _ k). apply full_nod, H.
Qed.

Lemma good_F d i js : good d i js -> F d.
Proof.
  intros H. destruct H; try (left; assumption); try assumption; try (right; exists k; assumption).
  destruct H0; try (left; assumption); try assumption; right; exists k; split; assumption.
Qed.

Lemma app_len {A} (a b a' b' : list A) : a ++ b = a' ++ b' -> length a = length a' -> a = a' /\ b = b'.
Proof.
  revert a'. induction a as [| x a IH]; intros [| y a'] E H; cbn in *; try discriminate.
  - split; auto.
  - injection E as -> E. injection H as H. destruct (IH _ E H) as [-> ->]. split; reflexivity.
Qed.

(** One push on an item that is importing or about to. *)
Lemma do_import_good d wo wr wj k a c ids0 ts tso tl p q (d' : disk) (i' : item) r s :
  didx d = None ->
  honest S q ->
  (wo = true -> s = Importing /\ L k = a ++ c /\ wr = map snd a /\ wj = map fst a /\ ts = T k /\ tso = k /\ ptso q = k) ->
  (wo = false -> a = []) ->
  ids0 = map fst a ->
  do_import tmo d (mkItem s None false wo wr wj ids0 (Z.of_nat (length a)) ts tso tl p None) q = (d', i', r) ->
  good d' i' [] /\ (r = ROk -> pmore q = false -> holds S (ptso q) d').
Proof.
  intros Hd [Hts (x & y & z & HL & Hi & Hv & Ho & Hm)] Hw Hn -> E.
  unfold do_import in E. cbn [recv wopen tlast] in E.
  destruct (Z.eqb_spec (poff q) (Z.of_nat (length a))) as [Eo | Eo]; cbn [negb] in E.
  2:{ injection E as <- <- <-. split; [| discriminate]. eapply g_err; [reflexivity | left; exact Hd]. }
  destruct (wo && (tmo <? pnow q - tl)) eqn:Et.
  { injection E as <- <- <-. split; [| discriminate]. eapply g_err; [reflexivity | left; exact Hd]. }
  clear Et. rewrite Hv, Hi, !map_length, Nat.eqb_refl in E. cbn [negb] in E.
  assert (Hx : length x = length a) by lia.
  assert (K : exists kk aa, kk = ptso q /\ aa = a /\ L kk = aa ++ y ++ z /\ T kk = pts q).
  { exists (ptso q), a. repeat split; auto.
    destruct wo.
    - destruct (Hw eq_refl) as (Hs & HL' & _ & _ & _ & _ & Hk). unfold L in *. rewrite Hk in HL.
      rewrite HL in HL'. destruct (app_len _ _ _ _ HL' Hx) as [-> _]. rewrite Hk, HL. reflexivity.
    - specialize (Hn eq_refl). subst a. destruct x; [| discriminate]. exact HL. }
  destruct K as (kk & aa & -> & -> & HK & HT).
  set (i2 := if wopen _ then _ else _) in E.
  assert (Ei : exists p2, i2 = mkItem Importing None false true (map snd a) (map fst a) (map fst a)
                 (Z.of_nat (length a)) (T (ptso q)) (ptso q) (pnow q) p2 None).
  { exists p. unfold i2. destruct wo; cbn.
    - destruct (Hw eq_refl) as (-> & _ & -> & -> & -> & -> & ->). reflexivity.
    - rewrite (Hn eq_refl), HT. reflexivity. }
  destruct Ei as [p2 Ei]. rewrite Ei in E. clear Ei i2.
  destruct (pthrow q).
  { injection E as <- <- <-. split; [| discriminate]. eapply g_err; [reflexivity | left; exact Hd]. }
  cbn [add_rows add_ids add_count st lerr imp wopen wrows wids ids recv its itso tlast pre icore] in E.
  destruct (has_dup _).
  { injection E as <- <- <-. split; [| discriminate]. eapply g_err; [reflexivity | left; exact Hd]. }
  destruct (kmax <? _).
  { injection E as <- <- <-. split; [| discriminate]. eapply g_err; [reflexivity | left; exact Hd]. }
  unfold add_count, add_ids, add_rows in E.
  cbn [st lerr imp wopen wrows wids ids recv its itso tlast pre icore] in E.
  rewrite <- !map_app, <- Nat2Z.inj_add, <- app_length in E.
  destruct (pmore q) eqn:Em.
  { injection E as <- <- <-. split; [| discriminate].
    apply (g_importing _ (ptso q) (a ++ y) z); [rewrite <- app_assoc; exact HK | exact Hd]. }
  specialize (Hm eq_refl). subst z. rewrite app_nil_r in HK. rewrite <- HK in E.
  unfold finish_import in E. cbn [recv wrows wids its] in E.
  destruct (_ <? kmin).
  { injection E as <- <- <-. split; [| discriminate]. eapply g_err; [reflexivity | left; exact Hd]. }
  destruct (pren1 q); [destruct (pren2 q) | |]; injection E as <- <- <-;
    try (split; [| discriminate]; eapply g_err; [reflexivity | left; exact Hd]).
  cbn.
  assert (Hh : holds S (ptso q) (put_id (put_data d RenOk (Z.of_nat (length (L (ptso q))), map snd (L (ptso q))))
     RenOk (Z.of_nat (length (L (ptso q))), T (ptso q), map fst (L (ptso q))))).
  { split; reflexivity. }
  split; [| intros _ _; exact Hh].
  apply (g_imported _ (ptso q)); [exact Hh | exact Hd].
Qed.


Lemma import_good d i js q d' i' r :
  good d i js -> honest S q -> import tmo d i q = (d', i', r) -> good d' i' js.
Proof.
  intros H Hq E. unfold import in E.
  destruct H; cbn [lerr st imp blank] in E;
    try (injection E as <- <- <-; econstructor; eassumption).
  - (* unknown *)
    cbn [wopen andb] in E.
    refine (proj1 (do_import_good d false wr wj 0 [] [] [] ts tso tl p q d' i' r Unknown H Hq _ _ eq_refl E)).
    + discriminate.
    + reflexivity.
  - (* importing *)
    cbn [wopen andb its itso] in E.
    destruct (Z.eqb_spec (pts q) (T k)); cbn [negb] in E;
      [| injection E as <- <- <-; apply (g_importing d k a c); assumption].
    destruct (Z.eqb_spec (ptso q) k); cbn [negb] in E;
      [| injection E as <- <- <-; apply (g_importing d k a c); assumption].
    refine (proj1 (do_import_good d true _ _ k a c _ _ _ tl p q d' i' r Importing H0 Hq _ _ eq_refl E)).
    + intros _. repeat split; auto.
    + discriminate.
  - (* err *)
    rewrite H in E. injection E as <- <- <-. eapply g_err; eassumption.
  - destruct im; injection E as <- <- <-; eapply g_load; eassumption.
  - destruct im; injection E as <- <- <-; eapply g_loaded; eassumption.
Qed.

Lemma close_good d i x d' i' r :
  good d i [] -> (x = None \/ x = Some (true, true, true)) -> do_close d i x = (d', i', r) -> good d' i' [].
Proof.
  intros H Hx E. unfold do_close in E. destruct (core_busy i).
  { injection E as <- <- <-. exact H. }
  destruct Hx as [-> | ->].
  - destruct (look d) as [d1 i1] eqn:El. injection E as <- <- <-.
    eapply look_good; [eapply good_F; eassumption | exact El].
  - injection E as <- <- <-. apply g_unknown. reflexivity.
Qed.

Lemma nodata_good d i js d' i' r : good d i js -> set_no_data d i = (d', i', r) -> good d' i' js.
Proof.
  intros H E. unfold set_no_data in E.
  destruct H; cbn [lerr st imp blank DnModel.ids recv its itso tlast pre icore] in E;
    try (injection E as <- <- <-; econstructor; eassumption).
  - injection E as <- <- <-. apply g_nodata; [exact H | reflexivity].
  - rewrite H in E. injection E as <- <- <-. eapply g_err; eassumption.
Qed.

Lemma toomany_good d i js i' r : good d i js -> set_too_many i = (i', r) -> good d i' js.
Proof.
  intros H E. unfold set_too_many in E.
  destruct H; cbn [lerr st imp blank] in E;
    try (injection E as <- <-; econstructor; eassumption).
  - injection E as <- <-. eapply g_err; [reflexivity | left; exact H].
  - rewrite H in E. destruct (st i), e; injection E as <- <-;
      try (eapply g_err; eassumption).
Qed.

Definition ok (w : world) : Prop := wdead w = false /\ good (wd w) (wi w) (wjobs w).

Lemma build_ok w f : ok w -> ok (fst (build w f)).
Proof.
  intros [Hd H]. destruct w as [d i js g dead]. cbn in *. subst dead. unfold build. cbn [wi].
  destruct H; cbn [lerr st imp blank negb];
    try (split; [reflexivity | cbn [fst wd wi wjobs]; econstructor; eassumption]).
  - rewrite H. split; [reflexivity | eapply g_err; eassumption].
  - split; [reflexivity |]. cbn. apply (g_build _ k); [exact H | apply b0; exact H0].
  - destruct im; (split; [reflexivity | eapply g_load; eassumption]).
  - destruct im; (split; [reflexivity | eapply g_loaded; eassumption]).
Qed.

Lemma load_ok w : ok w -> ok (fst (load w)).
Proof.
  intros [Hd H]. destruct w as [d i js g dead]. cbn in *. subst dead. unfold load. cbn [wi].
  destruct H; cbn [lerr st imp blank negb];
    try (split; [reflexivity | cbn [fst wd wi wjobs]; econstructor; eassumption]).
  - rewrite H. split; [reflexivity | eapply g_err; eassumption].
  - split; [reflexivity |]. cbn. apply (g_load _ k); [exact H | apply l0].
Qed.

Lemma try_load_ok w : ok w -> ok (fst (try_load w)).
Proof.
  intros [Hd H]. destruct w as [d i js g dead]. cbn in *. subst dead. unfold try_load. cbn [wi].
  destruct H; cbn [lerr st imp blank negb wd];
    try (split; [reflexivity | cbn [fst wd wi wjobs]; econstructor; eassumption]).
  - rewrite (none_exist _ H). split; [reflexivity | apply g_unknown; assumption].
  - rewrite H. split; [reflexivity | eapply g_err; eassumption].
  - rewrite (full_exist _ _ H). split; [reflexivity |]. cbn. apply (g_load _ k); [exact H | apply l0t].
Qed.

Lemma firstn_N k : firstn (Z.to_nat (N k)) (map snd (L k)) = map snd (L k).
Proof. unfold N. rewrite Nat2Z.id. rewrite <- (map_length snd). apply firstn_all. Qed.

Lemma bjob_ok d k c j g v wr wj rc tso tl :
  holds S k d -> bjob d k c j ->
  ok (run_job (mkWorld d (mkItem Building None true false wr wj (map fst (L k)) rc (T k) tso tl PTmp (Some c))
                [j] g false) 0 v).
Proof.
  intros Hh H. destruct H; unfold run_job; cbn [wjobs nth_error job_step wi icore].
  - unfold core_build. cbn [cbuilt cst cgen wi negb andb]. rewrite andb_false_r.
    split; [reflexivity |]. cbn. apply (g_build _ k); [exact Hh | apply b1; exact H].
  - cbn [cgen]. rewrite Nat.eqb_refl. unfold core_do_build. cbn [wd]. destruct Hh as [H1 H2]. rewrite H1.
    destruct (_ <? kmin).
    { split; [reflexivity |]. cbn. apply (g_build _ k); [split; assumption | apply b5; left; exact H]. }
    destruct (eok v).
    2:{ split; [reflexivity |]. cbn. apply (g_build _ k); [split; assumption | apply b5; left; exact H]. }
    cbn [negb]. split; [reflexivity |]. cbn.
    apply (g_build _ k); [split; assumption | apply b2; [exact H |]].
    cbn. change (snd (S k)) with (L k). fold (N k). rewrite firstn_N. reflexivity.
  - cbn [wd pre rename_index]. destruct (eren v); (split; [reflexivity |]); cbn.
    + apply (g_build _ k); [exact Hh | apply b3]. cbn. exact H0.
    + apply (g_build _ k); [exact Hh | apply b5; left; exact H].
    + apply (g_build _ k); [exact Hh | apply b5; left; reflexivity].
  - unfold core_update. cbn [cst cbuilt negb wd]. rewrite H. split; [reflexivity |]. cbn.
    apply (g_build _ k); [exact Hh | apply b4; exact H].
  - split; [reflexivity |]. cbn. apply (g_updated _ k). split; assumption.
  - split; [reflexivity |]. cbn. eapply g_err; [reflexivity | exact H].
Qed.

Lemma Neq k : (N k =? Z.of_nat (length (map snd (L k)))) = true.
Proof. rewrite map_length. apply Z.eqb_refl. Qed.

Lemma ljob_ok d k c j g v im wo wr wj ids rc ts tso tl p :
  full d k -> ljob k c ids ts j ->
  ok (run_job (mkWorld d (mkItem Loading None im wo wr wj ids rc ts tso tl p (Some c)) [j] g false) 0 v).
Proof.
  intros Hf H. assert (Hf' := Hf). destruct Hf' as [[H1 H2] H3].
  destruct H; unfold run_job; cbn [wjobs nth_error job_step wi icore].
  - unfold core_load. cbn [cload cst cupd]. split; [reflexivity |]. cbn. apply (g_load _ k); [exact Hf | apply l1].
  - unfold core_load. cbn [cload cst cupd]. split; [reflexivity |]. cbn. apply (g_load _ k); [exact Hf | apply l1t].
  - cbn [cgen]. rewrite Nat.eqb_refl. unfold core_do_load. cbn [wd ccount]. rewrite H3.
    destruct (eok v); cbn [negb].
    2:{ split; [reflexivity |]. cbn. apply (g_load _ k); [exact Hf | apply l4]. }
    rewrite Neq. cbn [negb]. split; [reflexivity |]. cbn. apply (g_load _ k); [exact Hf | apply l2; reflexivity].
  - cbn [cgen]. rewrite Nat.eqb_refl. unfold core_do_load. cbn [wd]. rewrite H1, H3.
    destruct (_ <? kmin).
    { split; [reflexivity |]. cbn. apply (g_load _ k); [exact Hf | apply l4]. }
    destruct (eok v); cbn [negb].
    2:{ split; [reflexivity |]. cbn. apply (g_load _ k); [exact Hf | apply l4]. }
    change (snd (S k)) with (L k). fold (N k). rewrite Neq. cbn [negb].
    split; [reflexivity |]. cbn. apply (g_load _ k); [exact Hf | apply l2t; reflexivity].
  - cbn [read_ids negb]. split; [reflexivity |]. cbn. apply (g_load _ k); [exact Hf | apply l3; assumption].
  - unfold read_ids. cbn [negb wd]. rewrite H2, map_length, Z.eqb_refl.
    split; [reflexivity |]. cbn. apply (g_load _ k); [exact Hf | apply l3t; assumption].
  - split; [reflexivity |]. cbn. apply (g_loaded _ k); assumption.
  - split; [reflexivity |]. cbn. apply (g_loaded _ k); assumption.
  - split; [reflexivity |]. cbn. eapply g_err; [reflexivity | right; exists k; exact Hf].
Qed.

Lemma job_ok w n v : ok w -> ok (run_job w n v).
Proof.
  intros [Hd H]. destruct w as [d i js g dead]. cbn in Hd, H. subst dead.
  assert (E : forall x, js = [x] -> n = O \/ nth_error js n = None).
  { intros x ->. destruct n as [| [| n]]; auto. }
  assert (Hnone : nth_error js n = None -> ok (run_job (mkWorld d i js g false) n v)).
  { intros Hn. unfold run_job. cbn [wjobs]. rewrite Hn. split; [reflexivity | exact H]. }
  inversion H; subst; try (apply Hnone; destruct n; reflexivity).
  - destruct (E _ eq_refl) as [-> | Hn]; [apply bjob_ok; assumption | apply Hnone, Hn].
  - destruct (E _ eq_refl) as [-> | Hn]; [apply (ljob_ok _ k); assumption | apply Hnone, Hn].
Qed.

Lemma act_ok w e :
  ok w ->
  (forall q, e = EPush q -> honest S q) ->
  (forall f1 f2 f3, e = EDestroy f1 f2 f3 -> f1 = true /\ f2 = true /\ f3 = true) ->
  (is_reset e = true -> wjobs w = []) ->
  ok (fst (act tmo w e)).
Proof.
  intros Ho Hq Hf Hc. assert (Ho' := Ho). destruct Ho' as [Hd H].
  destruct e; unfold act; rewrite ?Hd.
  - destruct (import tmo (wd w) (wi w) q) as [[d i] r] eqn:E. cbn. split; [exact Hd |].
    eapply import_good; [exact H | apply Hq; reflexivity | exact E].
  - apply build_ok, Ho.
  - apply load_ok, Ho.
  - apply try_load_ok, Ho.
  - destruct (do_close (wd w) (wi w) None) as [[d i] r] eqn:E. cbn. split; [exact Hd |].
    cbn [wd wi wjobs]. rewrite (Hc eq_refl) in *. eapply close_good; [exact H | left; reflexivity | exact E].
  - destruct (Hf f1 f2 f3 eq_refl) as (-> & -> & ->).
    destruct (do_close (wd w) (wi w) (Some (true, true, true))) as [[d i] r] eqn:E. cbn. split; [exact Hd |].
    cbn [wd wi wjobs]. rewrite (Hc eq_refl) in *. eapply close_good; [exact H | right; reflexivity | exact E].
  - destruct (set_no_data (wd w) (wi w)) as [[d i] r] eqn:E. cbn. split; [exact Hd |].
    eapply nodata_good; [exact H | exact E].
  - destruct (set_too_many (wi w)) as [i r] eqn:E. cbn. split; [exact Hd |].
    eapply toomany_good; [exact H | exact E].
  - cbn [fst]. apply job_ok, Ho.
  - destruct (look (wd w)) as [d i] eqn:E. cbn. split; [reflexivity |].
    eapply look_good; [eapply good_F; exact H | exact E].
Qed.

Lemma run_ok es : forall w,
  ok w -> pushes_honest S es -> whole_destroys es -> calm tmo w es -> ok (run tmo w es).
Proof.
  induction es as [| e es IH]; intros w Ho Hp Hw Hc; [exact Ho |].
  destruct Hc as [Hc1 Hc2].
  change (run tmo w (e :: es)) with (run tmo (fst (act tmo w e)) es).
  apply IH.
  - apply act_ok; auto.
    + intros q ->. apply Hp. left; reflexivity.
    + intros f1 f2 f3 ->. apply Hw. left; reflexivity.
  - intros q Hq. apply Hp. right; exact Hq.
  - intros f1 f2 f3 Hq. apply Hw. right; exact Hq.
  - exact Hc2.
Qed.

Lemma start_ok : ok start.
Proof. split; [reflexivity | apply g_unknown; reflexivity]. Qed.

Lemma map_ids_rows l : forall ps,
  (forall p, In p ps -> (p < length l)%nat) ->
  exists rows, map_ids (map fst l) (map snd l) ps = Some rows /\
    Forall2 (fun p r => nth_error (l : list (Z * Z)) p = Some r) ps rows.
Proof.
  induction ps as [| p ps IH]; intros Hp.
  - exists []. split; [reflexivity | constructor].
  - destruct (IH (fun x Hx => Hp x (or_intror Hx))) as [rows [E HF]].
    destruct (nth_error l p) as [[a b] |] eqn:En.
    + exists ((a, b) :: rows). split; [| constructor; assumption].
      cbn. rewrite (map_nth_error fst _ _ En), (map_nth_error snd _ _ En), E. reflexivity.
    + exfalso. apply nth_error_None in En. specialize (Hp p (or_introl eq_refl)). lia.
Qed.

Lemma search_ok w ps : ok w ->
  search w ps <> SBad /\
  forall rows ts, search w ps = SAns rows ts ->
    exists k, ts = fst (S k) /\ holds S k (wd w) /\ rows_of S k ps rows.
Proof.
  intros [_ H]. destruct w as [d i js g dead]. cbn [wd wi wjobs] in H.
  unfold search. cbn [wi wd].
  destruct H; cbn [lerr st icore blank its DnModel.ids];
    try (destruct (files_exist d)); try (split; [discriminate | intros ? ? E; discriminate]).
  - rewrite H. split; [discriminate | intros ? ? E; discriminate].
  - rewrite H. split; [discriminate | intros ? ? E; discriminate].
  - rewrite H0, H1. cbn [negb].
    destruct (map_ids_rows (L k) (filter (fun p => Nat.ltb p (length (map snd (L k)))) ps)) as [rows [E HF]].
    { intros x Hx. apply filter_In in Hx. destruct Hx as [_ Hx]. apply Nat.ltb_lt in Hx.
      rewrite map_length in Hx. exact Hx. }
    rewrite E. split; [discriminate |]. intros rows' ts Es. injection Es as <- <-.
    exists k. split; [reflexivity |]. split; [exact (proj1 H) |].
    unfold rows_of. rewrite map_length in HF. exact HF.
  - rewrite H0, H1. cbn [negb].
    destruct (map_ids_rows (L k) (filter (fun p => Nat.ltb p (length (map snd (L k)))) ps)) as [rows [E HF]].
    { intros x Hx. apply filter_In in Hx. destruct Hx as [_ Hx]. apply Nat.ltb_lt in Hx.
      rewrite map_length in Hx. exact Hx. }
    rewrite E. split; [discriminate |]. intros rows' ts Es. injection Es as <- <-.
    exists k. split; [reflexivity |]. split; [exact (proj1 H) |].
    unfold rows_of. rewrite map_length in HF. exact HF.
Qed.

Lemma dn_one_import_lemma es ps rows ts :
  pushes_honest S es -> whole_destroys es -> calm tmo start es ->
  search (run tmo start es) ps = SAns rows ts ->
  exists k, ts = fst (S k) /\ holds S k (wd (run tmo start es)) /\ rows_of S k ps rows.
Proof.
  intros Hp Hw Hc. exact (proj2 (search_ok _ ps (run_ok es start start_ok Hp Hw Hc)) rows ts).
Qed.

Lemma dn_no_crash_lemma es ps :
  pushes_honest S es -> whole_destroys es -> calm tmo start es ->
  wdead (run tmo start es) = false /\ search (run tmo start es) ps <> SBad.
Proof.
  intros Hp Hw Hc. assert (H := run_ok es start start_ok Hp Hw Hc).
  split; [exact (proj1 H) | exact (proj1 (search_ok _ ps H))].
Qed.

(** The no-data mark. *)
Definition marked (w : world) : Prop :=
  wdead w = false /\ lerr (wi w) = None /\ st (wi w) = NoData /\ icore (wi w) = None /\
  didx (wd w) = None /\ dnod (wd w) = true /\ wjobs w = [].

Lemma marked_step w e : marked w -> is_destroy e = false -> marked (fst (act tmo w e)).
Proof.
  intros (H1 & H2 & H3 & H4 & H5 & H6 & H7) He.
  assert (Hm : marked w) by (repeat split; assumption).
  destruct e; try discriminate He; unfold act; rewrite ?H1.
  - unfold import. rewrite H2, H3. destruct w; exact Hm.
  - unfold build. rewrite H2, H3. exact Hm.
  - unfold load. rewrite H2, H3. exact Hm.
  - unfold try_load. rewrite H2, H3. exact Hm.
  - unfold do_close, core_busy. rewrite H4. unfold look. rewrite (none_exist _ H5), H6. cbn.
    repeat split; assumption.
  - unfold set_no_data. rewrite H2, H3. destruct w; exact Hm.
  - unfold set_too_many. rewrite H3, H2. destruct w; exact Hm.
  - unfold run_job. rewrite H7. destruct n; exact Hm.
  - unfold look. rewrite (none_exist _ H5), H6. cbn. repeat split; assumption.
Qed.

Lemma marked_run es : forall w, marked w -> (forall e, In e es -> is_destroy e = false) -> marked (run tmo w es).
Proof.
  induction es as [| e es IH]; intros w H He; [exact H |].
  change (run tmo w (e :: es)) with (run tmo (fst (act tmo w e)) es).
  apply IH; [apply marked_step; [exact H | apply He; left; reflexivity] | intros x Hx; apply He; right; exact Hx].
Qed.

Lemma dn_no_data_lemma es w' fs :
  pushes_honest S es -> whole_destroys es -> calm tmo start es ->
  act tmo (run tmo start es) ESetNoData = (w', ROk) ->
  (forall e, In e fs -> is_destroy e = false) ->
  let w := run tmo w' fs in
  (forall ps, search w ps = SErr EIsNoData) /\
  (forall q, act tmo w (EPush q) = (w, RErr EStateWrong)) /\
  (forall f, act tmo w (EBuild f) = (w, RErr EStateWrong)) /\
  act tmo w ETryLoad = (w, RErr EStateWrong).
Proof.
  intros Hp Hw Hc E Hf. assert (H := run_ok es start start_ok Hp Hw Hc).
  assert (M : marked w').
  { revert E H. generalize (run tmo start es) as w0. intros w0 E [Hd H].
    unfold act in E. rewrite Hd in E. destruct w0 as [d i js g dead]. cbn in Hd, H, E. subst dead.
    unfold set_no_data in E.
    destruct H; cbn [lerr st imp blank DnModel.ids recv its itso tlast pre icore] in E;
      try (injection E as <- E; discriminate E).
    - cbn in E. injection E as <-. repeat split; assumption.
    - rewrite H in E. cbn in E. discriminate E.
    - cbn in E. injection E as <-. repeat split; assumption. }
  assert (M' := marked_run fs w' M Hf). cbv zeta. revert M'. generalize (run tmo w' fs) as w. intros w.
  intros (H1 & H2 & H3 & H4 & H5 & H6 & H7).
  split; [intros ps; unfold search; rewrite H2, H3; reflexivity |].
  split; [intros q; unfold act; rewrite H1; unfold import; rewrite H2, H3; destruct w; reflexivity |].
  split; [intros f; unfold act; rewrite H1; unfold build; rewrite H2, H3; reflexivity |].
  unfold act. rewrite H1. unfold try_load. rewrite H2, H3. reflexivity.
Qed.

End G.
