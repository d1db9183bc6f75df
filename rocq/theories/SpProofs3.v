(** Proofs about the store's use of safe points. *)
From Coq Require Import ZArith List Bool Lia.
From Verif Require Import SpModel SpSpec SpProofs.
Import ListNotations.
Open Scope Z_scope.

Lemma zget_map {A B} (f : A -> B) (m : list (Z * A)) k : zget (map (fun e => (fst e, f (snd e))) m) k = option_map f (zget m k).
Proof. induction m as [|[a x] m IH]; simpl; [reflexivity|]. destruct (k =? a); [reflexivity|exact IH]. Qed.
Definition resort (e : entry) : entry := mkEnt (negb (e_stop e)) (e_stop e) (e_sp e).
Lemma sort_out_get m k : zget (sort_out m) k = option_map resort (zget m k).
Proof. exact (zget_map resort m k). Qed.

Lemma fold_set_out stop l : forall m t, ~ In t (map fst l) -> zget (fold_left (set_one stop) l m) t = zget m t.
Proof.
  induction l as [|[k sp] l IH]; intros m t H; [reflexivity|]. simpl in H. cbn [fold_left]. rewrite IH by tauto.
  unfold set_one. cbn [fst]. rewrite zget_set. destruct (Z.eqb_spec t k); [subst; tauto|reflexivity].
Qed.
Lemma fold_set_in stop l : forall m t, In t (map fst l) ->
  exists a sp, zget (fold_left (set_one stop) l m) t = Some (mkEnt a stop sp) /\ In (t, sp) l.
Proof.
  induction l as [|[k sp] l IH]; intros m t H; [destruct H|]. cbn [fold_left].
  destruct (in_dec Z.eq_dec t (map fst l)) as [I|I].
  - destruct (IH (set_one stop m (k, sp)) t I) as (a & x & E & J). exists a, x. split; [exact E|right; exact J].
  - rewrite (fold_set_out stop l _ t I). simpl in H. destruct H as [->|H]; [|contradiction].
    unfold set_one. cbn [fst snd]. rewrite zget_set, Z.eqb_refl. eexists _, sp. split; [reflexivity|left; reflexivity].
Qed.
Lemma set_all_in m stop l t : In t (map fst l) -> exists sp, zget (set_all m stop l) t = Some (mkEnt (negb stop) stop sp) /\ In (t, sp) l.
Proof.
  intros H. unfold set_all. rewrite sort_out_get. destruct (fold_set_in stop l m t H) as (a & sp & -> & J).
  exists sp. split; [reflexivity|exact J].
Qed.
Lemma set_all_out m stop l t : ~ In t (map fst l) -> zget (set_all m stop l) t = option_map resort (zget m t).
Proof. intros H. unfold set_all. rewrite sort_out_get, (fold_set_out stop l m t H). reflexivity. Qed.

Lemma group_given sp tens t x : In (t, x) (group_of sp tens) <-> given sp tens t x.
Proof.
  unfold group_of, given. simpl. rewrite filter_In. cbn [fst]. rewrite negb_true_iff, Z.eqb_neq. split.
  - intros [[= <- <-]|[A B]]; auto.
  - intros [[-> ->]|[A B]]; auto.
Qed.
Lemma given_key sp tens t x : given sp tens t x -> In t (map fst (group_of sp tens)).
Proof. intros H. apply group_given in H. apply (in_map fst) in H. exact H. Qed.
Lemma set_all_entry m stop sp tens t e : zget (set_all m stop (group_of sp tens)) t = Some e ->
  given sp tens t (e_sp e) \/ exists e0, zget m t = Some e0 /\ e_sp e0 = e_sp e.
Proof.
  intros H. destruct (in_dec Z.eq_dec t (map fst (group_of sp tens))) as [I|I].
  - destruct (set_all_in m stop _ t I) as (x & E & J). rewrite E in H. injection H as <-. left. apply group_given. exact J.
  - rewrite (set_all_out m stop _ t I) in H. destruct (zget m t) as [e0|] eqn:E; [|discriminate]. cbn in H. injection H as <-. right. exists e0. auto.
Qed.

Lemma leave_get m k t : zget (leave m k) t = if t =? k then option_map (fun e => mkEnt false (e_stop e) (e_sp e)) (zget m t) else zget m t.
Proof.
  unfold leave. destruct (zget m k) as [e|] eqn:E.
  - rewrite zget_set. destruct (Z.eqb_spec t k) as [->|]; [rewrite E|]; reflexivity.
  - destruct (Z.eqb_spec t k) as [->|]; [rewrite E|]; reflexivity.
Qed.
Lemma set_stop_get b m k t : zget (set_stop b m k) t = if t =? k then option_map (fun e => mkEnt (e_act e) b (e_sp e)) (zget m t) else zget m t.
Proof.
  unfold set_stop. destruct (zget m k) as [e|] eqn:E.
  - rewrite zget_set. destruct (Z.eqb_spec t k) as [->|]; [rewrite E|]; reflexivity.
  - destruct (Z.eqb_spec t k) as [->|]; [rewrite E|]; reflexivity.
Qed.
(** leaving and resetting keep the entry and its safe point *)
Lemma fold_leave_get l : forall m t e, zget (fold_left leave l m) t = Some e -> exists e0, zget m t = Some e0 /\ e_sp e0 = e_sp e /\ e_stop e0 = e_stop e.
Proof.
  induction l as [|k l IH]; intros m t e H; [simpl in H; exists e; auto|]. cbn [fold_left] in H.
  destruct (IH _ _ _ H) as (e1 & E1 & S1 & S2). rewrite leave_get in E1. destruct (t =? k); [|exists e1; auto].
  destruct (zget m t) as [e0|]; [|discriminate]. cbn in E1. exists e0. split; [reflexivity|].
  assert (e1 = mkEnt false (e_stop e0) (e_sp e0)) by congruence. subst e1. auto.
Qed.
Lemma fold_leave_some l : forall m t, zget m t <> None -> zget (fold_left leave l m) t <> None.
Proof.
  induction l as [|k l IH]; intros m t H; [exact H|]. cbn [fold_left]. apply IH. rewrite leave_get.
  destruct (t =? k); [|exact H]. destruct (zget m t); [discriminate|exact H].
Qed.
Lemma fold_leave_out l : forall m t, ~ In t l -> zget (fold_left leave l m) t = zget m t.
Proof.
  induction l as [|k l IH]; intros m t H; [reflexivity|]. cbn [fold_left]. simpl in H. rewrite IH by tauto. rewrite leave_get.
  destruct (Z.eqb_spec t k); [subst; tauto|reflexivity].
Qed.
Lemma fold_stop_get b l : forall m t e, zget (fold_left (set_stop b) l m) t = Some e -> exists e0, zget m t = Some e0 /\ e_sp e0 = e_sp e /\ e_act e0 = e_act e.
Proof.
  induction l as [|k l IH]; intros m t e H; [simpl in H; exists e; auto|]. cbn [fold_left] in H.
  destruct (IH _ _ _ H) as (e1 & E1 & S1 & S2). rewrite set_stop_get in E1. destruct (t =? k); [|exists e1; auto].
  destruct (zget m t) as [e0|]; [|discriminate]. cbn in E1. exists e0. split; [reflexivity|].
  assert (e1 = mkEnt (e_act e0) b (e_sp e0)) by congruence. subst e1. auto.
Qed.
Lemma fold_stop_some b l : forall m t, zget m t <> None -> zget (fold_left (set_stop b) l m) t <> None.
Proof.
  induction l as [|k l IH]; intros m t H; [exact H|]. cbn [fold_left]. apply IH. rewrite set_stop_get.
  destruct (t =? k); [|exact H]. destruct (zget m t); [discriminate|exact H].
Qed.
Lemma fold_stop_out b l : forall m t, ~ In t l -> zget (fold_left (set_stop b) l m) t = zget m t.
Proof.
  induction l as [|k l IH]; intros m t H; [reflexivity|]. cbn [fold_left]. simpl in H. rewrite IH by tauto. rewrite set_stop_get.
  destruct (Z.eqb_spec t k); [subst; tauto|reflexivity].
Qed.
Lemma fold_stop_in b l : forall m t e, In t l -> zget (fold_left (set_stop b) l m) t = Some e -> e_stop e = b.
Proof.
  induction l as [|k l IH]; intros m t e H G; [destruct H|]. cbn [fold_left] in G.
  destruct (in_dec Z.eq_dec t l) as [I|I]; [exact (IH _ _ _ I G)|].
  rewrite fold_stop_out in G by exact I. simpl in H. destruct H as [->|H]; [|contradiction].
  rewrite set_stop_get, Z.eqb_refl in G. destruct (zget m t); [|discriminate]. cbn in G. injection G as <-. reflexivity.
Qed.

Lemma get_all_in m t b x : In (t, (b, x)) (get_all m) -> exists e, In (t, e) m /\ e_act e = true /\ e_stop e = b /\ e_sp e = x.
Proof.
  unfold get_all. rewrite in_map_iff. intros ([k e] & [= <- <- <-] & H). apply filter_In in H as [H1 H2]. exists e. auto.
Qed.

(** keys are distinct *)
Definition uniq (m : mgr) : Prop := NoDup (map fst m).
Lemma filter_keys {A} (f : Z * A -> bool) (m : list (Z * A)) k : In k (map fst (filter f m)) -> In k (map fst m).
Proof. rewrite !in_map_iff. intros (e & <- & H). apply filter_In in H as [H _]. exists e. auto. Qed.
Lemma filter_nodup {A} (f : Z * A -> bool) (m : list (Z * A)) : NoDup (map fst m) -> NoDup (map fst (filter f m)).
Proof.
  induction m as [|e m IH]; simpl; intros N; [constructor|]. inversion N as [|? ? N1 N2]; subst.
  destruct (f e); [|auto]. simpl. constructor; [|auto]. intros H. apply N1. exact (filter_keys f m _ H).
Qed.
Lemma zset_uniq m k (e : entry) : uniq m -> uniq (zset m k e).
Proof.
  intros N. unfold uniq, zset. simpl. constructor; [|apply filter_nodup; exact N].
  intros H. apply in_map_iff in H as ([a v] & E & H). apply filter_In in H as [_ H]. cbn in *. subst. rewrite Z.eqb_refl in H. discriminate.
Qed.
Lemma set_all_uniq m stop l : uniq m -> uniq (set_all m stop l).
Proof.
  intros N. unfold set_all, uniq, sort_out. rewrite map_map. cbn [fst].
  assert (F : forall m, uniq m -> uniq (fold_left (set_one stop) l m)).
  { clear. induction l as [|p l IH]; intros m N; [exact N|]. cbn [fold_left]. apply IH. apply zset_uniq. exact N. }
  exact (F m N).
Qed.
Lemma fold_leave_uniq l : forall m, uniq m -> uniq (fold_left leave l m).
Proof. induction l as [|k l IH]; intros m N; [exact N|]. cbn [fold_left]. apply IH. unfold leave. destruct (zget m k); [apply zset_uniq|]; exact N. Qed.
Lemma fold_stop_uniq b l : forall m, uniq m -> uniq (fold_left (set_stop b) l m).
Proof. induction l as [|k l IH]; intros m N; [exact N|]. cbn [fold_left]. apply IH. unfold set_stop. destruct (zget m k); [apply zset_uniq|]; exact N. Qed.
Lemma get_all_uniq m : uniq m -> NoDup (map fst (get_all m)).
Proof. intros N. unfold get_all. rewrite map_map. cbn [fst]. apply filter_nodup. exact N. Qed.

(** * Where safe points come from *)
Definition told (es : list gev) (t x : Z) : Prop := exists stop sp tens, In (GFetch stop sp tens) es /\ given sp tens t x.
Definition src (es : list gev) (s : store) : Prop :=
  uniq (g_mgr s) /\
  (forall t e, zget (g_mgr s) t = Some e -> told es t (e_sp e)) /\
  (match g_ph s with
   | RIdle => True
   | RRead g => forall t b x, In (t, (b, x)) g -> told es t x
   | RWork g _ => forall t b x, In (t, (b, x)) g -> told es t x /\ 0 < x
   | RColl g _ _ t y => (forall t b x, In (t, (b, x)) g -> told es t x /\ 0 < x) /\ told es t y /\ 0 < y
   end) /\
  (forall a, In a (g_seen s) -> f_client a = false /\ told es (f_tenant a) (f_sp a) /\ 0 < f_sp a) /\
  (forall a, In a (g_fx s) -> f_client a = false -> told es (f_tenant a) (f_sp a) /\ 0 < f_sp a).

Lemma told_more es e t x : told es t x -> told (es ++ [e]) t x.
Proof. intros (a & b & c & H & G). exists a, b, c. split; [apply in_or_app; auto|exact G]. Qed.
Lemma src_more es e s : src es s -> src (es ++ [e]) s.
Proof.
  intros (U & A & B & C & D). pose proof (told_more es e) as M. split; [exact U|]. split; [eauto|]. split.
  - destruct (g_ph s); auto.
    + intros. eauto.
    + intros t b x H. destruct (B t b x H). auto.
    + destruct B as (B1 & B2 & B3). split; [|auto]. intros t0 b x H. destruct (B1 t0 b x H). auto.
  - split; intros a Ha.
    + destruct (C a Ha) as (X & Y & Z). auto.
    + intros F. destruct (D a Ha F). auto.
Qed.

Lemma src_step es s e s1 : src es s -> gstep s e = Some s1 -> src (es ++ [e]) s1.
Proof.
  intros S0 H. assert (S : src (es ++ [e]) s) by (apply src_more; exact S0).
  destruct s as [m ph seen fx dead]. unfold gstep in H. destruct dead; [discriminate|].
  destruct S as (U & A & B & C & D). cbn [g_mgr g_ph g_seen g_fx] in *.
  destruct e as [stop sp tens| |regs| | | | | |r t sp].
  - injection H as <-. split; [apply set_all_uniq; exact U|]. cbn [g_mgr g_ph g_seen g_fx]. split; [|auto].
    intros t e He. destruct (set_all_entry _ _ _ _ _ _ He) as [G|(e0 & E0 & <-)]; [|eauto].
    exists stop, sp, tens. split; [apply in_or_app; right; left; reflexivity|exact G].
  - destruct ph; try discriminate. destruct (forallb _ (get_all m)); injection H as <-; (split; [exact U|]); cbn [g_mgr g_ph g_seen g_fx]; auto.
    split; [exact A|]. split; [|auto]. intros t b x Hx. apply get_all_in in Hx as (e & E & _ & _ & <-). apply A. apply in_zget; assumption.
  - destruct ph as [|g| |]; try discriminate.
    set (m1 := fold_left leave _ m) in H. set (g1 := filter _ g) in H. set (m2 := fold_left (set_stop false) _ m1) in H.
    assert (U2 : uniq m2) by (apply fold_stop_uniq, fold_leave_uniq; exact U).
    assert (A2 : forall t e, zget m2 t = Some e -> told (es ++ [GArm regs]) t (e_sp e)).
    { intros t e He. apply fold_stop_get in He as (e1 & E1 & <- & _). apply fold_leave_get in E1 as (e0 & E0 & <- & _). auto. }
    assert (G1 : forall t b x, In (t, (b, x)) g1 -> told (es ++ [GArm regs]) t x /\ 0 < x).
    { intros t b x Hx. apply filter_In in Hx as [Hx P]. cbn in P. apply negb_true_iff, Z.leb_gt in P. split; [eauto|exact P]. }
    clearbody m2 g1. destruct g1; injection H as <-; (split; [exact U2|]); cbn [g_mgr g_ph g_seen g_fx]; auto.
  - destruct ph as [| |g todo|]; try discriminate. destruct todo as [|[r t] todo]; [discriminate|].
    destruct (zget m t) as [x|] eqn:Ex.
    2:{ injection H as <-. split; [exact U|]. auto. }
    destruct (zget g t) as [[b sp]|] eqn:Eg.
    2:{ injection H as <-. split; [exact U|]. auto. }
    destruct (e_stop x); injection H as <-; (split; [exact U|]); cbn [g_mgr g_ph g_seen g_fx]; auto.
    apply zget_in in Eg. split; [exact A|]. split; [split; [exact B|exact (B _ _ _ Eg)]|]. split; [|exact D].
    intros a Ha. apply in_app_or in Ha as [Ha|[<-|[]]]; [auto|]. cbn. split; [reflexivity|exact (B _ _ _ Eg)].
  - destruct ph as [| |g todo|]; try discriminate. destruct todo as [|? todo]; [discriminate|]. injection H as <-. split; [exact U|]. auto.
  - destruct ph as [| | |g todo r t sp]; try discriminate.
    destruct (zget m t) as [x|] eqn:Ex; [destruct (e_stop x)|]; injection H as <-; (split; [exact U|]); cbn [g_mgr g_ph g_seen g_fx].
    + destruct B. auto.
    + do 3 (split; [auto|]). intros a Ha. apply in_app_or in Ha as [Ha|[<-|[]]]; [auto|]. cbn. intros _. exact (proj2 B).
    + auto.
  - destruct ph as [| | |g todo r t sp]; try discriminate. injection H as <-. split; [exact U|]. destruct B. auto.
  - destruct ph as [| |g [|p todo]|]; try discriminate. injection H as <-. split; [exact U|]. cbn [g_mgr g_ph g_seen g_fx]. auto.
  - destruct (sp =? 0); [injection H as <-; split; [exact U|]; auto|].
    destruct (zget m t) as [x|] eqn:Ex; [destruct (e_stop x)|]; injection H as <-; (split; [exact U|]); cbn [g_mgr g_ph g_seen g_fx]; auto.
    do 3 (split; [auto|]). intros a Ha. apply in_app_or in Ha as [Ha|[<-|[]]]; [auto|]. cbn. discriminate.
Qed.
Lemma src0 : src [] store0.
Proof. split; [constructor|]. cbn. repeat split; try tauto; discriminate. Qed.

Lemma grun_app es1 es2 s : grun s (es1 ++ es2) = match grun s es1 with Some s1 => grun s1 es2 | None => None end.
Proof. revert s; induction es1 as [|e r IH]; intros s; simpl; [reflexivity|]. destruct (gstep s e); [apply IH|reflexivity]. Qed.
Lemma grun_src es : forall s, grun store0 es = Some s -> src es s.
Proof.
  induction es as [|e es IH] using rev_ind; intros s H; [injection H as <-; exact src0|].
  rewrite grun_app in H. destruct (grun store0 es) as [s0|]; [|discriminate]. simpl in H.
  destruct (gstep s0 e) as [s1|] eqn:E; [|discriminate]. injection H as <-. exact (src_step _ _ _ _ (IH _ eq_refl) E).
Qed.
Lemma regular_told es s a : grun store0 es = Some s -> In a (g_seen s ++ g_fx s) -> f_client a = false ->
  0 < f_sp a /\ exists stop sp tens, In (GFetch stop sp tens) es /\ given sp tens (f_tenant a) (f_sp a).
Proof.
  intros H Ha F. destruct (grun_src es s H) as (_ & _ & _ & C & D).
  apply in_app_or in Ha as [Ha|Ha]; [destruct (C _ Ha) as (_ & T & P)|destruct (D _ Ha F) as (T & P)]; split; auto.
Qed.

(** * Stopped *)
Definition halted (t : Z) (s : store) : Prop :=
  (exists e, zget (g_mgr s) t = Some e /\ e_stop e = true /\ e_act e = false) /\
  uniq (g_mgr s) /\ ~ between s t.

Lemma zget_filter_none {A} (f : Z * A -> bool) (m : list (Z * A)) t : zget m t = None -> zget (filter f m) t = None.
Proof. induction m as [|[a x] m IH]; simpl; [auto|]. destruct (Z.eqb_spec t a); [discriminate|]. intros H. destruct (f (a, x)); simpl; [|auto]. destruct (Z.eqb_spec t a); [contradiction|auto]. Qed.
Lemma zget_none_keys {A} (m : list (Z * A)) t : zget m t = None -> ~ In t (map fst m).
Proof. intros H I. exact (zget_keys m t I H). Qed.
Lemma get_all_none m t e : uniq m -> zget m t = Some e -> e_act e = false -> zget (get_all m) t = None.
Proof.
  intros U E A. apply zget_none. intros I. apply in_map_iff in I as ([k [b x]] & K & I). cbn in K. subst k.
  apply get_all_in in I as (e1 & I1 & A1 & _). apply in_zget in I1; [|exact U]. congruence.
Qed.

Lemma halted_step t s e s1 : halted t s -> not_switched_on e -> gstep s e = Some s1 ->
  halted t s1 /\ (forall a, In a (g_fx s1) -> f_tenant a = t -> In a (g_fx s)) /\ (forall a, In a (g_seen s1) -> f_tenant a = t -> In a (g_seen s)).
Proof.
  intros ((x & E & S & A) & U & N) NS H. destruct s as [m ph seen fx dead]. unfold gstep in H. destruct dead; [discriminate|].
  unfold halted, between in *. cbn [g_mgr g_ph g_seen g_fx] in *.
  destruct e as [stop sp tens| |regs| | | | | |r k sp].
  - injection H as <-. cbn [g_mgr g_ph g_seen g_fx]. destruct stop; [|destruct NS]. split; [|auto].
    split; [|split; [apply set_all_uniq; exact U|exact N]].
    destruct (in_dec Z.eq_dec t (map fst (group_of sp tens))) as [I|I].
    + destruct (set_all_in m true _ t I) as (y & -> & _). eauto.
    + rewrite (set_all_out m true _ t I), E. cbn. eexists. split; [reflexivity|]. unfold resort. cbn. rewrite S. auto.
  - destruct ph; try discriminate. destruct (forallb _ (get_all m)); injection H as <-; cbn [g_mgr g_ph g_seen g_fx]; (split; [|auto]).
    + eauto 10.
    + split; [eauto|]. split; [exact U|]. rewrite (get_all_none m t x U E A). tauto.
  - destruct ph as [|g| |]; try discriminate.
    assert (Ng : zget g t = None) by (destruct (zget g t); [exfalso; apply N; discriminate|reflexivity]).
    assert (Kg : ~ In t (map fst g)) by (apply zget_none_keys; exact Ng).
    assert (E2 : zget (fold_left (set_stop false) (map fst (filter (fun e => negb (snd (snd e) <=? 0)) g))
             (fold_left leave (map fst (filter (fun e => snd (snd e) <=? 0) g)) m)) t = Some x).
    { rewrite fold_stop_out, fold_leave_out; [exact E| |]; intros I; apply filter_keys in I; contradiction. }
    assert (U2 : uniq (fold_left (set_stop false) (map fst (filter (fun e => negb (snd (snd e) <=? 0)) g))
             (fold_left leave (map fst (filter (fun e => snd (snd e) <=? 0) g)) m))) by (apply fold_stop_uniq, fold_leave_uniq; exact U).
    destruct (filter (fun e => negb (snd (snd e) <=? 0)) g) as [|p g1]; injection H as <-; cbn [g_mgr g_ph g_seen g_fx]; (split; [|auto]);
    (split; [eauto|]); (split; [exact U2|tauto]).
  - destruct ph as [| |g todo|]; try discriminate. destruct todo as [|[r k] todo]; [discriminate|].
    destruct (zget m k) as [y|] eqn:Ey; [|injection H as <-; cbn; eauto 10].
    destruct (zget g k) as [[b sp]|]; [|injection H as <-; cbn; eauto 10].
    destruct (e_stop y) eqn:Sy; injection H as <-; cbn [g_mgr g_ph g_seen g_fx].
    + split; [|auto]. split; [eauto|]. auto.
    + split; [split; [eauto|]; auto|]. split; [auto|]. intros a Ha T. apply in_app_or in Ha as [Ha|[<-|[]]]; [exact Ha|]. cbn in T. subst k. congruence.
  - destruct ph as [| |g todo|]; try discriminate. destruct todo as [|? todo]; [discriminate|]. injection H as <-. cbn. split; [|auto]. split; [eauto|]. auto.
  - destruct ph as [| | |g todo r k sp]; try discriminate.
    destruct (zget m k) as [y|] eqn:Ey; [destruct (e_stop y) eqn:Sy|]; injection H as <-; cbn [g_mgr g_ph g_seen g_fx].
    + split; [|auto]. split; [eauto|]. auto.
    + split; [split; [eauto|]; auto|]. split; [|auto]. intros a Ha T. apply in_app_or in Ha as [Ha|[<-|[]]]; [exact Ha|]. cbn in T. subst k. congruence.
    + split; [|auto]. split; [eauto|]. auto.
  - destruct ph as [| | |g todo r k sp]; try discriminate. injection H as <-. cbn. split; [|auto]. split; [eauto|]. auto.
  - destruct ph as [| |g [|p todo]|]; try discriminate. injection H as <-. cbn. split; [|auto]. split; [eauto|]. auto.
  - destruct (sp =? 0); [injection H as <-; cbn; split; [|auto]; split; [eauto|]; auto|].
    destruct (zget m k) as [y|] eqn:Ey; [destruct (e_stop y) eqn:Sy|]; injection H as <-; cbn [g_mgr g_ph g_seen g_fx].
    + split; [|auto]. split; [eauto|]. auto.
    + split; [split; [eauto|]; auto|]. split; [|auto]. intros a Ha T. apply in_app_or in Ha as [Ha|[<-|[]]]; [exact Ha|]. cbn in T. subst k. congruence.
    + split; [|auto]. split; [eauto|]. auto.
Qed.
Lemma halted_run t es : forall s s1, halted t s -> Forall not_switched_on es -> grun s es = Some s1 ->
  (forall a, In a (g_fx s1) -> f_tenant a = t -> In a (g_fx s)) /\ (forall a, In a (g_seen s1) -> f_tenant a = t -> In a (g_seen s)).
Proof.
  induction es as [|e es IH]; intros s s1 I F H; [injection H as <-; auto|]. inversion F; subst. simpl in H.
  destruct (gstep s e) as [s0|] eqn:E; [|discriminate]. destruct (halted_step t s e s0 I H2 E) as (I2 & A & B).
  destruct (IH s0 s1 I2 H3 H) as (C & D). split; intros a Ha T; auto.
Qed.
Lemma stopped_run es s sp tens t x es2 s2 : grun store0 es = Some s -> ~ between s t -> given sp tens t x ->
  Forall not_switched_on es2 -> grun s (GFetch true sp tens :: es2) = Some s2 ->
  forall a, f_tenant a = t -> (In a (g_fx s2) -> In a (g_fx s)) /\ (In a (g_seen s2) -> In a (g_seen s)).
Proof.
  intros R N G F H a T. destruct (grun_src _ _ R) as (U & _). simpl in H.
  destruct (gstep s (GFetch true sp tens)) as [s1|] eqn:E; [|discriminate].
  destruct s as [m ph seen fx dead]. unfold gstep in E. destruct dead; [discriminate|]. injection E as <-.
  assert (I : halted t (mkSt (set_all m true (group_of sp tens)) ph seen fx false)).
  { split; [|split; [apply set_all_uniq; exact U|exact N]]. cbn [g_mgr].
    destruct (set_all_in m true _ t (given_key _ _ _ _ G)) as (y & -> & _). eauto. }
  destruct (halted_run t es2 _ s2 I F H) as (A & B). split; intros Ha; [apply (A a Ha T)|apply (B a Ha T)].
Qed.

(** * Every region is visited *)
Definition named (m : mgr) (g : group) (todo : list (Z * Z)) : Prop :=
  (forall t, zget g t <> None -> zget m t <> None) /\ (forall r t, In (r, t) todo -> zget g t <> None).
Definition fine (s : store) : Prop :=
  uniq (g_mgr s) /\
  match g_ph s with
  | RIdle => True
  | RRead g => forall t, zget g t <> None -> zget (g_mgr s) t <> None
  | RWork g todo => named (g_mgr s) g todo
  | RColl g todo r t sp => named (g_mgr s) g todo /\ zget (g_mgr s) t <> None
  end.
Lemma set_all_some m stop l t : zget m t <> None -> zget (set_all m stop l) t <> None.
Proof.
  intros H. destruct (in_dec Z.eq_dec t (map fst l)) as [I|I].
  - destruct (set_all_in m stop l t I) as (x & -> & _). discriminate.
  - rewrite (set_all_out m stop l t I). destruct (zget m t); [discriminate|contradiction].
Qed.
Lemma zget_some_in {A} (m : list (Z * A)) t : zget m t <> None -> exists v, In (t, v) m.
Proof. destruct (zget m t) as [v|] eqn:E; [|contradiction]. intros _. exists v. exact (zget_in _ _ _ E). Qed.

(** the store lives on unless a client names an unknown tenant *)
Lemma fine_step s e s1 : fine s -> gstep s e = Some s1 ->
  (forall r t x, e = GRequest r t x -> zget (g_mgr s) t <> None) ->
  fine s1 /\ g_dead s1 = false /\ (forall t, zget (g_mgr s) t <> None -> zget (g_mgr s1) t <> None).
Proof.
  intros (U & P) H K. destruct s as [m ph seen fx dead]. unfold gstep in H. destruct dead; [discriminate|].
  unfold fine in *. cbn [g_mgr g_ph] in *.
  destruct e as [stop sp tens| |regs| | | | | |r k sp].
  - injection H as <-. cbn [g_mgr g_ph g_dead]. pose proof (set_all_some m stop (group_of sp tens)) as M.
    split; [|auto]. split; [apply set_all_uniq; exact U|]. destruct ph; auto.
    + destruct P as (P1 & P2). split; auto.
    + destruct P as ((P1 & P2) & P3). split; [split|]; auto.
  - destruct ph; try discriminate. destruct (forallb _ (get_all m)); injection H as <-; cbn [g_mgr g_ph g_dead]; (split; [|auto]); auto.
    split; [exact U|]. intros t Ht. apply zget_some_in in Ht as ([b x] & Ht). apply get_all_in in Ht as (e & E & _).
    rewrite (in_zget _ _ _ U E). discriminate.
  - destruct ph as [|g| |]; try discriminate.
    set (m1 := fold_left leave _ m) in H. set (g1 := filter _ g) in H. set (m2 := fold_left (set_stop false) _ m1) in H.
    assert (U2 : uniq m2) by (apply fold_stop_uniq, fold_leave_uniq; exact U).
    assert (M : forall t, zget m t <> None -> zget m2 t <> None) by (intros t Ht; apply fold_stop_some, fold_leave_some; exact Ht).
    assert (G : forall t, zget g1 t <> None -> zget g t <> None).
    { intros t Ht Hn. apply Ht. apply zget_filter_none. exact Hn. }
    clearbody m2 g1. destruct g1 as [|p g1]; injection H as <-; cbn [g_mgr g_ph g_dead]; (split; [|auto]); (split; [exact U2|]); auto.
    split; [auto|]. intros r t Ht. apply filter_In in Ht as [_ Ht]. change (match zget (p :: g1) t with Some _ => true | None => false end = true) in Ht. intros C. rewrite C in Ht. discriminate.
  - destruct ph as [| |g todo|]; try discriminate. destruct todo as [|[r k] todo]; [discriminate|]. destruct P as (P1 & P2).
    pose proof (P2 r k (or_introl eq_refl)) as Kg. pose proof (P1 k Kg) as Km.
    destruct (zget m k) as [y|] eqn:Ey; [|contradiction]. destruct (zget g k) as [[b sp]|] eqn:Eg; [|contradiction].
    assert (Q : named m g todo) by (split; [exact P1|]; intros r0 t0 H0; apply (P2 r0 t0); right; exact H0).
    destruct (e_stop y); injection H as <-; cbn [g_mgr g_ph g_dead]; (split; [|auto]); (split; [exact U|]); auto.
    split; [exact Q|]. rewrite Ey. discriminate.
  - destruct ph as [| |g todo|]; try discriminate. destruct todo as [|p todo]; [discriminate|]. injection H as <-. cbn [g_mgr g_ph g_dead].
    split; [|auto]. split; [exact U|]. destruct P as (P1 & P2). split; [exact P1|]. intros r0 t0 H0. apply (P2 r0 t0). right. exact H0.
  - destruct ph as [| | |g todo r k sp]; try discriminate. destruct P as (P1 & P2).
    destruct (zget m k) as [y|] eqn:Ey; [|contradiction]. destruct (e_stop y); injection H as <-; cbn [g_mgr g_ph g_dead]; (split; [|auto]); (split; [exact U|]); auto.
    split; [exact P1|]. rewrite Ey. discriminate.
  - destruct ph as [| | |g todo r k sp]; try discriminate. injection H as <-. cbn [g_mgr g_ph g_dead]. destruct P as (P1 & P2). auto.
  - destruct ph as [| |g [|p todo]|]; try discriminate. injection H as <-. cbn [g_mgr g_ph g_dead]. auto.
  - specialize (K r k sp eq_refl). destruct (sp =? 0); [injection H as <-; cbn; auto|].
    destruct (zget m k) as [y|] eqn:Ey; [|contradiction]. destruct (e_stop y); injection H as <-; cbn; auto.
Qed.
Lemma fine_run es : forall s s1 (T : list Z), fine s -> g_dead s = false -> (forall t, In t T -> zget (g_mgr s) t <> None) ->
  (forall r t x, In (GRequest r t x) es -> In t T) -> grun s es = Some s1 -> fine s1 /\ g_dead s1 = false.
Proof.
  induction es as [|e es IH]; intros s s1 T F D K R H; [injection H as <-; auto|]. simpl in H.
  destruct (gstep s e) as [s0|] eqn:E; [|discriminate].
  destruct (fine_step s e s0 F E) as (F2 & D2 & M).
  { intros r t x ->. apply K. apply (R r t x). left. reflexivity. }
  apply (IH s0 s1 T F2 D2); auto. intros r t x Hi. apply (R r t x). right. exact Hi.
Qed.
Lemma fine0 : fine store0.
Proof. split; [constructor|exact Logic.I]. Qed.
Lemma known_alive stop sp tens es s : grun store0 (GFetch stop sp tens :: es) = Some s ->
  (forall r t x, In (GRequest r t x) es -> exists y, given sp tens t y) -> g_dead s = false.
Proof.
  intros H R. simpl in H.
  destruct (fine_step store0 (GFetch stop sp tens) _ fine0 eq_refl ltac:(intros; discriminate)) as (F & D & _).
  refine (proj2 (fine_run es _ s (map fst (group_of sp tens)) F D _ _ H)).
  - intros t Ht. cbn [g_mgr]. destruct (set_all_in [] stop _ t Ht) as (x & -> & _). discriminate.
  - intros r t x Hi. destruct (R r t x Hi) as (y & G). exact (given_key _ _ _ _ G).
Qed.

(** what is left to visit *)
Definition visit (sp : Z) (tens regs : list (Z * Z)) (s : store) : Prop :=
  forall r t x, In (r, t) regs -> given sp tens t x -> 0 < x ->
    In (mkAct r t x false) (g_seen s) \/
    match g_ph s with
    | RWork g todo | RColl g todo _ _ _ =>
        In (r, t) todo /\ (exists b, zget g t = Some (b, x)) /\ exists e, zget (g_mgr s) t = Some e /\ e_stop e = false
    | _ => False
    end.
Lemma visit_step sp tens regs s e s1 : visit sp tens regs s -> own_step e -> (forall r, e <> GArm r) -> gstep s e = Some s1 -> visit sp tens regs s1.
Proof.
  intros V O NA H. destruct s as [m ph seen fx dead]. unfold gstep in H. destruct dead; [discriminate|].
  destruct e as [stop sp0 tens0| |regs0| | | | | |r0 t0 sp0]; try destruct O.
  - exfalso. apply (NA regs0). reflexivity.
  - destruct ph as [| |g todo|]; try discriminate. destruct todo as [|[r0 t0] todo]; [discriminate|].
    destruct (zget m t0) as [y|] eqn:Ey; [|injection H as <-; exact V]. destruct (zget g t0) as [[b0 x0]|] eqn:Eg; [|injection H as <-; exact V].
    destruct (e_stop y) eqn:Sy; injection H as <-; intros r t x Hr G P; destruct (V r t x Hr G P) as [S|(I & (b & B) & e & E & Se)];
      cbn [g_seen g_ph g_mgr] in *.
    + left. exact S.
    + destruct I as [I|I]; [|right; split; [exact I|]; eauto]. exfalso. injection I as -> ->. congruence.
    + left. apply in_or_app. left. exact S.
    + destruct I as [I|I]; [|right; split; [exact I|]; eauto]. injection I as -> ->. left. apply in_or_app. right. left.
      assert (x0 = x) by congruence. subst. reflexivity.
  - destruct ph as [| | |g todo r0 t0 sp0]; try discriminate.
    destruct (zget m t0) as [y|]; [destruct (e_stop y)|]; injection H as <-; exact V.
  - destruct ph as [| | |g todo r0 t0 sp0]; try discriminate. injection H as <-. exact V.
  - destruct ph as [| |g [|p todo]|]; try discriminate. injection H as <-.
    intros r t x Hr G P. destruct (V r t x Hr G P) as [S|([] & _)]. left. exact S.
Qed.
Lemma not_arm_after s e : (match g_ph s with RRead _ => False | _ => True end) -> gstep s e <> None -> forall r, e <> GArm r.
Proof.
  intros P H r ->. destruct s as [m ph seen fx dead]. apply H. unfold gstep. destruct dead; [reflexivity|]. destruct ph; try reflexivity. destruct P.
Qed.
Lemma own_not_read s e s1 : own_step e -> gstep s e = Some s1 -> match g_ph s1 with RRead _ => False | _ => True end.
Proof.
  intros O H. destruct s as [m ph seen fx dead]. unfold gstep in H. destruct dead; [discriminate|].
  destruct e as [stop sp0 tens0| |regs0| | | | | |r0 t0 sp0]; try destruct O.
  - destruct ph; try discriminate. destruct (filter _ g) in H; injection H as <-; exact Logic.I.
  - destruct ph as [| |g [|[r t] todo]|]; try discriminate. destruct (zget m t) as [y|]; [|injection H as <-; exact Logic.I].
    destruct (zget g t) as [[b x]|]; [|injection H as <-; exact Logic.I]. destruct (e_stop y); injection H as <-; exact Logic.I.
  - destruct ph; try discriminate. destruct (zget m t) as [y|]; [destruct (e_stop y)|]; injection H as <-; exact Logic.I.
  - destruct ph; try discriminate. injection H as <-. exact Logic.I.
  - destruct ph as [| |g [|p todo]|]; try discriminate. injection H as <-. exact Logic.I.
Qed.
Lemma visit_run sp tens regs es : forall s s1, visit sp tens regs s -> (match g_ph s with RRead _ => False | _ => True end) ->
  Forall own_step es -> grun s es = Some s1 -> visit sp tens regs s1.
Proof.
  induction es as [|e es IH]; intros s s1 V P F H; [injection H as <-; exact V|]. inversion F; subst. simpl in H.
  destruct (gstep s e) as [s0|] eqn:E; [|discriminate].
  apply (IH s0 s1); auto.
  - apply (visit_step _ _ _ s e s0 V H2); [|exact E]. apply (not_arm_after s e P). congruence.
  - exact (own_not_read s e s0 H2 E).
Qed.

Lemma group_nodup sp tens : NoDup (map fst tens) -> NoDup (map fst (group_of sp tens)).
Proof.
  intros N. unfold group_of. simpl. constructor; [|apply filter_nodup; exact N].
  intros H. apply in_map_iff in H as ([a v] & E & H). apply filter_In in H as [_ H]. cbn in *. subst. discriminate.
Qed.
Lemma get_all_get m t e : uniq m -> zget m t = Some e -> e_act e = true -> zget (get_all m) t = Some (e_stop e, e_sp e).
Proof.
  intros U E A. apply in_zget; [apply get_all_uniq; exact U|]. unfold get_all. apply in_map_iff. exists (t, e). split; [reflexivity|].
  apply filter_In. split; [exact (zget_in _ _ _ E)|exact A].
Qed.
Lemma zget_filter {A} (f : Z * A -> bool) (m : list (Z * A)) t v : NoDup (map fst m) -> zget m t = Some v -> f (t, v) = true -> zget (filter f m) t = Some v.
Proof. intros N E F. apply in_zget; [apply filter_nodup; exact N|]. apply filter_In. split; [exact (zget_in _ _ _ E)|exact F]. Qed.

Lemma begin_arm s sp tens s1 regs s2 : uniq (g_mgr s) -> g_ph s = RIdle -> gstep s (GFetch false sp tens) = Some s1 -> NoDup (map fst tens) ->
  grun s1 [GBegin; GArm regs] = Some s2 -> visit sp tens regs s2 /\ match g_ph s2 with RRead _ => False | _ => True end.
Proof.
  intros U PI F N H. destruct s as [m ph seen fx dead]. cbn in U, PI. subst ph. unfold gstep in F. destruct dead; [discriminate|]. injection F as <-.
  set (m1 := set_all m false (group_of sp tens)) in *.
  assert (U1 : uniq m1) by (apply set_all_uniq; exact U).
  assert (K : forall t x, given sp tens t x -> zget m1 t = Some (mkEnt true false x)).
  { intros t x G. destruct (set_all_in m false _ t (given_key _ _ _ _ G)) as (y & E & J). fold m1 in E. rewrite E.
    apply group_given in G. pose proof (in_zget _ _ _ (group_nodup sp tens N) G) as G1. pose proof (in_zget _ _ _ (group_nodup sp tens N) J) as G2.
    assert (x = y) by congruence. subst. reflexivity. }
  clearbody m1. cbn [grun gstep] in H.
  assert (NB : forallb (fun e => fst (snd e)) (get_all m1) = false).
  { destruct (forallb _ (get_all m1)) eqn:E; [|reflexivity]. exfalso. rewrite forallb_forall in E.
    assert (G0 : given sp tens 0 sp) by (left; auto).
    pose proof (get_all_get m1 0 _ U1 (K _ _ G0) eq_refl) as Z. apply zget_in in Z. apply E in Z. discriminate. }
  rewrite NB in H. cbn [grun gstep] in H.
  set (g := get_all m1) in *. set (g1 := filter (fun e => negb (snd (snd e) <=? 0)) g) in *.
  set (m2 := fold_left leave _ m1) in H. set (m3 := fold_left (set_stop false) _ m2) in H.
  assert (V : forall t x, given sp tens t x -> 0 < x -> zget g1 t = Some (false, x) /\ exists e, zget m3 t = Some e /\ e_stop e = false).
  { intros t x G P. assert (Z : zget g1 t = Some (false, x)).
    { apply zget_filter; [apply get_all_uniq; exact U1|exact (get_all_get m1 t _ U1 (K _ _ G) eq_refl)|]. cbn.
      apply negb_true_iff, Z.leb_gt. exact P. }
    split; [exact Z|].
    assert (M : zget m3 t <> None) by (apply fold_stop_some, fold_leave_some; rewrite (K _ _ G); discriminate).
    destruct (zget m3 t) as [e|] eqn:E; [|contradiction]. exists e. split; [reflexivity|].
    apply (fold_stop_in false (map fst g1) m2 t e); [|exact E]. apply zget_in in Z. apply (in_map fst) in Z. exact Z. }
  clearbody m3 g1. destruct g1 as [|p g1]; injection H as <-; cbn [g_ph]; (split; [|exact Logic.I]); intros r t x Hr G P; destruct (V t x G P) as (Z & e & E & S).
  - discriminate.
  - right. cbn [g_ph g_mgr]. split; [apply filter_In; split; [exact Hr|]; change (match zget (p :: g1) t with Some _ => true | None => false end = true); rewrite Z; reflexivity|]. eauto.
Qed.
Lemma all_visited es0 s sp tens s1 regs es s2 : grun store0 es0 = Some s -> g_ph s = RIdle -> gstep s (GFetch false sp tens) = Some s1 ->
  NoDup (map fst tens) -> Forall own_step es -> grun s1 (GBegin :: GArm regs :: es) = Some s2 -> g_ph s2 = RIdle ->
  forall r t x, In (r, t) regs -> given sp tens t x -> 0 < x -> In (mkAct r t x false) (g_seen s2).
Proof.
  intros R PI F N O H P2 r t x Hr G P. destruct (grun_src _ _ R) as (U & _).
  change (GBegin :: GArm regs :: es) with ([GBegin; GArm regs] ++ es) in H. rewrite grun_app in H.
  destruct (grun s1 [GBegin; GArm regs]) as [s3|] eqn:E; [|discriminate].
  destruct (begin_arm s sp tens s1 regs s3 U PI F N E) as (V & Q).
  destruct (visit_run sp tens regs es s3 s2 V Q O H r t x Hr G P) as [S|S]; [exact S|]. rewrite P2 in S. destruct S.
Qed.

(** a run can always be finished *)
Lemma finish todo : forall m g seen fx, named m g todo -> exists es s2, Forall own_step es /\ grun (mkSt m (RWork g todo) seen fx false) es = Some s2 /\ g_ph s2 = RIdle /\ g_dead s2 = false.
Proof.
  induction todo as [|[r t] todo IH]; intros m g seen fx (P1 & P2).
  - exists [GFinish]. eexists. split; [repeat constructor|]. split; [reflexivity|]. auto.
  - pose proof (P2 r t (or_introl eq_refl)) as Kg. pose proof (P1 t Kg) as Km.
    assert (Q : named m g todo) by (split; [exact P1|]; intros r0 t0 H0; apply (P2 r0 t0); right; exact H0).
    destruct (zget m t) as [y|] eqn:Ey; [|contradiction]. destruct (zget g t) as [[b sp]|] eqn:Eg; [|contradiction].
    destruct (e_stop y) eqn:Sy.
    + destruct (IH m g seen fx Q) as (es & s2 & O & H & I). exists (GRegion :: es), s2. split; [constructor; [exact Logic.I|exact O]|].
      split; [|exact I]. cbn [grun gstep]. rewrite Ey, Eg, Sy. exact H.
    + destruct (IH m g (seen ++ [mkAct r t sp false]) fx Q) as (es & s2 & O & H & I). exists (GRegion :: GEnd :: es), s2.
      split; [repeat (constructor; [exact Logic.I|]); exact O|]. split; [|exact I]. cbn [grun gstep]. rewrite Ey, Eg, Sy. exact H.
Qed.
Lemma can_finish s regs : fine s -> g_ph s = RIdle -> g_dead s = false ->
  exists s0, gstep s GBegin = Some s0 /\
  (g_ph s0 = RIdle \/ exists es s2, Forall own_step es /\ grun s0 (GArm regs :: es) = Some s2 /\ g_ph s2 = RIdle /\ g_dead s2 = false).
Proof.
  intros F PI D. destruct (gstep s GBegin) as [s0|] eqn:E.
  2:{ destruct s as [m ph seen fx dead]. cbn in PI, D. subst. cbn in E. destruct (forallb _ _); discriminate. }
  exists s0. split; [reflexivity|].
  destruct (fine_step s GBegin s0 F E ltac:(intros; discriminate)) as (F0 & D0 & _).
  destruct s as [m ph seen fx dead]. cbn in PI, D. subst. cbn [gstep] in E. destruct (forallb _ _); injection E as <-; [left; reflexivity|]. right.
  destruct (gstep (mkSt m (RRead (get_all m)) seen fx false) (GArm regs)) as [s1|] eqn:E1.
  2:{ cbn [gstep] in E1. destruct (filter (fun e => negb (snd (snd e) <=? 0)) (get_all m)); discriminate. }
  destruct (fine_step _ _ s1 F0 E1 ltac:(intros; discriminate)) as (F1 & D1 & _).
  assert (W : g_ph s1 = RIdle \/ exists g todo, g_ph s1 = RWork g todo).
  { cbn [gstep] in E1. destruct (filter (fun e => negb (snd (snd e) <=? 0)) (get_all m)) in E1; injection E1 as <-; cbn; eauto. }
  destruct W as [W|(g & todo & W)].
  - exists [], s1. split; [constructor|]. cbn [grun]. rewrite E1. auto.
  - destruct s1 as [m1 ph1 seen1 fx1 dead1]. cbn in W, D1. subst. destruct F1 as (_ & F1). cbn in F1.
    destruct (finish todo m1 g seen1 fx1 F1) as (es & s2 & O & H & I). exists es, s2. split; [exact O|]. cbn [grun]. rewrite E1. auto.
Qed.

Lemma reach_fine es s : grun store0 es = Some s -> fine s.
Proof.
  revert s. induction es as [|e es IH] using rev_ind; intros s H; [injection H as <-; exact fine0|].
  rewrite grun_app in H. destruct (grun store0 es) as [s0|] eqn:E0; [|discriminate]. simpl in H.
  destruct (gstep s0 e) as [s1|] eqn:E; [|discriminate]. injection H as <-. pose proof (IH _ eq_refl) as F.
  destruct e as [a b c| |a| | | | | |r t x]; try exact (proj1 (fine_step s0 _ s1 F E ltac:(intros; discriminate))).
  destruct s0 as [m ph seen fx dead]. unfold gstep in E. destruct dead; [discriminate|].
  destruct (x =? 0); [injection E as <-; exact F|].
  destruct (zget m t) as [y|]; [destruct (e_stop y)|]; injection E as <-; exact F.
Qed.
Lemma fetched_can_finish es0 s sp tens s1 regs : grun store0 es0 = Some s -> g_ph s = RIdle -> gstep s (GFetch false sp tens) = Some s1 ->
  exists s0, gstep s1 GBegin = Some s0 /\
     (g_ph s0 = RIdle \/ exists es s2, Forall own_step es /\ grun s0 (GArm regs :: es) = Some s2 /\ g_ph s2 = RIdle /\ g_dead s2 = false).
Proof.
  intros R PI F. destruct (fine_step s _ s1 (reach_fine _ _ R) F ltac:(intros; discriminate)) as (F1 & D1 & _).
  apply can_finish; [exact F1| |exact D1]. destruct s as [m ph seen fx dead]. unfold gstep in F. destruct dead; [discriminate|]. injection F as <-. exact PI.
Qed.
Lemma regular_alive es s : grun store0 es = Some s -> (forall r t x, ~ In (GRequest r t x) es) -> g_dead s = false.
Proof.
  intros H N. refine (proj2 (fine_run es store0 s [] fine0 eq_refl _ _ H)); [intros t []|]. intros r t x Hi. exfalso. exact (N r t x Hi).
Qed.
