(** Leader plans: invariants of the loop, soundness and termination. *)
From Coq Require Import ZArith List Bool Lia Permutation.
From Verif Require Import BalModel BalSpec.
Import ListNotations.
Local Open Scope Z_scope.
#[local] Arguments Nat.max : simpl never.
#[local] Arguments Nat.leb : simpl never.
#[local] Arguments Nat.sub : simpl never.

(** ** Small things *)

Lemma memZ_In x l : memZ x l = true <-> In x l.
Proof.
  unfold memZ. rewrite existsb_exists. split.
  - intros (y & Hy & E). apply Z.eqb_eq in E. subst. exact Hy.
  - intros H. exists x. split; [exact H | apply Z.eqb_refl].
Qed.

Lemma memZ_false x l : memZ x l = false <-> ~ In x l.
Proof. rewrite <- memZ_In. destruct (memZ x l); split; congruence. Qed.

Lemma ins_set_In x y l : In y (ins_set x l) <-> y = x \/ In y l.
Proof.
  induction l as [|z l IH]; cbn.
  - intuition.
  - destruct (x <? z) eqn:E1; [cbn; intuition|].
    destruct (x =? z) eqn:E2.
    + apply Z.eqb_eq in E2. subst. cbn. intuition.
    + cbn. rewrite IH. intuition.
Qed.

Fixpoint sortedZ (l : list Z) : Prop :=
  match l with [] => True | x :: r => (forall y, In y r -> x < y) /\ sortedZ r end.

Lemma ins_set_sorted x l : sortedZ l -> sortedZ (ins_set x l).
Proof.
  induction l as [|z l IH]; cbn; intros H; [split; [intros ? []|exact I]|].
  destruct H as [H1 H2].
  destruct (x <? z) eqn:E1.
  - apply Z.ltb_lt in E1. cbn. split; [|split; assumption].
    intros y [-> | Hy]; [assumption | specialize (H1 y Hy); lia].
  - destruct (x =? z) eqn:E2; [cbn; split; assumption|].
    apply Z.ltb_ge in E1. apply Z.eqb_neq in E2. cbn. split; [|apply IH; exact H2].
    intros y Hy. apply ins_set_In in Hy. destruct Hy as [-> | Hy]; [lia | apply H1; exact Hy].
Qed.

Lemma sortedZ_NoDup l : sortedZ l -> NoDup l.
Proof.
  induction l as [|x l IH]; cbn; intros H; constructor.
  - intros Hi. destruct H as [H _]. specialize (H x Hi). lia.
  - apply IH. apply H.
Qed.

Lemma map_stores_inv rs : sortedZ (map_stores rs) /\
  (forall s, In s (map_stores rs) <-> exists g, In g rs /\ g_leader g <> 0 /\ replica_on g s).
Proof.
  unfold map_stores.
  assert (Hp : forall ps acc, sortedZ acc ->
            sortedZ (fold_left (fun a p => ins_set (p_store p) a) ps acc) /\
            forall s, In s (fold_left (fun a p => ins_set (p_store p) a) ps acc) <->
                      In s acc \/ exists p, In p ps /\ p_store p = s).
  { induction ps as [|p ps IH]; intros acc Ha; cbn.
    - split; [exact Ha|]. intros s. split; [auto|]. intros [H | (p & [] & _)]. exact H.
    - destruct (IH (ins_set (p_store p) acc) (ins_set_sorted _ _ Ha)) as [S1 S2].
      split; [exact S1|]. intros s. rewrite S2, ins_set_In. split.
      + intros [[-> | H] | (q & Hq & E)]; [right; exists p; auto | left; exact H | right; exists q; auto].
      + intros [H | (q & [<- | Hq] & E)]; [left; right; exact H | left; left; auto | right; exists q; auto]. }
  assert (Hg : forall rs acc, sortedZ acc ->
     let f := (fun acc r => if g_leader r =? 0 then acc
                          else fold_left (fun a p => ins_set (p_store p) a) (g_peers r) acc) in
     sortedZ (fold_left f rs acc) /\
     forall s, In s (fold_left f rs acc) <->
               In s acc \/ exists g, In g rs /\ g_leader g <> 0 /\ replica_on g s).
  { clear rs. induction rs as [|g rs IH]; intros acc Ha; cbn.
    - split; [exact Ha|]. intros s. split; [auto|]. intros [H | (p & [] & _)]. exact H.
    - cbn in IH. destruct (g_leader g =? 0) eqn:E.
      + apply Z.eqb_eq in E. destruct (IH acc Ha) as [S1 S2]. split; [exact S1|].
        intros s. rewrite S2. split.
        * intros [H | (q & Hq & E')]; [left; exact H | right; exists q; auto].
        * intros [H | (q & [<- | Hq] & E' & R)]; [left; exact H | contradiction | right; exists q; auto].
      + apply Z.eqb_neq in E. destruct (Hp (g_peers g) acc Ha) as [P1 P2].
        destruct (IH _ P1) as [S1 S2]. split; [exact S1|].
        intros s. rewrite S2, P2. split.
        * intros [[H | H] | (q & Hq & E')]; [left; exact H | right; exists g; auto | right; exists q; auto].
        * intros [H | (q & [<- | Hq] & E' & R)]; [left; left; exact H | left; right; exact R | right; exists q; auto]. }
  destruct (Hg rs [] I) as [S1 S2]. split; [exact S1|]. intros s. rewrite S2. split; [|auto].
  intros [[] | H]. exact H.
Qed.

Lemma find_Some_In {A} (f : A -> bool) l x : find f l = Some x -> In x l /\ f x = true.
Proof. apply find_some. Qed.

Lemma leaders_of_In rs s r : In r (leaders_of rs s) <-> (leads rs s r /\ s <> 0).
Proof.
  unfold leaders_of. rewrite in_flat_map. split.
  - intros (g & Hg & H). destruct (g_leader g =? 0) eqn:E; [contradiction|].
    apply in_flat_map in H. destruct H as (p & Hp & H).
    destruct (p_store p =? s) eqn:E1; [|contradiction].
    destruct (p_store p =? g_leader g) eqn:E2; [|contradiction].
    apply Z.eqb_eq in E1, E2. apply Z.eqb_neq in E. destruct H as [<- | []].
    split; [|congruence]. exists g. repeat split; auto; [congruence|]. exists p. auto.
  - intros ((g & Hg & <- & E & (p & Hp & Ep)) & Hs). exists g. split; [exact Hg|].
    destruct (g_leader g =? 0) eqn:E0; [apply Z.eqb_eq in E0; congruence|].
    apply in_flat_map. exists p. split; [exact Hp|].
    rewrite Ep, E, Z.eqb_refl. left. reflexivity.
Qed.

Lemma followers_of_In rs s r : In r (followers_of rs s) <-> follows rs s r.
Proof.
  unfold followers_of. rewrite in_flat_map. split.
  - intros (g & Hg & H). destruct (g_leader g =? 0) eqn:E; [contradiction|].
    apply in_flat_map in H. destruct H as (p & Hp & H).
    destruct (p_store p =? s) eqn:E1; [|contradiction].
    destruct (p_store p =? g_leader g) eqn:E2; [contradiction|].
    apply Z.eqb_eq in E1. apply Z.eqb_neq in E, E2. destruct H as [<- | []].
    exists g. repeat split; auto; [congruence|]. exists p. auto.
  - intros (g & Hg & <- & E & E' & (p & Hp & Ep)). exists g. split; [exact Hg|].
    destruct (g_leader g =? 0) eqn:E0; [apply Z.eqb_eq in E0; congruence|].
    apply in_flat_map. exists p. split; [exact Hp|].
    rewrite Ep, Z.eqb_refl. destruct (s =? g_leader g) eqn:E1; [apply Z.eqb_eq in E1; congruence|].
    left. reflexivity.
Qed.

Lemma leads_not_follows rs a b r : map_ok rs -> leads rs a r -> follows rs b r -> a <> b.
Proof.
  intros [Hn _] (g & Hg & E & L & _) (g' & Hg' & E' & _ & F & _) ->.
  assert (g = g').
  { clear - Hn Hg Hg' E E'. induction rs as [|x rs IH]; [contradiction|].
    cbn in Hn. inversion Hn as [|? ? Hx Hr]. subst.
    destruct Hg as [-> | Hg], Hg' as [<- | Hg']; auto.
    - exfalso. apply Hx. rewrite <- E'. apply in_map. exact Hg'.
    - exfalso. apply Hx. rewrite E'. apply in_map. exact Hg. }
  subst. contradiction.
Qed.

Lemma health_check_ok v r : health_check v r = true <-> healthy_in v r.
Proof.
  unfold health_check, healthy_in, healthy. destruct (v_region v r) as [m|].
  2:{ split; [discriminate | intros (? & ? & _); discriminate]. }
  split.
  - intros H. exists m. split; [reflexivity|].
    destruct (rm_normal m), (rm_raft_ok m), (rm_replica_ok m), (rm_online m), (rm_unstable m);
      cbn in H; try discriminate.
    destruct (10 <? rm_pending m) eqn:E; [discriminate|]. apply Z.ltb_ge in E. auto 10.
  - intros (m' & E & (-> & -> & -> & -> & -> & H)) || intros (m' & E & H).
    injection E as <-. destruct H as (-> & -> & -> & -> & -> & H). cbn.
    destruct (10 <? rm_pending m) eqn:E; [apply Z.ltb_lt in E; lia | reflexivity].
Qed.

Lemma resource_check_ok v s r : resource_check v s r = true <-> fits_in v s r.
Proof.
  unfold resource_check, fits_in. destruct (v_store v s) as [sm|].
  2:{ split; [discriminate | intros (? & ? & ? & _); discriminate]. }
  destruct (v_region v r) as [m|].
  2:{ split; [discriminate | intros (? & ? & _ & ? & _); discriminate]. }
  split.
  - intros H. exists sm, m. split; [reflexivity|]. split; [reflexivity|]. intros V. rewrite V in H.
    destruct (sm_free_mem sm <=? 0); [discriminate|].
    destruct (rm_mem m <=? 0) eqn:E2; [discriminate|].
    destruct (sm_free_mem sm <=? rm_mem m) eqn:E3; [discriminate|].
    apply Z.leb_gt in E2, E3. lia.
  - intros (sm' & m' & E1 & E2 & H). injection E1 as <-. injection E2 as <-.
    destruct (rm_vector m); [|reflexivity]. specialize (H eq_refl).
    destruct (Z.leb_spec (sm_free_mem sm) 0); [lia|].
    destruct (Z.leb_spec (rm_mem m) 0); [lia|].
    destruct (Z.leb_spec (sm_free_mem sm) (rm_mem m)); [lia|]. reflexivity.
Qed.

Lemma insert_perm {A} (lt : A -> A -> bool) x l : Permutation (insert lt x l) (x :: l).
Proof.
  induction l as [|y l IH]; cbn; [reflexivity|]. destruct (lt y x); [|reflexivity].
  rewrite IH. apply perm_swap.
Qed.

Lemma isort_perm {A} (lt : A -> A -> bool) l : Permutation (isort lt l) l.
Proof.
  induction l as [|x l IH]; [reflexivity|]. unfold isort in *. cbn [fold_right].
  rewrite insert_perm, IH. reflexivity.
Qed.

(** ** Entries *)

Definition with_delta (e : entry) (d : Z) : entry :=
  mkEntry (n_id e) (n_weight e) (n_lead e) (n_foll e) d.

Definition cnt (f : task -> Z) (ts : list task) (s : Z) : Z :=
  Z.of_nat (length (filter (fun t => f t =? s) ts)).

Definition delta (ts : list task) (s : Z) : Z := cnt t_dst ts s - cnt t_src ts s.

Definition with_tasks (es : list entry) (ts : list task) : list entry :=
  map (fun e => with_delta e (delta ts (n_id e))) es.

Lemma cnt_snoc f ts t s : cnt f (ts ++ [t]) s = cnt f ts s + (if f t =? s then 1 else 0).
Proof.
  unfold cnt. rewrite filter_app, app_length. cbn [filter]. destruct (f t =? s); cbn; lia.
Qed.

Lemma delta_snoc ts t s :
  delta (ts ++ [t]) s = delta ts s + (if t_dst t =? s then 1 else 0) - (if t_src t =? s then 1 else 0).
Proof. unfold delta. rewrite !cnt_snoc. lia. Qed.

Lemma add_delta_with es ts t :
  add_delta (add_delta (with_tasks es ts) (t_src t) (-1)) (t_dst t) 1 = with_tasks es (ts ++ [t]).
Proof.
  unfold add_delta, with_tasks. rewrite !map_map. apply map_ext. intros e.
  rewrite delta_snoc. unfold with_delta. cbn [n_id].
  rewrite (Z.eqb_sym (t_src t)), (Z.eqb_sym (t_dst t)).
  destruct (n_id e =? t_src t) eqn:E1; cbn [n_id n_weight n_lead n_foll n_delta];
  destruct (n_id e =? t_dst t) eqn:E2; cbn [n_id n_weight n_lead n_foll n_delta]; f_equal; lia.
Qed.

Lemma with_nil es : Forall (fun e => n_delta e = 0) es -> with_tasks es [] = es.
Proof.
  intros H. unfold with_tasks. rewrite <- (map_id es) at 2. apply map_ext_in. intros e He.
  rewrite Forall_forall in H. specialize (H e He). destruct e as [a b c d k]. cbn in H. subst.
  reflexivity.
Qed.

Lemma ent_with es ts s :
  ent (with_tasks es ts) s = option_map (fun e => with_delta e (delta ts s)) (ent es s).
Proof.
  unfold ent, with_tasks. induction es as [|e es IH]; [reflexivity|]. cbn.
  destruct (n_id e =? s) eqn:E; [|exact IH]. apply Z.eqb_eq in E. subst. reflexivity.
Qed.

Lemma ent_id es s e : ent es s = Some e -> n_id e = s /\ In e es.
Proof. intros H. apply find_some in H. destruct H as [H E]. apply Z.eqb_eq in E. auto. Qed.

Lemma ent_In es e : NoDup (map n_id es) -> In e es -> ent es (n_id e) = Some e.
Proof.
  unfold ent. induction es as [|x es IH]; intros N H; [contradiction|].
  cbn in N. inversion N as [|? ? Hx Hn]. subst. cbn.
  destruct H as [-> | H]; [rewrite Z.eqb_refl; reflexivity|].
  destruct (n_id x =? n_id e) eqn:E; [|apply IH; assumption].
  apply Z.eqb_eq in E. exfalso. apply Hx. rewrite E. apply in_map. exact H.
Qed.

Lemma gen_entries_ok rs ss e : In e (gen_entries rs ss) ->
  n_lead e = leaders_of rs (n_id e) /\ n_foll e = followers_of rs (n_id e) /\ n_delta e = 0 /\
  (exists st, get_store ss (n_id e) = Some st /\ s_normal st = true /\ n_weight e = s_weight st) /\
  n_id e <> 0 /\ In (n_id e) (map_stores rs).
Proof.
  unfold gen_entries. rewrite in_flat_map. intros (sid & Hs & H).
  destruct (get_store ss sid) as [st|] eqn:G; [|contradiction].
  assert (Es : s_id st = sid).
  { unfold get_store in G. apply find_some in G. apply Z.eqb_eq. apply G. }
  destruct (s_id st =? 0) eqn:E0; [contradiction|].
  destruct (s_normal st) eqn:En; [|contradiction].
  destruct H as [<- | []]. cbn. rewrite Es. apply Z.eqb_neq in E0.
  split; [reflexivity|]. split; [reflexivity|]. split; [reflexivity|].
  split; [exists st; auto|]. split; [congruence | exact Hs].
Qed.

Lemma gen_entries_ids rs ss : NoDup (map n_id (gen_entries rs ss)).
Proof.
  unfold gen_entries. pose proof (sortedZ_NoDup _ (proj1 (map_stores_inv rs))) as N.
  induction (map_stores rs) as [|sid l IH]; [constructor|]. inversion N as [|? ? Hx Hn]. subst.
  specialize (IH Hn). cbn [flat_map]. rewrite map_app.
  destruct (get_store ss sid) as [st|] eqn:G; [|exact IH].
  assert (Es : s_id st = sid).
  { unfold get_store in G. apply find_some in G. apply Z.eqb_eq. apply G. }
  destruct (s_id st =? 0); [exact IH|]. destruct (negb (s_normal st)); [exact IH|].
  cbn. constructor; [|exact IH]. intros Hi. apply Hx. rewrite Es in Hi.
  apply in_map_iff in Hi. destruct Hi as (e & E & He). apply in_flat_map in He.
  destruct He as (s' & Hs' & He). destruct (get_store ss s') as [st'|] eqn:G'; [|contradiction].
  assert (Es' : s_id st' = s').
  { unfold get_store in G'. apply find_some in G'. apply Z.eqb_eq. apply G'. }
  destruct (s_id st' =? 0); [contradiction|]. destruct (negb (s_normal st')); [contradiction|].
  destruct He as [<- | []]. cbn in E. congruence.
Qed.

Lemma gen_entries_delta rs ss : Forall (fun e => n_delta e = 0) (gen_entries rs ss).
Proof. apply Forall_forall. intros e He. apply gen_entries_ok in He. apply He. Qed.

Lemma candidate_entry rs ss s : stores_ok ss ->
  (candidate rs ss s <-> exists e, In e (gen_entries rs ss) /\ n_id e = s).
Proof.
  intros Ok. split.
  - intros ((H0 & st & Hst & Es & En) & Hg).
    assert (G : get_store ss s = Some st).
    { unfold get_store. clear - Ok Hst Es. unfold stores_ok in Ok.
      induction ss as [|x ss IH]; [contradiction|]. cbn in Ok. inversion Ok as [|? ? Hx Hn]. subst.
      cbn. destruct Hst as [-> | Hst]; [rewrite Z.eqb_refl; reflexivity|].
      destruct (s_id x =? s_id st) eqn:E; [|apply IH; assumption].
      apply Z.eqb_eq in E. exfalso. apply Hx. rewrite E. apply in_map. exact Hst. }
    exists (mkEntry (s_id st) (s_weight st) (leaders_of rs s) (followers_of rs s) 0).
    split; [|exact Es]. unfold gen_entries. apply in_flat_map. exists s.
    split; [apply map_stores_inv; exact Hg|]. rewrite G.
    destruct (s_id st =? 0) eqn:E0; [apply Z.eqb_eq in E0; congruence|]. rewrite En. left. reflexivity.
  - intros (e & He & <-). apply gen_entries_ok in He.
    destruct He as (_ & _ & _ & (st & G & En & _) & H0 & Hm). split.
    + split; [exact H0|]. exists st. unfold get_store in G. apply find_some in G.
      destruct G as [G E]. apply Z.eqb_eq in E. auto.
    + apply map_stores_inv. exact Hm.
Qed.

(** ** One task *)

(** Why a task was made: out of a store, or into one. *)
Definition why_out (v : view) (t : task) : Prop :=
  fits_in v (t_dst t) (t_region t) /\ votes_in v (t_dst t) (t_region t).
Definition why_in (v : view) (fo : list Z) (t : task) : Prop :=
  ~ fits_in v (t_dst t) (t_region t) /\ votes_in v (t_src t) (t_region t) /\ In (t_region t) fo.

Definition justified (v : view) (es : list entry) (used : list Z) (t : task) : Prop :=
  exists a b, ent es (t_src t) = Some a /\ ent es (t_dst t) = Some b /\
    In (t_region t) (n_lead a) /\ ~ In (t_region t) used /\ healthy_in v (t_region t) /\
    t_region t <> 0 /\ score_le b 1 a (-1) = true /\
    ((t_src t <> t_dst t /\ why_out v t) \/ why_in v (n_foll b) t).

Lemma pick_region_ok v ids rid ps : pick_region v ids = Some (rid, ps) ->
  In rid ids /\ v_cur v rid = Some ps /\ rid <> 0.
Proof.
  unfold pick_region. destruct ids as [|i ids]; [discriminate|]. intros H.
  remember (i :: ids) as l.
  set (x := nth (v_pick v mod length l) l 0) in *. cbv zeta in H. fold x in H.
  assert (Hx : In x l).
  { apply nth_In. apply Nat.mod_upper_bound. subst l. discriminate. }
  destruct (x =? 0) eqn:E; [discriminate|]. destruct (v_cur v x) eqn:C; [|discriminate].
  assert (x = rid) by congruence. assert (l0 = ps) by congruence. clearbody x. subst x l0.
  apply Z.eqb_neq in E. auto.
Qed.

Lemma usable_ok v used ids r : In r (usable v used ids) <-> In r ids /\ ~ In r used /\ healthy_in v r.
Proof.
  unfold usable. rewrite !filter_In, health_check_ok, negb_true_iff, memZ_false. tauto.
Qed.

Lemma follower_stores_ok es ps lead e : In e (follower_stores es ps lead) ->
  exists p, In p ps /\ p_voter p = true /\ p_store p = n_id e /\ n_id e <> lead /\ ent es (n_id e) = Some e.
Proof.
  unfold follower_stores. intros H.
  apply (Permutation_in _ (isort_perm _ _)) in H. apply in_flat_map in H.
  destruct H as (p & Hp & H). destruct (p_voter p) eqn:V; [|contradiction].
  destruct (p_store p =? lead) eqn:E; [contradiction|]. cbn in H.
  destruct (ent es (p_store p)) as [x|] eqn:X; [|contradiction]. destruct H as [-> | []].
  pose proof (ent_id _ _ _ X) as [Hid _]. exists p. apply Z.eqb_neq in E.
  rewrite Hid. repeat split; auto; congruence.
Qed.

Lemma gen_out_ok v p sid t : gen_out v p sid = Some t -> justified v (pl_ents p) (pl_used p) t.
Proof.
  unfold gen_out. destruct (ent (pl_ents p) sid) as [src|] eqn:S; [|discriminate].
  destruct (pick_region _ _) as [[rid ps]|] eqn:P; [|discriminate].
  apply pick_region_ok in P. destruct P as (Pi & Pc & Pz). apply usable_ok in Pi.
  destruct (filter _ (filter _ _)) as [|e l] eqn:F; [discriminate|]. intros H.
  assert (t = mkTask rid sid (n_id e)) as -> by congruence. clear H.
  assert (He : In e (e :: l)) by (left; reflexivity). rewrite <- F in He.
  apply filter_In in He. destruct He as [He Sc]. apply filter_In in He. destruct He as [He Re].
  unfold filter_resource in Re. rewrite negb_involutive in Re. apply resource_check_ok in Re.
  apply follower_stores_ok in He. destruct He as (q & Hq & Vq & Sq & Ne & Ee).
  exists src, e. cbn [t_src t_dst t_region].
  repeat (split; [first [assumption | tauto]|]). left. split; [congruence|].
  split; [exact Re|]. exists ps, q. auto.
Qed.

Lemma leader_store_ok es ps rid l : leader_store es ps rid = Some l ->
  exists p, In p ps /\ p_voter p = true /\ p_store p = n_id l /\ ent es (n_id l) = Some l /\ In rid (n_lead l).
Proof.
  induction ps as [|p ps IH]; cbn; [discriminate|]. intros H.
  assert (Hrec : leader_store es ps rid = Some l ->
     exists p0, (p = p0 \/ In p0 ps) /\ p_voter p0 = true /\ p_store p0 = n_id l /\
                ent es (n_id l) = Some l /\ In rid (n_lead l)).
  { intros H'. destruct (IH H') as (q & Hq & R). exists q. split; [right; exact Hq | exact R]. }
  destruct (p_voter p) eqn:V; [|exact (Hrec H)].
  destruct (ent es (p_store p)) as [x|] eqn:X; [|exact (Hrec H)].
  destruct (memZ rid (n_lead x)) eqn:M; [|exact (Hrec H)].
  assert (x = l) as -> by congruence. pose proof (ent_id _ _ _ X) as [Hid _]. apply memZ_In in M.
  exists p. rewrite Hid. repeat split; auto.
Qed.

Lemma gen_in_ok v p sid t : gen_in v p sid = Some t -> justified v (pl_ents p) (pl_used p) t.
Proof.
  unfold gen_in. destruct (ent (pl_ents p) sid) as [dst|] eqn:S; [|discriminate].
  destruct (pick_region _ _) as [[rid ps]|] eqn:P; [|discriminate].
  apply pick_region_ok in P. destruct P as (Pi & Pc & Pz). apply usable_ok in Pi.
  unfold filter_resource. rewrite negb_involutive.
  destruct (resource_check v sid rid) eqn:R; [discriminate|].
  destruct (leader_store _ _ _) as [l|] eqn:L; [|discriminate].
  destruct (score_le dst 1 l (-1)) eqn:Sc; [|discriminate]. cbn [negb]. intros H.
  assert (t = mkTask rid (n_id l) sid) as -> by congruence. clear H.
  apply leader_store_ok in L. destruct L as (q & Hq & Vq & Sq & El & Il).
  exists l, dst. cbn [t_src t_dst t_region].
  repeat (split; [first [assumption | tauto]|]). right.
  split; [intros Hf; apply resource_check_ok in Hf; cbn in Hf; congruence|].
  split; [exists ps, q; auto | tauto].
Qed.

(** ** The loop *)

Section Loop.
  Variables (batch : nat) (views : nat -> view) (es : list entry).

  Definition cap : nat := Nat.max 1 batch.

  (** [pre] is the plan before a task, [t] the task. *)
  Definition step_ok (pre : list task) (t : task) : Prop :=
    exists n, justified (views n) (with_tasks es pre) (map t_region pre) t.

  Definition tasks_ok (ts : list task) : Prop :=
    forall pre t post, ts = pre ++ t :: post -> step_ok pre t.

  Record inv (p : plan) : Prop := {
    i_ents : pl_ents p = with_tasks es (pl_tasks p);
    i_used : forall r, In r (pl_used p) <-> In r (map t_region (pl_tasks p));
    i_tasks : tasks_ok (pl_tasks p);
    i_src : pl_src p = sorted_ids greater (pl_ents p);
    i_tgt : pl_tgt p = sorted_ids less (pl_ents p)
  }.

  Lemma tasks_ok_snoc ts t : tasks_ok ts -> step_ok ts t -> tasks_ok (ts ++ [t]).
  Proof.
    intros H Ht pre x post E.
    destruct post as [|y post] using rev_ind.
    - apply app_inj_tail in E. destruct E as [<- <-]. exact Ht.
    - clear IHpost. rewrite app_comm_cons, app_assoc in E. apply app_inj_tail in E.
      destruct E as [E _]. exact (H pre x post E).
  Qed.

  Lemma readjust_inv p t n : inv p -> justified (views n) (pl_ents p) (pl_used p) t -> inv (readjust p t).
  Proof.
    intros [I1 I2 I3 I4 I5] J. unfold readjust. constructor; cbn.
    - rewrite I1. apply add_delta_with.
    - intros r. rewrite map_app, in_app_iff. cbn. rewrite I2. tauto.
    - apply tasks_ok_snoc; [exact I3|]. exists n. rewrite <- I1.
      destruct J as (a & b & J1 & J2 & J3 & J4 & J5). exists a, b.
      rewrite I2 in J4. tauto.
    - reflexivity.
    - reflexivity.
  Qed.

  Lemma half_out_inv p p' b : inv p -> half_out batch views p = (p', b) -> inv p'.
  Proof.
    unfold half_out. intros Hi. destruct (nth_error _ _) as [sid|]; [|congruence].
    destruct (gen_out _ _ _) as [t|] eqn:G; intros H.
    - assert (p' = readjust p t) as -> by congruence. apply gen_out_ok in G.
      eapply readjust_inv; eassumption.
    - assert (E := f_equal fst H). cbn in E. subst p'. destruct Hi. constructor; assumption.
  Qed.

  Lemma half_in_inv p p' b : inv p -> half_in batch views p = (p', b) -> inv p'.
  Proof.
    unfold half_in. intros Hi. destruct (nth_error _ _) as [sid|]; [|congruence].
    destruct (gen_in _ _ _) as [t|] eqn:G; intros H.
    - assert (p' = readjust p t) as -> by congruence. apply gen_in_ok in G.
      eapply readjust_inv; eassumption.
    - assert (E := f_equal fst H). cbn in E. subst p'. destruct Hi. constructor; assumption.
  Qed.

  Lemma rounds_inv fuel p p' : inv p -> rounds batch views fuel p = Some p' -> inv p'.
  Proof.
    revert p. induction fuel as [|f IH]; intros p Hi; cbn [rounds]; [discriminate|].
    destruct (has_more p); [|congruence].
    destruct (half_out batch views p) as [p1 s1] eqn:H1. pose proof (half_out_inv _ _ _ Hi H1) as Hi1.
    destruct s1; [congruence|].
    destruct (half_in batch views p1) as [p2 s2] eqn:H2. pose proof (half_in_inv _ _ _ Hi1 H2) as Hi2.
    destruct s2; [congruence|]. apply IH. exact Hi2.
  Qed.

  (** Sizes: at the head of the loop there is room for one more task. *)
  Lemma half_out_size p p' b : half_out batch views p = (p', b) -> (length (pl_tasks p) < cap)%nat ->
    (length (pl_tasks p') <= cap)%nat /\ (b = false -> (length (pl_tasks p') < cap)%nat).
  Proof.
    unfold half_out, cap. intros H L. destruct (nth_error _ _) as [sid|].
    2:{ assert (p' = p) as -> by congruence. split; [lia | intros _; lia]. }
    destruct (gen_out _ _ _) as [t|].
    - assert (E1 := f_equal fst H). assert (E2 := f_equal snd H). cbn in E1, E2. subst p' b.
      rewrite app_length. cbn. rewrite app_length. cbn. split; [lia|].
      intros E. apply Nat.leb_gt in E. lia.
    - assert (E1 := f_equal fst H). cbn in E1. subst p'. cbn. split; [lia | intros _; lia].
  Qed.

  Lemma half_in_size p p' b : half_in batch views p = (p', b) -> (length (pl_tasks p) < cap)%nat ->
    (length (pl_tasks p') <= cap)%nat /\ (b = false -> (length (pl_tasks p') < cap)%nat).
  Proof.
    unfold half_in, cap. intros H L. destruct (nth_error _ _) as [sid|].
    2:{ assert (p' = p) as -> by congruence. split; [lia | intros _; lia]. }
    destruct (gen_in _ _ _) as [t|].
    - assert (E1 := f_equal fst H). assert (E2 := f_equal snd H). cbn in E1, E2. subst p' b.
      rewrite app_length. cbn. rewrite app_length. cbn. split; [lia|].
      intros E. apply Nat.leb_gt in E. lia.
    - assert (E1 := f_equal fst H). cbn in E1. subst p'. cbn. split; [lia | intros _; lia].
  Qed.

  Lemma rounds_size fuel p p' : (length (pl_tasks p) < cap)%nat ->
    rounds batch views fuel p = Some p' -> (length (pl_tasks p') <= cap)%nat.
  Proof.
    revert p. induction fuel as [|f IH]; intros p L; cbn [rounds]; [discriminate|].
    destruct (has_more p); [|intros H; assert (p' = p) as -> by congruence; lia].
    destruct (half_out batch views p) as [p1 s1] eqn:H1. destruct (half_out_size _ _ _ H1 L) as [A1 B1].
    destruct s1; [intros H; assert (p' = p1) as -> by congruence; exact A1|]. specialize (B1 eq_refl).
    destruct (half_in batch views p1) as [p2 s2] eqn:H2. destruct (half_in_size _ _ _ H2 B1) as [A2 B2].
    destruct s2; [intros H; assert (p' = p2) as -> by congruence; exact A2|]. apply IH. auto.
  Qed.

  (** Termination. *)
  Definition meas (p : plan) : nat :=
    ((cap - length (pl_tasks p)) + (length (pl_src p) - pl_si p) + (length (pl_tgt p) - pl_ti p))%nat.

  Lemma sorted_ids_length lt l : length (sorted_ids lt l) = length l.
  Proof. unfold sorted_ids. rewrite map_length. apply Permutation_length. apply isort_perm. Qed.

  Lemma with_tasks_length ts : length (with_tasks es ts) = length es.
  Proof. apply map_length. Qed.

  Lemma inv_lengths p : inv p -> length (pl_src p) = length es /\ length (pl_tgt p) = length es.
  Proof.
    intros [I1 _ _ I4 I5]. rewrite I4, I5, !sorted_ids_length, I1, with_tasks_length. auto.
  Qed.

  Lemma half_out_meas p p' : inv p -> half_out batch views p = (p', false) ->
    (length (pl_tasks p) < cap)%nat ->
    (meas p' <= meas p)%nat /\ ((pl_si p < length (pl_src p))%nat -> (meas p' < meas p)%nat) /\
    pl_ti p' = pl_ti p.
  Proof.
    intros Hi H L. pose proof (half_out_inv _ _ _ Hi H) as Hi'.
    destruct (inv_lengths _ Hi) as [A1 A2]. destruct (inv_lengths _ Hi') as [B1 B2].
    destruct (half_out_size _ _ _ H L) as [_ B]. specialize (B eq_refl).
    unfold meas. rewrite A1, A2, B1, B2. unfold half_out in H.
    destruct (nth_error (pl_src p) (pl_si p)) as [sid|] eqn:N.
    2:{ assert (p' = p) as -> by congruence. apply nth_error_None in N. rewrite A1 in N.
        split; [lia|]. split; [lia | reflexivity]. }
    assert (Ns : (pl_si p < length es)%nat) by (rewrite <- A1; apply nth_error_Some; congruence).
    destruct (gen_out _ _ _) as [t|].
    - assert (E1 := f_equal fst H). cbn in E1. subst p'. cbn in B |- *. rewrite app_length in B |- *. cbn in B |- *.
      split; [lia|]. split; [lia | reflexivity].
    - assert (E1 := f_equal fst H). cbn in E1. subst p'. cbn. split; [lia|]. split; [lia | reflexivity].
  Qed.

  Lemma half_in_meas p p' : inv p -> half_in batch views p = (p', false) ->
    (length (pl_tasks p) < cap)%nat ->
    (meas p' <= meas p)%nat /\ ((pl_ti p < length (pl_tgt p))%nat -> (meas p' < meas p)%nat).
  Proof.
    intros Hi H L. pose proof (half_in_inv _ _ _ Hi H) as Hi'.
    destruct (inv_lengths _ Hi) as [A1 A2]. destruct (inv_lengths _ Hi') as [B1 B2].
    destruct (half_in_size _ _ _ H L) as [_ B]. specialize (B eq_refl).
    unfold meas. rewrite A1, A2, B1, B2. unfold half_in in H.
    destruct (nth_error (pl_tgt p) (pl_ti p)) as [sid|] eqn:N.
    2:{ assert (p' = p) as -> by congruence. apply nth_error_None in N. rewrite A2 in N.
        split; lia. }
    assert (Ns : (pl_ti p < length es)%nat) by (rewrite <- A2; apply nth_error_Some; congruence).
    destruct (gen_in _ _ _) as [t|].
    - assert (E1 := f_equal fst H). cbn in E1. subst p'. cbn in B |- *. rewrite app_length in B |- *. cbn in B |- *.
      split; lia.
    - assert (E1 := f_equal fst H). cbn in E1. subst p'. cbn. split; lia.
  Qed.

  Lemma rounds_ends n : forall p, inv p -> (length (pl_tasks p) < cap)%nat -> (meas p <= n)%nat ->
    exists p', forall fuel, (n < fuel)%nat -> rounds batch views fuel p = Some p'.
  Proof.
    induction n as [n IH] using lt_wf_ind. intros p Hi L M.
    destruct (has_more p) eqn:Hm.
    2:{ exists p. intros [|f] F; [lia|]. cbn. rewrite Hm. reflexivity. }
    destruct (half_out batch views p) as [p1 s1] eqn:H1. destruct s1.
    { exists p1. intros [|f] F; [lia|]. cbn [rounds]. rewrite Hm, H1. reflexivity. }
    destruct (half_in batch views p1) as [p2 s2] eqn:H2. destruct s2.
    { exists p2. intros [|f] F; [lia|]. cbn [rounds]. rewrite Hm, H1, H2. reflexivity. }
    pose proof (half_out_inv _ _ _ Hi H1) as Hi1. pose proof (half_in_inv _ _ _ Hi1 H2) as Hi2.
    destruct (half_out_size _ _ _ H1 L) as [_ L1]. specialize (L1 eq_refl).
    destruct (half_in_size _ _ _ H2 L1) as [_ L2]. specialize (L2 eq_refl).
    destruct (half_out_meas _ _ Hi H1 L) as (M1 & M2 & M3).
    destruct (half_in_meas _ _ Hi1 H2 L1) as (M4 & M5).
    destruct (inv_lengths _ Hi) as [A1 A2]. destruct (inv_lengths _ Hi1) as [B1 B2].
    assert (Hlt : (meas p2 < meas p)%nat).
    { unfold has_more in Hm. apply orb_true_iff in Hm. rewrite !Nat.ltb_lt in Hm.
      destruct Hm as [Hm | Hm]; [specialize (M2 Hm); lia|].
      rewrite M3, B2 in M5. rewrite A2 in Hm. specialize (M5 Hm). lia. }
    destruct (IH (n - 1)%nat ltac:(lia) p2 Hi2 L2 ltac:(lia)) as (p' & Hp').
    exists p'. intros [|f] F; [lia|]. cbn [rounds]. rewrite Hm, H1, H2. apply Hp'. lia.
  Qed.
End Loop.

Lemma start_inv views rs ss : inv views (gen_entries rs ss) (start rs ss).
Proof.
  constructor; cbn.
  - symmetry. apply with_nil. apply gen_entries_delta.
  - tauto.
  - intros [|x0 pre] t post E; discriminate.
  - reflexivity.
  - reflexivity.
Qed.

(** The tasks behind a result of [schedule]. *)
Lemma schedule_inv batch views fuel rs ss ts : schedule batch views fuel rs ss = Some ts ->
  exists p, inv views (gen_entries rs ss) p /\ (length (pl_tasks p) <= Nat.max 1 batch)%nat /\
            ts = filter_task (views (pl_round p)) (pl_tasks p).
Proof.
  assert (H0 : Some [] = Some ts -> exists p, inv views (gen_entries rs ss) p /\
             (length (pl_tasks p) <= Nat.max 1 batch)%nat /\
             ts = filter_task (views (pl_round p)) (pl_tasks p)).
  { intros H. exists (start rs ss). split; [apply start_inv|]. cbn. split; [lia | congruence]. }
  unfold schedule. destruct (map_stores rs) eqn:E1; [exact H0|].
  destruct (gen_entries rs ss) eqn:E2; [exact H0|]. clear H0. rewrite <- E2.
  destruct (rounds batch views fuel (start rs ss)) as [p|] eqn:R; [|discriminate].
  intros H. exists p. split.
  - eapply rounds_inv; [apply start_inv | exact R].
  - split; [|congruence]. eapply rounds_size; [|exact R]. unfold cap. cbn. lia.
Qed.

Lemma schedule_ends batch views rs ss :
  exists n ts, forall fuel, (n <= fuel)%nat -> schedule batch views fuel rs ss = Some ts.
Proof.
  unfold schedule. destruct (map_stores rs); [exists O, []; auto|].
  destruct (gen_entries rs ss) eqn:E; [exists O, []; auto|].
  destruct (rounds_ends batch views (gen_entries rs ss) (meas batch (start rs ss)) (start rs ss)
              (start_inv _ _ _) ltac:(unfold cap; cbn; lia) (le_n _)) as (p & Hp).
  exists (S (meas batch (start rs ss))), (filter_task (views (pl_round p)) (pl_tasks p)).
  intros fuel F. rewrite Hp by lia. reflexivity.
Qed.
