(** Proofs about compaction of the versioned key-value store. *)
From Coq Require Import ZArith List Lia Bool Sorted Permutation.
From Verif Require Import Bytes SMap KvModel KvSpec KvProofs.
Import ListNotations.
Open Scope Z_scope.

(** order-preserving selection *)
Inductive sub {A} : list A -> list A -> Prop :=
| sub_nil : sub [] []
| sub_keep a l l' : sub l l' -> sub (a :: l) (a :: l')
| sub_drop a l l' : sub l l' -> sub l (a :: l').

Lemma sub_refl {A} (l : list A) : sub l l.
Proof. induction l; constructor; auto. Qed.
Lemma sub_in {A} (l l' : list A) : sub l l' -> forall x, In x l -> In x l'.
Proof. induction 1; simpl; intros x Hx; auto. destruct Hx; auto. Qed.
Lemma sub_app {A} (a b c d : list A) : sub a b -> sub c d -> sub (a ++ c) (b ++ d).
Proof. induction 1; simpl; intros; auto; constructor; auto. Qed.
Lemma sub_nil_l {A} (l : list A) : sub [] l.
Proof. induction l; constructor; auto. Qed.
Lemma sub_filter {A} (f : A -> bool) l : sub (filter f l) l.
Proof. induction l as [|a l IH]; simpl; [constructor|]. destruct (f a); constructor; auto. Qed.
Lemma sub_sorted {A} (R : A -> A -> Prop) l l' : sub l l' -> StronglySorted R l' -> StronglySorted R l.
Proof.
  induction 1; intros H0; auto; inversion H0; subst; auto.
  constructor; auto. rewrite Forall_forall in *. intros x Hx. apply H4. eapply sub_in; eauto.
Qed.

Lemma sorted_nodup l : StronglySorted rlt l -> NoDup l.
Proof.
  induction 1; constructor; auto. intros Hin. rewrite Forall_forall in H0. apply (rlt_irrefl a). auto.
Qed.

Definition old_rev (c : Z) (r : rev) : bool := fst r <? c.
Definition new_rev (c : Z) (r : rev) : bool := negb (fst r <? c).

Lemma filter_perm {A} (f : A -> bool) l : Permutation l (filter (fun x => negb (f x)) l ++ filter f l).
Proof.
  induction l as [|a l IH]; simpl; auto. destruct (f a); simpl.
  - apply Permutation_cons_app. auto.
  - constructor. auto.
Qed.

(** once a generation is kept the rest is kept *)
Lemma history_kept c hs : forall kept dropped, kept <> [] ->
  compact_history c hs kept dropped = (kept ++ hs, dropped).
Proof.
  induction hs as [|g hs IH]; intros kept dropped N; simpl; [rewrite app_nil_r; auto|].
  destruct kept as [|x kept]; [contradiction|]. rewrite IH.
  - rewrite <- app_assoc. auto.
  - destruct kept; discriminate.
Qed.

Record compacted (c : Z) (gs gs' : list gen) (out : list rev) : Prop := mkCo {
  co_sub : sub (all_revs gs') (all_revs gs);
  co_perm : Permutation (all_revs gs) (all_revs gs' ++ out);
  co_old : forall r, In r out -> fst r < c }.

Lemma history_compacted c hs : Forall (fun g => g_create g <> None) hs -> forall dropped,
  exists hs' out, compact_history c hs [] dropped = (hs', dropped ++ out) /\ compacted c hs hs' out /\
    Forall (fun g => g_create g <> None) hs' /\
    (hs' = [] -> forall r, In r (all_revs hs) -> fst r < c).
Proof.
  induction 1 as [|g hs Hg Hh IH]; intros dropped; simpl.
  - exists [], []. rewrite app_nil_r. split; [auto|split; [|split; [constructor|contradiction]]].
    constructor; [constructor|constructor|contradiction].
  - destruct (g_create g) as [cr|] eqn:C; [|contradiction].
    set (out := filter (fun r => fst r <? c) (g_revs g)).
    set (rest := filter (fun r => negb (fst r <? c)) (g_revs g)).
    assert (Hout : forall r, In r out -> fst r < c).
    { intros r Hr. apply filter_In in Hr. destruct Hr as [_ Hr]. apply Z.ltb_lt in Hr. auto. }
    assert (Hperm : Permutation (g_revs g) (rest ++ out)) by apply filter_perm.
    assert (Er : all_revs (g :: hs) = g_revs g ++ all_revs hs) by auto.
    assert (Hsub : sub rest (g_revs g)) by apply sub_filter.
    destruct rest as [|r0 rest'] eqn:R.
    + destruct (IH (dropped ++ out)) as (hs' & out' & E & Co & F & Hall).
      exists hs', (out ++ out'). rewrite app_assoc. split; [auto|split; [|split; [auto|]]].
      * destruct Co as [Cs Cp Cold]. constructor.
        -- rewrite Er. change (all_revs hs') with ([] ++ all_revs hs'). apply sub_app; auto.
        -- rewrite Er. eapply Permutation_trans; [apply Permutation_app; [exact Hperm|exact Cp]|].
           simpl. rewrite !app_assoc. apply Permutation_app_tail. apply Permutation_app_comm.
        -- intros r Hr. apply in_app_iff in Hr. destruct Hr; auto.
      * intros En r Hr. rewrite Er in Hr. apply in_app_iff in Hr. destruct Hr as [Hr|Hr]; auto.
        apply Hout. apply (Permutation_in _ Hperm). auto.
    + rewrite history_kept by discriminate. exists (mkG (Some cr) (g_ver g) (r0 :: rest') :: hs), out.
      split; [auto|split; [|split]].
      * constructor.
        -- rewrite Er. change (all_revs (mkG (Some cr) (g_ver g) (r0 :: rest') :: hs)) with ((r0 :: rest') ++ all_revs hs).
           apply sub_app; auto. apply sub_refl.
        -- rewrite Er. change (all_revs (mkG (Some cr) (g_ver g) (r0 :: rest') :: hs)) with ((r0 :: rest') ++ all_revs hs).
           eapply Permutation_trans; [apply Permutation_app_tail; exact Hperm|].
           rewrite <- !app_assoc. apply Permutation_app_head. apply Permutation_app_comm.
        -- auto.
      * constructor; auto.
      * discriminate.
Qed.

Lemma keep_last_spec c l : forall keep out, keep_last c l = (keep, out) ->
  sub keep l /\ Permutation l (keep ++ out) /\ (forall r, In r out -> fst r < c) /\
  (forall rs r, l = rs ++ [r] -> exists ks, keep = ks ++ [r]).
Proof.
  induction l as [|r l IH]; intros keep out H.
  - simpl in H. inversion H; subst. split; [constructor|split; [constructor|split; [contradiction|]]].
    intros rs r E. destruct rs; discriminate.
  - destruct l as [|r1 l].
    + simpl in H. inversion H; subst. split; [apply sub_refl|split; [auto|split; [contradiction|]]].
      intros rs r0 E. destruct rs as [|x [|y rs]]; inversion E; subst. exists []; auto.
    + change (keep_last c (r :: r1 :: l)) with
        (let '(keep, out) := keep_last c (r1 :: l) in if fst r <? c then (keep, r :: out) else (r :: keep, out)) in H.
      destruct (keep_last c (r1 :: l)) as [keep' out'] eqn:E.
      destruct (IH _ _ eq_refl) as (I1 & I2 & I3 & I4).
      assert (Last : forall rs r0, r :: r1 :: l = rs ++ [r0] -> exists ks, keep' = ks ++ [r0]).
      { intros rs r0 Er. destruct rs as [|x rs]; [discriminate|]. inversion Er; subst. eauto. }
      destruct (Z.ltb_spec (fst r) c) as [Lt|Ge]; inversion H; subst.
      * split; [constructor; auto|split; [|split; [|auto]]].
        -- apply Permutation_cons_app. auto.
        -- intros r0 [<-|Hr]; auto.
      * split; [constructor; auto|split; [|split; [auto|]]].
        -- simpl. constructor. auto.
        -- intros rs r0 Er. destruct (Last rs r0 Er) as [ks ->]. exists (r :: ks). auto.
Qed.

Lemma compacted_app c a a' o b : compacted c a a' o -> compacted c (a ++ b) (a' ++ b) o.
Proof.
  intros [H1 H2 H3]. constructor; auto.
  - rewrite !all_revs_app. apply sub_app; auto. apply sub_refl.
  - rewrite !all_revs_app. eapply Permutation_trans; [apply Permutation_app_tail; exact H2|].
    rewrite <- !app_assoc. apply Permutation_app_head. apply Permutation_app_comm.
Qed.

(** what compaction does to the generations of one key *)
Lemma compact_gens_spec c hs g : Forall (fun g => g_create g <> None) hs ->
  (g_create g = None -> g_revs g = []) ->
  forall gs' out, compact_gens c (hs ++ [g]) = (gs', out) ->
  compacted c (hs ++ [g]) gs' out /\
  ((gs' = [] /\ (g_create g = None \/ g_revs g = []) /\ forall r, In r (all_revs hs) -> fst r < c) \/
   exists hs' g', gs' = hs' ++ [g'] /\ Forall (fun g => g_create g <> None) hs' /\
     g_create g' = g_create g /\ g_ver g' = g_ver g /\ (g_create g = None -> g' = g) /\
     forall rs r, g_revs g = rs ++ [r] -> exists ks, g_revs g' = ks ++ [r]).
Proof.
  intros Hh Hnull gs' out H. unfold compact_gens in H. rewrite last_gen_app, removelast_snoc in H.
  destruct (history_compacted c hs Hh []) as (kept & dropped & E & Co & F & Hall). rewrite E in H. simpl in H.
  destruct kept as [|k0 kept].
  - destruct (g_create g) as [cr|] eqn:C.
    + destruct (keep_last c (g_revs g)) as [keep out'] eqn:K.
      destruct (keep_last_spec c _ _ _ K) as (K1 & K2 & K3 & K4).
      assert (Common : forall g', g_revs g' = keep -> compacted c (hs ++ [g]) [g'] (dropped ++ out')).
      { intros g' Eg. destruct Co as [C1 C2 C3]. simpl in C2. constructor.
        - rewrite all_revs_app, !all_revs_one, Eg. change keep with ([] ++ keep). apply sub_app; auto.
        - rewrite all_revs_app, !all_revs_one, Eg. eapply Permutation_trans; [apply Permutation_app; [exact C2|exact K2]|].
          rewrite !app_assoc. apply Permutation_app_tail. apply Permutation_app_comm.
        - intros r Hr. apply in_app_iff in Hr. destruct Hr; auto. }
      destruct keep as [|k1 keep'].
      * inversion H; subst. split.
        -- destruct (Common (mkG None 0 []) eq_refl) as [D1 D2 D3]. constructor; auto.
        -- left. split; [auto|split; [|auto]]. right. destruct (g_revs g) as [|r l] eqn:R; auto.
           destruct (@exists_last _ (r :: l)) as (rs & r0 & Er); [discriminate|].
           destruct (K4 rs r0 Er) as [ks Eks]. destruct ks; discriminate.
      * inversion H; subst. split; [apply Common; auto|]. right.
        exists [], (mkG (Some cr) (g_ver g) (k1 :: keep')). simpl.
        split; [auto|split; [constructor|split; [congruence|split; [auto|split; [congruence|auto]]]]].
    + inversion H; subst. split.
      * destruct Co as [C1 C2 C3]. constructor; auto.
        -- rewrite all_revs_app, all_revs_one, (Hnull eq_refl), app_nil_r. auto.
        -- rewrite all_revs_app, all_revs_one, (Hnull eq_refl), app_nil_r. auto.
      * left. split; [auto|split; auto].
  - inversion H; subst. split; [apply (compacted_app c hs (k0 :: kept) out [g]); auto|]. right.
    exists (k0 :: kept), g. split; [auto|split; [auto|split; [auto|split; [auto|split; [auto|]]]]].
    intros rs r Er. exists rs. auto.
Qed.

(** effects of deleting revision records *)
Definition drop_all (f : rev -> option kvr) (out : list rev) : rev -> option kvr :=
  fold_left (fun f r => rput f r None) out f.

Lemma drop_all_in out : forall f r, In r out -> drop_all f out r = None.
Proof.
  induction out as [|a out IH]; intros f r [].
  - subst. simpl. destruct (in_dec (fun x y : rev => ltac:(repeat decide equality)) r out) as [H|H]; [apply IH; auto|].
    clear IH. assert (G : forall l f0, ~ In r l -> drop_all f0 l r = f0 r).
    { clear. induction l as [|b l IH]; intros f0 N; auto. simpl. rewrite IH by (simpl in N; tauto).
      apply rput_other. intros ->. apply N. left; auto. }
    rewrite G by auto. apply rput_same.
  - simpl. apply IH; auto.
Qed.

Lemma drop_all_out out : forall f r, ~ In r out -> drop_all f out r = f r.
Proof.
  induction out as [|b l IH]; intros f0 r N; auto. simpl. rewrite IH by (simpl in N; tauto).
  apply rput_other. intros ->. apply N. left; auto.
Qed.

Lemma performs_drop out : forall s, performs s (map EDelRev out) =
  mkS (k_index s) (drop_all (k_revs s) out) (k_leases s) (k_rev s) (k_applied s) (k_srev s) (k_sapplied s).
Proof. induction out as [|r out IH]; intros s; simpl; [destruct s; auto|]. rewrite IH. auto. Qed.

(** one compaction: nothing visible changes, and what exactly goes *)
Lemma compact_step hi s key c : Inv hi s ->
  let s' := performs s (compact_effs s key c) in
  Inv hi s' /\ (forall k, look s' k = look s k) /\
  (forall r, c <= fst r -> k_revs s' r = k_revs s r) /\
  (forall r v, k_revs s r = Some v -> v_key v <> key -> k_revs s' r = Some v) /\
  (forall r, In r (listed s key) -> In r (listed s' key) \/ fst r < c /\ k_revs s' r = None) /\
  (forall r, k_revs s' r <> None -> k_revs s' r = k_revs s r) /\
  (look s key = None -> (forall r, In r (listed s key) -> fst r < c) -> iget (k_index s') key = None).
Proof.
  intros H. cbv zeta. unfold compact_effs.
  destruct (iget (k_index s) key) as [i|] eqn:E.
  2:{ simpl. split; [exact H|]. repeat split; auto. }
  destruct H as [Hs Hi Hr Hl]. pose proof (Hi key i E) as W.
  destruct W as [[gs [g [Eg [Hh Hg]]]] Ws Wl Wm].
  destruct (i_gens i) as [|g1 gr] eqn:Ei; [destruct gs; discriminate|]. rewrite <- Ei in *. clear Ei g1 gr.
  destruct (compact_gens c (i_gens i)) as [gs' out] eqn:Ec. rewrite Eg in Ec.
  assert (Hnull : g_create g = None -> g_revs g = []).
  { intros C. rewrite C in Hg. destruct Hg as [-> _]. auto. }
  destruct (compact_gens_spec c gs g Hh Hnull gs' out Ec) as [[Csub Cperm Cold] Hcase].
  rewrite <- Eg in *.
  assert (Dis : forall r, In r (all_revs gs') -> ~ In r out).
  { intros r H1 H2. pose proof (sorted_nodup _ Ws) as Nd.
    apply (Permutation_NoDup Cperm) in Nd. clear - Nd H1 H2.
    induction (all_revs gs') as [|a l IH]; simpl in *; [contradiction|]. inversion Nd; subst.
    destruct H1 as [->|H1]; auto. apply H3. apply in_app_iff; auto. }
  assert (OutK : forall r, In r out -> exists v, k_revs s r = Some v /\ v_key v = key).
  { intros r Ho. apply Wl. apply (Permutation_in _ (Permutation_sym Cperm)). apply in_app_iff; auto. }
  assert (Other : forall r v, k_revs s r = Some v -> v_key v <> key -> drop_all (k_revs s) out r = Some v).
  { intros r v Ev N. rewrite drop_all_out; auto. intros Ho. destruct (OutK r Ho) as (v0 & E0 & K0). congruence. }
  assert (NewK : forall r, c <= fst r -> drop_all (k_revs s) out r = k_revs s r).
  { intros r Hc. apply drop_all_out. intros Ho. specialize (Cold r Ho). lia. }
  assert (Any : forall r, drop_all (k_revs s) out r = k_revs s r \/ drop_all (k_revs s) out r = None).
  { intros r. destruct (in_dec (fun x y : rev => ltac:(repeat decide equality)) r out) as [Ho|Ho].
    - right. apply drop_all_in; auto.
    - left. apply drop_all_out; auto. }
  (* the live record is never dropped *)
  assert (LiveK : g_create g <> None -> ~ In (i_mod i) out /\ gs' <> []).
  { intros C. destruct (g_create g) as [cr|] eqn:Cg; [|contradiction].
    destruct Hg as (rs & v & Er & _). destruct Hcase as [(En & [Hn|Hn] & _)|(hs' & g' & Eg' & _ & _ & _ & _ & Hlast)].
    - discriminate.
    - rewrite Hn in Er. destruct rs; discriminate.
    - destruct (Hlast rs (i_mod i) Er) as [ks Ek]. split.
      + apply Dis. rewrite Eg', all_revs_app, all_revs_one, Ek. apply in_app_iff. right. apply in_app_iff. right. left; auto.
      + rewrite Eg'. destruct hs'; discriminate. }
  (* other keys *)
  assert (Oth : forall k j, k <> key -> iget (k_index s) k = Some j -> wf_idx (drop_all (k_revs s) out) hi k j).
  { intros k j N Ek. destruct (Hi k j Ek) as [[hs [h [Eh [Fh Hgh]]]] Js Jl Jm]. constructor; auto.
    - exists hs, h. split; [auto|split; [auto|]]. destruct (g_create h).
      + destruct Hgh as (rs & v & E1 & E2 & E3 & E4). exists rs, v. split; [auto|split; [|auto]].
        apply Other; auto. congruence.
      + destruct Hgh as [-> Hv]. split; auto. intros v Ev. apply Hv. destruct (Any (i_mod j)) as [A|A]; congruence.
    - intros r Hin. destruct (Jl r Hin) as [Hle (v & Ev & Kv)]. split; auto. exists v. split; auto.
      apply Other; auto. congruence. }
  assert (LookOther : forall k, k <> key -> forall m, (iget m k = iget (k_index s) k) ->
     look (mkS m (drop_all (k_revs s) out) (k_leases s) (k_rev s) (k_applied s) (k_srev s) (k_sapplied s)) k = look s k).
  { intros k N m Em. unfold look. simpl. rewrite Em. destruct (iget (k_index s) k) as [j|] eqn:Ek; auto.
    destruct (live_idx j) eqn:Lj; auto.
    destruct (wf_live _ _ _ _ (Hi k j Ek) Lj) as (_ & _ & _ & _ & v & _ & _ & _ & _ & Ev & Kv & _).
    rewrite Ev. rewrite (Other _ v Ev); auto. congruence. }
  assert (LookKey : look s key = match g_create g with Some _ => option_map (to_kvo false) (k_revs s (i_mod i)) | None => None end).
  { unfold look. rewrite E. rewrite (live_create _ _ _ Eg). destruct (g_create g) as [cr|] eqn:C; auto.
    destruct Hg as (rs & v & Er & _). rewrite Er. destruct rs; auto. }
  assert (Lst : listed s key = all_revs (i_gens i)) by (unfold listed; rewrite E; auto).
  assert (Revs : forall r v, drop_all (k_revs s) out r = Some v -> rle r hi /\ 0 < fst r).
  { intros r v Ev. destruct (Any r) as [A|A]; [|congruence]. apply (Hr r v). congruence. }
  destruct gs' as [|g0 gr].
  - (* the key goes *)
    assert (Eff : performs s (EDelIdx key :: map EDelRev out) =
      mkS (idel (k_index s) key) (drop_all (k_revs s) out) (k_leases s) (k_rev s) (k_applied s) (k_srev s) (k_sapplied s)).
    { change (performs s (EDelIdx key :: map EDelRev out)) with (performs (perform s (EDelIdx key)) (map EDelRev out)).
      rewrite performs_drop. auto. }
    rewrite Eff. clear Eff.
    assert (Dead : g_create g = None).
    { destruct (g_create g) as [cr|] eqn:C; auto. destruct LiveK as [_ N]; [discriminate|]. contradiction. }
    split; [|split; [|split; [|split; [|split; [|split]]]]]; simpl.
    + constructor; simpl; auto.
      * apply sorted_del; auto.
      * intros k j Ek. destruct (bytes_eq_dec key k) as [->|N]; [rewrite iget_idel_same in Ek by auto; discriminate|].
        rewrite iget_idel_other in Ek by auto. apply Oth; auto.
    + intros k. destruct (bytes_eq_dec key k) as [<-|N].
      * rewrite LookKey, Dead. unfold look. simpl. rewrite iget_idel_same by auto. auto.
      * apply LookOther; auto. apply iget_idel_other; auto.
    + auto.
    + auto.
    + intros r Hin. right. rewrite Lst in Hin. simpl in Cperm. apply (Permutation_in _ Cperm) in Hin. split; auto. apply drop_all_in; auto.
    + intros r N. destruct (Any r); [auto|contradiction].
    + intros _ _. apply iget_idel_same; auto.
  - (* the key stays *)
    set (gs' := g0 :: gr) in *.
    assert (Eff : performs s (EIdx key (mkI (i_mod i) gs') :: map EDelRev out) =
      mkS (iput (k_index s) key (mkI (i_mod i) gs')) (drop_all (k_revs s) out) (k_leases s) (k_rev s) (k_applied s) (k_srev s) (k_sapplied s)).
    { change (performs s (EIdx key (mkI (i_mod i) gs') :: map EDelRev out)) with
        (performs (perform s (EIdx key (mkI (i_mod i) gs'))) (map EDelRev out)). rewrite performs_drop. auto. }
    change (match gs' with [] => EDelIdx key | _ :: _ => EIdx key (mkI (i_mod i) gs') end) with (EIdx key (mkI (i_mod i) gs')).
    rewrite Eff. clear Eff.
    destruct Hcase as [(En & _)|(hs' & g' & Eg' & Fh' & Ecr & Ever & Enull & Hlast)]; [discriminate|].
    assert (W' : wf_idx (drop_all (k_revs s) out) hi key (mkI (i_mod i) gs')).
    { constructor; simpl i_gens; simpl i_mod; auto.
      - exists hs', g'. split; [auto|split; [auto|]]. rewrite Ecr.
        destruct (g_create g) as [cr|] eqn:C.
        + destruct Hg as (rs & v & Er & Ev & Hv). destruct (Hlast rs (i_mod i) Er) as [ks Ek].
          exists ks, v. split; [auto|]. rewrite Ever. split; [|auto].
          rewrite drop_all_out; auto. apply LiveK. discriminate.
        + destruct Hg as [-> Hv]. split; [apply Enull; auto|]. intros v Ev. apply Hv.
          destruct (Any (i_mod i)) as [A|A]; congruence.
      - eapply sub_sorted; eauto.
      - intros r Hin. destruct (Wl r) as [Hle (v & Ev & Kv)]; [eapply sub_in; eauto|]. split; auto.
        exists v. split; auto. rewrite drop_all_out; auto. }
    split; [|split; [|split; [|split; [|split; [|split]]]]]; simpl.
    + constructor; simpl; auto.
      * apply (sorted_put _ bcmp_ok); auto.
      * intros k j Ek. destruct (bytes_eq_dec key k) as [->|N].
        -- rewrite iget_iput_same in Ek. injection Ek as <-. auto.
        -- rewrite iget_iput_other in Ek by auto. apply Oth; auto.
    + intros k. destruct (bytes_eq_dec key k) as [<-|N].
      * rewrite LookKey. unfold look. simpl. rewrite iget_iput_same.
        rewrite (live_create (mkI (i_mod i) gs') hs' g' Eg'), Ecr.
        destruct (g_create g) as [cr|] eqn:C; auto.
        destruct Hg as (rs & v & Er & _). destruct (Hlast rs (i_mod i) Er) as [ks ->].
        destruct ks; simpl; (rewrite drop_all_out; [auto|]); apply LiveK; discriminate.
      * apply LookOther; auto. apply iget_iput_other; auto.
    + auto.
    + auto.
    + intros r Hin. rewrite Lst in Hin. unfold listed at 1. simpl. rewrite iget_iput_same. simpl i_gens.
      change (concat (map g_revs gs')) with (all_revs gs').
      apply (Permutation_in _ Cperm) in Hin. apply in_app_iff in Hin. destruct Hin as [Hin|Hin]; auto.
      right. split; auto. apply drop_all_in; auto.
    + intros r N. destruct (Any r); [auto|contradiction].
    + intros Ln Hall. exfalso.
      (* everything is old and the key is not live: nothing can be kept *)
      rewrite LookKey in Ln. destruct (g_create g) as [cr|] eqn:C.
      { destruct Hg as (rs & v & Er & Ev & _). rewrite Ev in Ln. discriminate. }
      clear - Ec Eg Hh C Hall Lst. rewrite Lst, Eg in Hall. rewrite Eg in Ec.
      unfold compact_gens in Ec. rewrite last_gen_app, removelast_snoc, C in Ec.
      assert (K : forall hs d, (forall r, In r (all_revs hs) -> fst r < c) -> fst (compact_history c hs [] d) = []).
      { clear. induction hs as [|h hs IH]; intros d Ha; auto. cbn [compact_history]. cbv zeta. destruct (g_create h); [|apply IH; intros r Hr; apply Ha; apply in_app_iff; auto].
        assert (En : filter (fun r : rev => negb (fst r <? c)) (g_revs h) = []).
        { assert (Q : forall l : list rev, (forall r, In r l -> fst r < c) -> filter (fun r : rev => negb (fst r <? c)) l = []).
          { clear. induction l as [|x l IH]; intros Hx; auto. simpl. rewrite (proj2 (Z.ltb_lt _ _)) by (apply Hx; left; auto). simpl. apply IH. intros; apply Hx; right; auto. }
          apply Q. intros x Hx. apply Ha. apply in_app_iff; auto. }
        unfold rev in En |- *. rewrite En. apply IH. intros x Hx. apply Ha. apply in_app_iff; auto. }
      specialize (K gs [] ltac:(intros r Hr; apply Hall; rewrite all_revs_app; apply in_app_iff; auto)).
      destruct (compact_history c gs [] []) as [kept dropped]. simpl in K. subst kept. discriminate.
Qed.
