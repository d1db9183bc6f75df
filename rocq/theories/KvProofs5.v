(** Proofs about the versioned key-value store: a crash while an entry is applied. *)
From Coq Require Import ZArith List Lia Bool Sorted Permutation.
From Verif Require Import Bytes SMap KvModel KvSpec KvProofs KvProofs2 KvProofs3 KvProofs4.
From Verif Require Import LogProofs2.
Import ListNotations.
Open Scope Z_scope.

(** ** Compaction stopped half way *)

Lemma firstn_map_del out : forall j, firstn j (map EDelRev out) = map EDelRev (firstn j out).
Proof. intros j. apply firstn_map. Qed.

Lemma compact_prefix hi s key c j : Inv hi s ->
  let s' := performs s (firstn j (compact_effs s key c)) in
  Inv hi s' /\ (forall k, look s' k = look s k).
Proof.
  intros H. cbv zeta. destruct j as [|j]; [simpl; auto|]. unfold compact_effs.
  destruct (iget (k_index s) key) as [i|] eqn:E; [|simpl; auto].
  destruct H as [Hs Hi Hr Hl]. pose proof (Hi key i E) as W.
  destruct W as [[gs [g [Eg [Hh Hg]]]] Ws Wl Wm].
  destruct (i_gens i) as [|g1 gr] eqn:Ei; [destruct gs; discriminate|]. rewrite <- Ei in *. clear Ei g1 gr.
  destruct (compact_gens c (i_gens i)) as [gs' full] eqn:Ec. rewrite Eg in Ec.
  assert (Hnull : g_create g = None -> g_revs g = []).
  { intros C. rewrite C in Hg. destruct Hg as [-> _]. auto. }
  destruct (compact_gens_spec c gs g Hh Hnull gs' full Ec) as [[Csub Cperm Cold] Hcase].
  rewrite <- Eg in *. cbn [firstn]. rewrite firstn_map.
  set (out := firstn j full) in *.
  assert (Inc : forall r, In r out -> In r full).
  { intros r Hin. rewrite <- (firstn_skipn j full). apply in_app_iff. auto. }
  assert (Dis : forall r, In r (all_revs gs') -> ~ In r out).
  { intros r H1 H2. apply Inc in H2. pose proof (sorted_nodup _ Ws) as Nd.
    apply (Permutation_NoDup Cperm) in Nd. clear - Nd H1 H2.
    induction (all_revs gs') as [|a l IH]; simpl in *; [contradiction|]. inversion Nd; subst.
    destruct H1 as [->|H1]; auto. apply H3. apply in_app_iff; auto. }
  assert (OutK : forall r, In r out -> exists v, k_revs s r = Some v /\ v_key v = key).
  { intros r Ho. apply Wl. apply (Permutation_in _ (Permutation_sym Cperm)). apply in_app_iff; auto. }
  assert (Other : forall r v, k_revs s r = Some v -> v_key v <> key -> drop_all (k_revs s) out r = Some v).
  { intros r v Ev N. rewrite drop_all_out; auto. intros Ho. destruct (OutK r Ho) as (v0 & E0 & K0). congruence. }
  assert (Any : forall r, drop_all (k_revs s) out r = k_revs s r \/ drop_all (k_revs s) out r = None).
  { intros r. destruct (in_dec (fun x y : rev => ltac:(repeat decide equality)) r out) as [Ho|Ho].
    - right. apply drop_all_in; auto.
    - left. apply drop_all_out; auto. }
  assert (LiveK : g_create g <> None -> ~ In (i_mod i) out /\ gs' <> []).
  { intros C. destruct (g_create g) as [cr|] eqn:Cg; [|contradiction].
    destruct Hg as (rs & v & Er & _). destruct Hcase as [(En & [Hn|Hn] & _)|(hs' & g' & Eg' & _ & _ & _ & _ & Hlast)].
    - discriminate.
    - rewrite Hn in Er. destruct rs; discriminate.
    - destruct (Hlast rs (i_mod i) Er) as [ks Ek]. split.
      + apply Dis. rewrite Eg', all_revs_app, all_revs_one, Ek. apply in_app_iff. right. apply in_app_iff. right. left; auto.
      + rewrite Eg'. destruct hs'; discriminate. }
  assert (Oth : forall k j, k <> key -> iget (k_index s) k = Some j -> wf_idx (drop_all (k_revs s) out) hi k j).
  { intros k j0 N Ek. destruct (Hi k j0 Ek) as [[hs [h [Eh [Fh Hgh]]]] Js Jl Jm]. constructor; auto.
    - exists hs, h. split; [auto|split; [auto|]]. destruct (g_create h).
      + destruct Hgh as (rs & v & E1 & E2 & E3 & E4). exists rs, v. split; [auto|split; [|auto]].
        apply Other; auto. congruence.
      + destruct Hgh as [-> Hv]. split; auto. intros v Ev. apply Hv. destruct (Any (i_mod j0)) as [A|A]; congruence.
    - intros r Hin. destruct (Jl r Hin) as [Hle (v & Ev & Kv)]. split; auto. exists v. split; auto.
      apply Other; auto. congruence. }
  assert (LookOther : forall k, k <> key -> forall m, (iget m k = iget (k_index s) k) ->
     look (mkS m (drop_all (k_revs s) out) (k_leases s) (k_rev s) (k_applied s) (k_srev s) (k_sapplied s)) k = look s k).
  { intros k N m Em. unfold look. simpl. rewrite Em. destruct (iget (k_index s) k) as [j0|] eqn:Ek; auto.
    destruct (live_idx j0) eqn:Lj; auto.
    destruct (wf_live _ _ _ _ (Hi k j0 Ek) Lj) as (_ & _ & _ & _ & v & _ & _ & _ & _ & Ev & Kv & _).
    rewrite Ev. rewrite (Other _ v Ev); auto. congruence. }
  assert (LookKey : look s key = match g_create g with Some _ => option_map (to_kvo false) (k_revs s (i_mod i)) | None => None end).
  { unfold look. rewrite E. rewrite (live_create _ _ _ Eg). destruct (g_create g) as [cr|] eqn:C; auto.
    destruct Hg as (rs & v & Er & _). rewrite Er. destruct rs; auto. }
  assert (Revs : forall r v, drop_all (k_revs s) out r = Some v -> rle r hi /\ 0 < fst r).
  { intros r v Ev. destruct (Any r) as [A|A]; [|congruence]. apply (Hr r v). congruence. }
  destruct gs' as [|g0 gr].
  - change (performs s (EDelIdx key :: map EDelRev out)) with (performs (perform s (EDelIdx key)) (map EDelRev out)).
    rewrite performs_drop. cbn [perform k_index k_revs k_leases k_rev k_applied k_srev k_sapplied].
    assert (Dead : g_create g = None).
    { destruct (g_create g) as [cr|] eqn:C; auto. destruct LiveK as [_ N]; [discriminate|]. contradiction. }
    split.
    + constructor; simpl; auto.
      * apply sorted_del; auto.
      * intros k j0 Ek. destruct (bytes_eq_dec key k) as [->|N]; [rewrite iget_idel_same in Ek by auto; discriminate|].
        rewrite iget_idel_other in Ek by auto. apply Oth; auto.
    + intros k. destruct (bytes_eq_dec key k) as [<-|N].
      * rewrite LookKey, Dead. unfold look. simpl. rewrite iget_idel_same by auto. auto.
      * apply LookOther; auto. apply iget_idel_other; auto.
  - set (gs' := g0 :: gr) in *.
    match goal with |- Inv _ ?x /\ _ => replace x with (performs (perform s (EIdx key (mkI (i_mod i) gs'))) (map EDelRev out)) by reflexivity end.
    rewrite performs_drop. cbn [perform k_index k_revs k_leases k_rev k_applied k_srev k_sapplied].
    destruct Hcase as [(En & _)|(hs' & g' & Eg' & Fh' & Ecr & Ever & Enull & Hlast)]; [discriminate|].
    assert (W' : wf_idx (drop_all (k_revs s) out) hi key (mkI (i_mod i) gs')).
    { constructor; simpl i_gens; simpl i_mod; auto.
      - exists hs', g'. split; [auto|split; [auto|]]. rewrite Ecr.
        destruct (g_create g) as [cr|] eqn:C.
        + destruct Hg as (rs & v & Er & Ev & Hv). destruct (Hlast rs (i_mod i) Er) as [ks Ek].
          exists ks, v. split; [auto|]. rewrite Ever. split; [|auto].
          rewrite drop_all_out; auto. apply LiveK. discriminate.
        + destruct Hg as [-> Hv]. split; [apply Enull; auto|]. intros v Ev. apply Hv.
          destruct (Any (i_mod i)) as [A|A]; congruence.
      - eapply sub_sorted; eauto.
      - intros r Hin. destruct (Wl r) as [Hle (v & Ev & Kv)]; [eapply sub_in; eauto|]. split; auto.
        exists v. split; auto. rewrite drop_all_out; auto. }
    split.
    + constructor; simpl; auto.
      * apply (sorted_put _ bcmp_ok); auto.
      * intros k j0 Ek. destruct (bytes_eq_dec key k) as [->|N].
        -- rewrite iget_iput_same in Ek. injection Ek as <-. auto.
        -- rewrite iget_iput_other in Ek by auto. apply Oth; auto.
    + intros k. destruct (bytes_eq_dec key k) as [<-|N].
      * rewrite LookKey. unfold look. simpl. rewrite iget_iput_same.
        rewrite (live_create (mkI (i_mod i) gs') hs' g' Eg'), Ecr.
        destruct (g_create g) as [cr|] eqn:C; auto.
        destruct Hg as (rs & v & Er & _). destruct (Hlast rs (i_mod i) Er) as [ks ->].
        destruct ks; simpl; (rewrite drop_all_out; [auto|]); apply LiveK; discriminate.
      * apply LookOther; auto. apply iget_iput_other; auto.
Qed.

Lemma is_compact_ops ops : forallb is_compact ops = true -> forall main sub s s' j hi, Inv hi s ->
  Inv hi s' -> (forall k, look s' k = look s k) ->
  snd (ops_effs s' ops main sub) = main /\
  let t := performs s' (firstn j (fst (ops_effs s' ops main sub))) in
  Inv hi t /\ (forall k, look t k = look s k) /\ k_leases t = k_leases s' /\ k_rev t = k_rev s' /\
  k_applied t = k_applied s' /\ k_srev t = k_srev s' /\ k_sapplied t = k_sapplied s'.
Proof.
  induction ops as [|o ops IH]; intros F main sub s s' j hi H H' L.
  - cbn [ops_effs fst snd]. split; [auto|]. destruct j; cbn [firstn performs fold_left]; split; auto 10.
  - simpl in F. apply andb_true_iff in F. destruct F as [Fo F]. destruct o as [? ? ? ? ?|?|key c]; try discriminate.
    cbn [ops_effs takes_revision op_effs]. cbv zeta.
    destruct (compact_step hi s' key c H') as (H1 & L1 & _).
    pose proof (performs_rest _ s' (op_effs_table s' (0, 0) (OCompact key c))) as R. simpl op_effs in R.
    destruct (IH F main sub s _ (j - length (compact_effs s' key c))%nat hi H H1) as [IM I].
    { intros k. rewrite L1. auto. }
    destruct (ops_effs (performs s' (compact_effs s' key c)) ops main sub) as [es m] eqn:E. cbn [fst snd] in *.
    split; [auto|]. rewrite firstn_app, performs_app.
    destruct (Nat.le_gt_cases (length (compact_effs s' key c)) j) as [Le|Gt].
    + rewrite firstn_all2 by lia. destruct R as (R1 & R2 & R3 & R4 & R5). destruct I as (I1 & I2 & I3 & I4 & I5 & I6 & I7).
      split; [exact I1|]. split; [exact I2|]. repeat split; congruence.
    + replace (j - length (compact_effs s' key c))%nat with 0%nat by lia. cbn [firstn performs fold_left].
      destruct (compact_prefix hi s' key c j H') as [P1 P2].
      split; [exact P1|]. split; [intros k; rewrite P2; auto|].
      assert (T : Forall (fun e => table_eff e = true) (firstn j (compact_effs s' key c))).
      { pose proof (op_effs_table s' (0, 0) (OCompact key c)) as T. simpl op_effs in T.
        rewrite Forall_forall in *. intros x Hx. apply T. rewrite <- (firstn_skipn j). apply in_app_iff; auto. }
      destruct (performs_rest _ s' T) as (R1' & R2' & R3' & R4' & R5'). auto 10.
Qed.

(** the entry again after a restart, or not at all if its last write was done *)
Lemma crash_cases n s e j : Good n s ->
  let es := entry_effs s (n + 1) e in
  (length es <= j)%nat \/ (j < length es)%nat /\
  firstn j es = firstn j (removelast es).
Proof.
  intros G. cbv zeta. destruct (Nat.le_gt_cases (length (entry_effs s (n + 1) e)) j) as [H|H]; [auto|right]. split; auto.
  set (es := entry_effs s (n + 1) e) in *. clearbody es. clear G. revert j H.
  induction es as [|x es IH]; intros j H; [simpl in H; lia|]. destruct j as [|j]; auto.
  destruct es as [|y es]; [simpl in H; lia|]. change (removelast (x :: y :: es)) with (x :: removelast (y :: es)).
  cbn [firstn]. f_equal. apply IH. simpl in *. lia.
Qed.

Lemma crash_done_eq n s e j : Good n s -> (length (entry_effs s (n + 1) e) <= j)%nat ->
  crash_replay s (n + 1) e j = recover (apply_entry s (n + 1) e).
Proof.
  intros G H. unfold crash_replay. rewrite firstn_all2 by auto. fold (apply_entry s (n + 1) e).
  destruct (entry_step n s (abs s) e G (seq_refl _)) as (G1 & _).
  set (t := recover (apply_entry s (n + 1) e)). unfold apply_entry, entry_effs.
  replace (n + 1 <=? k_applied t) with true; auto. symmetry. apply Z.leb_le.
  unfold t. cbn [k_applied recover]. rewrite (good_sapplied _ _ G1). lia.
Qed.

Lemma crash_done n s e j : Good n s -> (length (entry_effs s (n + 1) e) <= j)%nat ->
  forall k, look (crash_replay s (n + 1) e j) k = look (apply_entry s (n + 1) e) k.
Proof. intros G H k. rewrite (crash_done_eq n s e j G H). reflexivity. Qed.

Lemma crash_done_leases n s e j : Good n s -> (length (entry_effs s (n + 1) e) <= j)%nat ->
  RInv (crash_replay s (n + 1) e j) /\
  k_leases (crash_replay s (n + 1) e j) = k_leases (apply_entry s (n + 1) e) /\
  k_rev (crash_replay s (n + 1) e j) = k_rev (apply_entry s (n + 1) e).
Proof.
  intros G H. rewrite (crash_done_eq n s e j G H).
  destruct (entry_step n s (abs s) e G (seq_refl _)) as (G1 & _).
  split; [|split; [auto|apply G1]]. destruct (good_inv _ _ G1) as (hi & H1 & _). apply inv_rinv in H1. destruct H1; constructor; auto.
Qed.

(** the effects of an entry that is not yet applied *)
Lemma entry_effs_new n s e : k_applied s = n ->
  entry_effs s (n + 1) e =
    map lop_eff (in_leases e) ++ fst (ops_effs (performs s (map lop_eff (in_leases e))) (in_ops e) None 1) ++
    [EFinal (n + 1) (snd (ops_effs (performs s (map lop_eff (in_leases e))) (in_ops e) None 1))].
Proof.
  intros E. unfold entry_effs. rewrite E. replace (n + 1 <=? n) with false by (symmetry; apply Z.leb_gt; lia).
  destruct (ops_effs _ _ None 1). auto.
Qed.

Lemma crash_compact n s e j : Good n s -> compact_entry e ->
  let t := crash_replay s (n + 1) e j in let s' := apply_entry s (n + 1) e in
  RInv t /\ (forall k, look t k = look s' k) /\ (forall l, lget (k_leases t) l = lget (k_leases s') l) /\ k_rev t = k_rev s'.
Proof.
  intros G [Hl Hc]. cbv zeta. destruct (good_inv _ _ G) as (hi & H & _).
  destruct (crash_cases n s e j G) as [Hj|[Hj E]].
  { destruct (crash_done_leases n s e j G Hj) as (A & B & C). split; [auto|]. split; [intros; apply crash_done; auto|]. rewrite B. auto. }
  unfold crash_replay. rewrite E. clear E.
  rewrite (entry_effs_new n s e (good_applied _ _ G)). rewrite Hl. cbn [map app]. rewrite removelast_snoc.
  change (performs s []) with s.
  destruct (is_compact_ops _ Hc None 1 s s j hi H H (fun k => eq_refl)) as [Em (P1 & P2 & P3 & P4 & P5 & P6 & P7)].
  set (t0 := performs s (firstn j (fst (ops_effs s (in_ops e) None 1)))) in *.
  assert (A0 : k_applied (recover t0) = n) by (simpl; rewrite P7; apply G).
  assert (I0 : Inv hi (recover t0)) by (destruct P1; constructor; auto).
  assert (L0 : forall k, look (recover t0) k = look s k) by (intros k; exact (P2 k)).
  assert (Fin : forall x, k_applied x = n -> Inv hi x -> (forall k, look x k = look s k) ->
    let y := apply_entry x (n + 1) e in
    Inv hi y /\ (forall k, look y k = look s k) /\ k_leases y = k_leases x /\ k_rev y = k_rev x).
  { intros x Ax Ix Lx. cbv zeta. unfold apply_entry. rewrite (entry_effs_new n x e Ax), Hl. cbn [map app].
    change (performs x []) with x. rewrite performs_app.
    destruct (is_compact_ops _ Hc None 1 s x (length (fst (ops_effs x (in_ops e) None 1))) hi H Ix Lx) as [_ (Q1 & Q2 & Q3 & Q4 & _)].
    rewrite firstn_all in *. set (y := performs x (fst (ops_effs x (in_ops e) None 1))) in *.
    split; [destruct Q1; constructor; auto|]. split; [exact Q2|]. split; [exact Q3|exact Q4]. }
  destruct (Fin (recover t0) A0 I0 L0) as (F1 & F2 & F3 & F4).
  destruct (Fin s (good_applied _ _ G) H (fun k => eq_refl)) as (S1 & S2 & S3 & S4).
  split; [eapply inv_rinv; eauto|]. split; [intros k; rewrite F2, S2; auto|].
  split.
  - intros l. rewrite F3, S3. simpl. rewrite P3. auto.
  - rewrite F4, S4. simpl. rewrite P6. apply G.
Qed.

(** ** Deletions stopped half way *)

(** live entries are older than revision [m] *)
Record WInv (m : Z) (s : kvst) : Prop := mkW {
  w_r : RInv s;
  w_mod : forall k i, iget (k_index s) k = Some i -> live_idx i = true -> fst (i_mod i) < m;
  w_leases : sorted Z.compare (k_leases s) }.

Definition del_eff (m : Z) (keys : list bytes) (e : eff) : Prop :=
  match e with
  | ERev r _ => fst r = m
  | EIdx k i => In k keys /\ live_idx i = false
  | EMain x => x = m
  | _ => False
  end.

Lemma del_eff_step m keys e s : WInv m s -> del_eff m keys e ->
  WInv m (perform s e) /\
  (forall k, look (perform s e) k = look s k \/ In k keys /\ look (perform s e) k = None) /\
  k_leases (perform s e) = k_leases s /\ k_sapplied (perform s e) = k_sapplied s /\ k_srev (perform s e) = k_srev s.
Proof.
  intros [[Hs Hr] Hm Hl] He. destruct e as [r v|r|k0 i0|k0|id l|id|x|x y]; simpl in He; try contradiction.
  - (* a record *)
    assert (Ne : forall k i, iget (k_index s) k = Some i -> live_idx i = true -> i_mod i <> r).
    { intros k i G L E. specialize (Hm k i G L). rewrite E in Hm. lia. }
    split; [|split; [|auto]].
    + constructor; [constructor|auto|auto]; simpl; auto. intros k i G L. destruct (Hr k i G L) as (v0 & E & K).
      exists v0. rewrite rput_other; eauto.
    + intros k. left. unfold look. simpl. destruct (iget (k_index s) k) as [i|] eqn:G; auto.
      destruct (live_idx i) eqn:L; auto. rewrite rput_other; eauto.
  - destruct He as [Hin Hd]. split; [|split; [|auto]].
    + constructor; [constructor|idtac|auto]; simpl.
      * apply (sorted_put _ bcmp_ok); auto.
      * intros k i G L. destruct (bytes_eq_dec k0 k) as [->|N].
        -- rewrite iget_iput_same in G. congruence.
        -- rewrite iget_iput_other in G by auto. eauto.
      * intros k i G L. destruct (bytes_eq_dec k0 k) as [->|N].
        -- rewrite iget_iput_same in G. congruence.
        -- rewrite iget_iput_other in G by auto. eauto.
    + intros k. unfold look. simpl. destruct (bytes_eq_dec k0 k) as [->|N].
      * right. split; auto. rewrite iget_iput_same, Hd. auto.
      * left. rewrite iget_iput_other by auto. auto.
  - split; [|split; [|auto]].
    + constructor; [constructor|auto|auto]; auto.
    + intros k. left. auto.
Qed.

Lemma del_effs_steps m keys es : forall s, WInv m s -> Forall (del_eff m keys) es ->
  WInv m (performs s es) /\
  (forall k, look (performs s es) k = look s k \/ In k keys /\ look (performs s es) k = None) /\
  k_leases (performs s es) = k_leases s /\ k_sapplied (performs s es) = k_sapplied s /\ k_srev (performs s es) = k_srev s.
Proof.
  induction es as [|e es IH]; intros s W F; [simpl; split; auto 10|].
  inversion F as [|x y Fe F' E]; subst. change (performs s (e :: es)) with (performs (perform s e) es).
  destruct (del_eff_step m keys e s W Fe) as (W1 & L1 & A1 & B1 & C1).
  destruct (IH _ W1 F') as (W2 & L2 & A2 & B2 & C2). split; [auto|]. split; [|repeat split; congruence].
  intros k. destruct (L2 k) as [->|H]; auto.
Qed.

Lemma delete_dead i op : live_idx (fst (fst (delete_index i op))) = false.
Proof.
  unfold delete_index. destruct (last_gen (i_gens i)) as [g|] eqn:E.
  - destruct (g_create g) as [c|] eqn:C.
    + unfold live_idx. cbn [fst i_gens].
      replace (removelast (i_gens i) ++ [mkG (Some c) (g_ver g + 1) (g_revs g ++ [op]); gnull])
        with ((removelast (i_gens i) ++ [mkG (Some c) (g_ver g + 1) (g_revs g ++ [op])]) ++ [gnull]) by (rewrite <- app_assoc; auto).
      rewrite last_gen_app. auto.
    + unfold live_idx. cbn [fst i_gens]. rewrite E, C. auto.
  - unfold live_idx. cbn [fst i_gens]. rewrite last_gen_app. auto.
Qed.

Definition op_key (o : op) : bytes := match o with OPut k _ _ _ _ => k | ODel k => k | OCompact k _ => k end.

Lemma del_ops ops : forallb is_delete ops = true -> forall s main sub m,
  main_of s main = m -> (forall x, main = Some x -> k_rev s = x) -> WInv m s ->
  let r := ops_effs s ops main sub in
  Forall (del_eff m (map op_key ops)) (fst r) /\
  (snd r = match ops with [] => main | _ => Some m end) /\
  (forall k, look (performs s (fst r)) k = if existsb (beqb k) (map op_key ops) then None else look s k) /\
  k_rev (performs s (fst r)) = match ops with [] => k_rev s | _ => m end.
Proof.
  induction ops as [|o ops IH]; intros F s main sub m Em Hm W; cbv zeta.
  { cbn. repeat split; auto. }
  simpl in F. apply andb_true_iff in F. destruct F as [Fo F]. destruct o as [? ? ? ? ?|key|? ?]; try discriminate.
  cbn [ops_effs takes_revision op_effs]. cbv zeta.
  change (match main with Some m => m | None => k_rev s + 1 end) with (main_of s main). rewrite Em.
  set (pre := match main with Some _ => [] | None => [EMain m] end).
  set (mine := pre ++ delete_effs s (m, sub) key).
  assert (Fm : Forall (del_eff m [key]) mine).
  { unfold mine, pre. apply Forall_app. split; [destruct main; constructor; simpl; auto|].
    unfold delete_effs. destruct (iget (k_index s) key) as [i|]; [|constructor].
    pose proof (delete_dead i (m, sub)) as D. destruct (delete_index i (m, sub)) as [[i' c] ve]. simpl in D.
    constructor; [simpl; auto|]. constructor; [simpl; auto|constructor]. }
  destruct (del_effs_steps m [key] mine s W Fm) as (W1 & L1 & A1 & B1 & C1).
  assert (K1 : k_rev (performs s mine) = m).
  { assert (Kp : forall x, k_rev (performs x (delete_effs s (m, sub) key)) = k_rev x).
    { intros x. unfold delete_effs. destruct (iget (k_index s) key); auto. destruct (delete_index i (m, sub)) as [[? ?] ?]. auto. }
    unfold mine. rewrite performs_app, Kp. unfold pre. destruct main as [m0|]; simpl; auto. rewrite (Hm m0); auto. }
  assert (Lk : look (performs s mine) key = None).
  { unfold mine. rewrite performs_app. unfold delete_effs. destruct (iget (k_index s) key) as [i|] eqn:G.
    - pose proof (delete_dead i (m, sub)) as D. destruct (delete_index i (m, sub)) as [[i' c] ve]. simpl in D.
      unfold look. simpl. rewrite iget_iput_same, D. auto.
    - unfold look. assert (Ei : k_index (performs (performs s pre) []) = k_index s) by (unfold pre; destruct main; auto).
      rewrite Ei, G. auto. }
  destruct (IH F (performs s mine) (Some m) (sub + 1) m) as (I1 & I2 & I3 & I4); auto.
  { intros x Ex. congruence. }
  destruct (ops_effs (performs s mine) ops (Some m) (sub + 1)) as [es mm] eqn:E. cbn [fst snd] in *.
  split; [|split; [|split]].
  - apply Forall_app. split.
    + eapply Forall_impl; [|exact Fm]. intros a. destruct a; simpl; tauto.
    + eapply Forall_impl; [|exact I1]. intros a. destruct a; simpl; tauto.
  - rewrite I2. destruct ops; auto.
  - intros k. rewrite performs_app, I3. simpl map. cbn [existsb op_key].
    destruct (beqb k key) eqn:Ek; cbn [orb].
    + apply beqb_true in Ek. subst k. rewrite Lk. destruct (existsb _ _); auto.
    + destruct (existsb _ _); auto. destruct (L1 k) as [->|[[<-|[]] _]]; auto. rewrite (proj2 (beqb_true key key) eq_refl) in Ek. discriminate.
  - rewrite performs_app, I4. destruct ops; auto.
Qed.

(** leases: repeating a beginning of the changes and then all of them *)
Definition lop_id (o : lop) : Z := match o with LPut id _ => id | LDel id => id end.

Lemma lops_lget ls : forall s, sorted Z.compare (k_leases s) ->
  sorted Z.compare (k_leases (performs s (map lop_eff ls))) /\
  forall l, (~ In l (map lop_id ls)) -> lget (k_leases (performs s (map lop_eff ls))) l = lget (k_leases s) l.
Proof.
  induction ls as [|o ls IH]; intros s Hs; [simpl; auto|].
  change (performs s (map lop_eff (o :: ls))) with (performs (perform s (lop_eff o)) (map lop_eff ls)).
  assert (Hs1 : sorted Z.compare (k_leases (perform s (lop_eff o)))).
  { destruct o; simpl; [apply (sorted_put _ zcmp_ok); auto|apply sorted_del; auto]. }
  destruct (IH _ Hs1) as [I1 I2]. split; auto. intros l N. simpl in N. rewrite I2 by tauto.
  destruct o; simpl in *; rewrite ?lget_lput, ?lget_ldel by auto; destruct (Z.eqb_spec l id); auto; exfalso; auto.
Qed.

Lemma lops_same ls : forall s t, sorted Z.compare (k_leases s) -> sorted Z.compare (k_leases t) ->
  (forall l, ~ In l (map lop_id ls) -> lget (k_leases s) l = lget (k_leases t) l) ->
  forall l, lget (k_leases (performs s (map lop_eff ls))) l = lget (k_leases (performs t (map lop_eff ls))) l.
Proof.
  induction ls as [|o ls IH]; intros s t Hs Ht H l; [apply H; auto|].
  change (performs s (map lop_eff (o :: ls))) with (performs (perform s (lop_eff o)) (map lop_eff ls)).
  change (performs t (map lop_eff (o :: ls))) with (performs (perform t (lop_eff o)) (map lop_eff ls)).
  apply IH.
  - destruct o; simpl; [apply (sorted_put _ zcmp_ok); auto|apply sorted_del; auto].
  - destruct o; simpl; [apply (sorted_put _ zcmp_ok); auto|apply sorted_del; auto].
  - intros l0 N. destruct o; simpl in *; rewrite ?lget_lput, ?lget_ldel by auto; destruct (Z.eqb_spec l0 id); auto;
      apply H; intros [E|E]; subst; tauto.
Qed.

Lemma lops_frame ls : forall s, let t := performs s (map lop_eff ls) in
  k_index t = k_index s /\ k_revs t = k_revs s /\ k_rev t = k_rev s /\ k_applied t = k_applied s /\ k_srev t = k_srev s /\ k_sapplied t = k_sapplied s.
Proof.
  induction ls as [|o ls IH]; intros s; [simpl; auto 10|].
  change (performs s (map lop_eff (o :: ls))) with (performs (perform s (lop_eff o)) (map lop_eff ls)).
  cbv zeta. destruct (IH (perform s (lop_eff o))) as (A & B & C & D & E & F). rewrite A, B, C, D, E, F. destruct o; auto 10.
Qed.

Lemma winv_frame m s t : WInv m s -> k_index t = k_index s -> k_revs t = k_revs s -> sorted Z.compare (k_leases t) -> WInv m t.
Proof. intros [[A B] C D] E1 E2 Hl. constructor; [constructor|idtac|auto]; rewrite ?E1, ?E2; auto. Qed.

Lemma inv_winv hi s m : Inv hi s -> fst hi < m -> WInv m s.
Proof.
  intros H Hm. constructor; [eapply inv_rinv; eauto| |apply H]. intros k i G _.
  pose proof (wf_mod _ _ _ _ (inv_idx _ _ H k i G)) as [E|L]; [rewrite E; auto|]. unfold rlt in L. lia.
Qed.

Lemma crash_delete n s e j : Good n s -> delete_entry e ->
  let t := crash_replay s (n + 1) e j in let s' := apply_entry s (n + 1) e in
  RInv t /\ (forall k, look t k = look s' k) /\ (forall l, lget (k_leases t) l = lget (k_leases s') l) /\ k_rev t = k_rev s'.
Proof.
  intros G Hd. cbv zeta. destruct (good_inv _ _ G) as (hi & H & Hhi).
  destruct (crash_cases n s e j G) as [Hj|[Hj E]].
  { destruct (crash_done_leases n s e j G Hj) as (A & B & C). split; [auto|]. split; [intros; apply crash_done; auto|]. rewrite B. auto. }
  unfold crash_replay. rewrite E. clear E.
  set (m := k_rev s + 1).
  assert (W : WInv m s) by (eapply inv_winv; eauto; unfold m; lia).
  (* what applying the entry does to a state like [s] *)
  assert (Fin : forall x, WInv m x -> k_applied x = n -> k_rev x = k_rev s ->
    let y := apply_entry x (n + 1) e in
    RInv y /\ (forall k, look y k = if existsb (beqb k) (map op_key (in_ops e)) then None else look x k) /\
    k_leases y = k_leases (performs x (map lop_eff (in_leases e))) /\
    k_rev y = match in_ops e with [] => k_rev s | _ => m end).
  { intros x Wx Ax Rx. cbv zeta. unfold apply_entry. rewrite (entry_effs_new n x e Ax). rewrite !performs_app.
    destruct (lops_frame (in_leases e) x) as (F1 & F2 & F3 & F4 & F5 & F6).
    destruct (lops_lget (in_leases e) x (w_leases _ _ Wx)) as [Sl _].
    set (x1 := performs x (map lop_eff (in_leases e))) in *.
    assert (Wx1 : WInv m x1) by (eapply winv_frame; eauto).
    destruct (del_ops _ Hd x1 None 1 m) as (D1 & D2 & D3 & D4); auto.
    { unfold main_of, m. rewrite F3, Rx. auto. }
    { discriminate. }
    destruct (del_effs_steps m _ _ x1 Wx1 D1) as (W2 & _ & A2 & _).
    set (x2 := performs x1 (fst (ops_effs x1 (in_ops e) None 1))) in *.
    split; [destruct W2 as [[R1 R2] _ _]; constructor; auto|]. split; [|split].
    - intros k. change (look x2 k = if existsb (beqb k) (map op_key (in_ops e)) then None else look x k). rewrite D3.
      replace (look x1 k) with (look x k); auto. unfold look. rewrite F1, F2. auto.
    - exact A2.
    - change (k_rev x2 = match in_ops e with [] => k_rev s | _ => m end). rewrite D4. destruct (in_ops e); congruence. }
  (* the state at the crash *)
  rewrite (entry_effs_new n s e (good_applied _ _ G)). rewrite app_assoc, removelast_snoc.
  destruct (lops_frame (in_leases e) s) as (F1 & F2 & F3 & F4 & F5 & F6).
  destruct (lops_lget (in_leases e) s (w_leases _ _ W)) as [Sl Ol].
  set (s1 := performs s (map lop_eff (in_leases e))) in *.
  assert (Ws1 : WInv m s1) by (eapply winv_frame; eauto).
  destruct (del_ops _ Hd s1 None 1 m) as (D1 & D2 & D3 & D4); auto.
  { unfold main_of, m. rewrite F3. auto. }
  { discriminate. }
  set (es := fst (ops_effs s1 (in_ops e) None 1)) in *.
  assert (Cr : exists x, performs s (firstn j (map lop_eff (in_leases e) ++ es)) = x /\ WInv m x /\
     (forall k, look x k = look s k \/ In k (map op_key (in_ops e)) /\ look x k = None) /\
     (forall l, ~ In l (map lop_id (in_leases e)) -> lget (k_leases x) l = lget (k_leases s) l) /\
     k_sapplied x = k_sapplied s /\ k_srev x = k_srev s).
  { eexists. split; [reflexivity|]. rewrite firstn_app, performs_app, map_length, firstn_map.
    destruct (Nat.le_gt_cases (length (in_leases e)) j) as [Le|Gt].
    - rewrite (firstn_all2 (in_leases e)) by lia. fold s1.
      assert (Fes : Forall (del_eff m (map op_key (in_ops e))) (firstn (j - length (in_leases e)) es)).
      { rewrite Forall_forall in *. intros x Hx. apply D1. rewrite <- (firstn_skipn (j - length (in_leases e)) es). apply in_app_iff; auto. }
      destruct (del_effs_steps m _ _ s1 Ws1 Fes) as (X1 & X2 & X3 & X4 & X5).
      split; [auto|]. split; [|split; [|split; congruence]].
      + intros k. destruct (X2 k) as [->|X]; auto. left. unfold look. rewrite F1, F2. auto.
      + intros l N. rewrite X3. auto.
    - replace (j - length (in_leases e))%nat with 0%nat by lia. cbn [firstn].
      change (performs (performs s (map lop_eff (firstn j (in_leases e)))) []) with (performs s (map lop_eff (firstn j (in_leases e)))).
      destruct (lops_frame (firstn j (in_leases e)) s) as (P1 & P2 & P3 & P4 & P5 & P6).
      destruct (lops_lget (firstn j (in_leases e)) s (w_leases _ _ W)) as [Pl Po].
      split; [apply (winv_frame m s); auto|]. split; [|split; [|split; auto]].
      + intros k. left. unfold look. rewrite P1, P2. auto.
      + intros l N. apply Po. intros Hin. apply N. apply in_map_iff in Hin. destruct Hin as (o & <- & Ho).
        apply in_map. rewrite <- (firstn_skipn j). apply in_app_iff; auto. }
  destruct Cr as (x & -> & Wx & Lx & Ox & Ax & Rx).
  assert (Wr : WInv m (recover x)) by (destruct Wx as [[A B] C D]; constructor; [constructor|idtac|auto]; auto).
  destruct (Fin (recover x) Wr) as (R1 & R2 & R3 & R4).
  { simpl. rewrite Ax. apply G. }
  { simpl. rewrite Rx. apply G. }
  destruct (Fin s W (good_applied _ _ G) eq_refl) as (S1 & S2 & S3 & S4).
  split; [auto|]. split; [|split; [|congruence]].
  - intros k. rewrite R2, S2. destruct (existsb (beqb k) (map op_key (in_ops e))) eqn:Ek; auto.
    change (look x k = look s k). destruct (Lx k) as [->|[Hin _]]; auto. exfalso.
    assert (existsb (beqb k) (map op_key (in_ops e)) = true).
    { apply existsb_exists. exists k. split; auto. apply beqb_true; auto. }
    congruence.
  - intros l. rewrite R3, S3. apply lops_same.
    + apply Wx.
    + apply W.
    + auto.
Qed.
