(** Proofs about the versioned key-value store: a crash in a put, requests, the compaction task. *)
From Coq Require Import ZArith List Lia Bool Sorted Permutation.
From Verif Require Import Bytes SMap KvModel KvSpec KvProofs KvProofs2 KvProofs3 KvProofs4 KvProofs5.
From Verif Require Import LogProofs2.
Import ListNotations.
Open Scope Z_scope.

(** ** A put stopped half way *)

Lemma put_index_last o op i c ve : put_index o op = (i, c, ve) ->
  i_mod i = op /\ exists pre rs, i_gens i = pre ++ [mkG (Some c) ve (rs ++ [op])].
Proof.
  unfold put_index. destruct o as [i0|].
  - destruct (last_gen (i_gens i0)) as [g|].
    + destruct (g_create g) as [c0|]; intros E; injection E as <- <- <-; cbn [i_mod i_gens]; split; auto; eauto.
    + intros E; injection E as <- <- <-; cbn [i_mod i_gens]; split; auto. exists [], []. auto.
  - intros E; injection E as <- <- <-; cbn [i_mod i_gens]; split; auto. exists [], []. auto.
Qed.

Lemma live_snoc m pre c ve rs op : live_idx (mkI m (pre ++ [mkG (Some c) ve (rs ++ [op])])) = true.
Proof. unfold live_idx. cbn [i_gens]. rewrite last_gen_app. simpl. destruct rs; auto. Qed.

Lemma firstn_le3 {A} (a b c : A) j : (j < 3)%nat -> firstn j [a; b; c] = [] \/ firstn j [a; b; c] = [a] \/ firstn j [a; b; c] = [a; b].
Proof. intros H. destruct j as [|[|[|j]]]; auto. lia. Qed.

Lemma look_other_put s x key k i v op : k <> key ->
  (forall k0 i0, iget (k_index s) k0 = Some i0 -> i_mod i0 <> op) ->
  k_index x = iput (k_index s) key i -> (forall r, k_revs x r = rput (k_revs s) op (Some v) r) ->
  look x k = look s k.
Proof.
  intros N No Ei Er. unfold look. rewrite Ei. rewrite iget_iput_other by auto.
  destruct (iget (k_index s) k) as [i0|] eqn:G; auto. destruct (live_idx i0); auto. rewrite Er, rput_other; eauto.
Qed.

Lemma crash_put n s e j : Good n s -> put_entry e ->
  let t := crash_replay s (n + 1) e j in let s' := apply_entry s (n + 1) e in
  RInv t /\ (forall k, option_map forget_version (look t k) = option_map forget_version (look s' k)) /\
  (forall l, lget (k_leases t) l = lget (k_leases s') l) /\ k_rev t = k_rev s'.
Proof.
  intros G (Hl & key & il & lid & iv & value & Ho). cbv zeta.
  destruct (good_inv _ _ G) as (hi & H & Hhi).
  destruct (crash_cases n s e j G) as [Hj|[Hj E]].
  { destruct (crash_done_leases n s e j G Hj) as (A & B & C). split; [auto|].
    split; [intros; rewrite (crash_done n s e j G Hj); auto|]. rewrite B. auto. }
  pose proof (good_pos _ _ G) as Pos.
  set (m := k_rev s + 1). set (op := (m, 1) : rev).
  assert (Eff : forall x, k_applied x = n -> k_rev x = k_rev s ->
     entry_effs x (n + 1) e = EMain m :: put_effs x op key il lid iv value ++ [EFinal (n + 1) (Some m)]).
  { intros x Ax Rx. rewrite (entry_effs_new n x e Ax), Hl, Ho. cbn [map app]. change (performs x []) with x.
    cbn [ops_effs takes_revision op_effs]. cbv zeta. rewrite Rx. fold m. fold op. cbn [app fst snd]. rewrite app_nil_r. auto. }
  assert (NoOp : forall k i, iget (k_index s) k = Some i -> i_mod i <> op).
  { intros k i Gk Ek. pose proof (wf_mod _ _ _ _ (inv_idx _ _ H k i Gk)) as Hle. rewrite Ek in Hle.
    assert (Hlt : rlt hi op) by (left; unfold op, m; simpl; lia). exact (rlt_irrefl _ (rle_lt_trans _ _ _ Hle Hlt)). }
  assert (Modop : mod_of (iget (k_index s) key) <> op).
  { destruct (iget (k_index s) key) as [i|] eqn:Gk; simpl; [eapply NoOp; eauto|]. unfold zero_rev, op, m. intros E0. injection E0 as E1. lia. }
  unfold crash_replay. rewrite E. clear E.
  rewrite (Eff s (good_applied _ _ G) eq_refl) in *.
  change (EMain m :: put_effs s op key il lid iv value ++ [EFinal (n + 1) (Some m)]) with
    ((EMain m :: put_effs s op key il lid iv value) ++ [EFinal (n + 1) (Some m)]) in *. rewrite removelast_snoc.
  assert (Easy : forall x, k_applied x = n -> k_rev x = k_rev s -> k_index x = k_index s -> k_leases x = k_leases s ->
     (forall r, r <> op -> k_revs x r = k_revs s r) -> (put_record s op key il lid iv value = None -> k_revs x op = k_revs s op) ->
     RInv (apply_entry x (n + 1) e) /\ (forall k, look (apply_entry x (n + 1) e) k = look (apply_entry s (n + 1) e) k) /\
     (forall l, lget (k_leases (apply_entry x (n + 1) e)) l = lget (k_leases (apply_entry s (n + 1) e)) l) /\
     k_rev (apply_entry x (n + 1) e) = k_rev (apply_entry s (n + 1) e)).
  { intros x Ax Rx Ix Lx Vx Vn.
    destruct (entry_step n s (abs s) e G (seq_refl _)) as (G1 & _). destruct (good_inv _ _ G1) as (h1 & H1 & _).
    apply inv_rinv in H1.
    assert (Er : put_record x op key il lid iv value = put_record s op key il lid iv value).
    { unfold put_record. rewrite Ix, Lx. rewrite (Vx _ Modop). auto. }
    assert (Same : forall r, k_revs (apply_entry x (n + 1) e) r = k_revs (apply_entry s (n + 1) e) r).
    { unfold apply_entry. rewrite (Eff x Ax Rx), (Eff s (good_applied _ _ G) eq_refl). unfold put_effs. rewrite Er.
      intros r. destruct (put_record s op key il lid iv value) as [[v i]|]; simpl.
      - unfold rput. destruct (reqb r op) eqn:Q; auto. apply Vx. intros ->. rewrite reqb_refl in Q. discriminate.
      - destruct (reqb r op) eqn:Q; [apply reqb_true in Q; subst; auto|]. apply Vx. intros ->. rewrite reqb_refl in Q. discriminate. }
    assert (SameI : k_index (apply_entry x (n + 1) e) = k_index (apply_entry s (n + 1) e) /\
                    k_leases (apply_entry x (n + 1) e) = k_leases (apply_entry s (n + 1) e) /\
                    k_rev (apply_entry x (n + 1) e) = k_rev (apply_entry s (n + 1) e)).
    { unfold apply_entry. rewrite (Eff x Ax Rx), (Eff s (good_applied _ _ G) eq_refl). unfold put_effs. rewrite Er.
      destruct (put_record s op key il lid iv value) as [[v i]|]; simpl; rewrite ?Ix; auto. }
    destruct SameI as (I1 & I2 & I3). split; [|split; [|split; [intros; rewrite I2; auto|auto]]].
    - destruct H1 as [A B]. constructor; rewrite I1; auto. intros k i. rewrite Same. auto.
    - intros k. unfold look. rewrite I1. destruct (iget _ k) as [i|]; auto. rewrite Same. auto. }
  assert (Rec : forall x, k_index x = k_index s -> k_leases x = k_leases s -> k_sapplied x = n -> k_srev x = k_rev s ->
     (forall r, r <> op -> k_revs x r = k_revs s r) -> (put_record s op key il lid iv value = None -> k_revs x op = k_revs s op) ->
     let t := apply_entry (recover x) (n + 1) e in
     RInv t /\ (forall k, option_map forget_version (look t k) = option_map forget_version (look (apply_entry s (n + 1) e) k)) /\
     (forall l, lget (k_leases t) l = lget (k_leases (apply_entry s (n + 1) e)) l) /\ k_rev t = k_rev (apply_entry s (n + 1) e)).
  { intros x Ix Lx Ax Rx Vx Vn. destruct (Easy (recover x)) as (R1 & R2 & R3 & R4); auto.
    split; [auto|]. split; [intros; rewrite R2; auto|]. auto. }
  destruct (put_record s op key il lid iv value) as [[v i]|] eqn:Ep.
  2:{ (* refused *)
    unfold put_effs. rewrite Ep. destruct j as [|j].
    - apply Rec; auto; apply G.
    - cbn [firstn]. rewrite firstn_nil. apply Rec; simpl; auto; apply G. }
  unfold put_effs. rewrite Ep.
  destruct (Nat.le_gt_cases 3 j) as [Ge|Lt].
  2:{ destruct (firstn_le3 (EMain m) (ERev op v) (EIdx key i) j) as [->|[->| ->]]; [lia| | |].
      - apply Rec; auto; apply G.
      - apply Rec; simpl; auto; apply G.
      - apply Rec; simpl; auto; try apply G.
        + intros r Nr. apply rput_other; auto.
        + discriminate. }
  clear Rec Easy.
  (* record and index are there: the put is applied to its own result *)
  rewrite firstn_all2 by (simpl; lia).
  set (x := performs s [EMain m; ERev op v; EIdx key i]).
  assert (Pv := Ep). unfold put_record in Pv. destruct (put_index (iget (k_index s) key) op) as [[i1 cr] ve] eqn:Epi.
  destruct (put_index_last _ _ _ _ _ Epi) as [Em (pre & rs & Eg)].
  set (last := k_revs s (mod_of (iget (k_index s) key))) in *.
  destruct ((0 <? v_lease _) && _) eqn:Lc in Pv; [discriminate|]. injection Pv as Ev Ei. subst i1.
  cbn [v_lease] in Lc. set (ls := if il then lease_of last else lid) in *.
  set (va := if iv then value_of last else value) in *.
  (* the second record *)
  assert (Ap : k_applied (recover x) = n) by apply G.
  assert (Rv : k_rev (recover x) = k_rev s) by apply G.
  set (v2 := mkV key va cr op (ve + 1) ls false).
  set (i2 := mkI op (pre ++ [mkG (Some cr) (ve + 1) ((rs ++ [op]) ++ [op])])).
  assert (Ep2 : put_record (recover x) op key il lid iv value = Some (v2, i2)).
  { unfold put_record. cbn [k_index recover x performs fold_left perform k_revs k_leases].
    rewrite iget_iput_same. unfold put_index. rewrite Eg, last_gen_app. cbn [g_create g_ver g_revs]. rewrite removelast_snoc.
    cbn [mod_of]. rewrite Em, rput_same. cbn [value_of lease_of]. rewrite <- Ev. cbn [v_value v_lease].
    unfold v2, i2, va, ls in *.
    assert (Q1 : (if il then if il then lease_of last else lid else lid) = (if il then lease_of last else lid)) by (destruct il; auto).
    assert (Q2 : (if iv then if iv then value_of last else value else value) = (if iv then value_of last else value)) by (destruct iv; auto).
    rewrite Q1, Q2. rewrite Lc. auto. }
  assert (T : apply_entry (recover x) (n + 1) e = performs (recover x) (EMain m :: [ERev op v2; EIdx key i2] ++ [EFinal (n + 1) (Some m)])).
  { unfold apply_entry. rewrite (Eff _ Ap Rv). unfold put_effs. rewrite Ep2. auto. }
  assert (T1 : apply_entry s (n + 1) e = performs s (EMain m :: [ERev op v; EIdx key i] ++ [EFinal (n + 1) (Some m)])).
  { unfold apply_entry. rewrite (Eff s (good_applied _ _ G) eq_refl). unfold put_effs. rewrite Ep. auto. }
  set (t := apply_entry (recover x) (n + 1) e) in *. set (s' := apply_entry s (n + 1) e) in *.
  assert (It : k_index t = iput (iput (k_index s) key i) key i2) by (rewrite T; reflexivity).
  assert (Vt : k_revs t = rput (rput (k_revs s) op (Some v)) op (Some v2)) by (rewrite T; reflexivity).
  assert (Lkey : look t key = Some (to_kvo false v2)).
  { unfold look. rewrite It, iget_iput_same. unfold i2. rewrite live_snoc. cbn [i_mod]. rewrite Vt, rput_same. auto. }
  assert (Skey : look s' key = Some (to_kvo false v)).
  { unfold look. rewrite T1. cbn [app performs fold_left perform k_index k_revs]. rewrite iget_iput_same.
    assert (Li : live_idx i = true). { destruct i as [im ig]. cbn [i_gens i_mod] in *. subst ig. apply live_snoc. }
    rewrite Li, Em, rput_same. auto. }
  assert (Oth : forall k, k <> key -> look t k = look s k).
  { intros k N. unfold look. rewrite It. rewrite !iget_iput_other by auto.
    destruct (iget (k_index s) k) as [i0|] eqn:Gk; auto. destruct (live_idx i0); auto. rewrite Vt, !rput_other; eauto. }
  assert (Soth : forall k, k <> key -> look s' k = look s k).
  { intros k N. apply (look_other_put s s' key k i v op); auto; rewrite T1; reflexivity. }
  split; [|split; [|split]].
  - pose proof (inv_rinv _ _ H) as [A B]. constructor.
    + rewrite It. apply (sorted_put _ bcmp_ok). apply (sorted_put _ bcmp_ok). auto.
    + intros k i0 Gk L. rewrite It in Gk. destruct (bytes_eq_dec key k) as [<-|N].
      * rewrite iget_iput_same in Gk. injection Gk as <-. exists v2. cbn [i2 i_mod]. rewrite Vt, rput_same. auto.
      * rewrite !iget_iput_other in Gk by auto. destruct (B k i0 Gk L) as (v0 & E0 & K0). exists v0.
        rewrite Vt, !rput_other; eauto.
  - intros k. destruct (bytes_eq_dec k key) as [->|N]; [|rewrite Oth, Soth by auto; auto].
    rewrite Lkey, Skey. rewrite <- Ev. reflexivity.
  - intros l. rewrite T, T1. reflexivity.
  - rewrite T, T1. reflexivity.
Qed.

(** ** The same in terms of reads *)

Lemma listing_forget d P l : (forall k kv, d k = Some kv -> o_key kv = k) -> listing d P l ->
  listing (fun k => option_map forget_version (d k)) P (map forget_version l).
Proof.
  intros Hk [St I]. split.
  - clear I. induction St as [|a l St IH F]; [constructor|]. simpl. constructor; [exact IH|].
    rewrite Forall_forall in *. intros x Hx. apply in_map_iff in Hx. destruct Hx as (y & <- & Hy). exact (F y Hy).
  - intros kv. rewrite in_map_iff. split.
    + intros (y & <- & Hy). apply I in Hy. destruct Hy as [E Hp]. change (o_key (forget_version y)) with (o_key y). rewrite E. auto.
    + intros [E Hp]. destruct (d (o_key kv)) as [y|] eqn:Ey; [|discriminate]. simpl in E. injection E as E.
      exists y. split; auto. apply I. pose proof (Hk _ _ Ey) as Ky. rewrite Ky. auto.
Qed.

Lemma look_key s : RInv s -> forall k kv, look s k = Some kv -> o_key kv = k.
Proof.
  intros [_ B] k kv. unfold look. destruct (iget (k_index s) k) as [i|] eqn:G; [|discriminate].
  destruct (live_idx i) eqn:L; [|discriminate]. destruct (B k i G L) as (v & -> & <-). intros E. injection E as <-. auto.
Qed.

Lemma map_inj_len {A B} (f : A -> B) l l' : map f l = map f l' -> length l = length l'.
Proof. intros H. apply (f_equal (@length B)) in H. rewrite !map_length in H. auto. Qed.

Lemma forget_answer l l' lim ko co : map forget_version l = map forget_version l' ->
  forget_versions (answer_of l lim ko co) = forget_versions (answer_of l' lim ko co).
Proof.
  intros H. pose proof (map_inj_len _ _ _ H) as Hl. unfold answer_of, forget_versions. destruct co; cbn [ro_kvs ro_count ro_more].
  - rewrite Hl. auto.
  - assert (Hf : map forget_version (firstn (Z.to_nat lim) l) = map forget_version (firstn (Z.to_nat lim) l')).
    { rewrite <- !firstn_map, H. auto. }
    rewrite (map_inj_len _ _ _ Hf), Hl. f_equal. rewrite !map_map.
    assert (C : forall x, map (fun kv => forget_version (without_value ko kv)) x = map (without_value ko) (map forget_version x)).
    { intros x. rewrite map_map. apply map_ext. intros kv. destruct ko; auto. }
    rewrite !C, Hf. auto.
Qed.

Lemma do_range_forget s1 s2 key range_end limit ko co : RInv s1 -> RInv s2 ->
  (forall k, option_map forget_version (look s1 k) = option_map forget_version (look s2 k)) ->
  option_map forget_versions (do_range s1 key range_end limit ko co) =
  option_map forget_versions (do_range s2 key range_end limit ko co).
Proof.
  intros H1 H2 E. destruct key as [|b key]; [auto|].
  destruct (do_range_answer s1 (b :: key) range_end limit ko co H1) as (l1 & L1 & ->); [discriminate|].
  destruct (do_range_answer s2 (b :: key) range_end limit ko co H2) as (l2 & L2 & ->); [discriminate|].
  simpl. f_equal. apply forget_answer.
  eapply listing_unique; [eapply listing_ext; [| |apply (listing_forget _ _ _ (look_key _ H1) L1)]|apply (listing_forget _ _ _ (look_key _ H2) L2)].
  - exact E.
  - intros; tauto.
Qed.

Lemma after_snoc log e : after (log ++ [e]) = apply_entry (after log) (Z.of_nat (length log) + 1) e.
Proof. unfold after. rewrite apply_log_app. reflexivity. Qed.

Lemma crash_reads log e j : delete_entry e \/ compact_entry e ->
  (forall key range_end limit ko co,
    do_range (crashed log e j) key range_end limit ko co = do_range (after (log ++ [e])) key range_end limit ko co) /\
  (forall l, lget (k_leases (crashed log e j)) l = lget (k_leases (after (log ++ [e]))) l) /\
  k_rev (crashed log e j) = k_rev (after (log ++ [e])).
Proof.
  intros H. pose proof (after_good log) as G. destruct (after_inv (log ++ [e])) as [h H2]. apply inv_rinv in H2.
  assert (C : RInv (crashed log e j) /\ (forall k, look (crashed log e j) k = look (after (log ++ [e])) k) /\
    (forall l, lget (k_leases (crashed log e j)) l = lget (k_leases (after (log ++ [e]))) l) /\
    k_rev (crashed log e j) = k_rev (after (log ++ [e]))).
  { rewrite after_snoc. destruct H; [apply crash_delete|apply crash_compact]; auto. }
  destruct C as (C1 & C2 & C3 & C4). split; [|split; auto]. intros. apply do_range_same; auto.
Qed.

Lemma crash_reads_put log e j : put_entry e ->
  (forall key range_end limit ko co,
    option_map forget_versions (do_range (crashed log e j) key range_end limit ko co) =
    option_map forget_versions (do_range (after (log ++ [e])) key range_end limit ko co)) /\
  (forall l, lget (k_leases (crashed log e j)) l = lget (k_leases (after (log ++ [e]))) l) /\
  k_rev (crashed log e j) = k_rev (after (log ++ [e])).
Proof.
  intros H. pose proof (after_good log) as G. destruct (after_inv (log ++ [e])) as [h H2]. apply inv_rinv in H2.
  destruct (crash_put _ _ e j G H) as (C1 & C2 & C3 & C4). unfold crashed. rewrite <- after_snoc in *.
  split; [|split; auto]. intros. apply do_range_forget; auto.
Qed.

(** ** Requests *)

Lemma range_one s key limit : RInv s -> 0 <= limit ->
  kv_range s key [] limit false false =
  match look s key with Some kv => mkR [kv] 1 false | None => mkR [] 0 false end.
Proof.
  intros H Hl. destruct (kv_range_answer s key [] limit false false H Hl) as (l & [Sl Il] & ->).
  set (lim := if limit =? 0 then kInt64Max else limit).
  assert (Lp : 0 < lim). { unfold lim, kInt64Max. destruct (Z.eqb_spec limit 0); lia. }
  assert (All : forall kv, In kv l -> o_key kv = key).
  { intros kv Hin. apply Il in Hin. destruct Hin as [_ Hp]. unfold range_test in Hp. apply beqb_true in Hp. auto. }
  assert (Len : l = match look s key with Some kv => [kv] | None => [] end).
  { eapply listing_unique with (d := look s) (P := fun k => range_test key [] k = true); [split; auto|]. split.
    - destruct (look s key); repeat constructor.
    - intros kv. split.
      + destruct (look s key) as [kv0|] eqn:E; [|contradiction]. intros [<-|[]]. rewrite (look_key s H _ _ E). split; auto.
        unfold range_test. apply beqb_true; auto.
      + intros [E Hp]. unfold range_test in Hp. apply beqb_true in Hp. rewrite <- Hp, E. left; auto. }
  rewrite Len. unfold answer_of. destruct (look s key) as [kv|].
  - replace (Z.to_nat lim) with (Datatypes.S (Z.to_nat (lim - 1))) by lia. simpl firstn. rewrite firstn_nil. simpl.
    f_equal. apply Z.ltb_ge. lia.
  - rewrite firstn_nil. simpl. f_equal. apply Z.ltb_ge. lia.
Qed.

Lemma current_look log key : current (after log) key = st_data (spec_log log) key.
Proof.
  destruct (after_inv log) as [h H]. unfold current. rewrite range_one; [|eapply inv_rinv; eauto|lia].
  rewrite after_look. destruct (st_data (spec_log log) key); auto.
Qed.

Lemma do_range_one log key limit : key <> [] ->
  do_range (after log) key [] limit false false =
  Some (match st_data (spec_log log) key with Some kv => mkR [kv] 1 false | None => mkR [] 0 false end).
Proof.
  intros N. destruct key as [|b key]; [contradiction|]. unfold do_range. fold (limit_of limit).
  destruct (after_inv log) as [h H]. rewrite range_one; [|eapply inv_rinv; eauto|destruct (limit_pos limit); lia].
  rewrite after_look. auto.
Qed.

Lemma answers_snoc log e : answers kv0 0 (log ++ [e]) = answers kv0 0 log ++ (if writes e then [k_rev (after log) + 1] else []).
Proof.
  rewrite answers_app. cbn [answers]. fold (after log).
  destruct (entry_step _ _ _ e (after_good log) (after_abs log)) as (_ & _ & E).
  rewrite app_nil_r. f_equal. rewrite E. destruct (writes e); auto.
Qed.

Lemma spec_snoc log e : spec_log (log ++ [e]) = spec_entry (spec_log log) e.
Proof. unfold spec_log. rewrite fold_left_app. auto. Qed.

Lemma put_request log key value lid il :
  put_check (after log) key value false = None ->
  put_lease (after log) key lid il = inl lid ->
  (0 < lid -> st_leases (spec_log log) lid = true) ->
  let log' := log ++ [put_incr key value lid false il] in
  exists kv,
    do_range (after log') key [] 0 false false = Some (mkR [kv] 1 false) /\
    o_key kv = key /\ o_value kv = value /\ o_lease kv = lid /\
    answers kv0 0 log' = answers kv0 0 log ++ [o_mod kv] /\ o_mod kv = k_rev (after log') /\
    (match do_range (after log) key [] 0 false false with
     | Some (mkR [old] _ _) => o_create kv = o_create old /\ o_ver kv = o_ver old + 1
     | _ => o_create kv = o_mod kv /\ o_ver kv = 1
     end) /\
    forall k, k <> [] -> k <> key -> do_range (after log') k [] 0 false false = do_range (after log) k [] 0 false false.
Proof.
  intros Hc Hp Hlease. cbv zeta.
  assert (Hk : key <> []). { intros ->. unfold put_check in Hc. destruct (_ <? _); discriminate. }
  assert (Rr : st_rev (spec_log log) = k_rev (after log)). { symmetry. apply (after_abs log). }
  assert (Rn : k_rev (after (log ++ [put_incr key value lid false il])) = k_rev (after log) + 1).
  { rewrite (proj2 (proj2 (after_abs (log ++ [put_incr key value lid false il])))) at 1. rewrite spec_snoc. unfold spec_entry. cbn. rewrite Rr. auto. }
  assert (Ls : match st_data (spec_log log) key with Some o => o_lease o = lid \/ il = false | None => il = false end).
  { unfold put_lease in Hp. rewrite current_look in Hp. destruct (st_data (spec_log log) key) as [o|].
    - destruct il; [injection Hp as ->; auto|auto].
    - destruct il; [discriminate|auto]. }
  set (kv := match st_data (spec_log log) key with
             | Some o => mkO key value (o_create o) (k_rev (after log) + 1) (o_ver o + 1) lid
             | None => mkO key value (k_rev (after log) + 1) (k_rev (after log) + 1) 1 lid end).
  assert (Dn : forall k, st_data (spec_log (log ++ [put_incr key value lid false il])) k =
                 if beqb k key then Some kv else st_data (spec_log log) k).
  { intros k. rewrite spec_snoc. unfold spec_entry. cbn [put_incr in_leases in_ops fold_left spec_op st_data]. unfold spec_put.
    set (ll := if il then _ else lid).
    assert (El : ll = lid). { unfold ll. destruct il; auto. destruct (st_data (spec_log log) key) as [o|]; [destruct Ls; [auto|discriminate]|discriminate]. }
    rewrite El. replace ((0 <? lid) && negb (st_leases (spec_log log) lid)) with false.
    2:{ symmetry. destruct (Z.ltb_spec 0 lid); auto. rewrite Hlease by auto. auto. }
    cbn [st_data]. unfold set_key. destruct (beqb k key); auto. unfold kv. rewrite Rr. destruct (st_data (spec_log log) key); auto. }
  exists kv. rewrite !do_range_one by auto. rewrite Dn, (proj2 (beqb_true key key) eq_refl).
  assert (Mod : o_mod kv = k_rev (after log) + 1) by (unfold kv; destruct (st_data (spec_log log) key); auto).
  split; [auto|]. split; [unfold kv; destruct (st_data (spec_log log) key); auto|].
  split; [unfold kv; destruct (st_data (spec_log log) key); auto|].
  split; [unfold kv; destruct (st_data (spec_log log) key); auto|].
  split; [rewrite answers_snoc, Mod; auto|]. split; [congruence|].
  split; [unfold kv; destruct (st_data (spec_log log) key); auto|].
  intros k N1 N2. rewrite !do_range_one by auto. rewrite Dn. destruct (beqb k key) eqn:E; auto. apply beqb_true in E. contradiction.
Qed.

Lemma spec_dels m ks : forall s k, st_data (fold_left (spec_op m) (map ODel ks) s) k = if existsb (beqb k) ks then None else st_data s k.
Proof.
  induction ks as [|k0 ks IH]; intros s k; auto. cbn [map fold_left existsb]. rewrite IH. simpl. unfold set_key.
  destruct (beqb k k0); simpl; destruct (existsb _ _); auto.
Qed.

Lemma delete_request log key range_end :
  key <> [] -> (range_end = [0] -> Forall (put_keys (fun k => legal_key k /\ k <> top_key)) log) ->
  Z.of_nat (length (k_index (after log))) <= kInt64Max ->
  let log' := log ++ [delete_incr (after log) key range_end] in
  (forall k, k <> [] -> in_range key range_end k -> do_range (after log') k [] 0 false false = Some (mkR [] 0 false)) /\
  (forall k, k <> [] -> ~ in_range key range_end k -> do_range (after log') k [] 0 false false = do_range (after log) k [] 0 false false).
Proof.
  intros Hk Hput Hlen. cbv zeta. destruct (after_inv log) as [h H]. apply inv_rinv in H.
  destruct (kv_range_answer (after log) key range_end kInt64Max true false H) as (l & Hl & E); [unfold kInt64Max; lia|].
  (* the listing is no longer than the index *)
  assert (Short : (length l <= length (k_index (after log)))%nat).
  { pose proof (walked_live (after log) key range_end (ri_sorted _ H)) as Wl.
    pose proof (live_records (after log) (range_test key range_end) H) as LR.
    destruct (range_loop_live (k_revs (after log)) kInt64Max true _ 0 LR) as (kvs & F & _); [unfold kInt64Max; lia|].
    pose proof (listing_of _ _ _ H F) as Lk. rewrite (listing_unique _ _ _ _ Hl Lk). rewrite <- (F2_length _ _ _ F).
    unfold live_entries. clear. induction (k_index (after log)) as [|p m IH]; simpl; auto. destruct (_ && _); simpl; lia. }
  assert (Keys : map o_key (delete_keys (after log) key range_end) = map o_key l).
  { unfold delete_keys. rewrite E. unfold answer_of. cbn [ro_kvs]. replace (if kInt64Max =? 0 then kInt64Max else kInt64Max) with kInt64Max by reflexivity.
    rewrite firstn_all2 by lia. rewrite map_map. apply map_ext. auto. }
  assert (Dn : forall k, st_data (spec_log (log ++ [delete_incr (after log) key range_end])) k =
     if existsb (beqb k) (map o_key l) then None else st_data (spec_log log) k).
  { intros k. rewrite spec_snoc. unfold spec_entry, delete_incr. cbn [in_leases in_ops fold_left st_data].
    rewrite <- (map_map o_key ODel). rewrite spec_dels, Keys. auto. }
  assert (Hit : forall k, existsb (beqb k) (map o_key l) = true <-> exists kv, st_data (spec_log log) k = Some kv /\ range_test key range_end k = true).
  { intros k. rewrite existsb_exists. split.
    - intros (x & Hin & Ex). apply beqb_true in Ex. subst x. apply in_map_iff in Hin. destruct Hin as (kv & <- & Hin).
      apply Hl in Hin. rewrite after_look in Hin. eauto.
    - intros (kv & Ek & Hr). exists k. split; [|apply beqb_true; auto]. apply in_map_iff. exists kv.
      pose proof (look_key _ H k kv) as Kk. rewrite after_look in Kk. specialize (Kk Ek). split; auto.
      apply Hl. rewrite Kk, after_look. auto. }
  assert (Rt : forall k kv, st_data (spec_log log) k = Some kv -> (range_test key range_end k = true <-> in_range key range_end k)).
  { intros k kv Ek. apply range_test_in. intros Er. apply (spec_log_put _ _ (Hput Er)). rewrite Ek. discriminate. }
  split; intros k Nk Hr; rewrite !do_range_one by auto; rewrite Dn.
  - destruct (existsb (beqb k) (map o_key l)) eqn:Ex; auto. destruct (st_data (spec_log log) k) as [kv|] eqn:Ek; auto.
    assert (existsb (beqb k) (map o_key l) = true); [|congruence]. apply Hit. exists kv. split; auto. apply (Rt _ _ Ek). auto.
  - destruct (existsb (beqb k) (map o_key l)) eqn:Ex; auto. apply Hit in Ex. destruct Ex as (kv & Ek & Hx). exfalso. apply Hr. apply (Rt _ _ Ek). auto.
Qed.

(** ** The compaction task *)

Lemma task_batches_skip keys : forall batch k i, (length batch <= 50)%nat ->
  nth_error keys i = Some k -> Nat.modulo (i + length batch) 51 <> 50%nat ->
  In k (concat (task_batches keys batch)).
Proof.
  assert (Incl : forall keys batch x, In x batch -> In x (concat (task_batches keys batch))).
  { induction keys0 as [|k keys0 IH]; intros batch x Hx; cbn [task_batches].
    - destruct batch; [contradiction|]. simpl. rewrite app_nil_r. auto.
    - destruct (length batch <? 50)%nat.
      + apply IH. apply in_app_iff; auto.
      + simpl. apply in_app_iff; auto. }
  induction keys as [|k0 keys IH]; intros batch k i Hb Hn Hm; [destruct i; discriminate|].
  cbn [task_batches]. destruct (Nat.ltb_spec (length batch) 50) as [Lt|Ge].
  - destruct i as [|i].
    + simpl in Hn. injection Hn as ->. apply Incl. apply in_app_iff. right. left; auto.
    + apply (IH _ k i); auto; rewrite app_length; simpl; [lia|].
      replace (i + (length batch + 1))%nat with (Datatypes.S i + length batch)%nat by lia. auto.
  - assert (L : length batch = 50%nat) by lia. destruct i as [|i].
    + exfalso. apply Hm. rewrite L. reflexivity.
    + simpl. apply in_app_iff. right. apply (IH [] k i); [simpl; lia|auto|].
      rewrite Nat.add_0_r. rewrite L in Hm. replace (Datatypes.S i + 50)%nat with (i + 1 * 51)%nat in Hm by lia.
      rewrite Nat.mod_add in Hm by lia. auto.
Qed.

Lemma task_entries s k i : nth_error (map fst (k_index s)) i = Some k -> Nat.modulo i 51 <> 50%nat -> kRetention <= k_rev s ->
  exists e, In e (compaction_task s) /\ In (OCompact k (k_rev s - kRetention)) (in_ops e).
Proof.
  intros Hn Hm Hr. unfold compaction_task. replace (k_rev s <? kRetention) with false by (symmetry; apply Z.ltb_ge; lia).
  assert (H : In k (concat (task_batches (map fst (k_index s)) []))).
  { apply (task_batches_skip _ [] k i); simpl; [lia|auto|]. rewrite Nat.add_0_r. auto. }
  apply in_concat in H. destruct H as (b & Hb & Hk). exists (compact_incr b (k_rev s - kRetention)). split.
  - apply in_map_iff. eauto.
  - unfold compact_incr. cbn [in_ops]. apply in_map_iff. eauto.
Qed.

(** *** Which puts are accepted *)
Lemma put_check_exact s key value :
  put_check s key value false = None <->
  Z.of_nat (length (k_index s)) <= 100000 /\ 1 <= Z.of_nat (length key) <= 4096 /\ 1 <= Z.of_nat (length value) <= 8192.
Proof.
  unfold put_check. cbn [negb andb].
  assert (KM : Z.of_nat kMaxKey = 4096) by (unfold kMaxKey; rewrite Z2Nat.id; [reflexivity|discriminate]).
  unfold kMaxCount, kMaxValue.
  destruct (Z.ltb_spec 100000 (Z.of_nat (length (k_index s)))); [split; [discriminate|lia]|].
  destruct key as [|kx key']; [split; [discriminate|cbn [length]; lia]|].
  destruct (Nat.ltb_spec kMaxKey (length (kx :: key'))); [split; [discriminate|lia]|].
  destruct value as [|vx value']; [split; [discriminate|cbn [length]; lia]|].
  destruct (Z.ltb_spec 8192 (Z.of_nat (length (vx :: value')))); [split; [discriminate|lia]|].
  split; [intros _|reflexivity]. cbn [length] in *. lia.
Qed.

