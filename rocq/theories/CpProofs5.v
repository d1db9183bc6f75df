(** First-generation requests that cannot bring the store down; aggregates in one page. *)
From Coq Require Import ZArith List Lia Bool Sorted.
From Verif Require Import Bytes SMap Outcome TxnModel TxnReadModel TxnReadSpec SessModel CpModel CpSpec CpProofs1 CpProofs2 CpProofs3 CpProofs4.
Import ListNotations.
Open Scope Z_scope.

Section Safe.
Variables (L : lib) (q : request).
Hypothesis SO : schema_ok q.
Hypothesis ND : q_ops q = [] -> q_group q = [].
Hypothesis NI : no_integer_sum q.
Hypothesis DC : decoders_ok L q.

Lemma columns_total cols : (forall i, In i cols -> 0 <= i < lenz (columns q)) -> exists ts, Forall2 (column_type q) cols ts.
Proof.
  induction cols as [|i cols IH]; intros H; [exists []; constructor|].
  destruct IH as (ts & F); [intros j I; apply H; right; auto|].
  destruct (column_exists q SO i (H i (or_introl eq_refl))) as (t & T). exists (t :: ts). constructor; auto.
Qed.

(** what opening leaves *)
Definition opened_ok (o : opened) : Prop :=
  o_grouping o = false \/
  (o_nsel o = lenz (columns q) /\ q_ops q <> [] /\ forallb (operator_ok (lenz (columns q))) (q_ops q) = true /\
   Forall2 (column_type q) (q_group q) (o_key_types o) /\
   Forall2 (column_type q) (map (fun x => op_column (lenz (columns q)) (snd x)) (q_ops q)) (o_op_types o) /\
   length (q_result q) = (length (q_group q) + length (q_ops q))%nat).

Lemma open_safe : exists r, open q = Ok r /\ forall o, r = Some o -> opened_ok o.
Proof.
  destruct (opens_selection q SO) as (orig & sel & A & B & C & D).
  assert (NS : lenz sel = lenz (columns q)) by (unfold lenz; congruence).
  unfold open. rewrite A. cbn [obind]. rewrite B. cbn [obind]. rewrite NS.
  destruct (group_columns_ok (lenz (columns q)) (q_group q)) eqn:G; cbn [negb]; [|eexists; split; [reflexivity|discriminate]].
  destruct (q_schema q) as [|c0 sc] eqn:ES.
  - unfold column_types. cbn [is_nil obind]. destruct (forallb _ (q_ops q)); cbn [negb obind is_nil andb]; eexists; (split; [reflexivity|]); [|discriminate].
    intros o E. left. inversion E; subst. auto.
  - rewrite <- ES in *. assert (NE : q_schema q <> []) by congruence.
    assert (GR : forall i, In i (q_group q) -> 0 <= i < lenz (columns q)).
    { intros i I. unfold group_columns_ok in G. rewrite forallb_forall in G. specialize (G i I). apply andb_true_iff in G. destruct G as [G1 G2].
      apply Z.leb_le in G1. apply Z.ltb_lt in G2. lia. }
    destruct (columns_total _ GR) as (kts & FK). rewrite (column_types_ok q SO sel D NE _ _ FK). cbn [obind].
    destruct (forallb (operator_ok (lenz (columns q))) (q_ops q)) eqn:EOK; cbn [negb]; [|eexists; split; [reflexivity|discriminate]].
    assert (OR : forall i, In i (map (fun x => op_column (lenz (columns q)) (snd x)) (q_ops q)) -> 0 <= i < lenz (columns q)).
    { intros i I. apply in_map_iff in I. destruct I as (x & <- & _). unfold op_column.
      assert (0 < lenz (columns q)) by (unfold lenz; assert (X := columns_some q NE); destruct (columns q); [congruence|simpl; lia]).
      destruct ((snd x <? 0) || (lenz (columns q) <=? snd x)) eqn:E; [lia|]. apply orb_false_iff in E. destruct E as [E1 E2].
      apply Z.ltb_ge in E1. apply Z.leb_gt in E2. lia. }
    destruct (columns_total _ OR) as (ots & FO). rewrite (column_types_ok q SO sel D NE _ _ FO). cbn [obind].
    destruct (is_nil kts && is_nil ots) eqn:EN.
    + eexists. split; [reflexivity|]. intros o E. left. inversion E; subst. auto.
    + destruct (Nat.eqb (length (q_result q)) (length kts + length ots)) eqn:EL; eexists; (split; [reflexivity|]); [|discriminate].
      intros o E. right. inversion E; subst. cbn [o_nsel o_key_types o_op_types]. apply Nat.eqb_eq in EL.
      assert (L1 := F2_len _ _ _ FK). assert (L2 := F2_len _ _ _ FO). rewrite map_length in L2.
      split; [auto|split; [|split; [auto|split; [auto|split; [auto|lia]]]]]. intros X. rewrite (ND X) in L1. rewrite X in L2.
      destruct kts; [|discriminate]. destruct ots; [|discriminate]. discriminate.
Qed.

Lemma pick_safe rec : length rec = length (columns q) -> forall cols ts, Forall2 (column_type q) cols ts ->
  exists r, pick_columns rec cols ts = Ok r /\ (forall cs, r = Some cs -> Forall2 (fun c t => type_of c = t) cs ts).
Proof.
  intros LR cols ts F. induction F as [|i t cols ts T F IH]; cbn [pick_columns].
  - eexists. split; [reflexivity|]. intros cs E. inversion E. constructor.
  - destruct T as (ix & A & B). destruct (nthz_some _ _ _ A) as [R _].
    destruct (nthz_in_range rec i ltac:(unfold lenz in *; lia)) as (c & E). rewrite (at_ok _ _ _ E). cbn [obind].
    unfold clone. destruct (ctype_eqb (type_of c) t) eqn:ET; [|eexists; split; [reflexivity|discriminate]].
    destruct IH as (r & E2 & IH). rewrite E2. cbn [obind]. eexists. split; [reflexivity|]. intros cs Q.
    destruct r as [cs'|]; [|discriminate]. inversion Q; subst. constructor; auto. destruct (type_of c), t; try discriminate; auto.
Qed.

Lemma add_fun_op o pt rt f : add_fun o pt rt = Some f -> f_op f = op_of o.
Proof.
  destruct o as [op i]. unfold add_fun, op_of. destruct op; try destruct (_ && _); try destruct (ctype_eqb _ _); intros E; inversion E; subst; auto.
Qed.
Lemma add_funs_op : forall ops pts rts fs, add_funs ops pts rts = Some fs -> map f_op fs = map op_of ops.
Proof.
  induction ops as [|o ops IH]; intros pts rts fs E; cbn [add_funs] in E; [inversion E; auto|].
  destruct pts as [|pt pts]; [discriminate|]. destruct rts as [|rt rts]; [discriminate|].
  destruct (add_fun o pt rt) as [f|] eqn:EF; [|discriminate]. destruct (add_funs ops pts rts) as [fs'|] eqn:ES; [|discriminate].
  inversion E; subst. cbn [map]. rewrite (add_fun_op _ _ _ _ EF), (IH _ _ _ ES). auto.
Qed.

Definition calm_op (op : oper) (t : ctype) : Prop := op = OSum \/ op = OSum0 -> t <> TyInt /\ t <> TyLong.

Lemma apply_fun_safe f p r : calm_op (f_op f) (type_of p) -> exists x, apply_fun L f p r = Ok x.
Proof.
  intros C. unfold apply_fun. destruct (f_op f); eauto.
  - destruct (C (or_introl eq_refl)) as [C1 C2]. destruct p as [[x|]|[x|]|[x|]|[x|]|[x|]]; simpl in C1, C2; try congruence; destruct r as [[y|]|[y|]|[y|]|[y|]|[y|]]; cbn; eauto.
  - destruct (C (or_intror eq_refl)) as [C1 C2]. destruct p as [[x|]|[x|]|[x|]|[x|]|[x|]]; simpl in C1, C2; try congruence; destruct r as [[y|]|[y|]|[y|]|[y|]|[y|]]; cbn; eauto.
Qed.
Lemma apply_funs_safe : forall fs ps rs, Forall2 (fun f p => calm_op (f_op f) (type_of p)) fs ps -> length rs = length ps ->
  exists x, apply_funs L fs ps rs = Ok x /\ forall rs', x = Some rs' -> length rs' = length rs.
Proof.
  intros fs ps rs F. revert rs. induction F as [|f p fs ps C F IH]; intros rs LR; cbn [apply_funs].
  - eexists. split; [reflexivity|]. intros rs' E. inversion E; auto.
  - destruct rs as [|r rs]; [discriminate|]. destruct (apply_fun_safe f p r C) as (x & E). rewrite E. cbn [obind].
    destruct x as [r'|]; [|eexists; split; [reflexivity|discriminate]].
    destruct (IH rs ltac:(simpl in LR; lia)) as (y & E2 & H). rewrite E2. cbn [obind]. eexists. split; [reflexivity|]. intros rs' Q.
    destruct y as [rs''|]; [|discriminate]. inversion Q; subst. simpl. rewrite (H _ eq_refl). auto.
Qed.

Definition map_ok (m : smap bytes (list cell)) : Prop := Forall (fun e => length (snd e) = length (q_ops q)) m.
Definition groups_ok (g : groups) : Prop := match g with Some m => map_ok m | None => True end.

Variable o : opened.
Hypothesis OO : opened_ok o.

Lemma calm_one x t : In x (q_ops q) -> operator_ok (lenz (columns q)) x = true ->
  column_type q (op_column (lenz (columns q)) (snd x)) t -> calm_op (op_of x) t.
Proof.
  intros I K T Q. destruct x as [op i]. unfold op_of in Q. cbn [snd] in T.
  assert (OP : op = OSum \/ op = OSum0) by (destruct op; auto; destruct (i =? -1); destruct Q; discriminate).
  apply (NI op i t I OP). unfold operator_ok in K. unfold op_column in T.
  destruct (lenz (columns q) <=? i); [destruct OP; subst op; discriminate|].
  destruct (i <? 0); [destruct OP; subst op; discriminate|]. exact T.
Qed.

Lemma calm_ops : forall ops fs ts ps, (forall x, In x ops -> In x (q_ops q)) -> forallb (operator_ok (lenz (columns q))) ops = true ->
  map f_op fs = map op_of ops ->
  Forall2 (column_type q) (map (fun x => op_column (lenz (columns q)) (snd x)) ops) ts -> Forall2 (fun c t => type_of c = t) ps ts ->
  Forall2 (fun f p => calm_op (f_op f) (type_of p)) fs ps.
Proof.
  induction ops as [|x ops IH]; intros fs ts ps IN OK EF FT FP; destruct fs as [|f fs]; try discriminate; cbn [map] in *.
  - inversion FT; subst. inversion FP; subst. constructor.
  - inversion FT as [|? t ? ts' T FT']; subst. inversion FP as [|p ? ps' ? P FP']; subst. inversion EF.
    cbn [forallb] in OK. apply andb_true_iff in OK. destruct OK as [O1 O2]. constructor.
    + rewrite H0. apply (calm_one x); auto. apply IN. left. auto.
    + apply (IH fs ts' ps'); auto. intros y J. apply IN. right. auto.
Qed.

Lemma record_safe g rec : o_grouping o = true -> groups_ok g -> length rec = length (columns q) ->
  exists r, aggregate_record L q o g rec = Ok r /\ forall g', r = Some g' -> groups_ok g'.
Proof.
  intros G GO LR. destruct OO as [X|(E1 & NO & OK & FK & FT & LQ)]; [congruence|].
  unfold aggregate_record. rewrite E1. destruct (pick_safe rec LR _ _ FK) as (rk & EK & _). rewrite EK. cbn [obind].
  destruct rk as [ks|]; [|eexists; split; [reflexivity|discriminate]].
  destruct (pick_safe rec LR _ _ FT) as (rp & EP & HP). rewrite EP. cbn [obind].
  destruct rp as [ps|]; [|eexists; split; [reflexivity|discriminate]]. specialize (HP ps eq_refl).
  destruct (if is_nil (o_key_types o) then Some [] else l_enc_key L ks) as [key|]; [|eexists; split; [reflexivity|discriminate]].
  destruct (add_funs (q_ops q) (o_op_types o) (agg_result_types q)) as [fs|] eqn:EF; [|eexists; split; [reflexivity|discriminate]].
  assert (CO := calm_ops (q_ops q) fs _ ps (fun x J => J) OK (add_funs_op _ _ _ _ EF) FT HP).
  assert (LP : length ps = length (q_ops q)) by (rewrite (F2_len _ _ _ HP), <- (F2_len _ _ _ FT), map_length; auto).
  set (m := match g with Some m => m | None => [] end).
  assert (MO : map_ok m) by (unfold m; destruct g; [exact GO|constructor]).
  assert (RUN : forall rs, length rs = length (q_ops q) -> exists r,
    (olet x := apply_funs L fs ps rs in Ok (match x with Some rs' => Some (put bcmp m key rs') | None => None end)) = Ok r /\
    forall m', r = Some m' -> map_ok m').
  { intros rs LS. destruct (apply_funs_safe fs ps rs CO ltac:(congruence)) as (x & EX & HX). rewrite EX. cbn [obind]. eexists. split; [reflexivity|].
    intros m' Q. destruct x as [rs'|]; [|discriminate]. inversion Q; subst. apply Forall_put; auto. cbn [snd]. rewrite (HX _ eq_refl). auto. }
  unfold manager_execute.
  assert (ME : exists r, match get bcmp m key with
     | Some rs => olet x := apply_funs L fs ps rs in Ok (match x with Some rs' => Some (put bcmp m key rs') | None => None end)
     | None => if is_nil (q_ops q) then Crash else
         olet x := apply_funs L fs ps (map (fun ot => start_cell L (fst (fst ot)) (snd ot)) (combine (q_ops q) (agg_result_types q))) in
         Ok (match x with Some rs' => Some (put bcmp m key rs') | None => None end)
     end = Ok r /\ forall m', r = Some m' -> map_ok m').
  { destruct (get bcmp m key) as [rs|] eqn:EG.
    - apply RUN. apply (get_In bcmp bcmp_ok) in EG. unfold map_ok in MO. rewrite Forall_forall in MO. apply (MO _ EG).
    - destruct (q_ops q) eqn:EO; [congruence|]. rewrite <- EO in *. replace (is_nil (q_ops q)) with false by (rewrite EO; auto).
      apply RUN. rewrite map_length, combine_length. unfold agg_result_types. rewrite skipn_length. lia. }
  destruct ME as (r & ER & HR). rewrite ER. cbn [obind]. eexists. split; [reflexivity|]. intros g' Q. destruct r as [m'|]; [|discriminate].
  inversion Q; subst. exact (HR _ eq_refl).
Qed.

Lemma row_safe g kv : groups_ok g -> exists r, do_row L q o g kv = Ok r /\ (forall g', r = RNone g' -> groups_ok g').
Proof.
  intros GO. unfold do_row. destruct (l_decode L (fst kv) (snd kv)) as [rec|] eqn:ED; [|eexists; split; [reflexivity|discriminate]].
  destruct (if q_filter q then l_keep L rec else Some true) as [[|]|].
  - destruct (o_grouping o) eqn:EG.
    + destruct (record_safe g rec EG GO (proj1 DC _ _ _ ED)) as (r & E & H). rewrite E. cbn [obind]. eexists. split; [reflexivity|].
      intros g' Q. destruct r as [g0|]; [|discriminate]. inversion Q; subst. auto.
    + eexists. split; [reflexivity|]. destruct (l_encode L rec); intros g' Q; inversion Q; subst; auto.
  - eexists. split; [reflexivity|]. intros g' Q. inversion Q; subst; auto.
  - eexists. split; [reflexivity|discriminate].
Qed.

Lemma loop_safe ko mc mb : forall rows cnt sz acc g, groups_ok g ->
  exists r, row_loop L q o ko mc mb rows cnt sz acc g = Ok r /\ forall acc' rest g' b, r = Some (acc', rest, g', b) -> groups_ok g'.
Proof.
  induction rows as [|kv rows IH]; intros cnt sz acc g GO; cbn [row_loop].
  - eexists. split; [reflexivity|]. intros ? ? g' ? Q. inversion Q; subst. auto.
  - destruct (row_safe g kv GO) as (r & E & H). rewrite E. cbn [obind]. destruct r as [|g'|out].
    + eexists. split; [reflexivity|discriminate].
    + apply IH. auto.
    + destruct (upto_limit mc mb ko cnt sz (shown_row ko out)) as [[full cnt'] sz']. destruct full; [|apply IH; auto].
      eexists. split; [reflexivity|]. intros ? ? g' ? Q. inversion Q; subst. auto.
Qed.

Lemma clone_all_safe : forall cs ts, (length cs <= length ts)%nat -> exists r, clone_all cs ts = Ok r.
Proof.
  induction cs as [|c cs IH]; intros [|t ts] LT; cbn [clone_all]; eauto; [simpl in LT; lia|].
  destruct (clone c t); eauto. destruct (IH ts ltac:(simpl in LT; lia)) as (r & E). rewrite E. cbn [obind]. eauto.
Qed.

Lemma group_loop_safe ko mc mb : o_grouping o = true -> forall it cnt sz acc, map_ok it ->
  exists r, group_loop L q o ko mc mb it cnt sz acc = Ok r /\ forall acc' it', r = Some (acc', it') -> map_ok it'.
Proof.
  intros G. destruct OO as [X|(E1 & NO & OK & FK & FT & LQ)]; [congruence|].
  induction it as [|[key aggs] it IH]; intros cnt sz acc MO; cbn [group_loop].
  - eexists. split; [reflexivity|]. intros ? ? Q. inversion Q; subst. constructor.
  - inversion MO as [|? ? M1 M2]; subst. cbn [snd] in M1.
    assert (GR : exists r, group_row L q o key aggs = Ok r).
    { unfold group_row. assert (LK := F2_len _ _ _ FK).
      destruct (if is_nil (o_key_types o) then Some [] else l_dec_key L key) as [ks|] eqn:EK; eauto.
      assert (length ks = length (q_group q)).
      { destruct (o_key_types o) as [|t ts]; cbn [is_nil] in EK; [inversion EK; simpl in *; lia|]. apply (proj2 DC _ _ EK). }
      destruct (clone_all_safe (ks ++ aggs) (q_result q)) as (r & E); [rewrite app_length; lia|]. rewrite E. cbn [obind]. eauto. }
    destruct GR as (r & E). rewrite E. cbn [obind]. destruct r as [out|]; [|eexists; split; [reflexivity|discriminate]].
    destruct (upto_limit mc mb ko cnt sz (shown_row ko out)) as [[full cnt'] sz']. destruct full; [|apply IH; auto].
    eexists. split; [reflexivity|]. intros ? ? Q. inversion Q; subst. auto.
Qed.

Definition vst_ok (st : vst) : Prop := groups_ok (v_groups st) /\ match v_iter st with Some it => map_ok it | None => True end.

Lemma page_safe ko mc mb st : vst_ok st -> exists r, page1 L q o ko mc mb st = Ok r /\ forall p st', r = Some (p, st') -> vst_ok st'.
Proof.
  intros (GO & IO). unfold page1. destruct (loop_safe ko mc mb (v_rows st) 0 0 [] (v_groups st) GO) as (r & E & H). rewrite E. cbn [obind].
  destruct r as [[[[acc rest] g] b]|]; [|eexists; split; [reflexivity|discriminate]]. assert (G' := H _ _ _ _ eq_refl).
  destruct b.
  - eexists. split; [reflexivity|]. intros p st' Q. inversion Q; subst. split; auto.
  - destruct (o_grouping o) eqn:EG; [|eexists; split; [reflexivity|]; intros p st' Q; inversion Q; subst; split; auto].
    destruct g as [m|]; [|eexists; split; [reflexivity|]; intros p st' Q; inversion Q; subst; split; auto].
    cbv zeta. match goal with |- context[group_loop _ _ _ _ _ _ ?i 0 0 _] => destruct (group_loop_safe ko mc mb EG i 0 0 acc) as (r2 & E2 & H2) end.
    { destruct (v_iter st); auto. }
    rewrite E2. cbn [obind]. eexists. split; [reflexivity|]. intros p st' Q. destruct r2 as [[acc' it']|]; [|discriminate].
    inversion Q; subst. split; [exact G'|]. exact (H2 _ _ eq_refl).
Qed.

Lemma pages_safe ko : forall lims st, vst_ok st -> exists r, pages1 L q o ko lims st = Ok r.
Proof.
  induction lims as [|[mc mb] lims IH]; intros st VO; cbn [pages1]; eauto.
  destruct (page_safe ko mc mb st VO) as (r & E & H). rewrite E. cbn [obind]. destruct r as [[p st']|]; eauto.
  destruct (IH st' (H _ _ eq_refl)) as (r2 & E2). rewrite E2. cbn [obind]. eauto.
Qed.
End Safe.

Lemma C90_core L q ko lims rows : schema_ok q -> (q_ops q = [] -> q_group q = []) -> no_integer_sum q -> decoders_ok L q ->
  session1 L q ko lims rows <> Crash.
Proof.
  intros SO ND NI DC. unfold session1. destruct (open_safe q SO ND) as (r & E & H). rewrite E. cbn [obind].
  destruct r as [o|]; [|discriminate].
  destruct (pages_safe L q ND NI DC o (H o eq_refl) ko lims (mkVst rows None None)) as (r2 & E2); [split; exact I|]. rewrite E2. discriminate.
Qed.

(** ** Aggregates of a raw session that fit one page *)
Lemma blocking_loop {S} (R : runner S) upd fin ko mc mb : blocking R upd fin -> forall rows cnt sz s,
  cnt + Z.of_nat (length rows) < mc -> sz + size_of rows < mb ->
  raw_loop R ko mc mb rows cnt sz [] s = Some ([], false, [], fold_left upd rows s).
Proof.
  intros [P _]. induction rows as [|kv rows IH]; intros cnt sz s H1 H2; cbn [raw_loop fold_left]; auto.
  rewrite P. cbn [length] in H1. change (size_of (kv :: rows)) with (Z.of_nat (length (fst kv)) + Z.of_nat (length (snd kv)) + size_of rows) in H2.
  assert (SP : 0 <= size_of rows) by (clear; unfold size_of; induction rows; simpl; lia).
  unfold upto_limit. destruct (mc <=? cnt + 1) eqn:E1; [apply Z.leb_le in E1; lia|].
  cbv zeta. match goal with |- context[mb <=? ?z] => replace (mb <=? z) with false by (symmetry; apply Z.leb_gt; lia) end.
  apply IH; lia.
Qed.

Lemma C93_one_page_core {S} (R : runner S) upd fin ko mc mb rows : blocking R upd fin ->
  Z.of_nat (length rows) < mc -> size_of rows < mb ->
  pages2 R false ko [(mc, mb)] rows (r_start R) = Ok (Some [(fin (fold_left upd rows (r_start R)), false)]).
Proof.
  intros BL H1 H2. cbn [pages2]. unfold page2. rewrite (blocking_loop R upd fin ko mc mb BL rows 0 0 (r_start R)) by lia.
  destruct (proj2 BL (fold_left upd rows (r_start R))) as (s' & E). rewrite E. cbn [obind app]. auto.
Qed.

Lemma C93_count_core {S} (R : runner S) ko mc mb rows k v : r_count R (Z.of_nat (length rows)) = Enc k v ->
  pages2 R true ko [(mc, mb)] rows (r_start R) = Ok (Some [([(k, v)], false)]).
Proof. intros E. cbn [pages2]. unfold page2, count_row. rewrite E. cbn [obind]. auto. Qed.

(** ** Sums of few small values *)
Lemma small_sum l : forall n M, 0 <= M -> Forall (fun x => 0 <= x <= M) l -> 0 <= sum (firstn n l) <= Z.of_nat (length l) * M.
Proof.
  induction l as [|x l IH]; intros n M MP F.
  - rewrite firstn_nil. unfold sum. simpl. lia.
  - inversion F as [|? ? A B]; subst. destruct n as [|n].
    + unfold sum. cbn [firstn fold_right]. split; [lia|]. apply Z.mul_nonneg_nonneg; lia.
    + cbn [firstn]. destruct (IH n M MP B) as [I1 I2]. unfold sum in *. cbn [fold_right length]. rewrite Nat2Z.inj_succ, Z.mul_succ_l. lia.
Qed.
Lemma small_sums_fit q recs M : Z.of_nat (length recs) * M < 2 ^ 31 -> 0 <= M ->
  (forall rec i, In rec recs -> Forall (fun x => 0 <= x <= M) (ints [nth i rec (CBool None)])) -> sums_fit q recs.
Proof.
  intros B MP H op i rt g n _ _ _.
  assert (F : Forall (fun x => 0 <= x <= M) (ints (values i (members q recs g)))).
  { unfold values, members. clear B. induction recs as [|r recs IH]; cbn [filter map]; [constructor|].
    assert (X : Forall (fun x => 0 <= x <= M) (ints (map (fun rec => nth (Z.to_nat i) rec (CBool None)) (filter (fun rec => if cells_dec (group_of q rec) g then true else false) recs))))
      by (apply IH; intros rec j I; apply H; right; auto).
    destruct (if cells_dec (group_of q r) g then true else false); auto. cbn [map].
    change (ints (?a :: ?b)) with (ints ([a] ++ b)). rewrite ints_app. apply Forall_app. split; auto. apply H. left. auto. }
  assert (LN : (length (ints (values i (members q recs g))) <= length recs)%nat).
  { apply Nat.le_trans with (length (values i (members q recs g))).
    - generalize (values i (members q recs g)). induction l as [|c l IH]; auto. cbn [length]. change (ints (c :: l)) with (ints ([c] ++ l)). rewrite ints_app, app_length.
      destruct c as [[x|]|[x|]|[x|]|[x|]|[x|]]; simpl; lia.
    - unfold values. rewrite map_length. unfold members. clear. induction recs as [|r l IH]; simpl; auto. destruct (cells_dec (group_of q r) g); simpl; lia. }
  destruct (small_sum _ n M MP F) as [S1 S2].
  assert (Z.of_nat (length (ints (values i (members q recs g)))) * M <= Z.of_nat (length recs) * M) by (apply Z.mul_le_mono_nonneg_r; lia).
  unfold fits. assert (2 ^ 31 < 2 ^ 63) by reflexivity. destruct rt; auto; lia.
Qed.

Lemma C89_empty_core L q ko lims : grouping_request q -> encodes L -> sums_fit q [] ->
  exists ps, session1 L q ko lims [] = Ok (Pages ps) /\ concat ps = [].
Proof.
  intros G EN SF.
  assert (K : kept L q [] = []) by (unfold kept; destruct (q_filter q); auto).
  destruct (C89_core L q [] [] ko lims G EN) as (outs & ps & E & GR & ((n & D) & _)).
  - split; [constructor|]. split; constructor.
  - rewrite K. intros _ rec [].
  - rewrite K. auto.
  - exists ps. split; auto. rewrite K in GR. destruct GR as (gs & aggs & _ & M & F & F2).
    assert (gs = []) by (destruct gs as [|g gs]; auto; destruct (proj1 (M g) (or_introl eq_refl)) as (rec & [] & _)). subst gs.
    cbn [combine] in F2. inversion F2; subst. rewrite D. cbn [map]. apply firstn_nil.
Qed.

Lemma C91_stream_core S (R : runner S) f ko lims rows s : streaming R f ->
  exists ps n, pages2 R false ko lims rows s = Ok (Some ps) /\ (n <= length rows)%nat /\
    concat (map fst ps) = map (shown_row ko) (results f (firstn n rows)) /\
    Forall2 (fun l p => Z.of_nat (length (fst p)) <= Z.max 1 (fst l)) lims ps /\
    ((exists p, In (p, false) ps) -> n = length rows) /\
    ((length rows < length lims)%nat -> exists p, In (p, false) ps).
Proof. intros ST. exact (raw_pages R f ko ST lims rows s). Qed.

Lemma C89_missing_core : forall L q ko lims rows, schema_ok q -> names_missing_column q ->
  session1 L q ko lims rows = Ok Refused.
Proof.
  intros L q ko lims rows SO M. unfold session1.
  enough (E : open q = Ok None) by (rewrite E; reflexivity).
  destruct (opens_selection q SO) as (orig & sel & A & B & C & D).
  assert (NS : lenz sel = lenz (columns q)) by (unfold lenz; congruence).
  unfold open. rewrite A. cbn [obind]. rewrite B. cbn [obind]. rewrite NS.
  destruct (group_columns_ok (lenz (columns q)) (q_group q)) eqn:G; cbn [negb]; auto.
  assert (GR : forall i, In i (q_group q) -> 0 <= i < lenz (columns q)).
  { intros i I. unfold group_columns_ok in G. rewrite forallb_forall in G. specialize (G i I). apply andb_true_iff in G. destruct G as [G1 G2].
    apply Z.leb_le in G1. apply Z.ltb_lt in G2. lia. }
  assert (K : exists kt, column_types (q_schema q) sel (q_group q) = Ok kt).
  { destruct (q_schema q) as [|c0 sc] eqn:ES; [unfold column_types; cbn [is_nil]; eexists; reflexivity|].
    rewrite <- ES in *. assert (NE : q_schema q <> []) by congruence.
    destruct (columns_total q SO _ GR) as (kts & FK). rewrite (column_types_ok q SO sel D NE _ _ FK). eexists; reflexivity. }
  destruct K as (kt & ->). cbn [obind].
  enough (O : forallb (operator_ok (lenz (columns q))) (q_ops q) = false) by (rewrite O; reflexivity).
  destruct M as [(i & I & N)|(op & i & I & N & N1 & N2)].
  - exfalso. apply N. apply (GR i I).
  - destruct (forallb _ _) eqn:F; auto. rewrite forallb_forall in F. specialize (F _ I). unfold operator_ok in F. fold (lenz (columns q)) in N.
    destruct (Z.leb_spec (lenz (columns q)) i); [destruct op; congruence|]. destruct (Z.ltb_spec i 0); [|exfalso; apply N; lia].
    destruct op; try discriminate; exfalso; [apply N2; auto|congruence].
Qed.
