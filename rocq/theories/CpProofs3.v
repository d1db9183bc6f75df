(** Groups, and the pages of first-generation sessions. *)
From Coq Require Import ZArith List Lia Bool Sorted.
From Verif Require Import Bytes SMap Outcome TxnModel TxnReadModel TxnReadSpec SessModel CpModel CpSpec CpProofs1 CpProofs2.
Import ListNotations.
Open Scope Z_scope.

(** ** Pages *)

Inductive paged : list (Z * Z) -> list row -> list (list row) -> Prop :=
| pg_nil outs : paged [] outs []
| pg_cons mc mb lims outs n ps :
    Z.of_nat n <= Z.max 1 mc -> (outs <> [] -> (1 <= n)%nat) ->
    (n <= length outs)%nat -> paged lims (skipn n outs) ps ->
    paged ((mc, mb) :: lims) outs (firstn n outs :: ps).

Lemma firstn_plus {A} (l : list A) : forall n m, firstn n l ++ firstn m (skipn n l) = firstn (n + m) l.
Proof. induction l as [|x l IH]; intros [|n] m; simpl; rewrite ?firstn_nil; auto. f_equal. auto. Qed.

Lemma paged_delivers lims outs ps : paged lims outs ps -> delivers lims outs ps.
Proof.
  induction 1 as [outs|mc mb lims outs n ps A B C P (IH1 & IH2 & IH3)].
  - split; [exists O; auto|split; [constructor|]]. intros [[]|H]. simpl in H. destruct outs; [auto|simpl in H; lia].
  - split; [|split].
    + destruct IH1 as (m & E). exists (n + m)%nat. simpl. rewrite E. apply firstn_plus.
    + constructor; [|auto]. cbn [fst]. rewrite firstn_length. lia.
    + intros H. simpl. destruct outs as [|o outs'].
      { rewrite skipn_nil in *. rewrite firstn_nil. simpl. apply IH3. right. simpl. lia. }
      assert (1 <= n)%nat by (apply B; discriminate).
      rewrite IH3.
      * apply firstn_skipn.
      * destruct H as [[H|H]|H].
        -- exfalso. destruct n; [lia|discriminate].
        -- left. auto.
        -- right. rewrite skipn_length. cbn [length] in *. lia.
Qed.

Lemma full_spec mc mb ko cnt sz kv :
  exists full sz', upto_limit mc mb ko cnt sz kv = (full, cnt + 1, sz') /\ (mc <= cnt + 1 -> full = true).
Proof.
  unfold upto_limit. destruct (mc <=? cnt + 1) eqn:E; [eauto 6|]. eexists. eexists. split; [reflexivity|].
  apply Z.leb_gt in E. lia.
Qed.

Lemma group_loop_spec L q o ko mc mb : forall it outs cnt sz acc, 0 <= cnt ->
  Forall2 (fun e out => group_row L q o (fst e) (snd e) = Ok (Some out)) it outs ->
  exists n, (n <= length outs)%nat /\ Z.of_nat n <= Z.max 1 (mc - cnt) /\ (outs <> [] -> (1 <= n)%nat) /\
    group_loop L q o ko mc mb it cnt sz acc = Ok (Some (acc ++ map (shown_row ko) (firstn n outs), skipn n it)).
Proof.
  intros it outs cnt sz acc CN F. revert cnt sz acc CN.
  induction F as [|[k cs] out it outs E F IH]; intros cnt sz acc CN.
  - exists O. simpl. rewrite app_nil_r. repeat split; auto; lia || congruence.
  - cbn [group_loop]. cbn [fst snd] in E. rewrite E. cbn [obind].
    destruct (full_spec mc mb ko cnt sz (shown_row ko out)) as (full & sz' & EQ & FL). rewrite EQ. destruct full.
    + exists 1%nat. cbn [firstn map skipn length]. split; [lia|split; [lia|split; [lia|auto]]].
    + assert (cnt + 1 < mc) by (destruct (Z_lt_ge_dec (cnt + 1) mc); [auto|exfalso; assert (false = true) by (apply FL; lia); discriminate]).
      destruct (IH (cnt + 1) sz' (acc ++ [shown_row ko out]) ltac:(lia)) as (n & A & B & C & D).
      exists (S n). rewrite D. cbn [firstn map skipn length]. rewrite <- app_assoc. split; [lia|split; [lia|split; [lia|auto]]].
Qed.

(** ** Selections *)

Definition enc1 (L : lib) (rec : list cell) : row := match l_encode L rec with Enc k v => (k, v) | _ => ([], []) end.
Lemma enc1_ok L rec : encodes L -> l_encode L rec = Enc (fst (enc1 L rec)) (snd (enc1 L rec)).
Proof. intros E. unfold enc1. destruct (E rec) as (k & v & ->). auto. Qed.

Lemma kept_cons L q rec recs : kept L q (rec :: recs) =
  (if (if q_filter q then match l_keep L rec with Some b => b | None => false end else true) then [rec] else []) ++ kept L q recs.
Proof. unfold kept. destruct (q_filter q); simpl; auto. destruct (match l_keep L rec with Some b => b | None => false end); auto. Qed.
Lemma kept_app L q a b : kept L q (a ++ b) = kept L q a ++ kept L q b.
Proof. unfold kept. destruct (q_filter q); auto. apply filter_app. Qed.

Lemma rows_decode_cons L q kv rows rec recs : rows_decode L q (kv :: rows) (rec :: recs) ->
  l_decode L (fst kv) (snd kv) = Some rec /\ record_typed q rec /\ (q_filter q = true -> l_keep L rec <> None) /\
  rows_decode L q rows recs.
Proof.
  intros (A & B & C). inversion A; subst. inversion B; subst. split; [auto|split; [auto|split]].
  - intros F. specialize (C F). inversion C; auto.
  - split; [auto|split; [auto|]]. intros F. specialize (C F). inversion C; auto.
Qed.

Lemma select_loop L q o ko mc mb : o_grouping o = false -> encodes L -> forall rows recs cnt sz acc g, 0 <= cnt ->
  rows_decode L q rows recs ->
  exists n rest recs' full, (n <= length (kept L q recs))%nat /\ Z.of_nat n <= Z.max 1 (mc - cnt) /\
    (kept L q recs <> [] -> (1 <= n)%nat) /\ rows_decode L q rest recs' /\
    map (enc1 L) (kept L q recs') = skipn n (map (enc1 L) (kept L q recs)) /\
    row_loop L q o ko mc mb rows cnt sz acc g =
      Ok (Some (acc ++ map (shown_row ko) (firstn n (map (enc1 L) (kept L q recs))), rest, g, full)).
Proof.
  intros NG EN. induction rows as [|kv rows IH]; intros recs cnt sz acc g CN RD.
  - assert (recs = []) by (destruct RD as (A & _); inversion A; auto). subst recs.
    exists O, [], [], false. unfold kept. replace (if q_filter q then filter _ [] else []) with (@nil (list cell)) by (destruct (q_filter q); auto).
    simpl. rewrite app_nil_r. repeat split; auto; try lia; try constructor; try congruence.
  - destruct recs as [|rec recs]; [destruct RD as (A & _); inversion A|].
    destruct (rows_decode_cons _ _ _ _ _ _ RD) as (D & _ & K & RD').
    cbn [row_loop]. unfold do_row at 1. rewrite D, NG, kept_cons.
    assert (KB : exists b, (if q_filter q then l_keep L rec else Some true) = Some b /\
       (if q_filter q then match l_keep L rec with Some b => b | None => false end else true) = b).
    { destruct (q_filter q); [|eauto]. destruct (l_keep L rec) as [b|]; [eauto|]. exfalso. apply K; auto. }
    destruct KB as (b & E1 & E2). rewrite E1, E2. destruct b.
    + rewrite (enc1_ok L rec EN). cbn [obind].
      replace (fst (enc1 L rec), snd (enc1 L rec)) with (enc1 L rec) by (destruct (enc1 L rec); auto).
      destruct (full_spec mc mb ko cnt sz (shown_row ko (enc1 L rec))) as (full & sz' & EQ & FL). rewrite EQ. destruct full.
      * exists 1%nat, rows, recs, true. simpl. repeat split; auto; try lia; apply RD'.
      * assert (cnt + 1 < mc) by (destruct (Z_lt_ge_dec (cnt + 1) mc); [auto|exfalso; assert (false = true) by (apply FL; lia); discriminate]).
        destruct (IH recs (cnt + 1) sz' (acc ++ [shown_row ko (enc1 L rec)]) g ltac:(lia) RD') as (n & rest & recs' & full & A & B & C & F & G & H1).
        exists (S n), rest, recs', full. rewrite H1. simpl. rewrite <- app_assoc. repeat split; auto; try lia; apply F.
    + cbn [obind app]. apply (IH recs cnt sz acc g CN RD').
Qed.

Lemma select_pages L q o ko : o_grouping o = false -> encodes L -> forall lims rows recs it,
  rows_decode L q rows recs ->
  exists ps st, pages1 L q o ko lims (mkVst rows None it) = Ok (Some (ps, st)) /\
    paged lims (map (shown_row ko) (map (enc1 L) (kept L q recs))) ps.
Proof.
  intros NG EN. induction lims as [|[mc mb] lims IH]; intros rows recs it RD.
  - eexists. eexists. split; [reflexivity|constructor].
  - destruct (select_loop L q o ko mc mb NG EN rows recs 0 0 [] None ltac:(lia) RD) as (n & rest & recs' & full & A & B & C & D & E & F).
    cbn [pages1]. unfold page1. cbn [v_rows v_groups v_iter]. rewrite F. cbn [obind]. rewrite NG.
    destruct (IH rest recs' it D) as (ps & st & G & H).
    exists (firstn n (map (shown_row ko) (map (enc1 L) (kept L q recs))) :: ps), st.
    split.
    + destruct full; cbn [obind]; rewrite G; cbn [obind]; rewrite (firstn_map (shown_row ko)); auto.
    + constructor.
      * lia.
      * intros X. apply C. intros Y. rewrite Y in X. auto.
      * rewrite !map_length. auto.
      * rewrite (skipn_map (shown_row ko)), <- E. exact H.
Qed.

(** ** Groups *)

Lemma apply_funs_ok L (val : oper * Z -> cell) (cs_of : oper * Z -> list cell) : forall tr rs,
  (forall o pt rt, In (o, pt, rt) tr -> value_ok (op_of o) pt rt (cs_of o) (val o)) ->
  Forall2 (fun x c => aggregate_is L (op_of (fst (fst x))) (snd x) (cs_of (fst (fst x))) c) tr rs ->
  exists rs', apply_funs L (map (fun p => mkFun (op_of (fst (fst p))) (snd (fst p)) (snd p)) tr)
                (map (fun x => val (fst (fst x))) tr) rs = Ok (Some rs') /\
    Forall2 (fun x c => aggregate_is L (op_of (fst (fst x))) (snd x) (cs_of (fst (fst x)) ++ [val (fst (fst x))]) c) tr rs'.
Proof.
  intros tr rs V F. induction F as [|[[o pt] rt] c tr rs A F IH]; cbn [map apply_funs fst snd] in *.
  - eexists. split; [reflexivity|constructor].
  - destruct (apply_step L (op_of o) pt rt (cs_of o) (val o) c (V o pt rt (or_introl eq_refl)) A) as (c' & E & B).
    rewrite E. cbn [obind]. destruct IH as (rs' & E2 & B2); [intros o' pt' rt' I; apply V; right; auto|].
    rewrite E2. cbn [obind]. eexists. split; [reflexivity|]. constructor; auto.
Qed.

Lemma map_triple {A B C D} (f : A -> D) : forall (a : list A) (b : list B) (c : list C),
  length a = length b -> length a = length c -> map (fun x => f (fst (fst x))) (combine (combine a b) c) = map f a.
Proof. induction a as [|x a IH]; intros [|y b] [|z c] H1 H2; simpl in *; try discriminate; auto. f_equal. apply IH; lia. Qed.
Lemma combine_triple {A B C} : forall (a : list A) (b : list B) (c : list C),
  length a = length b -> length a = length c -> combine a c = map (fun x => (fst (fst x), snd x)) (combine (combine a b) c).
Proof. induction a as [|x a IH]; intros [|y b] [|z c] H1 H2; simpl in *; try discriminate; auto. f_equal. apply IH; lia. Qed.

Lemma pick_columns_ok q (SO : schema_ok q) rec : record_typed q rec -> forall cols ts, Forall2 (column_type q) cols ts ->
  pick_columns rec cols ts = Ok (Some (map (fun i => nth (Z.to_nat i) rec (CBool None)) cols)).
Proof.
  intros (LR & TR) cols ts F. induction F as [|i t cols ts T F IH]; cbn [pick_columns map]; auto.
  destruct T as (ix & A & B). destruct (nthz_some _ _ _ A) as [R _].
  assert (R' : 0 <= i < lenz rec) by (unfold lenz in *; lia).
  destruct (nthz_in_range _ _ R') as (c & E). rewrite (at_ok _ _ _ E). cbn [obind].
  assert (TC : column_type q i (type_of c)) by (apply TR; auto).
  assert (type_of c = t) by (eapply column_type_unique; eauto; exists ix; auto).
  unfold clone. rewrite H. replace (ctype_eqb t t) with true by (destruct t; auto). rewrite IH. cbn [obind].
  destruct (nthz_some _ _ _ E) as [_ E']. rewrite (nth_error_nth _ _ _ E'). auto.
Qed.

Lemma column_value q rec i t : schema_ok q -> record_typed q rec -> column_type q i t -> type_of (nth (Z.to_nat i) rec (CBool None)) = t.
Proof.
  intros SO (LR & TR) (ix & A & B). destruct (nthz_some _ _ _ A) as [R _].
  assert (R' : 0 <= i < lenz rec) by (unfold lenz in *; lia).
  destruct (nthz_in_range _ _ R') as (c & E). assert (TC := TR _ _ E). destruct (nthz_some _ _ _ E) as [_ E'].
  rewrite (nth_error_nth _ _ _ E'). eapply column_type_unique; eauto. exists ix; auto.
Qed.

Section Group.
Variables (L : lib) (q : request).
Variables (kts ots rts : list ctype) (o : opened).
Hypothesis SO : schema_ok q.
Hypothesis NO : q_ops q <> [].
Hypothesis EO : o = mkOpened (lenz (columns q)) kts ots true.
Hypothesis ER : q_result q = kts ++ rts.
Hypothesis FK : Forall2 (column_type q) (q_group q) kts.
Hypothesis FO : Forall2 (operator_typed q) (q_ops q) rts.
Hypothesis OT : Forall2 (column_type q) (map (fun o => op_column (lenz (columns q)) (snd o)) (q_ops q)) ots.
Hypothesis AF : add_funs (q_ops q) ots rts =
  Some (map (fun p => mkFun (op_of (fst (fst p))) (snd (fst p)) (snd p)) (combine (combine (q_ops q) ots) rts)).
Variable all : list (list cell).
Hypothesis TA : Forall (record_typed q) all.
Hypothesis KE : keys_encode L q all.
Hypothesis SF : sums_fit q all.

Definition tr := combine (combine (q_ops q) ots) rts.
Definition colz (x : oper * Z) : Z := op_column (lenz (columns q)) (snd x).
Definition aggs_ok (ms : list (list cell)) (cs : list cell) : Prop :=
  Forall2 (fun x c => aggregate_is L (op_of (fst (fst x))) (snd x) (values (colz (fst (fst x))) ms) c) tr cs.

Lemma len_ots : length (q_ops q) = length ots.
Proof. rewrite <- (F2_len _ _ _ OT), map_length. auto. Qed.
Lemma len_rts : length (q_ops q) = length rts.
Proof. exact (F2_len _ _ _ FO). Qed.

Lemma tr_typed : Forall (fun x => In (fst (fst x)) (q_ops q) /\ operator_typed q (fst (fst x)) (snd x) /\ column_type q (colz (fst (fst x))) (snd (fst x))) tr.
Proof.
  apply Forall_forall. intros [[x pt] rt] I. unfold tr in I. cbn [fst snd].
  apply In_nth_error in I. destruct I as (n & E).
  assert (G : forall A B C (a : list A) (b : list B) (c : list C) n x y z,
    nth_error (combine (combine a b) c) n = Some (x, y, z) -> nth_error a n = Some x /\ nth_error b n = Some y /\ nth_error c n = Some z).
  { clear. induction a as [|a0 a IH]; intros [|b0 b] [|c0 c] [|n] x y z H; simpl in H; try discriminate.
    - inversion H; subst; auto.
    - apply (IH b c n x y z H). }
  destruct (G _ _ _ _ _ _ _ _ _ _ E) as (E1 & E2 & E3). split; [eapply nth_error_In; eauto|split].
  - exact (F2_nth _ _ _ FO _ _ _ E1 E3).
  - refine (F2_nth _ _ _ OT n _ _ _ E2). rewrite nth_error_map, E1. auto.
Qed.

Lemma members_app recs rec g : members q (recs ++ [rec]) g =
  members q recs g ++ (if cells_dec (group_of q rec) g then [rec] else []).
Proof. unfold members. rewrite filter_app. simpl. destruct (cells_dec (group_of q rec) g); auto. Qed.

Lemma key_inj r1 r2 : In r1 all -> In r2 all -> key_of L q (group_of q r1) = key_of L q (group_of q r2) -> group_of q r1 = group_of q r2.
Proof.
  intros I1 I2 E. unfold key_of in E. destruct (q_group q) as [|i gs] eqn:EG.
  - unfold group_of. rewrite EG. auto.
  - rewrite <- EG in *. assert (NG : q_group q <> []) by congruence.
    destruct (KE NG r1 I1) as (k1 & A1 & B1). destruct (KE NG r2 I2) as (k2 & A2 & B2).
    rewrite A1, A2 in E. subst k2. congruence.
Qed.

Definition inv (m : smap bytes (list cell)) (recs : list (list cell)) : Prop :=
  sorted bcmp m /\
  (forall k cs, In (k, cs) m -> exists rec, In rec recs /\ k = key_of L q (group_of q rec) /\ aggs_ok (members q recs (group_of q rec)) cs) /\
  (forall rec, In rec recs -> exists cs, get bcmp m (key_of L q (group_of q rec)) = Some cs).

Lemma inv_nil : inv [] [].
Proof. split; [constructor|split; [intros k cs []|intros rec []]]. Qed.

Lemma val_ok pre rec post : all = pre ++ rec :: post -> forall x pt rt, In (x, pt, rt) tr ->
  value_ok (op_of x) pt rt (values (colz x) (members q pre (group_of q rec))) (nth (Z.to_nat (colz x)) rec (CBool None)).
Proof.
  intros EA x pt rt I. destruct (proj1 (Forall_forall _ _) tr_typed _ I) as (IO & T & C). cbn [fst snd] in *.
  assert (TR : record_typed q rec) by (rewrite Forall_forall in TA; apply TA; rewrite EA; apply in_or_app; right; left; auto).
  split; [eapply column_value; eauto|].
  assert (FT : forall op t, x = (op, snd x) -> op = OSum \/ op = OSum0 -> column_type q (snd x) t ->
     fits t (sum (ints (values (colz x) (members q pre (group_of q rec)) ++ [nth (Z.to_nat (colz x)) rec (CBool None)])))).
  { intros op t EX OP CT. assert (EC : colz x = snd x) by (apply (op_column_in q (snd x) t CT)). rewrite EC.
    assert (MA : members q all (group_of q rec) = members q pre (group_of q rec) ++ rec :: members q post (group_of q rec)).
    { rewrite EA. unfold members. rewrite filter_app. simpl. destruct (cells_dec (group_of q rec) (group_of q rec)); [auto|congruence]. }
    rewrite EX in IO.
    assert (X := SF op (snd x) t (group_of q rec)
       (length (ints (values (snd x) (members q pre (group_of q rec)) ++ [nth (Z.to_nat (snd x)) rec (CBool None)]))) IO OP CT).
    set (xs := values (snd x) (members q pre (group_of q rec)) ++ [nth (Z.to_nat (snd x)) rec (CBool None)]) in *.
    assert (MV : values (snd x) (members q all (group_of q rec)) = xs ++ values (snd x) (members q post (group_of q rec))).
    { unfold xs. rewrite MA. unfold values. rewrite map_app, <- app_assoc. auto. }
    rewrite MV, (ints_app xs) in X.
    rewrite firstn_app, Nat.sub_diag, firstn_O, app_nil_r, firstn_all in X. exact X. }
  destruct x as [op i]. unfold operator_typed in T. cbn [fst snd] in *. unfold op_of.
  assert (CU : forall t, column_type q i t -> colz (op, i) = i -> pt = t).
  { intros t CT E. rewrite E in C. eapply column_type_unique; eauto. }
  destruct op.
  - destruct T as [T NS]. rewrite (CU rt T (proj1 (op_column_in q i rt T))). split; [auto|split; [auto|]]. eapply FT; eauto.
  - destruct T as [T NS]. rewrite (CU rt T (proj1 (op_column_in q i rt T))). split; [auto|split; [auto|]]. eapply FT; eauto.
  - destruct T as [T _]. destruct (i =? -1); auto.
  - auto.
  - apply (CU rt T (proj1 (op_column_in q i rt T))).
  - apply (CU rt T (proj1 (op_column_in q i rt T))).
Qed.

Lemma starts_ok : aggs_ok [] (map (fun ot => start_cell L (fst (fst ot)) (snd ot)) (combine (q_ops q) (agg_result_types q))).
Proof.
  rewrite (agg_types q kts rts ER (eq_sym len_rts)), (combine_triple (q_ops q) ots rts len_ots len_rts), map_map.
  unfold aggs_ok. assert (T := tr_typed). fold tr. induction tr as [|x l IH]; [constructor|].
  inversion T as [|? ? X T']; subst. cbn [map]. constructor; [|auto].
  destruct x as [[x pt] rt]. cbn [fst snd] in *. destruct X as (_ & X & _). apply start_is.
  destruct x as [op i]. unfold operator_typed in X. cbn [fst snd] in X. unfold op_of. destruct op; auto.
  - destruct X; auto.
  - destruct X as [X _]. destruct (i =? -1); auto.
Qed.

Lemma record_step pre rec post g : all = pre ++ rec :: post -> inv (match g with Some m => m | None => [] end) pre ->
  exists m', aggregate_record L q o g rec = Ok (Some (Some m')) /\ inv m' (pre ++ [rec]).
Proof.
  intros EA IV. set (m := match g with Some m => m | None => [] end) in *.
  assert (IR : In rec all) by (rewrite EA; apply in_or_app; right; left; auto).
  assert (TR : record_typed q rec) by (rewrite Forall_forall in TA; auto).
  unfold aggregate_record. rewrite EO. cbn [o_key_types o_nsel o_op_types].
  rewrite (pick_columns_ok q SO rec TR _ _ FK). cbn [obind].
  rewrite (pick_columns_ok q SO rec TR _ _ OT). cbn [obind].
  fold (group_of q rec).
  assert (EK : (if is_nil kts then Some [] else l_enc_key L (group_of q rec)) = Some (key_of L q (group_of q rec))).
  { unfold key_of. destruct kts as [|t ts]; cbn [is_nil]; [inversion FK; auto|].
    destruct (q_group q) as [|i gs] eqn:EG; [inversion FK|].
    destruct (KE ltac:(congruence) rec IR) as (k & A & _). rewrite A. auto. }
  rewrite EK, (agg_types q kts rts ER (eq_sym len_rts)), AF. fold m. fold tr.
  destruct IV as (SM & I1 & I2). set (k := key_of L q (group_of q rec)) in *.
  assert (PS : map (fun i => nth (Z.to_nat i) rec (CBool None)) (map (fun x => op_column (lenz (columns q)) (snd x)) (q_ops q)) =
    map (fun x => nth (Z.to_nat (colz (fst (fst x)))) rec (CBool None)) tr).
  { rewrite map_map. symmetry. apply (map_triple (fun x => nth (Z.to_nat (colz x)) rec (CBool None)) _ _ _ len_ots len_rts). }
  rewrite PS.
  assert (RUN : forall rs, aggs_ok (members q pre (group_of q rec)) rs ->
    exists rs', apply_funs L (map (fun p => mkFun (op_of (fst (fst p))) (snd (fst p)) (snd p)) tr)
      (map (fun x => nth (Z.to_nat (colz (fst (fst x)))) rec (CBool None)) tr) rs = Ok (Some rs') /\
      aggs_ok (members q pre (group_of q rec) ++ [rec]) rs').
  { intros rs AO.
    destruct (apply_funs_ok L (fun x => nth (Z.to_nat (colz x)) rec (CBool None)) (fun x => values (colz x) (members q pre (group_of q rec))) tr rs) as (rs' & E & B).
    - intros x pt rt I. apply (val_ok pre rec post EA x pt rt I).
    - exact AO.
    - exists rs'. split; [exact E|]. unfold aggs_ok, values. refine (F2_imp _ _ _ _ _ B). intros x c. rewrite map_app. auto. }
  assert (FIN : forall rs', aggs_ok (members q pre (group_of q rec) ++ [rec]) rs' -> inv (put bcmp m k rs') (pre ++ [rec])).
  { intros rs' AO. split; [apply (sorted_put bcmp bcmp_ok); auto|split].
    - intros k' cs I. apply (In_put bcmp bcmp_ok) in I; [|auto]. destruct I as [E|[I NK]].
      + assert (k' = k) by congruence. assert (cs = rs') by congruence. subst. exists rec. split; [apply in_or_app; right; left; auto|].
        split; [auto|]. rewrite members_app. destruct (cells_dec (group_of q rec) (group_of q rec)); [auto|congruence].
      + destruct (I1 k' cs I) as (r & A & B & C). exists r. split; [apply in_or_app; auto|split; [auto|]].
        rewrite members_app. destruct (cells_dec (group_of q rec) (group_of q r)) as [Q|Q].
        * exfalso. apply NK. cbn [fst]. rewrite B, <- Q. auto.
        * rewrite app_nil_r. auto.
    - intros r I. destruct (cells_dec (group_of q rec) (group_of q r)) as [Q|Q].
      + rewrite <- Q. exists rs'. apply (get_put_same bcmp bcmp_ok).
      + apply in_app_or in I. destruct I as [I|[<-|[]]]; [|congruence]. destruct (I2 r I) as (cs & E). exists cs.
        rewrite (get_put_other bcmp bcmp_ok); [auto|]. intros X. apply Q. apply key_inj; auto. rewrite EA. apply in_or_app; auto. }
  unfold manager_execute.
  destruct (get bcmp m k) as [rs|] eqn:EG.
  - assert (AO : aggs_ok (members q pre (group_of q rec)) rs).
    { apply (get_iff bcmp bcmp_ok) in EG; [|auto]. destruct (I1 k rs EG) as (r & A & B & C).
      assert (Q : group_of q rec = group_of q r) by (apply key_inj; auto; rewrite EA; apply in_or_app; auto). rewrite Q. auto. }
    destruct (RUN rs AO) as (rs' & E & B). rewrite E. cbn [obind]. eexists. split; [reflexivity|]. apply FIN; auto.
  - assert (MN : members q pre (group_of q rec) = []).
    { unfold members. assert (F : forall r, In r pre -> group_of q r <> group_of q rec).
      { intros r I Q. destruct (I2 r I) as (cs & E). rewrite Q in E. fold k in E. congruence. }
      clear -F. induction pre as [|r l IH]; simpl; auto. destruct (cells_dec (group_of q r) (group_of q rec)) as [Q|Q].
      - exfalso. apply (F r); [left; auto|auto].
      - apply IH. intros r' I. apply F. right. auto. }
    destruct (q_ops q) as [|op0 ops0] eqn:EOP; [congruence|]. cbn [is_nil]. rewrite <- EOP in *.
    assert (ST := starts_ok). rewrite (agg_types q kts rts ER (eq_sym len_rts)) in ST. rewrite <- MN in ST.
    rewrite ?(agg_types q kts rts ER (eq_sym len_rts)).
    destruct (RUN _ ST) as (rs' & E & B). rewrite E. cbn [obind]. eexists. split; [reflexivity|]. apply FIN; auto.
Qed.

Lemma group_rows ko mc mb : forall rows recs pre post g cnt sz acc, rows_decode L q rows recs ->
  all = pre ++ kept L q recs ++ post -> inv (match g with Some m => m | None => [] end) pre ->
  exists g', row_loop L q o ko mc mb rows cnt sz acc g = Ok (Some (acc, [], g', false)) /\
    inv (match g' with Some m => m | None => [] end) (pre ++ kept L q recs) /\
    (g' = None -> kept L q recs = []) /\ (rows = [] -> g' = g).
Proof.
  induction rows as [|kv rows IH]; intros recs pre post g cnt sz acc RD EA IV.
  - assert (recs = []) by (destruct RD as (A & _); inversion A; auto). subst recs. exists g. cbn [row_loop].
    replace (kept L q []) with (@nil (list cell)) by (unfold kept; destruct (q_filter q); auto). rewrite app_nil_r. auto.
  - destruct recs as [|rec recs]; [destruct RD as (A & _); inversion A|].
    destruct (rows_decode_cons _ _ _ _ _ _ RD) as (D & TR & K & RD').
    cbn [row_loop]. unfold do_row at 1. rewrite D. rewrite kept_cons in EA |- *.
    assert (KB : exists b, (if q_filter q then l_keep L rec else Some true) = Some b /\
       (if q_filter q then match l_keep L rec with Some b => b | None => false end else true) = b).
    { destruct (q_filter q); [|eauto]. destruct (l_keep L rec) as [b|]; [eauto|]. exfalso. apply K; auto. }
    destruct KB as (b & E1 & E2). rewrite E1. rewrite E2 in EA |- *. destruct b.
    + replace (o_grouping o) with true by (rewrite EO; auto).
      destruct (record_step pre rec (kept L q recs ++ post) g) as (m' & E & IV'); auto.
      rewrite E. cbn [obind].
      destruct (IH recs (pre ++ [rec]) post (Some m') cnt sz acc RD') as (g' & F & G & H & _).
      * rewrite EA. rewrite <- !app_assoc. auto.
      * exact IV'.
      * exists g'. split; [exact F|split; [|split]].
        -- rewrite <- app_assoc in G. exact G.
        -- intros X. exfalso. subst g'. destruct G as (_ & _ & G). destruct (G rec) as (cs & Q); [apply in_or_app; left; apply in_or_app; right; left; auto|].
           discriminate Q.
        -- discriminate.
    + cbn [obind app]. destruct (IH recs pre post g cnt sz acc RD' EA IV) as (g' & A & B & C & _). exists g'. split; [auto|split; [auto|split; [auto|discriminate]]].
Qed.

Lemma agg_type op t cs c : aggregate_is L op t cs c -> (match op with OCount | OCountNull => t = TyLong | _ => True end) -> type_of c = t.
Proof.
  destruct op; simpl; intros H T; subst; auto.
  - destruct H as [[_ ->]|[_ H]]; [destruct t; auto|]. destruct t; subst; auto; [destruct H as (x & r & _ & ->); auto|contradiction].
  - destruct t; subst; auto. contradiction.
  - destruct H as [[_ ->]|[_ H]]; [destruct t; auto|]. destruct t; simpl in H; destruct H as (x & H); try (destruct H as [-> _]; auto).
    destruct H as (r & _ & ->). auto.
  - destruct H as [[_ ->]|[_ H]]; [destruct t; auto|]. destruct t; simpl in H; destruct H as (x & H); try (destruct H as [-> _]; auto).
    destruct H as (r & _ & ->). auto.
Qed.

Lemma clone_all_ok cs : forall ts, map type_of cs = ts -> clone_all cs ts = Ok (Some cs).
Proof.
  induction cs as [|c cs IH]; intros [|t ts] E; simpl in E; try discriminate; auto.
  inversion E; subst. cbn [clone_all]. unfold clone. replace (ctype_eqb (type_of c) (type_of c)) with true by (destruct (type_of c); auto).
  rewrite (IH _ eq_refl). auto.
Qed.

Lemma aggs_types ms cs : aggs_ok ms cs -> map type_of cs = rts.
Proof.
  unfold aggs_ok. intros F.
  assert (X : map type_of cs = map snd tr).
  { assert (T := tr_typed). induction F as [|[[x pt] rt] c l cs A F IH]; auto. inversion T as [|? ? X T']; subst. cbn [map fst snd] in *.
    f_equal; [|auto]. refine (agg_type _ _ _ _ A _). destruct X as (_ & X & _). destruct x as [op i]. unfold operator_typed in X. cbn [fst snd] in X.
    unfold op_of. destruct op; auto. destruct X as [X _]. destruct (i =? -1); auto. }
  rewrite X. unfold tr. assert (L1 := len_ots). assert (L2 := len_rts). clear -L1 L2.
  revert ots rts L1 L2. induction (q_ops q) as [|x l IH]; intros [|a b] [|c d] L1 L2; simpl in *; try discriminate; auto. f_equal. apply IH; lia.
Qed.

Hypothesis EN : encodes L.

Lemma group_row_ok rec cs : In rec all -> aggs_ok (members q all (group_of q rec)) cs ->
  group_row L q o (key_of L q (group_of q rec)) cs = Ok (Some (enc1 L (group_of q rec ++ cs))).
Proof.
  intros I AO. unfold group_row. replace (o_key_types o) with kts by (rewrite EO; auto).
  assert (EK : (if is_nil kts then Some [] else l_dec_key L (key_of L q (group_of q rec))) = Some (group_of q rec)).
  { destruct kts as [|t ts]; cbn [is_nil].
    - inversion FK as [E|]. unfold group_of. rewrite <- E. auto.
    - destruct (KE) with (rec := rec) as (k & A & B); auto.
      + intros E. rewrite E in FK. inversion FK.
      + unfold key_of. destruct (q_group q) eqn:E; [inversion FK|]. rewrite A. auto. }
  rewrite EK. rewrite clone_all_ok.
  - cbn [obind]. rewrite (enc1_ok L _ EN) at 1. destruct (enc1 L (group_of q rec ++ cs)); auto.
  - rewrite map_app, (aggs_types _ _ AO), ER. f_equal.
    assert (TR : record_typed q rec) by (rewrite Forall_forall in TA; auto).
    unfold group_of. clear -FK TR SO. induction FK as [|i t l ts T F IH]; auto. cbn [map]. f_equal; auto. eapply column_value; eauto.
Qed.

Lemma grouped_rows m : inv m all ->
  exists outs, Forall2 (fun e out => group_row L q o (fst e) (snd e) = Ok (Some out)) m outs /\ grouped L q all outs.
Proof.
  intros (SM & I1 & I2).
  assert (EX : exists gs, Forall2 (fun e g => (exists rec, In rec all /\ group_of q rec = g) /\ fst e = key_of L q g /\ aggs_ok (members q all g) (snd e)) m gs).
  { clear -I1. induction m as [|[k cs] m IH]; [exists []; constructor|].
    destruct IH as (gs & F); [intros k' cs' I; apply I1; right; auto|].
    destruct (I1 k cs (or_introl eq_refl)) as (rec & A & B & C). exists (group_of q rec :: gs). constructor; auto. cbn [fst snd]. eauto. }
  destruct EX as (gs & F).
  exists (map (fun gc => enc1 L (fst gc ++ snd gc)) (combine gs (map snd m))). split.
  - clear -F TA KE SF FK FO OT ER EN EO SO. induction F as [|[k cs] g m gs ((rec & I & G) & A & B) F IH]; cbn [combine map]; constructor; auto.
    cbn [fst snd] in *. subst k g. apply group_row_ok; auto.
  - exists gs, (map snd m). split; [|split; [|split]].
    + clear -F SM. induction F as [|[k cs] g m gs (_ & A & _) F IH]; constructor.
      * apply IH. inversion SM; auto.
      * inversion SM as [|? ? _ FA]; subst. rewrite Forall_forall in *. intros g' I.
        assert (Y : exists e, In e m /\ fst e = key_of L q g').
        { clear -F I. induction F as [|e g m gs (_ & A & _) F IH]; [destruct I|]. destruct I as [<-|I].
          - exists e. split; [left|]; auto.
          - destruct (IH I) as (e' & J & K). exists e'. split; [right|]; auto. }
        destruct Y as (e & Ie & Ee). assert (Z := FA e Ie). unfold klt in Z. cbn [fst] in *. unfold blt. rewrite <- A, <- Ee. exact Z.
    + intros g. split.
      * intros I. clear -F I. induction F as [|e g0 m gs (X & _) F IH]; [destruct I|]. destruct I as [<-|I]; auto.
      * intros (rec & I & <-). destruct (I2 rec I) as (cs & E). apply (get_iff bcmp bcmp_ok) in E; [|auto].
        destruct (F2_in_l _ _ _ F _ E) as (g & J & (r & Ir & Gr) & A & _). cbn [fst] in A. subst g.
        rewrite (key_inj rec r I Ir A). auto.
    + assert (Q : forall e g, (exists rec, In rec all /\ group_of q rec = g) /\ fst e = key_of L q g /\ aggs_ok (members q all g) (snd e) ->
        length (snd e) = length (q_ops q) /\ forall j x c, nth_error (q_ops q) j = Some x -> nth_error (snd e) j = Some c ->
        exists rt, operator_typed q x rt /\ aggregate_is L (op_of x) rt (values (snd x) (members q all g)) c).
      { intros e g (_ & _ & AO). unfold aggs_ok in AO. split.
        - rewrite <- (F2_len _ _ _ AO). unfold tr. rewrite !combine_length, <- len_ots, <- len_rts. lia.
        - intros j x c E1 E2.
          assert (JT : exists pt rt, nth_error tr j = Some (x, pt, rt)).
          { unfold tr. assert (L1 := len_ots). assert (L2 := len_rts). clear -E1 L1 L2. revert ots rts j E1 L1 L2.
            induction (q_ops q) as [|y l IH]; intros [|a b] [|c d] [|j] E1 L1 L2; simpl in *; try discriminate.
            - inversion E1; subst. eauto.
            - apply IH; auto. }
          destruct JT as (pt & rt & JT). assert (A := F2_nth _ _ _ AO _ _ _ JT E2). cbn [fst snd] in A.
          destruct (proj1 (Forall_forall _ _) tr_typed _ (nth_error_In _ _ JT)) as (_ & T & C). cbn [fst snd] in *.
          exists rt. split; [auto|].
          assert (EC : (exists t, column_type q (snd x) t) -> colz x = snd x) by (intros (t & CT); apply (op_column_in q _ t CT)).
          destruct x as [op i]. unfold operator_typed in T. cbn [fst snd] in *.
          assert (LV : forall i' ms, length (values i' ms) = length ms) by (intros; unfold values; apply map_length).
          unfold op_of in *. destruct op.
          + rewrite EC in A; [auto|]. destruct T; eauto.
          + rewrite EC in A; [auto|]. destruct T; eauto.
          + destruct (i =? -1) eqn:EI.
            * cbn [aggregate_is] in *. rewrite LV in *. auto.
            * apply Z.eqb_neq in EI. rewrite EC in A; [auto|]. destruct T as (_ & [T|T]); [congruence|auto].
          + cbn [aggregate_is] in *. rewrite LV in *. auto.
          + rewrite EC in A; eauto.
          + rewrite EC in A; eauto. }
      clear -F Q. induction F as [|e g m gs X F IH]; cbn [map]; constructor; auto.
    + clear -EN. generalize (combine gs (map snd m)). induction l as [|gc l IH]; cbn [map]; constructor; auto. apply enc1_ok; auto.
Qed.

Lemma group_later ko m : forall lims it os,
  Forall2 (fun e out => group_row L q o (fst e) (snd e) = Ok (Some out)) it os ->
  exists ps st, pages1 L q o ko lims (mkVst [] (Some m) (Some it)) = Ok (Some (ps, st)) /\ paged lims (map (shown_row ko) os) ps.
Proof.
  induction lims as [|[mc mb] lims IH]; intros it os F.
  - eexists. eexists. split; [reflexivity|constructor].
  - cbn [pages1]. unfold page1. cbn [v_rows v_groups v_iter row_loop obind]. replace (o_grouping o) with true by (rewrite EO; auto).
    destruct (group_loop_spec L q o ko mc mb it os 0 0 [] ltac:(lia) F) as (n & A & B & C & D). rewrite D. cbn [obind app].
    assert (F' : Forall2 (fun e out => group_row L q o (fst e) (snd e) = Ok (Some out)) (skipn n it) (skipn n os)).
    { clear -F. revert n. induction F as [|e out it os X F IH]; intros [|n]; cbn [skipn]; auto. }
    destruct (IH _ _ F') as (ps & st & G & H). rewrite G. cbn [obind].
    exists (firstn n (map (shown_row ko) os) :: ps), st. split; [rewrite firstn_map; auto|].
    constructor; [lia| |rewrite map_length; auto|rewrite skipn_map; auto].
    intros X. apply C. intros Y. rewrite Y in X. auto.
Qed.

Lemma group_pages ko lims rows recs : rows_decode L q rows recs -> all = kept L q recs ->
  exists outs ps st, pages1 L q o ko lims (mkVst rows None None) = Ok (Some (ps, st)) /\ grouped L q all outs /\
    paged lims (map (shown_row ko) outs) ps.
Proof.
  intros RD EA.
  destruct lims as [|[mc mb] lims].
  { destruct (group_rows ko 0 0 rows recs [] [] None 0 0 [] RD) as (g' & A & B & C & _); [rewrite app_nil_r; auto|apply inv_nil|].
    rewrite app_nil_l, <- EA in B. destruct (grouped_rows _ B) as (outs & _ & G). exists outs. eexists. eexists. split; [reflexivity|]. split; [auto|constructor]. }
  destruct (group_rows ko mc mb rows recs [] [] None 0 0 [] RD) as (g' & A & B & C & _); [rewrite app_nil_r; auto|apply inv_nil|].
  rewrite app_nil_l, <- EA in B. destruct (grouped_rows _ B) as (outs & F & G).
  cbn [pages1]. unfold page1. cbn [v_rows v_groups v_iter]. rewrite A. cbn [obind].
  replace (o_grouping o) with true by (rewrite EO; auto). destruct g' as [m|].
  - destruct (group_loop_spec L q o ko mc mb m outs 0 0 [] ltac:(lia) F) as (n & P1 & P2 & P3 & P4). rewrite P4. cbn [obind app].
    assert (F' : Forall2 (fun e out => group_row L q o (fst e) (snd e) = Ok (Some out)) (skipn n m) (skipn n outs)).
    { clear -F. revert n. induction F as [|e out it os X F IH]; intros [|n]; cbn [skipn]; auto. }
    destruct (group_later ko m lims _ _ F') as (ps & st & Q1 & Q2). rewrite Q1. cbn [obind].
    exists outs, (firstn n (map (shown_row ko) outs) :: ps), st. split; [rewrite firstn_map; auto|split; [auto|]].
    constructor; [lia| |rewrite map_length; auto|rewrite skipn_map; auto].
    intros X. apply P3. intros Y. rewrite Y in X. auto.
  - cbn [obind]. assert (outs = []) by (inversion F; auto). subst outs.
    assert (LP : forall lims', exists ps st, pages1 L q o ko lims' (mkVst [] None None) = Ok (Some (ps, st)) /\ paged lims' [] ps).
    { induction lims' as [|[c b] l IH]; [eexists; eexists; split; [reflexivity|constructor]|].
      cbn [pages1]. unfold page1. cbn [v_rows v_groups v_iter row_loop obind]. replace (o_grouping o) with true by (rewrite EO; auto). cbn [obind].
      destruct IH as (ps & st & X & Y). rewrite X. cbn [obind]. exists ([] :: ps), st. split; [auto|].
      change (@nil row) with (firstn 0 (@nil row)) at 2. constructor; [lia|congruence|simpl; lia|auto]. }
    destruct (LP lims) as (ps & st & X & Y). rewrite X. cbn [obind]. exists [], ([] :: ps), st. split; [auto|split; [auto|]].
    change (@nil row) with (firstn 0 (@nil row)) at 2. constructor; [lia|congruence|simpl; lia|auto].
Qed.
End Group.

Lemma C89_core L q rows recs ko lims : grouping_request q -> encodes L -> rows_decode L q rows recs ->
  keys_encode L q (kept L q recs) -> sums_fit q (kept L q recs) ->
  exists outs ps, session1 L q ko lims rows = Ok (Pages ps) /\ grouped L q (kept L q recs) outs /\
    delivers lims (map (shown_row ko) outs) ps.
Proof.
  intros GR EN RD KE SF. destruct (grouping_opens q GR) as (kts & ots & rts & A & B & C & D & E & F).
  destruct GR as (SO & NE & NO & _).
  assert (TA : Forall (record_typed q) (kept L q recs)).
  { destruct RD as (_ & T & _). rewrite Forall_forall in *. intros r I. apply T. unfold kept in I. destruct (q_filter q); auto. apply filter_In in I. tauto. }
  destruct (group_pages L q kts ots rts _ SO NO eq_refl B C D E F (kept L q recs) TA KE SF EN ko lims rows recs RD eq_refl) as (outs & ps & st & P & G & H).
  exists outs, ps. unfold session1. rewrite A. cbn [obind]. rewrite P. cbn [obind]. split; [auto|split; [auto|]]. apply paged_delivers; auto.
Qed.

Lemma C91_select_core L q rows recs ko lims : selection_request q -> encodes L -> rows_decode L q rows recs ->
  exists outs ps, session1 L q ko lims rows = Ok (Pages ps) /\
    Forall2 (fun rec kv => l_encode L rec = Enc (fst kv) (snd kv)) (kept L q recs) outs /\
    delivers lims (map (shown_row ko) outs) ps.
Proof.
  intros SR EN RD. destruct (selection_opens q SR) as (o & A & B).
  destruct (select_pages L q o ko B EN lims rows recs None RD) as (ps & st & P & G).
  exists (map (enc1 L) (kept L q recs)), ps. unfold session1. rewrite A. cbn [obind]. rewrite P. cbn [obind].
  split; [auto|split; [|apply paged_delivers; auto]]. generalize (kept L q recs).
  induction l as [|r l IH]; cbn [map]; constructor; auto. apply enc1_ok; auto.
Qed.
