(** Proofs for the raw API, part 1: what a peer that applied a list of commands reads. *)
From Coq Require Import ZArith List Lia Bool PeanoNat Sorted.
From Verif Require Import Bytes SMap Outcome CodecModel CodecSpec CodecProofs CodecProofs2
  MvccModel MvccSpec MvccProofs RawModel RawSpec.
Import ListNotations.
Open Scope Z_scope.

(** ** effect of a command on the abstract map *)
Definition ival (i : item) : option (bytes * option Z) :=
  match i_flag i with
  | kPut => Some (i_val i, None)
  | kPutTTL => Some (i_val i, Some (i_ttl i))
  | kDelete => None
  end.
Definition eff (c : cmd) (m : amap) : amap :=
  match c with
  | CWrite _ items => fold_left (fun m i => aset m (i_key i) (ival i)) items m
  | CDelRange r => if bltb (fst r) (snd r) then fun k => if bleb (fst r) k && bltb k (snd r) then None else m k
                   else m
  end.
Definition alog (cs : list cmd) : amap := fold_left (fun m c => eff c m) cs aempty.

Lemma alog_snoc cs c : alog (cs ++ [c]) = eff c (alog cs).
Proof. unfold alog. rewrite fold_left_app. auto. Qed.
Lemma apply_cmds_snoc cs c : apply_cmds (cs ++ [c]) = apply_cmd c (apply_cmds cs).
Proof. unfold apply_cmds. rewrite fold_left_app. auto. Qed.

Definition meq (a b : amap) : Prop := forall k, a k = b k.
Lemma aset_same m k x : aset m k x k = x.
Proof. unfold aset. rewrite beqb_refl. auto. Qed.
Lemma aset_other m k x k' : k' <> k -> aset m k x k' = m k'.
Proof. unfold aset. intros H. apply beqb_false in H. rewrite H. auto. Qed.

(** ** versions *)
Definition ver (ts : Z) (i : item) : version :=
  {| vkey := i_key i; vts := ts; vflag := i_flag i; vttl := i_ttl i; vval := i_val i |}.
Definition aval (v : version) : option (bytes * option Z) :=
  match vflag v with
  | kPut => Some (vval v, None)
  | kPutTTL => Some (vval v, Some (vttl v))
  | kDelete => None
  end.
Definition latest (vs : list version) (k : bytes) (v : version) : Prop :=
  In v vs /\ vkey v = k /\ forall v', In v' vs -> vkey v' = k -> vts v' <= vts v.
Definition abs (vs : list version) (m : amap) : Prop :=
  forall k, (forall v, latest vs k v -> m k = aval v) /\ ((forall v, In v vs -> vkey v <> k) -> m k = None).

Fixpoint vput (v : version) (vs : list version) : list version :=
  match vs with
  | [] => [v]
  | w :: r => match version_order (vkey v) (vts v) (vkey w) (vts w) with
              | Lt => v :: w :: r
              | Eq => v :: r
              | Gt => w :: vput v r
              end
  end.

Lemma put_vput v vs : version_ok v -> Forall version_ok vs ->
  put bcmp (map enc vs) (fst (enc v)) (snd (enc v)) = map enc (vput v vs).
Proof.
  intros V F. induction F as [|w r W F IH]; cbn [map vput put].
  - rewrite <- surjective_pairing. auto.
  - destruct (enc w) as [kw xw] eqn:E. cbn [put].
    assert (X: bcmp (fst (enc v)) kw = version_order (vkey v) (vts v) (vkey w) (vts w)).
    { rewrite <- enc_cmp by auto. rewrite E. auto. }
    rewrite X. destruct (version_order _ _ _ _); cbn [map]; rewrite ?IH, ?E, <- ?surjective_pairing; auto.
Qed.

Lemma vput_ok v vs : version_ok v -> Forall version_ok vs -> Forall version_ok (vput v vs).
Proof.
  intros V F. induction F; cbn [vput]; auto. destruct (version_order _ _ _ _); auto.
Qed.

Lemma version_order_eq a b : version_order (vkey a) (vts a) (vkey b) (vts b) = Eq <-> vkey a = vkey b /\ vts a = vts b.
Proof.
  unfold version_order. destruct (bcmp (vkey a) (vkey b)) eqn:E.
  - apply bcmp_eq in E. rewrite Z.compare_eq_iff. intuition.
  - split; try discriminate. intros [H _]. rewrite H, bcmp_refl in E. discriminate.
  - split; try discriminate. intros [H _]. rewrite H, bcmp_refl in E. discriminate.
Qed.

Lemma version_order_opp a b : version_order (vkey b) (vts b) (vkey a) (vts a) =
  CompOpp (version_order (vkey a) (vts a) (vkey b) (vts b)).
Proof.
  unfold version_order. rewrite (bcmp_opp (vkey a) (vkey b)).
  destruct (bcmp (vkey a) (vkey b)); simpl; auto. rewrite Z.compare_antisym. auto.
Qed.

Lemma vlt_trans a b c : vlt a b -> vlt b c -> vlt a c.
Proof.
  unfold vlt, version_order. intros H1 H2.
  destruct (bcmp (vkey a) (vkey b)) eqn:E1; try discriminate; destruct (bcmp (vkey b) (vkey c)) eqn:E2; try discriminate.
  - apply bcmp_eq in E1. apply bcmp_eq in E2. rewrite E1, E2, bcmp_refl. rewrite Z.compare_lt_iff in *. lia.
  - apply bcmp_eq in E1. rewrite E1, E2. auto.
  - apply bcmp_eq in E2. rewrite <- E2, E1. auto.
  - rewrite (bcmp_trans _ _ _ E1 E2). auto.
Qed.

Lemma vlt_irrefl a : ~ vlt a a.
Proof. unfold vlt, version_order. rewrite bcmp_refl, Z.compare_refl. discriminate. Qed.

Lemma vput_In v vs w : vsorted vs ->
  (In w (vput v vs) <-> w = v \/ (In w vs /\ ~ (vkey w = vkey v /\ vts w = vts v))).
Proof.
  intros S. induction S as [|x r S IH F]; cbn [vput].
  - simpl. intuition.
  - rewrite Forall_forall in F.
    destruct (version_order (vkey v) (vts v) (vkey x) (vts x)) eqn:E.
    + apply version_order_eq in E. destruct E as [E1 E2]. cbn [In]. split.
      * intros [<-|I]; auto. right. split; auto. intros [K T].
        apply (vlt_irrefl x). specialize (F w I). unfold vlt in *. rewrite K, T, E1, E2 in F. auto.
      * intros [->|[[<-|I] N]]; auto. exfalso. apply N. auto.
    + cbn [In]. split.
      * intros [<-|[<-|I]]; auto.
        { right. split; auto. intros [K T]. rewrite K, T in E. apply (vlt_irrefl v). unfold vlt. auto. }
        right. split; auto. intros [K T]. apply (vlt_irrefl v). apply (vlt_trans v x v).
        { unfold vlt; auto. } specialize (F w I). unfold vlt in *. rewrite <- K, <- T. auto.
      * intros [->|[[<-|I] N]]; auto.
    + cbn [In]. rewrite IH. split.
      * intros [<-|[->|[I N]]]; auto. right. split; auto. intros [K T]. rewrite K, T in E.
        unfold version_order in E. rewrite bcmp_refl, Z.compare_refl in E. discriminate.
      * intros [->|[[<-|I] N]]; auto.
Qed.

Lemma vput_sorted v vs : vsorted vs -> vsorted (vput v vs).
Proof.
  intros S. induction S as [|x r S IH F]; cbn [vput].
  - constructor; constructor.
  - destruct (version_order (vkey v) (vts v) (vkey x) (vts x)) eqn:E.
    + apply version_order_eq in E. destruct E as [E1 E2]. constructor; auto.
      eapply Forall_impl; [|exact F]. unfold vlt. cbv beta. intros a. rewrite E1, E2. auto.
    + constructor; [constructor; auto|]. constructor; [exact E|].
      eapply Forall_impl; [|exact F]. intros a A. eapply vlt_trans; eauto.
    + constructor; auto. apply Forall_forall. intros w W. apply vput_In in W; auto.
      rewrite Forall_forall in F. destruct W as [->|[I _]]; auto.
      unfold vlt. rewrite version_order_opp, E. auto.
Qed.

Lemma latest_exists vs k : (exists v, In v vs /\ vkey v = k) -> exists v, latest vs k v.
Proof.
  induction vs as [|x r IH]; intros (v & I & K); [destruct I|].
  destruct (existsb (fun w => beqb (vkey w) k) r) eqn:E.
  - apply existsb_exists in E. destruct E as (w & Iw & Kw). apply beqb_true in Kw.
    destruct (IH (ex_intro _ w (conj Iw Kw))) as (u & U1 & U2 & U3).
    destruct (bytes_eq_dec (vkey x) k) as [Kx|Kx].
    + destruct (Z.le_gt_cases (vts x) (vts u)).
      * exists u. split; [right; auto|]. split; auto. intros v' [<-|I'] K'; auto.
      * exists x. split; [left; auto|]. split; auto. intros v' [<-|I'] K'; [lia|]. specialize (U3 v' I' K'). lia.
    + exists u. split; [right; auto|]. split; auto. intros v' [<-|I'] K'; [congruence|auto].
  - assert (N: forall w, In w r -> vkey w <> k).
    { intros w W K'. assert (X: existsb (fun w => beqb (vkey w) k) r = true).
      { apply existsb_exists. exists w. split; auto. apply beqb_true. auto. } congruence. }
    destruct I as [<-|I]; [|exfalso; eapply N; eauto].
    exists x. split; [left; auto|]. split; auto. intros v' [<-|I'] K'; [lia|]. exfalso. eapply N; eauto.
Qed.

(** writing a version at least as new as all of its key *)
Lemma abs_put vs m v : vsorted vs -> abs vs m -> (forall w, In w vs -> vkey w = vkey v -> vts w <= vts v) ->
  abs (vput v vs) (aset m (vkey v) (aval v)).
Proof.
  intros S A N k. destruct (bytes_eq_dec k (vkey v)) as [->|Hk].
  - rewrite aset_same. split.
    + intros w (I & K & L). apply vput_In in I; auto. destruct I as [->|[I D]]; auto.
      exfalso. apply D. split; auto. assert (vts v <= vts w) by (apply L; auto; apply vput_In; auto).
      specialize (N w I K). lia.
    + intros H. exfalso. apply (H v); auto. apply vput_In; auto.
  - rewrite aset_other by auto. destruct (A k) as [A1 A2]. split.
    + intros w (I & K & L). apply A1. apply vput_In in I; auto. destruct I as [->|[I D]]; [congruence|].
      split; auto. split; auto. intros u U KU. apply L; auto. apply vput_In; auto. right. split; auto.
      intros [X _]. congruence.
    + intros H. apply A2. intros w I K. apply (H w); auto. apply vput_In; auto. right. split; auto.
      intros [X _]. congruence.
Qed.

Definition item_ok (i : item) : Prop :=
  bytes_ok (i_key i) /\ 0 <= i_ttl i < 2 ^ 63 /\ (i_flag i = kPutTTL -> i_val i <> []).
Definition cmd_ok (c : cmd) : Prop :=
  match c with
  | CWrite ts items => ts_ok ts /\ Forall item_ok items
  | CDelRange r => bytes_ok (fst r) /\ bytes_ok (snd r)
  end.

(** two writes to the same key have increasing timestamps *)
Definition key_of (c : cmd) (k : bytes) : Prop :=
  match c with CWrite _ items => In k (map i_key items) | CDelRange _ => False end.
Definition ordered (cs : list cmd) : Prop :=
  forall i j c d k, nth_error cs i = Some c -> nth_error cs j = Some d -> (i < j)%nat ->
    key_of c k -> key_of d k -> cmd_ts c < cmd_ts d.

Lemma ver_ok ts i : ts_ok ts -> item_ok i -> version_ok (ver ts i).
Proof. intros T (A & B & C). split; auto. Qed.

Lemma put_item_enc ts i st vs : ts_ok ts -> item_ok i -> st = map enc vs -> Forall version_ok vs ->
  put_item ts st i = map enc (vput (ver ts i) vs).
Proof.
  intros T I -> F. unfold put_item. rewrite encode_key_eq by auto.
  rewrite <- put_vput; auto using ver_ok.
Qed.

Lemma write_repr ts items : forall vs m, ts_ok ts -> Forall item_ok items ->
  Forall version_ok vs -> vsorted vs -> abs vs m ->
  (forall w k, In w vs -> In k (map i_key items) -> vkey w = k -> vts w <= ts) ->
  exists vs', fold_left (put_item ts) items (map enc vs) = map enc vs' /\ Forall version_ok vs' /\ vsorted vs' /\
    abs vs' (fold_left (fun m i => aset m (i_key i) (ival i)) items m) /\
    (forall w, In w vs' -> In w vs \/ (vts w = ts /\ In (vkey w) (map i_key items))).
Proof.
  induction items as [|i items IH]; intros vs m T FI F S A N; cbn [fold_left].
  - exists vs. auto 10.
  - inversion FI; subst.
    rewrite (put_item_enc ts i _ vs) by auto.
    assert (V := ver_ok ts i T H1).
    destruct (IH (vput (ver ts i) vs) (aset m (i_key i) (ival i)) T H2) as (vs' & E & F' & S' & A' & I').
    + apply vput_ok; auto.
    + apply vput_sorted; auto.
    + change (i_key i) with (vkey (ver ts i)). change (ival i) with (aval (ver ts i)). apply abs_put; auto.
      intros w W K. cbn [vts ver]. eapply N; eauto. left. auto.
    + intros w k W K E. apply vput_In in W; auto. destruct W as [->|[W _]]; [cbn; lia|]. eapply N; eauto. right; auto.
    + exists vs'. rewrite E. split; auto. split; auto. split; auto. split; auto.
      intros w W. apply I' in W. destruct W as [W|[W1 W2]]; [|right; split; auto; right; auto].
      apply vput_In in W; auto. destruct W as [->|[W _]]; auto. right. split; auto. left. auto.
Qed.

Lemma in_rangeb_eq a b k : in_rangeb a b k = bleb a k && bltb k b.
Proof.
  apply eq_true_iff_eq. rewrite in_rangeb_iff, andb_true_iff, bleb_iff, bltb_iff. unfold in_range. cbn [fst snd]. tauto.
Qed.

Lemma ordered_firstn n cs : ordered cs -> ordered (firstn n cs).
Proof.
  intros O i j c d k A B. apply O with (i := i) (j := j).
  - rewrite <- (firstn_skipn n cs). rewrite nth_error_app1; auto. apply nth_error_Some. congruence.
  - rewrite <- (firstn_skipn n cs). rewrite nth_error_app1; auto. apply nth_error_Some. congruence.
Qed.

Lemma ordered_app cs cs' : ordered (cs ++ cs') -> ordered cs.
Proof. intros O. replace cs with (firstn (length cs) (cs ++ cs')). { apply ordered_firstn; auto. } apply firstn_app_exact; auto. Qed.

Lemma apply_repr cs : Forall cmd_ok cs -> ordered cs ->
  exists vs, apply_cmds cs = map enc vs /\ Forall version_ok vs /\ vsorted vs /\ abs vs (alog cs) /\
    (forall w, In w vs -> exists c, In c cs /\ key_of c (vkey w) /\ vts w = cmd_ts c).
Proof.
  induction cs as [|c cs IH] using rev_ind; intros F O.
  - exists []. split; [reflexivity|]. split; [constructor|]. split; [constructor|]. split; [|intros w []].
    intros k. split; [intros v ([] & _)|reflexivity].
  - apply Forall_app in F. destruct F as [F Fc]. inversion Fc as [|? ? C _]; subst.
    destruct (IH F (ordered_app _ _ O)) as (vs & E & V & S & A & W).
    rewrite apply_cmds_snoc, alog_snoc, E.
    destruct c as [ts items|[a b]]; cbn [apply_cmd eff].
    + destruct C as [T FI].
      destruct (write_repr ts items vs (alog cs) T FI V S A) as (vs' & E' & V' & S' & A' & W').
      * intros w k I K <-. destruct (W w I) as (c & Ic & Kc & Tc).
        apply In_nth_error in Ic. destruct Ic as [i Ii].
        assert (L: (i < length cs)%nat) by (apply nth_error_Some; congruence).
        assert (X: cmd_ts c < cmd_ts (CWrite ts items)).
        { apply (O i (length cs) c (CWrite ts items) (vkey w)); auto.
          - rewrite nth_error_app1; auto.
          - rewrite nth_error_app2, Nat.sub_diag by lia. auto. }
        cbn [cmd_ts] in X. lia.
      * exists vs'. split; auto. split; auto. split; auto. split; auto.
        intros w I. apply W' in I. destruct I as [I|[I1 I2]].
        { destruct (W w I) as (c & Ic & Kc). exists c. split; auto. apply in_app_iff; auto. }
        exists (CWrite ts items). split; [apply in_app_iff; right; left; auto|]. split; auto.
    + destruct C as [Ba Bb]. cbn [fst snd] in Ba, Bb.
      cbn [encode_range fst snd].
      assert (LT: bltb (encode_bytes a) (encode_bytes b) = bltb a b).
      { apply eq_true_iff_eq. rewrite !bltb_iff. unfold blt. rewrite encode_bytes_cmp by auto. tauto. }
      rewrite LT. cbn [fst snd]. destruct (bltb a b) eqn:AB.
      * exists (filter (fun v => negb (in_rangeb a b (vkey v))) vs).
        split.
        { apply filter_map_enc; auto. intros v Hv. f_equal.
          apply eq_true_iff_eq. rewrite in_rangeb_iff, andb_true_iff, bleb_iff, bltb_iff.
          assert (Hk: bytes_ok (vkey v)) by apply Hv.
          rewrite <- (range_encode_iff a b (vkey v) (write_long (Z.lnot (vts v))) Ba Bb Hk). reflexivity. }
        split; [apply Forall_filter; auto|]. split; [apply SSorted_filter; auto|]. split.
        { intros k. rewrite <- in_rangeb_eq. destruct (in_rangeb a b k) eqn:R.
          - split; auto. intros v (I & K & _). apply filter_In in I. destruct I as [_ I]. rewrite K, R in I. discriminate.
          - destruct (A k) as [A1 A2]. split.
            + intros v (I & K & L). apply A1. apply filter_In in I. destruct I as [I _]. split; auto. split; auto.
              intros v' I' K'. apply L; auto. apply filter_In. rewrite K', R. auto.
            + intros H. apply A2. intros v I K. apply (H v); auto. apply filter_In. rewrite K, R. auto. }
        intros w I. apply filter_In in I. destruct I as [I _]. destruct (W w I) as (c & Ic & Kc).
        exists c. split; auto. apply in_app_iff; auto.
      * exists vs. split; auto. split; auto. split; auto. split; auto.
        intros w I. destruct (W w I) as (c & Ic & Kc). exists c. split; auto. apply in_app_iff; auto.
Qed.

(** what a peer reads is the abstract map of its commands *)
Lemma kv_get_alog cs now k : Forall cmd_ok cs -> ordered cs -> bytes_ok k -> k <> [] ->
  kv_get (apply_cmds cs) 0 now k =
  Ok (match aview (alog cs) now k with Some v => ROk v | None => RNotFound end).
Proof.
  intros F O Hk Hn. destruct (apply_repr cs F O) as (vs & E & V & S & A & W).
  assert (R: represents (apply_cmds cs) vs) by (rewrite E; apply enc_represents; auto).
  assert (B: forall v, In v vs -> vts v <= effective_ts 0).
  { intros v I. rewrite Forall_forall in V. destruct (V v I) as (_ & [_ T] & _).
    unfold effective_ts. cbn [Z.ltb Z.compare]. lia. }
  assert (NL: forall v, newest vs k (effective_ts 0) v <-> latest vs k v).
  { intros v. unfold newest, latest. split.
    - intros (I & K & _ & L). split; auto.
    - intros (I & K & L). split; auto. }
  destruct (kv_get_total (apply_cmds cs) vs 0 now k R Hk Hn) as [(v & [N L] & G)|[N G]]; rewrite G; f_equal.
  - apply NL in N. destruct (A k) as [A1 _]. unfold aview. rewrite (A1 v N). unfold aval. unfold live in L.
    destruct (vflag v); auto; [|contradiction]. apply Z.leb_le in L. rewrite L. auto.
  - destruct (A k) as [A1 A2].
    destruct (existsb (fun v => beqb (vkey v) k) vs) eqn:X.
    + apply existsb_exists in X. destruct X as (v0 & I0 & K0). apply beqb_true in K0.
      destruct (latest_exists vs k) as [v L]; [exists v0; auto|].
      unfold aview. rewrite (A1 v L). unfold aval. apply NL in L.
      specialize (N v). unfold visible, live in N.
      destruct (vflag v); auto.
      * exfalso. apply N. auto.
      * destruct (now <=? vttl v) eqn:LT; auto. apply Z.leb_le in LT. exfalso. apply N. auto.
    + unfold aview. rewrite A2; auto. intros v I K.
      assert (Y: existsb (fun v => beqb (vkey v) k) vs = true).
      { apply existsb_exists. exists v. split; auto. apply beqb_true. auto. } congruence.
Qed.
