From Coq Require Import ZArith List Lia Bool PeanoNat ZifyNat ZifyBool Sorted.
From Verif Require Import Bytes Outcome CodecModel CodecSpec CodecProofs CodecProofs2 MvccModel MvccSpec.
Import ListNotations.
Open Scope Z_scope.

(** ** encoding of versions *)
Definition enc (v : version) : entry :=
  (encode_bytes (vkey v) ++ write_long (Z.lnot (vts v)), package_value (vflag v) (vttl v) (vval v)).
Definition vlt (a b : version) : Prop := version_order (vkey a) (vts a) (vkey b) (vts b) = Lt.
Definition vsorted := StronglySorted vlt.

Lemma enc_key v : version_ok v -> encode_key (vkey v) (vts v) = Ok (fst (enc v)).
Proof. intros (H1 & H2 & _). apply encode_key_eq; auto. Qed.

Lemma enc_cmp a b : version_ok a -> version_ok b ->
  bcmp (fst (enc a)) (fst (enc b)) = version_order (vkey a) (vts a) (vkey b) (vts b).
Proof.
  intros A B. assert (EA := enc_key a A). assert (EB := enc_key b B).
  destruct A as (A1 & A2 & _), B as (B1 & B2 & _). eapply encode_key_order; eauto.
Qed.

Lemma represents_enc st vs : represents st vs -> st = map enc vs /\ Forall version_ok vs /\ vsorted vs.
Proof.
  intros (S & F & E).
  assert (X: st = map enc vs).
  { clear S. induction E as [|e v st vs [E1 E2] E IH]; auto. inversion F; subst. cbn [map].
    rewrite enc_key in E1 by auto. apply Ok_inj in E1. rewrite <- IH by auto.
    rewrite (surjective_pairing e), <- E1, E2. reflexivity. }
  split; auto. split; auto. subst st. clear E. induction vs as [|v vs IH]; [constructor|].
  inversion F; subst. inversion S; subst. constructor; [apply IH; auto|].
  rewrite Forall_map in H4. eapply Forall_impl; [|apply Forall_and; [exact H2|exact H4]].
  cbv beta. intros b [B1 B2]. unfold vlt. rewrite <- enc_cmp; auto.
Qed.

Lemma enc_represents vs : Forall version_ok vs -> vsorted vs -> represents (map enc vs) vs.
Proof.
  intros F S. split; [|split; auto].
  - induction S as [|v vs S IH H]; simpl; constructor; inversion F; subst; auto.
    rewrite Forall_map. eapply Forall_impl; [|apply Forall_and; [exact H3|exact H]].
    cbv beta. intros b [B1 B2]. rewrite enc_cmp; auto.
  - clear S. induction F; simpl; constructor; auto. split; auto. apply enc_key; auto.
Qed.

Lemma truncate_enc v : version_ok v ->
  truncate_ts (fst (enc v)) = Ok (encode_bytes (vkey v)) /\ truncate_key (fst (enc v)) = Ok (vts v).
Proof. intros V. assert (E := enc_key v V). destruct V as (V1 & V2 & _). eapply truncate_ts_encode; eauto. Qed.

Lemma decode_enc v : version_ok v -> decode_key (fst (enc v)) = Ok (Some (vkey v, vts v)).
Proof. intros V. assert (E := enc_key v V). destruct V as (V1 & V2 & _). eapply decode_encode_key; eauto. Qed.

Definition liveb (now : Z) (v : version) : bool :=
  match vflag v with kPut => true | kPutTTL => now <=? vttl v | kDelete => false end.
Lemma liveb_iff now v : liveb now v = true <-> live now v.
Proof. unfold liveb, live. destruct (vflag v); [tauto|lia|]. split; [discriminate|tauto]. Qed.

Lemma ttl_range v : version_ok v -> - two63 <= vttl v < two63.
Proof. intros (_ & _ & H & _). rewrite two63_val. lia. Qed.

Lemma hidden_enc now v : version_ok v -> hidden now (snd (enc v)) = Ok (negb (liveb now v)).
Proof.
  intros V. pose proof (ttl_range v V) as R. destruct V as (_ & _ & _ & V4). unfold hidden, liveb. cbn [snd enc].
  destruct (unpackage_package (vflag v) (vttl v) (vval v) R) as (_ & _ & F). rewrite F. cbn [obind].
  destruct (vflag v); auto. rewrite get_value_ttl_package by auto.
  specialize (V4 eq_refl). destruct (vval v) as [|x l]; [congruence|]. cbn [length]. change (0 <? S (length l))%nat with true.
  cbn [obind]. f_equal. lia.
Qed.

Lemma unpackage_enc v : version_ok v -> liveb 0 v = liveb 0 v ->
  unpackage_value (snd (enc v)) = Ok (match vflag v with kDelete => [] | _ => vval v end).
Proof.
  intros V _. pose proof (ttl_range v V) as R.
  destruct (unpackage_package (vflag v) (vttl v) (vval v) R) as (_ & U & _). exact U.
Qed.

Lemma beqb_enc a b : bytes_ok a -> bytes_ok b -> beqb (encode_bytes a) (encode_bytes b) = beqb a b.
Proof.
  intros. unfold beqb. rewrite encode_bytes_cmp; auto.
Qed.

(** ** abstract iteration *)
Definition prev_of (p : option bytes) : bytes := match p with None => [] | Some k => encode_bytes k end.
Definition okeyb (k : bytes) (p : option bytes) : bool :=
  match p with None => false | Some k' => beqb k k' end.

Fixpoint nv (ts now : Z) (prev : option bytes) (vs : list version) : option bytes * list version :=
  match vs with
  | [] => (prev, [])
  | v :: r =>
      if okeyb (vkey v) prev then nv ts now prev r
      else if ts <? vts v then nv ts now prev r
      else if liveb now v then (Some (vkey v), v :: r) else nv ts now (Some (vkey v)) r
  end.

Lemma prev_eqb k p : bytes_ok k -> (forall k', p = Some k' -> bytes_ok k') ->
  beqb (encode_bytes k) (prev_of p) = okeyb k p.
Proof.
  intros Hk Hp. destruct p as [k'|]; simpl.
  - apply beqb_enc; auto.
  - apply beqb_false. intros E. pose proof (encode_bytes_len_ge k). rewrite E in H. simpl in H. lia.
Qed.

Lemma next_visible_nv ts now vs : forall p, Forall version_ok vs -> (forall k', p = Some k' -> bytes_ok k') ->
  next_visible ts now (prev_of p) (map enc vs) =
  Ok (prev_of (fst (nv ts now p vs)), map enc (snd (nv ts now p vs))) /\
  (forall k', fst (nv ts now p vs) = Some k' -> bytes_ok k') /\
  Forall version_ok (snd (nv ts now p vs)).
Proof.
  induction vs as [|v vs IH]; intros p F Hp; [simpl; auto|].
  inversion F as [|? ? V Fr]; subst. cbn [map next_visible nv].
  destruct (truncate_enc v V) as [T1 T2]. rewrite T1. cbn [obind].
  assert (Hk: bytes_ok (vkey v)) by apply V.
  rewrite prev_eqb by auto. destruct (okeyb (vkey v) p); [apply IH; auto|].
  rewrite T2. cbn [obind]. destruct (ts <? vts v); [apply IH; auto|].
  rewrite hidden_enc by auto. cbn [obind]. destruct (liveb now v); cbn [negb].
  - cbn [fst snd map]. split; auto. split; [|constructor; auto]. intros k' E. injection E as <-. auto.
  - change (encode_bytes (vkey v)) with (prev_of (Some (vkey v))). apply IH; auto.
    intros k' E. injection E as <-. auto.
Qed.

(** the whole forward loop *)
Fixpoint fwd (ts now : Z) (prev : option bytes) (vs : list version) : list version :=
  match vs with
  | [] => []
  | v :: r =>
      if okeyb (vkey v) prev then fwd ts now prev r
      else if ts <? vts v then fwd ts now prev r
      else if liveb now v then v :: fwd ts now (Some (vkey v)) r else fwd ts now (Some (vkey v)) r
  end.

Lemma fwd_nv ts now vs : forall p, fwd ts now p vs =
  match snd (nv ts now p vs) with [] => [] | v :: r => v :: fwd ts now (fst (nv ts now p vs)) (v :: r) end.
Proof.
  induction vs as [|v vs IH]; intros p; auto. cbn [fwd nv].
  destruct (okeyb (vkey v) p); [apply IH|]. destruct (ts <? vts v); [apply IH|].
  destruct (liveb now v); [|apply IH]. cbn [fst snd]. f_equal.
  cbn [fwd okeyb]. rewrite beqb_refl. auto.
Qed.

Lemma nv_length ts now vs : forall p, (length (snd (nv ts now p vs)) <= length vs)%nat.
Proof.
  induction vs as [|v vs IH]; intros p; auto. cbn [nv].
  destruct (okeyb (vkey v) p); [pose proof (IH p); cbn [length]; lia|].
  destruct (ts <? vts v); [pose proof (IH p); cbn [length]; lia|].
  destruct (liveb now v); [auto|]. pose proof (IH (Some (vkey v))); cbn [length]; lia.
Qed.
Lemma nv_head ts now vs : forall p v r, snd (nv ts now p vs) = v :: r -> fst (nv ts now p vs) = Some (vkey v).
Proof.
  induction vs as [|x vs IH]; intros p v r; cbn [nv]; [discriminate|].
  destruct (okeyb (vkey x) p); eauto. destruct (ts <? vts x); eauto. destruct (liveb now x); eauto.
  cbn [fst snd]. intros E; injection E as -> ->. auto.
Qed.

Lemma nv_skip ts now v r : nv ts now (Some (vkey v)) (v :: r) = nv ts now (Some (vkey v)) r.
Proof. cbn [nv okeyb]. rewrite beqb_refl. auto. Qed.

(** the loop's step count: positions after the first call start with a visited entry *)
Lemma forward_loop_fwd ts now : forall fuel vs p, Forall version_ok vs ->
  (forall k', p = Some k' -> bytes_ok k') ->
  (length vs + (if match vs with v :: _ => okeyb (vkey v) p | [] => false end then 0 else 1) <= fuel)%nat ->
  forward_loop fuel ts now (prev_of p) (map enc vs) = Ok (map enc (fwd ts now p vs)).
Proof.
  induction fuel as [|fuel IH]; intros vs p F Hp Hf.
  - exfalso. destruct vs as [|v vs]; [simpl in Hf; lia|]. cbn [length] in Hf. lia.
  - cbn [forward_loop]. destruct (next_visible_nv ts now vs p F Hp) as (E & B & F'). rewrite E. cbn [obind].
    rewrite fwd_nv. destruct (snd (nv ts now p vs)) as [|v r] eqn:S; [reflexivity|].
    cbn [map]. change (enc v :: map enc r) with (map enc (v :: r)). rewrite IH; auto.
    rewrite (nv_head _ _ _ _ _ _ S). cbn [okeyb]. rewrite beqb_refl.
    pose proof (nv_length ts now vs p) as L. rewrite S in L.
    destruct vs as [|x vs]; [cbn in S; discriminate|].
    destruct (okeyb (vkey x) p) eqn:O.
    + (* the first entry is skipped *)
      cbn [nv] in S. rewrite O in S. pose proof (nv_length ts now vs p) as L2. rewrite S in L2.
      cbn [length] in *. lia.
    + cbn [length] in *. lia.
Qed.

Lemma forward_loop_start ts now vs : Forall version_ok vs ->
  forward_loop (S (length (map enc vs))) ts now [] (map enc vs) = Ok (map enc (fwd ts now None vs)).
Proof.
  intros F. change (@nil Z) with (prev_of None). apply forward_loop_fwd; auto; [discriminate|].
  rewrite map_length. destruct vs; cbn; lia.
Qed.

(** membership of the forward result *)
Lemma vlt_key_le a b : vlt a b -> bcmp (vkey a) (vkey b) = Lt \/ (vkey a = vkey b /\ vts b < vts a).
Proof.
  unfold vlt, version_order. destruct (bcmp (vkey a) (vkey b)) eqn:E; intros H; try discriminate; auto.
  right. apply bcmp_eq in E. split; auto.
Qed.

Definition prev_before (p : option bytes) (vs : list version) : Prop :=
  forall k', p = Some k' -> Forall (fun v => bcmp k' (vkey v) <> Gt) vs.

Lemma vlt_sorted_key_le v vs : Forall (vlt v) vs -> Forall (fun x => bcmp (vkey v) (vkey x) <> Gt) vs.
Proof.
  intros H. eapply Forall_impl; [|exact H]. cbv beta. intros x Hx. apply vlt_key_le in Hx.
  destruct Hx as [E|[E _]]; [congruence|]. rewrite E, bcmp_refl. congruence.
Qed.

Lemma fwd_In ts now vs : forall p, vsorted vs -> prev_before p vs ->
  forall v, In v (fwd ts now p vs) <->
    (In v vs /\ okeyb (vkey v) p = false /\ vts v <= ts /\ liveb now v = true /\
     forall v', In v' vs -> vkey v' = vkey v -> vts v' <= ts -> vts v' <= vts v).
Proof.
  induction vs as [|x vs IH]; intros p S Hp v; [simpl; tauto|].
  inversion S as [|? ? Sr Fx]; subst.
  assert (Hp': prev_before p vs) by (intros k' E; specialize (Hp k' E); inversion Hp; auto).
  assert (HpS: prev_before (Some (vkey x)) vs) by (intros k' E; injection E as <-; apply vlt_sorted_key_le; auto).
  assert (Hx: forall w, In w vs -> vkey w = vkey x -> vts w < vts x).
  { intros w Hw Ek. rewrite Forall_forall in Fx. specialize (Fx w Hw). apply vlt_key_le in Fx.
    destruct Fx as [E|[_ E]]; auto. rewrite Ek, bcmp_refl in E. discriminate. }
  cbn [fwd]. destruct (okeyb (vkey x) p) eqn:O.
  - rewrite IH by auto. split.
    + intros (I & A & B & C & D). repeat split; auto; [right; auto|].
      intros v' [<-|I'] Ek Ht; auto. exfalso. rewrite Ek in O. congruence.
    + intros ([<-|I] & A & B & C & D); [congruence|]. repeat split; auto. intros; apply D; auto. right; auto.
  - destruct (Z.ltb_spec ts (vts x)).
    + rewrite IH by auto. split.
      * intros (I & A & B & C & D). repeat split; auto; [right; auto|].
        intros v' [<-|I'] Ek Ht; auto. lia.
      * intros ([<-|I] & A & B & C & D); [lia|]. repeat split; auto. intros; apply D; auto. right; auto.
    + (* x is the newest of its key at or below ts *)
      assert (R: forall w, (In w (fwd ts now (Some (vkey x)) vs)) <->
        (In w vs /\ okeyb (vkey w) p = false /\ vts w <= ts /\ liveb now w = true /\
         forall v', In v' (x :: vs) -> vkey v' = vkey w -> vts v' <= ts -> vts v' <= vts w)).
      { intros w. rewrite IH by auto. cbn [okeyb]. split.
        - intros (I & A & B & C & D). repeat split; auto.
          + destruct p as [k'|]; auto. simpl in *. destruct (beqb (vkey w) k') eqn:Q; auto. exfalso.
            apply beqb_true in Q. apply beqb_false in O, A.
            (* k' <= key x < key w = k' *)
            specialize (Hp k' eq_refl). inversion Hp as [|? ? P1 P2]; subst.
            rewrite Forall_forall in Fx. specialize (Fx w I). apply vlt_key_le in Fx. destruct Fx as [E|[E _]]; [|congruence].
            apply P1. rewrite bcmp_opp, E. auto.
          + intros v' [<-|I'] Ek Ht; auto. apply beqb_false in A. congruence.
        - intros (I & A & B & C & D). repeat split; auto.
          + apply beqb_false. intros Ek. specialize (Hx w I Ek).
            specialize (D x (or_introl eq_refl) (eq_sym Ek)). lia.
          + intros; apply D; auto. right; auto. }
      destruct (liveb now x) eqn:L.
      * cbn [In]. rewrite R. split.
        -- intros [<-|(I & A & B & C & D)].
           ++ repeat split; auto. intros v' [<-|I'] Ek Ht; [lia|]. specialize (Hx v' I' Ek). lia.
           ++ repeat split; auto.
        -- intros ([<-|I] & A & B & C & D); auto. right. repeat split; auto.
      * rewrite R. split.
        -- intros (I & A & B & C & D). repeat split; auto. right; auto.
        -- intros ([<-|I] & A & B & C & D); [congruence|]. repeat split; auto.
Qed.

Lemma fwd_incl ts now vs : forall p v, In v (fwd ts now p vs) -> In v vs.
Proof.
  induction vs as [|x vs IH]; intros p v; cbn [fwd]; [tauto|].
  destruct (okeyb _ _); [right; eauto|]. destruct (_ <? _); [right; eauto|].
  destruct (liveb _ _); cbn [In]; [intros [H|H]; [left; auto|right; eauto]|right; eauto].
Qed.

(** keys of the result are strictly increasing *)
Lemma fwd_sorted ts now vs : forall p, vsorted vs -> prev_before p vs ->
  StronglySorted (fun a b => bcmp (vkey a) (vkey b) = Lt) (fwd ts now p vs).
Proof.
  induction vs as [|x vs IH]; intros p S Hp; [constructor|].
  inversion S as [|? ? Sr Fx]; subst.
  assert (Hp': prev_before p vs) by (intros k' E; specialize (Hp k' E); inversion Hp; auto).
  assert (HpS: prev_before (Some (vkey x)) vs) by (intros k' E; injection E as <-; apply vlt_sorted_key_le; auto).
  cbn [fwd]. destruct (okeyb _ _); auto. destruct (_ <? _); auto. destruct (liveb _ _); auto.
  constructor; auto. apply Forall_forall. intros w Hw. apply fwd_In in Hw; auto.
  destruct Hw as (I & A & _). cbn [okeyb] in A. apply beqb_false in A.
  rewrite Forall_forall in Fx. specialize (Fx w I). apply vlt_key_le in Fx. destruct Fx as [E|[E _]]; auto. congruence.
Qed.

(** ** reverse *)
Fixpoint pv (ts now : Z) (cur : option version) (l : list version) : option version * list version :=
  match l with
  | [] => (cur, [])
  | v :: r =>
      if match cur with None => false | Some c => negb (beqb (vkey v) (vkey c)) end then (cur, l)
      else if ts <? vts v then pv ts now cur r
      else if liveb now v then pv ts now (Some v) r else pv ts now None r
  end.

Lemma prev_visible_pv ts now l : forall cur, Forall version_ok l -> (forall c, cur = Some c -> version_ok c) ->
  prev_visible ts now (option_map enc cur) (map enc l) =
  Ok (option_map enc (fst (pv ts now cur l)), map enc (snd (pv ts now cur l))) /\
  (forall c, fst (pv ts now cur l) = Some c -> version_ok c) /\ Forall version_ok (snd (pv ts now cur l)).
Proof.
  induction l as [|v l IH]; intros cur F Hc; [simpl; auto|].
  inversion F as [|? ? V Fr]; subst. cbn [map prev_visible pv].
  destruct (truncate_enc v V) as [T1 T2]. rewrite T1. cbn [obind].
  assert (Hk: bytes_ok (vkey v)) by apply V.
  assert (C: (match option_map enc cur with
        | Some c => olet pk := truncate_ts (fst c) in Ok (negb (beqb (encode_bytes (vkey v)) pk))
        | None => Ok false end) = Ok (match cur with None => false | Some c => negb (beqb (vkey v) (vkey c)) end)).
  { destruct cur as [c|]; simpl option_map; cbv iota; auto. specialize (Hc c eq_refl).
    destruct (truncate_enc c Hc) as [C1 _]. rewrite C1. cbn [obind].
    rewrite beqb_enc; auto. apply Hc. }
  rewrite C. cbn [obind]. destruct (match cur with None => false | Some c => _ end).
  - cbn [fst snd map]. auto.
  - rewrite T2. cbn [obind]. destruct (ts <? vts v); [apply IH; auto|].
    rewrite hidden_enc by auto. cbn [obind]. destruct (liveb now v); cbn [negb].
    + apply (IH (Some v)); auto. intros c E; injection E as <-; auto.
    + apply (IH None); auto. discriminate.
Qed.

(** single pass description of the reverse loop *)
Fixpoint rvs (ts now : Z) (cur : option version) (l : list version) : list version :=
  match l with
  | [] => match cur with None => [] | Some c => [c] end
  | v :: r =>
      (if match cur with None => false | Some c => negb (beqb (vkey v) (vkey c)) end
       then match cur with None => [] | Some c => [c] end else []) ++
      (let cur := if match cur with None => false | Some c => negb (beqb (vkey v) (vkey c)) end then None else cur in
       if ts <? vts v then rvs ts now cur r
       else if liveb now v then rvs ts now (Some v) r else rvs ts now None r)
  end.

Lemma rvs_pv ts now l : forall cur, rvs ts now cur l =
  match fst (pv ts now cur l) with
  | None => []
  | Some c => c :: rvs ts now None (snd (pv ts now cur l))
  end.
Proof.
  induction l as [|v l IH]; intros cur; [destruct cur; auto|].
  cbn [rvs pv]. destruct (match cur with None => false | Some c => negb (beqb (vkey v) (vkey c)) end) eqn:E.
  - destruct cur as [c|]; [|discriminate]. cbn [fst snd app]. f_equal.
  - cbn [app]. destruct (ts <? vts v); [apply IH|]. destruct (liveb now v); apply IH.
Qed.

Lemma pv_length ts now l : forall cur, (length (snd (pv ts now cur l)) <= length l)%nat.
Proof.
  induction l as [|v l IH]; intros cur; auto. cbn [pv].
  destruct (match cur with None => false | Some c => _ end); auto. cbn [length].
  destruct (_ <? _); [pose proof (IH cur); lia|].
  destruct (liveb _ _); [pose proof (IH (Some v)); lia|pose proof (IH None); lia].
Qed.
Lemma pv_shorter ts now l : fst (pv ts now None l) <> None -> (length (snd (pv ts now None l)) < length l)%nat.
Proof.
  destruct l as [|v l]; [simpl; congruence|]. intros _. cbn [pv length].
  destruct (_ <? _); [pose proof (pv_length ts now l None); lia|].
  destruct (liveb _ _); [pose proof (pv_length ts now l (Some v)); lia|pose proof (pv_length ts now l None); lia].
Qed.

Lemma reverse_loop_rvs ts now : forall fuel l, Forall version_ok l -> (length l < fuel)%nat ->
  reverse_loop fuel ts now (map enc l) = Ok (map enc (rvs ts now None l)).
Proof.
  induction fuel as [|fuel IH]; intros l F Hf; [lia|].
  cbn [reverse_loop]. destruct (prev_visible_pv ts now l None F) as (E & B & F'); [discriminate|].
  simpl option_map in E at 1. rewrite E. cbn [obind]. rewrite rvs_pv.
  destruct (fst (pv ts now None l)) as [c|] eqn:C; [|reflexivity]. cbn [option_map].
  rewrite IH; auto. pose proof (pv_shorter ts now l). rewrite C in H. specialize (H ltac:(congruence)). lia.
Qed.

(** order of visiting: keys descending, oldest version first *)
Definition vgt (a b : version) : Prop := vlt b a.
Definition rsorted := StronglySorted vgt.

Lemma vgt_key a b : vgt a b -> bcmp (vkey b) (vkey a) = Lt \/ (vkey a = vkey b /\ vts a < vts b).
Proof. intros H. apply vlt_key_le in H. intuition. Qed.

Definition cur_ok (ts now : Z) (cur : option version) (l : list version) : Prop :=
  forall c, cur = Some c -> Forall (vgt c) l /\ vts c <= ts /\ liveb now c = true.

Lemma rvs_In ts now l : forall cur, rsorted l -> cur_ok ts now cur l ->
  forall v, In v (rvs ts now cur l) <->
    ((cur = Some v \/ In v l) /\ vts v <= ts /\ liveb now v = true /\
     forall v', In v' l -> vkey v' = vkey v -> vts v' <= ts -> vts v' <= vts v).
Proof.
  induction l as [|x l IH]; intros cur S Hc v.
  - cbn [rvs]. destruct cur as [c|]; cbn [In].
    + destruct (Hc c eq_refl) as (_ & A & B). split.
      * intros [<-|[]]. repeat split; auto. intros ? [].
      * intros ([E|[]] & _). injection E as ->. auto.
    + split; [tauto|]. intros ([E|[]] & _). discriminate.
  - inversion S as [|? ? Sr Fx]; subst.
    assert (Hx: forall w, In w l -> vkey w = vkey x -> vts x < vts w).
    { intros w Hw Ek. rewrite Forall_forall in Fx. specialize (Fx w Hw). apply vgt_key in Fx.
      destruct Fx as [E|[_ E]]; auto. rewrite Ek, bcmp_refl in E. discriminate. }
    assert (N: cur_ok ts now None l) by (intros ? ?; discriminate).
    (* continuation after handling the pending entry, for a pending entry with the key of x or none *)
    assert (K: forall cur', (cur' = None \/ cur' = cur) -> cur_ok ts now cur' (x :: l) ->
      (forall c, cur' = Some c -> vkey c = vkey x) ->
      (In v (if ts <? vts x then rvs ts now cur' l
             else if liveb now x then rvs ts now (Some x) l else rvs ts now None l) <->
       ((cur' = Some v \/ In v (x :: l)) /\ vts v <= ts /\ liveb now v = true /\
        forall v', In v' (x :: l) -> vkey v' = vkey v -> vts v' <= ts -> vts v' <= vts v))).
    { intros cur' _ Hc' Hk.
      assert (Hc'': cur_ok ts now cur' l).
      { intros c E. destruct (Hc' c E) as (A & B & C). inversion A; auto. }
      destruct (Z.ltb_spec ts (vts x)).
      - rewrite IH by auto. split.
        + intros ([E|I] & A & B & D); (split; [auto; right; right; auto|]); repeat split; auto;
            intros v' [<-|I'] Ek Ht; auto; lia.
        + intros ([E|[<-|I]] & A & B & D); try lia; repeat split; auto; intros; apply D; auto; right; auto.
      - destruct (liveb now x) eqn:L.
        + rewrite IH; auto.
          2:{ intros c E; injection E as <-. repeat split; auto. }
          split.
          * intros ([E|I] & A & B & D).
            -- injection E as <-. repeat split; auto; [right; left; auto|].
               intros v' [<-|I'] Ek Ht; auto. lia.
            -- repeat split; auto; [right; right; auto|].
               intros v' [<-|I'] Ek Ht; auto. specialize (Hx v I (eq_sym Ek)). lia.
          * intros ([E|[<-|I]] & A & B & D).
            -- exfalso. specialize (Hk v E). destruct (Hc' v E) as (Fv & _).
               inversion Fv as [|? ? G _]; subst. apply vgt_key in G. destruct G as [G|[G1 G2]].
               { rewrite Hk, bcmp_refl in G. discriminate. }
               specialize (D x (or_introl eq_refl) (eq_sym G1)). lia.
            -- split; [left; auto|]. repeat split; auto. intros; apply D; auto. right; auto.
            -- split; [right; auto|]. repeat split; auto. intros; apply D; auto. right; auto.
        + rewrite IH by auto. split.
          * intros ([E|I] & A & B & D); [discriminate|]. repeat split; auto; [right; right; auto|].
            intros v' [<-|I'] Ek Ht; auto. specialize (Hx v I (eq_sym Ek)). lia.
          * intros ([E|[<-|I]] & A & B & D).
            -- exfalso. specialize (Hk v E). destruct (Hc' v E) as (Fv & _).
               inversion Fv as [|? ? G _]; subst. apply vgt_key in G. destruct G as [G|[G1 G2]].
               { rewrite Hk, bcmp_refl in G. discriminate. }
               specialize (D x (or_introl eq_refl) (eq_sym G1)). lia.
            -- congruence.
            -- split; [right; auto|]. repeat split; auto. intros; apply D; auto. right; auto. }
    cbn [rvs]. destruct cur as [c|].
    + destruct (Hc c eq_refl) as (Fc & A & B). destruct (beqb (vkey x) (vkey c)) eqn:Q; cbn [negb].
      * cbn [app]. apply K; auto. intros c' E; injection E as <-. apply beqb_true in Q. auto.
      * apply beqb_false in Q. cbn [app In]. rewrite K; [|auto|intros ? ?; discriminate|discriminate].
        (* c's key does not occur in x :: l *)
        assert (Nk: forall w, In w (x :: l) -> vkey w <> vkey c).
        { intros w Hw Ek. inversion Fc as [|? ? Gx Gl]; subst. apply vgt_key in Gx. destruct Gx as [G|[G _]]; [|congruence].
          destruct Hw as [<-|Hw]; [congruence|]. rewrite Forall_forall in Fx. specialize (Fx w Hw). apply vgt_key in Fx.
          destruct Fx as [E|[E _]]; [|congruence].
          rewrite Ek in E. pose proof (bcmp_trans _ _ _ E G) as T. rewrite bcmp_refl in T. discriminate. }
        split.
        -- intros [<-|([E|I] & A' & B' & D)]; [|discriminate|].
           ++ repeat split; auto. intros v' Hv' Ek. exfalso. apply (Nk v' Hv'). auto.
           ++ repeat split; auto.
        -- intros ([E|I] & A' & B' & D).
           ++ injection E as <-. auto.
           ++ right. repeat split; auto.
    + cbn [app]. apply K; auto. discriminate.
Qed.

Lemma rvs_sorted ts now l : forall cur, rsorted l -> cur_ok ts now cur l ->
  StronglySorted (fun a b => bcmp (vkey b) (vkey a) = Lt) (rvs ts now cur l).
Proof.
  induction l as [|x l IH]; intros cur S Hc; [destruct cur; repeat constructor|].
  inversion S as [|? ? Sr Fx]; subst.
  assert (N: cur_ok ts now None l) by (intros ? ?; discriminate).
  assert (K: forall cur', cur_ok ts now cur' (x :: l) ->
      StronglySorted (fun a b => bcmp (vkey b) (vkey a) = Lt)
      (if ts <? vts x then rvs ts now cur' l
             else if liveb now x then rvs ts now (Some x) l else rvs ts now None l)).
  { intros cur' Hc'.
    assert (Hc'': cur_ok ts now cur' l).
    { intros c E. destruct (Hc' c E) as (A & B & C). inversion A; auto. }
    destruct (Z.ltb_spec ts (vts x)); auto. destruct (liveb now x) eqn:L; apply IH; auto.
    intros c E; injection E as <-. repeat split; auto. }
  cbn [rvs]. destruct cur as [c|]; [|cbn [app]; apply K; auto].
  destruct (beqb (vkey x) (vkey c)) eqn:Q; cbn [negb].
  - cbn [app]. apply K; auto.
  - cbn [app]. constructor; [apply K; intros ? ?; discriminate|].
    apply beqb_false in Q. apply Forall_forall. intros w Hw.
    assert (I: In w (x :: l)).
    { destruct (Z.ltb_spec ts (vts x)).
      - apply rvs_In in Hw; auto. destruct Hw as ([E|I] & _); [discriminate|right; auto].
      - destruct (liveb now x) eqn:L.
        + apply rvs_In in Hw; auto. { destruct Hw as ([E|I] & _); [injection E as <-; left; auto|right; auto]. }
          intros c' E; injection E as <-. repeat split; auto.
        + apply rvs_In in Hw; auto. destruct Hw as ([E|I] & _); [discriminate|right; auto]. }
    destruct (Hc c eq_refl) as (Fc & _). inversion Fc as [|? ? Gx Gl]; subst.
    apply vgt_key in Gx. destruct Gx as [G|[G _]]; [|congruence].
    destruct I as [<-|I]; auto. rewrite Forall_forall in Fx. specialize (Fx w I). apply vgt_key in Fx.
    destruct Fx as [E|[E _]]; [|congruence]. eapply bcmp_trans; eauto.
Qed.

(** ** the seeks select contiguous user keys *)
Lemma filter_map_enc f g vs : Forall version_ok vs ->
  (forall v, version_ok v -> f (enc v) = g v) -> filter f (map enc vs) = map enc (filter g vs).
Proof.
  intros F H. induction F as [|v vs V F IH]; auto. cbn [map filter]. rewrite H by auto.
  destruct (g v); cbn [map]; rewrite IH; auto.
Qed.

Lemma Forall_filter {A} (P : A -> Prop) f l : Forall P l -> Forall P (filter f l).
Proof. intros H. induction H; simpl; auto. destruct (f x); auto. Qed.
Lemma SSorted_filter {A} (R : A -> A -> Prop) f l : StronglySorted R l -> StronglySorted R (filter f l).
Proof. intros H. induction H; simpl; [constructor|]. destruct (f a); auto. constructor; auto. apply Forall_filter; auto. Qed.
Lemma SSorted_snoc {A} (R : A -> A -> Prop) l a : StronglySorted R l -> Forall (fun x => R x a) l -> StronglySorted R (l ++ [a]).
Proof.
  intros S F. induction S as [|x l S IH H]; simpl; [repeat constructor|]. inversion F; subst. constructor; auto.
  apply Forall_app; split; auto.
Qed.
Lemma SSorted_rev {A} (R : A -> A -> Prop) l : StronglySorted R l -> StronglySorted (fun a b => R b a) (rev l).
Proof.
  intros H. induction H as [|x l S IH F]; simpl; [constructor|]. apply SSorted_snoc; auto.
  apply Forall_rev. auto.
Qed.

Definition in_rangeb (a b k : bytes) : bool := bleb a k && bltb k b.
Lemma bltb_iff a b : bltb a b = true <-> blt a b.
Proof. unfold bltb, blt. destruct (bcmp a b); split; congruence. Qed.
Lemma in_rangeb_iff a b k : in_rangeb a b k = true <-> in_range (a, b) k.
Proof. unfold in_rangeb, in_range. cbn [fst snd]. rewrite andb_true_iff, bleb_iff, bltb_iff. tauto. Qed.

Lemma seek_range vs a b : Forall version_ok vs -> bytes_ok a -> bytes_ok b ->
  raw_seek (encode_bytes b) (encode_bytes a) (map enc vs) = map enc (filter (fun v => in_rangeb a b (vkey v)) vs).
Proof.
  intros F Ha Hb. apply filter_map_enc; auto. intros v V.
  apply eq_true_iff_eq. rewrite in_rangeb_iff. rewrite andb_true_iff, bleb_iff, bltb_iff.
  assert (Hk: bytes_ok (vkey v)) by apply V.
  rewrite <- (range_encode_iff a b (vkey v) (write_long (Z.lnot (vts v))) Ha Hb Hk). reflexivity.
Qed.

Lemma seek_key vs k : Forall version_ok vs -> bytes_ok k ->
  raw_seek (prefix_next (encode_bytes k)) (encode_bytes k) (map enc vs) = map enc (filter (fun v => beqb (vkey v) k) vs).
Proof.
  intros F Hk. apply filter_map_enc; auto. intros v V.
  apply eq_true_iff_eq. rewrite andb_true_iff, bleb_iff, bltb_iff, beqb_true.
  assert (Hk': bytes_ok (vkey v)) by apply V.
  rewrite <- (key_range_iff k (vkey v) (write_long (Z.lnot (vts v))) Hk Hk'). reflexivity.
Qed.

Lemma seek_for_prev_range vs a b : Forall version_ok vs -> bytes_ok a -> bytes_ok b ->
  raw_seek_for_prev (encode_bytes a) (encode_bytes b) (map enc vs) =
  map enc (rev (filter (fun v => in_rangeb a b (vkey v)) vs)).
Proof.
  intros F Ha Hb. unfold raw_seek_for_prev. rewrite map_rev. apply (f_equal (@rev _)).
  apply filter_map_enc; auto. intros v V.
  apply eq_true_iff_eq. rewrite in_rangeb_iff. rewrite andb_true_iff, !bleb_iff.
  assert (Hk: bytes_ok (vkey v)) by apply V.
  rewrite <- (range_encode_iff a b (vkey v) (write_long (Z.lnot (vts v))) Ha Hb Hk).
  unfold in_range. cbn [fst snd enc]. unfold ble, blt.
  assert (N: bcmp (encode_bytes (vkey v) ++ write_long (Z.lnot (vts v))) (encode_bytes b) <> Eq).
  { rewrite <- (app_nil_r (encode_bytes b)). rewrite encode_bytes_cmp_app by auto.
    destruct (bcmp (vkey v) b); try congruence. intros E. apply bcmp_eq in E.
    pose proof (write_long_length (Z.lnot (vts v))) as L. rewrite E in L. discriminate. }
  destruct (bcmp (encode_bytes (vkey v) ++ write_long (Z.lnot (vts v))) (encode_bytes b)); intuition congruence.
Qed.

(** ** the API functions *)
Lemma read_ts_effective ts : read_ts ts = effective_ts ts.
Proof. reflexivity. Qed.

Lemma fwd_visible ts now vs v : vsorted vs ->
  (In v (fwd (read_ts ts) now None vs) <-> visible vs (vkey v) ts now v).
Proof.
  intros S. rewrite fwd_In; auto; [|intros ? ?; discriminate].
  rewrite read_ts_effective, liveb_iff. unfold visible, newest. cbn [okeyb]. intuition.
Qed.

Lemma visible_filter vs k ts now v f : (forall v', vkey v' = k -> f v' = true) ->
  visible (filter f vs) k ts now v <-> visible vs k ts now v.
Proof.
  intros H. unfold visible, newest. split.
  - intros ((A & B & C & D) & L). apply filter_In in A. repeat split; try tauto.
    intros v' I E T. apply D; auto. apply filter_In. auto.
  - intros ((A & B & C & D) & L). repeat split; auto; [apply filter_In; auto|].
    intros v' I E T. apply filter_In in I. apply D; tauto.
Qed.

Lemma visible_in vs k ts now v : visible vs k ts now v -> In v vs /\ vkey v = k.
Proof. intros ((A & B & _) & _). auto. Qed.

Lemma visible_unique vs k ts now v v' : vsorted vs -> visible vs k ts now v -> visible vs k ts now v' -> v = v'.
Proof.
  intros S ((A & B & C & D) & _) ((A' & B' & C' & D') & _).
  assert (T: vts v = vts v') by (apply Z.le_antisymm; auto).
  clear D D'. induction S as [|x vs S IH F]; [destruct A|].
  rewrite Forall_forall in F.
  assert (N: forall y, In y vs -> vlt x y -> vkey x = k -> vkey y = k -> vts x = vts y -> False).
  { intros y Hy L E1 E2 E3. apply vlt_key_le in L. destruct L as [L|[_ L]]; [|lia]. rewrite E1, E2, bcmp_refl in L. discriminate. }
  destruct A as [<-|A], A' as [<-|A']; auto.
  - exfalso. eapply N; eauto.
  - exfalso. eapply (N v); eauto.
Qed.

Lemma unpackage_live now v : version_ok v -> liveb now v = true -> unpackage_value (snd (enc v)) = Ok (vval v).
Proof.
  intros V L. rewrite unpackage_enc by auto. unfold liveb in L. destruct (vflag v); congruence.
Qed.

Lemma kv_get_spec st vs ts now k : represents st vs -> bytes_ok k -> k <> [] ->
  (forall v, visible vs k ts now v -> kv_get st ts now k = Ok (ROk (vval v))) /\
  ((forall v, ~ visible vs k ts now v) -> kv_get st ts now k = Ok RNotFound).
Proof.
  intros R Hk Hn. apply represents_enc in R. destruct R as (-> & F & S).
  unfold kv_get. destruct k as [|b k0] eqn:Ek; [congruence|]. rewrite <- Ek in *. cbn [is_empty].
  replace (is_empty k) with false by (rewrite Ek; auto).
  rewrite seek_key by auto.
  set (g := fun v => beqb (vkey v) k). set (vk := filter g vs).
  assert (Fk: Forall version_ok vk) by (apply Forall_filter; auto).
  assert (Sk: vsorted vk) by (apply SSorted_filter; auto).
  assert (Vis: forall v, visible vk k ts now v <-> visible vs k ts now v).
  { intros v. apply visible_filter. intros v' E. unfold g. rewrite E. apply beqb_refl. }
  destruct (next_visible_nv (read_ts ts) now vk None Fk ltac:(discriminate)) as (E & _ & F').
  change (@nil Z) with (prev_of None). rewrite E. cbn [obind].
  pose proof (fwd_nv (read_ts ts) now vk None) as X.
  destruct (snd (nv (read_ts ts) now None vk)) as [|w r] eqn:N.
  - cbn [map]. split; auto. intros v Hv. exfalso. apply Vis in Hv.
    pose proof (visible_in _ _ _ _ _ Hv) as [_ K]. rewrite <- K in Hv. apply fwd_visible in Hv; auto.
    rewrite X in Hv. destruct Hv.
  - assert (Iw: In w (fwd (read_ts ts) now None vk)) by (rewrite X; left; auto).
    assert (Kw: vkey w = k).
    { pose proof (fwd_incl _ _ _ _ _ Iw) as I. apply filter_In in I. destruct I as [_ I]. apply beqb_true in I. auto. }
    assert (Vw: visible vk k ts now w) by (rewrite <- Kw; apply fwd_visible; auto).
    cbn [map].
    assert (Lw: liveb now w = true) by (apply liveb_iff; apply Vw).
    rewrite (unpackage_live now) by (auto; rewrite Forall_forall in Fk; apply Fk; apply Vw). cbn [omap obind].
    split.
    + intros v Hv. apply Vis in Hv. rewrite (visible_unique _ _ _ _ _ _ Sk Hv Vw). auto.
    + intros H. exfalso. apply (H w). apply Vis. auto.
Qed.

Lemma forward_entries_spec vs ts now a b : Forall version_ok vs -> vsorted vs -> bytes_ok a -> bytes_ok b ->
  exists l, forward_entries (map enc vs) ts now a b = Ok (map enc l) /\
    StronglySorted (fun x y => bcmp (vkey x) (vkey y) = Lt) l /\
    (forall v, In v l <-> in_range (a, b) (vkey v) /\ visible vs (vkey v) ts now v).
Proof.
  intros F S Ha Hb. unfold forward_entries. rewrite seek_range by auto.
  set (g := fun v => in_rangeb a b (vkey v)). set (vr := filter g vs).
  assert (Fr: Forall version_ok vr) by (apply Forall_filter; auto).
  assert (Sr: vsorted vr) by (apply SSorted_filter; auto).
  exists (fwd (read_ts ts) now None vr). split; [apply forward_loop_start; auto|].
  split; [apply fwd_sorted; auto; intros ? ?; discriminate|].
  intros v. rewrite fwd_visible by auto. split.
  - intros H. assert (R: g v = true) by (apply visible_in in H; destruct H as [H _]; apply filter_In in H; tauto).
    split; [apply in_rangeb_iff; auto|]. apply visible_filter in H; auto. intros v' E. unfold g in *. rewrite E. auto.
  - intros [R H]. apply in_rangeb_iff in R. apply visible_filter; auto. intros v' E. unfold g. rewrite E. auto.
Qed.

Lemma reverse_entries_spec vs ts now a b : Forall version_ok vs -> vsorted vs -> bytes_ok a -> bytes_ok b ->
  exists l, reverse_entries (map enc vs) ts now a b = Ok (map enc l) /\
    StronglySorted (fun x y => bcmp (vkey y) (vkey x) = Lt) l /\
    (forall v, In v l <-> in_range (a, b) (vkey v) /\ visible vs (vkey v) ts now v).
Proof.
  intros F S Ha Hb. unfold reverse_entries. rewrite seek_for_prev_range by auto.
  set (g := fun v => in_rangeb a b (vkey v)). set (vr := filter g vs).
  assert (Fr: Forall version_ok (rev vr)) by (apply Forall_rev, Forall_filter; auto).
  assert (Sr: rsorted (rev vr)) by (apply SSorted_rev, SSorted_filter; auto).
  exists (rvs (read_ts ts) now None (rev vr)). split; [apply reverse_loop_rvs; auto; rewrite map_length; lia|].
  assert (N: cur_ok (read_ts ts) now None (rev vr)) by (intros ? ?; discriminate).
  split; [apply rvs_sorted; auto|].
  intros v. rewrite rvs_In by auto. rewrite liveb_iff, read_ts_effective.
  assert (Rv: forall x, In x (rev vr) <-> In x vs /\ g x = true) by (intros; rewrite <- in_rev; apply filter_In).
  setoid_rewrite Rv. unfold visible, newest. rewrite <- in_rangeb_iff. fold (g v). split.
  - intros ([E|[A G]] & B & C & D); [discriminate|]. repeat split; auto.
    intros v' I E. apply D; auto. split; auto. unfold g in *. rewrite E. auto.
  - intros (G & (A & _ & B & D) & C). repeat split; auto. intros v' [I _] E. apply D; auto.
Qed.

Lemma SSorted_ext {A} (R : A -> A -> Prop) l1 l2 : (forall a, ~ R a a) -> (forall a b c, R a b -> R b c -> R a c) ->
  StronglySorted R l1 -> StronglySorted R l2 -> (forall a, In a l1 <-> In a l2) -> l1 = l2.
Proof.
  intros Irr Tr S1. revert l2. induction S1 as [|a l1 S1 IH F1]; intros l2 S2 H.
  - destruct l2 as [|b l2]; auto. exfalso. apply (H b). left; auto.
  - destruct S2 as [|b l2 S2 F2]; [exfalso; apply (H a); left; auto|].
    rewrite Forall_forall in F1, F2.
    assert (a = b).
    { destruct (proj1 (H a) (or_introl eq_refl)) as [E|I]; auto.
      destruct (proj2 (H b) (or_introl eq_refl)) as [E|I']; auto.
      exfalso. apply (Irr a). eapply Tr; [apply F1, I'|apply F2, I]. }
    subst b. f_equal. apply IH; auto. intros x. split; intros I.
    + destruct (proj1 (H x) (or_intror I)) as [<-|I']; auto. exfalso. apply (Irr a). auto.
    + destruct (proj2 (H x) (or_intror I)) as [<-|I']; auto. exfalso. apply (Irr a). auto.
Qed.

Lemma reverse_forward vs ts now a b : Forall version_ok vs -> vsorted vs -> bytes_ok a -> bytes_ok b ->
  exists l, forward_entries (map enc vs) ts now a b = Ok (map enc l) /\
    reverse_entries (map enc vs) ts now a b = Ok (map enc (rev l)) /\
    StronglySorted (fun x y => bcmp (vkey x) (vkey y) = Lt) l /\
    (forall v, In v l <-> in_range (a, b) (vkey v) /\ visible vs (vkey v) ts now v).
Proof.
  intros F S Ha Hb.
  destruct (forward_entries_spec vs ts now a b F S Ha Hb) as (l & E & Sl & I).
  destruct (reverse_entries_spec vs ts now a b F S Ha Hb) as (l' & E' & Sl' & I').
  exists l. split; auto. rewrite E'. split; auto. repeat f_equal.
  apply (SSorted_ext (fun x y => bcmp (vkey y) (vkey x) = Lt)); auto.
  - intros x. rewrite bcmp_refl. discriminate.
  - intros x y z A B. eapply bcmp_trans; eauto.
  - apply SSorted_rev in Sl. exact Sl.
  - intros x. rewrite <- in_rev. rewrite I, I'. tauto.
Qed.

Lemma kv_of_enc now v : version_ok v -> liveb now v = true -> kv_of_entry (enc v) = Ok (vkey v, vts v, vval v).
Proof.
  intros V L. unfold kv_of_entry, decode_key_or_empty. rewrite decode_enc by auto. cbn [omap obind fst snd].
  rewrite (unpackage_live now) by auto. reflexivity.
Qed.

Lemma omap_list_kv now l : Forall version_ok l -> Forall (fun v => liveb now v = true) l ->
  omap_list kv_of_entry (map enc l) = Ok (map kv_of l).
Proof.
  intros F L. induction F as [|v l V F IH]; auto. inversion L; subst. cbn [map omap_list].
  rewrite (kv_of_enc now) by auto. cbn [obind]. rewrite IH by auto. reflexivity.
Qed.

Lemma is_empty_false k : k <> [] -> is_empty k = false.
Proof. destruct k; [congruence|auto]. Qed.

Lemma scan_ok_live vs ts now a b l : Forall version_ok vs ->
  (forall v, In v l <-> in_range (a, b) (vkey v) /\ visible vs (vkey v) ts now v) ->
  Forall version_ok l /\ Forall (fun v => liveb now v = true) l.
Proof.
  intros F I. split; apply Forall_forall; intros v H; apply I in H; destruct H as [_ H].
  - rewrite Forall_forall in F. apply F. apply H.
  - apply liveb_iff. apply H.
Qed.

Lemma forward_entries_loop {S} (f : S -> bytes -> bytes -> S * bool) ts now :
  forall fuel prev es l s, forward_loop fuel ts now prev es = Ok (map enc l) ->
  Forall version_ok l -> Forall (fun v => liveb now v = true) l ->
  callback_loop f s fuel ts now prev es = Ok (fold_stop f s l).
Proof.
  induction fuel as [|fuel IH]; intros prev es l s E F L; [discriminate|].
  cbn [forward_loop callback_loop] in *. destruct (next_visible ts now prev es) as [[prev' es']|]; [|discriminate].
  cbn [obind] in *. destruct es' as [|e es'].
  - apply Ok_inj in E. destruct l; [reflexivity|discriminate].
  - destruct (forward_loop fuel ts now prev' (e :: es')) as [rest|] eqn:E2; [|discriminate].
    cbn [omap obind] in E. apply Ok_inj in E. destruct l as [|v l]; [discriminate|]. cbn [map] in E.
    inversion F; subst. inversion L; subst. assert (e = enc v) by congruence. assert (rest = map enc l) by congruence. subst.
    rewrite (kv_of_enc now) by auto. cbn [obind fst snd fold_stop].
    destruct (f s (vkey v) (vval v)) as [s' go]. destruct go; auto. 
Qed.

Lemma forward_head fuel ts now prev es l : forward_loop fuel ts now prev es = Ok l ->
  exists p es', next_visible ts now prev es = Ok (p, es') /\ hd_error es' = hd_error l.
Proof.
  destruct fuel as [|fuel]; [discriminate|]. cbn [forward_loop].
  destruct (next_visible ts now prev es) as [[p es']|]; [|discriminate]. cbn [obind]. intros E. exists p, es'. split; auto.
  destruct es' as [|e es']; [apply Ok_inj in E; subst; auto|].
  destruct (forward_loop fuel ts now p (e :: es')) as [r|]; [|discriminate]. cbn [omap obind] in E. apply Ok_inj in E. subst. auto.
Qed.
Lemma reverse_head fuel ts now es l : reverse_loop fuel ts now es = Ok l ->
  exists es', prev_visible ts now None es = Ok (hd_error l, es').
Proof.
  destruct fuel as [|fuel]; [discriminate|]. cbn [reverse_loop].
  destruct (prev_visible ts now None es) as [[cur es']|]; [|discriminate]. cbn [obind]. intros E. exists es'.
  destruct cur as [c|]; [|apply Ok_inj in E; subst; auto].
  destruct (reverse_loop fuel ts now es') as [r|]; [|discriminate]. cbn [omap obind] in E. apply Ok_inj in E. subst. auto.
Qed.

(** everything the scan APIs return, in one list *)
Lemma scan_all st vs ts now a b : represents st vs -> bytes_ok a -> bytes_ok b -> a <> [] -> b <> [] ->
  exists l, kv_scan st ts now a b = Ok (ROk (map kv_of l)) /\
    kv_count st ts now a b = Ok (ROk (Z.of_nat (length l))) /\
    (forall p, kv_min_key st ts now a b p = Ok (ROk (hd p (map vkey l)))) /\
    (forall p, kv_max_key st ts now a b p = Ok (ROk (hd p (map vkey (rev l))))) /\
    (forall S f s, @kv_scan_func S f s st ts now a b = Ok (ROk (fold_stop f s l))) /\
    forward_entries st ts now a b = Ok (map enc l) /\
    reverse_entries st ts now a b = Ok (map enc (rev l)) /\
    StronglySorted (fun x y => bcmp (vkey x) (vkey y) = Lt) l /\
    (forall v, In v l <-> in_range (a, b) (vkey v) /\ visible vs (vkey v) ts now v).
Proof.
  intros R Ha Hb Na Nb. apply represents_enc in R. destruct R as (-> & F & S).
  unfold kv_scan, kv_count, kv_min_key, kv_max_key, kv_scan_func. rewrite !is_empty_false by auto.
  destruct (reverse_forward vs ts now a b F S Ha Hb) as (l & E & E' & Sl & I).
  destruct (scan_ok_live _ _ _ _ _ _ F I) as [O1 L1].
  exists l. split; [|split; [|split; [|split; [|split; [|auto]]]]].
  - rewrite E. cbn [obind]. rewrite (omap_list_kv now) by auto. reflexivity.
  - rewrite E. cbn [omap obind]. rewrite map_length. reflexivity.
  - intros p. unfold forward_entries in E. apply forward_head in E. destruct E as (p' & es' & E & H).
    rewrite E. cbn [obind]. destruct l as [|v l]; destruct es' as [|e es']; try discriminate; [reflexivity|].
    cbn [map hd_error] in H. assert (e = enc v) by congruence. subst e.
    unfold decode_key_or_empty. rewrite decode_enc by (inversion O1; auto). reflexivity.
  - intros p. unfold reverse_entries in E'. apply reverse_head in E'. destruct E' as (es' & E').
    rewrite E'. cbn [obind]. assert (O2: Forall version_ok (rev l)) by (apply Forall_rev; auto).
    destruct (rev l) as [|v l']; [reflexivity|]. cbn [map hd_error].
    unfold decode_key_or_empty. rewrite decode_enc by (inversion O2; auto). reflexivity.
  - intros T f s. unfold forward_entries in E.
    rewrite (forward_entries_loop f _ _ _ _ _ _ s E) by auto. reflexivity.
Qed.

Lemma visible_dec vs k ts now : vsorted vs -> (exists v, visible vs k ts now v) \/ (forall v, ~ visible vs k ts now v).
Proof.
  intros S.
  destruct (existsb (fun v => beqb (vkey v) k) (fwd (read_ts ts) now None vs)) eqn:E.
  - left. apply existsb_exists in E. destruct E as (v & I & K). apply beqb_true in K. subst k.
    exists v. apply fwd_visible; auto.
  - right. intros v V. pose proof (visible_in _ _ _ _ _ V) as [_ K]. subst k. apply fwd_visible in V; auto.
    assert (X: existsb (fun w => beqb (vkey w) (vkey v)) (fwd (read_ts ts) now None vs) = true).
    { apply existsb_exists. exists v. split; auto. apply beqb_refl. }
    congruence.
Qed.

Lemma kv_get_total st vs ts now k : represents st vs -> bytes_ok k -> k <> [] ->
  (exists v, visible vs k ts now v /\ kv_get st ts now k = Ok (ROk (vval v))) \/
  ((forall v, ~ visible vs k ts now v) /\ kv_get st ts now k = Ok RNotFound).
Proof.
  intros R Hk Hn. destruct (kv_get_spec st vs ts now k R Hk Hn) as [A B].
  apply represents_enc in R. destruct R as (_ & _ & S).
  destruct (visible_dec vs k ts now S) as [[v V]|N]; [left; exists v; auto|right; auto].
Qed.

(** a point read agrees with the scan *)
Lemma get_scan st vs ts now a b k x : represents st vs -> bytes_ok a -> bytes_ok b -> bytes_ok k ->
  a <> [] -> b <> [] -> k <> [] -> in_range (a, b) k ->
  (kv_get st ts now k = Ok (ROk x) <->
   exists l t, kv_scan st ts now a b = Ok (ROk l) /\ In (k, t, x) l).
Proof.
  intros R Ha Hb Hk Na Nb Nk Rg.
  destruct (scan_all st vs ts now a b R Ha Hb Na Nb) as (l & E & _ & _ & _ & _ & _ & _ & _ & I).
  destruct (kv_get_spec st vs ts now k R Hk Nk) as [G1 G2].
  pose proof (represents_enc _ _ R) as (_ & _ & S).
  rewrite E. split.
  - intros G. destruct (visible_dec vs k ts now S) as [[v V]|N].
    + pose proof (visible_in _ _ _ _ _ V) as [_ K]. exists (map kv_of l), (vts v). split; auto.
      rewrite (G1 v V) in G. apply Ok_inj in G. assert (x = vval v) by congruence. subst x. rewrite <- K.
      change (vkey v, vts v, vval v) with (kv_of v). apply in_map. apply I. rewrite K. auto.
    + rewrite (G2 N) in G. discriminate.
  - intros (l' & t & El & Il). apply Ok_inj in El. assert (l' = map kv_of l) by congruence. subst l'.
    apply in_map_iff in Il. destruct Il as (v & Ev & Iv). unfold kv_of in Ev.
    assert (vkey v = k) by congruence. assert (vval v = x) by congruence. subst.
    apply G1. apply I in Iv. tauto.
Qed.

Lemma scan_forward st vs ts now a b : represents st vs -> bytes_ok a -> bytes_ok b -> a <> [] -> b <> [] ->
  exists l, snapshot_of vs ts now a b l /\
    kv_scan st ts now a b = Ok (ROk (map kv_of l)) /\
    kv_count st ts now a b = Ok (ROk (Z.of_nat (length l))) /\
    (forall p, kv_min_key st ts now a b p = Ok (ROk (hd p (map vkey l)))) /\
    (forall S f s, @kv_scan_func S f s st ts now a b = Ok (ROk (fold_stop f s l))).
Proof.
  intros R Ha Hb Na Nb. destruct (scan_all st vs ts now a b R Ha Hb Na Nb) as (l & A & B & C & D & E & F & G & H & I).
  exists l. unfold snapshot_of, increasing. auto.
Qed.

Lemma scan_empty_bounds st ts now a b : a = [] \/ b = [] ->
  kv_scan st ts now a b = Ok RKeyEmpty /\ kv_count st ts now a b = Ok RKeyEmpty.
Proof. unfold kv_scan, kv_count. intros [->| ->]; [auto|]. destruct (is_empty a); auto. Qed.

Lemma scan_reverse st vs ts now a b : represents st vs -> bytes_ok a -> bytes_ok b -> a <> [] -> b <> [] ->
  exists l, forward_entries st ts now a b = Ok l /\ reverse_entries st ts now a b = Ok (rev l) /\
    exists vl, snapshot_of vs ts now a b vl /\ omap_list kv_of_entry l = Ok (map kv_of vl).
Proof.
  intros R Ha Hb Na Nb. destruct (scan_all st vs ts now a b R Ha Hb Na Nb) as (l & A & B & C & D & E & F & G & H & I).
  exists (map enc l). rewrite <- map_rev. split; auto. split; auto. exists l. split; [split; auto|].
  apply represents_enc in R. destruct R as (_ & Fo & _). destruct (scan_ok_live _ _ _ _ _ _ Fo I).
  apply (omap_list_kv now); auto.
Qed.

Lemma hd_rev_last {A} (l : list A) p : hd p (rev l) = last l p.
Proof.
  induction l as [|a l IH]; auto. cbn [rev last]. destruct l as [|b l]; auto. rewrite <- IH.
  cbn [rev]. rewrite <- app_assoc. destruct (rev l); reflexivity.
Qed.
Lemma scan_max st vs ts now a b p : represents st vs -> bytes_ok a -> bytes_ok b -> a <> [] -> b <> [] ->
  exists l, snapshot_of vs ts now a b l /\ kv_max_key st ts now a b p = Ok (ROk (last (map vkey l) p)).
Proof.
  intros R Ha Hb Na Nb. destruct (scan_all st vs ts now a b R Ha Hb Na Nb) as (l & A & B & C & D & E & F & G & H & I).
  exists l. split; [split; auto|]. rewrite D, map_rev, hd_rev_last. auto.
Qed.
