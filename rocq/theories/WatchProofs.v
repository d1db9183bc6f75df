(** The events of the log: the machine's operations against the specification. *)
From Coq Require Import ZArith List Lia Bool Sorted.
From Verif Require Import Bytes SMap KvModel KvSpec KvProofs KvProofs2 KvProofs3 WatchModel WatchSpec LeaseProofs.
Import ListNotations.
Open Scope Z_scope.

(** ** One operation *)

(** create revisions are positive *)
Definition CPos (s : kvst) : Prop := forall r v, k_revs s r = Some v -> v_del v = false -> 0 < fst (v_create v).

Lemma prev_spec hi s key : Inv hi s -> CPos s -> prev_kv s key = before (look s key).
Proof.
  intros H Hc. unfold prev_kv, look. destruct (iget (k_index s) key) as [i|] eqn:E; [|auto].
  pose proof (inv_idx _ _ H key i E) as W. destruct (live_idx i) eqn:L.
  - destruct (wf_live _ _ _ _ W L) as (gs & g & c & rs & v & Eg & _ & C & _ & Ev & K & Ec & Em & Er & Ed).
    rewrite Eg, last_gen_app, C, Ev. simpl. pose proof (Hc _ _ Ev Ed) as P. rewrite Ec in P.
    destruct (Z.ltb_spec 0 (fst c)); [|lia]. unfold before. simpl. rewrite K, Ec, Em, Er. auto.
  - destruct (wf_dead _ _ _ _ W L) as (gs & Eg & _). rewrite Eg, last_gen_app. auto.
Qed.

Lemma event_spec hi s r o : Inv hi s -> CPos s -> takes_revision o = true ->
  op_event s r o = spec_event (fst r) (abs s) o \/
  (exists key, o = ODel key /\ look s key = None /\ op_event s r o = None).
Proof.
  intros H Hc T. destruct o as [key il lid iv value|key|key c]; [| |discriminate].
  - left. cbn [op_event spec_event spec_op]. unfold put_record, spec_put. simpl st_data. simpl st_leases.
    rewrite (prev_spec _ _ _ H Hc).
    destruct (put_index (iget (k_index s) key) r) as [[i c] ver] eqn:Hp.
    pose proof (put_index_look _ _ _ _ _ _ _ H Hp) as Hlook.
    destruct (last_record _ _ key H) as [Ev El]. rewrite Ev, El. clear Ev El. simpl v_lease. simpl v_value. simpl v_create. simpl v_ver.
    set (l := if il then _ else lid).
    unfold has_lease.
    replace (match lget (k_leases s) l with Some _ => false | None => true end)
      with (negb (match lget (k_leases s) l with Some _ => true | None => false end))
      by (destruct (lget (k_leases s) l); auto).
    destruct ((0 <? l) && negb _); auto. simpl. rewrite set_key_same. clearbody l.
    destruct (look s key) as [o|]; destruct Hlook as [Ec Ever]; rewrite Ever, Ec; auto.
  - cbn [op_event spec_event]. simpl st_data. rewrite (prev_spec _ _ _ H Hc).
    destruct (iget (k_index s) key) as [i|] eqn:E.
    2:{ right. exists key. unfold look. rewrite E. auto. }
    left. pose proof (inv_idx _ _ H key i E) as W. unfold delete_index, look. rewrite E.
    destruct (live_idx i) eqn:L.
    + destruct (wf_live _ _ _ _ W L) as (gs & g & c & rs & v & Eg & _ & C & _ & Ev & K & Ec & Em & Er & Ed).
      rewrite Eg, last_gen_app, C, Ev. simpl. rewrite Ec, Er. auto.
    + destruct (wf_dead _ _ _ _ W L) as (gs & Eg & _). rewrite Eg, last_gen_app. auto.
Qed.

Lemma cpos_rput s r v index : CPos s -> (v_del v = false -> 0 < fst (v_create v)) ->
  CPos (mkS index (rput (k_revs s) r (Some v)) (k_leases s) (k_rev s) (k_applied s) (k_srev s) (k_sapplied s)).
Proof.
  intros H Hv r0 v0. simpl. unfold rput. destruct (reqb r0 r); [|apply H]. intros E. inversion E; subst. auto.
Qed.

Lemma cpos_op hi s r o : Inv hi s -> CPos s -> 0 < fst r -> takes_revision o = true -> CPos (performs s (op_effs s r o)).
Proof.
  intros H Hc Hp T. destruct o as [key il lid iv value|key|key c]; [| |discriminate]; cbn [op_effs].
  - unfold put_effs, put_record.
    destruct (put_index (iget (k_index s) key) r) as [[i c] ver] eqn:E.
    assert (P : 0 < fst c).
    { destruct (iget (k_index s) key) as [i0|] eqn:Ei; simpl in E.
      2:{ injection E as _ <- _. auto. }
      pose proof (inv_idx _ _ H key i0 Ei) as W. destruct (live_idx i0) eqn:L.
      - destruct (wf_live _ _ _ _ W L) as (gs & g & c0 & rs & v & Eg & _ & C & _ & Ev & K & Ec & Em & Er & Ed).
        rewrite Eg, last_gen_app, C in E. injection E as _ <- _. rewrite <- Ec. eapply Hc; eauto.
      - destruct (wf_dead _ _ _ _ W L) as (gs & Eg & _). rewrite Eg, last_gen_app in E. simpl in E. injection E as _ <- _. auto. }
    set (v := mkV _ _ _ _ _ _ _). destruct (_ && _); [exact Hc|].
    change (performs s [ERev r v; EIdx key i]) with
      (mkS (iput (k_index s) key i) (rput (k_revs s) r (Some v)) (k_leases s) (k_rev s) (k_applied s) (k_srev s) (k_sapplied s)).
    apply cpos_rput; auto.
  - unfold delete_effs. destruct (iget (k_index s) key) as [i|]; [|exact Hc].
    destruct (delete_index i r) as [[i' c] ver].
    set (v := mkV _ _ _ _ _ _ _).
    change (performs s [EIdx key i'; ERev r v]) with
      (mkS (iput (k_index s) key i') (rput (k_revs s) r (Some v)) (k_leases s) (k_rev s) (k_applied s) (k_srev s) (k_sapplied s)).
    apply cpos_rput; auto. discriminate.
Qed.

(** effects that only drop records *)
Lemma performs_revs_less es : forall s, (forall e, In e es -> match e with ERev _ _ => False | _ => True end) ->
  forall r v, k_revs (performs s es) r = Some v -> k_revs s r = Some v.
Proof.
  induction es as [|e es IH]; intros s H r v E; [auto|].
  change (performs s (e :: es)) with (performs (perform s e) es) in E.
  apply IH in E; [|intros; apply H; right; auto].
  specialize (H e (or_introl eq_refl)). destruct e; simpl in *; auto; try contradiction.
  unfold rput in E. destruct (reqb r r0); [discriminate|auto].
Qed.

Lemma cpos_compact s key c : CPos s -> CPos (performs s (compact_effs s key c)).
Proof.
  intros H r v E. apply H with (r := r). eapply performs_revs_less; [|exact E].
  unfold compact_effs. intros e He. destruct (iget (k_index s) key) as [i|]; [|destruct He].
  destruct (i_gens i); [destruct He|]. destruct (compact_gens c _) as [gs out].
  destruct He as [<-|He]; [destruct gs; auto|]. apply in_map_iff in He. destruct He as (x & <- & _). auto.
Qed.

Lemma cpos_lops s ls : CPos s -> CPos (performs s (map lop_eff ls)).
Proof.
  intros H r v E. apply H with (r := r). eapply performs_revs_less; [|exact E].
  intros e He. apply in_map_iff in He. destruct He as (x & <- & _). destruct x; exact I.
Qed.
