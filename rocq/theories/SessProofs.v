(** Proofs about one page and about the invariant of the sessions. *)
From Coq Require Import ZArith List Bool Lia Sorted PeanoNat.
From Verif Require Import Bytes Outcome CodecModel CodecSpec MvccModel MvccSpec MvccProofs SessModel SessSpec.
Import ListNotations.
Open Scope Z_scope.

(** ** Pages *)

(** The iterator stands before [rem], the versions still to be reported. *)
Definition at_pos (ts now : Z) (it : iter) (rem : list version) : Prop :=
  exists q vs, it = (prev_of q, map enc vs) /\ Forall version_ok vs /\
    (forall k, q = Some k -> bytes_ok k) /\
    match vs with
    | [] => rem = []
    | v :: r => q = Some (vkey v) /\ liveb now v = true /\ rem = v :: fwd ts now q r
    end.

Lemma nv_live ts now vs : forall p v r, snd (nv ts now p vs) = v :: r -> liveb now v = true.
Proof.
  induction vs as [|x vs IH]; intros p v r; cbn [nv]; [discriminate|].
  destruct (okeyb (vkey x) p); eauto. destruct (ts <? vts x); eauto. destruct (liveb now x) eqn:E; eauto.
  cbn [snd]. intros H; injection H as -> ->. auto.
Qed.

Lemma next_pos ts now vs q : Forall version_ok vs -> (forall k, q = Some k -> bytes_ok k) ->
  exists it, next_visible ts now (prev_of q) (map enc vs) = Ok it /\ at_pos ts now it (fwd ts now q vs) /\
    (length (snd it) <= length vs)%nat.
Proof.
  intros F Hq. destruct (next_visible_nv ts now vs q F Hq) as (E & B & F').
  exists (prev_of (fst (nv ts now q vs)), map enc (snd (nv ts now q vs))). split; [exact E|].
  split; [|cbn [snd]; rewrite map_length; apply nv_length].
  exists (fst (nv ts now q vs)), (snd (nv ts now q vs)).
  split; [reflexivity|]. split; [exact F'|]. split; [exact B|].
  rewrite (fwd_nv ts now vs q).
  destruct (snd (nv ts now q vs)) as [|v r] eqn:Es; auto.
  pose proof (nv_head _ _ _ _ _ _ Es) as H. split; [exact H|]. split; [eapply nv_live; eauto|].
  rewrite H. cbn [fwd okeyb]. rewrite beqb_refl. reflexivity.
Qed.

Lemma page_bytes_cons kv page : page_bytes (kv :: page) =
  Z.of_nat (length (fst kv)) + Z.of_nat (length (snd kv)) + page_bytes page.
Proof. reflexivity. Qed.

Lemma page_bytes_nonneg page : 0 <= page_bytes page.
Proof. induction page as [|kv page IH]; [cbn; lia|]. rewrite page_bytes_cons. lia. Qed.

Lemma pair_of_enc ko now v : version_ok v -> liveb now v = true -> pair_of ko (enc v) = Ok (reported ko v).
Proof.
  intros V L. unfold pair_of, decode_key_or_empty. rewrite decode_enc by auto. cbn [omap obind fst snd].
  destruct ko; [reflexivity|]. rewrite (unpackage_live now) by auto. reflexivity.
Qed.

Lemma fetch_ok mc mb ko ts now : forall fuel cnt sz it rem,
  at_pos ts now it rem -> (length (snd it) < fuel)%nat -> 0 <= cnt < mc ->
  exists page more it' rem', fetch fuel mc mb ko ts now cnt sz it = Ok (page, more, it') /\
    map (reported ko) rem = page ++ map (reported ko) rem' /\ at_pos ts now it' rem' /\
    (more = false -> rem' = []) /\ (page = [] -> rem = []) /\
    cnt + Z.of_nat (length page) <= mc /\
    ((length page <= 1)%nat \/ sz + page_bytes (removelast page) < mb) /\
    (more = true -> cnt + Z.of_nat (length page) = mc \/ mb <= sz + page_bytes page).
Proof.
  induction fuel as [|fuel IH]; intros cnt sz it rem P Hf Hc; [lia|].
  destruct P as (q & vs & -> & F & Hq & P). cbn [snd] in Hf. cbn [fetch snd fst].
  destruct vs as [|v r].
  - subst rem. cbn [map]. exists [], false, (prev_of q, []), [].
    split; [reflexivity|]. split; [reflexivity|]. split; [exists q, []; auto|].
    split; [auto|]. split; [auto|]. split; [cbn [length]; lia|]. split; [left; cbn; lia|]. discriminate.
  - destruct P as (-> & L & ->). inversion F as [|? ? V Fr]; subst.
    cbn [map]. rewrite (pair_of_enc ko now) by auto. cbn [obind].
    destruct (next_pos ts now (v :: r) (Some (vkey v)) F Hq) as (it' & E & P' & Ln).
    assert (Lr : (length (snd it') <= length r)%nat /\ fwd ts now (Some (vkey v)) (v :: r) = fwd ts now (Some (vkey v)) r).
    { split; [|cbn [fwd okeyb]; rewrite beqb_refl; reflexivity].
      destruct (next_visible_nv ts now (v :: r) (Some (vkey v)) F Hq) as (E2 & _).
      rewrite E in E2. assert (E3 := f_equal (fun o => match o with Ok x => x | Crash => it' end) E2). cbn beta iota in E3. rewrite E3. cbn [snd]. rewrite map_length. rewrite nv_skip. apply nv_length. }
    destruct Lr as [Lr Ef]. rewrite Ef in P'.
    destruct (upto_limit mc mb ko cnt sz (reported ko v)) as [[full cnt'] sz'] eqn:U.
    cbn [map] in E. rewrite E. cbn [obind].
    cbn [map length] in Hf. rewrite map_length in Hf.
    assert (B : Z.of_nat (length (fst (reported ko v))) + (if ko then 0 else Z.of_nat (length (snd (reported ko v))))
                = page_bytes [reported ko v]).
    { destruct ko; cbn; lia. }
    destruct full.
    + exists [reported ko v], true, it', (fwd ts now (Some (vkey v)) r).
      split; [reflexivity|]. split; [reflexivity|]. split; [exact P'|]. split; [discriminate|]. split; [discriminate|].
      unfold upto_limit in U. destruct (mc <=? cnt + 1) eqn:M.
      * apply Z.leb_le in M. cbn [length]. split; [lia|]. split; [left; lia|]. intros _; left; lia.
      * apply Z.leb_gt in M. cbv zeta in U. rewrite <- Z.add_assoc, B in U. remember (page_bytes [reported ko v]) as pb eqn:Hpb. injection U as U1 U2 U3. apply Z.leb_le in U1.
        cbn [length]. split; [lia|]. split; [left; lia|]. intros _; right; lia.
    + unfold upto_limit in U. destruct (mc <=? cnt + 1) eqn:M; [discriminate|]. apply Z.leb_gt in M.
      cbv zeta in U. rewrite <- Z.add_assoc, B in U. remember (page_bytes [reported ko v]) as pb eqn:Hpb. injection U as U1 U2 U3. apply Z.leb_gt in U1.
      destruct (IH cnt' sz' it' _ P') as (page & more & it'' & rem' & E' & R1 & R2 & R3 & R4 & R5 & R6 & R7); [lia|lia|].
      rewrite E'. cbn [obind]. exists (reported ko v :: page), more, it'', rem'.
      split; [reflexivity|]. split; [cbn [map app]; rewrite R1; reflexivity|]. split; [exact R2|].
      split; [exact R3|]. split; [discriminate|]. cbn [length]. split; [lia|].
      rewrite page_bytes_cons in Hpb. change (page_bytes []) with 0 in Hpb. rewrite page_bytes_cons.
      split.
      * destruct page as [|k2 p2]; [left; cbn; lia|right].
        change (removelast (reported ko v :: k2 :: p2)) with (reported ko v :: removelast (k2 :: p2)).
        rewrite page_bytes_cons. destruct R6 as [R6|R6]; [|lia].
        destruct p2; [|cbn in R6; lia]. change (page_bytes (removelast [k2])) with 0. lia.
      * intros Hm. destruct (R7 Hm) as [X|X]; [left; lia|right; lia].
Qed.

(** The limit of a page: min of the request's and the server's, a negative one
    counting as none. *)
Lemma count_limit_pos g max : max <> 0 -> int64 max -> 0 < c_count g < 2 ^ 63 ->
  0 < count_limit max (c_count g).
Proof.
  intros H R C. unfold int64 in R. unfold count_limit. destruct (Z_lt_le_dec max 0).
  - rewrite Z.min_l by lia. rewrite <- (Z_mod_plus_full max 1). rewrite Z.mod_small; lia.
  - rewrite Z.mod_small; lia.
Qed.

Lemma first_page_ok g b st vs now : represents st vs -> bytes_ok (b_start b) -> bytes_ok (b_end b) ->
  0 < c_count g < 2 ^ 63 -> int64 (b_max b) ->
  exists l page more it rem, snapshot_of vs (b_ts b) now (b_start b) (b_end b) l /\
    first_page g b st now = Ok (page, more, it) /\
    map (reported (b_key_only b)) l = page ++ map (reported (b_key_only b)) rem /\
    at_pos (read_ts (b_ts b)) now it rem /\
    (if 0 <? b_max b then page_fits (Z.min (b_max b) (c_count g)) (c_bytes g) page else page = []).
Proof.
  intros R Ha Hb C M. unfold int64 in M. apply represents_enc in R. destruct R as (-> & F & S).
  unfold first_page. rewrite seek_range by auto.
  set (vr := filter (fun v => in_rangeb (b_start b) (b_end b) (vkey v)) vs).
  assert (Fr : Forall version_ok vr) by (apply Forall_filter; auto).
  assert (Sr : vsorted vr) by (apply SSorted_filter; auto).
  exists (fwd (read_ts (b_ts b)) now None vr).
  assert (SN : snapshot_of vs (b_ts b) now (b_start b) (b_end b) (fwd (read_ts (b_ts b)) now None vr)).
  { split; [apply fwd_sorted; auto; intros ? ?; discriminate|].
    intros v. rewrite fwd_visible by auto. split.
    - intros H. assert (Q : in_rangeb (b_start b) (b_end b) (vkey v) = true).
      { apply visible_in in H; destruct H as [H _]; apply filter_In in H; tauto. }
      split; [apply in_rangeb_iff; auto|]. apply visible_filter in H; auto. intros v' E. rewrite E. auto.
    - intros [Q H]. apply in_rangeb_iff in Q. apply visible_filter; auto. intros v' E. rewrite E. auto. }
  destruct (next_pos (read_ts (b_ts b)) now vr None Fr) as (it & E & P & Ln); [discriminate|].
  change (prev_of None) with (@nil Z) in E. rewrite E. cbn [obind].
  destruct (0 <? b_max b) eqn:Z0.
  - apply Z.ltb_lt in Z0.
    destruct (fetch_ok (count_limit (b_max b) (c_count g)) (c_bytes g) (b_key_only b) (read_ts (b_ts b)) now
                (Datatypes.S (length (snd it))) 0 0 it _ P) as (page & more & it' & rem' & E' & R1 & R2 & R3 & R4 & R5 & R6 & R7);
      [lia|split; [lia|apply count_limit_pos; unfold int64; lia]|].
    exists page, more, it', rem'. split; [exact SN|]. split; [exact E'|]. split; [exact R1|]. split; [exact R2|].
    assert (CL : count_limit (b_max b) (c_count g) = Z.min (b_max b) (c_count g)) by (apply Z.mod_small; lia).
    rewrite CL in R5. split; [lia|]. destruct R6; auto.
  - exists [], false, it, (fwd (read_ts (b_ts b)) now None vr).
    split; [exact SN|]. split; [reflexivity|]. split; [reflexivity|]. split; [exact P|reflexivity].
Qed.
