(** What an acknowledged update does when requests come one at a time. *)
From Coq Require Import ZArith List Bool Lia.
From Verif Require Import SpModel SpSpec SpProofs.
Import ListNotations.
Open Scope Z_scope.

(** the update of tenant [id] in an increment *)
Fixpoint qget (q : list tinc) (id : Z) : option tenant :=
  match q with
  | [] => None
  | TUpdate k t :: r => if id =? k then Some t else qget r id
  | _ :: r => qget r id
  end.
Definition tid (i : tinc) : Z := match i with TCreate k _ => k | TUpdate k _ => k | TDelete k => k end.

Lemma raise_sp_ids ten l q : raise_sp ten l = Some q -> forall k, In k (map tid q) -> In k (map fst l) /\ k <> 0.
Proof.
  revert q; induction l as [|[id sp] l IH]; simpl; intros q H k Hk; [injection H as <-; destruct Hk|].
  destruct (Z.eqb_spec id 0) as [|NZ]; [apply IH with (k := k) in H; tauto|].
  destruct (zget ten id) as [t|]; [|discriminate]. destruct (raise_sp ten l) as [q0|] eqn:E; [|discriminate].
  destruct (n_sp t <? sp); injection H as <-.
  - simpl in Hk. destruct Hk as [<-|Hk]; [auto|]. apply (IH _ eq_refl) in Hk. tauto.
  - apply (IH _ eq_refl) in Hk. tauto.
Qed.
Lemma qget_none q id : ~ In id (map tid q) -> qget q id = None.
Proof.
  induction q as [|x q IH]; simpl; intros H; [reflexivity|]. destruct x as [k t|k t|k]; simpl in *; auto.
  destruct (Z.eqb_spec id k); [subst; tauto|auto].
Qed.
Lemma raise_sp_get ten l : forall q, NoDup (map fst l) -> raise_sp ten l = Some q ->
  NoDup (map tid q) /\
  forall id, qget q id = if id =? 0 then None else
    match zget l id, zget ten id with
    | Some sp, Some t => if n_sp t <? sp then Some (mkTen (n_name t) (n_comment t) sp (n_rl t)) else None
    | _, _ => None
    end.
Proof.
  induction l as [|[k sp] l IH]; intros q N H.
  { simpl in H. injection H as <-. split; [constructor|]. intros id. simpl. destruct (id =? 0); reflexivity. }
  simpl in N. inversion N as [|? ? N1 N2]; subst. cbn [raise_sp] in H.
  destruct (Z.eqb_spec k 0) as [->|NZ].
  { destruct (IH _ N2 H) as (A & B). split; [exact A|]. intros id. rewrite B. cbn [zget].
    destruct (Z.eqb_spec id 0); reflexivity. }
  destruct (zget ten k) as [t|] eqn:Et; [|discriminate]. destruct (raise_sp ten l) as [q0|] eqn:E; [|discriminate].
  destruct (IH _ N2 eq_refl) as (A & B).
  assert (Nk : ~ In k (map tid q0)) by (intros C; apply N1; exact (proj1 (raise_sp_ids _ _ _ E k C))).
  destruct (n_sp t <? sp) eqn:Es; injection H as <-.
  - split; [simpl; constructor; assumption|]. intros id. cbn [qget zget].
    destruct (Z.eqb_spec id k) as [->|]; [|apply B].
    destruct (Z.eqb_spec k 0); [contradiction|]. rewrite Et, Es. reflexivity.
  - split; [exact A|]. intros id. rewrite B. cbn [zget].
    destruct (Z.eqb_spec id k) as [->|]; [|reflexivity].
    destruct (Z.eqb_spec k 0); [contradiction|]. rewrite Et, Es. rewrite (zget_none l k N1). reflexivity.
Qed.

Lemma put_rl_get q k t rl : NoDup (map tid q) -> Forall is_upd q ->
  NoDup (map tid (put_rl q k t rl)) /\ (forall i, In i (map tid (put_rl q k t rl)) -> In i (map tid q) \/ i = k) /\
  forall id, qget (put_rl q k t rl) id =
    if id =? k then Some (match qget q k with
                          | Some x => mkTen (n_name x) (n_comment x) (n_sp x) rl
                          | None => mkTen (n_name t) (n_comment t) (n_sp t) rl end)
    else qget q id.
Proof.
  intros N F. induction F as [|x q Hx Hq IH].
  { simpl. split; [repeat constructor; tauto|]. split; [intros i [<-|[]]; auto|]. intros id. destruct (id =? k); reflexivity. }
  destruct x as [|j x|]; try destruct Hx. simpl in N. inversion N as [|? ? N1 N2]; subst.
  destruct (IH N2) as (A & B & C). cbn [put_rl]. rewrite (Z.eqb_sym j k). destruct (Z.eqb_spec k j) as [->|NE].
  - simpl. split; [constructor; assumption|]. split; [intros i [<-|Hi]; auto|].
    intros id. rewrite Z.eqb_refl. destruct (id =? j); reflexivity.
  - simpl. split; [constructor; [intros D; apply B in D as [D|D]; congruence|exact A]|].
    split; [intros i [<-|Hi]; [auto|]; apply B in Hi; tauto|].
    intros id. rewrite C. destruct (Z.eqb_spec k j); [contradiction|].
    destruct (Z.eqb_spec id j) as [->|]; [|reflexivity]. destruct (Z.eqb_spec j k); [congruence|reflexivity].
Qed.
Lemma raise_rl_get ten l : forall q q2, NoDup (map fst l) -> NoDup (map tid q) -> Forall is_upd q -> raise_rl ten l q = Some q2 ->
  NoDup (map tid q2) /\ Forall is_upd q2 /\
  forall id, qget q2 id = if id =? 0 then qget q id else
    match zget l id, zget ten id with
    | Some rl, Some t =>
        if n_rl t <? rl
        then Some (match qget q id with
                   | Some x => mkTen (n_name x) (n_comment x) (n_sp x) rl
                   | None => mkTen (n_name t) (n_comment t) (n_sp t) rl end)
        else qget q id
    | _, _ => qget q id
    end.
Proof.
  induction l as [|[k rl] l IH]; intros q q2 N NQ F H.
  { simpl in H. injection H as <-. repeat split; auto. intros id. simpl. destruct (id =? 0); reflexivity. }
  simpl in N. inversion N as [|? ? N1 N2]; subst. cbn [raise_rl] in H.
  destruct (Z.eqb_spec k 0) as [->|NZ].
  { destruct (IH _ _ N2 NQ F H) as (A & B & C). do 2 (split; [assumption|]). intros id. rewrite C. cbn [zget].
    destruct (Z.eqb_spec id 0); reflexivity. }
  destruct (zget ten k) as [t|] eqn:Et; [|discriminate].
  destruct (n_rl t <? rl) eqn:Er.
  - destruct (put_rl_get q k t rl NQ F) as (P1 & _ & P3).
    destruct (IH _ _ N2 P1 (put_rl_upd _ _ _ _ F) H) as (A & B & C). do 2 (split; [assumption|]).
    intros id. rewrite C, !P3. cbn [zget].
    destruct (Z.eqb_spec id k) as [->|]; [|reflexivity].
    destruct (Z.eqb_spec k 0); [contradiction|]. rewrite (zget_none l k N1), Et, Er. reflexivity.
  - destruct (IH _ _ N2 NQ F H) as (A & B & C). do 2 (split; [assumption|]).
    intros id. rewrite C. cbn [zget].
    destruct (Z.eqb_spec id k) as [->|]; [|reflexivity].
    destruct (Z.eqb_spec k 0); [contradiction|]. rewrite (zget_none l k N1), Et, Er. reflexivity.
Qed.

Lemma apply_upds q : forall m id, NoDup (map tid q) -> Forall is_upd q ->
  zget (fold_left apply_tinc q m) id =
  match zget m id with
  | None => None
  | Some x => match qget q id with
              | None => Some x
              | Some t => match update_tenant x t with Some y => Some y | None => Some x end
              end
  end.
Proof.
  induction q as [|i q IH]; intros m id N F; [simpl; destruct (zget m id); reflexivity|].
  inversion F as [|? ? Hi Fq]; subst. destruct i as [|k t|]; try destruct Hi. simpl in N. inversion N as [|? ? N1 N2]; subst.
  cbn [fold_left qget]. rewrite (IH _ id N2 Fq). cbn [apply_tinc].
  destruct (Z.eqb_spec id k) as [->|NE].
  - rewrite (qget_none q k N1). destruct (zget m k) as [x|] eqn:E; [|rewrite E; reflexivity].
    destruct (update_tenant x t) as [y|] eqn:U; [rewrite zget_set, Z.eqb_refl|rewrite E]; reflexivity.
  - destruct (zget m k) as [x|] eqn:E; [|reflexivity].
    destruct (update_tenant x t) as [y|] eqn:U; [|reflexivity].
    rewrite zget_set. destruct (Z.eqb_spec id k); [contradiction|reflexivity].
Qed.

Definition sane (x : tenant) : Prop := 0 <= n_sp x /\ 0 <= n_rl x.
Lemma update_both x sp rl : sane x -> (n_sp x < sp \/ sp = n_sp x) -> (n_rl x < rl \/ rl = n_rl x) ->
  match update_tenant x (mkTen (n_name x) (n_comment x) sp rl) with Some y => y | None => x end
  = mkTen (n_name x) (n_comment x) sp rl.
Proof.
  destruct x as [nm cm s r]. unfold sane, update_tenant. cbn. intros S A B.
  destruct (Z.ltb_spec 0 sp); [destruct (Z.leb_spec sp s)|]; cbn;
    (destruct (Z.ltb_spec 0 rl); [destruct (Z.ltb_spec rl r); cbn; [lia|]; destruct (Z.eqb_spec rl r); cbn|]);
    try (destruct (Z.leb_spec s s)); try (destruct (Z.leb_spec sp s)); cbn; try lia; f_equal; lia.
Qed.

Lemma update_exact ten tsp trl q q2 id x :
  NoDup (map fst tsp) -> NoDup (map fst trl) -> raise_sp ten tsp = Some q -> raise_rl ten trl q = Some q2 ->
  zget ten id = Some x -> sane x ->
  zget (fold_left apply_tinc q2 ten) id =
  Some (mkTen (n_name x) (n_comment x) (if id =? 0 then n_sp x else raised (n_sp x) (zget tsp id))
              (if id =? 0 then n_rl x else raised (n_rl x) (zget trl id))).
Proof.
  intros N1 N2 Q1 Q2 E S. destruct (raise_sp_get _ _ _ N1 Q1) as (A & B).
  destruct (raise_rl_get _ _ _ _ N2 A (raise_sp_upd _ _ _ Q1) Q2) as (C & D & G).
  rewrite (apply_upds _ _ _ C D), E, (G id), (B id), E.
  destruct (id =? 0); [destruct x; reflexivity|].
  assert (K : forall t, t = x -> Some x = Some t) by (intros; congruence).
  assert (U : forall sp rl, (n_sp x < sp \/ sp = n_sp x) -> (n_rl x < rl \/ rl = n_rl x) ->
     (match update_tenant x (mkTen (n_name x) (n_comment x) sp rl) with Some y => Some y | None => Some x end)
     = Some (mkTen (n_name x) (n_comment x) sp rl)).
  { intros sp rl H1 H2. pose proof (update_both x sp rl S H1 H2) as P.
    destruct (update_tenant x _); congruence. }
  unfold raised. destruct (zget trl id) as [rl|]; destruct (zget tsp id) as [sp|];
    try (destruct (Z.ltb_spec (n_rl x) rl)); try (destruct (Z.ltb_spec (n_sp x) sp)); cbn [n_name n_comment n_sp n_rl];
    try (rewrite U by lia); try (apply K; destruct x; cbn in *); f_equal; f_equal; try lia; destruct x; cbn in *; f_equal; lia.
Qed.

(** * Calm histories *)
Definition quiet (c : coor) : Prop :=
  c_pend c = [] /\ c_tsp c = c_sp c /\ c_trl c = c_rl c /\ 0 <= c_sp c /\ 0 <= c_rl c /\
  (forall id x, zget (c_ten c) id = Some x -> sane x).

Lemma settled_none c : c_pend c = [] -> settled c = c.
Proof. unfold settled. intros ->. reflexivity. Qed.
Lemma settled_one c i : c_pend c = [i] -> settled c = apply_inc c i [].
Proof. unfold settled. intros E. rewrite E. cbn [map fold_left cstep]. rewrite E. reflexivity. Qed.

Lemma flag_cases f now stop is :
  match f with
  | FNone => Some (now, None)
  | FStop => Some (true, if now : bool then None else Some true)
  | FStart => Some (false, if now then Some false else None)
  | FOther => None
  end = Some (stop, is) -> stop = flag_after f now /\ (match is with Some b => b | None => now end) = flag_after f now /\ f <> FOther.
Proof. destruct f; intros H; try discriminate; injection H as <- <-; destruct now; repeat split; try discriminate; reflexivity. Qed.

Lemma calm_ask_exact c u c1 r : quiet c -> NoDup (map fst (u_tsp u)) -> NoDup (map fst (u_trl u)) -> ask c u = (c1, Some r) ->
  let c2 := settled c1 in
  c_sp c2 = Z.max (c_sp c) (u_sp u) /\ c_rl c2 = Z.max (c_rl c) (u_rl u) /\
  c_tsp c2 = c_sp c2 /\ c_trl c2 = c_rl c2 /\ c_pend c2 = [] /\
  c_stop c2 = flag_after (u_flag u) (c_stop c) /\ r_stop r = c_stop c2 /\
  (forall id, zget (c_ten c2) id = option_map (after_update u id) (zget (c_ten c) id)).
Proof.
  intros (P & T1 & T2 & S1 & S2 & SN) N1 N2 H. unfold ask in H.
  destruct (match u_flag u with FNone => _ | FStop => _ | FStart => _ | FOther => _ end) as [[stop is]|] eqn:EF; [|discriminate].
  apply flag_cases in EF as (F1 & F2 & _).
  destruct (raise_sp (c_ten c) (u_tsp u)) as [q|] eqn:E1; [|discriminate].
  destruct (raise_rl (c_ten c) (u_trl u) q) as [q2|] eqn:E2; [|discriminate].
  assert (TE : forall id, zget (fold_left apply_tinc q2 (c_ten c)) id = option_map (after_update u id) (zget (c_ten c) id)).
  { intros id. destruct (zget (c_ten c) id) as [x|] eqn:E.
    - rewrite (update_exact _ _ _ _ _ _ _ N1 N2 E1 E2 E (SN _ _ E)). reflexivity.
    - destruct (raise_sp_get _ _ _ N1 E1) as (A & B).
      destruct (raise_rl_get _ _ _ _ N2 A (raise_sp_upd _ _ _ E1) E2) as (C & D & _).
      rewrite (apply_upds _ _ _ C D), E. reflexivity. }
  rewrite T1, T2 in H.
  set (isp := if u_sp u <=? c_sp c then None else Some (u_sp u)) in H.
  set (irl := if u_rl u <=? c_rl c then None else Some (u_rl u)) in H.
  assert (B1 : bump (c_sp c) isp = Z.max (c_sp c) (u_sp u)).
  { unfold isp. destruct (Z.leb_spec (u_sp u) (c_sp c)); cbn; [lia|]. destruct (Z.ltb_spec (c_sp c) (u_sp u)); lia. }
  assert (B2 : bump (c_rl c) irl = Z.max (c_rl c) (u_rl u)).
  { unfold irl. destruct (Z.leb_spec (u_rl u) (c_rl c)); cbn; [lia|]. destruct (Z.ltb_spec (c_rl c) (u_rl u)); lia. }
  assert (D : (isp = None /\ irl = None /\ is = None /\ q2 = [] /\ c1 = with_temp c (u_sp u) (u_rl u)
               \/ c1 = propose (with_temp c (u_sp u) (u_rl u)) (mkInc isp irl is q2)) /\ r_stop r = stop).
  { destruct isp, irl, is, q2; injection H as <- <-; split; auto; left; auto 10. }
  destruct D as ([(D1 & D2 & D3 & D4 & ->)| ->] & RS); cbv zeta.
  - rewrite settled_none by exact P. rewrite D1 in B1. rewrite D2 in B2. rewrite D4 in TE. cbn in B1, B2, TE.
    cbn. rewrite RS. rewrite D3 in F2. repeat split; try congruence; try lia; auto.
  - rewrite (settled_one _ (mkInc isp irl is q2)) by (cbn; rewrite P; reflexivity).
    cbn. rewrite B1, B2, RS. repeat split; try congruence; try lia; auto.
Qed.

Lemma after_sane u id x : sane x -> sane (after_update u id x).
Proof.
  unfold sane, after_update. cbn. intros [A B]. split; destruct (id =? 0); try lia.
  - unfold raised. destruct (zget (u_tsp u) id); lia.
  - unfold raised. destruct (zget (u_trl u) id); lia.
Qed.

Lemma raise_sp_none ten l : raise_sp ten l <> None <-> (forall id v, In (id, v) l -> id = 0 \/ zget ten id <> None).
Proof.
  induction l as [|[k sp] l IH]; cbn [raise_sp]; [split; [intros _ id v []|discriminate]|].
  destruct (Z.eqb_spec k 0) as [->|NZ].
  { rewrite IH. split; intros H id v Hi; [destruct Hi as [[= <- <-]|Hi]; [auto|eauto]|apply (H id v); right; exact Hi]. }
  destruct (zget ten k) as [t|] eqn:E.
  - destruct (raise_sp ten l) as [q|]; split.
    + intros _ id v [[= <- <-]|Hi]; [right; congruence|]. apply (proj1 IH ltac:(discriminate) id v Hi).
    + intros _. destruct (n_sp t <? sp); discriminate.
    + congruence.
    + intros H. exfalso. apply (proj2 IH); [|reflexivity]. intros id v Hi. apply (H id v). right. exact Hi.
  - split; [congruence|]. intros H. exfalso. destruct (H k sp (or_introl eq_refl)); contradiction.
Qed.
Lemma raise_rl_none ten l : forall q, raise_rl ten l q <> None <-> (forall id v, In (id, v) l -> id = 0 \/ zget ten id <> None).
Proof.
  induction l as [|[k rl] l IH]; intros q; cbn [raise_rl]; [split; [intros _ id v []|discriminate]|].
  destruct (Z.eqb_spec k 0) as [->|NZ].
  { rewrite IH. split; intros H id v Hi; [destruct Hi as [[= <- <-]|Hi]; [auto|eauto]|apply (H id v); right; exact Hi]. }
  destruct (zget ten k) as [t|] eqn:E.
  - rewrite IH. split; intros H id v Hi; [destruct Hi as [[= <- <-]|Hi]; [right; congruence|eauto]|apply (H id v); right; exact Hi].
  - split; [congruence|]. intros H. exfalso. destruct (H k rl (or_introl eq_refl)); contradiction.
Qed.
Lemma ask_accepts c u : (exists r, snd (ask c u) = Some r) <-> servable c u.
Proof.
  unfold servable, ask. split.
  - intros [r H].
    destruct (match u_flag u with FNone => _ | FStop => _ | FStart => _ | FOther => _ end) as [[stop is]|] eqn:EF; [|discriminate].
    apply flag_cases in EF as (_ & _ & F). split; [exact F|].
    destruct (raise_sp (c_ten c) (u_tsp u)) as [q|] eqn:E1; [|discriminate].
    destruct (raise_rl (c_ten c) (u_trl u) q) as [q2|] eqn:E2; [|discriminate].
    intros id v [Hi|Hi].
    + apply (proj1 (raise_sp_none (c_ten c) (u_tsp u)) ltac:(congruence) id v Hi).
    + apply (proj1 (raise_rl_none (c_ten c) (u_trl u) q) ltac:(congruence) id v Hi).
  - intros [F H]. destruct (u_flag u) eqn:EF; try contradiction;
    (destruct (raise_sp (c_ten c) (u_tsp u)) as [q|] eqn:E1;
      [|exfalso; apply (proj2 (raise_sp_none (c_ten c) (u_tsp u))); [|exact E1]; intros id v Hi; eauto];
     destruct (raise_rl (c_ten c) (u_trl u) q) as [q2|] eqn:E2;
      [|exfalso; apply (proj2 (raise_rl_none (c_ten c) (u_trl u) q)); [|exact E2]; intros id v Hi; eauto];
     destruct (u_sp u <=? c_tsp c), (u_rl u <=? c_trl c), (c_stop c), q2; cbn [snd]; eauto).
Qed.


Lemma quiet_one c t : quiet c -> (forall id x, zget (apply_tinc (c_ten c) t) id = Some x -> sane x) -> quiet (settled (propose c (only t))).
Proof.
  intros (P & T1 & T2 & S1 & S2 & SN) H. rewrite (settled_one _ (only t)) by (cbn; rewrite P; reflexivity).
  unfold quiet. cbn [apply_inc only propose c_pend c_tsp c_trl c_sp c_rl c_ten i_sp i_rl i_tens i_stop bump fold_left]. auto 10.
Qed.
Lemma calm_quiet c : calm c -> quiet c.
Proof.
  induction 1 as [|c u c1 r H IH [N1 N2] A|c e H IH E|c H IH].
  - unfold quiet. cbn. repeat split; try lia; discriminate.
  - destruct (calm_ask_exact _ _ _ _ IH N1 N2 A) as (V1 & V2 & V3 & V4 & V5 & _ & _ & V8).
    destruct IH as (P & T1 & T2 & S1 & S2 & SN).
    split; [exact V5|]. split; [exact V3|]. split; [exact V4|]. split; [lia|]. split; [lia|].
    intros id x Hx. rewrite V8 in Hx. destruct (zget (c_ten c) id) as [y|] eqn:Ey; [|discriminate].
    cbn in Hx. injection Hx as <-. apply after_sane. exact (SN _ _ Ey).
  - assert (Q : quiet (settled c)) by (rewrite settled_none; [exact IH|exact (proj1 IH)]).
    pose proof IH as (_ & _ & _ & _ & _ & SN).
    destruct e as [u|p|p| |k nm cm|k|k nm cm]; try destruct E; cbn [cstep].
    + destruct (k =? 0); [exact Q|]. destruct (zget (c_ten c) k) eqn:Ek; [exact Q|]. apply quiet_one; [exact IH|].
      intros id x. cbn [apply_tinc]. rewrite zget_set. destruct (id =? k); [intros [= <-]; split; cbn; lia|eauto].
    + destruct (k <=? 0); [exact Q|]. destruct (zget (c_ten c) k) eqn:Ek; [|exact Q]. apply quiet_one; [exact IH|].
      intros id x. cbn [apply_tinc]. rewrite zget_del. destruct (id =? k); [discriminate|eauto].
    + destruct (k <=? 0); [exact Q|]. destruct (zget (c_ten c) k) as [y|] eqn:Ek; [|exact Q]. apply quiet_one; [exact IH|].
      intros id x. cbn [apply_tinc]. rewrite Ek. unfold update_tenant. cbn. destruct (Z.eqb_spec id k) as [->|].
      * intros [= <-]. exact (SN _ _ Ek).
      * rewrite zget_del. destruct (Z.eqb_spec id k); [contradiction|eauto].
  - destruct IH as (P & T1 & T2 & S1 & S2 & SN). unfold quiet. cbn. auto 10.
Qed.
Lemma calm_update c u c1 r : calm c -> proper u -> ask c u = (c1, Some r) ->
  let c2 := settled c1 in
  w_sp (get_gc c2) = Z.max (w_sp (get_gc c)) (u_sp u) /\ w_rl (get_gc c2) = Z.max (w_rl (get_gc c)) (u_rl u) /\
  c_sp c2 = w_sp (get_gc c2) /\ c_rl c2 = w_rl (get_gc c2) /\
  w_stop (get_gc c2) = flag_after (u_flag u) (w_stop (get_gc c)) /\ r_stop r = w_stop (get_gc c2) /\
  (forall id, zget (c_ten c2) id = option_map (after_update u id) (zget (c_ten c) id)).
Proof.
  intros K [N1 N2] A. apply calm_quiet in K.
  destruct (calm_ask_exact _ _ _ _ K N1 N2 A) as (V1 & V2 & V3 & V4 & V5 & V6 & V7 & V8).
  destruct K as (P & T1 & T2 & _). cbn. repeat split; try congruence; exact V8.
Qed.
Lemma refused_ask c u c1 : ask c u = (c1, None) ->
  c_sp c1 = c_sp c /\ c_rl c1 = c_rl c /\ c_stop c1 = c_stop c /\ c_ten c1 = c_ten c /\ c_pend c1 = c_pend c.
Proof.
  intros H. unfold ask in H.
  destruct (match u_flag u with FNone => _ | FStop => _ | FStart => _ | FOther => _ end) as [[stop is]|].
  2:{ injection H as <-. auto 10. }
  destruct (raise_sp (c_ten c) (u_tsp u)) as [q|] eqn:E1.
  2:{ injection H as <-. cbn. auto 10. }
  destruct (raise_rl (c_ten c) (u_trl u) q) as [q2|] eqn:E2.
  2:{ injection H as <-. cbn. auto 10. }
  exfalso. destruct (u_sp u <=? c_tsp c), (u_rl u <=? c_trl c), is, q2; discriminate.
Qed.
