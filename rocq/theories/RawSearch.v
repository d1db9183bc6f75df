(** Search for a sequential explanation of a given history; used to show that concrete
    histories have none. *)
From Coq Require Import ZArith List Bool Lia.
From Verif Require Import Bytes SMap Outcome CodecModel CodecSpec CodecProofs2 MvccModel RawModel RawSpec.
Import ListNotations.
Open Scope Z_scope.

Fixpoint list_eqb {A} (f : A -> A -> bool) (a b : list A) : bool :=
  match a, b with
  | [], [] => true
  | x :: a', y :: b' => f x y && list_eqb f a' b'
  | _, _ => false
  end.
Lemma list_eqb_refl {A} (f : A -> A -> bool) : (forall x, f x x = true) -> forall l, list_eqb f l l = true.
Proof. intros H. induction l as [|x l IH]; cbn; auto. rewrite H, IH. auto. Qed.

Definition resp_eqb (a b : resp) : bool :=
  match a, b with
  | PVals x, PVals y => list_eqb (fun p q => list_eqb Z.eqb (fst p) (fst q) && list_eqb Z.eqb (snd p) (snd q)) x y
  | PStates x, PStates y => list_eqb Bool.eqb x y
  | PNotFound, PNotFound | PDone, PDone | PIllegal, PIllegal | PReject, PReject | PUnknown, PUnknown => true
  | _, _ => false
  end.
Lemma resp_eqb_refl r : resp_eqb r r = true.
Proof.
  destruct r; cbn; auto.
  - apply list_eqb_refl. intros [a b]. cbn. rewrite !(list_eqb_refl Z.eqb Z.eqb_refl). auto.
  - apply list_eqb_refl. apply eqb_reflx.
Qed.

(** the states after a visible event *)
Definition after (L : lin) (e : event) : list lin :=
  let '(mkL m now c) := L in
  match e with
  | ETime t => [mkL m t c]
  | EInv id q t => if t =? now then [mkL m now (set_call c id (Some (Waiting q now [])))] else []
  | ERes id r =>
      match c id with
      | Some (Acted r') => if resp_eqb r r' then [mkL m now (set_call c id None)] else []
      | Some (Waiting (RGet keys) t seen) =>
          if Nat.eqb (length seen) (length keys) && resp_eqb r (get_answer keys seen)
          then [mkL m now (set_call c id None)] else []
      | _ => []
      end ++
      match c id with Some (Waiting _ _ _) => if resp_eqb r PReject then [mkL m now (set_call c id None)] else [] | _ => [] end ++
      match c id with Some _ => if resp_eqb r PUnknown then [L] else [] | None => [] end
  end.

(** the state after request [id] acts *)
Definition acts (range : bytes * bytes) (L : lin) (id : Z) : list lin :=
  let '(mkL m now c) := L in
  match c id with
  | Some (Waiting (RGet keys) t seen) =>
      match nth_error keys (length seen) with
      | Some k => [mkL m now (set_call c id (Some (Waiting (RGet keys) t (seen ++ [aview m now k]))))]
      | None => []
      end
  | Some (Waiting q t []) =>
      let '(m', r) := spec range m now t q in [mkL m' now (set_call c id (Some (Acted r)))]
  | _ => []
  end.

Fixpoint explore (fuel : nat) (range : bytes * bytes) (ids : list Z) (L : lin) (h : list event) : bool :=
  match fuel, h with
  | O, _ | _, [] => true
  | S f, e :: h' =>
      existsb (fun L' => explore f range ids L' h') (after L e) ||
      existsb (fun id => existsb (fun L' => explore f range ids L' h) (acts range L id)) ids
  end.

Definition inv_ids (h : list event) : list Z :=
  flat_map (fun e => match e with EInv id _ _ => [id] | _ => [] end) h.

Ltac rw_call := match goal with E : ?c ?id = Some _ |- context [?c ?id] => rewrite E end.

Lemma after_act range L id L' : lin_step range L (XAct id) L' -> In L' (acts range L id).
Proof.
  intros S. inversion S; subst. cbn [acts]. rw_call. destruct q; try discriminate; match goal with E : spec _ _ _ _ _ = _ |- _ => rewrite E end; left; auto.
Qed.
Lemma after_read range L id L' : lin_step range L (XRead id) L' -> In L' (acts range L id).
Proof. intros S. inversion S; subst. cbn [acts]. rw_call. match goal with E : nth_error _ _ = Some _ |- _ => rewrite E end. left; auto. Qed.
Lemma after_visible range L x L' e : lin_step range L x L' -> visible_events [x] = [e] -> In L' (after L e).
Proof.
  intros S V. inversion S; subst; cbn in V; try discriminate; inversion V; subst; cbn [after].
  - left; auto.
  - rewrite Z.eqb_refl. left; auto.
  - rw_call. rewrite resp_eqb_refl. left; auto.
  - rw_call. match goal with E : length _ = length _ |- _ => rewrite E end. rewrite Nat.eqb_refl, resp_eqb_refl. left; auto.
  - rw_call. apply in_app_iff. right. left. auto.
  - rw_call. apply in_app_iff. right. apply in_app_iff. right. left. auto.
Qed.

Lemma calls_in range L x L' ids : lin_step range L x L' -> (forall id, l_calls L id <> None -> In id ids) ->
  (forall id q t, x = XInv id q t -> In id ids) -> forall id, l_calls L' id <> None -> In id ids.
Proof.
  intros S A B i. inversion S; subst; cbn [l_calls] in *; auto; unfold set_call; destruct (i =? id) eqn:E; auto;
    apply Z.eqb_eq in E; subst; intros _; try (apply A; congruence). eapply B; eauto.
Qed.

Lemma explore_complete range ids x : forall f L L' h, lin_run range L x L' -> visible_events x = h ->
  (forall id, l_calls L id <> None -> In id ids) -> (forall id, In id (inv_ids h) -> In id ids) ->
  explore f range ids L h = true.
Proof.
  induction x as [|e x IH]; intros f L L' h R V A B.
  - cbn in V. subst. destruct f; auto.
  - inversion R; subst. clear R. destruct f as [|f]; [auto|].
    assert (VB: forall id, In id (inv_ids (visible_events x)) -> In id ids).
    { intros id I. apply B. destruct e; cbn; auto. }
    assert (C: forall id, l_calls l' id <> None -> In id ids).
    { eapply calls_in; eauto. intros id q t ->. apply B. cbn. auto. }
    destruct e as [id q t|id r|t|id|id]; cbn [visible_events].
    1-3: cbn [explore]; apply orb_true_iff; left; apply existsb_exists; exists l';
      (split; [eapply after_visible; eauto; reflexivity|eapply IH; eauto]).
    1-2: assert (IN: In id ids) by (apply A; inversion H2; subst; cbn; congruence);
      destruct (visible_events x) as [|v h] eqn:E; [auto|];
      cbn [explore]; apply orb_true_iff; right; apply existsb_exists; exists id; split; [auto|];
      apply existsb_exists; exists l'; split; [eauto using after_act, after_read|eapply IH; eauto].
Qed.

Lemma not_linearizable f range now h : explore f range (inv_ids h) (lin0 now) h = false -> ~ linearizable range now h.
Proof.
  intros E (x & L & V & R). rewrite (explore_complete range (inv_ids h) x f (lin0 now) L h) in E; auto; [discriminate|].
  cbn. congruence.
Qed.
