(** Auto-increment ids: C23 (ranges never overlap), C52 (ranges hold the requested ids). *)
From Coq Require Import ZArith List Bool Arith Lia.
From Verif Require Import Outcome AutoModel AutoSpec AutoProofs.
Import ListNotations.
Open Scope Z_scope.

(** Two tables, generates by two leaders, a raise, a snapshot, a restart, a delete. *)
Definition historyA : list aev :=
  [ACheck 0 (QCreates [(7, 1); (8, 100)]); ASubmit 0; AApply 0; ACheck 0 (QGen 7 3 5 2); ACheck 0 (QGen 7 10 1 1); ASubmit 1; ASubmit 0;
   AApply 0; AApply 0; ACheck 0 (QUpdate 7 1000 false); ASubmit 0; AApply 1; AApply 1; AApply 1; AApply 1; AStop 0; ACheck 1 (QGen 7 2 4 4); ASubmit 0; AApply 1;
   ARestart 2 (Some 1%nat); ACheck 2 (QGen 8 1 3 5); ASubmit 0; AApply 2; AInstall 0 2; ACheck 0 (QGen 7 1 1 1); ACheck 0 (QDelete 7); ASubmit 0; AApply 0; ASubmit 0; AApply 0].
Example C23_example : let '(s, out) := arun ainit historyA in
  map (fun a => (r_idx a, r_start a, r_end a)) out =
    [(0%nat, 0, 0); (1%nat, 1, 11); (2%nat, 11, 27); (4%nat, 1000, 1012); (5%nat, 100, 103); (6%nat, 1012, 1013); (7%nat, 0, 0)] /\
  created_once (alog s) /\ never_lowered (alog s).
Proof.
  destruct (arun ainit historyA) as [s out] eqn:E.
  assert (El : alog s = alog (fst (arun ainit historyA))) by now rewrite E.
  assert (Eo : map (fun a => (r_idx a, r_start a, r_end a)) out = map (fun a => (r_idx a, r_start a, r_end a)) (snd (arun ainit historyA))) by now rewrite E.
  split; [rewrite Eo; vm_compute; reflexivity|].
  assert (L : concat (alog s) = [ECreate 7 1; ECreate 8 100; EGen 7 10 1 1; EGen 7 3 5 2; EUpdate 7 1000; EGen 7 2 4 4; EGen 8 1 3 5; EGen 7 1 1 1; EDelete 7]) by (rewrite El; vm_compute; reflexivity).
  split.
  - intros t. rewrite L. cbn [filter creates]. destruct (7 =? t) eqn:A; destruct (8 =? t) eqn:B; cbn; try lia.
  - apply nl_ok. rewrite L. cbn [nl]. repeat split. intros c F. vm_compute in F. injection F as <-. lia.
Qed.
Print Assumptions C23_example.

(** No id of a table is handed out twice, across leaders, crashes, snapshots and all interleavings of
    checks and commits, if every table id is created once and no committed update lowers it. *)
Theorem C23_disjoint_partial : forall es, let '(s, out) := arun ainit es in
  created_once (alog s) -> never_lowered (alog s) -> disjoint out.
Proof.
  intros es. assert (X := run_ainv es ainit [] init_ainv). destruct (arun ainit es) as [s out]. exact (disjoint_inv s out X).
Qed.
Print Assumptions C23_disjoint_partial.

(** A request that is committed after an answer was given gets larger ids. *)
Theorem C23_increasing_partial : forall es1 es2, let '(s1, out1) := arun ainit es1 in let '(s2, out2) := arun s1 es2 in
  created_once (alog s2) -> never_lowered (alog s2) ->
  forall a b t x y, In a out1 -> In b out2 -> (length (alog s1) <= r_idx b)%nat -> hands_out a t x -> hands_out b t y -> x < y.
Proof.
  intros es1 es2. assert (X1 := run_ainv es1 ainit [] init_ainv). destruct (arun ainit es1) as [s1 out1]. cbn [fst snd app] in X1.
  assert (X2 := run_ainv es2 s1 out1 X1). destruct (arun s1 es2) as [s2 out2]. cbn [fst snd] in X2.
  intros CO NL a b t x y Ia Ib Lb Ha Hb.
  exact (ordered_before s1 s2 out1 out2 a b t x y X1 X2 CO NL Ia Ib Lb Ha Hb).
Qed.
Print Assumptions C23_increasing_partial.

(** ** without the conditions *)

(** Two concurrent creates of one table both pass their check; the second resets the table. *)
Theorem C23_create_race_refuted : exists es, let r := arun ainit es in never_lowered (alog (fst r)) /\ ~ disjoint (snd r).
Proof.
  exists [ACheck 0 (QCreates [(7, 1)]); ACheck 0 (QCreates [(7, 1)]); ASubmit 0; AApply 0; ACheck 0 (QGen 7 5 1 1); ASubmit 1; AApply 0; ASubmit 0; AApply 0;
          ACheck 0 (QGen 7 5 1 1); ASubmit 0; AApply 0].
  cbv zeta. split.
  - apply nl_ok. vm_compute. auto 10.
  - eapply (overlap _ 1 3 _ _ 7 1); [vm_compute; reflexivity|vm_compute; reflexivity|discriminate|reflexivity|reflexivity|cbn; lia|cbn; lia].
Qed.
Print Assumptions C23_create_race_refuted.

(** An update that passed its check when the table stood lower is committed after a generate. *)
Theorem C23_update_race_refuted : exists es, let r := arun ainit es in created_once (alog (fst r)) /\ ~ disjoint (snd r) /\
  Forall (fun e => match e with ACheck _ (QUpdate _ _ f) => f = false | _ => True end) es.
Proof.
  exists [ACheck 0 (QCreates [(7, 1)]); ASubmit 0; AApply 0; ACheck 0 (QUpdate 7 2 false); ACheck 0 (QGen 7 5 1 1); ASubmit 1; ASubmit 0; AApply 0; AApply 0;
          ACheck 0 (QGen 7 5 1 1); ASubmit 0; AApply 0].
  cbv zeta. split; [|split].
  - intros t. vm_compute. destruct t as [|p|p]; try lia. destruct p as [[[p|p|]|p|]|p|]; lia.
  - eapply (overlap _ 1 3 _ _ 7 2); [vm_compute; reflexivity|vm_compute; reflexivity|discriminate|reflexivity|reflexivity|cbn; lia|cbn; lia].
  - repeat constructor.
Qed.
Print Assumptions C23_update_race_refuted.

(** A range holds the requested number of ids of the requested grid, if count * increment fits into 32
    bits and the table existed when the request was applied. *)
Theorem C52_grid_partial : forall es, let '(s, out) := arun ainit es in
  forall a t c inc off, In a out -> r_req a = QGen t c inc off ->
    0 <= c < 2 ^ 32 -> 0 <= inc < 2 ^ 32 -> 0 <= off < 2 ^ 32 -> c * inc < 2 ^ 32 -> r_start a < r_end a ->
    exists x0, on_grid inc off x0 /\ r_end a = x0 + c * inc /\ r_start a <= x0 /\ (0 <= r_start a -> x0 - r_start a <= inc) /\
      forall k, 0 <= k < c -> r_start a <= x0 + k * inc < r_end a /\ on_grid inc off (x0 + k * inc).
Proof.
  intros es. assert (X := run_ainv es ainit [] init_ainv). destruct (arun ainit es) as [s out]. exact (grid_all s out X).
Qed.
Print Assumptions C52_grid_partial.

(** count * increment is computed in 32 bits: a request within the limits gets a range without room for
    even two of its ids. *)
Theorem C52_product_refuted : exists es a t c inc off, In a (snd (arun ainit es)) /\ r_req a = QGen t c inc off /\
  2 <= c <= 100000 /\ 1 <= inc <= 65535 /\ 1 <= off <= inc /\ r_start a < r_end a < r_start a + inc.
Proof.
  exists [ACheck 0 (QCreates [(7, 1)]); ASubmit 0; AApply 0; ACheck 0 (QGen 7 65538 65535 1); ASubmit 0; AApply 0].
  eexists. do 4 eexists. split; [vm_compute; right; left; reflexivity|]. split; [reflexivity|]. cbn. lia.
Qed.
Print Assumptions C52_product_refuted.

(** A generate that is applied after the table was deleted is answered with success and no ids. *)
Theorem C52_deleted_refuted : exists es a t, In a (snd (arun ainit es)) /\ r_req a = QGen t 5 1 1 /\ r_start a = r_end a.
Proof.
  exists [ACheck 0 (QCreates [(7, 1)]); ASubmit 0; AApply 0; ACheck 0 (QGen 7 5 1 1); ACheck 0 (QDelete 7); ASubmit 1; ASubmit 0; AApply 0; AApply 0].
  do 2 eexists. split; [vm_compute; right; right; left; reflexivity|]. split; reflexivity.
Qed.
Print Assumptions C52_deleted_refuted.
