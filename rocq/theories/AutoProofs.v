From Coq Require Import ZArith List Bool Arith Lia.
From Verif Require Import Outcome IdModel AutoModel AutoSpec.
Import ListNotations.
Open Scope Z_scope.

(** ** arithmetic *)

Lemma add64_eq a b x : add64 a b = Ok x -> x = a + b.
Proof. unfold add64. destruct ((- 2 ^ 63 <=? a + b) && (a + b <? 2 ^ 63)); [|discriminate]. intros H. apply Ok_inj in H. congruence. Qed.

Lemma real_start_spec s inc off r : 1 <= off <= inc -> real_start s inc off = Ok r ->
  s <= r /\ r mod inc = off mod inc /\ (0 <= s -> r - s <= inc).
Proof.
  intros B H. unfold real_start in H. cbv zeta in H.
  assert (Q := Z.quot_rem' s inc). set (rm := Z.rem s inc) in *. set (q := Z.quot s inc) in *.
  assert (R1 : rm < inc) by (unfold rm; destruct (Z.le_gt_cases 0 s); [apply Z.rem_bound_pos; lia|assert (Z.rem s inc <= 0) by (apply Z.rem_nonpos; lia); lia]).
  assert (R2 : 0 <= s -> 0 <= rm) by (intros P; unfold rm; apply Z.rem_bound_pos; lia).
  assert (M : forall k, (inc * k + off) mod inc = off mod inc) by (intros k; rewrite Z.add_comm, Z.mul_comm; apply Z.mod_add; lia).
  destruct (Z.ltb_spec rm off) as [L|L].
  - apply add64_eq in H. split; [lia|]. split; [replace r with (inc * q + off) by lia; apply M|]. intros P. specialize (R2 P). lia.
  - destruct (Z.ltb_spec off rm) as [L'|L'].
    + destruct (add64 (s - rm) inc) as [x|] eqn:A; [|discriminate]. cbn [obind] in H. apply add64_eq in A. apply add64_eq in H.
      split; [lia|]. split; [replace r with (inc * (q + 1) + off) by lia; apply M|]. lia.
    + apply Ok_inj in H. subst r. split; [lia|]. split; [replace s with (inc * q + off) by lia; apply M|]. lia.
Qed.

Definition gvalid (e : entry) : Prop :=
  match e with EGen _ c i o => 0 < c <= kCountMax /\ 0 < i <= kOffsetMax /\ 0 < o <= kOffsetMax | _ => True end.

Lemma end_id_spec s c i o e : 0 < c <= kCountMax -> 0 < i <= kOffsetMax -> 0 < o <= kOffsetMax -> end_id s c i o = Ok e ->
  exists x0, s <= x0 /\ on_grid i o x0 /\ e = x0 + (if (i =? 1) then c else (c * i) mod 2 ^ 32) /\ (0 <= s -> x0 - s <= i).
Proof.
  intros Bc Bi Bo H. unfold end_id in H. cbv zeta in H.
  replace ((i =? 0) || (kOffsetMax <? i)) with false in H by (symmetry; apply orb_false_iff; split; [apply Z.eqb_neq|apply Z.ltb_ge]; lia).
  replace ((o =? 0) || (kOffsetMax <? o) || (i <? o)) with (i <? o) in H
    by (replace ((o =? 0) || (kOffsetMax <? o)) with false by (symmetry; apply orb_false_iff; split; [apply Z.eqb_neq|apply Z.ltb_ge]; lia); reflexivity).
  unfold on_grid. set (o' := if i <? o then 1 else o) in *.
  assert (Bo' : 1 <= o' <= i) by (unfold o'; destruct (Z.ltb_spec i o); lia).
  destruct (Z.eqb_spec i 1) as [Ei|Ni]; [|cbn [andb] in H].
  - assert (o' = 1) by lia. rewrite H0 in H. cbn [andb Z.eqb Pos.eqb] in H. apply add64_eq in H. exists s. rewrite Ei, !Z.mod_1_r. repeat split; lia.
  - destruct (real_start s i o') as [r|] eqn:R; [|discriminate]. cbn [obind] in H. apply add64_eq in H.
    destruct (real_start_spec s i o' r Bo' R) as [R1 [R2 R3]]. exists r. repeat split; auto.
Qed.

Lemma end_id_le s c i o e : 0 < c <= kCountMax -> 0 < i <= kOffsetMax -> 0 < o <= kOffsetMax -> end_id s c i o = Ok e -> s <= e.
Proof.
  intros Bc Bi Bo H. destruct (end_id_spec s c i o e Bc Bi Bo H) as [x0 [A [_ [B _]]]].
  assert (0 <= (c * i) mod 2 ^ 32) by (apply Z.mod_pos_bound; lia). destruct (i =? 1); lia.
Qed.

(** ** replaying the log *)

Fixpoint rep (m : fmap) (L : list (list entry)) : outcome fmap :=
  match L with
  | [] => Ok m
  | es :: r => match apply_all m es (0, 0) with Ok (m', _) => rep m' r | Crash => Crash end
  end.

Definition empty : fmap := fun _ => None.

Lemma rep_app L1 : forall m L2, rep m (L1 ++ L2) = olet m' := rep m L1 in rep m' L2.
Proof.
  induction L1 as [|es L1 IH]; intros m L2; cbn; [reflexivity|]. destruct (apply_all m es (0, 0)) as [[m' p]|]; [apply IH|reflexivity].
Qed.

Lemma apply_entry_moved m e m' o t : apply_entry m e = Ok (m', o) -> m' t = moved code_next t (m t) e.
Proof.
  intros H. destruct e as [t' s|t' s|t' c i f|t']; cbn [apply_entry moved] in *.
  - apply Ok_inj in H. injection H as <- _. unfold fput. rewrite (Z.eqb_sym t' t). destruct (t =? t'); reflexivity.
  - destruct (m t') as [c|] eqn:M; apply Ok_inj in H; injection H as <- _.
    + unfold fput. rewrite (Z.eqb_sym t' t). destruct (Z.eqb_spec t t') as [->|]; [now rewrite M|reflexivity].
    + destruct (Z.eqb_spec t' t) as [->|]; [now rewrite M|reflexivity].
  - destruct (m t') as [s|] eqn:M.
    + destruct (end_id s c i f) as [e|] eqn:E; [|discriminate]. cbn [obind] in H. apply Ok_inj in H. injection H as <- _.
      unfold fput. rewrite (Z.eqb_sym t' t). destruct (Z.eqb_spec t t') as [->|]; [rewrite M; unfold code_next; now rewrite E|reflexivity].
    + apply Ok_inj in H. injection H as <- _. destruct (Z.eqb_spec t' t) as [->|]; [now rewrite M|reflexivity].
  - apply Ok_inj in H. injection H as <- _. unfold fdel. rewrite (Z.eqb_sym t' t). destruct (t =? t'); reflexivity.
Qed.

Lemma apply_all_moved es : forall m r m' r' t, apply_all m es r = Ok (m', r') -> m' t = fold_left (moved code_next t) es (m t).
Proof.
  induction es as [|e es IH]; intros m r m' r' t H; cbn [apply_all fold_left] in *.
  - apply Ok_inj in H. now injection H as <- _.
  - destruct (apply_entry m e) as [[m1 o]|] eqn:E; [|discriminate]. rewrite (IH _ _ _ _ t H). f_equal. eapply apply_entry_moved. exact E.
Qed.

Lemma rep_moved L : forall m m' t, rep m L = Ok m' -> m' t = fold_left (moved code_next t) (concat L) (m t).
Proof.
  induction L as [|es L IH]; intros m m' t H; cbn [rep concat] in *; [apply Ok_inj in H; now subst|].
  destruct (apply_all m es (0, 0)) as [[m1 p]|] eqn:E; [|discriminate]. rewrite (IH _ _ t H), fold_left_app. f_equal. eapply apply_all_moved. exact E.
Qed.

(** once a table exists it is not created again, and its number never goes down *)
Definition lowered_free (t : Z) (c0 : option Z) (l : list entry) : Prop :=
  forall pre s post c, l = pre ++ EUpdate t s :: post -> fold_left (moved code_next t) pre c0 = Some c -> c <= s.

Lemma lowered_tail t c e l : lowered_free t c (e :: l) -> lowered_free t (moved code_next t c e) l.
Proof. intros H pre s post x E F. apply (H (e :: pre) s post x); [rewrite E; reflexivity|exact F]. Qed.

Lemma none_stays t l : filter (creates t) l = [] -> fold_left (moved code_next t) l None = None.
Proof.
  induction l as [|e l IH]; intros H; cbn in *; [reflexivity|]. destruct (creates t e) eqn:C; [discriminate|].
  destruct e as [t' s|t' s|t' c i o|t']; cbn in *; try (rewrite C); try destruct (t' =? t); auto; discriminate.
Qed.

Lemma climbs t l : forall c x, Forall gvalid l -> filter (creates t) l = [] -> lowered_free t (Some c) l ->
  fold_left (moved code_next t) l (Some c) = Some x -> c <= x.
Proof.
  induction l as [|e l IH]; intros c x V N L F; cbn [fold_left] in F; [injection F as <-; lia|].
  inversion V as [|? ? V1 V2]; subst. cbn in N. destruct (creates t e) eqn:C; [discriminate|].
  assert (L' := lowered_tail t _ e l L).
  destruct e as [t' s|t' s|t' n i o|t']; cbn [moved] in *; cbn [creates] in C.
  - rewrite C in *. apply (IH c x); assumption.
  - destruct (Z.eqb_spec t' t) as [->|]; [|apply (IH c x); assumption].
    assert (c <= s) by (apply (L [] s l c); reflexivity). assert (s <= x) by (apply (IH s x); assumption). lia.
  - destruct (Z.eqb_spec t' t) as [->|]; [|apply (IH c x); assumption].
    assert (c <= code_next c n i o).
    { unfold code_next. destruct (end_id c n i o) as [e|] eqn:E; [|lia].
      destruct V1 as [B1 [B2 B3]]. exact (end_id_le c n i o e B1 B2 B3 E). }
    assert (code_next c n i o <= x) by (apply (IH _ x); assumption). lia.
  - destruct (Z.eqb_spec t' t) as [->|]; [|apply (IH c x); assumption]. rewrite (none_stays t l N) in F. discriminate.
Qed.

Lemma created_before t : forall l x, fold_left (moved code_next t) l None = Some x -> filter (creates t) l <> [].
Proof. intros l x H E. rewrite (none_stays t l E) in H. discriminate. Qed.

(** ** the invariant *)

Definition of_req (q : request) (es : list entry) : Prop :=
  match q with QGen t c i o => es = [EGen t (u32 c) (u32 i) (u32 o)] | _ => True end.

Definition good_resp (log : list (list entry)) (a : resp) : Prop :=
  exists m m' es, nth_error log (r_idx a) = Some es /\ rep empty (firstn (r_idx a) log) = Ok m /\
    apply_all m es (0, 0) = Ok (m', (r_start a, r_end a)) /\ of_req (r_req a) es.

Record ainv (s : group) (out : list resp) : Prop := {
  a_node : forall i, (a_app (anodes s i) <= length (alog s))%nat /\
             forall m, a_map (anodes s i) = Ok m -> rep empty (firstn (a_app (anodes s i)) (alog s)) = Ok m;
  a_opens : forall i n q, In (n, q) (a_open (anodes s i)) -> exists es, nth_error (alog s) n = Some es /\ of_req q es;
  a_open1 : forall i j n q q', In (n, q) (a_open (anodes s i)) -> In (n, q') (a_open (anodes s j)) -> i = j;
  a_pends : forall i q es, In (i, q, es) (apend s) -> of_req q es /\ Forall gvalid es;
  a_valid : Forall gvalid (concat (alog s));
  a_out : forall a, In a out -> good_resp (alog s) a;
  a_once : forall i j a b, nth_error out i = Some a -> nth_error out j = Some b -> r_idx a = r_idx b -> i = j;
  a_done : forall a i q, In a out -> In (r_idx a, q) (a_open (anodes s i)) -> (r_idx a < a_app (anodes s i))%nat
}.

Lemma check_ok m q es : check m q = Some es -> of_req q es /\ Forall gvalid es.
Proof.
  destruct q as [l|t s f|t c i o|t|t s]; cbn [check of_req]; intros H.
  - split; [exact Logic.I|]. revert es H. induction l as [|[t s] l IH]; intros es H; cbn [check_creates] in H; [injection H as <-; constructor|].
    destruct (check_create m t s) as [a|] eqn:A; [|discriminate]. destruct (check_creates m l) as [b|] eqn:B; [|discriminate]. injection H as <-.
    apply Forall_app. split; [|apply IH; reflexivity]. unfold check_create in A. destruct (m t) as [c|]; [destruct (c =? s); [|discriminate]|]; injection A as <-; repeat constructor.
  - split; [exact Logic.I|]. destruct (m t) as [c|]; [|discriminate]. destruct ((s <=? c) && negb f); [discriminate|]. injection H as <-. repeat constructor.
  - cbv zeta in H. destruct (m t); [|discriminate].
    match type of H with (if ?b then _ else _) = _ => destruct b eqn:B end; [discriminate|]. injection H as <-. split; [reflexivity|].
    repeat (apply orb_false_iff in B; destruct B as [B ?]). constructor; [|constructor].
    assert (P : forall x, 0 <= u32 x) by (intros x; unfold u32; apply Z.mod_pos_bound; lia).
    cbn [gvalid]. repeat match goal with H : (_ =? _) = false |- _ => apply Z.eqb_neq in H | H : (_ <? _) = false |- _ => apply Z.ltb_ge in H end.
    assert (P1 := P c). assert (P2 := P i). assert (P3 := P o). lia.
  - split; [exact Logic.I|]. destruct (m t); injection H as <-; repeat constructor.
  - split; [exact Logic.I|]. destruct (m t) as [c|]; [destruct (s <? c); [discriminate|]; destruct (s =? c)|]; injection H as <-; repeat constructor.
Qed.

Lemma good_mono log x a : good_resp log a -> good_resp (log ++ x) a.
Proof.
  intros [m [m' [es [A [B [C D]]]]]]. assert (Ln : (r_idx a < length log)%nat) by (apply nth_error_Some; congruence).
  exists m, m', es. split; [rewrite nth_error_app1; assumption|]. split; [|auto].
  rewrite firstn_app. replace (r_idx a - length log)%nat with 0%nat by lia. cbn [firstn]. rewrite app_nil_r. exact B.
Qed.

Lemma firstn_snoc {A} (l : list A) n x : nth_error l n = Some x -> firstn (S n) l = firstn n l ++ [x].
Proof.
  revert n. induction l as [|y l IH]; intros [|n] H; cbn in *; try discriminate; [now injection H as <-|]. f_equal. apply IH. exact H.
Qed.

Ltac aset_tac j i := unfold aset; destruct (Nat.eqb_spec j i) as [->|].

Lemma step_ainv s out e : ainv s out -> ainv (fst (astep s e)) (out ++ match snd (astep s e) with Some a => [a] | None => [] end).
Proof.
  intros H.
  assert (SAME : ainv s (out ++ [])) by (rewrite app_nil_r; exact H).
  (* a node changes, the log and the pending requests stay *)
  assert (ND : forall i nd, (a_app nd <= length (alog s))%nat -> (forall m, a_map nd = Ok m -> rep empty (firstn (a_app nd) (alog s)) = Ok m) ->
    (forall p, In p (a_open nd) -> In p (a_open (anodes s i))) -> (a_app (anodes s i) <= a_app nd \/ a_open nd = [])%nat ->
    ainv (mkG (aset (anodes s) i nd) (alog s) (apend s)) (out ++ [])).
  { intros i nd B1 B2 B3 B4. rewrite app_nil_r. constructor; cbn [anodes alog apend].
    - intros j. aset_tac j i; [split; assumption|apply (a_node s out H j)].
    - intros j n q I. unfold aset in I. destruct (Nat.eqb_spec j i) as [->|]; [apply (a_opens s out H i n q), B3, I|apply (a_opens s out H j n q I)].
    - intros j k n q q' I J. unfold aset in I, J. destruct (Nat.eqb_spec j i) as [->|]; [apply B3 in I|]; (destruct (Nat.eqb_spec k i) as [->|]; [apply B3 in J|]);
        eapply (a_open1 s out H); eassumption.
    - apply (a_pends s out H).
    - apply (a_valid s out H).
    - apply (a_out s out H).
    - apply (a_once s out H).
    - intros a j q Ia I. unfold aset in *. destruct (Nat.eqb_spec j i) as [->|]; [|apply (a_done s out H a j q Ia I)].
      destruct B4 as [B4|B4]; [|rewrite B4 in I; destruct I]. assert (X := a_done s out H a i q Ia (B3 _ I)). lia. }
  destruct e as [i q|n|i|i|i from|i j]; cbn [astep].
  - destruct (a_map (anodes s i)) as [m|]; [|exact SAME]. destruct (check m q) as [es|] eqn:C; [|exact SAME]. cbn [fst snd]. rewrite app_nil_r.
    constructor; cbn [anodes alog apend]; try apply H. intros k q' es' I. apply in_app_or in I. destruct I as [I|[E|[]]]; [apply (a_pends s out H k q' es' I)|].
    injection E as <- <- <-. eapply check_ok. exact C.
  - destruct (nth_error (apend s) n) as [[[i q] es]|] eqn:P; [|exact SAME]. cbn [fst snd]. rewrite app_nil_r.
    destruct (a_pends s out H i q es (nth_error_In _ _ P)) as [P1 P2].
    assert (FN : forall k, (k <= length (alog s))%nat -> firstn k (alog s ++ [es]) = firstn k (alog s)).
    { intros k Lk. rewrite firstn_app. replace (k - length (alog s))%nat with 0%nat by lia. cbn [firstn]. apply app_nil_r. }
    assert (OPEN : forall k n' q', In (n', q') (a_open (aset (anodes s) i (mkAn (a_map (anodes s i)) (a_app (anodes s i)) ((length (alog s), q) :: a_open (anodes s i))) k)) ->
      (k = i /\ n' = length (alog s) /\ q' = q) \/ ((n' < length (alog s))%nat /\ In (n', q') (a_open (anodes s k)))).
    { intros k n' q' I. unfold aset in I. assert (O : In (n', q') (a_open (anodes s k)) -> (n' < length (alog s))%nat).
      { intros J. destruct (a_opens s out H k n' q' J) as [es' [E' _]]. apply nth_error_Some. congruence. }
      destruct (Nat.eqb_spec k i) as [->|]; [|right; auto]. cbn [a_open] in I. destruct I as [I|I]; [injection I as <- <-; left; auto|right; auto]. }
    assert (APP : forall k, a_app (aset (anodes s) i (mkAn (a_map (anodes s i)) (a_app (anodes s i)) ((length (alog s), q) :: a_open (anodes s i))) k) = a_app (anodes s k)).
    { intros k. aset_tac k i; reflexivity. }
    constructor; cbn [anodes alog apend].
    + intros k. rewrite APP, app_length. cbn [length]. destruct (a_node s out H k) as [A1 A2]. split; [lia|]. intros m Em. rewrite FN by exact A1. apply A2.
      unfold aset in Em. destruct (Nat.eqb_spec k i) as [->|]; exact Em.
    + intros k n' q' I. destruct (OPEN k n' q' I) as [[-> [-> ->]]|[Ln J]].
      * exists es. split; [rewrite nth_error_app2, Nat.sub_diag by lia; reflexivity|exact P1].
      * destruct (a_opens s out H k n' q' J) as [es' [E1 E2]]. exists es'. split; [rewrite nth_error_app1; assumption|exact E2].
    + intros k1 k2 n' q1 q2 I J. destruct (OPEN k1 n' q1 I) as [[-> [En _]]|[Ln I']]; destruct (OPEN k2 n' q2 J) as [[-> [En' _]]|[Ln' J']]; try reflexivity; try lia.
      eapply (a_open1 s out H); eassumption.
    + intros k q' es' I. apply (a_pends s out H k q' es'). apply in_app_or in I. destruct I as [I|I].
      * rewrite <- (firstn_skipn n (apend s)). apply in_or_app. now left.
      * rewrite <- (firstn_skipn (S n) (apend s)). apply in_or_app. now right.
    + rewrite concat_app. apply Forall_app. split; [apply (a_valid s out H)|]. cbn [concat]. rewrite app_nil_r. exact P2.
    + intros a Ia. apply good_mono, (a_out s out H a Ia).
    + apply (a_once s out H).
    + intros a k q' Ia I. rewrite APP. destruct (a_out s out H a Ia) as [m [m' [es' [E1 _]]]]. assert ((r_idx a < length (alog s))%nat) by (apply nth_error_Some; congruence).
      destruct (OPEN k _ q' I) as [[_ [En _]]|[_ J]]; [lia|]. apply (a_done s out H a k q' Ia J).
  - destruct (nth_error (alog s) (a_app (anodes s i))) as [es|] eqn:E; [|exact SAME]. destruct (a_map (anodes s i)) as [m|] eqn:M; [|exact SAME].
    assert (Ln : (a_app (anodes s i) < length (alog s))%nat) by (apply nth_error_Some; congruence).
    destruct (apply_all m es (0, 0)) as [[m' [a b]]|] eqn:AP; cbn [fst snd].
    + assert (R : rep empty (firstn (a_app (anodes s i)) (alog s)) = Ok m) by (apply (a_node s out H i); exact M).
      assert (R' : rep empty (firstn (S (a_app (anodes s i))) (alog s)) = Ok m') by (rewrite (firstn_snoc _ _ _ E), rep_app, R; cbn [obind rep]; now rewrite AP).
      assert (X := ND i (mkAn (Ok m') (S (a_app (anodes s i))) (a_open (anodes s i)))). cbn [a_app a_map a_open] in X.
      specialize (X Ln). assert (X1 : forall m0, Ok m' = Ok m0 -> rep empty (firstn (S (a_app (anodes s i))) (alog s)) = Ok m0) by (intros m0 E0; rewrite <- E0; exact R').
      specialize (X X1 (fun p I => I) (or_introl (le_S _ _ (le_n _)))). rewrite app_nil_r in X. clear X1.
      destruct (find (fun p => Nat.eqb (fst p) (a_app (anodes s i))) (a_open (anodes s i))) as [[n q]|] eqn:F; [|rewrite app_nil_r; exact X].
      apply find_some in F. destruct F as [F1 F2]. cbn [fst] in F2. apply Nat.eqb_eq in F2. subst n.
      destruct (a_opens s out H i _ q F1) as [es' [E' O']]. rewrite E in E'. injection E' as <-.
      assert (FRESH : forall c, In c out -> r_idx c <> a_app (anodes s i)).
      { intros c Ic Eq. assert (Y := a_done s out H c i q Ic). rewrite Eq in Y. specialize (Y F1). lia. }
      constructor; try apply X.
      * intros c Ic. apply in_app_or in Ic. destruct Ic as [Ic|[<-|[]]]; [apply (a_out _ _ X c Ic)|]. exists m, m', es. cbn. auto.
      * intros x y c d Hx Hy Eq. destruct (lt_dec x (length out)) as [Lx|Lx]; destruct (lt_dec y (length out)) as [Ly|Ly].
        -- rewrite nth_error_app1 in Hx, Hy by assumption. eapply (a_once s out H); eassumption.
        -- rewrite nth_error_app1 in Hx by assumption. rewrite nth_error_app2 in Hy by lia.
           destruct (y - length out)%nat as [|k] eqn:Ek; cbn in Hy; [injection Hy as <-|destruct k; discriminate]. cbn in Eq. destruct (FRESH c (nth_error_In _ _ Hx) Eq).
        -- rewrite nth_error_app1 in Hy by assumption. rewrite nth_error_app2 in Hx by lia.
           destruct (x - length out)%nat as [|k] eqn:Ek; cbn in Hx; [injection Hx as <-|destruct k; discriminate]. cbn in Eq. symmetry in Eq. destruct (FRESH d (nth_error_In _ _ Hy) Eq).
        -- assert ((x < length (out ++ [mkResp (a_app (anodes s i)) q a b]))%nat) by (apply nth_error_Some; congruence).
           assert ((y < length (out ++ [mkResp (a_app (anodes s i)) q a b]))%nat) by (apply nth_error_Some; congruence).
           rewrite app_length in *. cbn in *. lia.
      * intros c j q' Ic I. apply in_app_or in Ic. destruct Ic as [Ic|[<-|[]]]; [apply (a_done _ _ X c j q' Ic I)|]. cbn [r_idx anodes] in *.
        assert (j = i).
        { eapply (a_open1 _ _ X j i); [exact I|]. cbn [anodes]. unfold aset. rewrite Nat.eqb_refl. cbn [a_open]. exact F1. }
        subst j. unfold aset. rewrite Nat.eqb_refl. cbn [a_app]. lia.
    + apply ND; cbn; [lia|discriminate|intros p []|now right].
  - cbn [fst snd]. apply ND; cbn [a_app a_map a_open]; [apply (a_node s out H i)|apply (a_node s out H i)|intros p []|now right].
  - cbn [fst snd]. destruct from as [j|].
    + apply ND; cbn [a_app a_map a_open]; [apply (a_node s out H j)|apply (a_node s out H j)|intros p []|now right].
    + apply ND; cbn [a_app a_map a_open]; [lia|intros m Em; apply Ok_inj in Em; subst; reflexivity|intros p []|now right].
  - destruct (Nat.ltb_spec (a_app (anodes s i)) (a_app (anodes s j))) as [L|L]; [|exact SAME]. cbn [fst snd].
    apply ND; cbn [a_app a_map a_open]; [apply (a_node s out H j)|apply (a_node s out H j)|auto|left; lia].
Qed.

Lemma run_ainv es : forall s out, ainv s out -> ainv (fst (arun s es)) (out ++ snd (arun s es)).
Proof.
  induction es as [|e es IH]; intros s out H; cbn [arun]; [cbn; rewrite app_nil_r; exact H|].
  assert (X := step_ainv s out e H). destruct (astep s e) as [s' a]. cbn [fst snd] in X. specialize (IH s' _ X).
  destruct (arun s' es) as [s'' l]. cbn [fst snd] in *. rewrite <- app_assoc in IH. destruct a; exact IH.
Qed.

Lemma init_ainv : ainv ainit [].
Proof.
  constructor; cbn.
  - intros i. split; [lia|]. intros m E. apply Ok_inj in E. now subst.
  - intros i n q [].
  - intros i j n q q' [].
  - intros i q es [].
  - constructor.
  - intros a [].
  - intros [|i]; discriminate.
  - intros a i q [].
Qed.

(** ** order and content of the ranges *)

Lemma served_range log a t x : good_resp log a -> hands_out a t x ->
  exists c i o m m', nth_error log (r_idx a) = Some [EGen t (u32 c) (u32 i) (u32 o)] /\ r_req a = QGen t c i o /\
    rep empty (firstn (r_idx a) log) = Ok m /\ m t = Some (r_start a) /\ rep empty (firstn (S (r_idx a)) log) = Ok m' /\ m' t = Some (r_end a) /\
    end_id (r_start a) (u32 c) (u32 i) (u32 o) = Ok (r_end a).
Proof.
  intros [m [m' [es [A [B [C D]]]]]] [[c [i [o Q]]] R]. rewrite Q in D. cbn [of_req] in D. subst es. exists c, i, o, m, m'.
  split; [exact A|]. split; [exact Q|]. split; [exact B|].
  assert (B' : rep empty (firstn (S (r_idx a)) log) = Ok m') by (rewrite (firstn_snoc _ _ _ A), rep_app, B; cbn [obind rep]; now rewrite C).
  cbn [apply_all apply_entry] in C. destruct (m t) as [s|] eqn:M.
  - destruct (end_id s (u32 c) (u32 i) (u32 o)) as [e|] eqn:E; [|discriminate]. cbn [obind] in C. apply Ok_inj in C. injection C as <- <- <-.
    split; [reflexivity|]. split; [exact B'|]. split; [unfold fput; now rewrite Z.eqb_refl|exact E].
  - apply Ok_inj in C. injection C as _ E1 E2. lia.
Qed.

Lemma ordered s out a b t x y : ainv s out -> created_once (alog s) -> never_lowered (alog s) -> In a out -> In b out ->
  (r_idx a < r_idx b)%nat -> hands_out a t x -> hands_out b t y -> r_end a <= r_start b.
Proof.
  intros H CO NL Ia Ib Lt Ha Hb. set (log := alog s) in *.
  destruct (served_range log a t x (a_out s out H a Ia) Ha) as [c [i [o [m [m1 [A1 [A2 [A3 [A4 [A5 [A6 A7]]]]]]]]]]].
  destruct (served_range log b t y (a_out s out H b Ib) Hb) as [c2 [i2 [o2 [m2 [m3 [B1 [B2 [B3 [B4 _]]]]]]]]].
  set (n := r_idx a) in *. set (k := r_idx b) in *.
  assert (Sp : firstn k log = firstn (S n) log ++ skipn (S n) (firstn k log)).
  { rewrite <- (firstn_skipn (S n) (firstn k log)) at 1. f_equal. rewrite firstn_firstn. f_equal. lia. }
  set (mid := skipn (S n) (firstn k log)) in *.
  assert (Lg : log = firstn (S n) log ++ mid ++ skipn k log) by (rewrite app_assoc, <- Sp, firstn_skipn; reflexivity).
  assert (F1 : fold_left (moved code_next t) (concat (firstn (S n) log)) None = Some (r_end a)).
  { rewrite <- A6. symmetry. apply (rep_moved (firstn (S n) log) empty m1 t A5). }
  assert (F2 : fold_left (moved code_next t) (concat mid) (Some (r_end a)) = Some (r_start b)).
  { rewrite <- B4, (rep_moved (firstn k log) empty m2 t B3), Sp, concat_app, fold_left_app. unfold empty. now rewrite F1. }
  assert (V := a_valid s out H). fold log in V.
  assert (CC : concat log = concat (firstn (S n) log) ++ concat mid ++ concat (skipn k log)) by (rewrite Lg at 1; now rewrite !concat_app).
  apply (climbs t (concat mid)).
  - rewrite CC in V. apply Forall_app in V. destruct V as [_ V]. apply Forall_app in V. apply V.
  - specialize (CO t). rewrite CC, !filter_app, !app_length in CO. assert (NE := created_before t _ _ F1).
    destruct (filter (creates t) (concat (firstn (S n) log))); [congruence|]. destruct (filter (creates t) (concat mid)); [reflexivity|]. cbn in CO. lia.
  - intros pre s0 post c0 E F. apply (NL (concat (firstn (S n) log) ++ pre) t s0 (post ++ concat (skipn k log)) c0).
    + fold log. rewrite CC, E, <- !app_assoc. reflexivity.
    + rewrite fold_left_app, F1. exact F.
  - exact F2.
Qed.

Lemma disjoint_inv s out : ainv s out -> created_once (alog s) -> never_lowered (alog s) -> disjoint out.
Proof.
  intros H CO NL i j a b t x Hi Hj Ha Hb. assert (Ia := nth_error_In _ _ Hi). assert (Ib := nth_error_In _ _ Hj).
  destruct (lt_eq_lt_dec (r_idx a) (r_idx b)) as [[L|E]|L].
  - assert (X := ordered s out a b t x x H CO NL Ia Ib L Ha Hb). destruct Ha as [_ Ha], Hb as [_ Hb]. lia.
  - eapply (a_once s out H); eassumption.
  - assert (X := ordered s out b a t x x H CO NL Ib Ia L Hb Ha). destruct Ha as [_ Ha], Hb as [_ Hb]. lia.
Qed.

Lemma grid s out a t c inc off : ainv s out -> In a out -> r_req a = QGen t c inc off ->
  0 <= c < 2 ^ 32 -> 0 <= inc < 2 ^ 32 -> 0 <= off < 2 ^ 32 -> c * inc < 2 ^ 32 -> r_start a < r_end a ->
  exists x0, r_start a <= x0 /\ on_grid inc off x0 /\ r_end a = x0 + c * inc /\ (0 <= r_start a -> x0 - r_start a <= inc).
Proof.
  intros H Ia Q Bc Bi Bo P Ne. assert (Hx : hands_out a t (r_start a)) by (split; [eauto|lia]).
  destruct (served_range (alog s) a t _ (a_out s out H a Ia) Hx) as [c' [i' [o' [m [m1 [A1 [A2 [_ [_ [_ [_ A7]]]]]]]]]]].
  rewrite Q in A2. injection A2 as <- <- <-. unfold u32 in *. rewrite !Z.mod_small in A1, A7 by assumption.
  assert (V := a_valid s out H). rewrite Forall_forall in V. assert (Vg : gvalid (EGen t c inc off)).
  { apply V. apply in_concat. eexists. split; [eapply nth_error_In; exact A1|now left]. }
  destruct Vg as [V1 [V2 V3]]. destruct (end_id_spec _ _ _ _ _ V1 V2 V3 A7) as [x0 [X1 [X2 [X3 X4]]]]. exists x0.
  split; [exact X1|]. split; [exact X2|]. split; [|exact X4]. rewrite Z.mod_small in X3 by nia. destruct (Z.eqb_spec inc 1); subst; lia.
Qed.

Lemma grid_all s out : ainv s out -> forall a t c inc off, In a out -> r_req a = QGen t c inc off ->
    0 <= c < 2 ^ 32 -> 0 <= inc < 2 ^ 32 -> 0 <= off < 2 ^ 32 -> c * inc < 2 ^ 32 -> r_start a < r_end a ->
    exists x0, on_grid inc off x0 /\ r_end a = x0 + c * inc /\ r_start a <= x0 /\ (0 <= r_start a -> x0 - r_start a <= inc) /\
      forall k, 0 <= k < c -> r_start a <= x0 + k * inc < r_end a /\ on_grid inc off (x0 + k * inc).
Proof.
  intros H a t c inc off Ia Q Bc Bi Bo P Ne. destruct (grid s out a t c inc off H Ia Q Bc Bi Bo P Ne) as [x0 [X1 [X2 [X3 X4]]]].
  exists x0. split; [exact X2|]. split; [exact X3|]. split; [exact X1|]. split; [exact X4|]. intros k Bk.
  assert (0 < inc). { destruct (Z.eq_dec inc 0) as [->|]; [|lia]. exfalso. unfold on_grid in X2. 
    assert (V := a_valid s out H). rewrite Forall_forall in V. destruct (a_out s out H a Ia) as [m [m' [es [A1 [_ [_ A4]]]]]]. rewrite Q in A4. cbn in A4. subst es.
    assert (Vg : gvalid (EGen t (u32 c) (u32 0) (u32 off))) by (apply V, in_concat; eexists; split; [eapply nth_error_In; exact A1|now left]).
    destruct Vg as [_ [[V1 _] _]]. unfold u32 in V1. rewrite Z.mod_small in V1; lia. }
  split; [nia|]. unfold on_grid in *. rewrite Z.mod_add by lia. exact X2.
Qed.

Lemma ordered_before s1 s2 out1 out2 a b t x y : ainv s1 out1 -> ainv s2 (out1 ++ out2) -> created_once (alog s2) -> never_lowered (alog s2) ->
  In a out1 -> In b out2 -> (length (alog s1) <= r_idx b)%nat -> hands_out a t x -> hands_out b t y -> x < y.
Proof.
  intros H1 H2 CO NL Ia Ib Lb Ha Hb. destruct (a_out s1 out1 H1 a Ia) as [m [m' [es [E _]]]].
  assert ((r_idx a < length (alog s1))%nat) by (apply nth_error_Some; congruence).
  assert (X := ordered s2 (out1 ++ out2) a b t x y H2 CO NL ltac:(apply in_or_app; now left) ltac:(apply in_or_app; now right) ltac:(lia) Ha Hb).
  destruct Ha as [_ Ha], Hb as [_ Hb]. lia.
Qed.

(** a way to check [never_lowered] of a given log *)
Fixpoint nl (done l : list entry) : Prop :=
  match l with
  | [] => True
  | e :: r => match e with EUpdate t s => forall c, fold_left (moved code_next t) done None = Some c -> c <= s | _ => True end /\ nl (done ++ [e]) r
  end.

Lemma nl_ok log : nl [] (concat log) -> never_lowered log.
Proof.
  intros H pre t s post c E F. rewrite E in H. clear E.
  assert (G : forall pre done, nl done (pre ++ EUpdate t s :: post) -> fold_left (moved code_next t) (done ++ pre) None = Some c -> c <= s).
  { clear. induction pre as [|e pre IH]; intros done H F; cbn [app nl] in H.
    - rewrite app_nil_r in F. apply H, F.
    - apply (IH (done ++ [e])); [apply H|]. rewrite <- app_assoc. exact F. }
  exact (G pre [] H F).
Qed.

Lemma overlap l i j a b t x c1 i1 o1 c2 i2 o2 : nth_error l i = Some a -> nth_error l j = Some b -> i <> j ->
  r_req a = QGen t c1 i1 o1 -> r_req b = QGen t c2 i2 o2 -> r_start a <= x < r_end a -> r_start b <= x < r_end b -> ~ disjoint l.
Proof. intros A B N Qa Qb Ra Rb D. apply N. apply (D i j a b t x A B); (split; [eauto|assumption]). Qed.
