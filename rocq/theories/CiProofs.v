(** Proofs about requests to the coordinator. *)
Require Import List Bool PeanoNat Lia.
From Verif Require Import CiModel CiSpec.
Import ListNotations.

(** * One call among others *)
Lemma nth_set : forall (l : list call) c x d, nth_error l c <> None ->
  nth_error (set_call l c x) d = if Nat.eqb d c then Some x else nth_error l d.
Proof.
  unfold set_call. induction l as [| y l IH]; intros c x d H; [destruct c; cbn in H; congruence |].
  destruct c as [| c].
  - destruct d; reflexivity.
  - cbn [firstn skipn app]. destruct d as [| d]; [reflexivity |]. cbn [nth_error Nat.eqb].
    rewrite <- (IH c x d); auto.
Qed.

Lemma nth_snoc : forall (l : list call) x d y, nth_error (l ++ [x]) d = Some y ->
  nth_error l d = Some y \/ y = x.
Proof.
  induction l as [| z l IH]; intros x d y H.
  - destruct d as [| [| d]]; cbn in H; try discriminate. injection H as <-. auto.
  - destruct d; cbn in *; auto.
Qed.

(** A property of calls that new calls have and steps keep. *)
Lemma each_call : forall md (P : call -> Prop),
  P (mkC Ready []) ->
  (forall l a ns, P (mkC Ready l) -> P (mkC (Sent a ns) l)) ->
  (forall l a ns m o, P (mkC (Sent a ns) l) ->
     P (mkC (match snd (reply md m a ns o) with
             | Some st => Done st
             | None => if length (l ++ [(a, o)]) <? max_retry then Ready else Done SInternal
             end) (l ++ [(a, o)]))) ->
  forall es m c x, nth_error (cs (run md (start m) es)) c = Some x -> P x.
Proof.
  intros md P P0 PS PR es m.
  assert (forall es s, (forall c x, nth_error (cs s) c = Some x -> P x) ->
            forall c x, nth_error (cs (run md s es)) c = Some x -> P x) as G.
  { clear es m. induction es as [| e es IH]; intros s H; auto. cbn. apply IH. intros c x.
    destruct e as [| d p | d w]; cbn [act].
    - cbn. intros E. apply nth_snoc in E. destruct E as [E | ->]; eauto.
    - destruct (nth_error (cs s) d) as [[q l] |] eqn:D; eauto. destruct q; eauto.
      destruct (target (mem s) p) as [a ns]. cbn. rewrite nth_set by congruence.
      destruct (Nat.eqb c d); [intros E; injection E as <-; apply PS |]; eauto.
    - destruct (nth_error (cs s) d) as [[q l] |] eqn:D; eauto. destruct q; eauto.
      pose proof (PR l a ns (mem s) (w a) (H _ _ D)) as PR'.
      destruct (reply md (mem s) a ns (w a)) as [m' v]. cbn in *. rewrite nth_set by congruence.
      destruct (Nat.eqb c d); [intros E; injection E as <-; exact PR' |]; eauto. }
  apply G. intros c x E. destruct c; discriminate.
Qed.

(** * What is handed back *)
Definition fair (x : call) : Prop :=
  match ph x with
  | Done (SAns code) => length (log x) <= max_retry /\
      exists l a, log x = l ++ [(a, OAns code)] /\ existsb is_answer l = false
  | Done SInternal => length (log x) = max_retry /\ existsb is_answer (log x) = false
  | Done SRpc => length (log x) <= max_retry /\ existsb is_answer (log x) = false /\
      exists l a o, log x = l ++ [(a, o)] /\ (o = ODown \/ o = OLost \/ o = ONoChan)
  | _ => length (log x) < max_retry /\ existsb is_answer (log x) = false
  end.

Lemma fair_call : forall md es m c x, nth_error (cs (run md (start m) es)) c = Some x -> fair x.
Proof.
  intros md. apply each_call.
  - unfold fair, max_retry; cbn. split; [lia | auto].
  - intros l a ns H. exact H.
  - intros l a ns m o [L A]. cbn [log ph] in *.
    assert (forall st, snd (reply md m a ns o) = Some st ->
      (exists c, o = OAns c /\ st = SAns c) \/ (st = SRpc /\ (o = ODown \/ o = OLost \/ o = ONoChan))) as K.
    { intros st. destruct md; destruct o as [| | c | [h |] |]; cbn; intros E; try discriminate;
        injection E as <-; eauto 6. }
    assert (snd (reply md m a ns o) = None -> is_answer (a, o) = false) as N.
    { destruct md; destruct o as [| | c | [h |] |]; cbn; intros E; auto; discriminate. }
    destruct (snd (reply md m a ns o)) as [st |].
    + destruct (K st eq_refl) as [[c [-> ->]] | [-> B]]; unfold fair; cbn [ph log]; rewrite app_length; cbn [length].
      * split; [lia |]. exists l, a. auto.
      * split; [lia |]. split; [| exists l, a, o; auto].
        rewrite existsb_app, A. cbn. destruct B as [-> | [-> | ->]]; reflexivity.
    + specialize (N eq_refl).
      assert (existsb is_answer (l ++ [(a, o)]) = false) as A' by (rewrite existsb_app, A; cbn; rewrite N; auto).
      unfold fair. destruct (length (l ++ [(a, o)]) <? max_retry) eqn:E; cbn [ph log].
      * apply Nat.ltb_lt in E. auto.
      * apply Nat.ltb_ge in E. rewrite app_length in *. cbn [length] in *. split; [lia | auto].
Qed.

Lemma back_answer : forall md es m c code l,
  nth_error (cs (run md (start m) es)) c = Some (mkC (Done (SAns code)) l) ->
  length l <= 5 /\ exists l' a, l = l' ++ [(a, OAns code)] /\ existsb is_answer l' = false.
Proof. intros md es m c code l H. apply fair_call in H. exact H. Qed.

Lemma back_failure : forall md es m c l,
  nth_error (cs (run md (start m) es)) c = Some (mkC (Done SRpc) l) \/
  nth_error (cs (run md (start m) es)) c = Some (mkC (Done SInternal) l) ->
  length l <= 5 /\ existsb is_answer l = false.
Proof.
  intros md es m c l [H | H]; apply fair_call in H; unfold fair, max_retry in H; cbn in H.
  - tauto.
  - destruct H. split; [lia | auto].
Qed.

Lemma tries_few : forall md es m c x,
  nth_error (cs (run md (start m) es)) c = Some x -> length (log x) <= 5.
Proof.
  intros md es m c x H. apply fair_call in H. unfold fair, max_retry in H.
  destruct (ph x) as [| | [code | |]]; destruct H; lia.
Qed.

(** * How often a request is handled *)
Lemma times_snoc : forall l x, times (l ++ [x]) = times l + (if handled x then 1 else 0).
Proof.
  intros l x. unfold times. rewrite filter_app, app_length. cbn. destruct (handled x); auto.
Qed.

Lemma list_once : forall n es m c x, nth_error (cs (run (MList n) (start m) es)) c = Some x -> times (log x) <= 1.
Proof.
  intros n es m c x H.
  cut (times (log x) <= 1 /\ (match ph x with Done _ => True | _ => times (log x) = 0 end)); [tauto |].
  revert es m c x H. apply each_call.
  - cbn. auto.
  - intros l a ns H. exact H.
  - intros l a ns m o [_ Z]. cbn [ph log] in *. rewrite times_snoc, Z.
    destruct o as [| | code | h |]; cbn; try (split; [lia | auto]).
    match goal with |- context [if ?b then Ready else _] => destruct b end; auto.
Qed.

Lemma unlost_once : forall md es m c x, nth_error (cs (run md (start m) es)) c = Some x ->
  (forall a, ~ In (a, OLost) (log x)) -> times (log x) <= 1.
Proof.
  intros md es m c x H N. apply fair_call in H.
  assert (forall l, existsb is_answer l = false -> (forall a, ~ In (a, OLost) l) -> times l = 0) as Z.
  { clear. induction l as [| [a o] l IH]; intros E N; auto. cbn in E. apply orb_false_iff in E. destruct E as [E1 E2].
    unfold times in *. cbn [filter]. destruct o; cbn in *; try discriminate; auto.
    - apply IH; auto. intros b J. apply (N b). auto.
    - exfalso. apply (N a). auto.
    - apply IH; auto. intros b J. apply (N b). auto.
    - apply IH; auto. intros b J. apply (N b). auto. }
  unfold fair in H. destruct (ph x) as [| | [code | |]].
  - rewrite Z; [lia | tauto | auto].
  - rewrite Z; [lia | tauto | auto].
  - destruct H as [_ [l [a [E A]]]]. rewrite E in *. rewrite times_snoc, Z; auto.
    intros b J. apply (N b). apply in_or_app; auto.
  - rewrite Z; [lia | tauto | auto].
  - rewrite Z; [lia | tauto | auto].
Qed.

(** * A list of at most five *)
Section List_mode.
Variables n L : nat.
Hypothesis Hn : n <= 5.
Hypothesis HL : L < n.

Definition dist (i : nat) : nat := if i <=? L then L - i else n + L - i.

Definition good (m : nat) (x : call) : Prop :=
  match ph x with
  | Ready => length (log x) + dist m < n /\ existsb is_answer (log x) = false
  | Sent a _ => a < n /\ length (log x) + dist a < n /\ dist m <= dist a /\ existsb is_answer (log x) = false
  | Done _ => answered_by L x /\ length (log x) <= n
  end.

Definition goods (s : state) : Prop :=
  exists m, mem s = Some m /\ m < n /\ forall c x, nth_error (cs s) c = Some x -> good m x.

Lemma dist_next : forall i, i < n -> i <> L -> S (dist ((i + 1) mod n)) = dist i.
Proof.
  intros i Hi Ne. unfold dist.
  assert (i + 1 = n \/ i + 1 < n) as [E | E] by lia.
  - rewrite E, Nat.mod_same by lia. cbn [Nat.leb].
    destruct (i <=? L) eqn:A; [apply Nat.leb_le in A | apply Nat.leb_gt in A]; lia.
  - rewrite Nat.mod_small by lia.
    destruct (i <=? L) eqn:A, (i + 1 <=? L) eqn:B;
      rewrite ?Nat.leb_le, ?Nat.leb_gt in *; lia.
Qed.

Lemma dist_inj : forall i j, i < n -> j < n -> dist i = dist j -> i = j.
Proof.
  intros i j Hi Hj. unfold dist. destruct (i <=? L) eqn:A, (j <=? L) eqn:B; rewrite ?Nat.leb_le, ?Nat.leb_gt in *; lia.
Qed.

Lemma good_less : forall m m' x, dist m' <= dist m -> good m x -> good m' x.
Proof.
  intros m m' x D. unfold good. destruct (ph x); auto.
  - intros [A B]. split; [lia | auto].
  - intros [A [B [C E]]]. split; [auto |]. split; [auto |]. split; [lia | auto].
Qed.

Lemma goods_act : forall s e, goods s -> all_replies (leads n L) [e] -> goods (act (MList n) s e).
Proof.
  intros s e [m [M [Lt G]]] W. destruct e as [| d p | d w]; cbn [act].
  - exists m. cbn. split; auto. split; auto. intros c x E. apply nth_snoc in E. destruct E as [E | ->]; [eauto |].
    unfold good; cbn. split; auto. unfold dist. destruct (m <=? L) eqn:A; rewrite ?Nat.leb_le, ?Nat.leb_gt in *; lia.
  - destruct (nth_error (cs s) d) as [[q l] |] eqn:D; [| exists m; auto].
    destruct q; try (exists m; auto; fail). rewrite M. cbn.
    exists m. cbn. split; auto. split; auto. intros c x. rewrite nth_set by congruence.
    destruct (Nat.eqb c d); [| eauto]. intros E. injection E as <-. apply G in D.
    unfold good in *; cbn in *. destruct D as [D1 D2]. auto.
  - destruct (nth_error (cs s) d) as [[q l] |] eqn:D; [| exists m; auto].
    destruct q as [| a ns |]; try (exists m; auto; fail).
    destruct (W d w (or_introl eq_refl)) as [[code WL] WO].
    pose proof (G _ _ D) as Gd. unfold good in Gd. cbn in Gd. destruct Gd as [Ga [Gl [Gm Gx]]].
    destruct (Nat.eq_dec a L) as [-> | Ne].
    + rewrite WL. cbn. rewrite M. exists m. cbn. split; auto. split; auto. intros c x. rewrite nth_set by congruence.
      destruct (Nat.eqb c d); [| eauto]. intros E. injection E as <-. unfold good; cbn.
      split; [exists l, code; auto |]. rewrite app_length. cbn. lia.
    + destruct (WO a Ga Ne) as [h Wa]. rewrite Wa. cbn [reply]. rewrite M. cbn [next_leader].
      set (m' := if Nat.eqb m a then (a + 1) mod n else m).
      assert ((if Nat.eqb m a then Some ((a + 1) mod n) else Some m) = Some m') as E by (unfold m'; destruct (Nat.eqb m a); auto).
      rewrite E.
      assert (m' < n) as Lt' by (unfold m'; destruct (Nat.eqb m a); auto; apply Nat.mod_upper_bound; lia).
      assert (S (dist m') <= dist a /\ dist m' <= dist m) as [D1 D2].
      { unfold m'. destruct (Nat.eqb m a) eqn:Q.
        - apply Nat.eqb_eq in Q. subst m. pose proof (dist_next a Ga Ne). lia.
        - apply Nat.eqb_neq in Q. split; [| lia].
          assert (dist m <> dist a) by (intros C; apply Q; apply dist_inj; auto). lia. }
      exists m'. cbn [mem cs]. split; auto. split; auto. intros c x. rewrite nth_set by congruence.
      destruct (Nat.eqb c d).
      * intros X. injection X as <-.
        assert (length (l ++ [(a, ONot h)]) <? max_retry = true) as F.
        { apply Nat.ltb_lt. rewrite app_length. cbn. unfold max_retry. lia. }
        rewrite F. unfold good; cbn [ph log]. split; [rewrite app_length; cbn; lia |].
        rewrite existsb_app, Gx. reflexivity.
      * intros X. apply (good_less m); auto. eauto.
Qed.

Lemma goods_run : forall es s, goods s -> all_replies (leads n L) es -> goods (run (MList n) s es).
Proof.
  induction es as [| e es IH]; intros s G W; auto. cbn. apply IH.
  - apply goods_act; auto. intros c w [-> | []]. eapply W. left. reflexivity.
  - intros c w J. eapply W. right. exact J.
Qed.
End List_mode.

Lemma list_reaches : forall n L i es c x,
  n <= 5 -> L < n -> i < n -> all_replies (leads n L) es ->
  nth_error (cs (run (MList n) (start (Some i)) es)) c = Some x ->
  length (log x) <= n /\ (forall st, ph x = Done st -> answered_by L x).
Proof.
  intros n L i es c x Hn HL Hi W E.
  destruct (goods_run n L Hn HL es (start (Some i))) as [m [_ [_ G]]]; auto.
  { exists i. cbn. split; auto. split; auto. intros d y Y. destruct d; discriminate. }
  specialize (G c x E). unfold good in G. destruct (ph x) as [| a ns | st].
  - split; [lia |]. intros st H. discriminate.
  - split; [lia |]. intros st H. discriminate.
  - destruct G as [G1 G2]. split; [lia |]. auto.
Qed.

(** * A remembered server that is down *)
Lemma stuck : forall n i es c x,
  all_replies (fun w => w i = ODown) es ->
  nth_error (cs (run (MList n) (start (Some i)) es)) c = Some x ->
  match ph x with Done st => st = SRpc | Ready => log x = [] | Sent a _ => a = i end.
Proof.
  intros n i es.
  assert (forall es s, mem s = Some i ->
    (forall c x, nth_error (cs s) c = Some x -> match ph x with Done st => st = SRpc | Ready => log x = [] | Sent a _ => a = i end) ->
    all_replies (fun w => w i = ODown) es ->
    forall c x, nth_error (cs (run (MList n) s es)) c = Some x ->
      match ph x with Done st => st = SRpc | Ready => log x = [] | Sent a _ => a = i end) as G.
  { clear es. induction es as [| e es IH]; intros s M G W; auto. cbn.
    assert (all_replies (fun w => w i = ODown) es) as W' by (intros c w J; eapply W; right; exact J).
    destruct e as [| d p | d w]; cbn [act].
    - apply IH; auto. cbn. intros c x E. apply nth_snoc in E. destruct E as [E | ->]; [exact (G _ _ E) | reflexivity].
    - destruct (nth_error (cs s) d) as [[q l] |] eqn:D; [| apply IH; auto].
      destruct q; try (apply IH; auto; fail). rewrite M. cbn [target].
      apply IH; auto. cbn. intros c x. rewrite nth_set by congruence.
      destruct (Nat.eqb c d); [intros E; injection E as <-; reflexivity | apply G].
    - destruct (nth_error (cs s) d) as [[q l] |] eqn:D; [| apply IH; auto].
      destruct q as [| a ns |]; try (apply IH; auto; fail).
      pose proof (G _ _ D) as Ga. cbn in Ga. subst a. rewrite (W d w (or_introl eq_refl)). cbn [reply].
      apply IH; auto. cbn. intros c x. rewrite nth_set by congruence.
      destruct (Nat.eqb c d); [intros E; injection E as <-; reflexivity | apply G]. }
  intros c x W E. apply (G es (start (Some i)) eq_refl) with (c := c); auto.
  intros d y Y. destruct d; discriminate.
Qed.

(** * The name of a service *)
Definition pairs (ps : list (nat * (nat -> outcome))) : list event :=
  flat_map (fun x => [ESend 0 (fst x); EReply 0 (snd x)]) ps.

Definition cost (L : nat) (m : option nat) : nat :=
  match m with None => 2 | Some a => if Nat.eqb a L then 1 else 3 end.

Lemma done_stays : forall ps m st l,
  run MName (mkS m [mkC (Done st) l]) (pairs ps) = mkS m [mkC (Done st) l].
Proof. induction ps as [| x ps IH]; intros m st l; auto. cbn. apply IH. Qed.

Lemma attempt : forall m l p w a ns, target m p = (a, ns) ->
  act MName (act MName (mkS m [mkC Ready l]) (ESend 0 p)) (EReply 0 w) =
  mkS (fst (reply MName m a ns (w a)))
      [mkC (match snd (reply MName m a ns (w a)) with
            | Some st => Done st
            | None => if length (l ++ [(a, w a)]) <? max_retry then Ready else Done SInternal
            end) (l ++ [(a, w a)])].
Proof.
  intros m l p w a ns T. cbn [act mem cs nth_error]. rewrite T. cbn [mem cs set_call firstn skipn app nth_error].
  destruct (reply MName m a ns (w a)) as [m' v]. reflexivity.
Qed.

Lemma name_from : forall L ps m l,
  (forall x, In x ps -> leads_known L (snd x)) -> existsb is_answer l = false ->
  length l + cost L m + unhelped ps <= 5 -> cost L m + unhelped ps <= length ps ->
  exists x, run MName (mkS m [mkC Ready l]) (pairs ps) = mkS (Some L) [x] /\ answered_by L x /\
    length (log x) <= length l + cost L m + unhelped ps.
Proof.
  intros L. induction ps as [| [p w] ps IH]; intros m l K A B C.
  - exfalso. cbn in C. unfold cost in C. destruct m as [a |]; [destruct (Nat.eqb a L) |]; lia.
  - destruct (K (p, w) (or_introl eq_refl)) as [[code KL] KO]. cbn [snd] in KL, KO.
    assert (forall x, In x ps -> leads_known L (snd x)) as K' by (intros x J; apply K; right; auto).
    unfold run, pairs. cbn [flat_map fst snd app fold_left].
    fold (pairs ps).
    destruct (target m p) as [a ns] eqn:T. rewrite (attempt m l p w a ns T).
    assert (unhelped ps <= unhelped ((p, w) :: ps) /\ (w p = ODown \/ w p = ONot None -> S (unhelped ps) = unhelped ((p, w) :: ps))) as [D1 D2].
    { unfold unhelped. cbn [filter snd fst]. split; [destruct (w p) as [| | | [h |] |]; cbn; lia | intros [-> | ->]; reflexivity]. }
    (* the call goes on from what is remembered now *)
    assert (forall m' o, o <> OAns 0 -> is_answer (a, o) = false -> S (cost L m' + unhelped ps) <= cost L m + unhelped ((p, w) :: ps) ->
      exists x, run MName (mkS m' [mkC (if length (l ++ [(a, o)]) <? max_retry then Ready else Done SInternal) (l ++ [(a, o)])]) (pairs ps)
        = mkS (Some L) [x] /\ answered_by L x /\ length (log x) <= length l + cost L m + unhelped ((p, w) :: ps)) as Go.
    { intros m' o _ No Le.
      assert (1 <= cost L m') as Pos by (unfold cost; destruct m' as [b |]; [destruct (Nat.eqb b L) |]; lia).
      assert (length (l ++ [(a, o)]) = S (length l)) as Ln by (rewrite app_length; cbn; lia).
      replace (length (l ++ [(a, o)]) <? max_retry) with true
        by (symmetry; apply Nat.ltb_lt; rewrite Ln; unfold max_retry; lia).
      cbn [length] in C.
      destruct (IH m' (l ++ [(a, o)]) K') as [x [X1 [X2 X3]]].
      - rewrite existsb_app, A. cbn [existsb]. rewrite No. reflexivity.
      - rewrite Ln. lia.
      - lia.
      - exists x. split; [exact X1 |]. split; [exact X2 |]. rewrite Ln in X3. lia. }
    destruct (Nat.eq_dec a L) as [-> | Ne].
    + rewrite KL. cbn [reply fst snd].
      exists (mkC (Done (SAns code)) (l ++ [(L, OAns code)])).
      split; [| split; [exists l, code; auto | cbn [log]; rewrite app_length; cbn [length]]].
      * replace (if ns then Some L else m) with (Some L); [apply done_stays |].
        destruct m as [b |]; cbn in T; injection T as -> <-; reflexivity.
      * unfold cost. destruct m as [b |]; [destruct (Nat.eqb b L) |]; lia.
    + destruct m as [b |]; cbn in T; injection T as -> <-.
      * assert (cost L (Some a) = 3) as Ca by (cbn; apply Nat.eqb_neq in Ne; rewrite Ne; auto).
        destruct (KO a Ne) as [E | [E | E]]; rewrite E; cbn [reply fst snd]; apply Go; try discriminate; auto; rewrite Ca.
        -- cbn [cost]. lia.
        -- cbn [cost]. lia.
        -- cbn [cost]. rewrite Nat.eqb_refl. lia.
      * destruct (KO a Ne) as [E | [E | E]]; rewrite E; cbn [reply fst snd]; apply Go; try discriminate; auto.
        -- rewrite <- (D2 (or_introl E)). cbn [cost]. lia.
        -- rewrite <- (D2 (or_intror E)). cbn [cost]. lia.
        -- cbn [cost]. rewrite Nat.eqb_refl. lia.
Qed.

Lemma name_reaches : forall L m ps,
  (forall x, In x ps -> leads_known L (snd x)) -> unhelped ps <= 2 -> 3 + unhelped ps <= length ps ->
  exists x, run MName (start m) (attempts ps) = mkS (Some L) [x] /\ answered_by L x /\
    length (log x) <= 3 + unhelped ps.
Proof.
  intros L m ps K D Ln. unfold attempts. fold (pairs ps).
  assert (cost L m <= 3) as Cm by (unfold cost; destruct m as [b |]; [destruct (Nat.eqb b L) |]; lia).
  destruct (name_from L ps m [] K eq_refl) as [x [X1 [X2 X3]]]; [cbn; lia | lia |].
  exists x. split; [exact X1 |]. split; [exact X2 |]. cbn in X3. lia.
Qed.

(** * Servers that name each other *)
Lemma circle : forall a b es c x,
  all_replies (fun w => w a = ONot (Some b) /\ w b = ONot (Some a)) es ->
  nth_error (cs (run MName (start (Some a)) es)) c = Some x ->
  match ph x with Done st => st = SInternal | Sent d _ => d = a \/ d = b | Ready => True end.
Proof.
  intros a b es.
  assert (forall es s, (mem s = Some a \/ mem s = Some b) ->
    (forall c x, nth_error (cs s) c = Some x -> match ph x with Done st => st = SInternal | Sent d _ => d = a \/ d = b | Ready => True end) ->
    all_replies (fun w => w a = ONot (Some b) /\ w b = ONot (Some a)) es ->
    forall c x, nth_error (cs (run MName s es)) c = Some x ->
      match ph x with Done st => st = SInternal | Sent d _ => d = a \/ d = b | Ready => True end) as G.
  { clear es. induction es as [| e es IH]; intros s M G W; auto. cbn.
    assert (all_replies (fun w => w a = ONot (Some b) /\ w b = ONot (Some a)) es) as W'
      by (intros c w J; eapply W; right; exact J).
    destruct e as [| d p | d w]; cbn [act].
    - apply IH; auto. cbn. intros c x E. apply nth_snoc in E. destruct E as [E | ->]; [exact (G _ _ E) | exact I].
    - destruct (nth_error (cs s) d) as [[q l] |] eqn:D; [| apply IH; auto].
      destruct q; try (apply IH; auto; fail).
      destruct M as [M | M]; rewrite M; cbn [target]; (apply IH; [cbn; auto | | auto]); cbn; intros c x;
        rewrite nth_set by congruence;
        (destruct (Nat.eqb c d); [intros E; injection E as <-; cbn; auto | apply G]).
    - destruct (nth_error (cs s) d) as [[q l] |] eqn:D; [| apply IH; auto].
      destruct q as [| t ns |]; try (apply IH; auto; fail).
      pose proof (G _ _ D) as Gt. cbn in Gt. destruct (W d w (or_introl eq_refl)) as [Wa Wb].
      destruct Gt as [-> | ->]; [rewrite Wa | rewrite Wb]; cbn [reply];
        (apply IH; [cbn; auto | | auto]); cbn [cs]; intros c x; rewrite nth_set by congruence;
        (destruct (Nat.eqb c d); [intros E; injection E as <-; cbn [ph] | apply G]);
        match goal with |- context [if ?q then Ready else _] => destruct q end; auto. }
  intros c x W E. apply (G es (start (Some a)) (or_introl eq_refl)) with (c := c); auto.
  intros d y Y. destruct d; discriminate.
Qed.
