(** Second-generation sessions and transactional scans. *)
From Coq Require Import ZArith List Lia Bool Sorted.
From Verif Require Import Bytes SMap Outcome SessModel TxnModel TxnSpec TxnBase TxnReadModel TxnReadSpec CpModel CpSpec.
From Verif Require Import TxnReadProofs3 TxnReadProofs TxnReadProofs2 TxnReadProofs4 CpProofs1 CpProofs3.
Import ListNotations.
Open Scope Z_scope.

Lemma results_app f a b : results f (a ++ b) = results f a ++ results f b.
Proof. apply flat_map_app. Qed.
Lemma results_len f l : (length (results f l) <= length l)%nat.
Proof. induction l as [|x l IH]; simpl; auto. unfold results in *. simpl. rewrite app_length. destruct (f x); simpl; lia. Qed.
Lemma results_cons f kv l : results f (kv :: l) = (match f kv with Some x => [x] | None => [] end) ++ results f l.
Proof. reflexivity. Qed.

(** ** Raw sessions *)
Section Raw.
Context {S : Type}.
Variables (R : runner S) (f : row -> option row) (ko : bool).
Hypothesis ST : streaming R f.

Lemma raw_loop_spec mc mb : forall rows cnt sz acc s, 0 <= cnt ->
  exists n more, raw_loop R ko mc mb rows cnt sz acc s =
    Some (acc ++ map (shown_row ko) (results f (firstn n rows)), more, skipn n rows, s) /\ (n <= length rows)%nat /\
    Z.of_nat n <= Z.max 1 (mc - cnt) /\ (more = false -> n = length rows) /\ (rows <> [] -> (1 <= n)%nat).
Proof.
  destruct ST as [P _]. induction rows as [|kv rows IH]; intros cnt sz acc s CN; cbn [raw_loop].
  - exists O, false. simpl. rewrite app_nil_r. split; [auto|split; [auto|split; [lia|split; [auto|congruence]]]].
  - rewrite P. destruct (full_spec mc mb false cnt sz kv) as (full & sz' & EQ & FL). rewrite EQ.
    assert (HD : (match f kv with Some kv' => acc ++ [shown_row ko kv'] | None => acc end) =
      acc ++ map (shown_row ko) (match f kv with Some x => [x] | None => [] end)) by (destruct (f kv); simpl; rewrite ?app_nil_r; auto).
    destruct full.
    + exists 1%nat, true. cbn [firstn skipn length]. rewrite results_cons, app_nil_r, HD. split; [auto|split; [lia|split; [lia|split; [discriminate|lia]]]].
    + assert (cnt + 1 < mc) by (destruct (Z_lt_ge_dec (cnt + 1) mc); [auto|exfalso; assert (false = true) by (apply FL; lia); discriminate]).
      rewrite HD. destruct (IH (cnt + 1) sz' (acc ++ map (shown_row ko) (match f kv with Some x => [x] | None => [] end)) s ltac:(lia)) as (n & more & A & B & C & D & E).
      exists (Datatypes.S n), more. rewrite A. cbn [firstn skipn length]. rewrite results_cons, map_app, <- app_assoc.
      split; [auto|split; [lia|split; [lia|split; [intros X; rewrite (D X); auto|lia]]]].
Qed.

Lemma raw_pages : forall lims rows s,
  exists ps n, pages2 R false ko lims rows s = Ok (Some ps) /\ (n <= length rows)%nat /\
    concat (map fst ps) = map (shown_row ko) (results f (firstn n rows)) /\
    Forall2 (fun l p => Z.of_nat (length (fst p)) <= Z.max 1 (fst l)) lims ps /\
    ((exists p, In (p, false) ps) -> n = length rows) /\
    ((length rows < length lims)%nat -> exists p, In (p, false) ps).
Proof.
  induction lims as [|[mc mb] lims IH]; intros rows s; cbn [pages2].
  - exists [], O. simpl. split; [auto|split; [lia|split; [auto|split; [auto|split; [intros (p & []) | lia]]]]].
  - destruct (raw_loop_spec mc mb rows 0 0 [] s ltac:(lia)) as (n & more & A & B & C & D & E).
    unfold page2. rewrite A, (proj2 ST s). cbn [obind]. rewrite app_nil_r, app_nil_l.
    destruct (IH (skipn n rows) s) as (ps & m & F & G & H & I & J & K). rewrite F. cbn [obind].
    rewrite skipn_length in *.
    exists ((map (shown_row ko) (results f (firstn n rows)), more) :: ps), (n + m)%nat.
    split; [auto|split; [lia|split; [|split; [|split]]]].
    + cbn [map concat fst]. rewrite H, <- map_app, <- results_app, firstn_plus. auto.
    + constructor; [|auto]. cbn [fst]. rewrite map_length. assert (X := results_len f (firstn n rows)). rewrite firstn_length in X. lia.
    + intros (p & [X|X]).
      * assert (M : more = false) by congruence. rewrite (D M) in *. lia.
      * rewrite J; [lia|eauto].
    + intros X. cbn [length] in X. destruct rows as [|kv rows'].
      * destruct more; [|eexists; left; reflexivity].
        cbn [raw_loop] in A. exfalso. assert (true = false) by congruence. discriminate.
      * assert (1 <= n)%nat by (apply E; discriminate). destruct K as (p & K); [cbn [length] in *; lia|]. exists p. right. auto.
Qed.
End Raw.

(** ** Transactional scans *)
Section Cop.
Variable i : iso.
Variable ts : Z.
Variable rs : list Z.
Variable LK : bytes -> option lock.
Variable VS : bytes -> list (Z * wrec).
Variable V : bytes -> bytes.
Variable ALL : list bytes.
Context {S : Type}.
Variables (R : runner S) (u : S -> row -> S) (out : S -> row -> option row) (ko : bool).
Hypothesis PUT : forall s kv, r_put R s kv = Some (u s kv, out s kv).

Notation Ready := (Ready i ts rs LK VS V ALL).
Notation vals := (vals i ts VS V ALL).

Fixpoint outs (s : S) (l : list row) : list row :=
  match l with [] => [] | kv :: r => (match out s kv with Some x => [x] | None => [] end) ++ outs (u s kv) r end.

Lemma ready_valid x kv kvs oc : Ready x (kv :: kvs, oc) -> it_valid x = true /\ (it_key x, it_value x) = kv.
Proof.
  destruct kv as [k v]. intros (R0 & G & P & EV & NV & ER). split.
  - unfold it_valid. destruct P as (P1 & _ & _ & _ & _ & P6). rewrite P6, P1. apply good_cons in G. destruct G as ((N & _) & _).
    rewrite (proj2 (beqb_false k [])); auto.
  - destruct P as (P1 & _). rewrite P1, EV. auto.
Qed.
Lemma ready_end x oc : Ready x ([], oc) -> it_valid x = false /\ it_conf x = oc.
Proof. intros RD. unfold it_valid. destruct oc; simpl in RD; [rewrite RD; auto|destruct RD as [A B]; rewrite A, B; auto]. Qed.
Lemma ready_next ds x kv kvs oc : vals ds -> Ready x (kv :: kvs, oc) ->
  (exists l y, kvs = [] /\ oc = Some l /\ it_next ds i ts rs x = Ok (ItConflict y) /\ it_conf y = Some l) \/
  (exists y, it_next ds i ts rs x = Ok (ItOk y) /\ Ready y (kvs, oc) /\ (kvs = [] -> oc = None)).
Proof.
  destruct kv as [k v]. intros VV (R0 & G & P & EV & NV & ER). assert (NX := it_next_spec i ts rs LK VS V ALL ds x k R0 G VV P). rewrite ER in NX.
  destruct kvs as [|r0 rest]; [destruct oc as [l|]|].
  - left. destruct NX as (y & A & B). exists l, y. auto.
  - right. destruct NX as (y & A & B). exists y. auto.
  - right. destruct NX as (y & A & B). exists y. split; [auto|split; [auto|discriminate]].
Qed.

Lemma cop_loop_spec ds limit full : vals ds -> forall kvs oc fuel x acc s, Ready x (kvs, oc) -> (length kvs < fuel)%nat ->
  exists n more y, cop_loop fuel R ds i ts rs ko limit full x acc s =
      Ok (CopDone (acc ++ map (shown_row ko) (outs s (firstn n kvs))) more y, fold_left u (firstn n kvs) s) /\
    (n <= length kvs)%nat /\ (kvs <> [] -> 1 <= n)%nat /\
    (if more then (1 <= n)%nat /\ Ready y (skipn (n - 1) kvs, oc) else n = length kvs /\ Ready y ([], oc)) /\
    (forall m, (0 < m < n)%nat -> stop limit full (length acc + length (outs s (firstn m kvs))) = false) /\
    (more = true -> stop limit full (length acc + length (outs s (firstn n kvs))) = true).
Proof.
  intros VV. induction kvs as [|kv kvs IH]; intros oc fuel x acc s RD LF; (destruct fuel as [|fuel]; [simpl in LF; lia|]); cbn [cop_loop].
  - destruct (ready_end x oc RD) as [NV C]. rewrite NV. exists O, false, x. simpl. rewrite app_nil_r.
    split; [auto|split; [auto|split; [congruence|split; [auto|split; [intros; lia|discriminate]]]]].
  - destruct (ready_valid x kv kvs oc RD) as [VA EK]. rewrite VA, EK, PUT.
    assert (HD : (match out s kv with Some kv' => acc ++ [shown_row ko kv'] | None => acc end) =
      acc ++ map (shown_row ko) (match out s kv with Some z => [z] | None => [] end)) by (destruct (out s kv); simpl; rewrite ?app_nil_r; auto).
    rewrite HD. set (acc' := acc ++ map (shown_row ko) (match out s kv with Some z => [z] | None => [] end)).
    assert (LA : length acc' = (length acc + length (match out s kv with Some z => [z] | None => [] end))%nat) by (unfold acc'; rewrite app_length, map_length; auto).
    destruct (stop limit full (length acc')) eqn:SP.
    + exists 1%nat, true, x. cbn [firstn skipn outs fold_left length Nat.sub]. rewrite app_nil_r.
      split; [auto|split; [lia|split; [lia|split; [auto|split; [intros; lia|]]]]]. rewrite <- LA. auto.
    + destruct (ready_next ds x kv kvs oc VV RD) as [(l & y & -> & -> & E & C)|(y & E & RY & RO)]; rewrite E; cbn [obind].
      * exists 1%nat, false, y. cbn [firstn skipn outs fold_left length]. rewrite app_nil_r.
        split; [auto|split; [lia|split; [lia|split; [|split; [intros; lia|discriminate]]]]]. split; [auto|exact C].
      * destruct (IH oc fuel y acc' (u s kv) RY ltac:(simpl in LF; lia)) as (n & more & z & A & B & C & D & F & G).
        exists (Datatypes.S n), more, z. rewrite A. cbn [firstn outs fold_left length].
        split; [unfold acc'; rewrite map_app, <- app_assoc; auto|split; [lia|split; [lia|split; [|split]]]].
        -- destruct more.
           ++ destruct D as [D1 D2]. split; [lia|]. replace (Datatypes.S n - 1)%nat with (Datatypes.S (n - 1)) by lia. exact D2.
           ++ destruct D as [D1 D2]. split; [lia|exact D2].
        -- intros m M. destruct m as [|m]; [lia|]. cbn [firstn outs]. rewrite app_length.
           destruct m as [|m]; [simpl; rewrite Nat.add_0_r, <- LA; auto|]. specialize (F (Datatypes.S m) ltac:(lia)). rewrite LA in F. rewrite Nat.add_assoc. auto.
        -- intros X. rewrite app_length, Nat.add_assoc, <- LA. auto.
Qed.

(** the step after the page *)
Lemma skipn_cons {A} (l : list A) n : (1 <= n <= length l)%nat -> exists x, skipn (n - 1) l = x :: skipn n l.
Proof.
  revert n. induction l as [|y l IH]; intros n H; simpl in H; [lia|]. destruct n as [|n]; [lia|]. destruct n as [|n]; [exists y; reflexivity|].
  destruct (IH (Datatypes.S n) ltac:(lia)) as (x & E). exists x. replace (Datatypes.S (Datatypes.S n) - 1)%nat with (Datatypes.S (Datatypes.S n - 1)) by lia. exact E.
Qed.

Lemma cop_next_spec ds limit full kvs oc x : vals ds -> Ready x (kvs, oc) -> (forall s, exists s' l, r_drain R s = Some (s', l)) ->
  exists p y n s' l, cop_next R false ds i ts rs ko limit full x = Ok (p, y) /\ pg_err p = false /\
    r_drain R (fold_left u (firstn n kvs) (r_start R)) = Some (s', l) /\
    pg_kvs p = map (shown_row ko) (outs (r_start R) (firstn n kvs)) ++ l /\ Ready y (skipn n kvs, oc) /\ (n <= length kvs)%nat /\
    (pg_more p = false \/ pg_conf p <> None -> n = length kvs /\ pg_conf p = oc) /\
    (kvs <> [] -> 1 <= n)%nat /\ (kvs = [] -> pg_more p = false) /\
    (forall m, (0 < m < n)%nat -> stop limit full (length (outs (r_start R) (firstn m kvs))) = false) /\
    (pg_more p = true -> exists m, (0 < m <= length kvs)%nat /\ stop limit full (length (outs (r_start R) (firstn m kvs))) = true).
Proof.
  intros VV RD DR. unfold cop_next, cop_execute.
  destruct (cop_loop_spec ds limit full VV kvs oc (turns x) x [] (r_start R) RD (ready_turns _ _ _ _ _ _ _ _ _ _ RD)) as (n & more & y & A & B & C & D & F & G).
  rewrite A. cbn [obind]. destruct (DR (fold_left u (firstn n kvs) (r_start R))) as (s' & l & DE). rewrite DE. cbn [obind app].
  destruct more.
  - destruct D as [D1 D2]. destruct (skipn_cons kvs n ltac:(lia)) as (kv & EK). rewrite EK in D2.
    destruct (ready_valid _ _ _ _ D2) as [VA _]. rewrite VA.
    destruct (ready_next ds y kv _ oc VV D2) as [(l0 & z & E1 & -> & E & CF)|(z & E & RY & RO)]; rewrite E; cbn [obind].
    + assert (n = length kvs) by (assert (L := skipn_length n kvs); rewrite E1 in L; simpl in L; lia).
      eexists. exists z, n, s', l. split; [reflexivity|]. cbn [pg_kvs pg_conf pg_more pg_err].
      split; [auto|split; [auto|split; [auto|split; [|split; [auto|split; [auto|split; [auto|split; [|split; [auto|]]]]]]]]].
      * rewrite E1. exact CF.
      * intros ->. simpl in *. lia.
      * intros _. exists n. split; [lia|]. apply G. auto.
    + eexists. exists z, n, s', l. split; [reflexivity|]. cbn [pg_kvs pg_conf pg_more pg_err].
      assert (CZ : it_conf z = None).
      { destruct (skipn n kvs) as [|[k1 v1] r1] eqn:E1; [rewrite (RO eq_refl) in RY; simpl in RY; tauto|]. destruct RY as (R1 & _ & P' & _). apply P'. }
      split; [auto|split; [auto|split; [auto|split; [auto|split; [auto|split; [|split; [auto|split; [|split; [auto|]]]]]]]]].
      * rewrite CZ. intros [X|X]; [discriminate|congruence].
      * intros ->. simpl in *. lia.
      * intros _. exists n. split; [lia|]. apply G. auto.
  - destruct D as [D1 D2]. destruct (ready_end _ _ D2) as [NV CF]. rewrite NV.
    eexists. exists y, n, s', l. split; [reflexivity|]. cbn [pg_kvs pg_conf pg_more pg_err].
    split; [auto|split; [auto|split; [auto|split; [|split; [auto|split; [auto|split; [auto|split; [auto|split; [auto|discriminate]]]]]]]]].
    rewrite D1, skipn_all. auto.
Qed.

Lemma cop_count_spec ds : vals ds -> forall kvs oc fuel x n0, Ready x (kvs, oc) -> (length kvs < fuel)%nat ->
  exists y, cop_count fuel ds i ts rs x n0 = Ok (Some ((n0 + length kvs)%nat, y)) /\ Ready y ([], oc).
Proof.
  intros VV. induction kvs as [|kv kvs IH]; intros oc fuel x n0 RD LF; (destruct fuel as [|fuel]; [simpl in LF; lia|]); cbn [cop_count].
  - destruct (ready_end x oc RD) as [NV C]. rewrite NV. exists x. simpl. rewrite Nat.add_0_r. auto.
  - destruct (ready_valid x kv kvs oc RD) as [VA _]. rewrite VA.
    destruct (ready_next ds x kv kvs oc VV RD) as [(l & y & -> & -> & E & C)|(y & E & RY & RO)]; rewrite E; cbn [obind].
    + exists y. simpl. auto.
    + destruct (IH oc fuel y (n0 + 1)%nat RY ltac:(simpl in LF; lia)) as (z & A & B). exists z. rewrite A. split; [do 2 f_equal; f_equal; simpl; lia|auto].
Qed.
End Cop.

Lemma outs_streaming {S} (f : row -> option row) : forall l (s : S), outs (fun s _ => s) (fun _ kv => f kv) s l = results f l.
Proof. induction l as [|kv l IH]; intros s; cbn [outs]; auto. rewrite IH. reflexivity. Qed.
Lemma outs_blocking {S} (u : S -> row -> S) : forall l s, outs u (fun _ _ => None) s l = [].
Proof. induction l as [|kv l IH]; intros s; cbn [outs]; auto. rewrite IH. reflexivity. Qed.

Section Scan.
Variable s : store.
Variable i : iso.
Variable ts : Z.
Variable rs : list Z.
Variable a b : bytes.
Hypothesis Hok : store_ok s.
Hypothesis Hvals : values_there s.
Hypothesis Hrc : i = RC -> bounded_commits s.
Hypothesis Ha : a <> [].
Notation rws := (sRows s i ts rs a b).
Notation Rdy := (Ready i ts rs (sLK s) (sVS s i ts a) (sV s i ts a) (sR s i ts a b)).

Lemma seek_cases : 
  (exists l y, fst rws = [] /\ snd rws = Some l /\ it_seek (datas s) i ts rs a (it_init s a b) = Ok (ItConflict y) /\ it_conf y = Some l) \/
  (exists y, it_seek (datas s) i ts rs a (it_init s a b) = Ok (ItOk y) /\ Rdy y rws).
Proof.
  assert (SK := it_seek_spec i ts rs (sLK s) (sVS s i ts a) (sV s i ts a) (sR s i ts a b) (datas s) a (it_init s a b) (sR s i ts a b)
    (sR_good s i ts a b Hok Ha) (sV_vals s i ts a Hok Hvals Hrc (datas s) (sR s i ts a b) (same_self s)) eq_refl (seek_locks s i ts a b Hok) (seek_writes s i ts a b Hok)).
  fold (sRows s i ts rs a b) in SK.
  destruct (sRows s i ts rs a b) as [kvs oc] eqn:ER. cbn [fst snd].
  destruct kvs; [destruct oc as [l|]|]; [left|right|right]; destruct SK as (y & A & B); [exists l, y|exists y|exists y]; auto.
Qed.

Section Str.
Context {S : Type}.
Variables (R : runner S) (f : row -> option row) (ko : bool).
Hypothesis ST : streaming R f.

Lemma str_next ds limit full kvs oc x : same_values s ds -> Rdy x (kvs, oc) ->
  exists p y n, cop_next R false ds i ts rs ko limit full x = Ok (p, y) /\ pg_err p = false /\
    pg_kvs p = map (shown_row ko) (results f (firstn n kvs)) /\ Rdy y (skipn n kvs, oc) /\ (n <= length kvs)%nat /\
    (pg_more p = false \/ pg_conf p <> None -> n = length kvs /\ pg_conf p = oc) /\
    (kvs <> [] -> 1 <= n)%nat /\ (kvs = [] -> pg_more p = false) /\
    (0 < limit -> Z.of_nat (length (pg_kvs p)) <= limit).
Proof.
  intros SV RD. destruct ST as [P D].
  destruct (cop_next_spec i ts rs _ _ _ _ R (fun s _ => s) (fun _ kv => f kv) ko P ds limit full kvs oc x
     (sV_vals s i ts a Hok Hvals Hrc ds (sR s i ts a b) SV) RD) as (p & y & n & s' & l & A1 & A2 & A3 & A4 & A5 & A6 & A7 & A8 & A9 & A10 & _).
  { intros s0. exists s0, []. apply D. }
  rewrite D in A3. assert (l = []) by congruence. subst l. rewrite app_nil_r, outs_streaming in A4.
  exists p, y, n. split; [auto|split; [auto|split; [auto|split; [auto|split; [auto|split; [auto|split; [auto|split; [auto|]]]]]]]].
  intros LI. rewrite A4, map_length. destruct n as [|n]; [simpl; lia|].
  destruct n as [|n].
  - assert (X := results_len f (firstn 1 kvs)). rewrite firstn_length in X. lia.
  - assert (Q := A10 (Datatypes.S n) ltac:(lia)). rewrite outs_streaming in Q. unfold stop in Q. apply orb_false_iff in Q. destruct Q as [Q _]. apply Z.leb_gt in Q.
    replace (Datatypes.S (Datatypes.S n)) with (Datatypes.S n + 1)%nat by lia. rewrite <- firstn_plus, results_app, app_length.
    assert (X := results_len f (firstn 1 (skipn (Datatypes.S n) kvs))). rewrite firstn_length in X. lia.
Qed.

Lemma str_more : forall ps kvs oc x, Rdy x (kvs, oc) -> (forall p, In p ps -> same_values s (snd p)) ->
  exists pages n, cop_more_pages R i ts rs ko x ps = Ok pages /\
    concat (map pg_kvs pages) = map (shown_row ko) (results f (firstn n kvs)) /\ (n <= length kvs)%nat /\
    (forall p, In p pages -> pg_err p = false /\ (pg_more p = false \/ pg_conf p <> None -> n = length kvs /\ pg_conf p = oc)) /\
    ((length kvs < length ps)%nat -> exists p, In p pages /\ pg_more p = false).
Proof.
  induction ps as [|[[limit full] ds] ps IH]; intros kvs oc x RD SV; cbn [cop_more_pages].
  - exists [], O. simpl. split; [auto|split; [auto|split; [lia|split; [tauto|lia]]]].
  - destruct (str_next ds limit full kvs oc x (SV _ (or_introl eq_refl)) RD) as (p & y & n & A1 & A2 & A3 & A4 & A5 & A6 & A7 & A8 & _).
    rewrite A1. cbn [obind fst snd]. destruct (pg_more p) eqn:M.
    + destruct (IH _ _ _ A4 (fun q I => SV q (or_intror I))) as (pages & m & B1 & B2 & B3 & B4 & B5). rewrite B1. cbn [obind].
      rewrite skipn_length in *. exists (p :: pages), (n + m)%nat. split; [auto|split; [|split; [lia|split]]].
      * cbn [map concat]. rewrite A3, B2, <- map_app, <- results_app, firstn_plus. auto.
      * intros q [<-|I]; [split; [auto|]; rewrite M; intros H; destruct (A6 H); split; [lia|auto]|].
        destruct (B4 q I) as (C1 & C2). split; [auto|]. intros H. destruct (C2 H). split; [lia|auto].
      * intros L. cbn [length] in L. destruct kvs as [|kv kvs]; [specialize (A8 eq_refl); congruence|].
        assert (1 <= n)%nat by (apply A7; discriminate). destruct B5 as (q & I & Q); [cbn [length] in *; lia|]. exists q. split; [right; auto|auto].
    + exists [p], n. destruct (A6 (or_introl eq_refl)) as [X Y]. split; [auto|split; [simpl; rewrite app_nil_r; auto|split; [auto|split]]].
      * intros q [<-|[]]. split; [auto|auto].
      * intros _. exists p. split; [left; auto|auto].
Qed.

Lemma str_pages limit full ps : (forall p, In p ps -> same_values s (snd p)) ->
  exists pages n, cop_pages R s i ts rs ko a b limit full ps = Ok pages /\
    concat (map pg_kvs pages) = map (shown_row ko) (results f (firstn n (fst rws))) /\ (n <= length (fst rws))%nat /\
    (forall p, In p pages -> pg_err p = false /\ (pg_more p = false \/ pg_conf p <> None -> n = length (fst rws) /\ pg_conf p = snd rws)) /\
    ((length (fst rws) <= length ps)%nat -> exists p, In p pages /\ (pg_more p = false \/ pg_conf p <> None)).
Proof.
  intros SV. unfold cop_pages, cop_first.
  destruct seek_cases as [(l & y & E1 & E2 & E & C)|(y & E & RD)]; rewrite E; cbn [obind fst snd].
  - exists [mkPage [] (it_conf y) true false], O. rewrite E1, E2. simpl. split; [auto|split; [auto|split; [auto|split]]].
    + intros p [<-|[]]. cbn. auto.
    + intros _. eexists. split; [left; reflexivity|]. right. cbn. congruence.
  - destruct (sRows s i ts rs a b) as [kvs oc]. cbn [fst snd].
    destruct (str_next (datas s) limit full kvs oc y (same_self s) RD) as (p & z & n & A1 & A2 & A3 & A4 & A5 & A6 & A7 & A8 & _).
    rewrite A1. cbn [obind fst snd]. destruct (pg_more p) eqn:M.
    + destruct (str_more ps _ _ _ A4 SV) as (pages & m & B1 & B2 & B3 & B4 & B5). rewrite B1. cbn [obind].
      rewrite skipn_length in *. exists (p :: pages), (n + m)%nat. split; [auto|split; [|split; [lia|split]]].
      * cbn [map concat]. rewrite A3, B2, <- map_app, <- results_app, firstn_plus. auto.
      * intros q [<-|I]; [split; [auto|]; rewrite M; intros H; destruct (A6 H); split; [lia|auto]|].
        destruct (B4 q I) as (C1 & C2). split; [auto|]. intros H. destruct (C2 H). split; [lia|auto].
      * intros L. destruct kvs as [|kv kvs]; [specialize (A8 eq_refl); congruence|].
        assert (1 <= n)%nat by (apply A7; discriminate). destruct B5 as (q & I & Q); [cbn [length] in *; lia|]. exists q. split; [right; auto|auto].
    + exists [p], n. destruct (A6 (or_introl eq_refl)) as [X Y]. split; [auto|split; [simpl; rewrite app_nil_r; auto|split; [auto|split]]].
      * intros q [<-|[]]. split; [auto|auto].
      * intros _. exists p. split; [left; auto|auto].
Qed.
End Str.

Section Blk.
Context {S : Type}.
Variables (R : runner S) (upd : S -> row -> S) (fin : S -> list row) (ko : bool).
Hypothesis BL : blocking R upd fin.

Lemma blk_page limit full : 0 < limit -> full O = false ->
  exists p x, cop_first R false s i ts rs ko limit full a b = Ok (p, x) /\ pg_err p = false /\ pg_conf p = snd rws /\
    (snd rws = None -> pg_kvs p = fin (fold_left upd (fst rws) (r_start R)) /\ pg_more p = false).
Proof.
  intros LI FU. unfold cop_first. destruct seek_cases as [(l & y & E1 & E2 & E & C)|(y & E & RD)]; rewrite E; cbn [obind fst snd].
  - eexists. eexists. split; [reflexivity|]. cbn [pg_err pg_conf pg_kvs pg_more]. split; [auto|split; [congruence|]]. rewrite E2. discriminate.
  - destruct (sRows s i ts rs a b) as [kvs oc]. cbn [fst snd]. destruct BL as [P D].
    destruct (cop_next_spec i ts rs _ _ _ _ R upd (fun _ _ => None) ko P (datas s) limit full kvs oc y
      (sV_vals s i ts a Hok Hvals Hrc _ (sR s i ts a b) (same_self s)) RD) as (p & z & n & s' & l & A1 & A2 & A3 & A4 & A5 & A6 & A7 & A8 & A9 & A10 & A11).
    { intros s0. destruct (D s0) as (s1 & E1). eauto. }
    destruct (D (fold_left upd (firstn n kvs) (r_start R))) as (s1 & E1). rewrite A3 in E1. assert (l = fin (fold_left upd (firstn n kvs) (r_start R))) by congruence.
    rewrite outs_blocking in A4. cbn [map app] in A4.
    assert (M : pg_more p = false).
    { destruct (pg_more p) eqn:M; auto. destruct (A11 eq_refl) as (m & _ & Q). rewrite outs_blocking in Q. unfold stop in Q. cbn [length] in Q. rewrite FU in Q. simpl in Q.
      rewrite orb_false_r in Q. apply Z.leb_le in Q. lia. }
    destruct (A7 (or_introl M)) as [X Y]. rewrite A1. cbn [obind fst snd]. exists p, (Some z). split; [auto|split; [auto|split; [auto|]]].
    intros _. split; [|auto]. rewrite A4, H, X, firstn_all. auto.
Qed.

Lemma count_page limit full k v : snd rws = None -> r_count R (Z.of_nat (length (fst rws))) = Enc k v ->
  exists p x, cop_first R true s i ts rs ko limit full a b = Ok (p, x) /\ pg_err p = false /\ pg_conf p = None /\
    pg_kvs p = [(k, v)] /\ pg_more p = false.
Proof.
  intros NC EK. unfold cop_first. destruct seek_cases as [(l & y & E1 & E2 & E & C)|(y & E & RD)]; rewrite E; cbn [obind fst snd].
  - congruence.
  - destruct (sRows s i ts rs a b) as [kvs oc]. cbn [fst snd] in *. subst oc. unfold cop_next, cop_execute.
    destruct (cop_count_spec i ts rs _ _ _ _ (datas s) (sV_vals s i ts a Hok Hvals Hrc _ (sR s i ts a b) (same_self s)) kvs None (turns y) y O RD (ready_turns _ _ _ _ _ _ _ _ _ _ RD)) as (z & A & B).
    rewrite A. cbn [obind]. unfold count_row. cbn [Nat.add]. rewrite EK. cbn [obind].
    destruct (ready_end _ _ _ _ _ _ _ _ _ B) as [NV CF]. rewrite NV. cbn [obind fst snd]. eexists. eexists. split; [reflexivity|]. cbn. auto.
Qed.
End Blk.
End Scan.

Lemma C92_pages_core {S} (R : runner S) f c P g i ts rs ko a b limit full ps : streaming R f ->
  plan_ok P -> reachable c P g -> a <> [] -> (forall p, In p ps -> same_values (rg_store g) (snd p)) ->
  exists pages kvs oc n, cop_pages R (rg_store g) i ts rs ko a b limit full ps = Ok pages /\
    match oc with None => full_scan (rg_store g) i ts rs a b kvs | Some l => stopped_scan (rg_store g) i ts rs a b kvs l end /\
    concat (map pg_kvs pages) = map (shown_row ko) (results f (firstn n kvs)) /\
    (forall p, In p pages -> pg_err p = false /\
       (pg_more p = false \/ pg_conf p <> None -> concat (map pg_kvs pages) = map (shown_row ko) (results f kvs) /\ pg_conf p = oc)) /\
    ((length kvs <= length ps)%nat -> exists p, In p pages /\ (pg_more p = false \/ pg_conf p <> None)).
Proof.
  intros ST HP RE NA SV. destruct (reachable_values _ _ _ HP RE) as (H & VT & B).
  assert (X := sRows_spec (rg_store g) i ts rs a b H VT (fun _ => B) NA).
  destruct (str_pages (rg_store g) i ts rs a b H VT (fun _ => B) NA R f ko ST limit full ps SV) as (pages & n & E & C & L & F & T).
  exists pages, (fst (sRows (rg_store g) i ts rs a b)), (snd (sRows (rg_store g) i ts rs a b)), n.
  split; [auto|split; [auto|split; [auto|split; [|auto]]]].
  intros p Ip. destruct (F p Ip) as (F1 & F2). split; [auto|]. intros Q. destruct (F2 Q) as [F4 F5]. split; auto.
  rewrite C, F4, firstn_all. auto.
Qed.

Lemma C92_aggregate_core {S} (R : runner S) upd fin c P g i ts rs ko a b limit full : blocking R upd fin ->
  plan_ok P -> reachable c P g -> a <> [] -> 0 < limit -> full O = false ->
  exists p x, cop_first R false (rg_store g) i ts rs ko limit full a b = Ok (p, x) /\ pg_err p = false /\
    match pg_conf p with
    | None => exists kvs, full_scan (rg_store g) i ts rs a b kvs /\ pg_kvs p = fin (fold_left upd kvs (r_start R)) /\ pg_more p = false
    | Some l => exists kvs, stopped_scan (rg_store g) i ts rs a b kvs l
    end.
Proof.
  intros BL HP RE NA LI FU. destruct (reachable_values _ _ _ HP RE) as (H & VT & B).
  assert (X := sRows_spec (rg_store g) i ts rs a b H VT (fun _ => B) NA).
  destruct (blk_page (rg_store g) i ts rs a b H VT (fun _ => B) NA R upd fin ko BL limit full LI FU) as (p & x & E & F & G & K).
  exists p, x. split; [auto|split; [auto|]]. rewrite G. destruct (snd (sRows (rg_store g) i ts rs a b)) eqn:ES.
  - eauto.
  - destruct (K eq_refl) as [K1 K2]. eauto.
Qed.

Lemma C92_count_core {S} (R : runner S) c P g i ts rs ko a b limit full kvs k v :
  plan_ok P -> reachable c P g -> a <> [] -> full_scan (rg_store g) i ts rs a b kvs ->
  r_count R (Z.of_nat (length kvs)) = Enc k v ->
  exists p x, cop_first R true (rg_store g) i ts rs ko limit full a b = Ok (p, x) /\ pg_err p = false /\ pg_conf p = None /\
    pg_kvs p = [(k, v)] /\ pg_more p = false.
Proof.
  intros HP RE NA FS EK. destruct (reachable_values _ _ _ HP RE) as (H & VT & B).
  assert (X := sRows_spec (rg_store g) i ts rs a b H VT (fun _ => B) NA).
  destruct (snd (sRows (rg_store g) i ts rs a b)) as [l|] eqn:ES.
  - exfalso. destruct X as (c0 & X1 & X2 & X3 & _). destruct FS as (_ & _ & NC). exact (NC c0 X1 l X2 X3).
  - assert (L : length kvs = length (fst (sRows (rg_store g) i ts rs a b))).
    { destruct FS as (S1 & M1 & _). destruct X as (S2 & M2 & _).
      assert (ND : forall l : list bytes, StronglySorted blt l -> NoDup l).
      { intros l SS. induction SS as [|y l' SS IH FA]; constructor; auto. intros I. rewrite Forall_forall in FA. apply FA in I. unfold blt in I. rewrite bcmp_refl in I. discriminate. }
      assert (ND1 := NoDup_map_inv _ _ (ND _ S1)). assert (ND2 := NoDup_map_inv _ _ (ND _ S2)).
      apply Nat.le_antisymm; apply NoDup_incl_length; auto.
      - intros [k0 v0] I. apply M2, M1. auto.
      - intros [k0 v0] I. apply M1, M2. auto. }
    rewrite L in EK. apply count_page; auto.
Qed.
