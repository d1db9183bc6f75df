(** What pushed-down computation has to answer. *)
From Coq Require Import ZArith List Bool Sorted.
From Verif Require Import Bytes SMap Outcome TxnModel TxnReadModel TxnReadSpec CpModel.
Import ListNotations.
Open Scope Z_scope.

(* ------------------------------------------------------------------------------------ *)
(** * Requests *)

(** the columns a request works on: those it selects, by index, or all of them *)
Definition columns (q : request) : list Z :=
  match q_select q with
  | [] => map Z.of_nat (seq 0 (length (q_schema q)))
  | l => l
  end.

(** the schema numbers its columns 0, 1, ... in some order, and only such columns are selected *)
Definition schema_ok (q : request) : Prop :=
  NoDup (map snd (q_schema q)) /\
  (forall t ix, In (t, ix) (q_schema q) -> 0 <= ix < Z.of_nat (length (q_schema q))) /\
  (forall ix, In ix (q_select q) -> 0 <= ix < Z.of_nat (length (q_schema q))).

(** column [i] of the selection has type [t] *)
Definition column_type (q : request) (i : Z) (t : ctype) : Prop :=
  exists ix, nthz (columns q) i = Some ix /\ In (t, ix) (q_schema q).

(** an aggregate is computed on column [i] of type [t] and has a result of type [rt]; -1 is the
    column of a count of all rows *)
Definition operator_typed (q : request) (o : oper * Z) (rt : ctype) : Prop :=
  match fst o with
  | OSum | OSum0 => column_type q (snd o) rt /\ rt <> TyStr
  | OMax | OMin => column_type q (snd o) rt
  | OCount => rt = TyLong /\ (snd o = -1 \/ exists t, column_type q (snd o) t)
  | OCountNull => rt = TyLong
  end.

(** a well-formed request for groups: at least one aggregate, and the result has the types of the
    group-by columns followed by those of the aggregates *)
Definition grouping_request (q : request) : Prop :=
  schema_ok q /\ q_schema q <> [] /\ q_ops q <> [] /\
  exists kts rts, q_result q = kts ++ rts /\
    Forall2 (column_type q) (q_group q) kts /\ Forall2 (operator_typed q) (q_ops q) rts.

(** a well-formed request without groups *)
Definition selection_request (q : request) : Prop :=
  schema_ok q /\ q_group q = [] /\ q_ops q = [].

(** a decoded record has the columns of the selection, with their types *)
Definition record_typed (q : request) (rec : list cell) : Prop :=
  length rec = length (columns q) /\
  forall i c, nthz rec i = Some c -> column_type q i (type_of c).

(** the rows decode to the records [recs], and the filter can be evaluated on all of them *)
Definition rows_decode (L : lib) (q : request) (rows : list row) (recs : list (list cell)) : Prop :=
  Forall2 (fun kv rec => l_decode L (fst kv) (snd kv) = Some rec) rows recs /\
  Forall (record_typed q) recs /\
  (q_filter q = true -> Forall (fun rec => l_keep L rec <> None) recs).

(** the records the filter keeps *)
Definition kept (L : lib) (q : request) (recs : list (list cell)) : list (list cell) :=
  if q_filter q then filter (fun rec => match l_keep L rec with Some b => b | None => false end) recs
  else recs.

(** the group of a record: the values of its group-by columns *)
Definition group_of (q : request) (rec : list cell) : list cell :=
  map (fun i => nth (Z.to_nat i) rec (CBool None)) (q_group q).

Definition cells_dec (a b : list cell) : {a = b} + {a <> b}.
Proof. repeat decide equality. Defined.

Definition members (q : request) (recs : list (list cell)) (g : list cell) : list (list cell) :=
  filter (fun rec => if cells_dec (group_of q rec) g then true else false) recs.

(** the encoding of group keys keeps groups apart; without group-by columns there is one group *)
Definition keys_encode (L : lib) (q : request) (recs : list (list cell)) : Prop :=
  q_group q <> [] -> forall rec, In rec recs ->
    exists k, l_enc_key L (group_of q rec) = Some k /\ l_dec_key L k = Some (group_of q rec).
Definition key_of (L : lib) (q : request) (g : list cell) : bytes :=
  match q_group q with [] => [] | _ => match l_enc_key L g with Some k => k | None => [] end end.

(* ------------------------------------------------------------------------------------ *)
(** * Aggregates *)

(** the values of column [i]; the column does not matter for a count of all rows *)
Definition values (i : Z) (recs : list (list cell)) : list cell :=
  map (fun rec => nth (Z.to_nat i) rec (CBool None)) recs.

Definition ints (cs : list cell) : list Z :=
  flat_map (fun c => match c with CInt (Some x) | CLong (Some x) => [x] | _ => [] end) cs.
Definition bools (cs : list cell) : list bool :=
  flat_map (fun c => match c with CBool (Some x) => [x] | _ => [] end) cs.
Definition doubles (cs : list cell) : list Z :=
  flat_map (fun c => match c with CDouble (Some x) => [x] | _ => [] end) cs.
Definition strings (cs : list cell) : list bytes :=
  flat_map (fun c => match c with CStr (Some x) => [x] | _ => [] end) cs.
Definition sum (l : list Z) : Z := fold_right Z.add 0 l.

Definition null (t : ctype) : cell :=
  match t with
  | TyBool => CBool None | TyInt => CInt None | TyLong => CLong None | TyDouble => CDouble None | TyStr => CStr None
  end.
Definition nulls (cs : list cell) : Prop :=
  forall c, In c cs -> c = null (type_of c).
Definition non_null (c : cell) : bool := match c with
  | CBool None | CInt None | CLong None | CDouble None | CStr None => false | _ => true end.

(** some value of [l] is largest (smallest) *)
Definition largest {A} (le : A -> A -> Prop) (l : list A) (x : A) : Prop :=
  In x l /\ forall y, In y l -> le y x.

(** MAX and MIN of a column of type [t]; [le] is the order, or its converse *)
Definition extreme_is (L : lib) (t : ctype) (max : bool) (cs : list cell) (c : cell) : Prop :=
  match t with
  | TyInt | TyLong => exists x, c = (if ctype_eqb t TyInt then CInt (Some x) else CLong (Some x)) /\
                        largest (fun a b => if max then a <= b else b <= a) (ints cs) x
  | TyBool => exists x, c = CBool (Some x) /\
                        largest (fun a b => if max then Bool.le a b else Bool.le b a) (bools cs) x
  | TyStr => exists x, c = CStr (Some x) /\
                        largest (fun a b => if max then ble a b else ble b a) (strings cs) x
  | TyDouble => exists x r, doubles cs = x :: r /\
      c = CDouble (Some (fold_left (fun a b => if (if max then l_flt L a b else l_flt L b a) then b else a) r x))
  end.

(** [c] is the aggregate [op] over the column values [cs] of a group, in scan order; [t] is the
    type of the result *)
Definition aggregate_is (L : lib) (op : oper) (t : ctype) (cs : list cell) (c : cell) : Prop :=
  match op with
  | OCountNull => c = CLong (Some (Z.of_nat (length cs)))
  | OCount => c = CLong (Some (Z.of_nat (length (filter non_null cs))))
  | OMax | OMin =>
      (nulls cs /\ c = null t) \/
      (~ nulls cs /\ extreme_is L t (match op with OMax => true | _ => false end) cs c)
  | OSum =>
      (nulls cs /\ c = null t) \/
      (~ nulls cs /\
       match t with
       | TyInt => c = CInt (Some (sum (ints cs)))
       | TyLong => c = CLong (Some (sum (ints cs)))
       | TyBool => c = CBool (Some (existsb (fun b => b) (bools cs)))
       | TyDouble => exists x r, doubles cs = x :: r /\ c = CDouble (Some (fold_left (l_fadd L) r x))
       | TyStr => False
       end)
  | OSum0 =>
      match t with
      | TyInt => c = CInt (Some (sum (ints cs)))
      | TyLong => c = CLong (Some (sum (ints cs)))
      | TyBool => c = CBool (Some (existsb (fun b => b) (bools cs)))
      | TyDouble => c = CDouble (Some (fold_left (l_fadd L) (doubles cs) (l_fzero L)))
      | TyStr => False
      end
  end.

(** COUNT of column -1 counts all rows *)
Definition op_of (o : oper * Z) : oper :=
  match o with (OCount, i) => if i =? -1 then OCountNull else OCount | (op, _) => op end.

(** no partial sum, taken in scan order, leaves the type of the column *)
Definition fits (t : ctype) (z : Z) : Prop :=
  match t with
  | TyInt => - 2 ^ 31 <= z < 2 ^ 31
  | TyLong => - 2 ^ 63 <= z < 2 ^ 63
  | _ => True
  end.
Definition sums_fit (q : request) (recs : list (list cell)) : Prop :=
  forall op i rt g n, In (op, i) (q_ops q) -> op = OSum \/ op = OSum0 -> column_type q i rt ->
    fits rt (sum (firstn n (ints (values i (members q recs g))))).

(* ------------------------------------------------------------------------------------ *)
(** * Sessions *)

(** the pages [ps], asked for with [lims], hand out the rows [outs] in order: nothing lost,
    nothing repeated, no page above its limit (a page may always have one row), and an empty page
    only when all is delivered *)
Definition delivers (lims : list (Z * Z)) (outs : list row) (ps : list (list row)) : Prop :=
  (exists n, concat ps = firstn n outs) /\
  Forall2 (fun l p => Z.of_nat (length p) <= Z.max 1 (fst l)) lims ps /\
  (In [] ps \/ (length outs <= length lims)%nat -> concat ps = outs).

(** the rows of the result of a grouping: one per group, in the order of the encoded group keys,
    group-by columns first, then the aggregates of the group *)
Definition grouped (L : lib) (q : request) (recs : list (list cell)) (outs : list row) : Prop :=
  exists gs aggs,
    StronglySorted (fun a b => blt (key_of L q a) (key_of L q b)) gs /\
    (forall g, In g gs <-> exists rec, In rec recs /\ group_of q rec = g) /\
    Forall2 (fun g cs =>
      length cs = length (q_ops q) /\
      forall j o c, nth_error (q_ops q) j = Some o -> nth_error cs j = Some c ->
        exists rt, operator_typed q o rt /\
          aggregate_is L (op_of o) rt (values (snd o) (members q recs g)) c) gs aggs /\
    Forall2 (fun gc kv => l_encode L (fst gc ++ snd gc) = Enc (fst kv) (snd kv)) (combine gs aggs) outs.

(** result rows can be encoded *)
Definition encodes (L : lib) : Prop := forall rec, exists k v, l_encode L rec = Enc k v.

(** a runner that treats every row on its own: filters and projections *)
Definition streaming {S} (R : runner S) (f : row -> option row) : Prop :=
  (forall s kv, r_put R s kv = Some (s, f kv)) /\ (forall s, r_drain R s = Some (s, [])).
Definition results (f : row -> option row) (rows : list row) : list row :=
  flat_map (fun kv => match f kv with Some x => [x] | None => [] end) rows.

(** a runner that only answers when it is drained: aggregates *)
Definition blocking {S} (R : runner S) (upd : S -> row -> S) (fin : S -> list row) : Prop :=
  (forall s kv, r_put R s kv = Some (upd s kv, None)) /\
  (forall s, exists s', r_drain R s = Some (s', fin s)).

(** a transactional scan with a coprocessor, read page by page *)
Fixpoint cop_more_pages {S} (R : runner S) (i : iso) (ts : Z) (resolved : list Z) (ko : bool) (x : tit)
         (ps : list (Z * (nat -> bool) * smap (bytes * Z) bytes)) : outcome (list page) :=
  match ps with
  | [] => Ok []
  | (limit, full, ds) :: rest =>
      olet p := cop_next R false ds i ts resolved ko limit full x in
      if pg_more (fst p) then
        olet q := cop_more_pages R i ts resolved ko (snd p) rest in Ok (fst p :: q)
      else Ok [fst p]
  end.
Definition cop_pages {S} (R : runner S) (s : store) (i : iso) (ts : Z) (resolved : list Z) (ko : bool) (a b : bytes)
           (limit : Z) (full : nat -> bool)
           (ps : list (Z * (nat -> bool) * smap (bytes * Z) bytes)) : outcome (list page) :=
  olet p := cop_first R false s i ts resolved ko limit full a b in
  match snd p with
  | Some x => if pg_more (fst p) then olet q := cop_more_pages R i ts resolved ko x ps in Ok (fst p :: q)
              else Ok [fst p]
  | None => Ok [fst p]
  end.

(* ------------------------------------------------------------------------------------ *)
(** * Requests that cannot hurt the store *)

(** no SUM of a column of integers *)
Definition no_integer_sum (q : request) : Prop :=
  forall op i t, In (op, i) (q_ops q) -> op = OSum \/ op = OSum0 -> column_type q i t -> t <> TyInt /\ t <> TyLong.
(** decoders return as many columns as they are asked for *)
Definition decoders_ok (L : lib) (q : request) : Prop :=
  (forall k v rec, l_decode L k v = Some rec -> length rec = length (columns q)) /\
  (forall k cs, l_dec_key L k = Some cs -> length cs = length (q_group q)).

(** the bytes of the rows *)
Definition size_of (rows : list row) : Z :=
  fold_right (fun kv n => Z.of_nat (length (fst kv)) + Z.of_nat (length (snd kv)) + n) 0 rows.

(** the request names a column that the selection does not have; a count of all rows
    needs none *)
Definition names_missing_column (q : request) : Prop :=
  (exists i, In i (q_group q) /\ ~ (0 <= i < Z.of_nat (length (columns q)))) \/
  (exists op i, In (op, i) (q_ops q) /\ ~ (0 <= i < Z.of_nat (length (columns q))) /\
                op <> OCountNull /\ ~ (op = OCount /\ i < 0)).
