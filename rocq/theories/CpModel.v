(** Model of pushed-down computation: the first-generation coprocessor (filter, selection,
    grouping and aggregates over scan sessions) and the second-generation one (relational
    expressions over scan sessions and over transactional scans).
    Sources: src/coprocessor/coprocessor.cc, coprocessor_v2.cc, aggregation.cc,
    aggregation_manager.cc, utils.cc, src/scan/scan_filter.cc, src/scan/scan.cc:134-142,
    src/engine/txn_engine_helper.cc:1478-1676.
    Simplifications: a scan session's iterator is the list of the rows it has still to deliver
    (plain key, value); list, decimal and float columns are left out; the result schema is given
    in the order of its indexes; counters of rows do not overflow.  The record decoder and
    encoder, the expression evaluator and floating-point arithmetic live in libraries that are not
    in the repository: they are parameters ([lib], [runner]). *)
From Coq Require Import ZArith List Bool.
From Verif Require Import Bytes SMap Outcome SessModel TxnModel TxnReadModel.
Import ListNotations.
Open Scope Z_scope.

Definition row : Type := bytes * bytes.

(* ------------------------------------------------------------------------------------ *)
(** * First generation *)

(** BaseSchema::Type, the scalar types the aggregates know (aggregation.cc:47-103) *)
Inductive ctype := TyBool | TyInt | TyLong | TyDouble | TyStr.

(** a column of a decoded record: std::any holding std::optional<T>.  A double is its 64 bits. *)
Inductive cell :=
| CBool (o : option bool)
| CInt (o : option Z)
| CLong (o : option Z)
| CDouble (o : option Z)
| CStr (o : option bytes).

Definition type_of (c : cell) : ctype :=
  match c with
  | CBool _ => TyBool | CInt _ => TyInt | CLong _ => TyLong | CDouble _ => TyDouble | CStr _ => TyStr
  end.

Definition ctype_eqb (a b : ctype) : bool :=
  match a, b with
  | TyBool, TyBool | TyInt, TyInt | TyLong, TyLong | TyDouble, TyDouble | TyStr, TyStr => true
  | _, _ => false
  end.

(** pb::store::AggregationType *)
Inductive oper := OSum | OSum0 | OCount | OCountNull | OMax | OMin.

(** pb::store::Coprocessor.  [q_schema]: type and index of each column of the original schema;
    [q_filter]: an expression is given. *)
Record request := mkReq {
  q_schema : list (ctype * Z);
  q_select : list Z;
  q_filter : bool;
  q_group : list Z;
  q_ops : list (oper * Z);
  q_result : list ctype }.

(** RecordEncoder::Encode: a pair, a negative return value, or an exception *)
Inductive encres := Enc (k v : bytes) | EncRet | EncThrow.

(** The libraries: RecordDecoder::Decode of the selected columns, the expression, EncodeKey and
    DecodeKey of the group-by columns, Encode of a result row, double addition, less-than and
    zero.  None is a negative return value or an exception. *)
Record lib := mkLib {
  l_decode : bytes -> bytes -> option (list cell);
  l_keep : list cell -> option bool;
  l_enc_key : list cell -> option bytes;
  l_dec_key : bytes -> option (list cell);
  l_encode : list cell -> encres;
  l_fadd : Z -> Z -> Z;
  l_flt : Z -> Z -> bool;
  l_fzero : Z }.

(** vector element access; out of range is undefined behaviour *)
Definition nthz {A} (l : list A) (i : Z) : option A :=
  if i <? 0 then None else nth_error l (Z.to_nat i).
Definition at_or_crash {A} (l : list A) (i : Z) : outcome A :=
  match nthz l i with Some x => Ok x | None => Crash end.
Fixpoint set_at {A} (l : list A) (n : nat) (x : A) : list A :=
  match l, n with
  | [], _ => []
  | _ :: r, O => x :: r
  | y :: r, S m => y :: set_at r m x
  end.
Definition lenz {A} (l : list A) : Z := Z.of_nat (length l).

Fixpoint omapm {A B} (f : A -> outcome B) (l : list A) : outcome (list B) :=
  match l with
  | [] => Ok []
  | x :: r => olet y := f x in olet ys := omapm f r in Ok (y :: ys)
  end.
Fixpoint optmap {A B} (f : A -> option B) (l : list A) : option (list B) :=
  match l with
  | [] => Some []
  | x :: r => match f x, optmap f r with Some y, Some ys => Some (y :: ys) | _, _ => None end
  end.

(** ** Open *)

(** Coprocessor::GetOriginalColumnIndexes, coprocessor.cc:784-799: position of the column with
    each index; the index of a column is not checked *)
Fixpoint original_indexes (cols : list (ctype * Z)) (pos : Z) (v : list Z) : outcome (list Z) :=
  match cols with
  | [] => Ok v
  | (_, ix) :: rest =>
      if (0 <=? ix) && (ix <? lenz v)
      then original_indexes rest (pos + 1) (set_at v (Z.to_nat ix) pos)
      else Crash
  end.

(** Coprocessor::GetSelectionColumnIndexes, coprocessor.cc:801-835.  Nothing checks the columns
    asked for (the check is commented out at 131-135). *)
Definition selection_indexes (orig : list Z) (sel : list Z) : outcome (list Z) :=
  if is_nil sel then omapm (fun i => olet _ := at_or_crash orig i in Ok i) orig
  else omapm (at_or_crash orig) sel.

(** Utils::CheckGroupByColumns, utils.cc:170-183 *)
Definition group_columns_ok (nsel : Z) (cols : list Z) : bool :=
  forallb (fun i => (0 <=? i) && (i <? nsel)) cols.

(** Utils::CheckGroupByOperators, utils.cc:185-221 *)
Definition operator_ok (nsel : Z) (o : oper * Z) : bool :=
  let '(op, i) := o in
  if nsel <=? i then match op with OCountNull => true | _ => false end
  else if i <? 0 then match op with OCount | OCountNull => true | _ => false end
  else true.

(** the column an operator is computed on, coprocessor.cc:426-429 and 749-756 *)
Definition op_column (nsel : Z) (i : Z) : Z := if (i <? 0) || (nsel <=? i) then 0 else i.

(** Utils::CreateSerialSchema, utils.cc:458-485: the types of the columns [cols] of the selection *)
Definition column_types (schema : list (ctype * Z)) (sel : list Z) (cols : list Z)
  : outcome (list ctype) :=
  if is_nil schema then Ok []
  else omapm (fun i => olet p := at_or_crash sel i in olet c := at_or_crash schema p in Ok (fst c)) cols.

(** what Open leaves in the object: size of the selection, types of the group-by columns and of
    the operators' columns, and end_of_group_by_ *)
Record opened := mkOpened {
  o_nsel : Z;
  o_key_types : list ctype;
  o_op_types : list ctype;
  o_grouping : bool }.

(** Coprocessor::Open, coprocessor.cc:60-223, with InitGroupBySerialSchema 713-782 and
    CompareSerialSchema 676-711.  None: the request is refused. *)
Definition open (q : request) : outcome (option opened) :=
  olet orig := original_indexes (q_schema q) 0 (repeat (-1) (length (q_schema q))) in
  olet sel := selection_indexes orig (q_select q) in
  let nsel := lenz sel in
  if negb (group_columns_ok nsel (q_group q)) then Ok None
  else
    olet kt := column_types (q_schema q) sel (q_group q) in
    if negb (forallb (operator_ok nsel) (q_ops q)) then Ok None
    else
      olet ot := column_types (q_schema q) sel (map (fun o => op_column nsel (snd o)) (q_ops q)) in
      if is_nil kt && is_nil ot then Ok (Some (mkOpened nsel kt ot false))
      else if Nat.eqb (length (q_result q)) (length kt + length ot)
      then Ok (Some (mkOpened nsel kt ot true))
      else Ok None.

(** ** Aggregates *)

(** Utils::CloneColumn, utils.cc:822-1017: the column, when it has the type asked for *)
Definition clone (c : cell) (t : ctype) : option cell :=
  if ctype_eqb (type_of c) t then Some c else None.

Definition in_int32 (z : Z) : bool := (- 2 ^ 31 <=? z) && (z <? 2 ^ 31).
Definition in_int64 (z : Z) : bool := (- 2 ^ 63 <=? z) && (z <? 2 ^ 63).

(** an aggregate function chosen for the type of the column and of the result *)
Record afun := mkFun { f_op : oper; f_col : ctype; f_res : ctype }.

(** AggregationManager::AddSumFunction, AddCountFunction, AddCountWithNullFunction,
    AddMaxFunction, AddMinFunction, aggregation_manager.cc:381-495; COUNT of column -1 counts all
    rows, 254-264 *)
Definition add_fun (o : oper * Z) (pt rt : ctype) : option afun :=
  let '(op, i) := o in
  match op with
  | OSum | OSum0 =>
      if ctype_eqb pt rt && negb (ctype_eqb pt TyStr) then Some (mkFun op pt rt) else None
  | OCount =>
      if ctype_eqb rt TyLong
      then Some (mkFun (if i =? -1 then OCountNull else OCount) pt rt) else None
  | OCountNull => if ctype_eqb rt TyLong then Some (mkFun OCountNull pt rt) else None
  | OMax | OMin => if ctype_eqb pt rt then Some (mkFun op pt rt) else None
  end.

Fixpoint add_funs (ops : list (oper * Z)) (pts rts : list ctype) : option (list afun) :=
  match ops, pts, rts with
  | [], _, _ => Some []
  | o :: ops', pt :: pts', rt :: rts' =>
      match add_fun o pt rt, add_funs ops' pts' rts' with Some f, Some fs => Some (f :: fs) | _, _ => None end
  | _, _, _ => None
  end.

(** the types of the aggregates in the result schema, aggregation_manager.cc:332 *)
Definition agg_result_types (q : request) : list ctype :=
  skipn (length (q_result q) - length (q_ops q)) (q_result q).

(** Aggregation::Open, aggregation.cc:31-104: the initial value *)
Definition start_cell (L : lib) (op : oper) (t : ctype) : cell :=
  match op with
  | OCount | OCountNull | OSum0 =>
      match t with
      | TyBool => CBool (Some false) | TyInt => CInt (Some 0) | TyLong => CLong (Some 0)
      | TyDouble => CDouble (Some (l_fzero L)) | TyStr => CStr (Some [])
      end
  | _ =>
      match t with
      | TyBool => CBool None | TyInt => CInt None | TyLong => CLong None
      | TyDouble => CDouble None | TyStr => CStr None
      end
  end.

(** struct SUM, aggregation_manager.cc:31-60.  Signed overflow is undefined behaviour; bool +=
    bool is disjunction.  None: std::bad_any_cast. *)
Definition add_cell (L : lib) (p r : cell) : outcome (option cell) :=
  match p, r with
  | CBool None, CBool _ | CInt None, CInt _ | CLong None, CLong _ | CDouble None, CDouble _ => Ok (Some r)
  | CBool (Some _), CBool None | CInt (Some _), CInt None | CLong (Some _), CLong None
  | CDouble (Some _), CDouble None => Ok (Some p)
  | CBool (Some x), CBool (Some y) => Ok (Some (CBool (Some (orb y x))))
  | CInt (Some x), CInt (Some y) => if in_int32 (y + x) then Ok (Some (CInt (Some (y + x)))) else Crash
  | CLong (Some x), CLong (Some y) => if in_int64 (y + x) then Ok (Some (CLong (Some (y + x)))) else Crash
  | CDouble (Some x), CDouble (Some y) => Ok (Some (CDouble (Some (l_fadd L y x))))
  | _, _ => Ok None
  end.

Definition is_null (c : cell) : bool :=
  match c with
  | CBool None | CInt None | CLong None | CDouble None | CStr None => true
  | _ => false
  end.

(** struct COUNT and COUNTWITHNULL, aggregation_manager.cc:62-107 *)
Definition count_cell (all : bool) (t : ctype) (p r : cell) : option cell :=
  match r with
  | CLong o =>
      if all || ctype_eqb (type_of p) t then
        if negb all && is_null p then Some r
        else Some (CLong (Some (match o with Some n => n + 1 | None => 1 end)))
      else None
  | _ => None
  end.

(** less-than of two non-null columns of one type; false is below true *)
Definition less_cell (L : lib) (a b : cell) : bool :=
  match a, b with
  | CBool (Some x), CBool (Some y) => andb (negb x) y
  | CInt (Some x), CInt (Some y) | CLong (Some x), CLong (Some y) => x <? y
  | CDouble (Some x), CDouble (Some y) => l_flt L x y
  | CStr (Some x), CStr (Some y) => bltb x y
  | _, _ => false
  end.

(** struct MAX and MIN, aggregation_manager.cc:109-219 *)
Definition extreme_cell (L : lib) (max : bool) (p r : cell) : option cell :=
  if ctype_eqb (type_of p) (type_of r) then
    if is_null p then Some r
    else if is_null r then Some p
    else if (if max then less_cell L r p else less_cell L p r) then Some p else Some r
  else None.

Definition apply_fun (L : lib) (f : afun) (p r : cell) : outcome (option cell) :=
  match f_op f with
  | OSum | OSum0 => add_cell L p r
  | OCount => Ok (count_cell false (f_col f) p r)
  | OCountNull => Ok (count_cell true (f_col f) p r)
  | OMax => Ok (extreme_cell L true p r)
  | OMin => Ok (extreme_cell L false p r)
  end.

(** Aggregation::Execute, aggregation.cc:106-119 *)
Fixpoint apply_funs (L : lib) (fs : list afun) (ps rs : list cell) : outcome (option (list cell)) :=
  match ps with
  | [] => Ok (Some rs)
  | p :: ps' =>
      match fs, rs with
      | f :: fs', r :: rs' =>
          olet x := apply_fun L f p r in
          match x with
          | None => Ok None
          | Some r' =>
              olet y := apply_funs L fs' ps' rs' in
              Ok (match y with Some rs'' => Some (r' :: rs'') | None => None end)
          end
      | _, _ => Crash
      end
  end.

(** aggregation_manager_ (None until the first row) and its map from group keys to aggregates *)
Definition groups : Type := option (smap bytes (list cell)).

(** AggregationManager::Execute, aggregation_manager.cc:320-352.  Without operators
    group_by_operator_serial_schemas_ is a null pointer, and its size is read for a new group. *)
Definition manager_execute (L : lib) (q : request) (fs : list afun) (m : smap bytes (list cell))
           (key : bytes) (ps : list cell) : outcome (option (smap bytes (list cell))) :=
  let run rs :=
    olet x := apply_funs L fs ps rs in
    Ok (match x with Some rs' => Some (put bcmp m key rs') | None => None end) in
  match get bcmp m key with
  | Some rs => run rs
  | None =>
      if is_nil (q_ops q) then Crash
      else run (map (fun ot => start_cell L (fst (fst ot)) (snd ot)) (combine (q_ops q) (agg_result_types q)))
  end.

(** the columns [cols] of a record, cloned with their types, coprocessor.cc:403-421, 423-446 *)
Fixpoint pick_columns (rec : list cell) (cols : list Z) (ts : list ctype) : outcome (option (list cell)) :=
  match cols, ts with
  | [], _ => Ok (Some [])
  | i :: cols', t :: ts' =>
      olet c := at_or_crash rec i in
      match clone c t with
      | None => Ok None
      | Some c' =>
          olet r := pick_columns rec cols' ts' in
          Ok (match r with Some cs => Some (c' :: cs) | None => None end)
      end
  | _ :: _, [] => Crash
  end.

(** Coprocessor::DoExecuteForAggregation, coprocessor.cc:394-485.  The manager is opened with the
    first row. *)
Definition aggregate_record (L : lib) (q : request) (o : opened) (g : groups) (rec : list cell)
  : outcome (option groups) :=
  olet ks := pick_columns rec (q_group q) (o_key_types o) in
  match ks with
  | None => Ok None
  | Some ks =>
      olet ps := pick_columns rec (map (fun x => op_column (o_nsel o) (snd x)) (q_ops q)) (o_op_types o) in
      match ps with
      | None => Ok None
      | Some ps =>
          match (if is_nil (o_key_types o) then Some [] else l_enc_key L ks) with
          | None => Ok None
          | Some key =>
              match add_funs (q_ops q) (o_op_types o) (agg_result_types q) with
              | None => Ok None
              | Some fs =>
                  olet m := manager_execute L q fs (match g with Some m => m | None => [] end) key ps in
                  Ok (match m with Some m' => Some (Some m') | None => None end)
              end
          end
      end
  end.

(** what one row leads to: an error, nothing to return yet, or a row of the result *)
Inductive row_result := RErr | RNone (g : groups) | ROut (kv : row).

(** Coprocessor::DoExecute, coprocessor.cc:291-392, and DoExecuteForSelection 487-513: a negative
    return value of the encoder drops the row and reports success *)
Definition do_row (L : lib) (q : request) (o : opened) (g : groups) (kv : row) : outcome row_result :=
  match l_decode L (fst kv) (snd kv) with
  | None => Ok RErr
  | Some rec =>
      match (if q_filter q then l_keep L rec else Some true) with
      | None => Ok RErr
      | Some false => Ok (RNone g)
      | Some true =>
          if o_grouping o then
            olet r := aggregate_record L q o g rec in
            Ok (match r with Some g' => RNone g' | None => RErr end)
          else
            Ok (match l_encode L rec with
                | Enc k v => ROut (k, v)
                | EncRet => RNone g
                | EncThrow => RErr
                end)
      end
  end.

Definition shown_row (key_only : bool) (kv : row) : row := (fst kv, if key_only then [] else snd kv).

(** the state of a session: rows to come, the groups, aggregation_iterator_ *)
Record vst := mkVst {
  v_rows : list row;
  v_groups : groups;
  v_iter : option (list (bytes * list cell)) }.

(** the loop of Coprocessor::Execute over the rows, coprocessor.cc:234-268; the flag tells that
    the page is full.  None: an error status. *)
Fixpoint row_loop (L : lib) (q : request) (o : opened) (ko : bool) (mc mb : Z) (rows : list row)
         (cnt sz : Z) (acc : list row) (g : groups)
  : outcome (option (list row * list row * groups * bool)) :=
  match rows with
  | [] => Ok (Some (acc, [], g, false))
  | kv :: rest =>
      olet r := do_row L q o g kv in
      match r with
      | RErr => Ok None
      | RNone g' => row_loop L q o ko mc mb rest cnt sz acc g'
      | ROut out =>
          let out' := shown_row ko out in
          let '(full, cnt', sz') := upto_limit mc mb ko cnt sz out' in
          if full then Ok (Some (acc ++ [out'], rest, g, true))
          else row_loop L q o ko mc mb rest cnt' sz' (acc ++ [out']) g
      end
  end.

(** a finished group as a row of the result, coprocessor.cc:530-600 *)
Fixpoint clone_all (cs : list cell) (ts : list ctype) : outcome (option (list cell)) :=
  match cs, ts with
  | [], _ => Ok (Some [])
  | c :: cs', t :: ts' =>
      match clone c t with
      | None => Ok None
      | Some c' => olet r := clone_all cs' ts' in Ok (match r with Some l => Some (c' :: l) | None => None end)
      end
  | _ :: _, [] => Crash
  end.
Definition group_row (L : lib) (q : request) (o : opened) (key : bytes) (aggs : list cell)
  : outcome (option row) :=
  match (if is_nil (o_key_types o) then Some [] else l_dec_key L key) with
  | None => Ok None
  | Some ks =>
      olet r := clone_all (ks ++ aggs) (q_result q) in
      Ok (match r with
          | None => None
          | Some rec => match l_encode L rec with Enc k v => Some (k, v) | _ => None end
          end)
  end.

(** the loop of Coprocessor::GetKeyValueFromAggregation, coprocessor.cc:515-620 *)
Fixpoint group_loop (L : lib) (q : request) (o : opened) (ko : bool) (mc mb : Z)
         (it : list (bytes * list cell)) (cnt sz : Z) (acc : list row)
  : outcome (option (list row * list (bytes * list cell))) :=
  match it with
  | [] => Ok (Some (acc, []))
  | (key, aggs) :: rest =>
      olet r := group_row L q o key aggs in
      match r with
      | None => Ok None
      | Some out =>
          let out' := shown_row ko out in
          let '(full, cnt', sz') := upto_limit mc mb ko cnt sz out' in
          if full then Ok (Some (acc ++ [out'], rest))
          else group_loop L q o ko mc mb rest cnt' sz' (acc ++ [out'])
      end
  end.

(** one page: Coprocessor::Execute, coprocessor.cc:225-275.  has_more is never set. *)
Definition page1 (L : lib) (q : request) (o : opened) (ko : bool) (mc mb : Z) (st : vst)
  : outcome (option (list row * vst)) :=
  olet r := row_loop L q o ko mc mb (v_rows st) 0 0 [] (v_groups st) in
  match r with
  | None => Ok None
  | Some (acc, rest, g, true) => Ok (Some (acc, mkVst rest g (v_iter st)))
  | Some (acc, rest, g, false) =>
      match o_grouping o, g with
      | true, Some m =>
          let it := match v_iter st with Some l => l | None => m end in
          olet r2 := group_loop L q o ko mc mb it 0 0 acc in
          Ok (match r2 with
              | None => None
              | Some (acc', it') => Some (acc', mkVst rest g (Some it'))
              end)
      | _, _ => Ok (Some (acc, mkVst rest g (v_iter st)))
      end
  end.

(** the pages of a session (ScanBegin and ScanContinue, scan.cc:380-505): for each the count and
    the byte limit.  None: a page failed. *)
Fixpoint pages1 (L : lib) (q : request) (o : opened) (ko : bool) (lims : list (Z * Z)) (st : vst)
  : outcome (option (list (list row) * vst)) :=
  match lims with
  | [] => Ok (Some ([], st))
  | (mc, mb) :: rest =>
      olet r := page1 L q o ko mc mb st in
      match r with
      | None => Ok None
      | Some (p, st') =>
          olet r2 := pages1 L q o ko rest st' in
          Ok (match r2 with None => None | Some (ps, st'') => Some (p :: ps, st'') end)
      end
  end.

(** a whole session over [rows]: refused, failed, or its pages *)
Inductive answer := Refused | Failed | Pages (ps : list (list row)).
Definition session1 (L : lib) (q : request) (ko : bool) (lims : list (Z * Z)) (rows : list row)
  : outcome answer :=
  olet o := open q in
  match o with
  | None => Ok Refused
  | Some o =>
      olet r := pages1 L q o ko lims (mkVst rows None None) in
      Ok (match r with None => Failed | Some (ps, _) => Pages ps end)
  end.

(* ------------------------------------------------------------------------------------ *)
(** * Second generation *)

(** rel::RelRunner with the record decoder and encoder around it (coprocessor_v2.cc:488-747): a
    row is put in, possibly giving a row of the result; at the end of a page the runner is drained.
    None: an error status.  [r_count] is the encoding of a row count. *)
Record runner (S : Type) := mkRunner {
  r_start : S;
  r_put : S -> row -> option (S * option row);
  r_drain : S -> option (S * list row);
  r_count : Z -> encres }.
Arguments r_start {S}. Arguments r_put {S}. Arguments r_drain {S}. Arguments r_count {S}.

(** the row with the number of rows, coprocessor_v2.cc:252-264 and 373-380: when the encoder fails
    an uninitialised flag is read *)
Definition count_row {S} (R : runner S) (n : nat) : outcome (list row) :=
  match r_count R (Z.of_nat n) with
  | Enc k v => Ok [(k, v)]
  | _ => Crash
  end.

(** CoprocessorV2::Execute over a session, coprocessor_v2.cc:224-328: rows read count towards the
    limits, not rows returned.  Result: the page, has_more, the rows to come, the runner. *)
Fixpoint raw_loop {S} (R : runner S) (ko : bool) (mc mb : Z) (rows : list row) (cnt sz : Z)
         (acc : list row) (s : S) : option (list row * bool * list row * S) :=
  match rows with
  | [] => Some (acc, false, [], s)
  | kv :: rest =>
      match r_put R s kv with
      | None => None
      | Some (s', out) =>
          let acc' := match out with Some kv' => acc ++ [shown_row ko kv'] | None => acc end in
          let '(full, cnt', sz') := upto_limit mc mb false cnt sz kv in
          if full then Some (acc', true, rest, s')
          else raw_loop R ko mc mb rest cnt' sz' acc' s'
      end
  end.
Definition page2 {S} (R : runner S) (count ko : bool) (mc mb : Z) (rows : list row) (s : S)
  : outcome (option (list row * bool * list row * S)) :=
  if count then
    olet c := count_row R (length rows) in Ok (Some (c, false, [], s))
  else
    Ok (match raw_loop R ko mc mb rows 0 0 [] s with
        | None => None
        | Some (acc, more, rest, s') =>
            match r_drain R s' with
            | None => None
            | Some (s'', l) => Some (acc ++ l, more, rest, s'')
            end
        end).

Fixpoint pages2 {S} (R : runner S) (count ko : bool) (lims : list (Z * Z)) (rows : list row) (s : S)
  : outcome (option (list (list row * bool))) :=
  match lims with
  | [] => Ok (Some [])
  | (mc, mb) :: rest =>
      olet r := page2 R count ko mc mb rows s in
      match r with
      | None => Ok None
      | Some (p, more, rows', s') =>
          olet r2 := pages2 R count ko rest rows' s' in
          Ok (match r2 with None => None | Some ps => Some ((p, more) :: ps) end)
      end
  end.

(** CoprocessorV2::Execute over a transactional iterator, coprocessor_v2.cc:330-455.  Result: the
    results, has_more as the coprocessor leaves it, the iterator.  An error status is flagged. *)
Inductive cop_end := CopDone (kvs : list row) (more : bool) (x : tit) | CopErr.

Fixpoint cop_loop {S} (fuel : nat) (R : runner S) (ds : smap (bytes * Z) bytes) (i : iso) (start : Z)
         (resolved : list Z) (ko : bool) (limit : Z) (full : nat -> bool) (x : tit)
         (acc : list row) (s : S) : outcome (cop_end * S) :=
  match fuel with
  | O => Crash
  | S f =>
      if it_valid x then
        match r_put R s (it_key x, it_value x) with
        | None => Ok (CopErr, s)
        | Some (s', out) =>
            let acc' := match out with Some kv' => acc ++ [shown_row ko kv'] | None => acc end in
            if stop limit full (length acc') then Ok (CopDone acc' true x, s')
            else
              olet r := it_next ds i start resolved x in
              match r with
              | ItOk y | ItFinish y => cop_loop f R ds i start resolved ko limit full y acc' s'
              | ItConflict y => Ok (CopDone acc' false y, s')
              | ItErr y => Ok (CopErr, s')
              end
        end
      else Ok (CopDone acc false x, s)
  end.

(** the same when only the number of rows is asked for, 347-380 *)
Fixpoint cop_count (fuel : nat) (ds : smap (bytes * Z) bytes) (i : iso) (start : Z)
         (resolved : list Z) (x : tit) (n : nat) : outcome (option (nat * tit)) :=
  match fuel with
  | O => Crash
  | S f =>
      if it_valid x then
        olet r := it_next ds i start resolved x in
        match r with
        | ItOk y | ItFinish y => cop_count f ds i start resolved y (n + 1)
        | ItConflict y => Ok (Some ((n + 1)%nat, y))
        | ItErr y => Ok None
        end
      else Ok (Some (n, x))
  end.

Definition cop_execute {S} (R : runner S) (count : bool) ds i start resolved ko limit full (x : tit)
  : outcome cop_end :=
  if count then
    olet r := cop_count (turns x) ds i start resolved x 0 in
    match r with
    | None => Ok CopErr
    | Some (n, y) => olet c := count_row R n in Ok (CopDone c false y)
    end
  else
    olet r := cop_loop (turns x) R ds i start resolved ko limit full x [] (r_start R) in
    match r with
    | (CopErr, _) => Ok CopErr
    | (CopDone acc more y, s) =>
        match r_drain R s with
        | None => Ok CopErr
        | Some (_, l) => Ok (CopDone (acc ++ l) more y)
        end
    end.

(** a page of TxnEngineHelper::Scan with a coprocessor, txn_engine_helper.cc:1563-1587 (every page
    has a new coprocessor), and the step after it, 1650-1676 *)
Definition cop_next {S} (R : runner S) (count : bool) ds i start resolved ko limit full (x : tit)
  : outcome (page * tit) :=
  olet e := cop_execute R count ds i start resolved ko limit full x in
  match e with
  | CopErr => Ok (mkPage [] None false true, x)
  | CopDone kvs more y =>
      if it_valid y then
        olet r := it_next ds i start resolved y in
        match r with
        | ItOk z | ItFinish z => Ok (mkPage kvs (it_conf z) more false, z)
        | ItConflict z => Ok (mkPage kvs (it_conf z) true false, z)
        | ItErr z => Ok (mkPage kvs None more true, z)
        end
      else Ok (mkPage kvs (it_conf y) more false, y)
  end.

(** the first page: txn_engine_helper.cc:1510-1560 *)
Definition cop_first {S} (R : runner S) (count : bool) (s : store) i start resolved ko limit full (a b : bytes)
  : outcome (page * option tit) :=
  olet r := it_seek (datas s) i start resolved a (it_init s a b) in
  match r with
  | ItConflict y => Ok (mkPage [] (it_conf y) true false, None)
  | ItErr y => Ok (mkPage [] None false true, None)
  | ItOk y | ItFinish y =>
      olet p := cop_next R count (datas s) i start resolved ko limit full y in
      Ok (fst p, Some (snd p))
  end.
