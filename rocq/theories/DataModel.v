(** Model of pyvallocation/utils/data_helpers.py.

    Floats are exact reals plus infinities and NaN; zero has no sign. *)
From Verif Require Import RBase ConsModel MomModel DistModel.
Open Scope R_scope.
Open Scope list_scope.

(** A DataFrame column: its label, whether [select_dtypes(include=np.number)] keeps it, whether
    [pd.to_datetime] accepts its cells, and its cells when numeric.  A non-numeric column holds
    objects that do not support division (strings, dates). *)
Record column := mkCol { col_name : string; col_numeric : bool; col_parses : bool; col_cells : list pyf }.

(** A DataFrame: [index.name], number of rows, columns in order.  The index values themselves are
    never read (rows are not sorted). *)
Record frame := mkFrame { fr_index : option string; fr_rows : nat; fr_cols : list column }.

(** data_helpers.py:30-31: anything else than a DataFrame. *)
Inductive data_arg := DFrame (f : frame) | DNotFrame.

(** [df[name]] (with repeated labels, every column of that label). *)
Definition cols_named (name : string) (cs : list column) : list column :=
  filter (fun c => String.eqb (col_name c) name) cs.
Definition drop_named (name : string) (cs : list column) : list column :=
  filter (fun c => negb (String.eqb (col_name c) name)) cs.

(** data_helpers.py:35-48.  [pd.to_datetime] on a frame of repeated labels raises, as does an
    unparseable column: both become ValueError.  [None] and [""] are falsy. *)
Definition set_date (date : option string) (f : frame) : res (list column) :=
  match date with
  | None => Ok (fr_cols f)
  | Some d =>
      if String.eqb d "" then Ok (fr_cols f)
      else if (match fr_index f with Some i => String.eqb i d | None => false end) then Ok (fr_cols f)
      else match cols_named d (fr_cols f) with
           | [c] => if col_parses c then Ok (drop_named d (fr_cols f)) else Err ValueError
           | _ => Err ValueError
           end
  end.

(** data_helpers.py:51-52 (dropping the extra levels of a MultiIndex) touches only the index. *)

(** data_helpers.py:54-62.  [None] and [[]] are falsy; [price_data.empty] also holds without rows. *)
Definition pick_columns (wanted : option (list string)) (rows : nat) (cs : list column) : res (list column) :=
  match wanted with
  | None | Some [] =>
      let nums := filter col_numeric cs in
      match nums, rows with
      | [], _ | _, O => Err ValueError
      | _, _ => Ok nums
      end
  | Some names =>
      if forallb (fun n => existsb (fun c => String.eqb (col_name c) n) cs) names
      then Ok (List.concat (map (fun n => cols_named n cs) names))
      else Err ValueError
  end.

(** Float division, [np.log], [x - 1]. *)
Definition p_div (a b : pyf) : pyf :=
  match a, b with
  | NaN, _ | _, NaN => NaN
  | Fin x, Fin y =>
      if Reqb y 0 then (if Reqb x 0 then NaN else if Rltb 0 x then PInf else NInf) else Fin (x / y)
  | Fin _, _ => Fin 0
  | PInf, Fin y => if Rleb 0 y then PInf else NInf
  | NInf, Fin y => if Rleb 0 y then NInf else PInf
  | _, _ => NaN
  end.
Definition p_ln (a : pyf) : pyf :=
  match a with
  | Fin x => if Rltb x 0 then NaN else if Reqb x 0 then NInf else Fin (ln x)
  | PInf => PInf
  | _ => NaN
  end.
Definition p_minus1 (a : pyf) : pyf := match a with Fin x => Fin (x - 1) | o => o end.

(** data_helpers.py:64-67: the entries of [calc_map], on one cell and the cell above it. *)
Definition calc_log (now before : pyf) : pyf := p_ln (p_div now before).
Definition calc_simple (now before : pyf) : pyf := p_minus1 (p_div now before).

(** data_helpers.py:68-73: look the method up. *)
Definition calc_of (m : string) : res (pyf -> pyf -> pyf) :=
  if String.eqb m "log" then Ok calc_log else if String.eqb m "simple" then Ok calc_simple else Err ValueError.

(** data_helpers.py:69, 75: apply it and drop the first row; division by rows of objects raises
    TypeError (which the [except KeyError] does not catch). *)
Definition cell (c : column) (t : nat) : pyf := nth t (col_cells c) NaN.
Definition raw_rows (calc : pyf -> pyf -> pyf) (rows : nat) (cs : list column) : list (list pyf) :=
  map (fun t => map (fun c => calc (cell c (S t)) (cell c t)) cs) (seq 0 (rows - 1)).
Definition apply_calc (calc : pyf -> pyf -> pyf) (rows : nat) (cs : list column) : res (list (list pyf)) :=
  if forallb col_numeric cs then Ok (raw_rows calc rows cs) else Err TypeError.

(** data_helpers.py:77-82: the entries of [fill_map]. *)
Definition keep (old new : pyf) : pyf := if p_nan new then old else new.
Fixpoint ffill_rows (last : list pyf) (M : list (list pyf)) : list (list pyf) :=
  match M with
  | [] => []
  | r :: M' => let r' := map2 keep last r in r' :: ffill_rows r' M'
  end.
Definition ffill (width : nat) (M : list (list pyf)) : list (list pyf) := ffill_rows (repeat NaN width) M.
Definition bfill (width : nat) (M : list (list pyf)) : list (list pyf) := rev (ffill width (rev M)).
Definition fillna0 (M : list (list pyf)) : list (list pyf) := map (map (keep (Fin 0))) M.
Definition dropna (M : list (list pyf)) : list (list pyf) := filter (forallb (fun x => negb (p_nan x))) M.

(** data_helpers.py:83-88: look the method up. *)
Definition fill_of (m : string) : res (nat -> list (list pyf) -> list (list pyf)) :=
  if String.eqb m "ffill" then Ok ffill
  else if String.eqb m "bfill" then Ok bfill
  else if String.eqb m "zero" then Ok (fun _ => fillna0)
  else if String.eqb m "drop" then Ok (fun _ => dropna)
  else Err ValueError.

(** data_helpers.py:11-92 [pandas_to_numpy_returns]: the rows of the returned array. *)
Definition returns_of_frame (arg : data_arg) (wanted : option (list string)) (date : option string)
    (method fill : string) : res (list (list pyf)) :=
  match arg with
  | DNotFrame => Err ValueError                                                  (* 30-31 *)
  | DFrame f =>
      let* cs := set_date date f in                                              (* 35-48 *)
      let* ps := pick_columns wanted (fr_rows f) cs in                           (* 54-62 *)
      let* calc := calc_of method in                                             (* 68-73 *)
      let* raw := apply_calc calc (fr_rows f) ps in                              (* 69, 75 *)
      let* fl := fill_of fill in                                                 (* 83-88 *)
      Ok (fillna0 (fl (List.length ps) raw))                                     (* 90-92 *)
  end.

(** data_helpers.py:95-116 [numpy_weights_to_pandas_series]. *)
Inductive weights_arg := WArray (shape : list nat) (cells : list pyf) | WNotArray.
Inductive names_arg := NList (l : list (option string)) | NNotList.   (* [None]: an entry that is not a str *)
Definition weights_series (w : weights_arg) (names : names_arg) : res (list (string * pyf)) :=
  match w with
  | WArray [n] cells =>                                                          (* 107-108 *)
      match names with
      | NNotList => Err ValueError                                               (* 109-112 *)
      | NList l =>
          let* strs := mapM (fun x => match x with Some s => Ok s | None => Err ValueError end) l in
          if Nat.eqb n (List.length strs) then Ok (combine strs cells) else Err ValueError   (* 113-116 *)
      end
  | _ => Err ValueError
  end.
