(** Model of [assemble_portfolio_ensemble] (pyvallocation/ensembles.py:517-636). *)
From Verif Require Import RBase ConsModel QpBase EnsModel.
Open Scope R_scope.
Open Scope list_scope.

(** ensembles.py:451-467 [EnsembleSpec]: the factory and the selector are represented by what they
    return, a frontier and a labelled weight vector. *)
Record spec := mkSpec {
  sp_name : string; sp_frontier : frontier; sp_selected : list (string * R); sp_selection : option (list Z) }.

(** Python dict assignment [d[k] = v]. *)
Fixpoint dict_set {A} (d : list (string * A)) (k : string) (v : A) : list (string * A) :=
  match d with
  | [] => [(k, v)]
  | (k', v') :: d' => if String.eqb k k' then (k, v) :: d' else (k', v') :: dict_set d' k v
  end.

(** ensembles.py:558-560: the mapping from spec name to frontier. *)
Definition frontier_dict (specs : list spec) : list (string * frontier) :=
  fold_left (fun d s => dict_set d (sp_name s) (sp_frontier s)) specs [].

(** ensembles.py:592: [frontier_list]. *)
Definition frontier_list (specs : list spec) : list frontier :=
  map (fun s => match assoc (sp_name s) (frontier_dict specs) with Some f => f | None => sp_frontier s end) specs.

(** ensembles.py:598-607: exactly one column per frontier. *)
Fixpoint cleaned (fs : list frontier) (sels : list (option (list Z))) : res (list (option (list Z))) :=
  match fs, sels with
  | f :: fs', s :: sels' =>
      let* k := match s with
                | None => let* a := argmin (f_risks f) in Ok (Z.of_nat a)
                | Some [k] => Ok k
                | Some _ => Err ValueError
                end in
      let* r := cleaned fs' sels' in Ok (Some [k] :: r)
  | _, _ => Ok []
  end.

(** ensembles.py:565-566: [pd.concat(axis=1)] joins on the union of the labels; a label missing
    from a series gives NaN ([None]). *)
Fixpoint first_seen (seen : list string) (l : list string) : list string :=
  match l with
  | [] => []
  | k :: l' => if existsb (String.eqb k) seen then first_seen seen l' else k :: first_seen (k :: seen) l'
  end.
Definition table_rows (specs : list spec) : list string := first_seen [] (flat_map (fun s => map fst (sp_selected s)) specs).
Definition table_cell (s : spec) (k : string) : option R := assoc k (sp_selected s).

(** A NaN in a row makes the row's average NaN, whatever its weight. *)
Fixpoint row_average (cells : list (option R)) (w : list R) : option R :=
  match cells, w with
  | Some c :: cs, x :: xs => match row_average cs xs with Some s => Some (c * x + s) | None => None end
  | None :: _, _ :: _ => None
  | _, _ => Some 0
  end.

(** ensembles.py:581-582. *)
Definition average_selected (specs : list spec) (w : warg) : res (list (string * option R)) :=
  let* ws := normalize_weights w (List.length specs) (Some (map sp_name specs)) in
  Ok (map (fun k => (k, row_average (map (fun s => table_cell s k) specs) ws)) (table_rows specs)).

(** ensembles.py:583-588; a table with NaN makes the solver fail, represented by RuntimeError. *)
Definition column_vec (specs : list spec) (s : spec) : vec := fun i =>
  match table_cell s (nth i (table_rows specs) EmptyString) with Some x => x | None => 0 end.
Definition complete (specs : list spec) : bool :=
  forallb (fun k => forallb (fun s => match table_cell s k with Some _ => true | None => false end) specs) (table_rows specs).
Definition stack_selected (solver : qp -> option vec) (specs : list spec) (folds : Z) : res (list (string * option R)) :=
  if ((folds <? 2) || (Z.of_nat (List.length specs) <? folds))%Z then Err ValueError
  else if negb (complete specs) then Err RuntimeError
  else let* (v, nm) := exposure_stacking solver
              (mkPanel (List.length (table_rows specs)) (map (column_vec specs) specs) (Some (table_rows specs)) (Some (map sp_name specs))) folds in
       Ok (map (fun i => (nth i (table_rows specs) EmptyString, Some (v i))) (seq 0 (List.length (table_rows specs)))).

Inductive mode := Selected | FrontierMode | OtherMode.

(** Results keyed by "average" / "stack". *)
Inductive blend := BTable (t : list (string * option R)) | BVec (v : vec) (labels : option (list string)).

(** ensembles.py:580-590 and 614-629: run the requested ensembles in order. *)
Fixpoint run_ensembles (avg stack : res blend) (names : list string) : res (list (string * blend)) :=
  match names with
  | [] => Ok []
  | n :: rest =>
      let* b := if String.eqb n "average" then avg else if String.eqb n "stack" then stack else Err ValueError in
      let* r := run_ensembles avg stack rest in Ok ((n, b) :: r)
  end.

(** ensembles.py:517-636. *)
Definition assemble (solver : qp -> option vec) (specs : list spec) (names : list string) (m : mode)
           (stack_folds : option Z) (w : warg) : res (list (string * blend)) :=
  if Nat.eqb (List.length specs) 0 then Err ValueError                       (* 551-552 *)
  else match m with
       | OtherMode => Err ValueError                                         (* 570-571 *)
       | _ =>
         if Nat.eqb (List.length names) 0 then Ok []                         (* 576 *)
         else match m with
              | Selected =>
                  let* folds := determine_stack_folds stack_folds (Z.of_nat (List.length specs)) in
                  run_ensembles (let* t := average_selected specs w in Ok (BTable t))
                                (let* t := stack_selected solver specs folds in Ok (BTable t)) names
              | _ =>
                  let fl := frontier_list specs in
                  let* sels := cleaned fl (map sp_selection specs) in
                  let* folds := determine_stack_folds stack_folds (Z.of_nat (List.length sels)) in
                  run_ensembles (let* (v, l) := average_frontiers (map EFrontier fl) (Some sels) w in Ok (BVec v l))
                                (let* (v, l) := exposure_stack_frontiers solver (map EFrontier fl) folds (Some sels) in Ok (BVec v l)) names
              end
       end.
