(** Model of pyvallocation/utils/weights.py and of the blending part of pyvallocation/ensembles.py
    over exact reals.  A sample panel is its list of columns. *)
From Coq Require Export String.
From Verif Require Import RBase ConsModel QpBase.
Open Scope R_scope.
Open Scope list_scope.

(** [n_assets x n_samples] panel with optional labels. *)
Record panel := mkPanel {
  pn_n : nat; pn_cols : list vec;
  pn_assets : option (list string); pn_samples : option (list string) }.

(** ** utils/weights.py *)
(** Weights argument: absent, a plain sequence, or a labelled Series (distinct labels). *)
Inductive warg := WNone | WSeq (l : list pyf) | WSeries (l : list (string * pyf)).

Fixpoint assoc {A} (k : string) (l : list (string * A)) : option A :=
  match l with
  | [] => None
  | (k', v) :: l' => if String.eqb k k' then Some v else assoc k l'
  end.

(** weights.py:111-119: [reindex] to the sample labels; a missing or NaN entry raises. *)
Fixpoint reindex (l : list (string * pyf)) (names : list string) : res (list pyf) :=
  match names with
  | [] => Ok []
  | k :: ks => match assoc k l with
               | None | Some NaN => Err ValueError
               | Some v => let* vs := reindex l ks in Ok (v :: vs)
               end
  end.

(** All entries finite: in exact arithmetic [np.isfinite(np.sum(v))]. *)
Fixpoint finite_all (l : list pyf) : option (list R) :=
  match l with
  | [] => Some []
  | Fin r :: l' => match finite_all l' with Some rs => Some (r :: rs) | None => None end
  | _ => None
  end.

(** weights.py:87-129 [normalize_weights]. *)
Definition normalize_weights (w : warg) (num : nat) (names : option (list string)) : res (list R) :=
  if Nat.eqb num 0 then Err ValueError                                      (* 105-106 *)
  else
    let finish v :=
      if negb (Nat.eqb (List.length v) num) then Err ValueError                  (* 124-125 *)
      else match finite_all v with
           | None => Err ValueError                                         (* 127-128 *)
           | Some rs => if Rleb (rsum rs) 0 then Err ValueError
                        else Ok (map (fun x => x / rsum rs) rs)             (* 129 *)
           end in
    match w with
    | WNone => Ok (repeat (1 / INR num) num)                                (* 108-109 *)
    | WSeq v => finish v                                                    (* 121 *)
    | WSeries l => match names with
                   | None => finish (map snd l)                             (* 112-113 *)
                   | Some ks => let* v := reindex l ks in finish v          (* 114-119 *)
                   end
    end.

(** ** ensembles.py *)
(** [exposures @ weights]. *)
Definition combine_cols (cols : list vec) (w : list R) : vec :=
  fun i => rsum (map2 (fun (c : vec) x => c i * x) cols w).

(** weights.py:27-60 [ensure_samples_matrix]: only the emptiness check matters here. *)
Definition ensure_samples (p : panel) : res panel :=
  if Nat.eqb (List.length (pn_cols p)) 0 then Err ValueError else Ok p.

(** ensembles.py:84-118 [average_exposures]; the asset labels are those of the panel. *)
Definition average_exposures (p : panel) (w : warg) : res (vec * option (list string)) :=
  let* p := ensure_samples p in
  let* ws := normalize_weights w (List.length (pn_cols p)) (pn_samples p) in
  Ok (combine_cols (pn_cols p) ws, pn_assets p).

(** Python slice [l[a:b]]. *)
Definition slice {A} (a b : nat) (l : list A) : list A := firstn (b - a) (skipn a l).

(** ensembles.py:181-188: the fold partition of sample indices. *)
Definition partitions (n L : nat) : list (list nat) :=
  let size := (n / L)%nat in
  map (fun part => slice (part * size) ((part + 1) * size) (seq 0 n)) (seq 0 (L - 1)) ++
  [skipn ((L - 1) * size) (seq 0 n)].

Definition memb (j : nat) (l : list nat) : bool := existsb (Nat.eqb j) l.

(** ensembles.py:197-198: exposures of sample [j] on asset [t], zero on the fold. *)
Definition masked (cols : list vec) (subset : list nat) (j t : nat) : R :=
  if memb j subset then 0 else nth j cols (fun _ => 0) t.

(** ensembles.py:194-201: Gram matrix and linear term accumulated over non-empty folds. *)
Definition nonempty (s : list nat) : bool := negb (Nat.eqb (List.length s) 0).
Definition gram (N : nat) (cols : list vec) (parts : list (list nat)) : mat := fun i j =>
  rsum (map (fun s => sumn N (fun t => masked cols s i t * masked cols s j t)) (filter nonempty parts)).
Definition summed (cols : list vec) (s : list nat) : vec := fun t => rsum (map (fun j => nth j cols (fun _ => 0) t) s).
Definition linear (N : nat) (cols : list vec) (parts : list (list nat)) : vec := fun j =>
  rsum (map (fun s => sumn N (fun t => masked cols s j t * summed cols s t) / INR (Nat.max (List.length s) 1)) (filter nonempty parts)).

(** ensembles.py:203-208: the programme. *)
Definition stack_qp (N : nat) (cols : list vec) (L : nat) : qp :=
  let n := List.length cols in
  let parts := partitions n L in
  mkQP n (fun i j => 2 * gram N cols parts i j) (fun j => -2 * linear N cols parts j)
       (map (fun i => (fun j => - delta i j, 0)) (seq 0 n))
       [(fun _ => 1, 1)].

(** ensembles.py:141-222 [exposure_stacking]; [solver] returns the optimiser's [x] when the status
    is "optimal". *)
Definition exposure_stacking (solver : qp -> option vec) (p : panel) (L : Z) : res (vec * option (list string)) :=
  let* p := ensure_samples p in
  let n := List.length (pn_cols p) in
  if (L <? 2)%Z then Err ValueError                                          (* 176-177 *)
  else if (Z.of_nat n <? L)%Z then Err ValueError                            (* 178-179 *)
  else match solver (stack_qp (pn_n p) (pn_cols p) (Z.to_nat L)) with
       | None => Err RuntimeError                                            (* 217-218 *)
       | Some w => Ok (combine_cols (pn_cols p) (map w (seq 0 n)), pn_assets p)
       end.

(** ensembles.py:247-274 [_merge_asset_names]. *)
Definition merge_asset_names (existing candidate : option (list string)) (dim : nat) : res (option (list string)) :=
  match candidate with
  | Some (c :: cs) =>
      match existing with
      | None => Ok (Some (c :: cs))
      | Some e => if list_eq_dec string_dec e (c :: cs) then Ok (Some e) else Err ValueError
      end
  | _ => match existing with
         | Some e => if Nat.eqb (List.length e) dim then Ok existing else Err ValueError
         | None => Ok None
         end
  end.

(** A frontier, as far as blending reads it: columns, risks, labels. *)
Record frontier := mkF { f_n : nat; f_cols : list vec; f_risks : list R; f_assets : option (list string) }.

(** Entries to blend: a frontier or a panel (single portfolio, matrix). *)
Inductive entry := EFrontier (f : frontier) | EPanel (p : panel).

(** [np.argmin]: first minimum. *)
Fixpoint argmin_from (best : R) (bi i : nat) (l : list R) : nat :=
  match l with
  | [] => bi
  | x :: xs => if Rltb x best then argmin_from x i (S i) xs else argmin_from best bi (S i) xs
  end.
Definition argmin (l : list R) : res nat :=
  match l with [] => Err ValueError | x :: xs => Ok (argmin_from x 0 1 xs) end.

(** portfolioapi.py:333-345 [_select_weights] with one index: [weights[:, [k]]]; numpy wraps
    negative indices and raises out of range. *)
Definition wrap_index (n : nat) (k : Z) : option nat :=
  if ((0 <=? k) && (k <? Z.of_nat n))%Z then Some (Z.to_nat k)
  else if ((- Z.of_nat n <=? k) && (k <? 0))%Z then Some (Z.to_nat (k + Z.of_nat n))
  else None.
Definition select_col (f : frontier) (k : Z) : res vec :=
  match wrap_index (List.length (f_cols f)) k with
  | Some i => Ok (nth i (f_cols f) (fun _ => 0))
  | None => Err IndexError
  end.

(** ensembles.py:304-326: one entry's columns, its dimension and labels. *)
Definition entry_cols (e : entry) (sel : option (list Z)) : res (list vec * nat * option (list string)) :=
  match e with
  | EFrontier f =>
      let* k := match sel with
                | None => let* a := argmin (f_risks f) in Ok (Z.of_nat a)     (* 307-310 *)
                | Some [k] => Ok k
                | Some _ => Err ValueError                                    (* 315-316 *)
                end in
      let* c := select_col f k in
      Ok ([c], f_n f, f_assets f)
  | EPanel p => let* p := ensure_samples p in Ok (pn_cols p, pn_n p, pn_assets p)
  end.

(** ensembles.py:304-328: collecting; [np.hstack] raises when dimensions differ. *)
Fixpoint collect (es : list (entry * option (list Z))) (names : option (list string)) (dim : option nat)
  : res (list vec * option (list string) * option nat) :=
  match es with
  | [] => Ok ([], names, dim)
  | (e, s) :: rest =>
      let* (cols, d, nm) := entry_cols e s in
      let* names' := merge_asset_names names nm d in
      let* (cols', names'', dim') := collect rest names' (match dim with Some x => Some x | None => Some d end) in
      if match dim with Some x => Nat.eqb x d | None => true end
      then Ok (cols ++ cols', names'', dim') else Err ValueError
  end.

(** ensembles.py:277-331 [_collect_samples]. *)
Definition collect_samples (entries : list entry) (selections : option (list (option (list Z)))) : res panel :=
  if Nat.eqb (List.length entries) 0 then Err ValueError
  else
    let* sels := match selections with
                 | None => Ok (repeat None (List.length entries))
                 | Some s => if Nat.eqb (List.length s) (List.length entries) then Ok s else Err ValueError
                 end in
    let* (cols, names, dim) := collect (combine entries sels) None None in
    match dim with
    | Some (S d) => if Nat.eqb (List.length cols) 0 then Err ValueError else Ok (mkPanel (S d) cols names None)
    | _ => Err ValueError
    end.

(** ensembles.py:366-390 [average_frontiers]. *)
Definition average_frontiers (fs : list entry) (sel : option (list (option (list Z)))) (w : warg) : res (vec * option (list string)) :=
  let* p := collect_samples fs sel in
  let* (v, _) := average_exposures (mkPanel (pn_n p) (pn_cols p) None None) w in
  Ok (v, pn_assets p).

(** ensembles.py:393-420 [exposure_stack_frontiers]. *)
Definition exposure_stack_frontiers (solver : qp -> option vec) (fs : list entry) (L : Z) (sel : option (list (option (list Z)))) : res (vec * option (list string)) :=
  let* p := collect_samples fs sel in
  let* (v, _) := exposure_stacking solver (mkPanel (pn_n p) (pn_cols p) None None) L in
  Ok (v, pn_assets p).

(** ensembles.py:819-834 [_determine_stack_folds]. *)
Definition determine_stack_folds (stack_folds : option Z) (total : Z) : res Z :=
  if (total <=? 0)%Z then Err ValueError
  else let f := match stack_folds with Some f => f | None => Z.min 3 total end in
       Ok (Z.max 1 (Z.min f total)).

(** ** ensembles.py:121-138 [_temporary_solver_options] *)
(** The process-wide [cvxopt.solvers.options] dictionary; in [update] the overrides win. *)
Definition options := list (string * R).
Definition update (o ov : options) : options := ov ++ filter (fun kv => negb (existsb (fun kv' => String.eqb (fst kv) (fst kv')) ov)) o.

(** Events on the shared dictionary: thread [t] enters the context with overrides, leaves it, or
    anybody assigns the options in between.  [saved t] is the stack of copies held by thread [t]. *)
Inductive event := Enter (t : nat) (ov : options) | Leave (t : nat) | Assign (o : options).

Definition set_saved (s : nat -> list options) (t : nat) (v : list options) : nat -> list options :=
  fun u => if Nat.eqb u t then v else s u.

Definition opt_step (st : options * (nat -> list options)) (e : event) : options * (nat -> list options) :=
  let '(g, saved) := st in
  match e with
  | Enter t ov => (update g ov, set_saved saved t (g :: saved t))            (* 131-133 *)
  | Leave t => match saved t with
               | prev :: rest => (prev, set_saved saved t rest)             (* 136-138 *)
               | [] => st
               end
  | Assign o => (o, saved)
  end.

Definition opt_run (st : options * (nat -> list options)) (es : list event) := fold_left opt_step es st.
