(** Model of pyvallocation/utils/constraints.py.

    Exact reals plus the non-finite floats; a Python value in a numeric position is a
    number or something that is not a [numbers.Real].  Rows supplied by the user are
    one-dimensional.  Log messages are not modelled, warnings are. *)
From Coq Require Export String.
From Verif Require Import RBase.
Open Scope R_scope.

Inductive pyf : Set := Fin (r : R) | PInf | NInf | NaN.
Inductive pynum : Set := Num (x : pyf) | NotReal.

(** constraints.py:89-105 [_check_number]. *)
Definition check_number (x : pynum) : res R :=
  match x with
  | NotReal => Err TypeError
  | Num (Fin r) => Ok r
  | Num _ => Err ValueError
  end.

(** constraints.py:24-29, the accepted shapes of [bounds]: a tuple (of any length), a dict from
    asset index to a sequence, any other sequence of sequences.  [None] entries are Python's None. *)
Inductive bounds_like :=
| BTuple (t : list (option pynum))
| BDict (d : list (Z * list (option pynum)))
| BSeq (s : list (list (option pynum))).

(** A [relative_bounds] entry: a triple or a sequence of another length. *)
Inductive rel_entry := RelTriple (i j : Z) (k : pynum) | RelOther.

(** constraints.py:31-52 [Constraints]. *)
Record constraints := mkC {
  c_long_only : bool;
  c_total : option pynum;
  c_bounds : option bounds_like;
  c_relative : option (list rel_entry);
  c_groups : option (list (string * (list Z * pynum * pynum)));
  c_extra_G : option (list (list pyf * pynum));
  c_extra_A : option (list (list pyf * pynum)) }.

(** Dataclass defaults, constraints.py:46-52. *)
Definition default_constraints : constraints :=
  mkC true (Some (Num (Fin 1))) None None None None None.

(** [np.zeros(n)], [row[i] = v]. *)
Definition zeros (n : nat) : list R := repeat 0 n.
Fixpoint setitem (row : list R) (i : nat) (v : R) : list R :=
  match row, i with
  | [], _ => []
  | _ :: r, O => v :: r
  | x :: r, S i' => x :: setitem r i' v
  end.
(** [k * np.eye(n)]. *)
Definition eye (k : R) (n : nat) : list (list R) := map (fun i => setitem (zeros n) i k) (seq 0 n).

Definition frow (r : list R) : list pyf := map Fin r.

(** Rows appended to [G_rows]/[A_rows] and values appended to [h_vals]/[b_vals]. *)
Definition block := (list (list pyf) * list R)%type.
Definition app_block (a b : block) : block := (fst a ++ fst b, snd a ++ snd b).

Fixpoint blocks {A} (f : A -> res block) (l : list A) : res block :=
  match l with
  | [] => Ok ([], [])
  | x :: xs => let* a := f x in let* b := blocks f xs in Ok (app_block a b)
  end.

Definition in_range (n : nat) (i : Z) : bool := ((0 <=? i) && (i <? Z.of_nat n))%Z.

Definition check_opt (x : option pynum) : res (option R) :=
  match x with None => Ok None | Some v => let* r := check_number v in Ok (Some r) end.

(** The check shared by lines 177-184, 207-216 and 237-246: both ends finite when given, and
    [lower > upper] raises ValueError. *)
Definition check_pair (lo hi : option pynum) : res (option R * option R) :=
  let* l := check_opt lo in
  let* u := check_opt hi in
  match l, u with
  | Some a, Some b => if Rltb b a then Err ValueError else Ok (l, u)
  | _, _ => Ok (l, u)
  end.

(** Lines 217-226 / 247-256: one asset's bound rows. *)
Definition asset_bound (n i : nat) (lu : option R * option R) : block :=
  app_block
    (match fst lu with Some l => ([frow (setitem (zeros n) i (-1))], [- l]) | None => ([], []) end)
    (match snd lu with Some u => ([frow (setitem (zeros n) i 1)], [u]) | None => ([], []) end).

(** constraints.py:170-190: tuple bounds. *)
Definition tuple_bounds (n : nat) (t : list (option pynum)) : res block :=
  match t with
  | [lower; upper] =>
      let* lu := check_pair lower upper in
      Ok (app_block
        (match fst lu with Some l => (map frow (eye (-1) n), repeat (- l) n) | None => ([], []) end)
        (match snd lu with Some u => (map frow (eye 1 n), repeat u n) | None => ([], []) end))
  | _ => Err ValueError
  end.

(** constraints.py:192-226: dict bounds. *)
Definition dict_bound (n : nat) (e : Z * list (option pynum)) : res block :=
  if negb (in_range n (fst e)) then Err IndexError
  else match snd e with
       | [lower; upper] => let* lu := check_pair lower upper in
                           Ok (asset_bound n (Z.to_nat (fst e)) lu)
       | _ => Err ValueError
       end.

(** constraints.py:237-256: one entry of sequence bounds (unpacking fails with ValueError). *)
Definition seq_bound (n : nat) (e : nat * list (option pynum)) : res block :=
  match snd e with
  | [lower; upper] => let* lu := check_pair lower upper in Ok (asset_bound n (fst e) lu)
  | _ => Err ValueError
  end.

(** constraints.py:169-256. *)
Definition bounds_block (n : nat) (b : option bounds_like) : res block :=
  match b with
  | None => Ok ([], [])
  | Some (BTuple t) => tuple_bounds n t
  | Some (BDict d) => blocks (dict_bound n) d
  | Some (BSeq s) =>
      if negb (Nat.eqb (List.length s) n) then Err ValueError
      else blocks (seq_bound n) (combine (seq 0 n) s)
  end.

(** constraints.py:258-278. *)
Definition rel_block (n : nat) (e : rel_entry) : res block :=
  match e with
  | RelOther => Err ValueError
  | RelTriple i j k =>
      if negb (in_range n i && in_range n j) then Err IndexError
      else if (i =? j)%Z then Err ValueError
      else let* k := check_number k in
           Ok ([frow (setitem (setitem (zeros n) (Z.to_nat i) 1) (Z.to_nat j) (-1))], [k])
  end.

(** [row = zeros(n); row[idx] = v]. *)
Definition set_many (row : list R) (idx : list Z) (v : R) : list R :=
  fold_left (fun r i => setitem r (Z.to_nat i) v) idx row.

(** constraints.py:280-298. *)
Definition group_block (n : nat) (e : string * (list Z * pynum * pynum)) : res block :=
  let '(_, (indices, lo, hi)) := e in
  if negb (forallb (in_range n) indices) then Err IndexError
  else let* lo := check_number lo in
       let* hi := check_number hi in
       if Rltb hi lo then Err ValueError
       else Ok ([frow (set_many (zeros n) indices 1); frow (set_many (zeros n) indices (-1))], [hi; - lo]).

(** constraints.py:300-308 and 314-322: user rows; entries are not checked for finiteness. *)
Definition extra_block (n : nat) (e : list pyf * pynum) : res block :=
  if negb (Nat.eqb (List.length (fst e)) n) then Err ValueError
  else let* rhs := check_number (snd e) in Ok ([fst e], [rhs]).

Definition opt_list {A} (o : option (list A)) : list A := match o with Some l => l | None => [] end.

(** Warnings issued (constraints.py:324-347). *)
Inductive warn := WUnbounded | WRedundantLower.

Definition warnings_of (c : constraints) : list warn :=
  (if negb (c_long_only c) && (match c_bounds c with None => true | _ => false end)
      && (match opt_list (c_relative c) with [] => true | _ => false end)
      && (match opt_list (c_extra_G c) with [] => true | _ => false end)
   then [WUnbounded] else [])
  ++ (match c_bounds c with
      | Some (BTuple (Some (Num (Fin l)) :: _)) => if c_long_only c && Reqb l 0 then [WRedundantLower] else []
      | _ => [] end).

Record matrices := mkM {
  m_G : option (list (list pyf)); m_h : option (list R);
  m_A : option (list (list pyf)); m_b : option (list R) }.

Definition none_if_empty {A} (l : list A) : option (list A) :=
  match l with [] => None | _ => Some l end.

(** constraints.py:108-376 [build_G_h_A_b] with [return_none_if_empty=True] (the only way the
    package calls it), and 65-86 [Constraints.to_matrices]. *)
Definition to_matrices (c : constraints) (n_assets : Z) : res (matrices * list warn) :=
  if (n_assets <=? 0)%Z then Err ValueError                              (* 151-153 *)
  else
    let n := Z.to_nat n_assets in
    let* tw := check_opt (c_total c) in                                  (* 155-158 *)
    let lo := if c_long_only c then (map frow (eye (-1) n), repeat 0 n) else ([], []) in (* 165-167 *)
    let* bd := bounds_block n (c_bounds c) in
    let* rel := blocks (rel_block n) (opt_list (c_relative c)) in
    let* grp := blocks (group_block n) (opt_list (c_groups c)) in
    let* exG := blocks (extra_block n) (opt_list (c_extra_G c)) in
    let tot := match tw with Some t => ([frow (repeat 1 n)], [t]) | None => ([], []) end in (* 310-312 *)
    let* exA := blocks (extra_block n) (opt_list (c_extra_A c)) in
    let G := app_block lo (app_block bd (app_block rel (app_block grp exG))) in
    let A := app_block tot exA in
    Ok (mkM (none_if_empty (fst G)) (none_if_empty (snd G))
            (none_if_empty (fst A)) (none_if_empty (snd A)), warnings_of c).

(** constraints.py:54-63 [Constraints.from_dict]: a dict is a list of key/value pairs with
    distinct keys; unknown keys are dropped, missing ones keep the default. *)
Inductive field :=
| FLongOnly (b : bool) | FTotal (t : option pynum) | FBounds (b : option bounds_like)
| FRelative (r : option (list rel_entry))
| FGroups (g : option (list (string * (list Z * pynum * pynum))))
| FExtraG (g : option (list (list pyf * pynum))) | FExtraA (a : option (list (list pyf * pynum))).

Definition field_name (f : field) : string :=
  match f with
  | FLongOnly _ => "long_only" | FTotal _ => "total_weight" | FBounds _ => "bounds"
  | FRelative _ => "relative_bounds" | FGroups _ => "group_constraints"
  | FExtraG _ => "additional_G_h" | FExtraA _ => "additional_A_b"
  end%string.

(** A dict entry: a well-typed field, or a key that is not a field name. *)
Inductive entry := Known (f : field) | Unknown (key : string).

Definition set_field (c : constraints) (f : field) : constraints :=
  match f with
  | FLongOnly b => mkC b (c_total c) (c_bounds c) (c_relative c) (c_groups c) (c_extra_G c) (c_extra_A c)
  | FTotal t => mkC (c_long_only c) t (c_bounds c) (c_relative c) (c_groups c) (c_extra_G c) (c_extra_A c)
  | FBounds b => mkC (c_long_only c) (c_total c) b (c_relative c) (c_groups c) (c_extra_G c) (c_extra_A c)
  | FRelative r => mkC (c_long_only c) (c_total c) (c_bounds c) r (c_groups c) (c_extra_G c) (c_extra_A c)
  | FGroups g => mkC (c_long_only c) (c_total c) (c_bounds c) (c_relative c) g (c_extra_G c) (c_extra_A c)
  | FExtraG g => mkC (c_long_only c) (c_total c) (c_bounds c) (c_relative c) (c_groups c) g (c_extra_A c)
  | FExtraA a => mkC (c_long_only c) (c_total c) (c_bounds c) (c_relative c) (c_groups c) (c_extra_G c) a
  end.

Definition from_dict (d : list entry) : constraints :=
  fold_left (fun c e => match e with Known f => set_field c f | Unknown _ => c end) d default_constraints.
