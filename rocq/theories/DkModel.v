(** Model of [discretize_weights(..., method, **kwargs)] with its keyword arguments:
    pyvallocation/discrete_allocation.py:201-224, 322-328, 333-354, 440-488.

    Strings are ASCII ([lowered] acts on ASCII letters only).  A keyword dict is a list of (name, value) pairs with
    distinct names; [lookup] reads it.  A value of a type the allocator cannot work with is a TypeError here,
    whatever exception numpy or scipy would raise for it. *)
From Coq Require Import String Ascii.
From Verif Require Import QBase ProbModel DiscModel.
Open Scope Q_scope.
Open Scope list_scope.

(** [str.lower], discrete_allocation.py:216, 483. *)
Definition small_letter (a : ascii) : ascii :=
  let n := nat_of_ascii a in if ((65 <=? n) && (n <=? 90))%nat then ascii_of_nat (n + 32) else a.
Fixpoint lowered (s : string) : string :=
  match s with EmptyString => EmptyString | String a s' => String (small_letter a) (lowered s') end.

(** Values of keyword arguments. *)
Inductive dval := DNone | DInt (z : Z) | DNum (q : Q) | DStr (s : string) | DDict (d : list (string * dval)).
Definition dkw := list (string * dval).

(** [x or {}] for a dict argument, discrete_allocation.py:222, 323, 434: falsy values count as no options. *)
Definition dict_of (o : option dval) : res dkw :=
  match o with
  | None | Some DNone => Ok []
  | Some (DDict d) => Ok d
  | Some (DInt z) => if (z =? 0)%Z then Ok [] else Err TypeError
  | Some (DNum q) => if Qeq_bool q 0 then Ok [] else Err TypeError
  | Some (DStr s) => if String.eqb s "" then Ok [] else Err TypeError
  end.

(** Python's check of keyword names against a signature. *)
Definition accepts (names : list string) (kw : dkw) : bool :=
  forallb (fun e : string * dval => existsb (String.eqb (fst e)) names) kw.
Definition mip_names : list string := ["cash_penalty"; "max_cash"; "solver_options"]%string.
Definition greedy_names : list string := ["max_iterations"; "fallback_mode"; "fallback_kwargs"]%string.

Definition num_of (v : dval) : res Q :=
  match v with DNum q => Ok q | DInt z => Ok (inject_Z z) | _ => Err TypeError end.

(** discrete_allocation.py:333-354, 434: [allocate_mip(inputs, **kw)]; [solver] also receives the solver options. *)
Definition mip_call (solver : dkw -> milp -> option (list Q)) (kw : dkw) (inp : inputs) : res result :=
  if negb (accepts mip_names kw) then Err TypeError
  else
    let* pen := match lookup "cash_penalty" kw with None => Ok 1 | Some v => num_of v end in
    let* mc := match lookup "max_cash" kw with None | Some DNone => Ok None | Some v => let* q := num_of v in Ok (Some q) end in
    let* opts := dict_of (lookup "solver_options" kw) in
    allocate_mip (solver opts) pen mc inp.

(** discrete_allocation.py:201-224, 322-328: [allocate_greedy(inputs, **kw)].  [fallback_kwargs] is looked at only
    when the MILP allocator is called, and there inside the [try]. *)
Definition greedy_call (sort : list asset -> list asset) (solver : dkw -> milp -> option (list Q)) (kw : dkw)
  (inp : inputs) : option (res result) :=
  if negb (accepts greedy_names kw) then Some (Err TypeError)
  else
    match (match lookup "max_iterations" kw with None | Some DNone => Ok None | Some (DInt z) => Ok (Some z) | _ => Err TypeError end),
          (match lookup "fallback_mode" kw with
           | None => Ok (Some "auto"%string) | Some DNone => Ok None | Some (DStr s) => Ok (Some (lowered s)) | _ => Err TypeError end) with
    | Err e, _ => Some (Err e)
    | _, Err e => Some (Err e)
    | Ok mi, Ok fm =>
        allocate_greedy sort (fun i => let* o := dict_of (lookup "fallback_kwargs" kw) in mip_call solver o i) inp mi fm
    end.

(** discrete_allocation.py:453-488. *)
Definition discretize_call (sort : list asset -> list asset) (solver : dkw -> milp -> option (list Q))
  (weights prices : list (string * Q)) (total : Q) (method : string) (lots : option (list (string * Z))) (kw : dkw)
  : option (res result) :=
  let fl_of := map (fun kq : string * Q => (fst kq, Fin (snd kq))) in
  match make_inputs (fl_of weights) (fl_of prices) (Fin total) lots with
  | Err e => Some (Err e)
  | Ok v =>
    match finite_inputs v with
    | None => None
    | Some inp =>
        let m := lowered method in
        if existsb (String.eqb m) ["greedy"; "rounddown"]%string then greedy_call sort solver kw inp
        else if existsb (String.eqb m) ["milp"; "mip"; "integer"; "lp"]%string then Some (mip_call solver kw inp)
        else Some (Err ValueError)
    end
  end.
