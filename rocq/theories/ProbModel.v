(** Model of the validation logic of pyvallocation/probabilities.py.

    A Python float is a finite rational, an infinity or NaN.  Rounding is not
    modelled; the behaviour of comparisons on NaN is. *)
From Verif Require Import QBase.
Open Scope Q_scope.

Inductive fl : Set := Fin (q : Q) | PInf | NInf | NaN.

(** IEEE addition on the non-finite lattice, exact on finite values. *)
Definition fl_add (a b : fl) : fl :=
  match a, b with
  | NaN, _ | _, NaN => NaN
  | PInf, NInf | NInf, PInf => NaN
  | PInf, _ | _, PInf => PInf
  | NInf, _ | _, NInf => NInf
  | Fin x, Fin y => Fin (x + y)
  end.

(** [a < 0.0]: false on NaN. *)
Definition fl_lt0 (a : fl) : bool :=
  match a with Fin x => Qlt_bool x 0 | NInf => true | PInf => false | NaN => false end.

(** [a <= 0.0]: false on NaN. *)
Definition fl_le0 (a : fl) : bool :=
  match a with Fin x => Qle_bool x 0 | NInf => true | PInf => false | NaN => false end.

(** [np.isfinite]. *)
Definition fl_finite (a : fl) : bool := match a with Fin _ => true | _ => false end.

(** [probs.sum()]. *)
Definition fl_sum (l : list fl) : fl := fold_right fl_add (Fin 0) l.

(** [np.isclose(total, 1.0)]; NaN and infinities are never close to 1. *)
Definition fl_isclose1 (a : fl) : bool :=
  match a with Fin x => isclose x 1 | _ => false end.

(** Division of an entry by a positive finite total (the only division performed). *)
Definition fl_div (a : fl) (t : Q) : fl :=
  match a with Fin x => Fin (x / t) | o => o end.

(** probabilities.py:10-45 [normalize_probability_vector].
    The input is already flattened: line 29 applies [reshape(-1)], so the
    [ndim != 1] half of the test on line 30 can never fire. *)
Definition normalize_probability_vector (strictly_positive : bool) (probs : list fl)
  : res (list fl) :=
  if Nat.eqb (length probs) 0 then Err ValueError              (* 30-31 *)
  else if negb (forallb fl_finite probs) then Err ValueError    (* 32-33 *)
  else if (if strictly_positive then existsb fl_le0 probs       (* 34-36 *)
           else existsb fl_lt0 probs) then Err ValueError       (* 37-39 *)
  else match fl_sum probs with                                  (* 41 *)
       | Fin total =>
           if Qle_bool total 0 then Err ValueError              (* 41-42 *)
           else if negb (fl_isclose1 (Fin total))               (* 44 *)
                then Ok (map (fun x => fl_div x total) probs)    (* 45 *)
                else Ok probs                                   (* 46 *)
       | _ => Err ValueError                                    (* 42: not finite *)
       end.

(** probabilities.py:78-93 [generate_uniform_probabilities]. *)
Definition generate_uniform_probabilities (n : Z) : res (list fl) :=
  if (n <=? 0)%Z then Err ValueError
  else Ok (repeat (Fin (1 / inject_Z n)) (Z.to_nat n)).

(** probabilities.py:48-75 [resolve_probabilities]. *)
Definition resolve_probabilities (probabilities : option (list fl)) (n_observations : Z)
  (strictly_positive : bool) : res (list fl) :=
  match probabilities with
  | None => generate_uniform_probabilities n_observations
  | Some pv =>
      let* probs := normalize_probability_vector strictly_positive pv in
      if negb (Z.of_nat (length probs) =? n_observations)%Z then Err ValueError
      else Ok probs
  end.
