(** What bootstrap projection and repricing should do. *)
From Coq Require Import ZArith String.
From Verif Require Import RBase QpBase ConsModel DistModel OptSpec DistSpec ProjModel.
Open Scope R_scope.
Open Scope list_scope.

(** The scenario weights implied by the caller's probabilities: uniform if absent. *)
Definition raw_weight (p : option nd) : vec := match p with None => fun _ => 1 | Some a => as_vec a end.

(** Row [k] is drawn by the uniform number [u] when [u] falls in its slice of [0, 1): slices are laid
    out in row order, slice [k] having length weight over total. *)
Definition draws (T : nat) (w : vec) (u : R) (k : nat) : Prop :=
  (k < T)%nat /\ sumn k w <= u * sumn T w < sumn k w + w k.

Definition uniform_draws (u : nat -> nat -> R) : Prop := forall s k, 0 <= u s k < 1.

(** [idx] is what the draws [u] select in a bootstrap of [ns] paths of [h] steps. *)
Definition bootstrap (T : nat) (w : vec) (u : nat -> nat -> R) (ns h : nat) (idx : nat -> nat -> nat) : Prop :=
  forall s t, (s < ns)%nat -> (t < h)%nat -> draws T w (u s t) (idx s t).

(** Entry [j] of row [t] of an array whose rows have [n] entries. *)
Definition entry (n : nat) (X : rnd) (t j : nat) : R := r_at X (t * n + j)%nat.

(** Expectation of [f] over the rows selected by [h] independent draws with probabilities [q]. *)
Fixpoint over_draws (T : nat) (q : vec) (h : nat) (f : list nat -> R) : R :=
  match h with
  | O => f []
  | S h' => sumn T (fun t => q t * over_draws T q h' (fun l => f (t :: l)))
  end.
(** Horizon sum of coordinate [i]. *)
Definition path_sum (X : mat) (i : nat) (l : list nat) : R := rsum (map (fun t => X t i) l).

(** Probabilities for which a projection is possible. *)
Definition drawable (T : nat) (p : option nd) : Prop :=
  match p with
  | None => True
  | Some a => nd_size a = T /\ (forall k, (k < T)%nat -> nd_at a k = Fin (as_vec a k) /\ 0 <= as_vec a k) /\
              0 < sumn T (as_vec a) /\
              (Rabs (sumn T (as_vec a) - 1) <= / 2 ^ 26 \/ 1 / 100000000 + 1 / 100000 < Rabs (sumn T (as_vec a) - 1))
  end.

(** ** Repricing by name *)
(** A table of [n] scenarios with the named columns [inv]; [f x s] is driver [x] in scenario [s]. *)
Definition table_of (inv : list string) (n : nat) (f : string -> nat -> R) : rnd :=
  mkR [n; List.length inv] (fun q => f (nth (q mod List.length inv) inv EmptyString) (q / List.length inv)%nat).
(** The drivers an instrument names. *)
Definition driver_names (s : string * spec) : list string :=
  match snd s with SFun _ => [fst s] | SPair (DOne x) _ => [x] | SPair (DMany l) _ => l | SOther => [] end.
Definition repricer (s : string * spec) : option (rnd -> res rnd) :=
  match snd s with SFun f => Some f | SPair _ o => o | SOther => None end.
(** What an instrument's repricer receives: a vector for one driver, a table for several. *)
Definition named_chunk (n : nat) (f : string -> nat -> R) (l : list string) : rnd :=
  match l with [x] => mkR [n] (f x) | _ => table_of l n f end.
(** The P&L column of an instrument: its repricer's output, one value per scenario (a single value is
    repeated). *)
Definition pnl_column (n : nat) (f : string -> nat -> R) (s : string * spec) : res (list R) :=
  match repricer s with
  | None => Err TypeError
  | Some g => let* o := g (named_chunk n f (driver_names s)) in
              if Nat.eqb (r_size o) n then Ok (r_list o)
              else if Nat.eqb (r_size o) 1 then Ok (repeat (r_at o 0) n) else Err ValueError
  end.
Definition pnl_table (n : nat) (f : string -> nat -> R) (d : list (string * spec)) : res rnd :=
  let* cols := mapM (pnl_column n f) d in
  Ok (mkR [n; List.length d] (fun q => nth (q / List.length d) (nth (q mod List.length d) cols []) 0)).
(** A usable specification: callable, with known drivers. *)
Definition spec_ok (inv : list string) (s : string * spec) : Prop :=
  repricer s <> None /\ forall x, In x (driver_names s) -> In x inv.

(** pandas guarantees: a Series is one-dimensional, a DataFrame has one column per label. *)
Definition kind_ok (kd : kind) (X : rnd) : Prop :=
  match kd with
  | KArr => True
  | KSeries => exists T, r_shape X = [T]
  | KFrame cols => exists T, r_shape X = [T; List.length cols]
  end.
(** [X] holds [T] scenarios of [n] drivers, as a vector ([n = 1]) or a matrix. *)
Definition scenarios_of (X : rnd) (T n : nat) : Prop := r_shape X = [T] /\ n = 1%nat \/ r_shape X = [T; n].
