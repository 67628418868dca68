(** What a price table is and what its returns are. *)
From Verif Require Import RBase ConsModel DataModel.
Open Scope R_scope.
Open Scope list_scope.

(** A cell that may be missing. *)
Definition cell_of (o : option R) : pyf := match o with Some x => Fin x | None => NaN end.

(** The frame has [T] rows and distinct labels; its columns [names] hold the prices [p t j], each a
    positive number or missing. *)
Definition holds_prices (f : frame) (names : list string) (T : nat) (p : nat -> nat -> option R) : Prop :=
  fr_rows f = T /\ NoDup (map col_name (fr_cols f)) /\ names <> [] /\
  (forall j n, nth_error names j = Some n ->
     exists c, In c (fr_cols f) /\ col_name c = n /\ col_numeric c = true /\
       col_cells c = map (fun t => cell_of (p t j)) (seq 0 T)) /\
  (forall t j x, p t j = Some x -> 0 < x).

(** The date column named, if any, is the index or a column of dates that is not itself requested. *)
Definition date_usable (date : option string) (f : frame) (names : list string) : Prop :=
  match date with
  | None => True
  | Some d => d = ""%string \/ fr_index f = Some d \/
      (~ In d names /\ exists c, In c (fr_cols f) /\ col_name c = d /\ col_parses c = true)
  end.

Inductive calc_kind := Log | Simple.
Inductive fill_kind := Ffill | Bfill | Zero | Drop.
Definition calc_name (k : calc_kind) : string := match k with Log => "log" | Simple => "simple" end.
Definition fill_name (k : fill_kind) : string :=
  match k with Ffill => "ffill" | Bfill => "bfill" | Zero => "zero" | Drop => "drop" end.

(** The return over one period, when both prices are known. *)
Definition growth (k : calc_kind) (before now : R) : R :=
  match k with Log => ln (now / before) | Simple => now / before - 1 end.
Definition period_return (k : calc_kind) (p : nat -> nat -> option R) (t j : nat) : option R :=
  match p t j, p (S t) j with Some a, Some b => Some (growth k a b) | _, _ => None end.

(** [v] is the latest known value up to [t], or 0 when there is none. *)
Definition latest (r : nat -> option R) (t : nat) (v : R) : Prop :=
  (exists s, (s <= t)%nat /\ r s = Some v /\ forall u, (s < u <= t)%nat -> r u = None) \/
  ((forall u, (u <= t)%nat -> r u = None) /\ v = 0).
(** [v] is the next known value from [t] on (before [n]), or 0 when there is none. *)
Definition upcoming (r : nat -> option R) (n t : nat) (v : R) : Prop :=
  (exists s, (t <= s < n)%nat /\ r s = Some v /\ forall u, (t <= u < s)%nat -> r u = None) \/
  ((forall u, (t <= u < n)%nat -> r u = None) /\ v = 0).

(** A matrix of real numbers. *)
Definition matrix_is (M : list (list pyf)) (rows cols : nat) (g : nat -> nat -> R) : Prop :=
  List.length M = rows /\
  forall t, (t < rows)%nat -> nth t M [] = map (fun j => Fin (g t j)) (seq 0 cols).

(** The periods at which every return is known, in order. *)
Definition complete_periods (r : nat -> nat -> option R) (T N : nat) : list nat :=
  filter (fun t => forallb (fun j => match r t j with Some _ => true | None => false end) (seq 0 N)) (seq 0 (T - 1)).

(** What the array holds under each way of handling gaps; [r] are the period returns. *)
Definition filled (k : fill_kind) (r : nat -> nat -> option R) (T N : nat) (M : list (list pyf)) : Prop :=
  match k with
  | Zero => matrix_is M (T - 1) N (fun t j => match r t j with Some x => x | None => 0 end)
  | Ffill => exists g, matrix_is M (T - 1) N g /\
      forall t j, (t < T - 1)%nat -> (j < N)%nat -> latest (fun s => r s j) t (g t j)
  | Bfill => exists g, matrix_is M (T - 1) N g /\
      forall t j, (t < T - 1)%nat -> (j < N)%nat -> upcoming (fun s => r s j) (T - 1) t (g t j)
  | Drop => exists g, matrix_is M (List.length (complete_periods r T N)) N g /\
      forall i j, (i < List.length (complete_periods r T N))%nat -> (j < N)%nat ->
        r (nth i (complete_periods r T N) 0%nat) j = Some (g i j)
  end.

(** A request the function can serve. *)
Definition serves_date (date : option string) (f : frame) : Prop :=
  match date with
  | None => True
  | Some d => d = ""%string \/ fr_index f = Some d \/ exists c, cols_named d (fr_cols f) = [c] /\ col_parses c = true
  end.
(** The column that becomes the index, and the columns left. *)
Definition moved (date : option string) (f : frame) (c : column) : bool :=
  match date with
  | None => false
  | Some d => negb (String.eqb d "") &&
      negb (match fr_index f with Some i => String.eqb i d | None => false end) && String.eqb (col_name c) d
  end.
Definition left_columns (date : option string) (f : frame) : list column :=
  filter (fun c => negb (moved date f c)) (fr_cols f).
Definition servable (f : frame) (wanted : option (list string)) (date : option string) (method fill : string) : Prop :=
  serves_date date f /\
  match wanted with
  | None | Some [] => fr_rows f <> 0%nat /\ exists c, In c (left_columns date f) /\ col_numeric c = true
  | Some names => forall n, In n names ->
      (exists c, In c (left_columns date f) /\ col_name c = n) /\
      forall c, In c (left_columns date f) -> col_name c = n -> col_numeric c = true
  end /\
  (exists k, method = calc_name k) /\ (exists k, fill = fill_name k).
