(** What the user asked for, constraint by constraint, and what matrices mean. *)
From Verif Require Import RBase ConsModel.
Open Scope R_scope.

(** Weight of asset [i]. *)
Definition wt (w : list R) (i : nat) : R := nth i w 0.

(** Finite value of a numeric argument. *)
Definition fin_le (a : option pynum) (x : R) : Prop :=       (* lower bound [a], if given *)
  match a with Some (Num (Fin l)) => l <= x | _ => True end.
Definition fin_ge (a : option pynum) (x : R) : Prop :=       (* upper bound [a], if given *)
  match a with Some (Num (Fin u)) => x <= u | _ => True end.

Definition bound_ok (lu : list (option pynum)) (x : R) : Prop :=
  match lu with [lo; hi] => fin_le lo x /\ fin_ge hi x | _ => True end.

Definition bounds_hold (n : nat) (b : option bounds_like) (w : list R) : Prop :=
  match b with
  | None => True
  | Some (BTuple t) => forall i, (i < n)%nat -> bound_ok t (wt w i)
  | Some (BDict d) => forall i lu, In (i, lu) d -> bound_ok lu (wt w (Z.to_nat i))
  | Some (BSeq s) => forall i, (i < n)%nat -> bound_ok (nth i s []) (wt w i)
  end.

Definition rel_hold (e : rel_entry) (w : list R) : Prop :=
  match e with
  | RelTriple i j (Num (Fin k)) => wt w (Z.to_nat i) - wt w (Z.to_nat j) <= k
  | _ => True
  end.

(** Total weight of the assets listed in the group (each counted once). *)
Definition group_weight (n : nat) (idx : list Z) (w : list R) : R :=
  sumn n (fun i => if existsb (Z.eqb (Z.of_nat i)) idx then wt w i else 0).

Definition group_hold (n : nat) (e : string * (list Z * pynum * pynum)) (w : list R) : Prop :=
  match e with
  | (_, (idx, Num (Fin lo), Num (Fin hi))) => lo <= group_weight n idx w <= hi
  | _ => True
  end.

(** A row with a non-finite entry is satisfied by nothing. *)
Definition row_rel (R_ : R -> R -> Prop) (row : list pyf) (rhs : R) (w : list R) : Prop :=
  exists r, row = map Fin r /\ R_ (rdot r w) rhs.

Definition extra_hold (R_ : R -> R -> Prop) (e : list pyf * pynum) (w : list R) : Prop :=
  match snd e with Num (Fin rhs) => row_rel R_ (fst e) rhs w | _ => True end.

Definition total_hold (t : option pynum) (w : list R) : Prop :=
  match t with Some (Num (Fin t)) => rsum w = t | _ => True end.

(** The user's constraints on the weights [w] of [n] assets. *)
Definition satisfies (c : constraints) (n : nat) (w : list R) : Prop :=
  (c_long_only c = true -> forall i, (i < n)%nat -> 0 <= wt w i) /\
  bounds_hold n (c_bounds c) w /\
  (forall e, In e (opt_list (c_relative c)) -> rel_hold e w) /\
  (forall e, In e (opt_list (c_groups c)) -> group_hold n e w) /\
  (forall e, In e (opt_list (c_extra_G c)) -> extra_hold Rle e w) /\
  total_hold (c_total c) w /\
  (forall e, In e (opt_list (c_extra_A c)) -> extra_hold eq e w).

(** [G w <= h] / [A w = b] with absent blocks imposing nothing. *)
Definition block_holds (R_ : R -> R -> Prop) (M : option (list (list pyf))) (v : option (list R)) (w : list R) : Prop :=
  match M, v with
  | None, None => True
  | Some M, Some v => Forall2 (fun row rhs => row_rel R_ row rhs w) M v
  | _, _ => False
  end.

Definition feasible (m : matrices) (w : list R) : Prop :=
  block_holds Rle (m_G m) (m_h m) w /\ block_holds eq (m_A m) (m_b m) w.

(** Shapes: absent together, otherwise the same number (at least one) of rows, each of length [n]. *)
Definition shaped (n : nat) (M : option (list (list pyf))) (v : option (list R)) : Prop :=
  match M, v with
  | None, None => True
  | Some M, Some v => M <> [] /\ List.length M = List.length v /\ forall row, In row M -> List.length row = n
  | _, _ => False
  end.

(** Well-formed specifications. *)
Definition finite_num (x : pynum) : Prop := exists r, x = Num (Fin r).
Definition good_pair (lu : list (option pynum)) : Prop :=
  exists lo hi, lu = [lo; hi] /\
    (forall x, lo = Some x -> finite_num x) /\ (forall x, hi = Some x -> finite_num x) /\
    (forall l u, lo = Some (Num (Fin l)) -> hi = Some (Num (Fin u)) -> l <= u).
Definition good_index (n : nat) (i : Z) : Prop := (0 <= i < Z.of_nat n)%Z.

Definition good_bounds (n : nat) (b : option bounds_like) : Prop :=
  match b with
  | None => True
  | Some (BTuple t) => good_pair t
  | Some (BDict d) => forall i lu, In (i, lu) d -> good_index n i /\ good_pair lu
  | Some (BSeq s) => List.length s = n /\ forall lu, In lu s -> good_pair lu
  end.

Definition good_rel (n : nat) (e : rel_entry) : Prop :=
  match e with
  | RelTriple i j k => good_index n i /\ good_index n j /\ i <> j /\ finite_num k
  | RelOther => False
  end.

Definition good_group (n : nat) (e : string * (list Z * pynum * pynum)) : Prop :=
  let '(_, (idx, lo, hi)) := e in
  (forall i, In i idx -> good_index n i) /\
  exists l h, lo = Num (Fin l) /\ hi = Num (Fin h) /\ l <= h.

Definition good_extra (n : nat) (e : list pyf * pynum) : Prop :=
  List.length (fst e) = n /\ finite_num (snd e).

Definition well_formed (c : constraints) (n : Z) : Prop :=
  (0 < n)%Z /\
  (forall x, c_total c = Some x -> finite_num x) /\
  good_bounds (Z.to_nat n) (c_bounds c) /\
  (forall e, In e (opt_list (c_relative c)) -> good_rel (Z.to_nat n) e) /\
  (forall e, In e (opt_list (c_groups c)) -> good_group (Z.to_nat n) e) /\
  (forall e, In e (opt_list (c_extra_G c)) -> good_extra (Z.to_nat n) e) /\
  (forall e, In e (opt_list (c_extra_A c)) -> good_extra (Z.to_nat n) e).
