(** What blending must do. *)
From Verif Require Import RBase QpBase ConsModel EnsModel.
Open Scope R_scope.
Open Scope list_scope.

(** Weights of a convex combination of [n] samples. *)
Definition convex_weights (n : nat) (w : list R) : Prop :=
  List.length w = n /\ rsum w = 1 /\ forall x, In x w -> 0 <= x.

(** [v] is the combination of the columns with weights [w], asset by asset. *)
Definition is_combination (cols : list vec) (w : list R) (v : vec) : Prop :=
  forall i, v i = sumn (List.length cols) (fun j => nth j w 0 * nth j cols (fun _ => 0) i).

(** A linear constraint on portfolios of [N] assets. *)
Definition holds_le (N : nat) (g : vec) (h : R) (v : vec) : Prop := dot N g v <= h.

(** Values supplied for the samples: by position, by label, or uniform. *)
Definition value_of (x : pyf) : R := match x with Fin r => r | _ => 0 end.
Definition supplied (w : warg) (num : nat) (names : option (list string)) (j : nat) : R :=
  match w with
  | WNone => 1
  | WSeq l => value_of (nth j l NaN)
  | WSeries l => match names with
                 | None => value_of (nth j (map snd l) NaN)
                 | Some ks => match assoc (nth j ks EmptyString) l with Some x => value_of x | None => 0 end
                 end
  end.

(** When labelled weights meet labelled samples there is one label per sample. *)
Definition labels_fit (w : warg) (num : nat) (names : option (list string)) : Prop :=
  forall l ks, w = WSeries l -> names = Some ks -> List.length ks = num.

(** Cross-validated residual of weights [w] (Vorobets): for every fold, how far the combination of
    the samples outside the fold is from the fold's average. *)
Definition outside (cols : list vec) (fold : list nat) (w : vec) : vec := fun t =>
  sumn (List.length cols) (fun j => if in_dec Nat.eq_dec j fold then 0 else w j * nth j cols (fun _ => 0) t).
Definition fold_mean (cols : list vec) (fold : list nat) : vec := fun t =>
  rsum (map (fun j => nth j cols (fun _ => 0) t) fold) / INR (List.length fold).
Definition cv_residual (N : nat) (cols : list vec) (folds : list (list nat)) (w : vec) : R :=
  rsum (map (fun f => sumn N (fun t => (outside cols f w t - fold_mean cols f t) ^ 2)) folds).

(** A frontier's contribution: the chosen column, or the first one of minimal risk. *)
Definition min_risk_index (f : frontier) (k : nat) : Prop :=
  (k < List.length (f_risks f))%nat /\
  (forall i, (i < List.length (f_risks f))%nat -> nth k (f_risks f) 0 <= nth i (f_risks f) 0) /\
  (forall i, (i < k)%nat -> nth k (f_risks f) 0 < nth i (f_risks f) 0).

Definition contributes (e : entry) (sel : option (list Z)) (cols : list vec) : Prop :=
  match e with
  | EPanel p => cols = pn_cols p /\ cols <> []
  | EFrontier f =>
      exists k, (k < List.length (f_cols f))%nat /\ cols = [nth k (f_cols f) (fun _ => 0)] /\
        match sel with
        | None => min_risk_index f k
        | Some s => exists z, s = [z] /\ (z = Z.of_nat k \/ z = (Z.of_nat k - Z.of_nat (List.length (f_cols f)))%Z)
        end
  end.

Definition entry_labels (e : entry) : option (list string) :=
  match e with EFrontier f => f_assets f | EPanel p => pn_assets p end.
Definition entry_dim (e : entry) : nat :=
  match e with EFrontier f => f_n f | EPanel p => pn_n p end.

(** Properly nested uses of the context: every entered context is left, innermost first, also when the
    enclosed code raises ([with] always runs the exit part); inside, options may be assigned. *)
Inductive inside_context : list event -> Prop :=
| ic_nil : inside_context []
| ic_assign o es : inside_context es -> inside_context (Assign o :: es)
| ic_nest t ov es es' : inside_context es -> inside_context es' -> inside_context (Enter t ov :: es ++ Leave t :: es').
Inductive nested_uses : list event -> Prop :=
| nu_nil : nested_uses []
| nu_use t ov es es' : inside_context es -> nested_uses es' -> nested_uses (Enter t ov :: es ++ Leave t :: es').
