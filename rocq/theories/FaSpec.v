(** What a share allocation costs, in exact arithmetic. *)
From Flocq Require Import Core.
From Verif Require Import RBase FpLib FaModel.
Open Scope R_scope.

(** Exact cost of the positions, and its gross value when some are short. *)
Definition exact_cost (ps : list fpos) : R := rsum (map (fun p => IZR (fp_shares p) * fa_price (fp_asset p)) ps).
Definition gross_value (ps : list fpos) : R := rsum (map (fun p => Rabs (IZR (fp_shares p) * fa_price (fp_asset p))) ps).

(** Share counts exactly representable as floats. *)
Definition moderate (ps : list fpos) : Prop := forall p, In p ps -> (Z.abs (fp_shares p) <= 2 ^ 53)%Z.

(** Rounding error of a sum of [n] products of gross value [G]. *)
Definition sum_error (n : nat) (G : R) : R := gam n * G + INR n * eta * (1 + gam n).

(** An ordinary long-only problem: positive weights, ordinary prices, lots of at least one share, and fewer than 2^51 shares affordable. *)
Definition ordinary (V : R) (l : list fasset) : Prop :=
  0 < V /\ isf V /\
  forall a, In a l -> 0 <= fa_w a /\ isf (fa_price a) /\ bpow radix2 (-900) <= fa_price a /\ (1 <= fa_lot a <= 2 ^ 51)%Z /\ V <= bpow radix2 51 * fa_price a.

(** Number of roundings that can accumulate for [n] assets and at most [mi] top-up purchases. *)
Definition crash_slack (n : nat) (mi : Z) : R := 8 * INR n + 2 * IZR (Z.max mi 0) + 24.

(** Weights as the validated input stores them: non-negative numbers divided by their computed sum. *)
Definition normalised (npsum : list R -> R) (ws : list R) : Prop :=
  exists raw, (forall x, In x raw -> 0 <= x /\ isf x) /\ 0 < npsum raw /\ Permutation ws (map (fun x => fdiv x (npsum raw)) raw).

(** Weight of a position, and the tracking error [sum |target - achieved|], in exact arithmetic. *)
Definition exact_weight (V : R) (p : fpos) : R := IZR (fp_shares p) * fa_price (fp_asset p) / V.
Definition exact_tracking (V : R) (ps : list fpos) : R := rsum (map (fun p => Rabs (fa_w (fp_asset p) - exact_weight V p)) ps).
(** Rounding error of the reported tracking error: [n] positions, exact value [T], gross exposure [g] (as a share of the budget). *)
Definition term_error (n : nat) (T g : R) : R := ur * T + 2 * (3 * ur * g + 3 * INR n * eta).
Definition tracking_error (n : nat) (T g : R) : R := term_error n T g + gam n * (T + term_error n T g).
