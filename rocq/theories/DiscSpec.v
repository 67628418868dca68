(** What a discrete allocation must satisfy. *)
From Verif Require Import QBase ProbModel DiscModel.
Open Scope Q_scope.

(** Inputs as validation delivers them (finite, long or short). *)
Definition good_inputs (inp : inputs) : Prop :=
  0 < in_total inp /\ in_assets inp <> [] /\ NoDup (map a_name (in_assets inp)) /\
  qsum (map a_w (in_assets inp)) == 1 /\
  (forall a, In a (in_assets inp) -> 0 < a_price a /\ (0 < a_lot a)%Z) /\
  (in_shorts inp = true <-> exists a, In a (in_assets inp) /\ a_w a < 0).

(** Money value of an allocation that holds [h a] shares of asset [a]. *)
Definition cost (inp : inputs) (h : asset -> Z) : Q :=
  qsum (map (fun a => inject_Z (h a) * a_price a) (in_assets inp)).

(** L1 distance between target weights and achieved weights. *)
Definition tracking (inp : inputs) (h : asset -> Z) : Q :=
  qsum (map (fun a => Qabs (a_w a - inject_Z (h a) * a_price a / in_total inp)) (in_assets inp)).

(** Holdings reported by a result. *)
Definition held (r : result) (a : asset) : Z := share_of (r_shares r) (a_name a).

(** Whole lots. *)
Definition whole_lots (inp : inputs) (h : asset -> Z) : Prop :=
  forall a, In a (in_assets inp) -> exists k, h a = (k * a_lot a)%Z.

Definition long_only (inp : inputs) (h : asset -> Z) : Prop :=
  forall a, In a (in_assets inp) -> (0 <= h a)%Z.

(** [sort_values(ascending=False)]: some descending reordering. *)
Definition sorts_desc (sort : list asset -> list asset) : Prop :=
  forall l, Permutation (sort l) l /\ StronglySorted (fun a b => a_w b <= a_w a) (sort l).

(** Feasible points of a mixed-integer programme (with integral lots)... *)
Definition milp_feasible (P : milp) (x : list Q) : Prop :=
  List.length x = List.length (p_c P) /\
  (forall i, (i < List.length x)%nat -> nth i (p_lb P) 0 <= nth i x 0 <= nth i (p_ub P) 0) /\
  (forall i, (i < p_nint P)%nat -> exists z, nth i x 0 == inject_Z z) /\
  qdot (fst (p_eq P)) x == snd (p_eq P) /\
  (forall row rhs, In (row, rhs) (p_le P) -> qdot row x <= rhs).

(** ... and optimal ones. *)
Definition milp_optimum (P : milp) (x : list Q) : Prop :=
  milp_feasible P x /\ forall y, milp_feasible P y -> qdot (p_c P) x <= qdot (p_c P) y.

(** The least one can ask of a solver: answers have one entry per variable. *)
Definition solver_shape (solver : milp -> option (list Q)) : Prop :=
  forall P x, solver P = Some x -> List.length x = List.length (p_c P).

(** ** Seen from the call *)
(** Price of a label in the price table. *)
Definition price_in (prices : list (string * Q)) (k : string) : Q :=
  match lookup k prices with Some p => p | None => 0 end.

(** What the reported shares cost. *)
Definition spent (prices : list (string * Q)) (r : result) : Q :=
  qsum (map (fun ks => inject_Z (snd ks) * price_in prices (fst ks)) (r_shares r)).

(** Lot size of a label: the one given, else one. *)
Definition lot_in (lots : option (list (string * Z))) (k : string) : Z :=
  match lots with
  | None => 1%Z
  | Some l => match lookup k l with Some z => z | None => 1%Z end
  end.

(** Reported shares are distinct held labels in whole lots, no zero positions. *)
Definition proper_shares (weights : list (string * Q)) (lots : option (list (string * Z))) (r : result) : Prop :=
  NoDup (map fst (r_shares r)) /\
  forall k s, In (k, s) (r_shares r) ->
    (exists w, In (k, w) weights /\ ~ isclose w 0 = true) /\ s <> 0%Z /\ exists m, s = (m * lot_in lots k)%Z.

(** Leftover cash is what was not spent, and never negative. *)
Definition leftover_ok (prices : list (string * Q)) (total : Q) (r : result) : Prop :=
  0 <= r_leftover r /\
  (r_leftover r == total - spent prices r \/
   (r_leftover r = 0 /\ total < spent prices r < total + (1 # 100000000))).

(** Shares reported for a label (zero when absent). *)
Definition shares_of (r : result) (k : string) : Z := share_of (r_shares r) k.

(** Weights that are not negligible ([np.isclose(w, 0)]). *)
Definition kept (weights : list (string * Q)) : list (string * Q) :=
  filter (fun kw => negb (isclose (snd kw) 0)) weights.

(** Finite tables as floats. *)
Definition fin : list (string * Q) -> list (string * fl) := map (fun kq : string * Q => (fst kq, Fin (snd kq))).
