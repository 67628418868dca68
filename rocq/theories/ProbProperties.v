(** C01, C02: probability validation and normalisation. *)
From Verif Require Import QBase ProbModel ProbSpec ProbProofs.
Open Scope Q_scope.

(** C01.  [normalize_probability_vector] succeeds exactly on acceptable vectors
    (non-empty, only finite numbers, no negative entry / no non-positive entry when
    [strictly_positive], some positive mass); the result has the same length, is
    non-negative and is the input times one positive factor.  Everything else
    (NaN, infinities, empty, negative, all-zero) raises ValueError. *)
Theorem normalize_accepts_exactly_probability_vectors : forall strict raw,
  (exists qs ps k, acceptable strict raw qs /\
     normalize_probability_vector strict raw = Ok (map Fin ps) /\
     rescaled qs ps k /\ length ps = length qs /\ (forall p, In p ps -> 0 <= p)) \/
  ((forall qs, ~ acceptable strict raw qs) /\
     normalize_probability_vector strict raw = Err ValueError).
Proof. exact normalize_correct_l. Qed.
Print Assumptions normalize_accepts_exactly_probability_vectors.

Example normalize_accepts_nonvacuous :
  acceptable false [Fin 2; Fin 0; Fin 6] [2; 0; 6] /\
  normalize_probability_vector false [Fin 2; Fin 0; Fin 6] = Ok [Fin (2 / 8); Fin (0 / 8); Fin (6 / 8)] /\
  normalize_probability_vector true [Fin 2; Fin 0; Fin 6] = Err ValueError /\
  normalize_probability_vector false [Fin 2; NaN] = Err ValueError.
Proof.
  split.
  - split; [reflexivity|]. split; [discriminate|]. split.
    + simpl. intros x [<-|[<-|[<-|[]]]]; lra.
    + exists 2. simpl. split; [auto|lra].
  - repeat split.
Qed.

(** C01 for [resolve_probabilities]: the same decision plus the length check;
    [None] means the uniform vector. *)
Theorem resolve_is_normalize_plus_length : forall pv n strict,
  resolve_probabilities pv n strict =
  match pv with
  | None => generate_uniform_probabilities n
  | Some raw => match normalize_probability_vector strict raw with
                | Err e => Err e
                | Ok ps => if (Z.of_nat (length raw) =? n)%Z then Ok ps else Err ValueError
                end
  end.
Proof. exact resolve_l. Qed.
Print Assumptions resolve_is_normalize_plus_length.

(** Whatever [resolve_probabilities] returns is a vector of exactly [n >= 1]
    non-negative numbers whose total is one up to numpy's isclose tolerance. *)
Theorem resolve_returns_distribution : forall pv n strict out,
  resolve_probabilities pv n strict = Ok out ->
  exists ps, out = map Fin ps /\ Z.of_nat (length ps) = n /\ (0 < n)%Z /\
    (forall p, In p ps -> 0 <= p) /\ Qabs (qsum ps - 1) <= band.
Proof. exact resolve_ok_l. Qed.
Print Assumptions resolve_returns_distribution.

Example resolve_nonvacuous :
  resolve_probabilities (Some [Fin 1; Fin 3]) 2 true = Ok [Fin (1 / 4); Fin (3 / 4)] /\
  resolve_probabilities (Some [Fin 1; Fin 3]) 3 true = Err ValueError /\
  resolve_probabilities None 2 false = Ok [Fin (1 / 2); Fin (1 / 2)].
Proof. repeat split. Qed.

(** C02.  Totals outside the tolerance band are rescaled to sum to exactly one;
    totals inside it are returned unchanged; the sum is always within the band. *)
Theorem normalize_sums_to_one_up_to_isclose : forall strict raw qs ps,
  acceptable strict raw qs -> normalize_probability_vector strict raw = Ok (map Fin ps) ->
  (band < Qabs (qsum qs - 1) -> qsum ps == 1) /\
  (Qabs (qsum qs - 1) <= band -> ps = qs) /\
  Qabs (qsum ps - 1) <= band.
Proof. exact normalize_sum_l. Qed.
Print Assumptions normalize_sums_to_one_up_to_isclose.

Example normalize_sums_nonvacuous :
  normalize_probability_vector true [Fin 1; Fin 4] = Ok (map Fin [1 / 5; 4 / 5]) /\
  band < Qabs (qsum [1; 4] - 1) /\
  Qabs (qsum [1 # 2; 500001 # 1000000] - 1) <= band.
Proof. repeat split; vm_compute; try reflexivity; discriminate. Qed.

(** C02, the docstring's "summing to one" taken literally is false. *)
Theorem normalize_sums_to_exactly_one_refuted : exists raw ps,
  normalize_probability_vector false raw = Ok (map Fin ps) /\ ~ qsum ps == 1.
Proof. exact sum_to_one_refuted_l. Qed.
Print Assumptions normalize_sums_to_exactly_one_refuted.

(** C03 (uniform part). *)
Theorem uniform_probabilities_correct : forall n,
  match generate_uniform_probabilities n with
  | Ok out => (0 < n)%Z /\ exists ps, out = map Fin ps /\ Z.of_nat (length ps) = n /\
      qsum ps == 1 /\ (forall p, In p ps -> p == 1 / inject_Z n /\ 0 < p)
  | Err e => (n <= 0)%Z /\ e = ValueError
  end.
Proof. exact uniform_l. Qed.
Print Assumptions uniform_probabilities_correct.

Example uniform_nonvacuous : is_ok (generate_uniform_probabilities 3) = true /\
  generate_uniform_probabilities (-1) = Err ValueError.
Proof. split; reflexivity. Qed.
