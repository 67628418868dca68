(** What a user means by a probability vector; independent of the model's helpers. *)
From Verif Require Import QBase ProbModel.
Open Scope Q_scope.

(** An acceptable raw vector: at least one entry, every entry a genuine number,
    none negative (or none non-positive, on request), not all zero. *)
Definition acceptable (strict : bool) (raw : list fl) (qs : list Q) : Prop :=
  raw = map Fin qs /\ qs <> [] /\
  (forall x, In x qs -> if strict then 0 < x else 0 <= x) /\
  (exists x, In x qs /\ 0 < x).

(** [ps] is [qs] up to one positive factor. *)
Definition rescaled (qs ps : list Q) (k : Q) : Prop :=
  0 < k /\ Forall2 (fun q p => p == k * q) qs ps.

(** The isclose band around one: atol + rtol. *)
Definition band : Q := (1 # 100000000) + (1 # 100000).
