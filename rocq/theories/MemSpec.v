(** What callers may rely on when they go on using the arrays they passed. *)
From Coq Require Import ZArith String.
From Verif Require Import RBase QpBase ConsModel ConsSpec DistModel DistSpec FrModel WrModel WrSpec MemModel.
Open Scope R_scope.
Open Scope list_scope.

(** The array lives at address [l]. *)
Definition at_address (l : nat) (x : arr) : Prop := x = Shared l.
Definition holds_at (l : nat) (o : option arr) : Prop := exists x, o = Some x /\ at_address l x.
(** Arrays whose contents still matter after construction: mean, covariance and scenarios given by the caller,
    initial weights and cost vectors -- but not the probabilities. *)
Definition cost_array (k : option costs_ref) (l : nat) : Prop :=
  exists c, k = Some c /\ (at_address l (kr_iw c) \/ holds_at l (kr_mic c) \/ holds_at l (kr_pc c)).
Definition watched (i : in_ref) (k : option costs_ref) (l : nat) : Prop :=
  holds_at l (option_map snd (r_mu i)) \/ holds_at l (option_map snd (r_cov i)) \/ holds_at l (option_map snd (r_scen i)) \/ cost_array k l.
Definition asked_with (q : request) : option costs_ref :=
  match q with
  | MinVariance _ _ k | MinCvar _ _ _ _ k | RobustGamma _ _ _ k | RelaxedParity _ _ _ _ _ k | VarianceFrontier _ _ k
  | CvarFrontier _ _ _ _ _ _ _ k | RobustFrontier _ _ _ _ _ k | ParityFrontier _ _ _ _ _ _ _ k => k
  end.
Definition asked_under (q : request) : cons_arg :=
  match q with
  | MinVariance _ a _ | MinCvar _ _ _ a _ | RobustGamma _ _ a _ | RelaxedParity _ _ _ _ a _ | VarianceFrontier _ a _
  | CvarFrontier _ _ _ _ _ _ a _ | RobustFrontier _ _ _ _ a _ | ParityFrontier _ _ _ _ _ _ a _ => a
  end.

(** The contents an array argument has in [s]. *)
Definition contents {L} (s : store) (o : option (L * arr)) : option nd := option_map (fun p => fetch s (snd p)) o.
(** All numbers of an array are finite. *)
Definition finite_array (a : nd) : Prop := has_shape a (nd_shape a).
Definition finite_inputs (s : store) (i : in_ref) : Prop :=
  (forall a, contents s (r_mu i) = Some a -> finite_array a) /\ (forall a, contents s (r_cov i) = Some a -> finite_array a) /\
  (forall a, contents s (r_scen i) = Some a -> finite_array a).

(** Explicit arguments for a new distribution: what the caller gave as it is in [s]; for the rest what [d0], the distribution
    at construction, had. *)
Definition or_else (now first : option nd) : option nd := match now with Some a => Some a | None => first end.
Definition renewed (s : store) (i : in_ref) (d0 : dist) : dist_in :=
  let unlabelled {L} (o : option nd) : option (option L * nd) := option_map (fun a => (None, a)) o in
  mkIn (unlabelled (or_else (contents s (r_mu i)) (d_mu d0))) (unlabelled (or_else (contents s (r_cov i)) (d_cov d0)))
    (unlabelled (contents s (r_scen i))) (d_probs d0) (d_names d0).

(** Every portfolio of an answer satisfies the constraints [c] on [n] assets. *)
Definition answer_allowed (c : constraints) (n : nat) (a : answer) : Prop :=
  match a with
  | APortfolio p => List.length (p_weights p) = n /\ satisfies c n (p_weights p)
  | AFrontier f => forall col, In col (f_cols f) -> List.length col = n /\ satisfies c n col
  end.
(** The questions of a session, in order. *)
Definition questions (h : list event) : list request := flat_map (fun e => match e with Ask q => [q] | Put _ _ _ => [] end) h.
(** No write of the session goes to an address in [P]. *)
Definition leaves_alone (P : nat -> Prop) (h : list event) : Prop := forall l k x, In (Put l k x) h -> ~ P l.
(** The store after the writes of a session. *)
Fixpoint after (s : store) (h : list event) : store :=
  match h with [] => s | Put l k x :: t => after (write s l k x) t | Ask _ :: t => after s t end.
(** The inputs hold finite numbers whenever a question is asked. *)
Definition finite_when_asked (s : store) (i : in_ref) (h : list event) : Prop :=
  forall h1 q h2, h = h1 ++ Ask q :: h2 -> finite_inputs (after s h1) i.
