(** Model of bootstrap projection and repricing: pyvallocation/utils/projection.py:163-500 and
    [PortfolioWrapper.from_invariants] (portfolioapi.py:1022-1112).

    Arrays hold finite reals in row-major order ([rnd]); probabilities may hold NaN and infinities
    ([nd]).  The random generator is modelled by the uniform draws [u s k] in [0, 1) it produces for
    path [s], step [k]: a fixed function of the seed and the requested size. *)
From Coq Require Import ZArith String.
From Verif Require Import RBase QpBase ConsModel DistModel.
Open Scope R_scope.
Open Scope list_scope.

Record rnd := mkR { r_shape : list nat; r_at : nat -> R }.
Definition r_size (a : rnd) : nat := fold_right Nat.mul 1%nat (r_shape a).
Definition r_list (a : rnd) : list R := map (r_at a) (seq 0 (r_size a)).      (* .ravel() *)

(** ** numpy.random.Generator.choice with replacement and probabilities. *)
Definition cdf (T : nat) (p : vec) (k : nat) : R := sumn (S k) p / sumn T p.   (* cumsum / last *)
(** [cdf.searchsorted(u, side="right")]: entries at most [u] (the cdf is non-decreasing). *)
Definition choice_index (T : nat) (p : vec) (u : R) : nat :=
  List.length (filter (fun k => Rleb (cdf T p k) u) (seq 0 T)).
Definition choice_tol : R := / 2 ^ 26.                                          (* sqrt(eps) *)
Definition rng_choice (T np : nat) (p : vec) (u : nat -> nat -> R) : res (nat -> nat -> nat) :=
  if Nat.eqb T 0 then Err ValueError
  else if negb (Nat.eqb np T) then Err ValueError
  else if existsb (fun k => Rltb (p k) 0) (seq 0 T) then Err ValueError
  else if Rltb choice_tol (Rabs (sumn T p - 1)) then Err ValueError
  else Ok (fun s k => choice_index T p (u s k)).

(** The caller's container. *)
Inductive kind := KArr | KSeries | KFrame (cols : list string).
(** The horizon argument; floats are truncated by [int()] (projection.py:210-212; infinite floats not modelled). *)
Inductive hor := HInt (z : Z) | HFloat (x : R).
Definition trunc (x : R) : Z := if Rleb 0 x then Int_part x else (- Int_part (- x))%Z.
Definition hor_int (h : hor) : Z := match h with HInt z => z | HFloat x => trunc x end.

(** projection.py:227-239: sampling weights. *)
Definition proj_weights (T : nat) (p : option nd) : res vec :=
  match p with
  | None => if Nat.eqb T 0 then Err ZeroDivisionError else Ok (fun _ => 1 / INR T)   (* 250 *)
  | Some p =>
      if negb (Nat.eqb (nd_size p) T) then Err ValueError                        (* 231-232 *)
      else if nd_any p_lt0 p then Err ValueError                                 (* 233-234 *)
      else match nd_sum p with
           | Fin s => if Rleb s 0 then Err ValueError                            (* 235-237 *)
                      else Ok (if risclose s 1 then as_vec p else fun k => as_vec p k / s)   (* 238-239 *)
           | _ => Err ValueError
           end
  end.

(** projection.py:241-243: [R_np[idx].sum(axis=1)]; [n] entries per row of [R]. *)
Definition scenario_sums (n ns h : nat) (rest : list nat) (X : rnd) (idx : nat -> nat -> nat) : rnd :=
  mkR (ns :: rest) (fun k => sumn h (fun t => r_at X (idx (k / n)%nat t * n + k mod n)%nat)).

(** projection.py:248-255: a Series or DataFrame result must have the template's shape.
    (A repricer returning a scalar is not modelled: it is an error here.) *)
Definition wrap (kd : kind) (ns : nat) (a : rnd) : res rnd :=
  match kd with
  | KArr => Ok a
  | KSeries => if list_eq_dec Nat.eq_dec (r_shape a) [ns] then Ok a else Err ValueError
  | KFrame cols => if list_eq_dec Nat.eq_dec (r_shape a) [ns; List.length cols] then Ok a
                   else if list_eq_dec Nat.eq_dec (r_shape a) [ns] then
                     (if Nat.eqb (List.length cols) 1 then Ok (mkR [ns; 1%nat] (r_at a)) else Err ValueError)
                   else Err ValueError
  end.

(** projection.py:163-255 [project_scenarios]. *)
Definition project_scenarios (kd : kind) (X : rnd) (hz : hor) (p : option nd) (nsim : Z)
  (reprice : option (rnd -> res rnd)) (u : nat -> nat -> R) : res rnd :=
  let h := hor_int hz in
  if (h <=? 0)%Z then Err ValueError                                             (* 214-215 *)
  else if (nsim <=? 0)%Z then Err ValueError                                     (* 216-217 *)
  else match r_shape X with
  | [T] | [T; _] =>
      let rest := tl (r_shape X) in
      let n := fold_right Nat.mul 1%nat rest in
      let* w := proj_weights T p in
      let* idx := rng_choice T T w u in
      let ns := Z.to_nat nsim in
      let sums := scenario_sums n ns (Z.to_nat h) rest X idx in
      let* out := match reprice with None => Ok sums | Some f => f sums end in   (* 245-246 *)
      wrap kd ns out
  | _ => Err ValueError                                                          (* 223-224 *)
  end.

(** projection.py:261-310 [simulate_paths]: no check of the weights beyond those of the generator.
    When the total is zero or not finite the normalised weights hold NaN, which the generator rejects. *)
Definition path_weights (T : nat) (p : option nd) : res (nat * vec) :=
  match p with
  | None => if Nat.eqb T 0 then Err ZeroDivisionError else Ok (T, fun _ => 1 / INR T / sumn T (fun _ => 1 / INR T))
  | Some p => match nd_sum p with
              | Fin s => if Reqb s 0 then Err ValueError else Ok (nd_size p, fun k => as_vec p k / s)
              | _ => Err ValueError
              end
  end.
Definition simulate_paths (X : rnd) (horizon npaths : Z) (p : option nd)
  (reprice : option (rnd -> res rnd)) (u : nat -> nat -> R) : res rnd :=
  let* (T, n) := match r_shape X with [T] => Ok (T, 1%nat) | [T; n] => Ok (T, n) | _ => Err ValueError end in   (* 288-294 *)
  let* (np, w) := path_weights T p in
  let* idx := (if (npaths <? 0)%Z || (horizon <? 0)%Z then Err ValueError else rng_choice T np w u) in
  let h := Z.to_nat horizon in let ns := Z.to_nat npaths in
  (* step [t] of every path: cumulative sum of the first [t + 1] sampled rows (298-301) *)
  let step := fun t => mkR [ns; n] (fun k => sumn (S t) (fun v => r_at X (idx (k / n)%nat v * n + k mod n)%nat)) in
  let* outs := match reprice with
               | None => Ok (map step (seq 0 h))
               | Some f => mapM (fun t => let* o := f (step t) in                (* 303-308 *)
                                          if list_eq_dec Nat.eq_dec (r_shape o) [ns; n] then Ok o else Err ValueError) (seq 0 h)
               end in
  Ok (mkR [ns; h; n] (fun k => r_at (nth ((k / n) mod h)%nat outs (mkR [] (fun _ => 0))) ((k / n / h) * n + k mod n)%nat)).

(** ** Repricing *)
(** projection.py:317-332 [reprice_exp]. *)
Definition reprice_exp (a : rnd) : rnd := mkR (r_shape a) (fun k => exp (r_at a k) - 1).

(** projection.py:335-378 [reprice_taylor]: coefficients per column of the last axis (a scalar is the
    same for every column; arrays of any other length are not modelled). *)
Definition last_dim (a : rnd) : nat := last (r_shape a) 1%nat.
Definition reprice_taylor (theta delta gamma : option vec) (tau : R) (a : rnd) : rnd :=
  mkR (r_shape a) (fun k => let j := (k mod last_dim a)%nat in let y := r_at a k in
    0 + match theta with Some c => c j * tau | None => 0 end
      + match delta with Some c => c j * y | None => 0 end
      + match gamma with Some c => 1 / 2 * c j * (y * y) | None => 0 end).

(** projection.py:381-417 [make_repricing_fn] for a pricing function vectorised over scenarios:
    [price] maps one vector of [K] driver levels to [M] prices. *)
Definition make_repricing_fn (M : nat) (price : vec -> vec) (y0 : vec) (a : rnd) : res rnd :=
  match r_shape a with
  | [ns; K] => Ok (mkR [ns; M] (fun k => price (fun i => y0 i + r_at a ((k / M) * K + i)%nat) (k mod M)%nat - price y0 (k mod M)%nat))
  | _ => Err ValueError
  end.

(** projection.py:420-500 [compose_repricers]. *)
Inductive drivers := DOne (name : string) | DMany (names : list string).
Inductive spec :=
| SFun (f : rnd -> res rnd)                        (* a callable *)
| SPair (d : drivers) (f : option (rnd -> res rnd)) (* a 2-tuple; None: second element not callable *)
| SOther.

(** [{name: i for i, name in enumerate(names)}]: the last occurrence wins. *)
Fixpoint last_index (names : list string) (x : string) : option nat :=
  match names with
  | [] => None
  | y :: l => match last_index l x with
              | Some i => Some (S i)
              | None => if String.eqb y x then Some 0%nat else None
              end
  end.
Definition lookup (inv : list string) (x : string) : res nat :=
  match last_index inv x with Some i => Ok i | None => Err KeyError end.

Definition parse_spec (inv : list string) (s : string * spec) : res (list nat * (rnd -> res rnd)) :=
  match snd s with
  | SFun f => let* i := lookup inv (fst s) in Ok ([i], f)
  | SPair d None => Err TypeError
  | SPair d (Some f) =>
      let* cols := mapM (lookup inv) (match d with DOne x => [x] | DMany l => l end) in Ok (cols, f)
  | SOther => Err TypeError
  end.

(** The columns handed to one repricer (493-496). *)
Definition chunk (a : rnd) (cols : list nat) : res rnd :=
  match r_shape a, cols with
  | [n], [_] => Ok a
  | [n; K], [c] => if (c <? K)%nat then Ok (mkR [n] (fun s => r_at a (s * K + c)%nat)) else Err IndexError
  | [n; K], _ => if forallb (fun c => (c <? K)%nat) cols
                 then Ok (mkR [n; List.length cols] (fun q => r_at a ((q / List.length cols) * K + nth (q mod List.length cols) cols 0)%nat))
                 else Err IndexError
  | _, _ => Err IndexError
  end.
(** [pnl[:, j] = v]: length [n], or length one broadcast (539). *)
Definition assign_col (n : nat) (v : list R) : res (list R) :=
  if Nat.eqb (List.length v) n then Ok v
  else match v with [x] => Ok (repeat x n) | _ => Err ValueError end.

Definition combined (parsed : list (list nat * (rnd -> res rnd))) (a : rnd) : res rnd :=
  let n := hd 0%nat (r_shape a) in
  let m := List.length parsed in
  let* cols := mapM (fun cf => let* c := chunk a (fst cf) in let* o := snd cf c in assign_col n (r_list o)) parsed in
  Ok (mkR [n; m] (fun q => nth (q / m) (nth (q mod m) cols []) 0)).

Definition compose_repricers (instruments : list (string * spec)) (inv : list string) : res ((rnd -> res rnd) * list string) :=
  let* parsed := mapM (parse_spec inv) instruments in
  Ok (combined parsed, map fst instruments).

(** portfolioapi.py:1022-1112 [from_invariants]: the distribution it builds. *)
Inductive reprice_arg := RDefault | RFun (f : rnd -> res rnd) | RDict (d : list (string * spec)).
Definition to_nd (a : rnd) : nd := mkND (r_shape a) (fun k => Fin (r_at a k)).
Definition kind_labels (kd : kind) : option (list string) := match kd with KFrame cols => Some cols | _ => None end.
Definition from_invariants (kd : kind) (X : rnd) (hz : hor) (nsim : Z) (p : option nd) (rp : reprice_arg)
  (u : nat -> nat -> R) : res dist :=
  match rp with
  | RDict d =>
      match kd with
      | KFrame cols =>
          let* (f, names) := compose_repricers d cols in                         (* 1084-1088 *)
          let* pnl := project_scenarios KArr X hz p nsim (Some f) u in           (* 1090-1099 *)
          from_scenarios false (Some names) (to_nd pnl) None
      | _ => Err TypeError
      end
  | _ =>
      let f := match rp with RFun f => f | _ => fun a => Ok (reprice_exp a) end in
      let* pnl := project_scenarios kd X hz p nsim (Some f) u in                 (* 1100-1104 *)
      from_scenarios false (kind_labels kd) (to_nd pnl) None
  end.
