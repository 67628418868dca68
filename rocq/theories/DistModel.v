(** Model of [AssetsDistribution] and the data entry points of [PortfolioWrapper]
    (pyvallocation/portfolioapi.py:72-228, 853-1020). *)
From Verif Require Import RBase QpBase MomModel ConsModel.
Open Scope R_scope.
Open Scope list_scope.

(** A float ndarray: its shape and its entries in row-major order. *)
Record nd := mkND { nd_shape : list nat; nd_at : nat -> pyf }.
Definition nd_size (a : nd) : nat := fold_right Nat.mul 1%nat (nd_shape a).
Definition nd_all (f : pyf -> bool) (a : nd) : bool := forallb (fun k => f (nd_at a k)) (seq 0 (nd_size a)).
Definition nd_any (f : pyf -> bool) (a : nd) : bool := existsb (fun k => f (nd_at a k)) (seq 0 (nd_size a)).

(** IEEE arithmetic on the non-finite values, exact on reals. *)
Definition p_add (a b : pyf) : pyf :=
  match a, b with
  | NaN, _ | _, NaN => NaN
  | PInf, NInf | NInf, PInf => NaN
  | PInf, _ | _, PInf => PInf
  | NInf, _ | _, NInf => NInf
  | Fin x, Fin y => Fin (x + y)
  end.
Definition p_fin (a : pyf) : bool := match a with Fin _ => true | _ => false end.      (* np.isfinite *)
Definition p_nan (a : pyf) : bool := match a with NaN => true | _ => false end.        (* isnull *)
Definition p_lt0 (a : pyf) : bool := match a with Fin x => Rltb x 0 | NInf => true | _ => false end.
Definition p_le0 (a : pyf) : bool := match a with Fin x => Rleb x 0 | NInf => true | _ => false end.
Definition p_scale (a : pyf) (s : R) : pyf := match a with Fin x => Fin (x / s) | o => o end. (* x / s with s > 0 *)
(** [a / b - 1] for [a, b] not NaN and positive, the only case that occurs. *)
Definition p_ratio1 (a b : pyf) : pyf :=
  match a, b with
  | Fin x, Fin y => Fin (x / y - 1)
  | Fin _, PInf => Fin (-1)
  | PInf, Fin _ => PInf
  | _, _ => NaN
  end.
(** [np.exp(x) - 1]. *)
Definition p_expm1 (a : pyf) : pyf :=
  match a with Fin x => Fin (exp x - 1) | PInf => PInf | NInf => Fin (-1) | NaN => NaN end.
Definition val (a : pyf) : R := match a with Fin x => x | _ => 0 end.

Definition nd_sum (a : nd) : pyf := fold_right p_add (Fin 0) (map (nd_at a) (seq 0 (nd_size a))).

(** Constructor arguments.  A pandas Series carries its index, a DataFrame its index and columns
    (only the columns matter for scenarios). *)
Record dist_in := mkIn {
  i_mu : option (option (list string) * nd);
  i_cov : option (option (list string * list string) * nd);
  i_scen : option (option (list string) * nd);
  i_probs : option nd;
  i_names : option (list string) }.

Record dist := mkDist {
  d_N : nat; d_T : option nat; d_mu : option nd; d_cov : option nd; d_scen : option nd;
  d_probs : option nd; d_names : option (list string) }.

Definition names_eqb (a b : list string) : bool := if list_eq_dec string_dec a b then true else false.

(** portfolioapi.py:91-108 [_merge_names]. *)
Definition merge_names (existing : option (list string)) (candidate : list string) : res (option (list string)) :=
  match candidate with
  | [] => Ok existing
  | _ => match existing with
         | None => Ok (Some candidate)
         | Some e => if names_eqb candidate e then Ok existing else Err ValueError
         end
  end.

(** portfolioapi.py:110-130: names gathered from mu, cov and scenarios, in this order. *)
Definition names_mu (i : dist_in) : res (option (list string)) :=
  match i_mu i with Some (Some idx, _) => merge_names (i_names i) idx | _ => Ok (i_names i) end.
Definition names_cov (i : dist_in) (names : option (list string)) : res (option (list string)) :=
  match i_cov i with
  | Some (Some (idx, cols), _) =>
      let* names := merge_names names idx in
      match names with
      | Some nm => if names_eqb cols nm then Ok names else Err ValueError
      | None => Ok names
      end
  | _ => Ok names
  end.
Definition names_scen (i : dist_in) (names : option (list string)) : res (option (list string)) :=
  match i_scen i with Some (Some cols, _) => merge_names names cols | _ => Ok names end.

(** portfolioapi.py:141-158: probabilities of [t] scenarios (default: probabilities.py:78-93). *)
Definition scen_probs (t : nat) (p : option nd) : res nd :=
  let* pr := match p with
             | None => if Nat.eqb t 0 then Err ValueError else Ok (mkND [t] (fun _ => Fin (1 / INR t)))
             | Some p => if Nat.eqb (nd_size p) t then Ok (mkND [t] (nd_at p)) else Err ValueError
             end in
  if nd_any p_lt0 pr then Err ValueError                                         (* 151-152 *)
  else match nd_sum pr with                                                      (* 153-155 *)
       | Fin s => if Rleb s 0 then Err ValueError else Ok (mkND [t] (fun k => p_scale (nd_at pr k) s)) (* 158 *)
       | _ => Err ValueError
       end.

Definition as_mat (n : nat) (a : nd) : mat := fun t j => val (nd_at a (t * n + j)%nat).
Definition as_vec (a : nd) : vec := fun k => val (nd_at a k).

(** portfolioapi.py:160-170: moments estimated from the scenarios.  If a scenario entry is not
    finite the estimates are not finite either; they are modelled as all NaN (the call fails later
    on in any case, at line 206, 209 or 228). *)
Definition est_moments (t n : nat) (X pr : nd) : res (nd * nd) :=
  if nd_all p_fin X then
    let* r := estimate_sample_moments t n (as_mat n X) t (as_vec pr) Arr Arr in
    Ok (mkND [n] (fun k => Fin (fst (fst r) k)), mkND [n; n] (fun k => Fin (snd (fst r) (k / n)%nat (k mod n)%nat)))
  else Ok (mkND [n] (fun _ => NaN), mkND [n; n] (fun _ => NaN)).

(** portfolioapi.py:135-170.  Result: N, T, probabilities, mu, cov so far. *)
Definition from_scen (i : dist_in) : res (option nat * option nat * option nd * option nd * option nd) :=
  let mu := option_map snd (i_mu i) in
  let cov := option_map snd (i_cov i) in
  match i_scen i with
  | None => Ok (None, None, None, mu, cov)
  | Some (_, X) =>
      match nd_shape X with
      | [t; n] =>
          let* pr := scen_probs t (i_probs i) in
          match mu, cov with
          | Some m, Some c => Ok (Some n, Some t, Some pr, Some m, Some c)
          | _, _ =>
              let* e := est_moments t n X pr in
              Ok (Some n, Some t, Some pr,
                  Some (match mu with Some m => m | None => fst e end),
                  Some (match cov with Some c => c | None => snd e end))
          end
      | _ => Err ValueError                                                      (* 139-140 *)
      end
  end.

(** portfolioapi.py:172-178. *)
Definition check_mu (N : option nat) (mu : option nd) : res (option nat) :=
  match mu with
  | None => Ok N
  | Some m => match N with
              | None => Ok (Some (nd_size m))
              | Some n => if Nat.eqb (nd_size m) n then Ok N else Err ValueError
              end
  end.
(** portfolioapi.py:180-186. *)
Definition check_cov (N : option nat) (cov : option nd) : res (option nat) :=
  match cov with
  | None => Ok N
  | Some c => match nd_shape c with
              | [a; b] => if negb (Nat.eqb a b) then Err ValueError
                          else match N with
                               | None => Ok (Some a)
                               | Some n => if Nat.eqb a n then Ok N else Err ValueError
                               end
              | _ => Err ValueError
              end
  end.

Definition opt_all (o : option nd) : bool := match o with Some a => nd_all p_fin a | None => true end.
Definition flat (m : nd) : nd := mkND [nd_size m] (nd_at m).                     (* reshape(-1) *)

(** portfolioapi.py:72-228 [AssetsDistribution.__post_init__].  The eigenvalue and conditioning
    checks of lines 210-226 only warn and are left out. *)
Definition make_dist (i : dist_in) : res dist :=
  let* n1 := names_mu i in
  let* n2 := names_cov i n1 in
  let* names := names_scen i n2 in
  let* (N, T, pr, mu, cov) := from_scen i in
  let* N := check_mu N mu in
  let* N := check_cov N cov in
  match N with
  | None | Some O => Err ValueError                                              (* 188-189 *)
  | Some n =>
      if match names with Some l => negb (Nat.eqb (List.length l) n) | None => false end
      then Err ValueError                                                        (* 191-194 *)
      else
        let scen := option_map snd (i_scen i) in
        if opt_all mu && opt_all cov && opt_all scen                             (* 205-209, 227-228 *)
        then Ok (mkDist n T (option_map flat mu) cov scen pr names)
        else Err ValueError
  end.

(** ** Entry points *)

(** portfolioapi.py:853-889 [from_scenarios]: the distribution it builds. *)
Definition from_scenarios (log : bool) (labels : option (list string)) (X : nd) (p : option nd) : res dist :=
  let X := if log then mkND (nd_shape X) (fun k => p_expm1 (nd_at X k)) else X in
  make_dist (mkIn None None (Some (labels, X)) p None).

(** portfolioapi.py:1002, 1011: simple returns from consecutive rows. *)
Definition row_len (a : nd) : nat := fold_right Nat.mul 1%nat (tl (nd_shape a)).
Definition price_returns (a : nd) : nd :=
  mkND ((hd 0%nat (nd_shape a) - 1)%nat :: tl (nd_shape a))
       (fun k => p_ratio1 (nd_at a (k + row_len a)%nat) (nd_at a k)).

Inductive prices_in := PFrame (cols : list string) (a : nd) | PArr (a : nd).

(** portfolioapi.py:962-1020 [from_prices]: the distribution it builds. *)
Definition from_prices (p : prices_in) : res dist :=
  match p with
  | PFrame cols a =>
      if (hd 0 (nd_shape a) <? 2)%nat then Err ValueError                        (* 996-997 *)
      else if nd_any p_nan a then Err ValueError                                 (* 998-999 *)
      else if nd_any p_le0 a then Err ValueError                                 (* 1000-1001 *)
      else from_scenarios false (Some cols) (price_returns a) None               (* 1002 *)
  | PArr a =>
      if (List.length (nd_shape a) <? 2)%nat || (hd 0 (nd_shape a) <? 2)%nat then Err ValueError   (* 1005-1006 *)
      else if negb (nd_all p_fin a) then Err ValueError                          (* 1007-1008 *)
      else if nd_any p_le0 a then Err ValueError                                 (* 1009-1010 *)
      else from_scenarios false None (price_returns a) None                      (* 1011 *)
  end.
