(** Model of the probability generators and effective-scenario counts of
    pyvallocation/probabilities.py over the reals. *)
From Verif Require Import RBase.
Open Scope R_scope.

(** probabilities.py:96-114 [generate_exp_decay_probabilities].
    [np.arange(1, n+1)] is [seq 1 n]; it is empty for [n <= 0], which the code does not reject. *)
Definition exp_decay_raw (n : Z) (half_life : R) : list R :=
  map (fun i => exp (- ln 2 / half_life * (IZR n - INR i))) (seq 1 (Z.to_nat n)).

Definition generate_exp_decay_probabilities (n : Z) (half_life : R) : res (list R) :=
  if Rleb half_life 0 then Err ValueError
  else let p := exp_decay_raw n half_life in
       Ok (map (fun x => x / rsum p) p).

(** [np.std(x, ddof=1)]. *)
Definition std1 (x : list R) : R :=
  let m := rsum x / INR (length x) in
  sqrt (rsum (map (fun a => (a - m) * (a - m)) x) / (INR (length x) - 1)).

(** probabilities.py:117-126 [silverman_bandwidth] (for at least two observations;
    [np.std] of fewer is NaN, handled by the caller's model). *)
Definition silverman_bandwidth (x : list R) : R :=
  106 / 100 * std1 x * Rpower (INR (length x)) (- 1 / 5).

Definition kernel_weight (h x_T v : R) : R := exp (- ((v - x_T) * (v - x_T)) / (2 * (h * h))).

(** probabilities.py:129-163 [generate_gaussian_kernel_probabilities].
    With [h=None]: an empty [x] raises ZeroDivisionError in [n ** (-1/5)]; a single
    observation gives NaN bandwidth, NaN weights and the ValueError of line 162. *)
Definition generate_gaussian_kernel_probabilities (x : list R) (v : option (list R))
  (h : option R) (x_T : option R) : res (list R) :=
  let v := match v with None => x | Some v => v end in
  let* h := match h with
            | Some h => Ok h
            | None => match length x with
                      | 0%nat => Err ZeroDivisionError
                      | 1%nat => Err ValueError
                      | _ => Ok (silverman_bandwidth x)
                      end
            end in
  if Rleb h 0 then Err ValueError                                  (* 155-156 *)
  else
    let* x_T := match x_T with
                | Some t => Ok t
                | None => match x with [] => Err IndexError | a :: l => Ok (last l a) end
                end in                                             (* 157-158 *)
    let w := map (kernel_weight h x_T) v in                        (* 162 *)
    if Rleb (rsum w) 0 then Err ValueError                         (* 161-162 *)
    else Ok (map (fun a => a / rsum w) w).                         (* 163 *)

(** probabilities.py:166-197 [compute_effective_number_scenarios]. *)
Definition compute_effective_number_scenarios (p : list R) : R :=
  let masked := filter (fun x => Rltb 0 x) p in
  exp (- rsum (map (fun x => x * ln x) masked)).

(** probabilities.py:200-213 [compute_effective_number_scenarios_hhi]. *)
Definition compute_effective_number_scenarios_hhi (p : list R) : R :=
  1 / rsum (map (fun x => x * x) p).
