(** Model of pyvallocation/moments.py, utils/validation.py and the variance part of
    utils/functions.py over exact reals.  Matrices are index functions with explicit dimensions:
    a [T x N] scenario matrix [X] has entry [X t i]. *)
From Coq Require Export String.
From Verif Require Import RBase QpBase SortLib.
Open Scope R_scope.
Open Scope list_scope.

(** ** utils/functions.py *)
(** functions.py:19-36 [portfolio_variance]: [np.sum((W.T @ cov) * W.T, axis=1)], one value per column. *)
Definition portfolio_variance (N M : nat) (W cov : mat) : list R :=
  map (fun m => sumn N (fun j => sumn N (fun i => W i m * cov i j) * W j m)) (seq 0 M).
(** functions.py:38-50 [portfolio_volatility]; [np.sqrt] of a negative number is NaN ([None]). *)
Definition portfolio_volatility (N M : nat) (W cov : mat) : list (option R) :=
  map (fun v => if Rltb v 0 then None else Some (sqrt v)) (portfolio_variance N M W cov).

(** ** utils/validation.py *)
Definition eye : mat := delta.
(** [(matrix + matrix.T) / 2]. *)
Definition symmetrise (A : mat) : mat := fun i j => (A i j + A j i) / 2.
(** validation.py:21 [np.allclose(matrix, matrix.T, atol)]. *)
Definition allclose_t (n : nat) (A : mat) (atol : R) : bool :=
  forallb (fun i => forallb (fun j => Rleb (Rabs (A i j - A j i)) (atol + 1/100000 * Rabs (A j i))) (seq 0 n)) (seq 0 n).

(** [eig n A]: the least eigenvalue returned by [la.eigvalsh], or [None] for LinAlgError. *)
Definition eig_oracle := nat -> mat -> option R.

(** validation.py:9-27 [is_psd]. *)
Definition is_psd (eig : eig_oracle) (n : nat) (A : mat) (tol : R) : bool :=
  allclose_t n A tol && match eig n A with Some l => Rleb (- tol) l | None => false end.

(** validation.py:30-62 [ensure_psd_matrix]. *)
Definition ensure_psd (eig : eig_oracle) (n : nat) (A : mat) (jitter : R) : res mat :=
  let M := symmetrise A in                                                      (* 42 *)
  if is_psd eig n M jitter then Ok M                                            (* 43-44 *)
  else
    let m := match eig n M with Some l => l | None => 0 end in                  (* 45-50 *)
    let k := Rmax 0 (- m) + jitter in                                           (* 51 *)
    let P := fun i j => M i j + k * eye i j in                                  (* 52 *)
    if is_psd eig n P jitter then Ok P
    else let P' := fun i j => M i j + (Rabs m + 1/1000000) * eye i j in         (* 57 *)
         if is_psd eig n P' jitter then Ok P' else Err ValueError.
Definition jit : R := 1 / 100000000.

(** validation.py:65-75, 78-88. *)
Definition check_weights_sum_to_one (T : nat) (p : vec) : bool :=
  Rleb (Rabs (sumn T p - 1)) (1/1000000 + 1/100000 * Rabs 1).
Definition check_non_negativity (T : nat) (p : vec) : bool :=
  forallb (fun t => Rleb (- (1/1000000000)) (p t)) (seq 0 T).

(** ** Labels *)
(** moments.py:139-163 [_labels]: an ndarray carries no labels, a DataFrame its columns, a Series its
    index. *)
Inductive obj := Arr | Labelled (l : list string).
Fixpoint labels_from (found : option (list string)) (os : list obj) : res (option (list string)) :=
  match os with
  | [] => Ok found
  | Arr :: os' => labels_from found os'
  | Labelled c :: os' =>
      match found with
      | None => labels_from (Some c) os'
      | Some f => if Nat.eqb (List.length c) (List.length f) && negb (if list_eq_dec string_dec c f then true else false)
                  then Err ValueError else labels_from found os'
      end
  end.
Definition labels (os : list obj) := labels_from None os.
(** moments.py:166-181 [_wrap]: pandas raises when the number of labels differs from the dimension. *)
Definition wrap_labels (n : nat) (l : option (list string)) : res (option (list string)) :=
  match l with
  | None => Ok None
  | Some l => if Nat.eqb (List.length l) n then Ok (Some l) else Err ValueError
  end.

(** ** moments.py:184-236 [estimate_sample_moments] *)
Definition wmean (T : nat) (p : vec) (X : mat) : vec := fun i => sumn T (fun t => X t i * p t).          (* 229 *)
Definition wcov (T : nat) (p : vec) (X : mat) : mat :=
  symmetrise (fun i j => sumn T (fun t => (X t i - wmean T p X i) * (X t j - wmean T p X j) * p t)).       (* 230-232 *)

Definition estimate_sample_moments (T N : nat) (X : mat) (pn : nat) (p : vec) (lR lp : obj)
  : res (vec * mat * option (list string)) :=
  if negb (Nat.eqb pn T) then Err ValueError                                       (* 218-224 *)
  else if negb (check_non_negativity T p && check_weights_sum_to_one T p) then Err ValueError  (* 225-227 *)
  else let* l := labels [lR; lp] in
       let* l := wrap_labels N l in
       Ok (wmean T p X, wcov T p X, l).

(** ** Means *)
Definition clip01 (x : R) : R := Rmin (Rmax x 0) 1.
(** [inv n A]: [np.linalg.inv], [None] for LinAlgError. *)
Definition inv_oracle := nat -> mat -> option mat.
Definition ones : vec := fun _ => 1.

(** moments.py:239-294 [shrink_mean_jorion]. *)
Definition jorion_v (N T : nat) (q : R) : R := (INR N + 2) / ((INR N + 2) + INR T * q).
Definition shrink_mean_jorion (inv : inv_oracle) (N : nat) (mu : vec) (sr sc : nat) (S : mat) (T : Z) : res vec :=
  if ((T <=? 0)%Z || Nat.leb N 2 || negb (Nat.eqb sr N && Nat.eqb sc N))%bool then Err ValueError   (* 270-277 *)
  else match inv N (fun i j => symmetrise S i j + jit * eye i j) with
       | None => Err ValueError                                                  (* 282-284 *)
       | Some Si =>
           let g := dot N ones (mv N Si mu) / dot N ones (mv N Si ones) in      (* 287 *)
           let d : vec := fun i => mu i - g in
           let v := clip01 (jorion_v N (Z.to_nat T) (quad N Si d)) in           (* 289-290 *)
           Ok (fun i => mu i - v * d i)                                         (* 291 *)
       end.

(** moments.py:931-980 [shrink_mean_james_stein]; [target = None] is "grand_mean"; [pinv] is
    [np.linalg.pinv] of the repaired covariance. *)
Definition shrink_mean_james_stein (eig : eig_oracle) (pinv : nat -> mat -> mat) (N : nat) (mu : vec)
           (sr sc : nat) (S : mat) (T : Z) (target : option (nat * vec)) : res vec :=
  if negb (Nat.eqb sr sc) then Err ValueError                                    (* 953-954 *)
  else if negb (Nat.eqb sr N) then Err ValueError                                (* 956-957 *)
  else if (T <=? 0)%Z then Err ValueError                                        (* 958-959 *)
  else let* tg := match target with
                  | None => Ok (fun _ : nat => sumn N mu / INR N)
                  | Some (k, tv) => if Nat.eqb k N then Ok tv else Err ValueError
                  end in
       let* P := ensure_psd eig N (symmetrise S) jit in
       let d : vec := fun i => mu i - tg i in
       let q := IZR T * quad N (pinv N P) d in                                   (* 974 *)
       let s := if Rleb q 0 then 0 else Rmax 0 (1 - (INR N - 2) / q) in          (* 975-978 *)
       Ok (fun i => tg i + s * d i).

(** [np.median] of a non-empty list. *)
Definition rsort (l : list R) : list R := take 0 l (argsort_by Rleb 0 l).
Definition median (l : list R) : R :=
  let n := List.length l in
  let s := rsort l in
  if Nat.even n then (nth (n / 2 - 1) s 0 + nth (n / 2) s 0) / 2 else nth (n / 2) s 0.

(** moments.py:1011-1025: one asset of [robust_mean_huber]. *)
Definition huber_step (x : list R) (tau mu : R) : R :=
  let w := map (fun xi => Rmin 1 (tau / Rmax (Rabs (xi - mu)) (1/1000000000000))) x in
  rsum (map2 Rmult w x) / rsum w.
Fixpoint huber_iter (x : list R) (tau tol : R) (max_iter : nat) (mu : R) : R :=
  match max_iter with
  | O => mu
  | S k => let mu' := huber_step x tau mu in
           if Rleb (Rabs (mu' - mu)) (tol * (Rabs mu + 1)) then mu' else huber_iter x tau tol k mu'
  end.
Definition huber_tau (x : list R) : R :=
  let mu := median x in
  let scale := 14826/10000 * median (map (fun xi => Rabs (xi - mu)) x) + 1/1000000000000 in
  scale * sqrt (INR (List.length x) / Rmax (ln (INR (Nat.max (List.length x) 3))) 2).
Definition huber (x : list R) (tol : R) (max_iter : nat) : R := huber_iter x (huber_tau x) tol max_iter (median x).

(** moments.py:1029-1071: one asset of [robust_mean_median_of_means]; [perm] is the random
    permutation; [auto] is [ceil(sqrt(T))] when [n_blocks] is not given. *)
Definition mom_blocks (T : nat) (n_blocks : option Z) (auto : nat) : res nat :=
  let* B := match n_blocks with
            | None => Ok auto
            | Some b => if (b <=? 0)%Z then Err ValueError else Ok (Z.to_nat (Z.min b (Z.of_nat T)))
            end in
  Ok (Nat.max 1 (Nat.min B T)).
Fixpoint cut {A} (sizes : list nat) (l : list A) : list (list A) :=
  match sizes with [] => [] | s :: ss => firstn s l :: cut ss (skipn s l) end.
Definition block_sizes (T B : nat) : list nat :=
  map (fun b => (T / B + (if Nat.ltb b (T mod B) then 1 else 0))%nat) (seq 0 B).
Definition rmean (l : list R) : R := rsum l / INR (List.length l).
Definition median_of_means (x : list R) (perm : list nat) (n_blocks : option Z) (auto : nat) : res R :=
  let T := List.length x in
  let* B := mom_blocks T n_blocks auto in
  Ok (median (map rmean (cut (block_sizes T B) (map (fun i => nth i x 0) perm)))).

(** ** Covariances *)
Definition trace (n : nat) (A : mat) : R := sumn n (fun i => A i i).
Definition frob2 (n : nat) (A : mat) : R := sumn n (fun i => sumn n (fun j => A i j * A i j)).
Definition total (n : nat) (A : mat) : R := sumn n (fun i => sumn n (fun j => A i j)).
Definition center (T : nat) (X : mat) : mat := fun t i => X t i - sumn T (fun u => X u i) / INR T.

(** Float division then clip to [0,1]: 0/0 is NaN ([None]), x/0 is an infinity. *)
Definition clip_ratio (num den : R) : option R :=
  if Reqb den 0 then (if Reqb num 0 then None else if Rltb 0 num then Some 1 else Some 0)
  else Some (clip01 (num / den)).

Inductive lw_target := LwIdentity | LwConstCorr | LwOther.
(** moments.py:356-366. *)
Definition lw_F (N : nat) (S : mat) (tg : lw_target) : mat :=
  match tg with
  | LwIdentity => fun i j => eye i j * trace N S / INR N
  | _ =>
      let std i := sqrt (S i i) in
      let r := (total N (fun i j => S i j / (std i * std j)) - INR N) / (INR N * (INR N - 1)) in
      fun i j => if Nat.eqb i j then S i i else r * (std i * std j)
  end.
(** moments.py:368-369. *)
Definition lw_pi (T : nat) (X S : mat) : mat := fun i j =>
  sumn T (fun t => (X t i * X t j - S i j) ^ 2) / INR T.
(** moments.py:370-384: [None] when the intensity is NaN (also for zero variances or one asset
    with the constant correlation target). *)
Definition lw_delta (T N : nat) (X S : mat) (tg : lw_target) : option R :=
  let F := lw_F N S tg in
  let P := lw_pi T X S in
  let pi_hat := total N P / (INR N * INR N) in
  let diag_pi := trace N P in
  let gamma := frob2 N (fun i j => S i j - F i j) in
  match tg with
  | LwIdentity => clip_ratio (pi_hat - diag_pi) gamma
  | _ => if (Nat.leb N 1 || existsb (fun i => Rleb (S i i) 0) (seq 0 N))%bool then None
         else let rho := diag_pi + (total N (fun i j => if Nat.eqb i j then 0 else F i j) / (INR N * (INR N - 1))) * (pi_hat - diag_pi) in
              if Reqb gamma 0 then clip_ratio (pi_hat - rho) 0 else Some (clip01 ((pi_hat - rho) / gamma / INR T))
  end.
(** moments.py:297-390 [shrink_covariance_ledoit_wolf]; a NaN matrix is rejected by
    [ensure_psd_matrix]. *)
Definition shrink_covariance_ledoit_wolf (eig : eig_oracle) (T N : nat) (R_ : mat) (sr sc : nat) (Shat : mat) (tg : lw_target) : res mat :=
  if (Nat.eqb T 0 || negb (Nat.eqb sr N && Nat.eqb sc N))%bool then Err ValueError
  else let S := symmetrise Shat in
       let X := center T R_ in
       match tg with
       | LwOther => Err ValueError
       | _ => match lw_delta T N X S tg with
              | None => Err ValueError
              | Some d => let* P := ensure_psd eig N (fun i j => d * lw_F N S tg i j + (1 - d) * S i j) jit in
                          Ok (symmetrise P)
              end
       end.

(** moments.py:393-430 [shrink_covariance_oas]. *)
Definition emp_cov (T : nat) (X : mat) : mat := fun i j => sumn T (fun t => X t i * X t j) / INR T.
Definition oas_shrinkage (T N : nat) (E : mat) : R :=
  let alpha := frob2 N E / (INR N * INR N) in
  let mu := trace N E / INR N in
  let denom := (INR T + 1 - 2 / INR N) * (alpha - mu * mu / INR N) in
  if Rleb denom 0 then 1 else Rmin (((1 - 2 / INR N) * alpha + mu * mu) / denom) 1.
Definition shrink_covariance_oas (eig : eig_oracle) (T N : nat) (R_ : mat) (assume_centered : bool) : res mat :=
  if (Nat.eqb T 0 || Nat.eqb N 0)%bool then Err ValueError
  else let X := if assume_centered then R_ else center T R_ in
       let E := emp_cov T X in
       if Nat.eqb N 1 then Ok E
       else let s := oas_shrinkage T N E in
            ensure_psd eig N (fun i j => (1 - s) * E i j + eye i j * (s * (trace N E / INR N))) jit.

(** moments.py:712-756 [covariance_ewma]; [X[0]] raises IndexError without observations. *)
Fixpoint ewma_rec (lam : R) (X : mat) (t : nat) : mat :=
  match t with
  | O => fun i j => X 0%nat i * X 0%nat j
  | S t' => fun i j => lam * ewma_rec lam X t' i j + (1 - lam) * (X t i * X t j)
  end.
Definition covariance_ewma (T N : nat) (X : mat) (span : R) (min_periods : Z) : res mat :=
  if (Z.of_nat T <? min_periods)%Z then Err ValueError
  else if Reqb (span + 1) 0 then Err ZeroDivisionError
  else match T with
       | O => Err IndexError
       | S t => Ok (symmetrise (ewma_rec (1 - 2 / (span + 1)) X t))
       end.

(** moments.py:759-773 [_soft_threshold]. *)
Definition rsign (x : R) : R := if Rltb 0 x then 1 else if Rltb x 0 then -1 else 0.
Definition soft_threshold (A : mat) (tau : R) : mat := fun i j =>
  if Nat.eqb i j then A i j else rsign (A i j) * Rmax (Rabs (A i j) - tau) 0.

(** moments.py:486-574 [factor_covariance_poet]: [B] is the scaled loading matrix built from the
    [k] leading eigenvectors, whatever the eigensolver returned ([T >= 2]). *)
Definition np_cov (T : nat) (X : mat) (ddof : nat) : mat := fun i j =>
  sumn T (fun t => center T X t i * center T X t j) / INR (T - ddof).
Definition poet_scale (T : nat) (X : mat) (standardize : bool) : vec := fun i =>
  if standardize then let s := sqrt (np_cov T X 1 i i) in if Rleb s (1/1000000000000) then 1 else s else 1.
Definition poet_sigma (T k : nat) (X B : mat) (tau : R) (standardize : bool) : mat :=
  let sc := poet_scale T X standardize in
  let Ss := np_cov T (fun t i => center T X t i / sc i) 1 in
  let F : mat := fun i j => sumn k (fun f => B i f * B j f) in
  let resid := symmetrise (fun i j => Ss i j - F i j) in
  let Sg := symmetrise (fun i j => F i j + soft_threshold resid tau i j) in
  symmetrise (fun i j => sc i * Sg i j * sc j).
Definition factor_covariance_poet (eig : eig_oracle) (T N k : nat) (X B : mat) (tau : R) (standardize : bool) : res mat :=
  if (Nat.leb N 1)%bool then Err LinAlgError                       (* np.cov is 0-d: 522-523 *)
  else if Rltb tau 0 then Err ValueError
  else ensure_psd eig N (poet_sigma T k X B tau standardize) jit.

(** moments.py:618-709 [robust_covariance_tyler]; [pinv] is [np.linalg.pinv].  One pass of the loop
    (673-691). *)
Definition tyler_w2 (N : nat) (q : R) : R := Rmin (Rmax (INR N / Rmax q (1/1000000)) 0) 1000000.
Definition tyler_raw (pinv : nat -> mat -> mat) (T N : nat) (X C : mat) : mat :=
  let Ci := pinv N C in
  symmetrise (fun i j => sumn T (fun t => tyler_w2 N (quad N Ci (X t)) * X t i * X t j) / INR T).
Definition rescale (N : nat) (A : mat) : mat := fun i j => A i j * (INR N / trace N A).
Definition tyler_update (pinv : nat -> mat -> mat) (T N : nat) (X C target : mat) (shrink : R) : mat :=
  let U := rescale N (tyler_raw pinv T N X C) in
  if Rltb 0 shrink then fun i j => (1 - shrink) * U i j + shrink * target i j else U.
Definition tyler_converged (N : nat) (U C : mat) (tol : R) : bool :=
  Rleb (sqrt (frob2 N (fun i j => U i j - C i j)) / Rmax (sqrt (frob2 N C)) (1/1000000000000)) tol.
Fixpoint tyler_loop (pinv : nat -> mat -> mat) (T N : nat) (X target : mat) (shrink tol : R) (fuel : nat) (C : mat) : mat :=
  match fuel with
  | O => C
  | S k => let U := tyler_update pinv T N X C target shrink in
           if tyler_converged N U C tol then U else tyler_loop pinv T N X target shrink tol k U
  end.
Definition robust_covariance_tyler (eig : eig_oracle) (pinv : nat -> mat -> mat) (T N : nat) (R_ : mat)
           (shrink : R) (target : option (nat * nat * mat)) (tol : R) (max_iter : nat) (psd_fix : bool) : res mat :=
  if (Nat.eqb T 0 || Nat.eqb N 0)%bool then Err ValueError                        (* 647-648 *)
  else if negb (Rleb 0 shrink && Rleb shrink 1) then Err ValueError               (* 649-650 *)
  else if (Nat.leb N 1 || Nat.leb T 1)%bool then Err ValueError   (* np.cov is 0-d resp. NaN: 654 *)
  else let X := center T R_ in
       let* Sc := ensure_psd eig N (np_cov T X 1) jit in                          (* 653-654 *)
       let tt := let t := trace N Sc / INR (Nat.max N 1) in if Rleb t 0 then 1 else t in   (* 655-657 *)
       let* tg := match target with
                  | None => Ok eye
                  | Some (r, c, M) => if (Nat.eqb r N && Nat.eqb c N)%bool then ensure_psd eig N (symmetrise M) jit else Err ValueError
                  end in
       let tg := rescale N tg in                                                  (* 668 *)
       if Nat.eqb max_iter 0 then Err NameError                                   (* 698-703: [delta] is unbound *)
       else
       let C := tyler_loop pinv T N X tg shrink tol max_iter (fun i j => Sc i j / tt * INR N) in
       let C := symmetrise (fun i j => C i j * (tt / INR N)) in                   (* 705-706 *)
       if psd_fix then ensure_psd eig N C jit else Ok C.

(** moments.py:1196-1286 [estimate_moments] with two or more assets: the sample moments handed to
    the estimators, then the covariance choice.  Labels, [nls] and [glasso] are left out (EmModel has the full function); an option
    the model has no constructor for raises ValueError as an unsupported key does. *)
Definition sample_pair (T N : nat) (X : mat) (p : option (nat * vec)) : res (vec * mat) :=
  match p with
  | None => Ok (fun i => sumn T (fun t => X t i) / INR T, np_cov T X 0)
  | Some (pn, pv) => let* r := estimate_sample_moments T N X pn pv Arr Arr in Ok (fst r)
  end.
Inductive mean_choice := MeanSample | MeanJorion | MeanJamesStein (target : option (nat * vec)) | MeanOther.
Inductive cov_choice :=
| CovSample | CovLedoitWolf (tg : lw_target) | CovOas (centered : bool) | CovEwma (span : R) (min_periods : Z)
| CovPoet (k : nat) (B : mat) (tau : R) (standardize : bool) | CovTyler (shrink tol : R) (max_iter : nat) | CovOther.
Definition estimate_moments (eig : eig_oracle) (inv : inv_oracle) (pinv : nat -> mat -> mat) (T N : nat) (X : mat)
           (p : option (nat * vec)) (mc : mean_choice) (cc : cov_choice) : res (vec * mat) :=
  let* ms := sample_pair T N X p in
  let* mu := match mc with
             | MeanSample => Ok (fst ms)
             | MeanJorion => shrink_mean_jorion inv N (fst ms) N N (snd ms) (Z.of_nat T)
             | MeanJamesStein tg => shrink_mean_james_stein eig pinv N (fst ms) N N (snd ms) (Z.of_nat T) tg
             | MeanOther => Err ValueError
             end in
  let* Sg := match cc with
            | CovSample => Ok (snd ms)
            | CovLedoitWolf tg => shrink_covariance_ledoit_wolf eig T N X N N (snd ms) tg
            | CovOas c => shrink_covariance_oas eig T N X c
            | CovEwma span mp => covariance_ewma T N X span mp
            | CovPoet k B tau st => factor_covariance_poet eig T N k X B tau st
            | CovTyler s tol m => robust_covariance_tyler eig pinv T N X s None tol m true
            | CovOther => Err ValueError
            end in
  Ok (mu, Sg).
