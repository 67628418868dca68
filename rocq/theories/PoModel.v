(** POET with its factors: pyvallocation/moments.py:486-617 [factor_covariance_poet], complete
    ([MomModel.poet_sigma] has the part after the eigen-decomposition). *)
From Coq Require Import List Lia Lra ZArith.
Import ListNotations.
From Verif Require Import Err RBase QpBase MomModel GlModel.
Open Scope R_scope.
Open Scope list_scope.

(** moments.py:515-522: centred, scaled returns and their covariance. *)
Definition poet_std (T : nat) (X : mat) (st : bool) : mat := fun t i => center T X t i / poet_scale T X st i.
Definition poet_S (T : nat) (X : mat) (st : bool) : mat := np_cov T (poet_std T X st) 1.

(** [np.argmax]: first maximum. *)
Fixpoint argmax_at (best : R) (bi i : nat) (l : list R) : nat :=
  match l with
  | [] => bi
  | x :: xs => if Rltb best x then argmax_at x i (S i) xs else argmax_at best bi (S i) xs
  end.
Definition argmax_r (l : list R) : nat := match l with [] => 0%nat | x :: xs => argmax_at x 0 1 xs end.

(** moments.py:527-539: number of factors from the eigenvalues in descending order. *)
Inductive poet_k := KAuto | KInt (k : Z).
Definition poet_accel (l : list R) : list R :=
  map (fun i => (nth (S i) l 0 - nth i l 0) - (nth (S (S i)) l 0 - nth (S i) l 0)) (seq 0 (List.length l - 2)).
Definition poet_select (k : poet_k) (l : list R) : res nat :=
  match k with
  | KAuto => if Nat.leb (List.length l) 2 then Ok 1%nat else Ok (argmax_r (poet_accel l) + 1)%nat
  | KInt z => if (z <=? 0)%Z then Err ValueError else Ok (Z.to_nat z)
  end.

(** moments.py:552-561: the threshold. *)
Inductive poet_tau := TauAuto | TauNum (t : R).
Definition off_diag (N : nat) (A : mat) : list R :=
  List.concat (map (fun i => map (fun j => A i j) (filter (fun j => negb (Nat.eqb i j)) (seq 0 N))) (seq 0 N)).
Definition poet_threshold (T N : nat) (resid : mat) (th : poet_tau) : res R :=
  match th with
  | TauAuto => Ok (match off_diag N resid with
                   | [] => 0
                   | l => median (map Rabs l) * sqrt (ln (INR (Nat.max N 2)) / INR (Nat.max T 1))
                   end)
  | TauNum t => if Rltb t 0 then Err ValueError else Ok t
  end.

(** moments.py:486-617: covariance, loadings [B_out] (N x k) and scores [F_out] (T x k), with [k];
    [argsort] is [np.argsort]. *)
Definition poet_full (eig : eig_oracle) (eigh : eigh_oracle) (argsort : list R -> list nat) (T N : nat) (X : mat)
           (k : poet_k) (th : poet_tau) (st : bool) : res (mat * mat * mat * nat) :=
  if Nat.leb N 1 then Err LinAlgError                                           (* np.cov is 0-d: 522-523 *)
  else match eigh N (poet_S T X st) with
  | None => Err LinAlgError
  | Some (d, Q) =>
      let order := rev (argsort (map d (seq 0 N))) in                           (* 524 *)
      let lam : vec := fun r => d (nth r order 0%nat) in
      let V : mat := fun i r => Q i (nth r order 0%nat) in
      let* k0 := poet_select k (map lam (seq 0 N)) in
      let k1 := Nat.max 1 (Nat.min k0 N) in                                     (* 545 *)
      let B : mat := fun i f => V i f * sqrt (Rmax (lam f) 0) in                (* 546-548 *)
      let resid := symmetrise (fun i j => poet_S T X st i j - sumn k1 (fun f => B i f * B j f)) in
      let* tau := poet_threshold T N resid th in
      let* Sigma := ensure_psd eig N (poet_sigma T k1 X B tau st) jit in
      Ok (Sigma, fun i f => poet_scale T X st i * B i f, fun t f => sumn N (fun i => poet_std T X st t i * V i f), k1)
  end.
