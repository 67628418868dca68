(** Model of the moment conversions of pyvallocation/utils/projection.py:10-160. *)
From Verif Require Import RBase QpBase ConsModel DistModel.
Open Scope R_scope.
Open Scope list_scope.

(** projection.py:10-26 [project_mean_covariance]. *)
Definition project_mean_covariance (mu : vec) (cov : mat) (h : R) : vec * mat :=
  (fun i => mu i * h, fun i j => cov i j * h).

(** projection.py:29-39 [convert_scenarios_compound_to_simple], entrywise. *)
Definition compound_to_simple (a : nd) : nd := mkND (nd_shape a) (fun k => p_expm1 (nd_at a k)).

(** [np.log(1 + x)] and [np.log1p(x)]: NaN below -1, minus infinity at -1. *)
Definition p_log1p (a : pyf) : pyf :=
  match a with
  | Fin x => if Rltb (-1) x then Fin (ln (1 + x)) else if Reqb x (-1) then NInf else NaN
  | PInf => PInf | _ => NaN
  end.
Definition p_le_m1 (a : pyf) : bool := match a with Fin x => Rleb x (-1) | NInf => true | _ => false end.

(** projection.py:42-61 [convert_scenarios_simple_to_compound]. *)
Definition simple_to_compound (a : nd) : res nd :=
  if nd_any p_le_m1 a then Err ValueError else Ok (mkND (nd_shape a) (fun k => p_log1p (nd_at a k))).

(** projection.py:109-133 [log2simple] on arrays (labels are copied from the arguments). *)
Definition log2simple (mu : vec) (C : mat) : vec * mat :=
  let d := fun i => C i i in
  let e := fun i => exp (mu i + 1 / 2 * d i) in
  (fun i => e i - 1, fun i j => exp (mu i + mu j + 1 / 2 * (d i + d j + 2 * C i j)) - e i * e j).

(** [x - 0.5 * v] for finite [x]. *)
Definition p_sub_half (x : R) (v : pyf) : pyf :=
  match v with Fin y => Fin (x - 1 / 2 * y) | PInf => NInf | NInf => PInf | NaN => NaN end.

(** projection.py:135-160 [simple2log] on finite arrays of [n] assets; the result may hold NaN or infinities. *)
Definition simple2log (n : nat) (mu : vec) (C : mat) : res ((nat -> pyf) * (nat -> nat -> pyf)) :=
  let m := fun i => mu i + 1 in
  if existsb (fun i => Rleb (m i) 0) (seq 0 n) then Err ValueError
  else
    let var := fun i => p_log1p (Fin (C i i / (m i * m i))) in
    Ok (fun i => p_sub_half (ln (m i)) (var i),
        fun i j => if Nat.eqb i j then var i else p_log1p (Fin (C i j / (m i * m j)))).
