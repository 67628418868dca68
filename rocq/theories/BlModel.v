(** Model of [BlackLittermanProcessor] (pyvallocation/views.py:1175-1595) over exact reals.
    Entries are finite; market weights are assumed not to sum to zero (numpy would return non-finite
    values).  Printing ([verbose]) and logging are not modelled.  [lsolve k A m B] is
    [np.linalg.solve]: [None] is LinAlgError. *)
From Coq Require Export String.
From Coq Require Import DecimalString Decimal.
From Verif Require Import RBase QpBase OptModel NiwModel.
From Verif Require MomModel.
Open Scope R_scope.
Open Scope list_scope.

(** Asset labels: strings or integers. *)
Inductive label := LStr (s : string) | LInt (z : Z).
Definition label_dec (a b : label) : {a = b} + {a <> b}.
Proof. decide equality; [apply string_dec|apply Z.eq_dec]. Defined.
Definition label_eqb a b := if label_dec a b then true else false.
(** [label in assets] / [assets.index(label)]: position of the first occurrence. *)
Fixpoint index_of (l : label) (assets : list label) : option nat :=
  match assets with
  | [] => None
  | a :: t => if label_eqb l a then Some 0%nat else option_map S (index_of l t)
  end.
(** [s.isdigit()] and [int(s)] for ASCII digits. *)
Definition digits (s : string) : option nat :=
  match s with
  | EmptyString => None
  | _ => option_map Nat.of_uint (NilEmpty.uint_of_string s)
  end.

(** views.py:1401-1421 [_asset_index]. *)
Definition bl_index (assets : list label) (l : label) : res nat :=
  match index_of l assets with
  | Some i => Ok i
  | None =>
      match l with
      | LInt z => if (0 <=? z)%Z && (z <? Z.of_nat (List.length assets))%Z then Ok (Z.to_nat z) else Err ValueError
      | LStr s =>
          match digits s with
          | Some k => match index_of (LInt (Z.of_nat k)) assets with
                      | Some i => Ok i
                      | None => if (k <? List.length assets)%nat then Ok k else Err ValueError
                      end
          | None => Err ValueError
          end
      end
  end.

(** View keys: a label, or a tuple of labels.  View values: a number or a sequence of numbers. *)
Inductive vkey := KOne (l : label) | KTup (ls : list label).
Inductive vval := VNum (x : R) | VSeq (xs : list R).
Definition vkey_dec (a b : vkey) : {a = b} + {a <> b}.
Proof. decide equality; [apply label_dec|apply (list_eq_dec label_dec)]. Defined.

Record view := View { vw_row : vec; vw_target : R; vw_key : vkey }.

(** [row[i] = 1.0; row[j] = -1.0] on a zero row, in this order. *)
Definition rel_row (i j : nat) : vec := fun k => if (k =? j)%nat then -1 else if (k =? i)%nat then 1 else 0.

(** views.py:1424-1471 [_build_views], one entry. *)
Definition build_view (assets : list label) (kv : vkey * vval) : res view :=
  let (key, value) := kv in
  let* target := (match value with VNum x => Ok x | VSeq [x] => Ok x | VSeq _ => Err ValueError end) in   (* 1442-1449 *)
  match key with
  | KTup [a; b] => let* i := bl_index assets a in let* j := bl_index assets b in Ok (View (rel_row i j) target key) (* 1451-1455 *)
  | KTup _ => Err ValueError                                                     (* unpacking *)
  | KOne l => let* i := bl_index assets l in Ok (View (fun k => if (k =? i)%nat then 1 else 0) target key)  (* 1456-1459 *)
  end.

(** A Python dict built by assigning in order: a repeated key keeps its place and takes the last value. *)
Fixpoint dict_set (d : list (vkey * vval)) (k : vkey) (v : vval) : list (vkey * vval) :=
  match d with
  | [] => [(k, v)]
  | (k', v') :: t => if vkey_dec k k' then (k', v) :: t else (k', v') :: dict_set t k v
  end.
Inductive mviews := MNone | MDict (d : list (vkey * vval)) | MVec (l : list R).
(** views.py:1360-1376 [_vec_to_dict]. *)
Definition vec_to_dict (assets : list label) (v : mviews) : res (list (vkey * vval)) :=
  match v with
  | MNone => Ok []
  | MDict d => Ok d
  | MVec l => guard (List.length l =? List.length assets)%nat ValueError
      (Ok (fold_left (fun d p => dict_set d (KOne (fst p)) (VNum (snd p))) (combine assets l) []))
  end.

(** views.py:1475-1503 [_parse_conf]. *)
Inductive conf := CNone | CNum (x : R) | CDict (d : list (vkey * R)) | CArr (l : list R).
Fixpoint assoc {B} (d : list (vkey * B)) (k : vkey) : option B :=
  match d with [] => None | (k', v) :: t => if vkey_dec k k' then Some v else assoc t k end.
Definition parse_conf (c : conf) (keys : list vkey) : res (option (list R)) :=
  match c with
  | CNone => Ok None
  | CNum x => Ok (Some (map (fun _ => x) keys))
  | CDict d => Ok (Some (map (fun k => match assoc d k with Some x => x | None => 1 end) keys))
  | CArr l => guard (List.length l =? List.length keys)%nat ValueError (Ok (Some l))
  end.

(** views.py:1506-1561 [_build_omega].  [OStr] is any other string ([np.asarray] raises ValueError). *)
Inductive omega_arg := ONone | OIdzorek | OStr | OVec (l : list R) | OMat (r c : nat) (M : mat).
Definition diag_of (l : list R) : mat := fun a b => if (a =? b)%nat then nth a l 0 else 0.
Definition clip (x lo hi : R) : R := Rmin hi (Rmax lo x).
Definition conf_eps : R := 1 / 1000000.
Definition build_omega (n : nat) (sigma : mat) (tau : R) (use_tau : bool) (P : list vec) (cf : option (list R)) (om : omega_arg) : res mat :=
  let k := List.length P in
  if (k =? 0)%nat then Ok (fun _ _ => 0)                                         (* 1516-1517 *)
  else
    let tau_sigma := fun i j => tau * sigma i j in
    match om with
    | OIdzorek =>
        match cf with
        | None => Err ValueError                                                 (* 1523-1524 *)
        | Some cs =>
            let base := if use_tau then tau_sigma else sigma in
            Ok (diag_of (map2 (fun p c => let c := clip c conf_eps (1 - conf_eps) in (1 - c) / c * quad n base p) P cs)) (* 1528-1536 *)
        end
    | ONone => Ok (diag_of (map (fun p => quad n tau_sigma p) P))               (* 1542-1543 *)
    | OStr => Err ValueError
    | OVec l => guard (List.length l =? k)%nat ValueError (Ok (diag_of l))       (* 1550-1551 *)
    | OMat r c M => guard ((r =? k) && (c =? k))%nat ValueError (Ok M)           (* 1552-1557 *)
    end.

(** [m x n] matrix as a list of rows. *)
Definition rows_mat (P : list vec) : mat := fun k i => nth k P (fun _ => 0) i.

(** views.py:1564-1595 [_compute_posterior]; the prior mean has length [np]. *)
Definition compute_posterior (lsolve : nat -> mat -> nat -> mat -> option mat) (n : nat) (sigma : mat) (tau : R)
  (np : nat) (pi : vec) (P : list vec) (Q : list R) (om : mat) : res (nat * vec * mat) :=
  let k := List.length P in
  let ts := fun i j => tau * sigma i j in
  let Pm := rows_mat P in
  if (k =? 0)%nat then Ok (np, pi, sigma)                                        (* 1575-1578 *)
  else
    let A := fun a b => sumn n (fun i => sumn n (fun j => Pm a i * ts i j * Pm b j)) + om a b in  (* 1581 *)
    guard (np =? n)%nat ValueError                                               (* P @ pi *)
    (match lsolve k A 1%nat (fun a _ => nth a Q 0 - dot n (Pm a) pi) with        (* 1584-1585 *)
     | None => Err LinAlgError
     | Some X =>
       match lsolve k A n (fun a j => sumn n (fun i => Pm a i * ts i j)) with    (* 1589 *)
       | None => Err LinAlgError
       | Some Y =>
         let mean := fun i => pi i + sumn n (fun j => ts i j * sumn k (fun a => Pm a j * X a 0%nat)) in  (* 1587 *)
         let middle := fun i j => sumn n (fun l => ts i l * sumn k (fun a => Pm a l * Y a j)) in
         let c := fun i j => sigma i j + ts i j - middle i j in                  (* 1590 *)
         Ok (n, mean, fun i j => 1 / 2 * (c i j + c j i))                        (* 1591 *)
       end
     end).

(** Market weights: the values, and whether [np.asarray(w, dtype=float).ravel()] shares memory with the
    caller's object (a float64 array or Series). *)
Record weights := Weights { w_vals : list R; w_shared : bool }.
Record bl_args := BlArgs {
  a_cov : matin; a_mean : option (list R); a_weights : option weights; a_delta : R; a_tau : R;
  a_use_tau : bool; a_pi : option (list R); a_views : mviews; a_conf : conf; a_omega : omega_arg }.

(** Result: labels, posterior mean (with its length) and covariance, and the contents of the caller's
    market-weights array after the call. *)
Record bl := Bl { b_lab : option (list label); b_len : nat; b_mean : vec; b_cov : mat;
                  b_P : list vec; b_Q : list R; b_om : mat; b_weights_after : option (list R) }.

(** views.py:1323-1336: labels, shape and symmetry of the prior covariance. *)
Definition bl_assets (c : matin) : list label :=
  match m_lab c with Some (ix, _) => map LStr ix | None => map (fun i => LInt (Z.of_nat i)) (seq 0 (m_rows c)) end.
Definition bl_sigma (n : nat) (C : mat) : mat :=
  if MomModel.allclose_t n C (1 / 100000000) then C else fun i j => 1 / 2 * (C i j + C j i).

(** views.py:1342-1356: the prior mean and the caller's weights afterwards. *)
Definition bl_prior (n : nat) (sigma : mat) (a : bl_args) : res (list R * option (list R)) :=
  let after := option_map w_vals (a_weights a) in
  match a_pi a with
  | Some l => Ok (l, after)
  | None =>
      match a_weights a with
      | Some w =>
          guard (List.length (w_vals w) =? n)%nat ValueError
          (let ws := map (fun x => x / rsum (w_vals w)) (w_vals w) in
           Ok (map (fun i => a_delta a * dot n (sigma i) (of_list ws)) (seq 0 n), Some (if w_shared w then ws else w_vals w)))
      | None => match a_mean a with Some l => Ok (l, after) | None => Err ValueError end
      end
  end.

(** views.py:1291-1396 [__init__].  DataFrame labels are strings; 0-d covariances are not modelled. *)
Definition black_litterman lsolve (a : bl_args) : res bl :=
  let n := m_rows (a_cov a) in
  let assets := bl_assets (a_cov a) in
  guard ((m_nd (a_cov a) =? 2) && (m_cols (a_cov a) =? n))%nat ValueError        (* 1332-1333 *)
  (let sigma := bl_sigma n (m_at (a_cov a)) in                                   (* 1334-1336 *)
   guard (negb (Rleb (a_delta a) 0)) ValueError                                  (* 1338-1339 *)
   (let* (pi, after) := bl_prior n sigma a in                                    (* 1342-1356 *)
    let* d := vec_to_dict assets (a_views a) in
    let* vs := mapM (build_view assets) d in
    let P := map vw_row vs in let Q := map vw_target vs in
    let* cf := parse_conf (a_conf a) (map vw_key vs) in
    let* om := build_omega n sigma (a_tau a) (a_use_tau a) P cf (a_omega a) in
    let* (lm, C) := compute_posterior lsolve n sigma (a_tau a) (List.length pi) (of_list pi) P Q om in
    match m_lab (a_cov a) with
    | Some _ => guard (fst lm =? n)%nat ValueError (Ok (Bl (Some assets) (fst lm) (snd lm) C P Q om after))  (* 1391-1395 *)
    | None => Ok (Bl None (fst lm) (snd lm) C P Q om after)
    end)).
