(** Model of pyvallocation/plotting.py, part 2: [plot_assumptions_3d] with the helpers [_project_to_3d] and [_ellipsoid_mesh].

    Vectors and matrices are index functions with explicit sizes; [eigh] is [np.linalg.eigh] ([None] when it raises),
    [argsort] is [np.argsort].  Styling is not modelled. *)
From Coq Require Import List ZArith Lia Lra.
Import ListNotations.
From Verif Require Import Err RBase QpBase MomModel GlModel.
Open Scope R_scope.
Open Scope list_scope.

(** Scenario rows. *)
Definition rows := (nat * mat)%type.
Record projected := mkProj { pj_mean : vec; pj_cov : mat; pj_scen : option rows; pj_comp : mat }.

(** [np.eye(n, 3)]. *)
Definition eye_ (i j : nat) : R := if Nat.eqb i j then 1 else 0.

(** plotting.py:83-135 [_project_to_3d] for a mean of length [n] and a covariance of shape [r x c]. *)
Definition project (eigh : eigh_oracle) (argsort : list R -> list nat) (n : nat) (mean : vec) (r c : nat) (cov : mat)
  (scen : option rows) (comp : option mat) : res projected :=
  if negb (Nat.eqb r c) then Err ValueError                                                 (* 105-106 *)
  else if negb (Nat.eqb r n) then Err ValueError                                            (* 107-108 *)
  else
    let C := symmetrise cov in                                                              (* 109 *)
    if Nat.leb 3 n then
      let* V := match comp with
                | Some V => Ok V
                | None => match eigh n C with
                          | None => Err LinAlgError
                          | Some (d, Q) =>
                              let order := rev (argsort (map d (seq 0 n))) in               (* 115 *)
                              Ok (fun i f => Q i (nth f order 0%nat))                       (* 116 *)
                          end
                end in
      Ok (mkProj (fun f => sumn n (fun i => V i f * mean i))                                (* 117 *)
                 (fun f g => sumn n (fun i => sumn n (fun j => V i f * C i j * V j g)))     (* 118 *)
                 (option_map (fun s => (fst s, fun t f => sumn n (fun i => snd s t i * V i f))) scen)  (* 119-123 *)
                 V)
    else
      Ok (mkProj (fun f => if Nat.ltb f n then mean f else 0)                               (* 126-127 *)
                 (fun f g => if Nat.ltb f n && Nat.ltb g n then C f g else 0)               (* 128-129 *)
                 (option_map (fun s => (fst s, fun t f => if Nat.ltb f n then snd s t f else 0)) scen)  (* 130-133 *)
                 eye_).                                                                     (* 134 *)

(** [np.linspace(0, b, m)]: entry [i]. *)
Definition lin (b : R) (m i : nat) : R := if Nat.eqb m 1 then 0 else b * INR i / (INR m - 1).

(** The constant 1e-16. *)
Definition tiny : R := 1 / 10000000000000000.

(** plotting.py:138-170 [_ellipsoid_mesh]: point [(i, j)] of the mesh, coordinate [a < 3]. *)
Definition mesh (eigh : eigh_oracle) (cov : mat) (n_std : R) (m : nat) : res (nat -> nat -> vec) :=
  match eigh 3%nat (symmetrise cov) with
  | None => Err LinAlgError
  | Some (d, Q) =>
      let radii k := n_std * sqrt (Rmax (d k) 0 + tiny) in                                  (* 157-158 *)
      let u i := lin (2 * PI) m i in
      let v j := lin PI m j in
      let unit i j k := match k with
                        | 0%nat => cos (u i) * sin (v j)
                        | 1%nat => sin (u i) * sin (v j)
                        | _ => 1 * cos (v j)
                        end in
      Ok (fun i j a => sumn 3 (fun k => Q a k * (radii k * unit i j k)))                    (* 162-169 *)
  end.

(** plotting.py:770-791 [_plot_principal_axes]: the ends of segment [k < 3]. *)
Definition principal_axes (eigh : eigh_oracle) (argsort : list R -> list nat) (mean : vec) (cov : mat) : res (nat -> vec * vec) :=
  match eigh 3%nat (symmetrise cov) with
  | None => Err LinAlgError
  | Some (d, Q) =>
      let order := rev (argsort (map d (seq 0 3))) in
      let vec_ k a := Q a (nth k order 0%nat) * sqrt (Rmax (d (nth k order 0%nat)) 0 + tiny) in
      Ok (fun k => (fun a => mean a - vec_ k a, fun a => mean a + vec_ k a))
  end.

(** plotting.py:734-736: [np.linspace(0, T - 1, max_points).astype(int)] for the scenarios shown; [linspace] raises for a
    negative number of points. *)
Definition shown_rows (T : nat) (max_points : Z) : res (list nat) :=
  if (Z.of_nat T <=? max_points)%Z then Ok (seq 0 T)
  else if (max_points <? 0)%Z then Err ValueError
  else let m := Z.to_nat max_points in Ok (map (fun i => Z.to_nat (Int_part (lin (INR (T - 1)) m i))) (seq 0 m)).

(** plotting.py:847-859: the shares in the axis labels.  [eigvalsh] reads the lower triangle of the matrix as given. *)
Definition lower_triangle (A : mat) : mat := fun i j => if Nat.leb j i then A i j else A j i.
Definition shares (eigh : eigh_oracle) (argsort : list R -> list nat) (n : nat) (cov : mat) : res (nat -> R) :=
  match eigh n (lower_triangle cov) with
  | None => Err LinAlgError
  | Some (d, _) =>
      let e k := Rmax (d k) 0 in
      let order := rev (argsort (map e (seq 0 n))) in
      let s := sumn n (fun k => e (nth k order 0%nat)) in
      let total := if Rltb 0 s then s else 1 in
      Ok (fun f => if Nat.ltb f n then e (nth f order 0%nat) / total else 0)
  end.

(** One panel: the ellipsoid around the mean, the mean, the scenarios and the principal axes. *)
Record panel3 := mkP3 { p3_mesh : nat -> nat -> vec; p3_mean : vec; p3_scen : option rows; p3_axes : nat -> vec * vec }.
Definition draw_panel eigh argsort (mean : vec) (cov : mat) (scen : option rows) (n_std : R) : res panel3 :=
  let* e := mesh eigh cov n_std 32 in
  let* ax := principal_axes eigh argsort mean cov in
  Ok (mkP3 (fun i j a => e i j a + mean a) mean scen ax).

(** plotting.py:706-899 [plot_assumptions_3d]: the panels and the shares in the labels; [scen] has shape [T x c]. *)
Definition plot_assumptions_3d eigh argsort (n : nat) (mean : vec) (r c : nat) (cov : mat) (scen : option (nat * nat * mat))
  (unc : option (nat * nat * mat)) (n_std unc_std : R) (max_points : Z) : res (panel3 * option panel3 * (nat -> R)) :=
  let* sc := match scen with
             | None => Ok None
             | Some (T, k, X) =>
                 if negb (Nat.eqb k n) then Err ValueError                                  (* 732-733 *)
                 else let* idx := shown_rows T max_points in
                      Ok (Some (List.length idx, fun t i => X (nth t idx 0%nat) i))
             end in
  let* p := project eigh argsort n mean r c cov sc None in
  let* sh := shares eigh argsort n cov in
  let* main := draw_panel eigh argsort (pj_mean p) (pj_cov p) (pj_scen p) n_std in
  match unc with
  | None => Ok (main, None, sh)
  | Some (r', c', U) =>
      let* q := project eigh argsort n mean r' c' U None (Some (pj_comp p)) in              (* 869 *)
      let* up := draw_panel eigh argsort (pj_mean q) (pj_cov q) None unc_std in
      Ok (main, Some up, sh)
  end.
