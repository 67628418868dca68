(** Repeated processor calls that are given the same mutable object.
    [FlexibleViewsProcessor] (pyvallocation/views.py:424-629) writes rankings into the dictionary it was given as
    [mean_views]; [BlackLittermanProcessor] (views.py:1291-1396) divides the float array it was given as [market_weights] by
    its sum.  Both also happen when the call fails later.  Views of other kinds are not written to. *)
From Verif Require Import RBase QpBase OptModel MomModel NiwModel RiskModel BlModel EpModel.
Open Scope R_scope.
Open Scope list_scope.

(** The arguments of a call besides [mean_views]. *)
Record book_call := mkCall {
  bc_prior : fv_prior; bc_vol : vwin vspec; bc_var : vwin vspec; bc_skew : vwin vspec; bc_corr : list (vkey * vspec);
  bc_cvar : vwin cvspec; bc_quantile : list (vkey * option (R * vspec)); bc_rank : option (list label); bc_sequential : bool }.
Definition with_book (d : list (vkey * vspec)) (c : book_call) : views :=
  Views (WDict d) (bc_vol c) (bc_var c) (bc_skew c) (bc_corr c) (bc_cvar c) (bc_quantile c) (bc_rank c) (bc_sequential c).

(** views.py:594-613: what the dictionary holds after the call, whether it succeeds or not: the ranking is written (613) after the
    prior (424-573) and the other views (594-603) were read and before anything is solved. *)
Definition book_after chol normals (d : list (vkey * vspec)) (c : book_call) : list (vkey * vspec) :=
  let rankings :=
    let* su := fv_setup chol normals (bc_prior c) in
    let '(pandas, assets, T, N, Rm, p0) := su in
    guard (negb (N =? 1)%nat) ValueError
    (let* vol := to_dict SNum assets (bc_vol c) in
     let* var := to_dict SNum assets (bc_var c) in
     let* skew := to_dict SNum assets (bc_skew c) in
     let* cvar := to_dict CvNum assets (bc_cvar c) in
     apply_rank d (bc_rank c)) in
  match rankings with Ok d' => d' | Err _ => d end.

(** Calls one after the other with the same dictionary: the answers and what the dictionary holds at the end. *)
Fixpoint book_session minimize argsort chol normals (d : list (vkey * vspec)) (calls : list book_call)
  : list (res fv) * list (vkey * vspec) :=
  match calls with
  | [] => ([], d)
  | c :: t =>
      let r := flexible_views minimize argsort chol normals (bc_prior c) (with_book d c) in
      let s := book_session minimize argsort chol normals (book_after chol normals d c) t in
      (r :: fst s, snd s)
  end.

(** views.py:1342-1348: the weights array is divided by its sum once shape and risk aversion were accepted and [pi] is not given,
    before the views are read. *)
Definition weights_after (a : bl_args) (w : weights) : list R :=
  let n := m_rows (a_cov a) in
  let done :=
    guard ((m_nd (a_cov a) =? 2) && (m_cols (a_cov a) =? n))%nat ValueError
    (guard (negb (Rleb (a_delta a) 0)) ValueError
    (match a_pi a with
     | Some _ => Ok (w_vals w)
     | None => guard (List.length (w_vals w) =? n)%nat ValueError
                 (Ok (if w_shared w then map (fun x => x / rsum (w_vals w)) (w_vals w) else w_vals w))
     end)) in
  match done with Ok l => l | Err _ => w_vals w end.
Definition with_weights (w : weights) (a : bl_args) : bl_args :=
  BlArgs (a_cov a) (a_mean a) (Some w) (a_delta a) (a_tau a) (a_use_tau a) (a_pi a) (a_views a) (a_conf a) (a_omega a).
Fixpoint weights_session lsolve (w : weights) (calls : list bl_args) : list (res bl) * list R :=
  match calls with
  | [] => ([], w_vals w)
  | a :: t =>
      let r := black_litterman lsolve (with_weights w a) in
      let s := weights_session lsolve (Weights (weights_after a w) (w_shared w)) t in
      (r :: fst s, snd s)
  end.
