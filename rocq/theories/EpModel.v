(** Model of entropy pooling and [FlexibleViewsProcessor] (pyvallocation/views.py:16-1173) over exact reals.
    Scenario matrices are index functions with explicit sizes, constraint rows have one entry per
    scenario.  All numbers are finite, so the finiteness checks never fire.  [scipy.optimize.minimize]
    is a parameter: [None] is [success=False].  The random generator is the parameter [normals]. *)
From Coq Require Export String.
From Coq Require Import DecimalString.
From Verif Require Import RBase QpBase SortLib OptModel NiwModel BlModel RiskModel.
Open Scope R_scope.
Open Scope list_scope.

(** ** Entropy pooling *)

(** probabilities.py:10-45 [normalize_probability_vector] with [strictly_positive=True], on finite reals. *)
Definition normalize_positive (p : list R) : res (list R) :=
  match p with
  | [] => Err ValueError                                                        (* 30-31 *)
  | _ => guard (negb (existsb (fun x => Rleb x 0) p)) ValueError                 (* 34-36 *)
         (if risclose (rsum p) 1 then Ok p else Ok (map (fun x => x / rsum p) p)) (* 40-45 *)
  end.

(** The dual problem handed to scipy: scenarios, log prior, stacked rows with right-hand sides, the number of
    equality rows (multipliers of the others are bounded below by 0) and the method. *)
Record dual := Dual { du_S : nat; du_logp : vec; du_rows : rows; du_eq : nat; du_method : string }.
Definition row_of (d : dual) (k : nat) : vec := fst (nth k (du_rows d) (fun _ => 0, 0)).
Definition rhs_of (d : dual) (k : nat) : R := snd (nth k (du_rows d) (fun _ => 0, 0)).
Definition du_K (d : dual) : nat := List.length (du_rows d).

(** views.py:158-162: [exp(clip(log p - 1 - A'lambda, -700, 700))]. *)
Definition ep_exponent (d : dual) (lam : vec) (s : nat) : R := du_logp d s - 1 - sumn (du_K d) (fun k => row_of d k s * lam k).
Definition ep_x (d : dual) (lam : vec) (s : nat) : R := exp (clip (ep_exponent d lam s) (-700) 700).
(** views.py:79-168 [_entropy_pooling_dual_objective]: value and gradient. *)
Definition dual_objective (d : dual) (lam : vec) : R :=
  1000 * - (- sumn (du_S d) (ep_x d lam) - sumn (du_K d) (fun k => lam k * rhs_of d k)).
Definition dual_gradient (d : dual) (lam : vec) (k : nat) : R :=
  1000 * (rhs_of d k - sumn (du_S d) (fun s => row_of d k s * ep_x d lam s)).

(** views.py:170-301 [entropy_pooling]; [G] is given when both [G] and [h] are.  Rows are assumed to have one
    entry per probability and [b], [h] one entry per row. *)
Definition entropy_pooling (minimize : dual -> option vec) (p : list R) (A : rows) (G : option rows) (method : option string) : res vec :=
  let m := match method with None => "TNC"%string | Some s => if String.eqb s "" then "TNC"%string else s end in   (* 229 *)
  guard (String.eqb m "TNC" || String.eqb m "L-BFGS-B") ValueError                 (* 230-233 *)
  (let* pn := normalize_positive p in                                              (* 235-239 *)
   let d := Dual (List.length pn) (fun s => ln (of_list pn s)) (A ++ opt_rows G) (List.length A) m in (* 240-261 *)
   match minimize d with
   | None => Err RuntimeError                                                      (* 277-283 *)
   | Some lam =>
       let total := sumn (du_S d) (ep_x d lam) in                                  (* 285-298 *)
       Ok (fun s => ep_x d lam s / total)                                          (* 299 *)
   end).

(** ** View specifications *)
Inductive cmp := Eq | Ge | Le | Gt | Lt.
(** A number, [(operator, number)], [("between", lo, hi)], or something else. *)
Inductive vspec := SNum (x : R) | SOp (o : cmp) (x : R) | SBetween (lo hi : R) | SBad.

(** views.py:26-76 [at_least], [at_most], [between], [above], [below]. *)
Definition at_least (x : R) : vspec := SOp Ge x.
Definition at_most (x : R) : vspec := SOp Le x.
Definition between (lo hi : R) : res vspec := guard (Rleb lo hi) ValueError (Ok (SBetween lo hi)).
Definition above (x : R) : vspec := SOp Gt x.
Definition below (x : R) : vspec := SOp Lt x.

(** views.py:631-660 [_parse_view], [_parse_view_specs].  [float] of something else is a TypeError. *)
Definition parse_specs (v : vspec) : res (list (cmp * R)) :=
  match v with
  | SNum x => Ok [(Eq, x)]
  | SOp o x => Ok [(o, x)]
  | SBetween lo hi => guard (Rleb lo hi) ValueError (Ok [(Ge, lo); (Le, hi)])
  | SBad => Err TypeError
  end.

(** views.py:681-704 [_asset_idx] for a label; a tuple is never a label (column MultiIndexes are not modelled). *)
Definition asset_idx (assets : list label) (l : label) : res nat :=
  match index_of l assets with
  | Some i => Ok i
  | None =>
      match l with
      | LStr s => match digits s with
                  | Some k => match index_of (LInt (Z.of_nat k)) assets with Some i => Ok i | None => Err ValueError end
                  | None => Err ValueError
                  end
      | LInt _ => Err ValueError
      end
  end.
Definition key_idx (assets : list label) (k : vkey) : res nat :=
  match k with KOne l => asset_idx assets l | KTup _ => Err ValueError end.

(** views.py:776-792 [add]: equality rows and [<=] rows. *)
Definition add_row (acc : rows * rows) (o : cmp) (row : vec) (raw : R) : rows * rows :=
  match o with
  | Eq => (fst acc ++ [(row, raw)], snd acc)
  | Le | Lt => (fst acc, snd acc ++ [(row, raw)])
  | Ge | Gt => (fst acc, snd acc ++ [(fun s => - row s, - raw)])
  end.

Inductive moment := MMean | MVol | MVar | MSkew | MCorr.

(** [for (a1, a2), vw in view_dict.items()]: a tuple key is unpacked; so is a string of two characters. *)
Definition unpack2 (k : vkey) : res (label * label) :=
  match k with
  | KTup [a; b] => Ok (a, b)
  | KTup _ => Err ValueError
  | KOne (LStr (String c1 (String c2 EmptyString))) => Ok (LStr (String c1 EmptyString), LStr (String c2 EmptyString))
  | KOne (LStr _) => Err ValueError
  | KOne (LInt _) => Err TypeError
  end.

(** One view of [_build_constraints] (views.py:794-843): the scenario row and, for each target, the check and
    right-hand side. *)
Definition view_row (assets : list label) (Rm : mat) (mu var : vec) (mt : moment) (key : vkey) : res (vec * (R -> bool) * (R -> R)) :=
  match mt with
  | MMean =>                                                                       (* 794-804 *)
      match key with
      | KTup [a; b] => let* i := asset_idx assets a in let* j := asset_idx assets b in
                       Ok (fun s => Rm s i - Rm s j, fun _ => true, fun t => t)
      | _ => let* i := key_idx assets key in Ok (fun s => Rm s i, fun _ => true, fun t => t)
      end
  | MVol => let* i := key_idx assets key in                                        (* 806-813 *)
            Ok (fun s => Rm s i ^ 2, fun t => negb (Rleb t 0), fun t => t ^ 2 + mu i ^ 2)
  | MVar => let* i := key_idx assets key in                                        (* 815-822 *)
            Ok (fun s => Rm s i ^ 2, fun t => Rleb 0 t, fun t => t + mu i ^ 2)
  | MSkew => let* i := key_idx assets key in                                       (* 824-832 *)
             guard (negb (Rltb (var i) (1 / 1000000000000))) ValueError
             (Ok (fun s => Rm s i ^ 3, fun _ => true, fun t => t * sqrt (var i) ^ 3 + 3 * mu i * var i + mu i ^ 3))
  | MCorr => let* (a, b) := unpack2 key in let* i := asset_idx assets a in let* j := asset_idx assets b in  (* 834-843 *)
             Ok (fun s => Rm s i * Rm s j, fun t => Rleb (-1) t && Rleb t 1, fun t => t * sqrt (var i) * sqrt (var j) + mu i * mu j)
  end.
Fixpoint add_specs (acc : rows * rows) (row : vec) (ok : R -> bool) (rhs : R -> R) (l : list (cmp * R)) : res (rows * rows) :=
  match l with
  | [] => Ok acc
  | (o, t) :: l' => guard (ok t) ValueError (add_specs (add_row acc o row (rhs t)) row ok rhs l')
  end.
(** views.py:707-848 [_build_constraints]. *)
Fixpoint build_constraints (assets : list label) (Rm : mat) (mu var : vec) (mt : moment) (vs : list (vkey * vspec)) (acc : rows * rows) : res (rows * rows) :=
  match vs with
  | [] => Ok acc
  | (key, v) :: vs' =>
      let* (ro, rhs) := view_row assets Rm mu var mt key in
      let (row, ok) := ro : vec * (R -> bool) in
      let* l := parse_specs v in
      let* acc' := add_specs acc row ok rhs l in
      build_constraints assets Rm mu var mt vs' acc'
  end.

(** ** The processor *)
(** A dictionary or a vector of views. *)
Inductive vwin (B : Type) := WNone | WDict (d : list (vkey * B)) | WVec (l : list R).
Arguments WNone {B}. Arguments WDict {B}. Arguments WVec {B}.
Fixpoint dset {B} (d : list (vkey * B)) (k : vkey) (v : B) : list (vkey * B) :=
  match d with
  | [] => [(k, v)]
  | (k', v') :: t => if vkey_dec k k' then (k', v) :: t else (k', v') :: dset t k v
  end.
Definition dmem {B} (d : list (vkey * B)) (k : vkey) : bool := existsb (fun p => if vkey_dec (fst p) k then true else false) d.
(** views.py:575-592 [_vec_to_dict]. *)
Definition to_dict {B} (num : R -> B) (assets : list label) (v : vwin B) : res (list (vkey * B)) :=
  match v with
  | WNone => Ok []
  | WDict d => Ok d
  | WVec l => guard (List.length l =? List.length assets)%nat ValueError
                (Ok (fold_left (fun d p => dset d (KOne (fst p)) (num (snd p))) (combine assets l) []))
  end.

(** CVaR views: a number, or a sequence; quantile views: [(level, probability)] or something else. *)
Inductive cvspec := CvNum (x : R) | CvSeq (l : list R).
Record views := Views {
  vs_mean : vwin vspec; vs_vol : vwin vspec; vs_var : vwin vspec; vs_skew : vwin vspec; vs_corr : list (vkey * vspec);
  vs_cvar : vwin cvspec; vs_quantile : list (vkey * option (R * vspec)); vs_rank : option (list label); vs_sequential : bool }.

(** views.py:605-613: [rank_mean] becomes pairwise views, unless the pair has a view already. *)
Fixpoint rank_views (d : list (vkey * vspec)) (l : list label) : list (vkey * vspec) :=
  match l with
  | [] => d
  | a :: t =>
      match t with
      | [] => d
      | b :: _ => rank_views (if dmem d (KTup [a; b]) then d else d ++ [(KTup [a; b], SOp Ge 0)]) t
      end
  end.
Definition apply_rank (d : list (vkey * vspec)) (r : option (list label)) : res (list (vkey * vspec)) :=
  match r with
  | None => Ok d
  | Some l => guard (negb (List.length l <? 2)%nat) ValueError (Ok (rank_views d l))
  end.

(** Moments under [q] (views.py:571-573, 619-620, 1046-1048): [np.cov(aweights=q, bias=True)] divides by the
    total weight. *)
Definition q_mean (T : nat) (Rm : mat) (q : vec) : vec := fun i => sumn T (fun s => Rm s i * q s).
Definition q_var (T : nat) (Rm : mat) (q : vec) (mu : vec) : vec := fun i => sumn T (fun s => (Rm s i - mu i) ^ 2 * q s).
Definition np_cov (T : nat) (Rm : mat) (q : vec) : mat :=
  let w := sumn T q in
  let m := fun i => sumn T (fun s => Rm s i * q s) / w in
  fun i j => sumn T (fun s => (Rm s i - m i) * q s * (Rm s j - m j)) / w.

(** The normalisation row: one in every scenario, right-hand side 1. *)
Definition ones_row : vec * R := (fun _ => 1, 1).

Section Proc.
  Variable minimize : dual -> option vec.
  Variable argsort : list R -> list nat.
  Variables (assets : list label) (T N : nat) (Rm : mat).

  (** views.py:998-1024 [do_ep]. *)
  Definition do_ep (p : vec) (c : rows * rows) : res vec :=
    entropy_pooling minimize (map p (seq 0 T)) (fst c ++ [ones_row]) (match snd c with [] => None | G => Some G end) None.

  (** views.py:895-938 [_solve_for_s], for the [c = s + 1] lowest scenarios: posterior and relative entropy.
      [np.argsort(order)] is the rank of each scenario. *)
  Fixpoint position (i : nat) (o : list nat) : nat := match o with [] => 0%nat | j :: t => if (i =? j)%nat then 0%nat else S (position i t) end.
  Definition tail_rows (i c : nat) (gamma target : R) : rows :=
    let order := argsort (map (fun s => Rm s i) (seq 0 T)) in
    let inside := fun s => (position s order <? c)%nat in
    [(fun s => if inside s then 1 else 0, gamma); (fun s => if inside s then Rm s i else 0, gamma * target); ones_row].
  Definition solve_for (i : nat) (gamma target : R) (p : vec) (c : nat) : option (vec * R) :=
    match entropy_pooling minimize (map p (seq 0 T)) (tail_rows i c gamma target) None None with
    | Ok q => Some (q, sumn T (fun s => q s * ln (q s / p s)))
    | Err _ => None
    end.

  (** Python's [round]: to the nearest integer, ties to even. *)
  Definition pyround (x : R) : Z :=
    let f := Int_part x in
    if Rltb (x - IZR f) (1 / 2) then f else if Rltb (1 / 2) (x - IZR f) then (f + 1)%Z else if Z.even f then f else (f + 1)%Z.
  (** [np.searchsorted(cum_p, gamma, side='left')] on a non-decreasing array. *)
  Fixpoint search_left (g : R) (l : list R) : nat := match l with [] => 0%nat | x :: t => if Rltb x g then S (search_left g t) else 0%nat end.

  (** views.py:944-972: the Newton search; [s] is an integer, the candidate uses the [s + 1] lowest scenarios.  A failed
      candidate has infinite relative entropy; if any of the three neighbours is infinite, the step is undefined or zero. *)
  Definition at_s (i : nat) (gamma target : R) (p : vec) (s : Z) : option (vec * R) := solve_for i gamma target p (Z.to_nat (s + 1)).
  Fixpoint newton (fuel : nat) (i : nat) (gamma target : R) (p : vec) (s : Z) (best : option (vec * R)) : option (vec * R) :=
    match fuel with
    | O => best
    | S fuel' =>
        let s_lo := Z.max 1 (s - 1) in
        let s_hi := Z.min (Z.of_nat T - 2) (s + 1) in
        match at_s i gamma target p s_lo, at_s i gamma target p s, at_s i gamma target p s_hi with
        | Some (_, lo), Some (_, mid), Some (_, hi) =>
            let d1 := hi - mid in
            let d2 := hi - 2 * mid + lo in
            if Rltb (Rabs d2) (1 / 100000000000000) then best
            else
              let s_new := Z.max 1 (Z.min (pyround (IZR s - d1 / d2)) (Z.of_nat T - 2)) in
              if (s_new =? s)%Z then best
              else
                let cand := at_s i gamma target p s_new in
                let best' := match cand, best with
                             | Some (q, kl), None => Some (q, kl)
                             | Some (q, kl), Some (_, bkl) => if Rltb kl bkl then Some (q, kl) else best
                             | None, _ => best
                             end in
                newton fuel' i gamma target p s_new best'
        | _, _, _ => best
        end
    end.

  (** views.py:850-977 [_solve_cvar_view]. *)
  Definition solve_cvar (i : nat) (gamma target : R) (p : vec) : res vec :=
    let x := map (fun s => Rm s i) (seq 0 T) in
    let ps := take 0 (map p (seq 0 T)) (argsort x) in
    let s_bar := Z.max 1 (Z.min (Z.of_nat (search_left gamma (cumsum 0 ps))) (Z.of_nat T - 1)) in
    match newton 20 i gamma target p s_bar (at_s i gamma target p s_bar) with
    | Some (q, _) => Ok q
    | None => Err RuntimeError
    end.

  Definition nonempty {B} (d : list B) : bool := match d with [] => false | _ => true end.

  (** views.py:1032-1049: the sequential branch. *)
  Fixpoint sequential_blocks (blocks : list (moment * list (vkey * vspec))) (q mu var : vec) : res vec :=
    match blocks with
    | [] => Ok q
    | (mt, d) :: bs =>
        if nonempty d then
          let* c := build_constraints assets Rm mu var mt d ([], []) in
          let* q' := do_ep q c in
          let mu' := q_mean T Rm q' in
          sequential_blocks bs q' mu' (q_var T Rm q' mu')
        else sequential_blocks bs q mu var
    end.

  (** views.py:1063-1077: all blocks together. *)
  Fixpoint all_blocks (blocks : list (moment * list (vkey * vspec))) (mu var : vec) (acc : rows * rows) : res (rows * rows) :=
    match blocks with
    | [] => Ok acc
    | (mt, d) :: bs => let* acc' := build_constraints assets Rm mu var mt d acc in all_blocks bs mu var acc'
    end.

  (** views.py:1080-1105: the rows of quantile views. *)
  Fixpoint quantile_rows (d : list (vkey * option (R * vspec))) (acc : rows * rows) : res (rows * rows) :=
    match d with
    | [] => Ok acc
    | (key, sp) :: d' =>
        let* i := key_idx assets key in
        match sp with
        | None => Err ValueError
        | Some (level, pv) =>
            let* l := parse_specs pv in
            let* acc' := add_specs acc (fun s => if Rleb (Rm s i) level then 1 else 0) (fun p => Rltb 0 p && Rltb p 1) (fun p => p) l in
            quantile_rows d' acc'
        end
    end.

  (** views.py:1108-1120: CVaR views, one after the other. *)
  Fixpoint cvar_steps (d : list (vkey * cvspec)) (q : vec) : res vec :=
    match d with
    | [] => Ok q
    | (key, sp) :: d' =>
        let* i := key_idx assets key in
        let* (target, gamma) := (match sp with CvNum x => Ok (x, 5 / 100) | CvSeq (t :: g :: _) => Ok (t, g) | CvSeq _ => Err TypeError end) in
        let* q' := solve_cvar i gamma target q in
        cvar_steps d' q'
    end.

  (** views.py:979-1122 [_compute_posterior_probabilities]. *)
  Definition posterior (p0 : vec) (mean vol var skew corr : list (vkey * vspec)) (cvar : list (vkey * cvspec))
    (quant : list (vkey * option (R * vspec))) (sequential : bool) : res vec :=
    let mu0 := q_mean T Rm p0 in
    let var0 := fun i => np_cov T Rm p0 i i in
    let blocks := [(MMean, mean); (MVol, vol); (MVar, var); (MSkew, skew); (MCorr, corr)] in
    let* q1 :=
      (if sequential then sequential_blocks blocks p0 mu0 var0
       else
         let* (mu, va) :=
           (if nonempty mean && (nonempty vol || nonempty var || nonempty skew || nonempty corr) then
              let* c := build_constraints assets Rm mu0 var0 MMean mean ([], []) in
              let* q := do_ep p0 c in
              let mu := q_mean T Rm q in Ok (mu, q_var T Rm q mu)
            else Ok (mu0, var0)) in
         let* c := all_blocks blocks mu va ([], []) in
         if nonempty (fst c) || nonempty (snd c) then do_ep p0 c else Ok p0) in
    let* q2 :=
      (if nonempty quant then
         let* c := quantile_rows quant ([], []) in
         if nonempty (fst c) || nonempty (snd c) then do_ep q1 c else Ok q1
       else Ok q1) in
    cvar_steps cvar q2.
End Proc.

(** The prior: scenarios with optional probabilities (a one-dimensional array is one scenario), or moments from which
    scenarios are drawn, by [distribution_fn] if given (it returns its shape too). *)
Inductive fv_prior :=
| PScen (lab : option (list label)) (T N : nat) (Rm : mat) (p : option (list R))
| PMom (mu_lab : option (list label)) (n : nat) (mu : vec) (cov_lab : option (list label)) (r c : nat) (cov : mat) (num : nat)
       (fn : option (vec -> mat -> nat -> nat * nat * mat)).

Definition str_labels (n : nat) : list label := map (fun i => LStr (DecimalString.NilEmpty.string_of_uint (Nat.to_uint i))) (seq 0 n).

(** Result: labels (when pandas objects are returned), sizes, scenarios, prior and posterior probabilities, posterior
    moments, and the contents of the caller's [mean_views] dictionary afterwards. *)
Record fv := Fv { f_pandas : bool; f_assets : list label; f_S : nat; f_N : nat; f_R : mat; f_p0 : vec; f_q : vec; f_mean : vec; f_cov : mat;
                  f_mean_views : list (vkey * vspec) }.

(** views.py:484-569: scenarios, labels and prior probabilities. *)
Definition fv_setup (chol : nat -> mat -> option mat) (normals : nat -> nat -> mat) (pr : fv_prior) : res (bool * list label * nat * nat * mat * vec) :=
  match pr with
  | PScen lab T N Rm p =>
      let assets := match lab with Some l => l | None => str_labels N end in
      let pandas := match lab with Some _ => true | None => false end in
      match p with
      | None => guard (negb (T =? 0)%nat) ZeroDivisionError (Ok (pandas, assets, T, N, Rm, fun _ => 1 / INR T))
      | Some p => let* pn := normalize_positive p in
                  guard (List.length pn =? T)%nat ValueError (Ok (pandas, assets, T, N, Rm, of_list pn))
      end
  | PMom ml n mu cl r c cov num fn =>
      guard (negb (num =? 0)%nat) ValueError                                        (* 518-519 *)
      (let assets := match ml, cl with Some l, _ => l | None, Some l => l | None, None => str_labels n end in
       let pandas := match ml, cl with None, None => false | _, _ => true end in
       guard ((r =? n) && (c =? n))%nat ValueError                                  (* 540-543 *)
       (let cov' := fun i j => 1 / 2 * (cov i j + cov j i) + delta i j * (1 / 1000000) in  (* 544-545 *)
        let* L := cholesky_pd chol n cov' in                                        (* 546 *)
        match fn with
        | None => Ok (pandas, assets, num, n, fun s i => sumn n (fun j => normals num n s j * L i j) + mu i, fun _ => 1 / INR num)
        | Some f => let '(T', N', X) := f mu cov' num in
                    guard ((T' =? num) && (N' =? n))%nat ValueError (Ok (pandas, assets, num, n, X, fun _ => 1 / INR num))
        end))
  end.

(** views.py:424-629 [__init__].  With one asset [np.diag] of the 0-dimensional covariance raises ValueError. *)
Definition flexible_views minimize argsort chol normals (pr : fv_prior) (v : views) : res fv :=
  let* su := fv_setup chol normals pr in
  let '(pandas, assets, T, N, Rm, p0) := su in
  guard (negb (N =? 1)%nat) ValueError                                              (* 573 *)
  (let* mean := to_dict SNum assets (vs_mean v) in
   let* vol := to_dict SNum assets (vs_vol v) in
   let* var := to_dict SNum assets (vs_var v) in
   let* skew := to_dict SNum assets (vs_skew v) in
   let* cvar := to_dict CvNum assets (vs_cvar v) in
   let* mean' := apply_rank mean (vs_rank v) in
   let* q := posterior minimize argsort assets T Rm p0 mean' vol var skew (vs_corr v) cvar (vs_quantile v) (vs_sequential v) in
   Ok (Fv pandas assets T N Rm p0 q (q_mean T Rm q) (np_cov T Rm q) mean')).
