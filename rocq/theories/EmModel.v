(** The moment-estimation facade: pyvallocation/moments.py:433-483 [shrink_covariance_nls] and 1196-1286
    [estimate_moments], with strings, keyword dictionaries and labels. *)
From Coq Require Import List Lia Lra ZArith String.
Import ListNotations.
From Verif Require Import Err RBase QpBase MomModel GlModel PoModel.
From Verif Require SpecModel.
Open Scope R_scope.
Open Scope list_scope.

(** Keyword values.  A number, a string, a flag, a vector or a matrix; [KvNone] is anything else (a value of a
    wrong kind raises TypeError here; Python raises TypeError or ValueError). *)
Inductive kv := KvNum (x : R) | KvInt (z : Z) | KvBool (b : bool) | KvStr (s : string) | KvVec (n : nat) (v : vec)
              | KvMat (r c : nat) (m : mat) | KvNone.
Definition kws := list (string * kv).
Definition kw_find (kw : kws) (k : string) : option kv :=
  match find (fun e => String.eqb (fst e) k) kw with Some (_, v) => Some v | None => None end.
(** Calling [f( **kw)] with a key that is not a parameter of [f] raises TypeError. *)
Definition accept (keys : list string) (kw : kws) : res unit :=
  if forallb (fun e => SpecModel.one_of (fst e) keys) kw then Ok tt else Err TypeError.
Definition num_of (v : kv) : res R := match v with KvNum x => Ok x | KvInt z => Ok (IZR z) | _ => Err TypeError end.
Definition int_of (v : kv) : res Z := match v with KvInt z => Ok z | _ => Err TypeError end.
Definition flag_of (v : kv) : res bool :=
  match v with
  | KvBool b => Ok b | KvInt z => Ok (negb (z =? 0)%Z) | KvNum x => Ok (negb (Reqb x 0)) | KvStr s => Ok (negb (String.eqb s "")%string)
  | KvNone => Ok false | _ => Err ValueError
  end.
Definition get {A} (conv : kv -> res A) (kw : kws) (k : string) (d : A) : res A :=
  match kw_find kw k with Some v => conv v | None => Ok d end.
(** A count: any string means "auto"; [int(x)] of a positive real (the callers clip it to one or more). *)
Definition count_of (v : kv) : res (option Z) :=
  match v with
  | KvStr _ => Ok None
  | KvInt z => Ok (Some z)
  | KvNum x => Ok (Some (if Rleb x 0 then 0%Z else Z.max 1 (Int_part x)))
  | _ => Err TypeError
  end.

(** Inputs: the scenario table and the probabilities ([reshape(-1)]) with their labels. *)
Record frame := mkFr { fr_ndim : nat; fr_T : nat; fr_N : nat; fr_at : mat; fr_lab : obj }.
Record weights_in := mkWt { wt_n : nat; wt_at : vec; wt_lab : obj }.
(** [np.cov] of a one-column table is a 0-d array. *)
Inductive covdata := Scalar (x : R) | Square (m : mat).
Definition mean_out := (option (list string) * vec)%type.
Definition cov_out := (option (list string) * covdata)%type.
Record em_env := mkEm {
  em_gl : gl_env;
  em_pinv : nat -> mat -> mat;                                 (* np.linalg.pinv(..., rcond=1e-12) *)
  em_argsort : list R -> list nat;                             (* np.argsort *)
  em_nls : option (nat -> nat -> mat -> option Z -> res mat);  (* nonlinshrink.shrink_cov, when installed *)
  em_perm : option kv -> nat -> list nat }.                    (* default_rng(random_state).permutation *)
Definition wrap_square (n : nat) (l : option (list string)) (m : mat) : res cov_out :=
  let* l := wrap_labels n l in Ok (l, Square m).
Definition obj_of (l : option (list string)) : obj := match l with Some l => Labelled l | None => Arr end.

(** moments.py:1223-1235: the sample moments. *)
Definition em_sample (R_ : frame) (p : option weights_in) : res (mean_out * cov_out) :=
  let T := fr_T R_ in let N := fr_N R_ in let X := fr_at R_ in
  match p with
  | None =>
      let* l := labels [fr_lab R_] in
      let* l := wrap_labels N l in                                                       (* 1230 *)
      let mu : mean_out := (l, fun i => sumn T (fun t => X t i) / INR T) in
      if Nat.eqb N 1 then
        match l with
        | None => Ok (mu, (None, Scalar (np_cov T X 0 0%nat 0%nat)))
        | Some _ => Err ValueError                                                       (* 1231: DataFrame of a 0-d array *)
        end
      else Ok (mu, (l, Square (np_cov T X 0)))
  | Some w =>
      let* (mu, Sg, l) := estimate_sample_moments T N X (wt_n w) (wt_at w) (fr_lab R_) (wt_lab w) in
      Ok ((l, mu), (l, Square Sg))
  end.

Definition column (T : nat) (X : mat) (i : nat) : list R := map (fun t => X t i) (seq 0 T).
(** moments.py:983-1026 [robust_mean_huber] over the columns. *)
Definition em_huber (R_ : frame) (kw : kws) : res mean_out :=
  let* _ := accept ["allow_vectorized"; "tol"; "max_iter"]%string kw in
  let* av := get flag_of kw "allow_vectorized" true in
  let* tol := get num_of kw "tol" (1 / 1000000) in
  let* mi := get int_of kw "max_iter" 200%Z in
  if negb av then Err ValueError
  else let* l := labels [fr_lab R_] in
       let* l := wrap_labels (fr_N R_) l in
       Ok (l, fun i => huber (column (fr_T R_) (fr_at R_) i) tol (Z.to_nat mi)).
(** moments.py:1029-1071 [robust_mean_median_of_means] over the columns. *)
Definition em_mom (env : em_env) (R_ : frame) (kw : kws) : res mean_out :=
  let* _ := accept ["n_blocks"; "random_state"]%string kw in
  let* nb := get count_of kw "n_blocks" None in
  let T := fr_T R_ in
  let auto := Nat.sqrt_up (Nat.max T 1) in
  let* _ := mom_blocks T nb auto in
  let perm := em_perm env (kw_find kw "random_state") T in
  let* l := labels [fr_lab R_] in
  let* l := wrap_labels (fr_N R_) l in
  Ok (l, fun i => match median_of_means (column T (fr_at R_) i) perm nb auto with Ok m => m | Err _ => 0 end).

(** moments.py:1237-1257: the mean. *)
Definition js_target (kw : kws) : res (option (nat * vec)) :=
  match kw_find kw "target" with
  | None => Ok None
  | Some (KvStr s) => if String.eqb s "grand_mean" then Ok None else Err ValueError
  | Some (KvVec n v) => Ok (Some (n, v))
  | Some (KvMat r c m) => Ok (Some ((r * c)%nat, fun i => m (i / c)%nat (i mod c)%nat))
  | Some (KvNum x) => Ok (Some (1%nat, fun _ => x))
  | Some (KvInt z) => Ok (Some (1%nat, fun _ => IZR z))
  | Some _ => Err TypeError
  end.
Definition em_mean (env : em_env) (R_ : frame) (ms : mean_out * cov_out) (name : string) (kw : kws) : res mean_out :=
  let T := Z.of_nat (fr_T R_) in let N := fr_N R_ in
  let l := fst (fst ms) in let mu := snd (fst ms) in
  let key := SpecModel.lower name in
  if SpecModel.one_of key ["sample"; "simple"]%string then Ok (fst ms)
  else if SpecModel.one_of key ["jorion"; "bayes_stein"]%string then
    let* _ := accept [] kw in
    match snd (snd ms) with
    | Scalar _ => Err ValueError
    | Square Sg => let* v := shrink_mean_jorion (ge_inv (em_gl env)) N mu N N Sg T in Ok (l, v)
    end
  else if SpecModel.one_of key ["james_stein"; "james-stein"; "js"]%string then
    let* _ := accept ["target"]%string kw in
    match snd (snd ms) with
    | Scalar _ => Err ValueError
    | Square Sg => let* tg := js_target kw in
                  let* v := shrink_mean_james_stein (ge_eig (em_gl env)) (em_pinv env) N mu N N Sg T tg in Ok (l, v)
    end
  else if SpecModel.one_of key ["huber"; "robust_huber"]%string then em_huber R_ kw
  else if SpecModel.one_of key ["median_of_means"; "mom"]%string then em_mom env R_ kw
  else Err ValueError.

(** moments.py:433-483 [shrink_covariance_nls]. *)
Definition shrink_covariance_nls (env : em_env) (R_ : frame) (input_is_cov : bool) (dof : Z) : res cov_out :=
  if input_is_cov then Err ValueError                                                    (* 452-456 *)
  else match em_nls env with
       | None => Err ImportError                                                         (* 465-469 *)
       | Some f =>
           if negb (Nat.eqb (fr_ndim R_) 2) then Err ValueError                          (* 472-473 *)
           else let* S1 := f (fr_T R_) (fr_N R_) (fr_at R_) (if (dof =? 0)%Z then None else Some dof) in
                let* S2 := ensure_psd (ge_eig (em_gl env)) (fr_N R_) S1 jit in             (* 482 *)
                let* l := labels [fr_lab R_] in
                wrap_square (fr_N R_) l S2
       end.

(** Keyword arguments of the covariance estimators. *)
Definition lw_target_of (v : kv) : res lw_target :=
  match v with
  | KvStr s => Ok (if String.eqb s "identity" then LwIdentity else if String.eqb s "constant_correlation" then LwConstCorr else LwOther)
  | _ => Err TypeError
  end.
Definition poet_k_of (v : kv) : res poet_k := let* c := count_of v in Ok (match c with None => KAuto | Some z => KInt z end).
Definition poet_tau_of (v : kv) : res poet_tau := match v with KvStr _ => Ok TauAuto | _ => let* x := num_of v in Ok (TauNum x) end.
Definition tyler_target (kw : kws) : res (option (nat * nat * mat)) :=
  match kw_find kw "target" with
  | None => Ok None
  | Some (KvStr s) => if String.eqb s "identity" then Ok None else Err ValueError
  | Some (KvMat r c m) => Ok (Some (r, c, m))
  | Some _ => Err ValueError
  end.
Definition gl_alpha_of (v : kv) : res gl_alpha :=
  match v with KvStr s => Ok (if String.eqb s "auto" then GlAuto else GlBad) | _ => let* x := num_of v in Ok (GlNum x) end.

(** moments.py:1259-1284: the covariance. *)
Definition em_cov (env : em_env) (R_ : frame) (S0 : cov_out) (name : string) (kw : kws) : res cov_out :=
  let T := fr_T R_ in let N := fr_N R_ in let X := fr_at R_ in
  let eig := ge_eig (em_gl env) in
  let key := SpecModel.lower name in
  if SpecModel.one_of key ["sample"; "empirical"]%string then Ok S0
  else if SpecModel.one_of key ["ledoit_wolf"; "lw"]%string then
    let* _ := accept ["target"]%string kw in
    let* tg := get lw_target_of kw "target" LwIdentity in
    match snd S0 with
    | Scalar _ => Err ValueError
    | Square Sg => let* m := shrink_covariance_ledoit_wolf eig T N X N N Sg tg in
                  let* l := labels [fr_lab R_; obj_of (fst S0)] in wrap_square N l m
    end
  else if SpecModel.one_of key ["oas"]%string then
    let* _ := accept ["assume_centered"]%string kw in
    let* ac := get flag_of kw "assume_centered" true in
    let* m := shrink_covariance_oas eig T N X ac in
    let* l := labels [fr_lab R_] in wrap_square N l m
  else if SpecModel.one_of key ["nls"; "nonlinear"; "nonlinear_shrinkage"]%string then
    let* _ := accept ["input_is_cov"; "dof_correction"]%string kw in
    let* ic := get flag_of kw "input_is_cov" false in
    let* dof := get int_of kw "dof_correction" 0%Z in
    shrink_covariance_nls env R_ ic dof
  else if SpecModel.one_of key ["poet"]%string then
    let* _ := accept ["k"; "thresh"; "standardize"; "return_decomp"]%string kw in
    let* k := get poet_k_of kw "k" KAuto in
    let* th := get poet_tau_of kw "thresh" TauAuto in
    let* st := get flag_of kw "standardize" true in
    let* (m, _, _, _) := poet_full eig (ge_eigh (em_gl env)) (em_argsort env) T N X k th st in
    let* l := labels [fr_lab R_] in wrap_square N l m
  else if SpecModel.one_of key ["tyler"; "tyler_shrinkage"]%string then
    let* _ := accept ["shrinkage"; "target"; "tol"; "max_iter"; "ensure_psd"]%string kw in
    let* s := get num_of kw "shrinkage" 0 in
    let* tg := tyler_target kw in
    let* tol := get num_of kw "tol" (1 / 1000000) in
    let* mi := get int_of kw "max_iter" 200%Z in
    let* fixp := get flag_of kw "ensure_psd" true in
    let* m := robust_covariance_tyler eig (ge_pinv (em_gl env)) T N X s tg tol (Z.to_nat mi) fixp in
    let* l := labels [fr_lab R_] in wrap_square N l m
  else if SpecModel.one_of key ["glasso"; "graphical_lasso"]%string then
    let* _ := accept ["alpha"; "assume_centered"; "return_precision"]%string kw in
    let* a := get gl_alpha_of kw "alpha" GlAuto in
    let* ac := get flag_of kw "assume_centered" true in
    let* (m, _) := sparse_precision_glasso (em_gl env) (fr_ndim R_) T N X a ac in
    let* l := labels [fr_lab R_] in wrap_square N l m
  else if SpecModel.one_of key ["ewma"]%string then
    let* _ := accept ["span"; "min_periods"]%string kw in
    let* span := get num_of kw "span" 252 in
    let* mp := get int_of kw "min_periods" 1%Z in
    let* m := covariance_ewma T N X span mp in
    let* l := labels [fr_lab R_] in wrap_square N l m
  else Err ValueError.

(** moments.py:1196-1286 [estimate_moments] (at least one observation). *)
Definition estimate_moments_full (env : em_env) (R_ : frame) (p : option weights_in) (mean_name cov_name : string) (mkw ckw : kws)
  : res (mean_out * cov_out) :=
  if negb (Nat.eqb (fr_ndim R_) 2) then Err ValueError                                   (* 1221-1222 *)
  else let* ms := em_sample R_ p in
       let* mu := em_mean env R_ ms mean_name mkw in
       let* Sg := em_cov env R_ (snd ms) cov_name ckw in
       Ok (mu, Sg).
