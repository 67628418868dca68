(** Model of pyvallocation/discrete_allocation.py in exact rationals.

    A labelled Series is a list of (label, value) pairs with distinct labels.  Validation is
    modelled on floats including NaN and infinities; the allocators on finite inputs.
    Shares and lots are unbounded integers. *)
From Coq Require Export String.
From Verif Require Import QBase ProbModel.
Open Scope Q_scope.
Open Scope list_scope.

(** * Validation *)
Fixpoint lookup {A} (k : string) (l : list (string * A)) : option A :=
  match l with
  | [] => None
  | (k', v) :: l' => if String.eqb k k' then Some v else lookup k l'
  end.

(** [np.isclose(x, 0.0)] with the default [atol=1e-8]. *)
Definition fl_close0 (x : fl) : bool := match x with Fin q => isclose q 0 | _ => false end.

(** [Series.sum()]: NaN entries are skipped. *)
Definition pd_sum (l : list fl) : fl := fl_sum (filter (fun x => match x with NaN => false | _ => true end) l).

Record vasset := mkV { v_name : string; v_w : fl; v_price : fl; v_lot : Z }.
Record vinputs := mkVI { v_assets : list vasset; v_total : fl; v_shorts : bool }.

(** discrete_allocation.py:91-128 [DiscreteAllocationInput.__post_init__] together with
    22-44 [_to_series] (empty input) and 47-72 [_lot_sizes_to_series]. *)
Definition make_inputs (weights prices : list (string * fl)) (total : fl)
  (lots : option (list (string * Z))) : res vinputs :=
  if Nat.eqb (List.length weights) 0 then Err ValueError
  else if Nat.eqb (List.length prices) 0 then Err ValueError
  else if negb (forallb (fun kw => match lookup (fst kw) prices with Some _ => true | None => false end) weights)
       then Err ValueError                                                     (* 100-103 *)
  else
    let weights := filter (fun kw => negb (fl_close0 (snd kw))) weights in      (* 105 *)
    if Nat.eqb (List.length weights) 0 then Err ValueError                           (* 106-107 *)
    else
      let shorts := existsb (fun kw => fl_lt0 (snd kw)) weights in              (* 109 *)
      let price_of k := match lookup k prices with Some x => x | None => NaN end in (* 111 reindex *)
      if existsb (fun kw => fl_le0 (price_of (fst kw))) weights then Err ValueError (* 112-113 *)
      else if fl_le0 total then Err ValueError                                  (* 115-116 *)
      else
        let lot_of k := match lots with
                        | None => 1%Z
                        | Some l => match lookup k l with Some z => z | None => 1%Z end
                        end in                                                  (* 61-70 *)
        if existsb (fun kw => (lot_of (fst kw) <=? 0)%Z) weights then Err ValueError (* 70-71 *)
        else match pd_sum (map snd weights) with
             | Fin t =>
                 if Qle_bool t 0 then Err ValueError                            (* 121-122 *)
                 else Ok (mkVI (map (fun kw => mkV (fst kw) (fl_div (snd kw) t)
                                                   (price_of (fst kw)) (lot_of (fst kw))) weights)
                               total shorts)                                    (* 123-128 *)
             | _ => Err ValueError
             end.

(** * Finite inputs *)
Record asset := mkA { a_name : string; a_w : Q; a_price : Q; a_lot : Z }.
Record inputs := mkI { in_assets : list asset; in_total : Q; in_shorts : bool }.

Definition fin_asset (v : vasset) : option asset :=
  match v_w v, v_price v with
  | Fin w, Fin p => Some (mkA (v_name v) w p (v_lot v))
  | _, _ => None
  end.

Fixpoint all_some {A B} (f : A -> option B) (l : list A) : option (list B) :=
  match l with
  | [] => Some []
  | x :: xs => match f x, all_some f xs with Some y, Some ys => Some (y :: ys) | _, _ => None end
  end.

(** The finite part of a validated input; [None] when a NaN or infinity got through. *)
Definition finite_inputs (v : vinputs) : option inputs :=
  match v_total v, all_some fin_asset (v_assets v) with
  | Fin t, Some l => Some (mkI l t (v_shorts v))
  | _, _ => None
  end.

(** Cost of one lot. *)
Definition lot_cost (a : asset) : Q := a_price a * inject_Z (a_lot a).

(** * Result *)
Record result := mkR {
  r_shares : list (string * Z); r_leftover : Q;
  r_achieved : list (string * Q); r_tracking : Q }.

Definition q_eps8 : Q := 1 # 100000000.

(** Value of a share count taken from a labelled Series. *)
Definition share_of (raw : list (string * Z)) (k : string) : Z :=
  match lookup k raw with Some z => z | None => 0%Z end.

(** discrete_allocation.py:165-198 [_build_result]. *)
Definition build_result (inp : inputs) (raw : list (string * Z)) : res result :=
  let value a := inject_Z (share_of raw (a_name a)) * a_price a in
  let portfolio_value := qsum (map value (in_assets inp)) in
  let leftover := in_total inp - portfolio_value in
  let finish leftover :=
    let achieved := map (fun a => (a_name a, value a / in_total inp)) (in_assets inp) in
    Ok (mkR (filter (fun ks => negb (snd ks =? 0)%Z) raw) leftover achieved
            (qsum (map (fun a => Qabs (a_w a - value a / in_total inp)) (in_assets inp)))) in
  if Qlt_bool leftover 0 then
    if Qlt_bool (Qabs leftover) q_eps8 then finish 0 else Err RuntimeError
  else finish leftover.

(** * Greedy allocation *)
Definition tol : Q := 1 # 1000000000000.

(** An asset, its shares so far, and whether it has been marked unaffordable. *)
Definition pos := (asset * Z * bool)%type.
Definition p_asset (p : pos) : asset := fst (fst p).
Definition p_shares (p : pos) : Z := snd (fst p).
Definition p_unaff (p : pos) : bool := snd p.

(** discrete_allocation.py:234-247: the floor pass. *)
Fixpoint floor_pass (V cash : Q) (l : list asset) : list pos * Q :=
  match l with
  | [] => ([], cash)
  | a :: l' =>
      let c := lot_cost a in
      let lots := if Qlt_bool cash c then 0%Z
                  else let k := Qfloor (a_w a * V / c) in if (k <=? 0)%Z then 0%Z else k in
      let '(ps, cash') := floor_pass V (cash - inject_Z lots * c) l' in
      ((a, (lots * a_lot a)%Z, false) :: ps, cash')
  end.

(** discrete_allocation.py:266-272: deficit of one asset; negative ones and those of assets marked
    unaffordable count as zero. *)
Definition deficit (V : Q) (p : pos) : Q :=
  let d := a_w (p_asset p) - inject_Z (p_shares p) * a_price (p_asset p) / V in
  if p_unaff p then 0 else if Qlt_bool d 0 then 0 else d.

(** [idxmax]: position of the first maximum. *)
Fixpoint argmax_from (best : Q) (bi i : nat) (l : list Q) : nat :=
  match l with
  | [] => bi
  | x :: xs => if Qlt_bool best x then argmax_from x i (S i) xs else argmax_from best bi (S i) xs
  end.
Definition argmax (l : list Q) : nat :=
  match l with [] => 0%nat | x :: xs => argmax_from x 0 1 xs end.
Definition qmaximum (l : list Q) : Q := nth (argmax l) l 0.

Fixpoint upd {A} (k : nat) (f : A -> A) (l : list A) : list A :=
  match l, k with
  | [], _ => []
  | x :: xs, O => f x :: xs
  | x :: xs, S k' => x :: upd k' f xs
  end.

Record gstate := mkG {
  g_pos : list pos; g_cash : Q; g_iter : Z; g_last : list Q; g_break : bool }.

Definition mark (k : nat) (ps : list pos) : list pos := upd k (fun p => (fst p, true)) ps.
Definition buy (k : nat) (n : Z) (ps : list pos) : list pos :=
  upd k (fun p => (p_asset p, (p_shares p + n * a_lot (p_asset p))%Z, false)) ps.

(** discrete_allocation.py:266-309: one pass of the loop body; [inl] continues, [inr] breaks.
    Line 272 masks unaffordable assets, so a bought candidate was not marked (lines 308-309
    never remove anything); [buy] leaves the mark cleared as they would. *)
Definition dummy_pos : pos := (mkA EmptyString 0 1 1, 0%Z, false).

Definition step (V : Q) (s : gstate) : gstate + gstate :=
  let ds := map (deficit V) (g_pos s) in
  let s := mkG (g_pos s) (g_cash s) (g_iter s) ds (g_break s) in
  if Qle_bool (qmaximum ds) tol then inr (mkG (g_pos s) (g_cash s) (g_iter s) ds true)     (* 276-278 *)
  else
    let k := argmax ds in
    let a := p_asset (nth k (g_pos s) dummy_pos) in
    let c := lot_cost a in
    let unaffordable :=
      let ps := mark k (g_pos s) in
      if forallb p_unaff ps then inr (mkG ps (g_cash s) (g_iter s) ds true)
      else inl (mkG ps (g_cash s) (g_iter s) ds false) in
    if Qlt_bool (g_cash s + tol) c then unaffordable                                         (* 284-289 *)
    else
      let desired := nth k ds 0 * V in
      let possible := Qfloor ((g_cash s + tol) / c) in
      let target := if Qlt_bool 0 c then Qfloor (desired / c) else 0%Z in
      let n := Z.min possible (Z.max target 1) in
      if (n <=? 0)%Z then unaffordable                                                       (* 297-302 *)
      else inl (mkG (buy k n (g_pos s)) (g_cash s - inject_Z n * c) (g_iter s + 1) ds false).

(** The [while] loop (line 265), with fuel. *)
Fixpoint loop (fuel : nat) (V min_cost : Q) (max_iter : Z) (s : gstate) : option gstate :=
  if Qle_bool min_cost (g_cash s + tol) && (g_iter s <? max_iter)%Z then
    match fuel with
    | O => None
    | S f => match step V s with
             | inl s' => loop f V min_cost max_iter s'
             | inr s' => Some s'
             end
    end
  else Some s.

Fixpoint qmin_list (d : Q) (l : list Q) : Q :=
  match l with [] => d | x :: xs => let m := qmin_list d xs in if Qle_bool x m then x else m end.
Definition min_cost_of (l : list asset) : Q :=
  match l with [] => 0 | a :: l' => qmin_list (lot_cost a) (map lot_cost l') end.

Definition default_iterations (n : nat) : Z := Z.max (Z.of_nat n * 100) 1.

(** Enough fuel for every run (proved below). *)
Definition fuel_for (n : nat) (max_iter : Z) : nat := (Z.to_nat max_iter + n + 1)%nat.

(** discrete_allocation.py:224-309: floor pass and loop, on the assets in sorted order. *)
Definition greedy_loop (V : Q) (sorted : list asset) (max_iterations : option Z) : option gstate :=
  let '(ps, cash) := floor_pass V V sorted in
  let mi := match max_iterations with Some m => m | None => default_iterations (List.length sorted) end in
  loop (fuel_for (List.length sorted) mi) V (min_cost_of sorted) mi
       (mkG ps cash 0 (map a_w sorted) false).

Definition pos_shares (ps : list pos) : list (string * Z) :=
  map (fun p => (a_name (p_asset p), p_shares p)) ps.

Inductive mode := MAuto | MMilp | MNone.

(** discrete_allocation.py:216-218: [(fallback_mode or "none").lower()]; anything else raises. *)
Definition parse_mode (s : option string) : res mode :=
  match s with
  | None => Ok MNone
  | Some s => if String.eqb s "auto" then Ok MAuto
              else if String.eqb s "milp" then Ok MMilp
              else if String.eqb s "none" || String.eqb s "" then Ok MNone
              else Err ValueError
  end%string.

(** discrete_allocation.py:311-320. *)
Definition should_try_fallback (V min_cost : Q) (max_iter : Z) (s : gstate) : bool :=
  let exhausted := (max_iter <=? g_iter s)%Z && negb (g_break s) in
  let still := Qle_bool min_cost (g_cash s + tol) in
  let large := Qlt_bool (1 # 1000000) (qmaximum (g_last s)) in
  let nothing := (fold_right Z.add 0 (map p_shares (g_pos s)) =? 0)%Z && Qle_bool min_cost (V + tol) in
  exhausted || (still && large) || nothing.

(** discrete_allocation.py:201-330 [allocate_greedy].  [sort] is [sort_values(ascending=False)];
    [mip] is the call to [allocate_mip] (modelled below). *)
Definition allocate_greedy (sort : list asset -> list asset) (mip : inputs -> res result)
  (inp : inputs) (max_iterations : option Z) (fallback_mode : option string) : option (res result) :=
  match parse_mode fallback_mode with
  | Err e => Some (Err e)
  | Ok m =>
    if in_shorts inp then Some (mip inp)
    else
      let sorted := sort (in_assets inp) in
      let mi := match max_iterations with Some k => k | None => default_iterations (List.length sorted) end in
      match greedy_loop (in_total inp) sorted max_iterations with
      | None => None
      | Some s =>
          let fallback := match m with MNone => false | _ =>
             should_try_fallback (in_total inp) (min_cost_of sorted) mi s end in
          Some (if fallback then
                  match mip inp with
                  | Ok r => Ok r
                  | Err e => match m with MMilp => Err e | _ => build_result inp (pos_shares (g_pos s)) end
                  end
                else build_result inp (pos_shares (g_pos s)))
      end
  end.

(** * MILP allocation *)
(** A mixed-integer programme in scipy's form: minimise [c.x] subject to [lb <= x <= ub], the
    first [n_int] variables integral, one equality row and inequality rows [row.x <= rhs]. *)
Record milp := mkP {
  p_c : list Q; p_lb : list Q; p_ub : list Q; p_nint : nat;
  p_eq : list Q * Q; p_le : list (list Q * Q) }.

Definition zeros (n : nat) : list Q := repeat 0 n.
Definition set_at (i : nat) (v : Q) (l : list Q) : list Q := upd i (fun _ => v) l.

(** discrete_allocation.py:375-376: [floor(V/ppl) + 1]. *)
Definition max_lots (V : Q) (a : asset) : Z :=
  let ppl := lot_cost a in
  Z.max ((if Qlt_bool 0 ppl then Qfloor (V / ppl) else 0) + 1) 0.

(** discrete_allocation.py:378-385. *)
Definition cash_ub (V : Q) (l : list asset) (max_cash : option Q) : Q :=
  let proceeds := qsum (map (fun a => if Qlt_bool (a_w a) 0 then inject_Z (max_lots V a) * lot_cost a else 0) l) in
  let e := V + proceeds in
  match max_cash with None => e | Some m => if Qle_bool m e then m else e end.

(** discrete_allocation.py:364-441: the programme handed to [optimize.milp]. *)
Definition build_milp (inp : inputs) (cash_penalty : Q) (max_cash : option Q) : milp :=
  let l := in_assets inp in
  let V := in_total inp in
  let n := List.length l in
  let nv := (2 * n + 1)%nat in
  mkP (zeros n ++ repeat 1 n ++ [cash_penalty])
      (map (fun a => if Qle_bool 0 (a_w a) then 0 else - inject_Z (max_lots V a)) l ++ zeros (n + 1))
      (map (fun a => inject_Z (max_lots V a)) l ++ repeat V n ++ [cash_ub V l max_cash])
      n
      (map lot_cost l ++ zeros n ++ [1], V)
      (map2 (fun i a => (set_at (n + i) (-1) (set_at i (lot_cost a) (zeros nv)), a_w a * V)) (seq 0 n) l ++
       map2 (fun i a => (set_at (n + i) (-1) (set_at i (- lot_cost a) (zeros nv)), - (a_w a * V))) (seq 0 n) l).

(** [np.rint]: round half to even. *)
Definition rint (x : Q) : Z :=
  let f := Qfloor x in
  let r := x - inject_Z f in
  if Qlt_bool r (1 # 2) then f
  else if Qlt_bool (1 # 2) r then (f + 1)%Z
  else if Z.even f then f else (f + 1)%Z.

(** discrete_allocation.py:333-450 [allocate_mip]; the solver is a parameter. *)
Definition allocate_mip (solver : milp -> option (list Q)) (cash_penalty : Q) (max_cash : option Q)
  (inp : inputs) : res result :=
  let l := in_assets inp in
  if Nat.eqb (List.length l) 0 then Err ValueError
  else match solver (build_milp inp cash_penalty max_cash) with
       | None => Err RuntimeError
       | Some x =>
           let lots := map rint (firstn (List.length l) x) in
           build_result inp (map2 (fun a k => (a_name a, (k * a_lot a)%Z)) l lots)
       end.

(** discrete_allocation.py:453-488 [discretize_weights] on finite arguments; [None] would mean that
    validation let a non-finite value through, which cannot happen here (proved). *)
Definition discretize_weights (sort : list asset -> list asset) (solver : milp -> option (list Q))
  (weights prices : list (string * Q)) (total : Q) (method : string) (lots : option (list (string * Z)))
  (max_iterations : option Z) (fallback_mode : option string) (cash_penalty : Q) (max_cash : option Q)
  : option (res result) :=
  let fin := map (fun kq : string * Q => (fst kq, Fin (snd kq))) in
  match make_inputs (fin weights) (fin prices) (Fin total) lots with
  | Err e => Some (Err e)
  | Ok v =>
    match finite_inputs v with
    | None => None
    | Some inp =>
        if (String.eqb method "greedy" || String.eqb method "rounddown")%bool
        then allocate_greedy sort (allocate_mip solver cash_penalty max_cash) inp max_iterations fallback_mode
        else if (String.eqb method "milp" || String.eqb method "mip" || String.eqb method "integer" || String.eqb method "lp")%bool
        then Some (allocate_mip solver cash_penalty max_cash inp)
        else Some (Err ValueError)
    end
  end.
