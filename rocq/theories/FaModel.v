(** Greedy share allocation in binary64 arithmetic (discrete_allocation.py:165-330).  Share and lot counts are Python
    integers; [rnd (IZR n)] is their conversion to a float.  int64 overflow of the share Series is not modelled. *)
From Flocq Require Import Core.
From Verif Require Import RBase FpLib.
From Coq Require Import String.
Open Scope R_scope.

(** A validated asset: target weight, latest price (binary64 numbers) and lot size. *)
Record fasset := mkFA { fa_name : string; fa_w : R; fa_price : R; fa_lot : Z }.

Definition fint (z : Z) : R := rnd (IZR z).
Definition ffloor (x : R) : Z := Zfloor x.
Definition f_tol : R := rnd (1 / 1000000000000).
Definition f_eps8 : R := rnd (1 / 100000000).

(** discrete_allocation.py:226 / 237: [price * lot_size]. *)
Definition flot_cost (a : fasset) : R := fmul (fa_price a) (fint (fa_lot a)).

Definition fpos := (fasset * Z * bool)%type.
Definition fp_asset (p : fpos) : fasset := fst (fst p).
Definition fp_shares (p : fpos) : Z := snd (fst p).
Definition fp_unaff (p : fpos) : bool := snd p.

(** discrete_allocation.py:234-247: the floor pass. *)
Fixpoint f_floor_pass (V cash : R) (l : list fasset) : list fpos * R :=
  match l with
  | [] => ([], cash)
  | a :: l' =>
      let c := flot_cost a in
      let lots := if Rltb cash c then 0%Z
                  else let k := ffloor (fdiv (fmul (fa_w a) V) c) in if (k <=? 0)%Z then 0%Z else k in
      let cash' := if (lots =? 0)%Z then cash else fsub cash (fmul (fint lots) c) in
      let '(ps, cash'') := f_floor_pass V cash' l' in
      ((a, (lots * fa_lot a)%Z, false) :: ps, cash'')
  end.

(** discrete_allocation.py:266-272. *)
Definition f_value (sh : Z) (price : R) : R := fmul (fint sh) price.
Definition f_deficit (V : R) (p : fpos) : R :=
  let d := fsub (fa_w (fp_asset p)) (fdiv (f_value (fp_shares p) (fa_price (fp_asset p))) V) in
  if fp_unaff p then 0 else if Rltb d 0 then 0 else d.

(** [idxmax]: position of the first maximum. *)
Fixpoint f_argmax_from (best : R) (bi i : nat) (l : list R) : nat :=
  match l with
  | [] => bi
  | x :: xs => if Rltb best x then f_argmax_from x i (S i) xs else f_argmax_from best bi (S i) xs
  end.
Definition f_argmax (l : list R) : nat := match l with [] => 0%nat | x :: xs => f_argmax_from x 0 1 xs end.
Definition f_maximum (l : list R) : R := nth (f_argmax l) l 0.

Fixpoint f_upd {A} (k : nat) (f : A -> A) (l : list A) : list A :=
  match l, k with [], _ => [] | x :: xs, O => f x :: xs | x :: xs, S k' => x :: f_upd k' f xs end.

Record fstate := mkFG { fg_pos : list fpos; fg_cash : R; fg_iter : Z; fg_last : list R; fg_break : bool }.
Definition f_mark (k : nat) (ps : list fpos) : list fpos := f_upd k (fun p => (fst p, true)) ps.
Definition f_buy (k : nat) (n : Z) (ps : list fpos) : list fpos :=
  f_upd k (fun p => (fp_asset p, (fp_shares p + n * fa_lot (fp_asset p))%Z, false)) ps.
Definition f_dummy : fpos := (mkFA EmptyString 0 1 1, 0%Z, false).

(** discrete_allocation.py:266-309: one pass of the loop body; [inl] continues, [inr] breaks. *)
Definition f_step (V : R) (s : fstate) : fstate + fstate :=
  let ds := map (f_deficit V) (fg_pos s) in
  if Rleb (f_maximum ds) f_tol then inr (mkFG (fg_pos s) (fg_cash s) (fg_iter s) ds true)
  else
    let k := f_argmax ds in
    let c := flot_cost (fp_asset (nth k (fg_pos s) f_dummy)) in
    let unaffordable :=
      let ps := f_mark k (fg_pos s) in
      if forallb fp_unaff ps then inr (mkFG ps (fg_cash s) (fg_iter s) ds true)
      else inl (mkFG ps (fg_cash s) (fg_iter s) ds false) in
    if Rltb (fadd (fg_cash s) f_tol) c then unaffordable
    else
      let desired := fmul (nth k ds 0) V in
      let possible := ffloor (fdiv (fadd (fg_cash s) f_tol) c) in
      let target := if Rltb 0 c then ffloor (fdiv desired c) else 0%Z in
      let n := Z.min possible (Z.max target 1) in
      if (n <=? 0)%Z then unaffordable
      else inl (mkFG (f_buy k n (fg_pos s)) (fsub (fg_cash s) (fmul (fint n) c)) (fg_iter s + 1) ds false).

(** discrete_allocation.py:265: the [while] loop, with fuel. *)
Fixpoint f_loop (fuel : nat) (V min_cost : R) (max_iter : Z) (s : fstate) : option fstate :=
  if Rleb min_cost (fadd (fg_cash s) f_tol) && (fg_iter s <? max_iter)%Z then
    match fuel with
    | O => None
    | S f => match f_step V s with inl s' => f_loop f V min_cost max_iter s' | inr s' => Some s' end
    end
  else Some s.

Fixpoint f_min_list (d : R) (l : list R) : R :=
  match l with [] => d | x :: xs => let m := f_min_list d xs in if Rleb x m then x else m end.
Definition f_min_cost (l : list fasset) : R :=
  match l with [] => 0 | a :: l' => f_min_list (flot_cost a) (map flot_cost l') end.
Definition f_default_iter (n : nat) : Z := Z.max (Z.of_nat n * 100) 1.

(** discrete_allocation.py:224-309 on the assets in sorted order. *)
Definition f_greedy_loop (V : R) (sorted : list fasset) (max_iter : Z) : option fstate :=
  let '(ps, cash) := f_floor_pass V V sorted in
  f_loop (Z.to_nat max_iter + List.length sorted + 1) V (f_min_cost sorted) max_iter
         (mkFG ps cash 0 (map fa_w sorted) false).

(** discrete_allocation.py:165-198 [_build_result] ([npsum] is [Series.sum] / [np.sum], any order of additions). *)
Record fresult := mkFR { fr_shares : list (string * Z); fr_leftover : R; fr_achieved : list (string * R); fr_tracking : R }.
Definition f_build_result (npsum : list R -> R) (V : R) (ps : list fpos) : res fresult :=
  let values := map (fun p => f_value (fp_shares p) (fa_price (fp_asset p))) ps in
  let leftover := fsub V (npsum values) in
  let finish left :=
    let achieved := map (fun v => fdiv v V) values in
    Ok (mkFR (filter (fun ks => negb (snd ks =? 0)%Z) (map (fun p => (fa_name (fp_asset p), fp_shares p)) ps)) left
             (map2 (fun p v => (fa_name (fp_asset p), v)) ps achieved)
             (npsum (map2 (fun p v => Rabs (fsub (fa_w (fp_asset p)) v)) ps achieved))) in
  if Rltb leftover 0 then
    if Rltb (Rabs leftover) f_eps8 then finish 0 else Err RuntimeError
  else finish leftover.

(** discrete_allocation.py:311-320. *)
Definition f_should_try_fallback (V min_cost : R) (max_iter : Z) (s : fstate) : bool :=
  let exhausted := (max_iter <=? fg_iter s)%Z && negb (fg_break s) in
  let still := Rleb min_cost (fadd (fg_cash s) f_tol) in
  let large := Rltb (rnd (1 / 1000000)) (f_maximum (fg_last s)) in
  let nothing := (fold_right Z.add 0 (map fp_shares (fg_pos s)) =? 0)%Z && Rleb min_cost (fadd V f_tol) in
  exhausted || (still && large) || nothing.

(** discrete_allocation.py:201-330 [allocate_greedy] without shorts, on validated assets in sorted order: [fallback] says whether the mode is
    "auto" ([Some false]), "milp" ([Some true]) or "none" ([None]); [mip] is the outcome of [allocate_mip]. *)
Definition f_allocate_greedy (npsum : list R -> R) (mip : res fresult) (V : R) (sorted : list fasset) (max_iterations : option Z)
  (fallback : option bool) : option (res fresult) :=
  let mi := match max_iterations with Some k => k | None => f_default_iter (List.length sorted) end in
  match f_greedy_loop V sorted mi with
  | None => None
  | Some s =>
      let try := match fallback with None => false | Some _ => f_should_try_fallback V (f_min_cost sorted) mi s end in
      Some (if try then match mip with
                        | Ok r => Ok r
                        | Err e => match fallback with Some true => Err e | _ => f_build_result npsum V (fg_pos s) end
                        end
            else f_build_result npsum V (fg_pos s))
  end.
