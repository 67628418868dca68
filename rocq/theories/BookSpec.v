(** What callers may rely on when several processor calls are given the same dictionary or weights array. *)
From Verif Require Import RBase QpBase OptModel NiwModel BlModel EpModel FvSpec BookModel.
Open Scope R_scope.
Open Scope list_scope.

(** Some call of the list asked for [x] to be ranked directly before [y]. *)
Definition ranked_by (calls : list book_call) (x y : label) : Prop := exists c l, In c calls /\ bc_rank c = Some l /\ adjacent l x y.
(** The call gives mean views (and possibly a ranking) only. *)
Definition mean_views_only (c : book_call) : Prop :=
  bc_vol c = WNone /\ bc_var c = WNone /\ bc_skew c = WNone /\ bc_corr c = [] /\ bc_cvar c = WNone /\ bc_quantile c = [].
(** The [k]-th answer of a session is [r]. *)
Definition answers {A} (l : list A) (k : nat) (r : A) : Prop := nth_error l k = Some r.

(** The same posterior, whatever happened to the weights array. *)
Definition same_posterior (r r' : res bl) : Prop :=
  match r, r' with
  | Ok a, Ok b => b_lab a = b_lab b /\ b_len a = b_len b /\ b_mean a = b_mean b /\ b_cov a = b_cov b /\ b_P a = b_P b /\ b_Q a = b_Q b /\ b_om a = b_om b
  | Err e, Err e' => e = e'
  | _, _ => False
  end.
