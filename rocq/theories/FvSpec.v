(** What flexible views mean. *)
From Verif Require Import RBase QpBase OptModel MomSpec BlModel EpModel EpSpec.
Open Scope R_scope.
Open Scope list_scope.

(** Column [i] carries label [l] (the first such column); a string of digits also names the column labelled by that
    integer, when no column is labelled by the string. *)
Definition first_at (assets : list label) (l : label) (i : nat) : Prop :=
  nth_error assets i = Some l /\ forall j, (j < i)%nat -> nth_error assets j <> Some l.
Definition column (assets : list label) (l : label) (i : nat) : Prop :=
  first_at assets l i \/
  (~ In l assets /\ exists s k, l = LStr s /\ digits s = Some k /\ first_at assets (LInt (Z.of_nat k)) i).

(** Statistics of the scenario matrix [X] under [q]. *)
Definition mean_of (T : nat) (q : vec) (X : mat) (i : nat) : R := expectation T q (fun s => X s i).
Definition var_of (T : nat) (q : vec) (X : mat) (i : nat) : R := variance T q (fun s => X s i).
Definition vol_of (T : nat) (q : vec) (X : mat) (i : nat) : R := sqrt (var_of T q X i).
Definition skew_of (T : nat) (q : vec) (X : mat) (i : nat) : R :=
  expectation T q (fun s => (X s i - mean_of T q X i) ^ 3) / vol_of T q X i ^ 3.
Definition cov_of (T : nat) (q : vec) (X : mat) (i j : nat) : R :=
  expectation T q (fun s => (X s i - mean_of T q X i) * (X s j - mean_of T q X j)).
Definition corr_of (T : nat) (q : vec) (X : mat) (i j : nat) : R := cov_of T q X i j / (vol_of T q X i * vol_of T q X j).
Definition prob_le (T : nat) (q : vec) (X : mat) (i : nat) (level : R) : R := expectation T q (fun s => if Rle_dec (X s i) level then 1 else 0).

(** A number meets a view specification (strict operators are not distinguished from weak ones). *)
Definition meets (x : R) (v : vspec) : Prop :=
  match v with
  | SNum t | SOp Eq t => x = t
  | SOp Ge t | SOp Gt t => t <= x
  | SOp Le t | SOp Lt t => x <= t
  | SBetween lo hi => lo <= x <= hi
  | SBad => False
  end.

(** [stat_of ... mt key x]: [x] is the statistic a view of type [mt] with key [key] is about. *)
Inductive stat_of (assets : list label) (T : nat) (X : mat) (q : vec) : moment -> vkey -> R -> Prop :=
| stat_mean a i : column assets a i -> stat_of assets T X q MMean (KOne a) (mean_of T q X i)
| stat_diff a b i j : column assets a i -> column assets b j -> stat_of assets T X q MMean (KTup [a; b]) (mean_of T q X i - mean_of T q X j)
| stat_vol a i : column assets a i -> stat_of assets T X q MVol (KOne a) (vol_of T q X i)
| stat_var a i : column assets a i -> stat_of assets T X q MVar (KOne a) (var_of T q X i)
| stat_skew a i : column assets a i -> stat_of assets T X q MSkew (KOne a) (skew_of T q X i)
| stat_corr a b i j : column assets a i -> column assets b j -> stat_of assets T X q MCorr (KTup [a; b]) (corr_of T q X i j).
(** A list of views of one type holds under [q]. *)
Definition views_hold (assets : list label) (T : nat) (X : mat) (q : vec) (mt : moment) (vs : list (vkey * vspec)) : Prop :=
  forall key v, In (key, v) vs -> exists x, stat_of assets T X q mt key x /\ meets x v.

(** Quantile views: the probability of a value at or below a level. *)
Definition quantiles_hold (assets : list label) (T : nat) (X : mat) (q : vec) (vs : list (vkey * option (R * vspec))) : Prop :=
  forall key sp, In (key, sp) vs -> exists a i level v, key = KOne a /\ column assets a i /\ sp = Some (level, v) /\ meets (prob_le T q X i level) v.

(** The labels of a key; the columns a list of views is about. *)
Definition key_labels (k : vkey) : list label := match k with KOne a => [a] | KTup l => l end.
Definition viewed (assets : list label) (vs : list (vkey * vspec)) (i : nat) : Prop :=
  exists key v a, In (key, v) vs /\ In a (key_labels key) /\ column assets a i.
(** Pair keys are tuples (a two-character string would be taken apart). *)
Definition pair_keys (vs : list (vkey * vspec)) : Prop := forall key v, In (key, v) vs -> exists l, key = KTup l.

(** The linearisation point agrees with the moments under [q], as far as views of type [mt] need it. *)
Definition exact_at (T : nat) (X : mat) (q mu var : vec) (mt : moment) (i : nat) : Prop :=
  match mt with
  | MMean => True
  | MVol | MVar => mu i = mean_of T q X i
  | MSkew | MCorr => mu i = mean_of T q X i /\ var i = var_of T q X i /\ 0 < var i
  end.

(** [q] is the closest to [p] of the distributions satisfying [P] that give each scenario at least [lo]; no other is as close. *)
Definition nearest (lo : R) (T : nat) (p : vec) (P : vec -> Prop) (q : vec) : Prop :=
  P q /\ (forall s, (s < T)%nat -> lo <= q s) /\
  forall q', P q' -> (forall s, (s < T)%nat -> lo <= q' s) ->
    kl T q p <= kl T q' p /\ (kl T q' p <= kl T q p -> forall s, (s < T)%nat -> q' s = q s).

(** A call with dictionaries of views and no ranking. *)
Definition dicts (mean vol var skew corr : list (vkey * vspec)) (cvar : list (vkey * cvspec)) (quant : list (vkey * option (R * vspec))) (sequential : bool) : views :=
  Views (WDict mean) (WDict vol) (WDict var) (WDict skew) corr (WDict cvar) quant None sequential.
(** The same call restricted to the kinds numbered below [k], or from [k] on, in the order mean, volatility, variance,
    skewness, correlation, quantile, CVaR. *)
Definition upto {B} (k n : nat) (l : list B) : list B := if (n <? k)%nat then l else [].
Definition from {B} (k n : nat) (l : list B) : list B := if (n <? k)%nat then [] else l.

(** Targets named in a specification, and the targets a kind of view admits. *)
Definition targets (v : vspec) : list R := match v with SNum t | SOp _ t => [t] | SBetween lo hi => [lo; hi] | SBad => [] end.
Definition admits (mt : moment) (t : R) : Prop :=
  match mt with MMean | MSkew => True | MVol => 0 < t | MVar => 0 <= t | MCorr => -1 <= t <= 1 end.
Definition well_formed (v : vspec) : Prop := match v with SBad => False | SBetween lo hi => lo <= hi | _ => True end.
(** A key that names assets: one label, or two for mean differences and correlations. *)
Definition names (assets : list label) (mt : moment) (key : vkey) : Prop :=
  match mt, key with
  | MCorr, KOne _ => True
  | MMean, KTup l | MCorr, KTup l => exists a b i j, l = [a; b] /\ column assets a i /\ column assets b j
  | _, KOne a => exists i, column assets a i
  | _, KTup _ => False
  end.
Definition valid_views (assets : list label) (mt : moment) (vs : list (vkey * vspec)) : Prop :=
  forall key v, In (key, v) vs -> names assets mt key /\ well_formed v /\ forall t, In t (targets v) -> admits mt t.

(** The CVaR target and tail probability of a CVaR view; 5% unless given. *)
Definition cvar_request (sp : cvspec) (target gamma : R) : Prop :=
  match sp with CvNum x => target = x /\ gamma = 5 / 100 | CvSeq l => exists rest, l = target :: gamma :: rest end.

(** [l] and [q] give column [i] the same moments, as far as views of type [mt] need it. *)
Definition agrees (T : nat) (X : mat) (l q : vec) (mt : moment) (i : nat) : Prop := exact_at T X q (mean_of T l X) (var_of T l X) mt i.
(** All moment views of a call, by kind. *)
Definition kinds (mean vol var skew corr : list (vkey * vspec)) : list (moment * list (vkey * vspec)) :=
  [(MMean, mean); (MVol, vol); (MVar, var); (MSkew, skew); (MCorr, corr)].
Definition all_hold (assets : list label) (T : nat) (X : mat) (q : vec) (ks : list (moment * list (vkey * vspec))) : Prop :=
  forall mt vs, In (mt, vs) ks -> views_hold assets T X q mt vs.
Definition all_agree (assets : list label) (T : nat) (X : mat) (l q : vec) (ks : list (moment * list (vkey * vspec))) : Prop :=
  forall mt vs, In (mt, vs) ks -> forall i, viewed assets vs i -> agrees T X l q mt i.
(** [a] is immediately before [b]. *)
Definition adjacent (l : list label) (a b : label) : Prop := exists k, nth_error l k = Some a /\ nth_error l (S k) = Some b.
