(** Flexible views: what the posterior of a successful call satisfies. *)
From Verif Require Import RBase QpBase SortLib OptModel OptSpec OptProofs3 MomSpec NiwModel BlModel RiskModel RiskSpec EpModel EpSpec EpProofs EpProofs2 EpProofs3 EpProofs4 EpProofs5 FvSpec FvProofs FvProofs2 FvProofs3 FvProofs4 FvProofs5 FvProofs6 FvProofs7.
From Verif Require FrProperties ExistProperties.
Open Scope R_scope.
Open Scope list_scope.

(** The scenarios and prior probabilities of a call: given weights up to a positive factor (normalised unless their total
    is already close to one), equal weights otherwise. *)
Theorem flexible_prior : forall minimize argsort chol normals pr v r, flexible_views minimize argsort chol normals pr v = Ok r ->
  (0 < f_S r)%nat /\ (forall s, (s < f_S r)%nat -> 0 < f_p0 r s) /\
  match pr with
  | PScen lab T N X p =>
      f_S r = T /\ f_N r = N /\ f_R r = X /\ (f_pandas r = true <-> lab <> None) /\ (forall l, lab = Some l -> f_assets r = l) /\
      match p with
      | None => forall s, f_p0 r s = 1 / INR T
      | Some w => List.length w = T /\ exists c, (c = rsum w /\ sumn T (f_p0 r) = 1 \/ c = 1 /\ risclose (rsum w) 1 = true) /\ forall s, (s < T)%nat -> f_p0 r s = nth s w 0 / c
      end
  | PMom ml n mu cl rr cc cov num fn =>
      f_S r = num /\ f_N r = n /\ rr = n /\ cc = n /\ (forall s, f_p0 r s = 1 / INR num) /\
      (forall l, ml = Some l -> f_assets r = l) /\ (forall l, ml = None -> cl = Some l -> f_assets r = l)
  end.
Proof.
  intros minimize argsort chol normals pr v r H. destruct (fv_inv _ _ _ _ _ _ _ H) as [E _]. destruct (setup_prior _ _ _ _ _ _ _ _ _ E) as [A B]. split; auto. split; auto.
  destruct pr as [lab T N X [w|]|ml n mu cl rr cc cov num fn]; cbn [fv_setup] in E.
  - apply bind_ok in E. destruct E as [pn [En E]]. apply guard_ok in E. destruct E as [L E]. apply Nat.eqb_eq in L. injection E as <- <- <- <- <- E0.
    split; auto. split; auto. split; auto. split; [destruct lab; split; congruence|]. split; [intros l ->; auto|].
    destruct (normalize_positive_inv _ _ En) as [Ne [Pp [Ln _]]]. split; [lia|].
    unfold normalize_positive in En. destruct w as [|a t]; [discriminate|]. set (w := a :: t) in *. apply guard_ok in En. destruct En as [_ En].
    destruct (risclose (rsum w) 1) eqn:C; apply (f_equal (fun x => match x with Ok y => y | Err _ => [] end)) in En; cbv beta iota in En; subst pn.
    + exists 1. split; [right; auto|]. intros s Hs. rewrite <- E0. unfold of_list. field.
    + exists (rsum w). assert (P : 0 < rsum w) by (apply rsum_pos; [discriminate|auto]).
      assert (F : forall s, (s < T)%nat -> f_p0 r s = nth s w 0 / rsum w).
      { intros s Hs. rewrite <- E0. unfold of_list. rewrite (nth_map_lt (fun x => x / rsum w) w s 0 0) by lia. reflexivity. }
      split; auto. left. split; auto. rewrite (sumn_ext T _ _ F), sumn_div. rewrite map_length in L.
      assert (W : sumn T (fun s => nth s w 0) = rsum w).
      { rewrite <- rsum_seq0. f_equal. rewrite <- L. clear. apply (nth_ext _ _ 0 0); [rewrite map_length, seq_length; auto|]. intros s Hs. rewrite map_length, seq_length in Hs. apply (nth_map_seq (fun s => nth s w 0)); auto. }
      rewrite W. field. lra.
  - apply guard_ok in E. destruct E as [L E]. injection E as <- <- <- <- <- <-.
    split; auto. split; auto. split; auto. split; [destruct lab; split; congruence|]. split; [intros l ->; auto|]. auto.
  - apply guard_ok in E. destruct E as [L E]. apply guard_ok in E. destruct E as [D E]. apply andb_true_iff in D. destruct D as [D1 D2]. apply Nat.eqb_eq in D1, D2.
    apply bind_ok in E. destruct E as [Lc [_ E]].
    assert (Z : f_S r = num /\ f_N r = n /\ (forall s, f_p0 r s = 1 / INR num) /\ match ml, cl with Some l, _ => l | None, Some l => l | None, None => str_labels n end = f_assets r).
    { destruct fn as [f|].
      - destruct (f mu _ num) as [[T' N'] X']. apply guard_ok in E. destruct E as [_ E]. injection E as _ <- <- <- _ <-. auto.
      - injection E as _ <- <- <- _ <-. auto. }
    destruct Z as [Z1 [Z2 [Z3 Z4]]]. split; auto. split; auto. split; auto. split; auto. split; auto. split; [intros l ->; auto|intros l -> ->; auto].
Qed.
Print Assumptions flexible_prior.

(** Moment priors: the scenarios are an affine image of the draws; draws with sample mean zero and sample covariance the
    identity give scenarios with the requested mean, and the symmetrised covariance plus at most 1.1e-6 on the diagonal. *)
Theorem flexible_moment_prior : forall minimize argsort chol normals ml n mu cl rr cc cov num v r, exact_chol chol ->
  flexible_views minimize argsort chol normals (PMom ml n mu cl rr cc cov num None) v = Ok r ->
  (forall j, (j < n)%nat -> sumn num (fun s => normals num n s j) = 0) ->
  (forall j k, (j < n)%nat -> (k < n)%nat -> sumn num (fun s => normals num n s j * normals num n s k) = INR num * delta j k) ->
  exists eps, 1 / 1000000 <= eps <= 11 / 10000000 /\
    forall i k, (i < n)%nat -> (k < n)%nat -> mean_of num (f_p0 r) (f_R r) i = mu i /\ cov_of num (f_p0 r) (f_R r) i k = 1 / 2 * (cov i k + cov k i) + delta i k * eps.
Proof.
  intros minimize argsort chol normals ml n mu cl rr cc cov num v r Hc H Z1 Z2. destruct (fv_inv _ _ _ _ _ _ _ H) as [E _]. destruct (setup_prior _ _ _ _ _ _ _ _ _ E) as [T0 _]. cbn [fv_setup] in E.
  apply guard_ok in E. destruct E as [_ E]. apply guard_ok in E. destruct E as [_ E]. apply bind_ok in E. destruct E as [L [EL E]]. injection E as _ _ ES _ ER EP.
  rewrite <- ES in T0. assert (N0 : INR num <> 0) by (apply not_0_INR; lia). rewrite <- ER, <- EP. clear ER EP ES H.
  destruct (cholesky_pd_l _ _ _ _ Hc EL) as [j [Hj [_ [_ [_ HL]]]]]. exists (1 / 1000000 + j). split; [lra|]. intros i k Hi Hk.
  set (Y := fun s i0 : nat => sumn n (fun j0 => normals num n s j0 * L i0 j0)).
  assert (M : forall a, (a < n)%nat -> mean_of num (fun _ => 1 / INR num) (fun s i0 => Y s i0 + mu i0) a = mu a).
  { intros a Ha. unfold mean_of, expectation. rewrite (sumn_ext num _ (fun s => 1 / INR num * Y s a + 1 / INR num * mu a)) by (intros; ring).
    rewrite sumn_plus, sumn_const, sumn_scale. unfold Y. rewrite sumn_swap. rewrite (sumn_0 n).
    - field. auto.
    - intros b Hb. rewrite sumn_scale_r, Z1 by auto. ring. }
  split; [exact (M i Hi)|]. unfold cov_of. change (fun s i0 : nat => sumn n (fun j0 => normals num n s j0 * L i0 j0) + mu i0) with (fun s i0 : nat => Y s i0 + mu i0). rewrite (M i Hi), (M k Hk). unfold expectation.
  rewrite (sumn_ext num _ (fun s => 1 / INR num * sumn n (fun a => sumn n (fun b => normals num n s a * normals num n s b * (L i a * L k b))))).
  2:{ intros s Hs. cbv beta; transitivity (1 / INR num * (Y s i * Y s k)); [fold (Y s i) (Y s k); clearbody Y; ring|]. apply Rmult_eq_compat_l. unfold Y. rewrite <- sumn_scale_r. apply sumn_ext. intros a Ha. rewrite <- sumn_scale. apply sumn_ext. intros b Hb. ring. }
  rewrite sumn_scale. rewrite sumn_swap. rewrite (sumn_ext n _ (fun a => INR num * (L i a * L k a))).
  2:{ intros a Ha. rewrite sumn_swap. rewrite (sumn_ext n _ (fun b => delta a b * (INR num * (L i a * L k b)))) by (intros b Hb; rewrite sumn_scale_r, Z2 by auto; ring). apply (sumn_delta_r n a (fun b => INR num * (L i a * L k b)) Ha). }
  rewrite sumn_scale. pose proof (HL i k Hi Hk) as G. unfold OptSpec.mmul, transpose in G.
  rewrite G. unfold plus_jitter, symmetrise. destruct (Nat.eq_dec i k) as [-> |Nk].
  - unfold delta. rewrite !Nat.eqb_refl. field. auto.
  - unfold delta. assert (E1 : (i =? k)%nat = false) by (apply Nat.eqb_neq; auto). assert (E2 : (k =? i)%nat = false) by (apply Nat.eqb_neq; auto). rewrite ?E1, ?E2. field. auto.
Qed.
Print Assumptions flexible_moment_prior.

(** Without views the posterior is the prior. *)
Theorem flexible_no_views : forall minimize argsort chol normals pr b r,
  flexible_views minimize argsort chol normals pr (Views WNone WNone WNone WNone [] WNone [] None b) = Ok r -> f_q r = f_p0 r.
Proof.
  intros minimize argsort chol normals pr b r H. destruct (fv_inv _ _ _ _ _ _ _ H) as [_ [_ [m' [vo [va [sk [cv [E1 [E2 [E3 [E4 [E5 [E6 [E7 _]]]]]]]]]]]]]].
  cbn in E1, E2, E3, E4, E5, E6. injection E1 as <-. injection E2 as <-. injection E3 as <-. injection E4 as <-. injection E5 as <-. injection E6 as E6. cbn [vs_corr vs_quantile vs_sequential] in E7. rewrite <- E6 in E7.
  rewrite posterior_none in E7. injection E7 as ->. reflexivity.
Qed.
Print Assumptions flexible_no_views.

(** With any view, the posterior is a strictly positive probability vector. *)
Theorem flexible_positive : forall minimize argsort chol normals pr v r, sound minimize -> sorts Rle 0 argsort ->
  flexible_views minimize argsort chol normals pr v = Ok r ->
  f_q r = f_p0 r \/ ((forall s, 0 < f_q r s) /\ is_prob (f_S r) (f_q r)).
Proof.
  intros minimize argsort chol normals pr v r So AS H. destruct (fv_inv _ _ _ _ _ _ _ H) as [_ [_ [m' [vo [va [sk [cv [_ [_ [_ [_ [_ [_ [E7 _]]]]]]]]]]]]]].
  destruct (posterior_prob _ _ _ _ _ _ _ _ _ _ _ _ _ _ _ So AS E7) as [[E _]|]; auto.
Qed.
Print Assumptions flexible_positive.

(** Posterior moments are the moments under the posterior probabilities: the covariance gives every portfolio its variance. *)
Theorem flexible_moments : forall minimize argsort chol normals pr v r, flexible_views minimize argsort chol normals pr v = Ok r ->
  (forall i, f_mean r i = mean_of (f_S r) (f_q r) (f_R r) i) /\
  (sumn (f_S r) (f_q r) = 1 -> (forall i j, f_cov r i j = cov_of (f_S r) (f_q r) (f_R r) i j) /\ (forall i j, f_cov r i j = f_cov r j i) /\
     forall w, quad (f_N r) (f_cov r) w = variance (f_S r) (f_q r) (fun s => dot (f_N r) w (f_R r s))).
Proof.
  intros minimize argsort chol normals pr v r H. destruct (fv_inv _ _ _ _ _ _ _ H) as [_ [_ [m' [vo [va [sk [cv [_ [_ [_ [_ [_ [_ [_ [E8 E9]]]]]]]]]]]]]]].
  rewrite E8, E9. split; [intros; apply q_mean_eq|]. intros Q. split; [intros; apply np_cov_eq; auto|]. split.
  - intros i j. rewrite !np_cov_eq by auto. unfold cov_of. apply expectation_ext. intros; ring.
  - intros w. rewrite <- cov_quad by auto. apply quad_ext; auto. intros; apply np_cov_eq; auto.
Qed.
Print Assumptions flexible_moments.

(** Views on means only, in either mode and in any form (dictionary, vector, ranking): they hold, and no distribution meeting
    them is closer to the prior. *)
Theorem flexible_mean_views : forall minimize argsort chol normals pr m rank b r, sound minimize ->
  flexible_views minimize argsort chol normals pr (Views m WNone WNone WNone [] WNone [] rank b) = Ok r -> f_mean_views r <> [] ->
  nearest (exp (-700)) (f_S r) (f_p0 r) (fun w => is_prob (f_S r) w /\ views_hold (f_assets r) (f_S r) (f_R r) w MMean (f_mean_views r)) (f_q r).
Proof.
  intros minimize argsort chol normals pr m rank b r So H Ne. destruct (fv_inv _ _ _ _ _ _ _ H) as [_ [_ [m' [vo [va [sk [cv [E1 [E2 [E3 [E4 [E5 [E6 [E7 _]]]]]]]]]]]]]].
  cbn in E2, E3, E4, E5. injection E2 as <-. injection E3 as <-. injection E4 as <-. injection E5 as <-. cbn [vs_corr vs_quantile vs_sequential] in E7.
  apply (posterior_mean _ _ _ _ _ _ _ _ _ So Ne E7).
Qed.
Print Assumptions flexible_mean_views.

(** Vectors: entry [i] is an equality view on asset [i] (distinct labels); a wrong length is refused. *)
Theorem flexible_vector_views : forall minimize argsort chol normals pr l vol var skew corr cvar quant b r,
  flexible_views minimize argsort chol normals pr (Views (WVec l) vol var skew corr cvar quant None b) = Ok r ->
  List.length l = List.length (f_assets r) /\ (NoDup (f_assets r) -> f_mean_views r = combine (map KOne (f_assets r)) (map SNum l)).
Proof.
  intros minimize argsort chol normals pr l vol var skew corr cvar quant b r H. destruct (fv_inv _ _ _ _ _ _ _ H) as [_ [_ [m' [vo [va [sk [cv [E1 [_ [_ [_ [_ [E6 _]]]]]]]]]]]]].
  cbn [vs_mean] in E1. assert (L : List.length l = List.length (f_assets r)).
  { cbn [to_dict] in E1. apply guard_ok in E1. destruct E1 as [E1 _]. apply Nat.eqb_eq. exact E1. }
  split; auto. intros ND. rewrite (vector_views SNum _ _ ND L) in E1. injection E1 as <-. cbn in E6. injection E6 as <-. reflexivity.
Qed.
Print Assumptions flexible_vector_views.

(** The same for volatility, variance, skewness and CVaR vectors: the call equals the one with the dictionary. *)
Theorem flexible_vector_forms : forall minimize argsort chol normals lab T N X p mean vol var skew corr cvar quant rank b, NoDup lab ->
  List.length mean = List.length lab -> List.length vol = List.length lab -> List.length var = List.length lab -> List.length skew = List.length lab -> List.length cvar = List.length lab ->
  flexible_views minimize argsort chol normals (PScen (Some lab) T N X p) (Views (WVec mean) (WVec vol) (WVec var) (WVec skew) corr (WVec cvar) quant rank b) =
  flexible_views minimize argsort chol normals (PScen (Some lab) T N X p)
    (Views (WDict (combine (map KOne lab) (map SNum mean))) (WDict (combine (map KOne lab) (map SNum vol))) (WDict (combine (map KOne lab) (map SNum var)))
           (WDict (combine (map KOne lab) (map SNum skew))) corr (WDict (combine (map KOne lab) (map CvNum cvar))) quant rank b).
Proof.
  intros minimize argsort chol normals lab T N X p mean vol var skew corr cvar quant rank b ND L1 L2 L3 L4 L5. unfold flexible_views.
  destruct (fv_setup chol normals (PScen (Some lab) T N X p)) as [[[[[[pa as_] T'] N'] X'] p0]|] eqn:E; [|reflexivity].
  assert (A : as_ = lab).
  { cbn [fv_setup] in E. destruct p as [p|].
    - apply bind_ok in E. destruct E as [pn [_ E]]. apply guard_ok in E. destruct E as [_ E]. injection E as _ <- _ _ _ _. reflexivity.
    - apply guard_ok in E. destruct E as [_ E]. injection E as _ <- _ _ _ _. reflexivity. }
  subst as_. cbn [bind vs_mean vs_vol vs_var vs_skew vs_corr vs_cvar vs_quantile vs_rank vs_sequential]. rewrite !vector_views by auto. reflexivity.
Qed.
Print Assumptions flexible_vector_forms.

(** [rank_mean]: the mean views of the call are the given ones and, for consecutive names without a view on that pair, "the
    first has at least the mean of the second"; nothing else.  The caller's dictionary is what is extended. *)
Theorem flexible_rank_mean : forall minimize argsort chol normals pr d vol var skew corr cvar quant l b r,
  flexible_views minimize argsort chol normals pr (Views (WDict d) vol var skew corr cvar quant (Some l) b) = Ok r ->
  (2 <= List.length l)%nat /\ (forall e, In e d -> In e (f_mean_views r)) /\
  (forall x y, adjacent l x y -> exists v, In (KTup [x; y], v) (f_mean_views r) /\ (In (KTup [x; y], v) d \/ v = at_least 0)) /\
  (forall k v, In (k, v) (f_mean_views r) -> In (k, v) d \/ exists x y, k = KTup [x; y] /\ v = at_least 0 /\ adjacent l x y /\ forall v', ~ In (k, v') d).
Proof.
  intros minimize argsort chol normals pr d vol var skew corr cvar quant l b r H. destruct (fv_inv _ _ _ _ _ _ _ H) as [_ [_ [m' [vo [va [sk [cv [E1 [_ [_ [_ [_ [E6 _]]]]]]]]]]]]].
  cbn in E1. injection E1 as <-. cbn [vs_rank apply_rank] in E6. apply guard_ok in E6. destruct E6 as [G E6]. injection E6 as <-.
  split. { destruct (Nat.ltb_spec (List.length l) 2); [discriminate|auto]. }
  apply rank_views_spec.
Qed.
Print Assumptions flexible_rank_mean.

(** A ranking alone: the posterior means are in that order. *)
Theorem flexible_rank_holds : forall minimize argsort chol normals pr l b r, sound minimize ->
  flexible_views minimize argsort chol normals pr (Views WNone WNone WNone WNone [] WNone [] (Some l) b) = Ok r ->
  forall x y, adjacent l x y -> exists i j, column (f_assets r) x i /\ column (f_assets r) y j /\ f_mean r j <= f_mean r i.
Proof.
  intros minimize argsort chol normals pr l b r So H x y Ad. pose proof (flexible_moments _ _ _ _ _ _ _ H) as [M _].
  pose proof (flexible_mean_views _ _ _ _ _ _ _ _ _ So H) as NV. destruct (fv_inv _ _ _ _ _ _ _ H) as [_ [_ [m' [vo [va [sk [cv [E1 [_ [_ [_ [_ [E6 _]]]]]]]]]]]]].
  cbn in E1. injection E1 as <-. cbn [vs_rank apply_rank] in E6. apply guard_ok in E6. destruct E6 as [_ E6]. injection E6 as E6.
  destruct (rank_views_spec l []) as [_ [R _]]. destruct (R x y Ad) as [v [I V]]. destruct V as [[]|Ev]. subst v. rewrite E6 in I.
  destruct NV as [[_ Vh] _]. { intros Z. rewrite Z in I. destruct I. }
  destruct (Vh _ _ I) as [d [S Me]]. inversion S; subst. exists i, j. split; auto. split; auto. rewrite !M. cbn in Me. lra.
Qed.
Print Assumptions flexible_rank_holds.

(** All kinds at once.  Mean views hold; any other view holds whenever the posterior moments it is linearised around
    (those of the distribution meeting the mean views, or of the prior) equal the posterior ones; no distribution meeting all
    views with those moments is closer to the prior.  A volatility or variance view always fixes the second moment about the
    linearisation mean. *)
Theorem flexible_simultaneous : forall minimize argsort chol normals pr mean vol var skew corr r, sound minimize ->
  flexible_views minimize argsort chol normals pr (dicts mean vol var skew corr [] [] false) = Ok r ->
  sumn (f_S r) (f_p0 r) = 1 -> (exists mt vs, In (mt, vs) (kinds mean vol var skew corr) /\ vs <> []) ->
  let T := f_S r in let X := f_R r in let q := f_q r in let L := f_assets r in
  (forall s, 0 < q s) /\ is_prob T q /\ views_hold L T X q MMean mean /\
  exists l, is_prob T l /\ (mean = [] -> l = f_p0 r) /\ (mean = [] \/ views_hold L T X l MMean mean \/ vol = [] /\ var = [] /\ skew = [] /\ corr = []) /\
    (forall mt vs key v, In (mt, vs) (kinds mean vol var skew corr) -> In (key, v) vs -> (mt = MCorr -> exists ls, key = KTup ls) ->
       (forall a i, In a (key_labels key) -> column L a i -> agrees T X l q mt i) -> exists x, stat_of L T X q mt key x /\ meets x v) /\
    (forall a i t, column L a i -> In (KOne a, SNum t) vol -> var_of T q X i + mean_of T q X i ^ 2 = t ^ 2 + mean_of T l X i ^ 2) /\
    (forall a i t, column L a i -> In (KOne a, SNum t) var -> var_of T q X i + mean_of T q X i ^ 2 = t + mean_of T l X i ^ 2) /\
    (forall w, is_prob T w -> (forall s, (s < T)%nat -> exp (-700) <= w s) -> pair_keys corr -> all_agree L T X l w (kinds mean vol var skew corr) -> all_hold L T X w (kinds mean vol var skew corr) ->
       kl T q (f_p0 r) <= kl T w (f_p0 r) /\ (kl T w (f_p0 r) <= kl T q (f_p0 r) -> forall s, (s < T)%nat -> w s = q s)).
Proof.
  intros minimize argsort chol normals pr mean vol var skew corr r So H P1 NE. destruct (fv_inv _ _ _ _ _ _ _ H) as [E [_ [m' [vo [va [sk [cv [E1 [E2 [E3 [E4 [E5 [E6 [E7 _]]]]]]]]]]]]]].
  unfold dicts in *. cbn [vs_mean vs_vol vs_var vs_skew vs_corr vs_cvar vs_quantile vs_rank vs_sequential to_dict apply_rank] in *.
  injection E1 as <-. injection E2 as <-. injection E3 as <-. injection E4 as <-. injection E5 as <-. injection E6 as E6. rewrite <- E6 in E7.
  destruct (setup_prior _ _ _ _ _ _ _ _ _ E) as [_ Pp]. cbv zeta. apply (simultaneous_l minimize argsort (f_assets r) (f_S r) (f_R r) (f_p0 r) mean vol var skew corr (f_q r) So); auto.
  split; [|auto]. intros s Hs. apply Rlt_le. auto.
Qed.
Print Assumptions flexible_simultaneous.

(** So volatility and variance views are met exactly on assets that also have an equality view on the mean. *)
Theorem flexible_vol_with_mean : forall minimize argsort chol normals pr mean vol var skew corr r a i m, sound minimize ->
  flexible_views minimize argsort chol normals pr (dicts mean vol var skew corr [] [] false) = Ok r -> sumn (f_S r) (f_p0 r) = 1 ->
  column (f_assets r) a i -> In (KOne a, SNum m) mean \/ In (KOne a, SOp Eq m) mean ->
  f_mean r i = m /\
  (forall v, In (KOne a, v) vol -> meets (vol_of (f_S r) (f_q r) (f_R r) i) v) /\
  (forall v, In (KOne a, v) var -> meets (var_of (f_S r) (f_q r) (f_R r) i) v).
Proof.
  intros minimize argsort chol normals pr mean vol var skew corr r a i m So H P1 C I.
  destruct (flexible_simultaneous _ _ _ _ _ _ _ _ _ _ _ So H P1) as [_ [Pq [Mh [l [Pl [_ [Ml [Each _]]]]]]]].
  { exists MMean, mean. split; [left; auto|]. intros ->. destruct I as [[]|[]]. }
  assert (Mq : mean_of (f_S r) (f_q r) (f_R r) i = m) by (eapply fixed_mean; eauto).
  destruct (flexible_moments _ _ _ _ _ _ _ H) as [Me _]. split; [rewrite Me; auto|].
  assert (Ag : vol <> [] \/ var <> [] -> mean_of (f_S r) l (f_R r) i = m).
  { intros Nv. destruct Ml as [-> |[V|[-> [-> _]]]]; [destruct I as [[]|[]]|eapply fixed_mean; eauto|destruct Nv; congruence]. }
  split; intros v Iv.
  - destruct (Each MVol vol (KOne a) v) as [x [S Mx]]; [right; left; auto|auto|discriminate| |].
    + cbn. intros a' i' [<- |[]] C'. rewrite (column_fun _ _ _ _ C' C). unfold agrees, exact_at. rewrite Mq. apply Ag. left. intros ->. destruct Iv.
    + inversion S; subst. rewrite (column_fun _ _ _ _ C H1). auto.
  - destruct (Each MVar var (KOne a) v) as [x [S Mx]]; [right; right; left; auto|auto|discriminate| |].
    + cbn. intros a' i' [<- |[]] C'. rewrite (column_fun _ _ _ _ C' C). unfold agrees, exact_at. rewrite Mq. apply Ag. right. intros ->. destruct Iv.
    + inversion S; subst. rewrite (column_fun _ _ _ _ C H1). auto.
Qed.
Print Assumptions flexible_vol_with_mean.

(** With one kind of moment views, [sequential] does not matter. *)
Theorem flexible_one_kind_mode : forall minimize argsort chol normals pr mt vs cvar quant,
  let k m := match mt, m with MMean, MMean | MVol, MVol | MVar, MVar | MSkew, MSkew | MCorr, MCorr => vs | _, _ => [] end in
  flexible_views minimize argsort chol normals pr (dicts (k MMean) (k MVol) (k MVar) (k MSkew) (k MCorr) cvar quant true) =
  flexible_views minimize argsort chol normals pr (dicts (k MMean) (k MVol) (k MVar) (k MSkew) (k MCorr) cvar quant false).
Proof.
  intros minimize argsort chol normals pr mt vs cvar quant k. unfold flexible_views, dicts. destruct (fv_setup chol normals pr) as [[[[[[pa as_] T] N] X] p0]|]; [|reflexivity]. cbn [bind].
  cbn [vs_mean vs_vol vs_var vs_skew vs_corr vs_cvar vs_quantile vs_rank vs_sequential to_dict bind apply_rank].
  pose proof (one_kind minimize argsort as_ T X p0 mt vs cvar quant) as O. cbv zeta in O. fold k in O. unfold k at 1 2 3 4 5 in O.
  unfold k. rewrite O. reflexivity.
Qed.
Print Assumptions flexible_one_kind_mode.

(** Kinds are processed one after the other (moment kinds in sequential mode; quantile and CVaR views always): cutting the
    order anywhere, the call equals one with the first kinds followed by one with the rest, started from its posterior. *)
Theorem flexible_chain : forall minimize argsort chol normals pr mean vol var skew corr cvar quant b r k, sound minimize -> sorts Rle 0 argsort ->
  (b = true \/ (5 <= k)%nat) ->
  flexible_views minimize argsort chol normals pr (dicts mean vol var skew corr cvar quant b) = Ok r ->
  exists r1 r2,
    flexible_views minimize argsort chol normals pr
      (dicts (upto k 0 mean) (upto k 1 vol) (upto k 2 var) (upto k 3 skew) (upto k 4 corr) (upto k 6 cvar) (upto k 5 quant) b) = Ok r1 /\
    flexible_views minimize argsort chol normals (PScen (Some (f_assets r1)) (f_S r1) (f_N r1) (f_R r1) (Some (map (f_q r1) (seq 0 (f_S r1)))))
      (dicts (from k 0 mean) (from k 1 vol) (from k 2 var) (from k 3 skew) (from k 4 corr) (from k 6 cvar) (from k 5 quant) b) = Ok r2 /\
    f_S r1 = f_S r /\ f_R r1 = f_R r /\ f_assets r1 = f_assets r /\ (forall s, (s < f_S r)%nat -> f_q r2 s = f_q r s).
Proof. exact chain_l. Qed.
Print Assumptions flexible_chain.

(** Quantile views hold at the end when there are no CVaR views, and no distribution meeting them is closer to the posterior
    of the other views. *)
Theorem flexible_quantile_views : forall minimize argsort chol normals pr mean vol var skew corr quant b r, sound minimize -> quant <> [] ->
  flexible_views minimize argsort chol normals pr (dicts mean vol var skew corr [] quant b) = Ok r ->
  exists r1, flexible_views minimize argsort chol normals pr (dicts mean vol var skew corr [] [] b) = Ok r1 /\
    nearest (exp (-700)) (f_S r) (f_q r1) (fun w => is_prob (f_S r) w /\ quantiles_hold (f_assets r) (f_S r) (f_R r) w quant) (f_q r).
Proof.
  intros minimize argsort chol normals pr mean vol var skew corr quant b r So Nq H. destruct (fv_inv _ _ _ _ _ _ _ H) as [E [HN [m' [vo [va [sk [cv [E1 [E2 [E3 [E4 [E5 [E6 [E7 _]]]]]]]]]]]]]].
  unfold dicts in *. cbn [vs_mean vs_vol vs_var vs_skew vs_corr vs_cvar vs_quantile vs_rank vs_sequential to_dict apply_rank] in *.
  injection E1 as <-. injection E2 as <-. injection E3 as <-. injection E4 as <-. injection E5 as <-. injection E6 as E6. rewrite <- E6 in E7.
  destruct (posterior_quantile _ _ _ _ _ _ _ _ _ _ _ _ _ _ So Nq E7) as [_ [q1 [P1 N1]]].
  eexists. split; [exact (fv_build _ _ _ _ _ _ _ _ _ _ _ _ _ _ _ _ _ _ _ _ E HN P1)|exact N1].
Qed.
Print Assumptions flexible_quantile_views.

(** The last CVaR view holds: the mean of the worst [gamma] of the outcomes is the target (5% unless given). *)
Theorem flexible_cvar_view : forall minimize argsort chol normals pr mean vol var skew corr cvar key sp quant b r, sound minimize -> sorts Rle 0 argsort ->
  flexible_views minimize argsort chol normals pr (dicts mean vol var skew corr (cvar ++ [(key, sp)]) quant b) = Ok r ->
  exists a i target gamma, key = KOne a /\ column (f_assets r) a i /\ cvar_request sp target gamma /\ 0 < gamma /\
    is_cvar (map (f_q r) (seq 0 (f_S r))) (map (fun s => f_R r s i) (seq 0 (f_S r))) gamma (- target).
Proof.
  intros minimize argsort chol normals pr mean vol var skew corr cvar key sp quant b r So AS H. destruct (fv_inv _ _ _ _ _ _ _ H) as [E [HN [m' [vo [va [sk [cv [E1 [E2 [E3 [E4 [E5 [E6 [E7 _]]]]]]]]]]]]]].
  unfold dicts in *. cbn [vs_mean vs_vol vs_var vs_skew vs_corr vs_cvar vs_quantile vs_rank vs_sequential to_dict apply_rank] in *. injection E5 as <-.
  unfold posterior in E7. apply bind_ok in E7. destruct E7 as [q1 [_ E7]]. apply bind_ok in E7. destruct E7 as [q2 [_ E7]].
  eapply cvar_last; eauto.
Qed.
Print Assumptions flexible_cvar_view.

(** Accepted calls are well-formed: every label resolves, specifications parse, targets are in range, and there is more than
    one asset (or none). *)
Theorem flexible_accepts_valid : forall minimize argsort chol normals pr mean vol var skew corr cvar quant b r, sound minimize -> sorts Rle 0 argsort ->
  flexible_views minimize argsort chol normals pr (dicts mean vol var skew corr cvar quant b) = Ok r ->
  f_N r <> 1%nat /\ (forall mt vs, In (mt, vs) (kinds mean vol var skew corr) -> valid_views (f_assets r) mt vs) /\
  (forall key sp, In (key, sp) quant -> exists a i level v, key = KOne a /\ column (f_assets r) a i /\ sp = Some (level, v) /\ well_formed v /\ forall t, In t (targets v) -> 0 < t < 1) /\
  (forall key sp, In (key, sp) cvar -> exists a i target gamma, key = KOne a /\ column (f_assets r) a i /\ cvar_request sp target gamma /\ 0 < gamma).
Proof.
  intros minimize argsort chol normals pr mean vol var skew corr cvar quant b r So AS H. destruct (fv_inv _ _ _ _ _ _ _ H) as [E [HN [m' [vo [va [sk [cv [E1 [E2 [E3 [E4 [E5 [E6 [E7 _]]]]]]]]]]]]]].
  unfold dicts in *. cbn [vs_mean vs_vol vs_var vs_skew vs_corr vs_cvar vs_quantile vs_rank vs_sequential to_dict apply_rank] in *.
  injection E1 as <-. injection E2 as <-. injection E3 as <-. injection E4 as <-. injection E5 as <-. injection E6 as E6. rewrite <- E6 in E7. split; auto.
  unfold posterior in E7. apply bind_ok in E7. destruct E7 as [q1 [F1 E7]]. apply bind_ok in E7. destruct E7 as [q2 [F2 F3]]. split; [|split].
  - fold (kinds mean vol var skew corr) in F1. destruct b; [eapply seq_valid; eauto|]. apply bind_ok in F1. destruct F1 as [[mu va] [_ F1]]. apply bind_ok in F1. destruct F1 as [c [B _]]. eapply all_valid; eauto.
  - intros key sp I. destruct quant as [|x quant]; [destruct I|]. change (nonempty (x :: quant)) with true in F2. cbv iota in F2. apply bind_ok in F2. destruct F2 as [c [B _]]. eapply quantile_valid; eauto.
  - eapply cvar_valid; eauto.
Qed.
Print Assumptions flexible_accepts_valid.

(** Refuted: "an accepted volatility view holds for the posterior".  Two equally likely scenarios (0 and 1 for asset A), a
    volatility view of 0.3 on A alone: the posterior variance is 0.2244. *)
Theorem flexible_vol_view_refuted : exists r, sound best_minimize /\
  flexible_views best_minimize (argsort_by Rleb 0) ExistProperties.best_chol (fun _ _ _ _ => 0) prior2 (dicts [] [(keyA, SNum (3 / 10))] [] [] [] [] [] false) = Ok r /\
  column (f_assets r) (LStr "A"%string) 0 /\ var_of (f_S r) (f_q r) (f_R r) 0 = 2244 / 10000 /\ ~ views_hold (f_assets r) (f_S r) (f_R r) (f_q r) MVol [(keyA, SNum (3 / 10))].
Proof.
  destruct (setup2 ExistProperties.best_chol (fun _ _ _ _ => 0)) as [p0 [E [P0 P1]]].
  destruct (run_vol (argsort_by Rleb 0) (3 / 10) (1 / 2) (34 / 100) ltac:(lra) ltac:(lra) ltac:(lra) p0 ltac:(lra) ltac:(lra)) with (b := false) as [q [Eq [Q0 Q1]]].
  { unfold q_mean, X2. cbn. lra. }
  pose proof (fv_build _ _ _ _ _ _ _ _ _ _ _ _ _ _ _ _ _ _ _ _ E ltac:(discriminate) Eq) as R. eexists. split; [exact best_minimize_sound|]. split; [exact R|]. cbn [f_assets f_S f_q f_R].
  assert (V : var_of 2 q X2 0 = 2244 / 10000) by (rewrite var_A by lra; rewrite Q0, Q1; lra).
  split; [exact col_A|]. split; auto. intros Hv. destruct (Hv _ _ (or_introl eq_refl)) as [x [S M]]. inversion S; subst. cbn in M. rewrite <- (column_fun _ _ _ _ col_A H0) in M.
  assert (W : vol_of 2 q X2 0 ^ 2 = 2244 / 10000) by (rewrite vol_sq; auto; intros [|[|s]] Hs; try lia; lra). rewrite M in W. lra.
Qed.
Print Assumptions flexible_vol_view_refuted.

(** Refuted: "in sequential mode every view holds at the end".  Mean 0.4 and volatility 0.3 on A: the mean ends at 0.25. *)
Theorem flexible_sequential_keeps_refuted : exists r, sound best_minimize /\
  flexible_views best_minimize (argsort_by Rleb 0) ExistProperties.best_chol (fun _ _ _ _ => 0) prior2 (dicts [(keyA, SNum (4 / 10))] [(keyA, SNum (3 / 10))] [] [] [] [] [] true) = Ok r /\
  column (f_assets r) (LStr "A"%string) 0 /\ f_mean r 0%nat = 1 / 4 /\ ~ views_hold (f_assets r) (f_S r) (f_R r) (f_q r) MMean [(keyA, SNum (4 / 10))].
Proof.
  destruct (setup2 ExistProperties.best_chol (fun _ _ _ _ => 0)) as [p0 [E [P0 P1]]].
  destruct (run_seq (argsort_by Rleb 0) p0 ltac:(lra) ltac:(lra)) as [q [Eq [Q0 Q1]]].
  pose proof (fv_build _ _ _ _ _ _ _ _ _ _ _ _ _ _ _ _ _ _ _ _ E ltac:(discriminate) Eq) as R. eexists. split; [exact best_minimize_sound|]. split; [exact R|]. cbn [f_assets f_S f_q f_R f_mean].
  assert (M : mean_of 2 q X2 0 = 1 / 4) by (rewrite mean_A by lra; lra). split; [exact col_A|]. split; [rewrite q_mean_eq; auto|].
  intros Hv. assert (mean_of 2 q X2 0 = 4 / 10) by (eapply fixed_mean; [exact col_A|exact Hv|left; left; reflexivity]). lra.
Qed.
Print Assumptions flexible_sequential_keeps_refuted.

(** Refuted: "mean views still hold when a quantile view is added" (either mode): the mean goes from 0.4 to 0.7. *)
Theorem flexible_quantile_keeps_refuted : forall b, exists r, sound best_minimize /\
  flexible_views best_minimize (argsort_by Rleb 0) ExistProperties.best_chol (fun _ _ _ _ => 0) prior2 (dicts [(keyA, SNum (4 / 10))] [] [] [] [] [] [(keyA, Some (1 / 2, SNum (3 / 10)))] b) = Ok r /\
  column (f_assets r) (LStr "A"%string) 0 /\ f_mean r 0%nat = 7 / 10.
Proof.
  intros b. destruct (setup2 ExistProperties.best_chol (fun _ _ _ _ => 0)) as [p0 [E [P0 P1]]].
  destruct (run_quantile (argsort_by Rleb 0) p0 b ltac:(lra) ltac:(lra)) as [q [Eq [Q0 Q1]]].
  pose proof (fv_build _ _ _ _ _ _ _ _ _ _ _ _ _ _ _ _ _ _ _ _ E ltac:(discriminate) Eq) as R. eexists. split; [exact best_minimize_sound|]. split; [exact R|]. cbn [f_assets f_S f_q f_R f_mean].
  split; [exact col_A|]. rewrite q_mean_eq, mean_A by lra. lra.
Qed.
Print Assumptions flexible_quantile_keeps_refuted.

(** Refuted: "the caller's dictionary of mean views is left alone": a ranking adds to it. *)
Theorem flexible_rank_mutates_refuted : forall minimize argsort chol normals pr vol var skew corr cvar quant x y b r,
  flexible_views minimize argsort chol normals pr (Views (WDict []) vol var skew corr cvar quant (Some [x; y]) b) = Ok r ->
  f_mean_views r = [(KTup [x; y], at_least 0)].
Proof.
  intros minimize argsort chol normals pr vol var skew corr cvar quant x y b r H. destruct (fv_inv _ _ _ _ _ _ _ H) as [_ [_ [m' [vo [va [sk [cv [E1 [_ [_ [_ [_ [E6 _]]]]]]]]]]]]].
  cbn in E1. injection E1 as <-. cbn in E6. injection E6 as <-. reflexivity.
Qed.
Print Assumptions flexible_rank_mutates_refuted.

(** Refuted: "one asset can have views": a single column is always refused. *)
Theorem flexible_single_asset_refuted : forall minimize argsort chol normals pr v,
  match pr with PScen _ _ N _ _ => N | PMom _ n _ _ _ _ _ _ _ => n end = 1%nat -> exists e, flexible_views minimize argsort chol normals pr v = Err e.
Proof.
  intros minimize argsort chol normals pr v H. destruct (flexible_views minimize argsort chol normals pr v) as [r|e] eqn:E; eauto. exfalso.
  destruct (fv_inv _ _ _ _ _ _ _ E) as [_ [HN _]]. destruct (flexible_prior _ _ _ _ _ _ _ E) as [_ [_ D]]. destruct pr; destruct D as [_ [D _]]; congruence.
Qed.
Print Assumptions flexible_single_asset_refuted.

(** Concrete successful calls. *)
Example flexible_mean_case : exists r, flexible_views best_minimize (argsort_by Rleb 0) ExistProperties.best_chol (fun _ _ _ _ => 0) prior2 (Views (WDict [(keyA, SNum (4 / 10))]) WNone WNone WNone [] WNone [] None false) = Ok r /\
  f_mean_views r <> [] /\ f_mean r 0%nat = 4 / 10 /\ sumn (f_S r) (f_p0 r) = 1.
Proof.
  destruct (setup2 ExistProperties.best_chol (fun _ _ _ _ => 0)) as [p0 [E [P0 P1]]]. destruct (run_mean (argsort_by Rleb 0) false (4 / 10) ltac:(lra) p0 ltac:(lra) ltac:(lra)) as [q [Eq [Q0 Q1]]].
  pose proof (fv_build _ _ _ _ _ _ _ _ _ _ _ _ _ _ _ _ _ _ _ _ E ltac:(discriminate) Eq) as R. eexists. split; [exact R|]. cbn [f_mean_views f_mean f_S f_p0]. split; [discriminate|]. split; [rewrite q_mean_eq, mean_A by lra; lra|cbn; lra].
Qed.
Example flexible_both_case : exists r, flexible_views best_minimize (argsort_by Rleb 0) ExistProperties.best_chol (fun _ _ _ _ => 0) prior2 (dicts [(keyA, SNum (2 / 10))] [(keyA, SNum (4 / 10))] [] [] [] [] [] false) = Ok r /\
  f_mean r 0%nat = 2 / 10 /\ var_of (f_S r) (f_q r) (f_R r) 0 = 16 / 100 /\ sumn (f_S r) (f_p0 r) = 1.
Proof.
  destruct (setup2 ExistProperties.best_chol (fun _ _ _ _ => 0)) as [p0 [E [P0 P1]]]. destruct (run_both (argsort_by Rleb 0) p0 ltac:(lra) ltac:(lra)) as [q [Eq [Q0 Q1]]].
  pose proof (fv_build _ _ _ _ _ _ _ _ _ _ _ _ _ _ _ _ _ _ _ _ E ltac:(discriminate) Eq) as R. eexists. split; [exact R|]. cbn [f_mean f_S f_p0 f_q f_R]. split; [rewrite q_mean_eq, mean_A by lra; lra|]. split; [rewrite var_A by lra; rewrite Q0, Q1; lra|cbn; lra].
Qed.
Example flexible_cvar_case : sorts Rle 0 (argsort_by Rleb 0) /\ exists r, flexible_views best_minimize (argsort_by Rleb 0) ExistProperties.best_chol (fun _ _ _ _ => 0) (PScen (Some lab2) 3 2 X3 None) (dicts [] [] [] [] [] [(keyA, CvSeq [- (1 / 2); 1 / 2])] [] false) = Ok r /\
  f_q r 0%nat = 1 / 4 /\ f_q r 1%nat = 1 / 4 /\ f_q r 2%nat = 1 / 2.
Proof.
  split; [exact FrProperties.rsort_sorts|]. destruct run_cvar as [q [Eq Q]].
  assert (E : fv_setup ExistProperties.best_chol (fun _ _ _ _ => 0) (PScen (Some lab2) 3 2 X3 None) = Ok (true, lab2, 3%nat, 2%nat, X3, third)).
  { cbn [fv_setup Nat.eqb negb guard]. repeat f_equal. replace (INR 3) with 3 by (cbn; lra). reflexivity. }
  pose proof (fv_build _ _ _ _ _ _ _ _ _ _ _ _ _ _ _ _ _ _ _ _ E ltac:(discriminate) Eq) as R. eexists. split; [exact R|]. cbn [f_q]. exact Q.
Qed.
Example flexible_moment_case : exists normals : nat -> nat -> mat,
  (forall j, (j < 2)%nat -> sumn 4 (fun s => normals 4%nat 2%nat s j) = 0) /\
  (forall j k, (j < 2)%nat -> (k < 2)%nat -> sumn 4 (fun s => normals 4%nat 2%nat s j * normals 4%nat 2%nat s k) = INR 4 * delta j k) /\
  exists r, flexible_views best_minimize (argsort_by Rleb 0) ExistProperties.best_chol normals (PMom None 2 (fun _ => 1) None 2 2 delta 4 None) (dicts [] [] [] [] [] [] [] false) = Ok r.
Proof.
  exists (fun _ _ s j => if (j =? 0)%nat then (if (s <? 2)%nat then 1 else -1) else (if Nat.even s then 1 else -1)). split; [|split].
  - intros [|[|j]] Hj; try lia; cbn; lra.
  - intros [|[|j]] [|[|k]] Hj Hk; try lia; cbn; unfold delta; cbn; lra.
  - assert (P : psd 2 (fun i j => 1 / 2 * (delta i j + delta j i) + delta i j * (1 / 1000000))).
    { intros x. unfold quad. cbn. unfold delta. cbn. nra. }
    destruct (ExistProperties.cholesky_psd_never_fails ExistProperties.best_chol 2 _ ExistProperties.best_chol_complete P) as [L EL].
    eexists. eapply fv_build; [|instantiate (1 := 2%nat); discriminate|apply posterior_none]. cbn [fv_setup Nat.eqb negb guard andb]. rewrite EL. cbn [bind]. reflexivity.
Qed.
