From Coq Require Import Lia Lra ZArith String.
From Verif Require Import RBase QpBase ConsModel DistModel OptSpec DistSpec DistProofs ConvModel ProjModel ProjSpec ProjProofs.
Open Scope R_scope.
Open Scope list_scope.

Lemma div_mod_pos n s j : (j < n)%nat -> ((s * n + j) / n = s /\ (s * n + j) mod n = j)%nat.
Proof.
  intros H. split.
  - rewrite Nat.div_add_l by lia. rewrite Nat.div_small by exact H. lia.
  - rewrite Nat.add_comm, Nat.mod_add by lia. apply Nat.mod_small. exact H.
Qed.

Lemma scen_rest X T n rest : scenarios_of X T n -> r_shape X = T :: rest -> fold_right Nat.mul 1%nat rest = n.
Proof. intros [[E ->]|E] H; rewrite E in H; injection H as <-; simpl; lia. Qed.

Lemma wrap_none kd X T n nsim rest f : kind_ok kd X -> scenarios_of X T n -> r_shape X = T :: rest ->
  wrap kd nsim (mkR (nsim :: rest) f) = Ok (mkR (nsim :: rest) f).
Proof.
  intros HK HS HR. destruct kd as [| |cols]; unfold wrap, kind_ok in *; cbn [r_shape].
  - reflexivity.
  - destruct HK as (T' & E). rewrite E in HR. injection HR as <- <-. destruct (list_eq_dec Nat.eq_dec [nsim] [nsim]); [reflexivity|congruence].
  - destruct HK as (T' & E). rewrite E in HR. injection HR as <- <-. destruct (list_eq_dec Nat.eq_dec [nsim; Datatypes.length cols] _); [reflexivity|congruence].
Qed.

Lemma project_plain kd X hz p nsim u out T n : kind_ok kd X -> scenarios_of X T n -> uniform_draws u ->
  project_scenarios kd X hz p nsim None u = Ok out ->
  (0 < hor_int hz)%Z /\ (0 < nsim)%Z /\ r_shape out = Z.to_nat nsim :: tl (r_shape X) /\
  exists idx, bootstrap T (raw_weight p) u (Z.to_nat nsim) (Z.to_nat (hor_int hz)) idx /\
    forall s j, (s < Z.to_nat nsim)%nat -> (j < n)%nat ->
      entry n out s j = sumn (Z.to_nat (hor_int hz)) (fun t => entry n X (idx s t) j).
Proof.
  intros HK HS Hu H. destruct (project_inv _ _ _ _ _ _ _ _ H) as (T' & rest & idx & o & F & E & W). cbv zeta in E, W. subst o.
  destruct F as [F1 F2 F3 F4 F5 F6].
  assert (T' = T) by (destruct HS as [[E _]|E]; rewrite E in F3; injection F3; auto). subst T'.
  rewrite (scen_rest X T n rest HS F3) in W.
  unfold scenario_sums in W. rewrite (wrap_none kd X T n _ rest _ HK HS F3) in W. injection W as <-.
  split; [exact F1|]. split; [exact F2|]. split; [rewrite F3; reflexivity|]. exists idx. split.
  - intros s t _ _. apply F6. exact Hu.
  - intros s j Hs Hj. unfold entry at 1. simpl. destruct (div_mod_pos n s j Hj) as [-> ->]. reflexivity.
Qed.

Lemma project_accepts kd X hz p nsim u T n : kind_ok kd X -> scenarios_of X T n ->
  ((exists out, project_scenarios kd X hz p nsim None u = Ok out) <->
   (0 < hor_int hz)%Z /\ (0 < nsim)%Z /\ (0 < T)%nat /\ drawable T p).
Proof.
  intros HK HS. split.
  - intros (out & H). pose proof H as H'. destruct (project_inv _ _ _ _ _ _ _ _ H) as (T' & rest & idx & o & F & E & W). destruct F as [F1 F2 F3 F4 F5 _].
    assert (T' = T) by (destruct HS as [[E' _]|E']; rewrite E' in F3; injection F3; auto). subst T'.
    split; [exact F1|]. split; [exact F2|]. split; [exact F5|]. apply (weights_choice T p F5).
    unfold project_scenarios in H'. destruct (Z.leb_spec (hor_int hz) 0) as [|]; [lia|]. destruct (Z.leb_spec nsim 0) as [|]; [lia|].
    assert (G : forall (sh : list nat), (let* w := proj_weights T p in let* idx := rng_choice T T w u in
       let sums := scenario_sums (fold_right Nat.mul 1%nat sh) (Z.to_nat nsim) (Z.to_nat (hor_int hz)) sh X idx in
       let* out := Ok sums in wrap kd (Z.to_nat nsim) out) = Ok out -> exists w u idx, proj_weights T p = Ok w /\ rng_choice T T w u = Ok idx).
    { intros sh G. apply bind_ok in G. destruct G as (w & Ew & G). apply bind_ok in G. destruct G as (ix & Ei & _). eauto. }
    destruct HS as [[E' _]|E']; rewrite E' in H'; exact (G _ H').
  - intros (H1 & H2 & H3 & H4). apply (weights_choice T p H3) in H4. destruct H4 as (w & Ew & Ei). destruct (Ei u) as (idx & Ex).
    unfold project_scenarios. destruct (Z.leb_spec (hor_int hz) 0) as [|]; [lia|]. destruct (Z.leb_spec nsim 0) as [|]; [lia|].
    assert (exists rest, r_shape X = T :: rest) as (rest & HR) by (destruct HS as [[E' _]|E']; eauto).
    pose proof (wrap_none kd X T n (Z.to_nat nsim) rest) as W.
    eexists. destruct HS as [[E' En]|E']; rewrite E' in *; injection HR as <-; rewrite Ew; cbn [bind]; rewrite Ex; cbn [bind tl]; unfold scenario_sums; apply W; auto; [left|right]; auto.
Qed.

Lemma project_err kd X hz p nsim u T n e : kind_ok kd X -> scenarios_of X T n ->
  project_scenarios kd X hz p nsim None u = Err e ->
  e = ValueError \/ (e = ZeroDivisionError /\ T = 0%nat /\ p = None).
Proof.
  intros HK HS H. unfold project_scenarios in H.
  destruct (Z.leb_spec (hor_int hz) 0) as [|Hh]; [left; congruence|]. destruct (Z.leb_spec nsim 0) as [|Hn]; [left; congruence|].
  assert (exists rest, r_shape X = T :: rest) as (rest & HR) by (destruct HS as [[E' _]|E']; eauto).
  pose proof (wrap_none kd X T n (Z.to_nat nsim) rest) as W.
  assert (G : (let* w := proj_weights T p in let* idx := rng_choice T T w u in
       let sums := scenario_sums (fold_right Nat.mul 1%nat rest) (Z.to_nat nsim) (Z.to_nat (hor_int hz)) rest X idx in
       let* out := Ok sums in wrap kd (Z.to_nat nsim) out) = Err e).
  { destruct HS as [[E' _]|E']; rewrite E' in *; injection HR as <-; exact H. }
  destruct (proj_weights T p) as [w|e'] eqn:Ew; cbn [bind] in G.
  - destruct (rng_choice T T w u) as [idx|e'] eqn:Ei; cbn [bind] in G.
    + cbv zeta in G. unfold scenario_sums in G. rewrite W in G by auto. discriminate.
    + left. injection G as <-. unfold rng_choice in Ei. repeat match type of Ei with context [if ?b then _ else _] => destruct b end; congruence.
  - injection G as <-. destruct p as [a|]; simpl in Ew.
    + left. repeat match type of Ew with context [if ?b then _ else _] => destruct b | context [match ?b with _ => _ end] => destruct b end; congruence.
    + destruct (Nat.eqb_spec T 0); [right|]; [injection Ew as <-; auto|discriminate].
Qed.

(** ** Moments of the bootstrap *)
Lemma over_draws_ext T q h : forall f g, (forall l, f l = g l) -> over_draws T q h f = over_draws T q h g.
Proof. induction h as [|h IH]; intros f g H; simpl; [apply H|]. apply sumn_ext. intros t Ht. f_equal. apply IH. intros; apply H. Qed.
Lemma over_draws_plus T q h : forall f g, over_draws T q h (fun l => f l + g l) = over_draws T q h f + over_draws T q h g.
Proof.
  induction h as [|h IH]; intros f g; simpl; [reflexivity|]. rewrite <- sumn_plus. apply sumn_ext. intros t Ht. rewrite IH. ring.
Qed.
Lemma over_draws_scale T q h : forall k f, over_draws T q h (fun l => k * f l) = k * over_draws T q h f.
Proof.
  induction h as [|h IH]; intros k f; simpl; [reflexivity|]. rewrite <- sumn_scale. apply sumn_ext. intros t Ht. rewrite IH. ring.
Qed.
Lemma over_draws_const T q h : prob_vec T q -> forall k, over_draws T q h (fun _ => k) = k.
Proof.
  intros [_ Hq]. induction h as [|h IH]; intros k; simpl; [reflexivity|]. rewrite (sumn_ext T _ (fun t => q t * k)) by (intros; rewrite IH; ring).
  rewrite sumn_scale_r, Hq. ring.
Qed.
Lemma path_mean T q X h i : prob_vec T q -> over_draws T q h (path_sum X i) = INR h * mean_of T q X i.
Proof.
  intros Hq. induction h as [|h IH]; [simpl; unfold path_sum; simpl; ring|]. cbn [over_draws].
  rewrite (sumn_ext T _ (fun t => q t * X t i + q t * over_draws T q h (path_sum X i))).
  2:{ intros t Ht. rewrite (over_draws_ext T q h _ (fun l => X t i + path_sum X i l)) by reflexivity.
      rewrite (over_draws_plus T q h (fun _ => X t i) (path_sum X i)), over_draws_const by exact Hq. ring. }
  rewrite sumn_plus, sumn_scale_r, IH. destruct Hq as [_ Hq]. rewrite Hq, S_INR. unfold mean_of. ring.
Qed.
Lemma path_product T q X h i j : prob_vec T q ->
  over_draws T q h (fun l => path_sum X i l * path_sum X j l) =
  INR h * sumn T (fun t => q t * (X t i * X t j)) + INR h * (INR h - 1) * (mean_of T q X i * mean_of T q X j).
Proof.
  intros Hq. induction h as [|h IH]; [simpl; unfold path_sum; simpl; ring|]. cbn [over_draws].
  set (mi := mean_of T q X i) in *. set (mj := mean_of T q X j) in *. set (c := over_draws T q h (fun l => path_sum X i l * path_sum X j l)) in *.
  rewrite (sumn_ext T _ (fun t => q t * (X t i * X t j) + (q t * X t i) * (INR h * mj) + ((q t * X t j) * (INR h * mi) + q t * c))).
  2:{ intros t Ht.
      rewrite (over_draws_ext T q h _ (fun l => (X t i * X t j + X t i * path_sum X j l) + (X t j * path_sum X i l + path_sum X i l * path_sum X j l))).
      2:{ intros l. unfold path_sum. simpl. ring. }
      rewrite (over_draws_plus T q h (fun l => X t i * X t j + X t i * path_sum X j l) (fun l => X t j * path_sum X i l + path_sum X i l * path_sum X j l)).
      rewrite (over_draws_plus T q h (fun _ => X t i * X t j)), (over_draws_plus T q h (fun l => X t j * path_sum X i l)), !over_draws_scale, over_draws_const, !path_mean by exact Hq.
      fold mi mj c. ring. }
  rewrite !sumn_plus, !sumn_scale_r. destruct Hq as [_ Hq]. rewrite Hq, IH, S_INR.
  change (sumn T (fun t => q t * X t i)) with mi. change (sumn T (fun t => q t * X t j)) with mj. ring.
Qed.
Lemma cov_of_alt T q X i j : prob_vec T q -> cov_of T q X i j = sumn T (fun t => q t * (X t i * X t j)) - mean_of T q X i * mean_of T q X j.
Proof.
  intros [_ Hq]. unfold cov_of. set (mi := mean_of T q X i). set (mj := mean_of T q X j).
  rewrite (sumn_ext T _ (fun t => q t * (X t i * X t j) - (q t * X t i) * mj - ((q t * X t j) * mi - q t * (mi * mj)))) by (intros; ring).
  rewrite !sumn_minus, !sumn_scale_r, Hq. change (sumn T (fun t => q t * X t i)) with mi. change (sumn T (fun t => q t * X t j)) with mj. ring.
Qed.

Lemma bootstrap_moments_l T q X h : prob_vec T q ->
  (forall i, over_draws T q h (path_sum X i) = fst (project_mean_covariance (mean_of T q X) (cov_of T q X) (INR h)) i) /\
  (forall i j, over_draws T q h (fun l => (path_sum X i l - INR h * mean_of T q X i) * (path_sum X j l - INR h * mean_of T q X j)) =
     snd (project_mean_covariance (mean_of T q X) (cov_of T q X) (INR h)) i j).
Proof.
  intros Hq. split.
  - intros i. rewrite path_mean by exact Hq. unfold project_mean_covariance. simpl. ring.
  - intros i j. set (mi := INR h * mean_of T q X i). set (mj := INR h * mean_of T q X j).
    rewrite (over_draws_ext T q h _ (fun l => (path_sum X i l * path_sum X j l + (- mj) * path_sum X i l) + ((- mi) * path_sum X j l + mi * mj))) by (intros; ring).
    rewrite (over_draws_plus T q h (fun l => path_sum X i l * path_sum X j l + (- mj) * path_sum X i l) (fun l => (- mi) * path_sum X j l + mi * mj)).
    rewrite (over_draws_plus T q h (fun l => path_sum X i l * path_sum X j l)), (over_draws_plus T q h (fun l => (- mi) * path_sum X j l) (fun _ => mi * mj)), !over_draws_scale, over_draws_const, !path_mean, path_product by exact Hq.
    unfold project_mean_covariance. cbn [snd]. rewrite cov_of_alt by exact Hq. unfold mi, mj. ring.
Qed.

(** ** Paths *)
Lemma simulate_inv X horizon np p u out T n : scenarios_of X T n -> simulate_paths X horizon np p None u = Ok out ->
  (0 <= horizon)%Z /\ (0 <= np)%Z /\ exists k w idx, path_weights T p = Ok (k, w) /\ rng_choice T k w u = Ok idx /\
  r_shape out = [Z.to_nat np; Z.to_nat horizon; n] /\
  forall s t j, (s < Z.to_nat np)%nat -> (t < Z.to_nat horizon)%nat -> (j < n)%nat ->
    r_at out ((s * Z.to_nat horizon + t) * n + j)%nat = sumn (S t) (fun v => entry n X (idx s v) j).
Proof.
  intros HS H. unfold simulate_paths in H. apply bind_ok in H. destruct H as ([T' n'] & E & H).
  assert (T' = T /\ n' = n) as [-> ->]. { destruct HS as [[E' En]|E']; rewrite E' in E; injection E as <- <-; auto. }
  apply bind_ok in H. destruct H as ([k w] & Ew & H). apply bind_ok in H. destruct H as (idx & Ei & H).
  destruct (Z.ltb_spec np 0) as [|H1]; [discriminate|]. destruct (Z.ltb_spec horizon 0) as [|H2]; [discriminate|]. simpl in Ei.
  cbn [bind] in H. injection H as <-. split; [exact H2|]. split; [exact H1|]. exists k, w, idx. split; [exact Ew|]. split; [exact Ei|]. split; [reflexivity|].
  intros s t j Hs Ht Hj. cbn [r_at].
  destruct (div_mod_pos n (s * Z.to_nat horizon + t) j Hj) as [-> ->]. destruct (div_mod_pos (Z.to_nat horizon) s t Ht) as [-> ->].
  rewrite nth_map_seq by exact Ht. cbn [r_at]. destruct (div_mod_pos n s j Hj) as [-> ->]. reflexivity.
Qed.

Lemma path_weights_scale T p k w : path_weights T p = Ok (k, w) -> (0 < T)%nat -> k = T ->
  exists s, s <> 0 /\ (forall i, (i < T)%nat -> w i = raw_weight p i / s) /\ s = sumn T (raw_weight p).
Proof.
  intros H HT Hk. destruct p as [a|]; simpl in H.
  - destruct (nd_sum a) as [s| | |] eqn:ES; try discriminate. destruct (Reqb_spec s 0) as [|Hs]; [discriminate|]. injection H as <- <-.
    apply nd_sum_fin in ES. destruct ES as [_ ES]. exists s. split; [exact Hs|]. split; [reflexivity|]. simpl. rewrite <- Hk. exact ES.
  - destruct (Nat.eqb_spec T 0) as [|_]; [lia|]. injection H as <- <-. exists (INR T). assert (INR T <> 0) by (apply not_0_INR; lia).
    split; [assumption|]. split; [|simpl; rewrite sumn_const; ring]. intros i Hi. simpl. rewrite sumn_const. field. assumption.
Qed.

Lemma terminal_l kd X hz p n T nsim u out paths : kind_ok kd X -> scenarios_of X T n -> uniform_draws u ->
  project_scenarios kd X (HInt hz) p nsim None u = Ok out -> simulate_paths X hz nsim p None u = Ok paths ->
  forall s j, (s < Z.to_nat nsim)%nat -> (j < n)%nat ->
    r_at paths ((s * Z.to_nat hz + (Z.to_nat hz - 1)) * n + j)%nat = entry n out s j.
Proof.
  intros HK HS Hu HP HQ s j Hs Hj.
  destruct (project_plain kd X (HInt hz) p nsim u out T n HK HS Hu HP) as (H1 & H2 & _ & idx & HB & HO). simpl in *.
  destruct (simulate_inv X hz nsim p u paths T n HS HQ) as (_ & _ & k & w & ix & Ew & Ei & _ & HO2).
  rewrite HO by assumption. rewrite HO2 by (try assumption; lia). replace (S (Z.to_nat hz - 1)) with (Z.to_nat hz) by lia.
  apply sumn_ext. intros t Ht. f_equal.
  apply rng_choice_inv in Ei. destruct Ei as (HT & HkT & Hw & HSum & ->).
  destruct (path_weights_scale T p k w Ew HT HkT) as (q & Hq & Hwq & Eq).
  destruct (proj1 (project_accepts kd X (HInt hz) p nsim u T n HK HS) (ex_intro _ out HP)) as (_ & _ & _ & HD).
  assert (HR : (forall i, (i < T)%nat -> 0 <= raw_weight p i) /\ 0 < sumn T (raw_weight p)).
  { destruct p as [a|]; simpl in HD |- *; [|split; [intros; lra|rewrite sumn_const, Rmult_1_r; apply lt_0_INR; exact HT]].
    destruct HD as (_ & HF & HP0 & _). split; [intros i Hi; apply (HF i Hi)|exact HP0]. }
  destruct HR as [HR1 HR2]. specialize (HB s t Hs Ht).
  apply (draws_unique T (raw_weight p) (u s t)); [exact HR1| |exact HB].
  apply (raw_draws T p w q); [lra|exact Hwq|]. apply choice_index_draws; auto.
  rewrite (sumn_ext T w (fun i => raw_weight p i / q)) by exact Hwq. rewrite sumn_div. apply Rdiv_lt_0_compat; lra.
Qed.
