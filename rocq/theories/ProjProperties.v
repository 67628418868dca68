(** C45, C46: bootstrap projection and repricing. *)
From Coq Require Import Lia Lra ZArith String Permutation.
From Verif Require Import RBase QpBase ConsModel DistModel OptSpec DistSpec DistProofs DistProofs2 DistProofs3 ConvModel ProjModel ProjSpec ProjProofs ProjProofs2 ProjProofs3.
Open Scope R_scope.
Open Scope list_scope.

(** * C45 *)
(** Each uniform number selects exactly the row whose slice of [0, 1) it falls in; slices have the
    rows' relative weights as lengths, so a row of weight zero is never selected. *)
Theorem draw_selects_slice : forall T w u, (forall k, (k < T)%nat -> 0 <= w k) -> 0 < sumn T w -> 0 <= u < 1 ->
  (forall k, choice_index T w u = k <-> draws T w u k) /\ 0 < w (choice_index T w u).
Proof.
  intros T w u Hw HW Hu.
  assert (HT : (0 < T)%nat) by (destruct T; [simpl in HW; lra|lia]).
  pose proof (choice_index_draws T w u HT Hw HW Hu) as D. split; [|apply (draws_pos _ _ _ _ D)].
  intros k. split; [intros <-; exact D|]. intros H. apply (draws_unique T w u); assumption.
Qed.
Print Assumptions draw_selects_slice.

(** Every projected scenario is the sum of [horizon] rows of the input, selected by the uniform draws
    according to the caller's weights. *)
Theorem projection_recombines_rows : forall kd X hz p nsim u out T n,
  kind_ok kd X -> scenarios_of X T n -> uniform_draws u ->
  project_scenarios kd X hz p nsim None u = Ok out ->
  (0 < hor_int hz)%Z /\ (0 < nsim)%Z /\ r_shape out = Z.to_nat nsim :: tl (r_shape X) /\
  exists idx, bootstrap T (raw_weight p) u (Z.to_nat nsim) (Z.to_nat (hor_int hz)) idx /\
    forall s j, (s < Z.to_nat nsim)%nat -> (j < n)%nat ->
      entry n out s j = sumn (Z.to_nat (hor_int hz)) (fun t => entry n X (idx s t) j).
Proof. exact project_plain. Qed.
Print Assumptions projection_recombines_rows.

(** Hence projected entries lie between horizon times the smallest and the largest value of their
    column among rows with positive weight. *)
Theorem projection_bounds : forall kd X hz p nsim u out T n lo hi j,
  kind_ok kd X -> scenarios_of X T n -> uniform_draws u ->
  project_scenarios kd X hz p nsim None u = Ok out -> (j < n)%nat ->
  (forall t, (t < T)%nat -> 0 < raw_weight p t -> lo <= entry n X t j <= hi) ->
  forall s, (s < Z.to_nat nsim)%nat -> IZR (hor_int hz) * lo <= entry n out s j <= IZR (hor_int hz) * hi.
Proof.
  intros kd X hz p nsim u out T n lo hi j HK HS Hu H Hj HB s Hs.
  destruct (project_plain kd X hz p nsim u out T n HK HS Hu H) as (Hh & Hn & _ & idx & HD & HO).
  rewrite HO by assumption. set (h := Z.to_nat (hor_int hz)) in *.
  assert (E : IZR (hor_int hz) = INR h) by (unfold h; rewrite INR_IZR_INZ, Z2Nat.id by lia; reflexivity). rewrite E.
  rewrite <- (sumn_const h lo), <- (sumn_const h hi).
  split; apply sumn_le; intros t Ht; destruct (HD s t Hs Ht) as [Hi HL]; apply HB; auto; lra.
Qed.
Print Assumptions projection_bounds.

(** When the projection succeeds. *)
Theorem projection_accepts_iff : forall kd X hz p nsim u T n, kind_ok kd X -> scenarios_of X T n ->
  ((exists out, project_scenarios kd X hz p nsim None u = Ok out) <->
   (0 < hor_int hz)%Z /\ (0 < nsim)%Z /\ (0 < T)%nat /\ drawable T p) /\
  (forall e, project_scenarios kd X hz p nsim None u = Err e ->
     e = ValueError \/ (e = ZeroDivisionError /\ T = 0%nat /\ p = None)).
Proof.
  intros. split; [apply (project_accepts kd X hz p nsim u T n); assumption|]. intros e He. apply (project_err kd X hz p nsim u T n e); assumption.
Qed.
Print Assumptions projection_accepts_iff.

(** "Weights are normalised" fails for totals close to, but not equal to, one: they are passed on as
    they are and the generator rejects them. *)
Theorem projection_normalises_weights_refuted : exists X p, scenarios_of X 2 1 /\
  (forall k, (k < 2)%nat -> exists x, nd_at p k = Fin x /\ 0 < x) /\
  (forall kd hz nsim u, kind_ok kd X -> ~ exists out, project_scenarios kd X hz (Some p) nsim None u = Ok out) /\
  (forall u, exists out, project_scenarios KArr X (HInt 1) (Some (mkND [2%nat] (fun k => Fin (2 * val (nd_at p k))))) 1 None u = Ok out).
Proof.
  set (X := mkR [2%nat] (fun k => INR k)). set (p := mkND [2%nat] (fun _ => Fin (1 / 2 + 1 / 1000000))).
  assert (HS : scenarios_of X 2 1) by (left; auto).
  exists X, p. split; [exact HS|]. split; [intros k _; eexists; split; [reflexivity|lra]|].
  assert (E2 : / 2 ^ 26 < 1 / 10000000) by apply choice_tol_small.
  assert (ES : sumn 2 (as_vec p) = 1 + 1 / 500000) by (unfold as_vec; simpl; lra).
  split.
  - intros kd hz nsim u HK H. apply (project_accepts kd X hz (Some p) nsim u 2 1 HK HS) in H.
    destruct H as (_ & _ & _ & _ & _ & _ & H). rewrite ES in H.
    replace (1 + 1 / 500000 - 1) with (1 / 500000) in H by ring. rewrite Rabs_right in H by lra. lra.
  - intros u. apply (project_accepts KArr X (HInt 1) _ 1 u 2 1 I HS). simpl. repeat split; try lia; simpl.
    + unfold as_vec. simpl. lra.
    + unfold as_vec. simpl. lra.
    + right. unfold as_vec. simpl. rewrite Rabs_right; lra.
Qed.
Print Assumptions projection_normalises_weights_refuted.

(** The law of a projected scenario has mean [h mu] and covariance [h Sigma]: exactly what
    [project_mean_covariance] returns for the weighted sample moments. *)
Theorem bootstrap_moments : forall T q X h, prob_vec T q ->
  (forall i, over_draws T q h (path_sum X i) = fst (project_mean_covariance (mean_of T q X) (cov_of T q X) (INR h)) i) /\
  (forall i j, over_draws T q h (fun l => (path_sum X i l - INR h * mean_of T q X i) * (path_sum X j l - INR h * mean_of T q X j)) =
     snd (project_mean_covariance (mean_of T q X) (cov_of T q X) (INR h)) i j).
Proof. exact bootstrap_moments_l. Qed.
Print Assumptions bootstrap_moments.

(** Paths: step [t] of a path is the sum of the first [t + 1] selected rows, so increments are input rows. *)
Theorem paths_accumulate_rows : forall X horizon np p u out T n, scenarios_of X T n ->
  uniform_draws u -> (forall a, p = Some a -> forall k, (k < T)%nat -> 0 <= as_vec a k) ->
  simulate_paths X horizon np p None u = Ok out ->
  r_shape out = [Z.to_nat np; Z.to_nat horizon; n] /\
  exists idx, bootstrap T (raw_weight p) u (Z.to_nat np) (Z.to_nat horizon) idx /\
    forall s t j, (s < Z.to_nat np)%nat -> (t < Z.to_nat horizon)%nat -> (j < n)%nat ->
      r_at out ((s * Z.to_nat horizon + t) * n + j)%nat = sumn (S t) (fun v => entry n X (idx s v) j).
Proof.
  intros X horizon np p u out T n HS Hu Hp H. destruct (simulate_inv X horizon np p u out T n HS H) as (_ & _ & k & w & idx & Ew & Ei & Hsh & HO).
  split; [exact Hsh|]. apply rng_choice_inv in Ei. destruct Ei as (HT & HkT & Hw & HSum & ->).
  destruct (path_weights_scale T p k w Ew HT HkT) as (q & Hq & Hwq & Eq).
  assert (HR : forall i, (i < T)%nat -> 0 <= raw_weight p i) by (destruct p as [a|]; simpl; [apply (Hp a); reflexivity|intros; lra]).
  assert (Hq0 : 0 < q). { assert (0 <= q) by (rewrite Eq; apply sumn_nonneg; exact HR). lra. }
  exists (fun s k => choice_index T w (u s k)). split; [|exact HO]. intros s t _ _. apply (raw_draws T p w q); auto. apply choice_index_draws; auto.
  rewrite (sumn_ext T w (fun i => raw_weight p i / q)) by exact Hwq. rewrite sumn_div. apply Rdiv_lt_0_compat; lra.
Qed.
Print Assumptions paths_accumulate_rows.

(** With the same draws the last step of the paths is the projection. *)
Theorem paths_end_at_projection : forall kd X hz p n T nsim u out paths, kind_ok kd X -> scenarios_of X T n -> uniform_draws u ->
  project_scenarios kd X (HInt hz) p nsim None u = Ok out -> simulate_paths X hz nsim p None u = Ok paths ->
  forall s j, (s < Z.to_nat nsim)%nat -> (j < n)%nat ->
    r_at paths ((s * Z.to_nat hz + (Z.to_nat hz - 1)) * n + j)%nat = entry n out s j.
Proof. exact terminal_l. Qed.
Print Assumptions paths_end_at_projection.

(** [simulate_paths] does not check its probabilities: negative ones are accepted if all are negative. *)
Theorem paths_reject_negative_weights_refuted : forall u, exists X out,
  simulate_paths X 1 1 (Some (mkND [2%nat] (fun _ => Fin (-1)))) None u = Ok out.
Proof.
  intros u. exists (mkR [2%nat] (fun _ => 0)). unfold simulate_paths. cbn [r_shape bind].
  assert (E : path_weights 2 (Some (mkND [2%nat] (fun _ => Fin (-1)))) = Ok (2%nat, fun k => -1 / (-1 + (-1 + 0)))).
  { unfold path_weights, nd_sum. simpl. destruct (Reqb_spec (-1 + (-1 + 0)) 0) as [|]; [lra|reflexivity]. }
  rewrite E. cbn [bind]. assert (E2 : ((1 <? 0)%Z || (1 <? 0)%Z)%bool = false) by reflexivity. rewrite E2.
  rewrite rng_choice_ok; [cbn [bind]; eauto|lia|intros; lra|]. pose proof choice_tol_small.
  simpl. replace (0 + -1 / (-1 + (-1 + 0)) + -1 / (-1 + (-1 + 0)) - 1) with 0 by field. rewrite Rabs_R0. lra.
Qed.
Print Assumptions paths_reject_negative_weights_refuted.

Definition exX : rnd := mkR [2; 2]%nat (fun k => INR k / 10).
Definition exP : nd := mkND [2]%nat (fun k => Fin (if Nat.eqb k 0 then 1 else 3)).
Example projection_case : kind_ok (KFrame ["a"; "b"]%string) exX /\ scenarios_of exX 2 2 /\ drawable 2 (Some exP) /\
  forall u, exists out, project_scenarios (KFrame ["a"; "b"]%string) exX (HFloat (5 / 2)) (Some exP) 3 None u = Ok out.
Proof.
  assert (HK : kind_ok (KFrame ["a"; "b"]%string) exX) by (exists 2%nat; reflexivity).
  assert (HS : scenarios_of exX 2 2) by (right; reflexivity).
  assert (HD : drawable 2 (Some exP)).
  { simpl. split; [reflexivity|]. split; [intros [|[|k]] Hk; unfold as_vec; simpl; split; try reflexivity; try lra; lia|].
    split; [unfold as_vec; simpl; lra|]. right. unfold as_vec; simpl. rewrite Rabs_right; lra. }
  split; [exact HK|]. split; [exact HS|]. split; [exact HD|]. intros u. apply (project_accepts _ _ _ _ _ _ 2 2 HK HS).
  split; [|split; [lia|split; [lia|exact HD]]]. simpl. unfold trunc. destruct (Rleb_spec 0 (5 / 2)); [|lra].
  destruct (base_Int_part (5 / 2)) as [B1 B2]. assert (1 < IZR (Int_part (5 / 2))) by lra. apply lt_IZR in H. lia.
Qed.
Example bootstrap_case : prob_vec 2 (fun k => if Nat.eqb k 0 then 1 / 4 else 3 / 4) /\ uniform_draws (fun s k => 1 / 2).
Proof. split; [split; [intros [|t] _; simpl; lra|simpl; lra]|intros s k; lra]. Qed.

(** * C46 *)
(** Composition succeeds exactly when every instrument has a repricer and known drivers; otherwise
    KeyError (unknown driver) or TypeError (no repricer). *)
Theorem compose_accepts_iff : forall d inv,
  ((exists r, compose_repricers d inv = Ok r) <-> (forall s, In s d -> spec_ok inv s)) /\
  (forall e, compose_repricers d inv = Err e -> exists s, In s d /\
     ((e = KeyError /\ repricer s <> None /\ exists x, In x (driver_names s) /\ ~ In x inv) \/ (e = TypeError /\ repricer s = None))).
Proof.
  intros d inv. unfold compose_repricers. split.
  - split.
    + intros (r & H) s Hs. apply bind_ok in H. destruct H as (parsed & E & _).
      apply parse_spec_ok. apply (proj1 (mapM_ok_iff _ _) (ex_intro _ parsed E)). exact Hs.
    + intros H. assert (G : exists r, mapM (parse_spec inv) d = Ok r) by (apply mapM_ok_iff; intros s Hs; apply parse_spec_ok, H, Hs).
      destruct G as (r & ->). simpl. eauto.
  - intros e H. destruct (mapM (parse_spec inv) d) as [r|e'] eqn:E; simpl in H; [discriminate|]. injection H as <-.
    apply mapM_err in E. destruct E as (s & Hs & E). exists s. split; [exact Hs|]. apply parse_spec_err. exact E.
Qed.
Print Assumptions compose_accepts_iff.

(** Each instrument's repricer is applied to exactly the drivers it names, in the order named, and
    P&L columns come in instrument order. *)
Theorem compose_prices_by_name : forall d inv g names, compose_repricers d inv = Ok (g, names) ->
  (forall s, In s d -> driver_names s <> []) ->
  names = map fst d /\ forall n f, g (table_of inv n f) = pnl_table n f d.
Proof.
  intros d inv g names H HN. unfold compose_repricers in H. apply bind_ok in H. destruct H as (parsed & E & H). injection H as <- <-.
  split; [reflexivity|]. intros n f. apply (combined_pnl inv); assumption.
Qed.
Print Assumptions compose_prices_by_name.

(** So neither the order of the invariant columns nor extra columns matter. *)
Theorem compose_column_order_irrelevant : forall d inv inv' g names g' names',
  compose_repricers d inv = Ok (g, names) -> compose_repricers d inv' = Ok (g', names') ->
  (forall s, In s d -> driver_names s <> []) ->
  names = names' /\ forall n f, g (table_of inv n f) = g' (table_of inv' n f).
Proof.
  intros d inv inv' g names g' names' H H' HN.
  destruct (compose_prices_by_name d inv g names H HN) as [-> A]. destruct (compose_prices_by_name d inv' g' names' H' HN) as [-> B].
  split; [reflexivity|]. intros n f. rewrite A, B. reflexivity.
Qed.
Print Assumptions compose_column_order_irrelevant.

(** Zero shock: the exponential and full repricers give zero P&L, the Taylor repricer the time decay. *)
Theorem zero_shock : forall a, (forall k, (k < r_size a)%nat -> r_at a k = 0) ->
  (forall k, (k < r_size a)%nat -> r_at (reprice_exp a) k = 0) /\
  (forall theta delta gamma tau k, (k < r_size a)%nat ->
     r_at (reprice_taylor theta delta gamma tau a) k = match theta with Some c => c (k mod last_dim a)%nat * tau | None => 0 end) /\
  (forall ns K M price y0, r_shape a = [ns; K] -> (forall x y, (forall i, (i < K)%nat -> x i = y i) -> price x = price y) ->
     exists o, make_repricing_fn M price y0 a = Ok o /\ r_shape o = [ns; M] /\ forall k, (k < ns * M)%nat -> r_at o k = 0).
Proof.
  intros a H. split; [|split].
  - intros k Hk. simpl. rewrite H by exact Hk. rewrite exp_0. ring.
  - intros theta delta gamma tau k Hk. unfold reprice_taylor. cbn [r_at]. rewrite H by exact Hk. destruct theta, delta, gamma; ring.
  - intros ns K M price y0 E HE. unfold make_repricing_fn. rewrite E. eexists. split; [reflexivity|]. split; [reflexivity|].
    intros k Hk. cbn [r_at]. rewrite (HE _ y0); [ring|]. intros i Hi. cbv beta. rewrite H; [ring|].
    unfold r_size. rewrite E. simpl. assert (k / M < ns)%nat by (apply Nat.div_lt_upper_bound; [intros ->; lia|lia]). nia.
Qed.
Print Assumptions zero_shock.

(** The Taylor repricer is the stated second-order polynomial, entry by entry. *)
Theorem taylor_formula : forall th de ga tau a k,
  r_at (reprice_taylor (Some th) (Some de) (Some ga) tau a) k =
    th (k mod last_dim a)%nat * tau + de (k mod last_dim a)%nat * r_at a k + ga (k mod last_dim a)%nat * r_at a k ^ 2 / 2 /\
  r_at (reprice_taylor None (Some (fun _ => 1)) None tau a) k = r_at a k /\
  r_shape (reprice_taylor (Some th) (Some de) (Some ga) tau a) = r_shape a.
Proof. intros. unfold reprice_taylor. cbn [r_at r_shape]. split; [field|]. split; [ring|reflexivity]. Qed.
Print Assumptions taylor_formula.

(** Full repricing is additive along a path of driver changes. *)
Theorem full_repricing_additive : forall M price ns K y0 f g o1 o2 o12,
  (forall s i, g s i = g 0%nat i) ->
  make_repricing_fn M price y0 (mkR [ns; K] (fun q => g (q / K)%nat (q mod K)%nat)) = Ok o1 ->
  make_repricing_fn M price (fun i => y0 i + g 0%nat i) (mkR [ns; K] (fun q => f (q / K)%nat (q mod K)%nat)) = Ok o2 ->
  make_repricing_fn M price y0 (mkR [ns; K] (fun q => g (q / K)%nat (q mod K)%nat + f (q / K)%nat (q mod K)%nat)) = Ok o12 ->
  (forall x y, (forall i, (i < K)%nat -> x i = y i) -> price x = price y) ->   (* prices depend on the drivers only *)
  forall k, r_at o12 k = r_at o1 k + r_at o2 k.
Proof.
  intros M price ns K y0 f g o1 o2 o12 Hg H1 H2 H12 HE k. injection H1 as <-. injection H2 as <-. injection H12 as <-. cbn [r_at].
  set (s := (k / M)%nat). set (j := (k mod M)%nat).
  assert (EQ : forall i, (i < K)%nat -> ((s * K + i) / K = s /\ (s * K + i) mod K = i)%nat) by (intros; apply div_mod_pos; assumption).
  rewrite (HE (fun i => y0 i + (g ((s * K + i) / K)%nat ((s * K + i) mod K)%nat + f ((s * K + i) / K)%nat ((s * K + i) mod K)%nat)) (fun i => y0 i + g s i + f s i)) by (intros i Hi; destruct (EQ i Hi) as [-> ->]; ring).
  rewrite (HE (fun i => y0 i + g ((s * K + i) / K)%nat ((s * K + i) mod K)%nat) (fun i => y0 i + g 0%nat i)) by (intros i Hi; destruct (EQ i Hi) as [-> ->]; rewrite (Hg s); ring).
  rewrite (HE (fun i => y0 i + g 0%nat i + f ((s * K + i) / K)%nat ((s * K + i) mod K)%nat) (fun i => y0 i + g s i + f s i)) by (intros i Hi; destruct (EQ i Hi) as [-> ->]; rewrite (Hg s); ring).
  ring.
Qed.
Print Assumptions full_repricing_additive.

(** Duplicate invariant names: only the last such column is used. *)
Theorem compose_duplicate_names_refuted : exists g names f, compose_repricers [("x"%string, SFun (fun a => Ok a))] ["x"; "x"]%string = Ok (g, names) /\
  g (mkR [1; 2]%nat f) = Ok (mkR [1; 1]%nat (fun q => nth (q / 1) (nth (q mod 1) [[f 1%nat]] []) 0)).
Proof. eexists _, _, (fun k => INR k). split; [reflexivity|]. reflexivity. Qed.
Print Assumptions compose_duplicate_names_refuted.

Definition ex_d : list (string * spec) :=
  [("Stock"%string, SPair (DOne "eq") (Some (fun a => Ok (reprice_exp a))));
   ("rate"%string, SFun (fun a => Ok (reprice_taylor None (Some (fun _ => -7)) None 0 a)));
   ("Opt"%string, SPair (DMany ["rate"; "eq"]%string) (Some (fun a => Ok (mkR [hd 0%nat (r_shape a)] (fun s => r_at a (2 * s)%nat + 10 * r_at a (2 * s + 1)%nat)))))].
Example compose_case : (forall s, In s ex_d -> spec_ok ["eq"; "rate"]%string s) /\ (forall s, In s ex_d -> driver_names s <> []) /\
  exists o, pnl_table 2 (fun x s => if String.eqb x "eq" then INR s else 1) ex_d = Ok o /\ r_at o 5 = 11.
Proof.
  split; [|split].
  - intros s [<-|[<-|[<-|[]]]]; split; simpl; try discriminate; intuition.
  - intros s [<-|[<-|[<-|[]]]]; simpl; discriminate.
  - eexists. split; [reflexivity|]. simpl. lra.
Qed.

(** * from_invariants *)
(** With the default repricer the wrapper holds [e^y - 1 > -1] for the projected log returns [y],
    equally weighted, under the invariants' labels. *)
Theorem from_invariants_default : forall kd X hz nsim p u d T n, kind_ok kd X -> scenarios_of X T n -> uniform_draws u ->
  from_invariants kd X hz nsim p RDefault u = Ok d ->
  r_shape X = [T; n] /\ d_N d = n /\ d_T d = Some (Z.to_nat nsim) /\
  (forall cols, kd = KFrame cols -> d_names d = Some cols) /\
  exists Y idx, d_scen d = Some Y /\ nd_shape Y = [Z.to_nat nsim; n] /\
    bootstrap T (raw_weight p) u (Z.to_nat nsim) (Z.to_nat (hor_int hz)) idx /\
    (forall s j, (s < Z.to_nat nsim)%nat -> (j < n)%nat ->
       nd_at Y (pos n s j) = Fin (exp (sumn (Z.to_nat (hor_int hz)) (fun t => entry n X (idx s t) j)) - 1)) /\
    exists q, d_probs d = Some q /\ forall s, (s < Z.to_nat nsim)%nat -> nd_at q s = Fin (1 / INR (Z.to_nat nsim)).
Proof.
  intros kd X hz nsim p u d T n HK HS Hu H. unfold from_invariants in H. apply bind_ok in H. destruct H as (pnl & E & H).
  destruct (project_inv _ _ _ _ _ _ _ _ E) as (T' & rest & idx & o & F & Eo & W). destruct F as [F1 F2 F3 F4 F5 F6].
  assert (T' = T) by (destruct HS as [[E' _]|E']; rewrite E' in F3; injection F3; auto). subst T'.
  rewrite (scen_rest X T n rest HS F3) in *. cbv zeta in Eo, W. injection Eo as <-. unfold reprice_exp, scenario_sums in W. cbn [r_shape r_at] in W.
  rewrite (wrap_none kd X T n _ rest _ HK HS F3) in W. injection W as <-.
  set (ns := Z.to_nat nsim) in *.
  unfold from_scenarios in H. set (i := mkIn _ _ _ _ _) in H.
  destruct (make_dist_values i d H) as (V1 & _ & _ & _ & V5).
  destruct (V5 (kind_labels kd) (to_nd (mkR (ns :: rest) (fun k => exp (sumn (Z.to_nat (hor_int hz)) (fun t => r_at X (idx (k / n)%nat t * n + k mod n)%nat)) - 1))) eq_refl)
    as (T1 & pr & q & VT & Vsh & Vp & Vq & Vn & _).
  cbn [to_nd nd_shape r_shape] in Vsh. injection Vsh as <- Er.
  assert (EN : d_N d = n). { destruct HS as [[E' En]|E']; rewrite E' in F3; injection F3 as <-; [discriminate|]. injection Er as ->. reflexivity. }
  split. { destruct HS as [[E' En]|E']; [rewrite E' in F3; injection F3 as <-; discriminate|exact E']. }
  split; [exact EN|]. split; [exact VT|]. split.
  { intros cols ->. apply (make_dist_names i d cols); [|exact H|].
    - split; [exact I|]. split; [exact I|]. simpl. destruct HK as (t0 & HK0). rewrite HK0 in F3. injection F3 as <- <-. exists ns. reflexivity.
    - unfold supplied_labels, i. simpl. auto. }
  exists (to_nd (mkR (ns :: rest) (fun k => exp (sumn (Z.to_nat (hor_int hz)) (fun t => r_at X (idx (k / n)%nat t * n + k mod n)%nat)) - 1))), idx. split; [exact V1|]. split; [simpl; rewrite Er, EN; reflexivity|]. split; [intros s t _ _; apply F6; exact Hu|]. split.
  - intros s j Hs Hj. cbn [to_nd nd_at r_at]. unfold pos. destruct (div_mod_pos n s j Hj) as [-> ->]. reflexivity.
  - exists pr. split; [exact Vp|]. intros s Hs. destruct Vq as [Vq1 Vq2]. rewrite Vq2 by (rewrite (size1 pr ns Vq1); exact Hs). f_equal. apply Vn. exact Hs.
Qed.
Print Assumptions from_invariants_default.

(** A dictionary of repricers needs labelled invariants, and the assets are the instruments. *)
Theorem from_invariants_dict : forall kd X hz nsim p dct u,
  (forall cols, kd <> KFrame cols) /\ from_invariants kd X hz nsim p (RDict dct) u = Err TypeError \/
  (exists cols, kd = KFrame cols) /\ forall d, from_invariants kd X hz nsim p (RDict dct) u = Ok d -> dct <> [] ->
     d_names d = Some (map fst dct) /\ d_N d = List.length dct.
Proof.
  intros kd X hz nsim p dct u. destruct kd as [| |cols]; [left; split; [discriminate|reflexivity]|left; split; [discriminate|reflexivity]|right].
  split; [eauto|]. intros d H Hne. unfold from_invariants in H. apply bind_ok in H. destruct H as ([g names] & Ec & H). apply bind_ok in H. destruct H as (pnl & E & H).
  unfold compose_repricers in Ec. apply bind_ok in Ec. destruct Ec as (parsed & Ep & Ec). injection Ec as <- <-.
  destruct (project_inv _ _ _ _ _ _ _ _ E) as (T' & rest & idx & o & F & Eo & W). cbv zeta in Eo, W. simpl in W. injection W as <-.
  unfold combined in Eo. apply bind_ok in Eo. destruct Eo as (cs & _ & Eo). injection Eo as <-.
  assert (L : List.length parsed = List.length dct) by (apply mapM_Forall2 in Ep; clear - Ep; induction Ep; simpl; congruence).
  unfold from_scenarios in H. set (i := mkIn _ _ _ _ _) in H.
  assert (HN : d_names d = Some (map fst dct)).
  { apply (make_dist_names i d); [|exact H|].
    - split; [exact I|]. split; [exact I|]. simpl. rewrite map_length, <- L. eauto.
    - unfold supplied_labels, i. simpl. auto. }
  split; [exact HN|]. pose proof (vd_names _ (make_dist_valid i d H) _ HN) as V. rewrite map_length in V. symmetry. exact V.
Qed.
Print Assumptions from_invariants_dict.
