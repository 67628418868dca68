(** Whole calls: inversion, the shape of the result, validity of accepted views, chaining. *)
From Coq Require Import Permutation Sorted FunctionalExtensionality.
From Verif Require Import RBase QpBase SortLib OptModel MomSpec NiwModel BlModel RiskModel RiskSpec EpModel EpSpec EpProofs EpProofs2 EpProofs3 EpProofs4 EpProofs5 FvSpec FvProofs FvProofs2 FvProofs3.
Open Scope R_scope.
Open Scope list_scope.

Lemma fv_inv minimize argsort chol normals pr v r : flexible_views minimize argsort chol normals pr v = Ok r ->
  fv_setup chol normals pr = Ok (f_pandas r, f_assets r, f_S r, f_N r, f_R r, f_p0 r) /\ f_N r <> 1%nat /\
  exists mean vol var skew cvar, to_dict SNum (f_assets r) (vs_mean v) = Ok mean /\ to_dict SNum (f_assets r) (vs_vol v) = Ok vol /\
    to_dict SNum (f_assets r) (vs_var v) = Ok var /\ to_dict SNum (f_assets r) (vs_skew v) = Ok skew /\ to_dict CvNum (f_assets r) (vs_cvar v) = Ok cvar /\
    apply_rank mean (vs_rank v) = Ok (f_mean_views r) /\
    posterior minimize argsort (f_assets r) (f_S r) (f_R r) (f_p0 r) (f_mean_views r) vol var skew (vs_corr v) cvar (vs_quantile v) (vs_sequential v) = Ok (f_q r) /\
    f_mean r = q_mean (f_S r) (f_R r) (f_q r) /\ f_cov r = np_cov (f_S r) (f_R r) (f_q r).
Proof.
  intros H. unfold flexible_views in H. apply bind_ok in H. destruct H as [[[[[[pa as_] T] N] X] p0] [E H]].
  apply guard_ok in H. destruct H as [HN H]. apply bind_ok in H. destruct H as [mean [E1 H]]. apply bind_ok in H. destruct H as [vol [E2 H]].
  apply bind_ok in H. destruct H as [var [E3 H]]. apply bind_ok in H. destruct H as [skew [E4 H]]. apply bind_ok in H. destruct H as [cvar [E5 H]].
  apply bind_ok in H. destruct H as [mean' [E6 H]]. apply bind_ok in H. destruct H as [q [E7 H]]. injection H as <-. cbn.
  split; auto. split. { intros ->. discriminate. }
  exists mean, vol, var, skew, cvar. repeat (split; [assumption|]). auto.
Qed.
Lemma fv_build minimize argsort chol normals pr pa as_ T N X p0 mean vol var skew corr cvar quant b q :
  fv_setup chol normals pr = Ok (pa, as_, T, N, X, p0) -> N <> 1%nat ->
  posterior minimize argsort as_ T X p0 mean vol var skew corr cvar quant b = Ok q ->
  flexible_views minimize argsort chol normals pr (dicts mean vol var skew corr cvar quant b) = Ok (Fv pa as_ T N X p0 q (q_mean T X q) (np_cov T X q) mean).
Proof.
  intros E HN H. unfold flexible_views. rewrite E. cbn [bind]. assert (Z : (N =? 1)%nat = false) by (apply Nat.eqb_neq; auto). rewrite Z. cbn [negb guard].
  unfold dicts. cbn [vs_mean vs_vol vs_var vs_skew vs_corr vs_cvar vs_quantile vs_rank vs_sequential to_dict bind apply_rank]. rewrite H. reflexivity.
Qed.

(** ** The prior *)
Lemma setup_prior chol normals pr pa as_ T N X p0 : fv_setup chol normals pr = Ok (pa, as_, T, N, X, p0) ->
  (0 < T)%nat /\ forall s, (s < T)%nat -> 0 < p0 s.
Proof.
  destruct pr as [lab T' N' X' [w|]|ml n mu cl rr cc cov num fn]; cbn [fv_setup]; intros H.
  - apply bind_ok in H. destruct H as [pn [E H]]. apply guard_ok in H. destruct H as [L H]. apply Nat.eqb_eq in L. injection H as <- <- <- <- <- <-.
    destruct (normalize_positive_inv _ _ E) as [Ne [P [Ln [c [C0 [C _]]]]]]. rewrite Ln in L. split.
    + destruct w; [congruence|]. cbn in L. lia.
    + intros s Hs. rewrite C. apply Rdiv_lt_0_compat; auto. apply of_list_pos; auto. lia.
  - apply guard_ok in H. destruct H as [L H]. injection H as <- <- <- <- <- <-. destruct (Nat.eqb_spec T' 0); [discriminate|]. split; [lia|].
    intros s Hs. apply Rdiv_lt_0_compat; [lra|]. apply lt_0_INR. lia.
  - apply guard_ok in H. destruct H as [L H]. destruct (Nat.eqb_spec num 0); [discriminate|]. apply guard_ok in H. destruct H as [_ H].
    apply bind_ok in H. destruct H as [Lc [_ H]]. assert (Q : (0 < num)%nat /\ forall s : nat, (s < num)%nat -> 0 < 1 / INR num).
    { split; [lia|]. intros s Hs. apply Rdiv_lt_0_compat; [lra|]. apply lt_0_INR. lia. }
    destruct fn as [f|].
    + destruct (f mu _ num) as [[T' N'] X']. apply guard_ok in H. destruct H as [_ H]. injection H as <- <- <- <- <- <-. exact Q.
    + injection H as <- <- <- <- <- <-. exact Q.
Qed.

(** ** A positive distribution comes out *)
Lemma seq_blocks_prob minimize assets T X : sound minimize -> forall bs p mu var q, sequential_blocks minimize assets T X bs p mu var = Ok q ->
  (q = p /\ forall mt vs, In (mt, vs) bs -> vs = []) \/ ((forall s, 0 < q s) /\ is_prob T q).
Proof.
  intros So. induction bs as [|[mt d] bs IH]; intros p mu var q H; cbn [sequential_blocks] in H.
  - injection H as <-. left. split; [auto|intros ? ? []].
  - destruct d as [|kv d].
    + cbn [nonempty] in H. destruct (IH _ _ _ _ H) as [[E F]|]; [left|right; auto]. split; auto. intros mt' vs' [E'|I]; [injection E' as <- <-; auto|eauto].
    + cbn [nonempty] in H. apply bind_ok in H. destruct H as [c [B H]]. apply bind_ok in H. destruct H as [q' [D H]]. right.
      destruct (do_ep_ok _ _ _ _ _ So D) as [P [Q _]]. destruct (IH _ _ _ _ H) as [[E F]|]; auto. subst q'. auto.
Qed.
Lemma cvar_steps_prob minimize argsort assets T X : sound minimize -> sorts Rle 0 argsort -> forall d p q, cvar_steps minimize argsort assets T X d p = Ok q ->
  (q = p /\ d = []) \/ ((forall s, 0 < q s) /\ is_prob T q).
Proof.
  intros So AS. induction d as [|[key sp] d IH]; intros p q H; cbn [cvar_steps] in H.
  - injection H as <-. auto.
  - apply bind_ok in H. destruct H as [i [_ H]]. apply bind_ok in H. destruct H as [[t g] [_ H]]. apply bind_ok in H. destruct H as [q' [S H]]. right.
    destruct (solve_cvar_ok _ _ _ _ _ _ _ _ _ So AS S) as [P [Q _]]. destruct (IH _ _ H) as [[E F]|]; auto. subst q'. auto.
Qed.
Lemma posterior_prob minimize argsort assets T X p0 mean vol var skew corr cvar quant b q : sound minimize -> sorts Rle 0 argsort ->
  posterior minimize argsort assets T X p0 mean vol var skew corr cvar quant b = Ok q ->
  (q = p0 /\ mean = [] /\ vol = [] /\ var = [] /\ skew = [] /\ corr = [] /\ cvar = [] /\ quant = []) \/ ((forall s, 0 < q s) /\ is_prob T q).
Proof.
  intros So AS H. unfold posterior in H. apply bind_ok in H. destruct H as [q1 [H1 H]]. apply bind_ok in H. destruct H as [q2 [H2 H3]].
  fold (blocks_of mean vol var skew corr) in H1.
  assert (Z1 : (q1 = p0 /\ mean = [] /\ vol = [] /\ var = [] /\ skew = [] /\ corr = []) \/ ((forall s, 0 < q1 s) /\ is_prob T q1)).
  { destruct b.
    - destruct (seq_blocks_prob minimize assets T X So _ _ _ _ _ H1) as [[E F]|]; [left|right; auto]. split; auto.
      unfold blocks_of in F. split; [apply (F MMean); cbn; auto|]. split; [apply (F MVol); cbn; auto|]. split; [apply (F MVar); cbn; auto|]. split; [apply (F MSkew); cbn; auto|apply (F MCorr); cbn; tauto].
    - apply bind_ok in H1. destruct H1 as [[mu va] [_ H1]]. apply bind_ok in H1. destruct H1 as [c [B H1]].
      destruct (nonempty (fst c) || nonempty (snd c)) eqn:N; [right; destruct (do_ep_ok _ _ _ _ _ So H1) as [P [Q _]]; auto|left].
      injection H1 as <-. split; auto.
      assert (Z : forall mt vs, In (mt, vs) (blocks_of mean vol var skew corr) -> vs = []).
      { intros mt vs I. destruct vs as [|x vs]; auto. exfalso. assert (K : ne c = true) by (apply (all_blocks_ne _ _ _ _ _ _ _ B); left; exists mt, (x :: vs); split; [exact I|discriminate]).
        unfold ne in K. rewrite N in K. discriminate. }
      unfold blocks_of in Z. split; [apply (Z MMean); cbn; auto|]. split; [apply (Z MVol); cbn; auto|]. split; [apply (Z MVar); cbn; auto|]. split; [apply (Z MSkew); cbn; auto|apply (Z MCorr); cbn; tauto]. }
  assert (Z2 : (q2 = q1 /\ quant = []) \/ ((forall s, 0 < q2 s) /\ is_prob T q2)).
  { destruct quant as [|x quant]; [cbn in H2; injection H2 as <-; auto|]. change (nonempty (x :: quant)) with true in H2. cbv iota in H2. right.
    apply bind_ok in H2. destruct H2 as [c [B H2]]. assert (N : ne c = true) by (apply (quantile_ne _ _ _ _ _ B); left; discriminate). unfold ne in N. rewrite N in H2.
    destruct (do_ep_ok _ _ _ _ _ So H2) as [P [Q _]]; auto. }
  destruct (cvar_steps_prob _ _ _ _ _ So AS _ _ _ H3) as [[-> ->]|]; [|auto].
  destruct Z2 as [[-> ->]|]; [|auto]. destruct Z1 as [[-> Z]|]; [|auto]. left. tauto.
Qed.

(** ** Accepted views are valid *)
Lemma parse_wf v l : parse_specs v = Ok l -> well_formed v /\ map snd l = targets v.
Proof.
  destruct v; cbn; intros H; try discriminate; try (injection H as <-; split; [exact I|reflexivity]).
  apply guard_ok in H. destruct H as [G H]. apply Rleb_true in G. injection H as <-. split; auto.
Qed.
Lemma add_specs_ok row ok rhs l : forall acc acc', add_specs acc row ok rhs l = Ok acc' -> forall t, In t (map snd l) -> ok t = true.
Proof.
  induction l as [|[o t] l IH]; intros acc acc' H u; cbn [add_specs] in H; [intros []|].
  apply guard_ok in H. destruct H as [G H]. cbn. intros [<- |I]; eauto.
Qed.
Lemma view_row_names assets X mu var mt key row ok rhs : view_row assets X mu var mt key = Ok (row, ok, rhs) -> names assets mt key /\ forall t, ok t = true -> admits mt t.
Proof.
  intros H. destruct mt; cbn [view_row] in H.
  - destruct key as [a|l].
    + cbn in H. apply bind_ok in H. destruct H as [i [I H]]. apply asset_idx_column in I. split; [cbn; eauto|intros; exact Logic.I].
    + split; [|intros; exact I]. destruct l as [|a [|b [|c l]]]; try discriminate. apply bind_ok in H. destruct H as [i [Hi H]]. apply bind_ok in H. destruct H as [j [Hj H]].
      apply asset_idx_column in Hi, Hj. cbn. exists a, b, i, j. auto.
  - apply bind_ok in H. destruct H as [i [Hi H]]. apply ok3 in H. destruct H as [_ [<- _]]. destruct key as [a|]; [|discriminate]. apply asset_idx_column in Hi. split; [cbn; eauto|].
    cbn. intros t Ht. destruct (Rleb_spec t 0); [discriminate|lra].
  - apply bind_ok in H. destruct H as [i [Hi H]]. apply ok3 in H. destruct H as [_ [<- _]]. destruct key as [a|]; [|discriminate]. apply asset_idx_column in Hi. split; [cbn; eauto|].
    cbn. intros t Ht. apply Rleb_true in Ht. auto.
  - apply bind_ok in H. destruct H as [i [Hi H]]. destruct key as [a|]; [|discriminate]. apply asset_idx_column in Hi. split; [cbn; eauto|intros; exact I].
  - apply bind_ok in H. destruct H as [[a b] [U H]]. apply bind_ok in H. destruct H as [i [Hi H]]. apply bind_ok in H. destruct H as [j [Hj H]]. apply ok3 in H. destruct H as [_ [<- _]].
    apply asset_idx_column in Hi, Hj. split.
    + destruct key as [a'|l]; [exact I|]. destruct l as [|a' [|b' [|c l]]]; try discriminate. injection U as -> ->. cbn. exists a, b, i, j. auto.
    + cbn. intros t Ht. apply andb_true_iff in Ht. destruct Ht as [A B]. apply Rleb_true in A, B. auto.
Qed.
Lemma build_valid assets X mu var mt vs : forall acc acc', build_constraints assets X mu var mt vs acc = Ok acc' -> valid_views assets mt vs.
Proof.
  induction vs as [|[key v] vs IH]; intros acc acc' H; cbn [build_constraints] in H; [intros ? ? []|].
  apply bind_ok in H. destruct H as [[[row ok] rhs] [E H]]. apply bind_ok in H. destruct H as [l [P H]]. apply bind_ok in H. destruct H as [acc1 [A H]].
  intros key' v' [E'|I]; [|exact (IH _ _ H key' v' I)]. injection E' as <- <-. destruct (view_row_names _ _ _ _ _ _ _ _ _ E) as [Na Ad]. destruct (parse_wf _ _ P) as [W Tg].
  split; auto. split; auto. intros t Ht. apply Ad. eapply add_specs_ok; eauto. rewrite Tg. auto.
Qed.
Lemma all_valid assets X mu var bs : forall acc acc', all_blocks assets X bs mu var acc = Ok acc' -> forall mt vs, In (mt, vs) bs -> valid_views assets mt vs.
Proof.
  induction bs as [|[mt vs] bs IH]; intros acc acc' H mt' vs'; cbn [all_blocks] in H; [intros []|]. apply bind_ok in H. destruct H as [acc1 [B H]].
  intros [E|I]; [injection E as <- <-; eapply build_valid; eauto|eauto].
Qed.
Lemma seq_valid minimize assets T X bs : forall p mu var q, sequential_blocks minimize assets T X bs p mu var = Ok q -> forall mt vs, In (mt, vs) bs -> valid_views assets mt vs.
Proof.
  induction bs as [|[mt vs] bs IH]; intros p mu var q H mt' vs'; cbn [sequential_blocks] in H; [intros []|].
  destruct vs as [|x vs]; cbn [nonempty] in H.
  - intros [E|I]; [injection E as <- <-; intros ? ? []|eauto].
  - apply bind_ok in H. destruct H as [c [B H]]. apply bind_ok in H. destruct H as [q' [D H]]. intros [E|I]; [injection E as <- <-; eapply build_valid; eauto|eauto].
Qed.
Lemma quantile_valid assets X d : forall acc acc', quantile_rows assets X d acc = Ok acc' -> forall key sp, In (key, sp) d ->
  exists a i level v, key = KOne a /\ column assets a i /\ sp = Some (level, v) /\ well_formed v /\ forall t, In t (targets v) -> 0 < t < 1.
Proof.
  induction d as [|[key sp] d IH]; intros acc acc' H key' sp'; cbn [quantile_rows] in H; [intros []|].
  apply bind_ok in H. destruct H as [i [Hi H]]. destruct key as [a|]; [|discriminate]. apply asset_idx_column in Hi. destruct sp as [[level v]|]; [|discriminate].
  apply bind_ok in H. destruct H as [l [P H]]. apply bind_ok in H. destruct H as [acc1 [A H]]. intros [E|I]; [|eauto]. injection E as <- <-.
  destruct (parse_wf _ _ P) as [W Tg]. exists a, i, level, v. split; auto. split; auto. split; auto. split; auto. intros t Ht.
  rewrite <- Tg in Ht. pose proof (add_specs_ok _ _ _ _ _ _ A t Ht) as O. apply andb_true_iff in O. destruct O as [O1 O2]. apply Rltb_true in O1, O2. auto.
Qed.
Lemma cvar_valid minimize argsort assets T X : sound minimize -> sorts Rle 0 argsort -> forall d p q, cvar_steps minimize argsort assets T X d p = Ok q -> forall key sp, In (key, sp) d ->
  exists a i target gamma, key = KOne a /\ column assets a i /\ cvar_request sp target gamma /\ 0 < gamma.
Proof.
  intros So AS. induction d as [|[key sp] d IH]; intros p q H key' sp'; cbn [cvar_steps] in H; [intros []|].
  apply bind_ok in H. destruct H as [i [Hi H]]. apply bind_ok in H. destruct H as [[t g] [Tg H]]. apply bind_ok in H. destruct H as [q' [S H]].
  intros [E|I]; [|eauto]. injection E as <- <-. destruct key as [a|]; [|discriminate]. apply asset_idx_column in Hi. exists a, i, t, g. split; auto. split; auto. split.
  - destruct sp as [x|[|t' [|g' rest]]]; try discriminate; [injection Tg as <- <-; cbn; auto|]. injection Tg as <- <-. cbn. eauto.
  - apply (solve_cvar_ok _ _ _ _ _ _ _ _ _ So AS S).
Qed.
(** The last CVaR view. *)
Lemma cvar_last minimize argsort assets T X d key sp : sound minimize -> sorts Rle 0 argsort -> forall p q, cvar_steps minimize argsort assets T X (d ++ [(key, sp)]) p = Ok q ->
  exists a i target gamma, key = KOne a /\ column assets a i /\ cvar_request sp target gamma /\ 0 < gamma /\
    is_cvar (map q (seq 0 T)) (map (fun s => X s i) (seq 0 T)) gamma (- target).
Proof.
  intros So AS. induction d as [|[k' sp'] d IH]; intros p q H.
  - cbn [app cvar_steps] in H. apply bind_ok in H. destruct H as [i [Hi H]]. apply bind_ok in H. destruct H as [[t g] [Tg H]]. apply bind_ok in H. destruct H as [q' [S H]]. injection H as <-.
    destruct key as [a|]; [|discriminate]. apply asset_idx_column in Hi. destruct (solve_cvar_ok _ _ _ _ _ _ _ _ _ So AS S) as [_ [_ [G C]]].
    exists a, i, t, g. split; auto. split; auto. split; auto.
    destruct sp as [x|[|t' [|g' rest]]]; try discriminate; [injection Tg as <- <-; cbn; auto|]. injection Tg as <- <-. cbn. eauto.
  - cbn [app cvar_steps] in H. apply bind_ok in H. destruct H as [i [Hi H]]. apply bind_ok in H. destruct H as [[t g] [Tg H]]. apply bind_ok in H. destruct H as [q' [S H]]. eauto.
Qed.
