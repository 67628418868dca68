(** One kind of views, the simultaneous mode, ranking and vector forms, posterior moments. *)
From Coq Require Import FunctionalExtensionality.
From Verif Require Import RBase QpBase SortLib OptModel OptSpec OptProofs3 MomSpec NiwModel BlModel RiskModel RiskSpec EpModel EpSpec EpProofs EpProofs2 EpProofs3 EpProofs4 EpProofs5 FvSpec FvProofs FvProofs2 FvProofs3 FvProofs4 FvProofs5.
Open Scope R_scope.
Open Scope list_scope.

(** ** With one kind the mode does not matter *)
Lemma one_kind minimize argsort assets T X p mt vs cvar quant : 
  let k m := match mt, m with MMean, MMean | MVol, MVol | MVar, MVar | MSkew, MSkew | MCorr, MCorr => vs | _, _ => [] end in
  posterior minimize argsort assets T X p (k MMean) (k MVol) (k MVar) (k MSkew) (k MCorr) cvar quant true =
  posterior minimize argsort assets T X p (k MMean) (k MVol) (k MVar) (k MSkew) (k MCorr) cvar quant false.
Proof.
  intros k. rewrite (posterior_rest _ _ _ _ _ _ _ _ _ _ _ _ _ true), (posterior_rest _ _ _ _ _ _ _ _ _ _ _ _ _ false).
  assert (E : posterior minimize argsort assets T X p (k MMean) (k MVol) (k MVar) (k MSkew) (k MCorr) [] [] true =
              posterior minimize argsort assets T X p (k MMean) (k MVol) (k MVar) (k MSkew) (k MCorr) [] [] false); [|rewrite E; reflexivity].
  destruct vs as [|x vs]; [destruct mt; reflexivity|].
  assert (N : nonempty (x :: vs) = true) by reflexivity.
  assert (B : forall mu va m, (match build_constraints assets X mu va m (x :: vs) ([], []) with Ok c => nonempty (fst c) || nonempty (snd c) = true | Err _ => True end)).
  { intros mu va m. destruct (build_constraints _ _ _ _ _ _ _) as [c|] eqn:E; [|exact I]. apply (build_ne _ _ _ _ _ _ _ _ E). left. discriminate. }
  unfold k. clear k. revert N B. generalize (x :: vs). clear x vs. intros vs N B.
  unfold posterior. destruct mt; cbn [sequential_blocks all_blocks nonempty andb orb bind build_constraints]; rewrite N; cbn [andb orb bind build_constraints];
  match goal with |- context [build_constraints assets X ?mu ?va ?m vs ([], [])] => specialize (B mu va m); destruct (build_constraints assets X mu va m vs ([], [])) as [c|] end;
  try reflexivity; cbn [bind build_constraints]; rewrite B; destruct (do_ep minimize T p c); reflexivity.
Qed.

(** ** What every row says *)
Lemma build_rows assets T X mu var mt q : forall vs acc acc', build_constraints assets X mu var mt vs acc = Ok acc' -> sat T acc' q ->
  sat T acc q /\ forall key v, In (key, v) vs -> exists row ok rhs l, view_row assets X mu var mt key = Ok (row, ok, rhs) /\ parse_specs v = Ok l /\
    forall o t, In (o, t) l -> cmp_ok (expectation T q row) o (rhs t).
Proof.
  induction vs as [|[key v] vs IH]; intros acc acc' H S; cbn [build_constraints] in H.
  - injection H as <-. split; [auto|intros ? ? []].
  - apply bind_ok in H. destruct H as [[[row ok] rhs] [E H]]. apply bind_ok in H. destruct H as [l [P H]].
    apply bind_ok in H. destruct H as [acc1 [A H]]. destruct (IH _ _ H S) as [S1 R].
    destruct (add_specs_sat T row ok rhs l _ _ A) as [K S2]. apply S2 in S1. destruct S1 as [S0 C]. split; auto.
    intros key' v' [Ek|I]; [|auto]. injection Ek as <- <-. exists row, ok, rhs, l. auto.
Qed.
Lemma all_rows assets T X mu var q : forall bs acc acc', all_blocks assets X bs mu var acc = Ok acc' -> sat T acc' q ->
  sat T acc q /\ forall mt vs key v, In (mt, vs) bs -> In (key, v) vs -> exists row ok rhs l, view_row assets X mu var mt key = Ok (row, ok, rhs) /\ parse_specs v = Ok l /\
    forall o t, In (o, t) l -> cmp_ok (expectation T q row) o (rhs t).
Proof.
  induction bs as [|[mt vs] bs IH]; intros acc acc' H S; cbn [all_blocks] in H.
  - injection H as <-. split; [auto|intros ? ? ? ? []].
  - apply bind_ok in H. destruct H as [acc1 [B H]]. destruct (IH _ _ H S) as [S1 R]. destruct (build_rows _ _ _ _ _ _ _ _ _ _ B S1) as [S0 E]. split; auto.
    intros mt' vs' key v [Eq|I] J; [injection Eq as <- <-; auto|eauto].
Qed.

Lemma simultaneous_l minimize argsort assets T X p0 mean vol var skew corr q : sound minimize -> is_prob T p0 ->
  (exists mt vs, In (mt, vs) (kinds mean vol var skew corr) /\ vs <> []) ->
  posterior minimize argsort assets T X p0 mean vol var skew corr [] [] false = Ok q ->
  (forall s, 0 < q s) /\ is_prob T q /\ views_hold assets T X q MMean mean /\
  exists l, is_prob T l /\ (mean = [] -> l = p0) /\ (mean = [] \/ views_hold assets T X l MMean mean \/ vol = [] /\ var = [] /\ skew = [] /\ corr = []) /\
    (forall mt vs key v, In (mt, vs) (kinds mean vol var skew corr) -> In (key, v) vs -> (mt = MCorr -> exists ls, key = KTup ls) ->
       (forall a i, In a (key_labels key) -> column assets a i -> agrees T X l q mt i) -> exists x, stat_of assets T X q mt key x /\ meets x v) /\
    (forall a i t, column assets a i -> In (KOne a, SNum t) vol -> var_of T q X i + mean_of T q X i ^ 2 = t ^ 2 + mean_of T l X i ^ 2) /\
    (forall a i t, column assets a i -> In (KOne a, SNum t) var -> var_of T q X i + mean_of T q X i ^ 2 = t + mean_of T l X i ^ 2) /\
    (forall w, is_prob T w -> (forall s, (s < T)%nat -> exp (-700) <= w s) -> pair_keys corr -> all_agree assets T X l w (kinds mean vol var skew corr) -> all_hold assets T X w (kinds mean vol var skew corr) ->
       kl T q p0 <= kl T w p0 /\ (kl T w p0 <= kl T q p0 -> forall s, (s < T)%nat -> w s = q s)).
Proof.
  intros So P0 NE H. destruct (simultaneous _ _ _ _ _ _ _ _ _ _ _ _ So P0 NE H) as [mu [va [l [c [[L1 L2] [Pl [Pq [Qq [M [M0 [B [Sq Nq]]]]]]]]]]]].
  assert (Emu : mu = mean_of T l X) by (apply functional_extensionality; exact L1). assert (Eva : va = var_of T l X) by (apply functional_extensionality; exact L2). subst mu va.
  destruct (all_blocks_each assets T X _ _ q Qq _ _ _ B Sq) as [_ EH]. destruct (all_rows assets T X _ _ q _ _ _ B Sq) as [_ AR].
  split; auto. split; auto. split.
  { intros key v I. apply (EH MMean mean (or_introl eq_refl) key v I); [discriminate|intros; exact Logic.I]. }
  exists l. split; auto. split; auto. split; [tauto|]. split; [|split; [|split]].
  - intros mt vs key v I J PK EX. apply (EH mt vs I key v J PK EX).
  - intros a i t C I. destruct (AR MVol vol _ _ (or_intror (or_introl eq_refl)) I) as [row [ok [rhs [ls [V [Pr Cm]]]]]]. cbn [view_row] in V. cbn [key_idx] in V.
    apply asset_idx_column in C. rewrite C in V. cbn [bind] in V. apply ok3 in V. destruct V as [<- [<- <-]]. cbn in Pr. injection Pr as <-. specialize (Cm Eq t (or_introl eq_refl)). cbn [cmp_ok] in Cm.
    rewrite second_moment in Cm by apply Qq. exact Cm.
  - intros a i t C I. destruct (AR MVar var _ _ (or_intror (or_intror (or_introl eq_refl))) I) as [row [ok [rhs [ls [V [Pr Cm]]]]]]. cbn [view_row] in V. cbn [key_idx] in V.
    apply asset_idx_column in C. rewrite C in V. cbn [bind] in V. apply ok3 in V. destruct V as [<- [<- <-]]. cbn in Pr. injection Pr as <-. specialize (Cm Eq t (or_introl eq_refl)). cbn [cmp_ok] in Cm.
    rewrite second_moment in Cm by apply Qq. exact Cm.
  - intros w Pw Fw PK Ag Ho. destruct Nq as [_ [_ Nq]]. apply Nq; auto. split; auto.
    apply (all_blocks_sat assets T X _ _ w Pw _ _ _ B); auto; [|split; intros ? ? []].
    intros mt vs I. split.
    + intros ->. destruct I as [I|[I|[I|[I|[I|[]]]]]]; injection I; intros; try discriminate. subst vs. exact PK.
    + intros i Hv. apply (Ag mt vs I i Hv).
Qed.

(** An equality view on the mean makes volatility and variance views exact. *)
Lemma fixed_mean assets T X q a i v m : column assets a i -> views_hold assets T X q MMean v -> (In (KOne a, SNum m) v \/ In (KOne a, SOp Eq m) v) -> mean_of T q X i = m.
Proof.
  intros C V I. destruct I as [I|I]; destruct (V _ _ I) as [x [S M]]; inversion S; subst; cbn in M; rewrite (column_fun _ _ _ _ C H0); auto.
Qed.

(** ** Ranking and vectors *)
Lemma adjacent_cons l a b x : adjacent l a b -> adjacent (x :: l) a b.
Proof. intros [k [A B]]. exists (S k). auto. Qed.
Lemma dmem_in {B} (d : list (vkey * B)) k : dmem d k = true <-> exists v, In (k, v) d.
Proof.
  unfold dmem. rewrite existsb_exists. split.
  - intros [[k' v] [I E]]. cbn in E. destruct (vkey_dec k' k); [subst; eauto|discriminate].
  - intros [v I]. exists (k, v). split; auto. cbn. destruct (vkey_dec k k); congruence.
Qed.
Lemma rank_views_spec l : forall d, (forall e, In e d -> In e (rank_views d l)) /\
  (forall a b, adjacent l a b -> exists v, In (KTup [a; b], v) (rank_views d l) /\ (In (KTup [a; b], v) d \/ v = SOp Ge 0)) /\
  (forall k v, In (k, v) (rank_views d l) -> In (k, v) d \/ (exists a b, k = KTup [a; b] /\ v = SOp Ge 0 /\ adjacent l a b /\ forall v', ~ In (k, v') d)).
Proof.
  induction l as [|a t IH]; intros d.
  - cbn. split; [auto|]. split; [|auto]. intros a b [[|k] [A _]]; discriminate.
  - destruct t as [|b t].
    + cbn. split; [auto|]. split; [|auto]. intros a' b' [[|[|k]] [A B]]; discriminate.
    + set (d' := if dmem d (KTup [a; b]) then d else d ++ [(KTup [a; b], SOp Ge 0)]).
      change (rank_views d (a :: b :: t)) with (rank_views d' (b :: t)). destruct (IH d') as [I1 [I2 I3]].
      assert (D : forall e, In e d -> In e d') by (intros e I; unfold d'; destruct (dmem _ _); [auto|apply in_or_app; auto]).
      assert (D' : forall e, In e d' -> In e d \/ (e = (KTup [a; b], SOp Ge 0) /\ dmem d (KTup [a; b]) = false)).
      { intros e I. unfold d' in I. destruct (dmem d (KTup [a; b])) eqn:E; [auto|]. apply in_app_or in I. destruct I as [I|[<- |[]]]; auto. }
      split; [auto|]. split.
      * intros a' b' [[|k] [A B]].
        -- injection A as <-. injection B as <-. destruct (dmem d (KTup [a; b])) eqn:E.
           ++ apply dmem_in in E. destruct E as [v I]. exists v. auto.
           ++ exists (SOp Ge 0). split; auto. apply I1. unfold d'. apply in_or_app. right. left. auto.
        -- destruct (I2 a' b') as [v [J1 J2]]; [exists k; auto|]. exists v. split; auto. destruct J2 as [J2|]; [|auto]. destruct (D' _ J2) as [|[E _]]; [auto|]. injection E as -> -> ->. auto.
      * intros k v I. destruct (I3 k v I) as [J|[a' [b' [-> [-> [Ad Nn]]]]]].
        -- destruct (D' _ J) as [|[E F]]; [auto|]. injection E as -> ->. right. exists a, b. split; auto. split; auto. split; [exists 0%nat; auto|].
           intros v' Iv. assert (dmem d (KTup [a; b]) = true) by (apply dmem_in; eauto). congruence.
        -- right. exists a', b'. split; auto. split; auto. split; [apply adjacent_cons; auto|]. intros v' Iv. apply (Nn v'). auto.
Qed.
Lemma dset_new {B} (d : list (vkey * B)) k v : (forall v', ~ In (k, v') d) -> dset d k v = d ++ [(k, v)].
Proof.
  induction d as [|[k' v'] d IH]; intros N; [reflexivity|]. cbn. destruct (vkey_dec k k') as [-> |].
  - exfalso. apply (N v'). left. auto.
  - rewrite IH; auto. intros u I. apply (N u). right. auto.
Qed.
Lemma vector_views {B} (num : R -> B) assets l : NoDup assets -> List.length l = List.length assets ->
  to_dict num assets (WVec l) = Ok (combine (map KOne assets) (map num l)).
Proof.
  intros ND L. cbn [to_dict]. rewrite L, Nat.eqb_refl. cbn [guard]. f_equal.
  assert (G : forall assets l d, NoDup assets -> List.length l = List.length assets -> (forall a v, In a assets -> ~ In (KOne a, v) d) ->
    fold_left (fun d p => dset d (KOne (fst p)) (num (snd p))) (combine assets l) d = d ++ combine (map KOne assets) (map num l)).
  { clear. induction assets as [|a t IH]; intros l d ND L F; [cbn; rewrite app_nil_r; auto|]. destruct l as [|x l]; [discriminate|]. cbn. inversion ND; subst.
    rewrite dset_new by (intros v'; apply F; left; auto). rewrite IH; auto.
    - rewrite <- app_assoc. reflexivity.
    - intros b v Hb I. apply in_app_or in I. destruct I as [I|[I|[]]]; [apply (F b v); [right|]; auto|]. injection I as -> _. contradiction. }
  apply (G assets l []); auto.
Qed.

(** ** Posterior moments *)
Lemma cov_quad T q X n w : sumn T q = 1 -> quad n (fun i j => cov_of T q X i j) w = variance T q (fun s => dot n w (X s)).
Proof.
  intros Q. set (m := fun i => mean_of T q X i).
  assert (M : expectation T q (fun s => dot n w (X s)) = dot n w m).
  { unfold expectation, dot. rewrite (sumn_ext T _ (fun s => sumn n (fun i => q s * (w i * X s i)))) by (intros; rewrite sumn_scale; reflexivity).
    rewrite sumn_swap. apply sumn_ext. intros i Hi. unfold m, mean_of, expectation. rewrite <- sumn_scale. apply sumn_ext. intros; ring. }
  unfold variance. rewrite M. unfold quad, cov_of. fold m.
  transitivity (sumn n (fun i => sumn n (fun j => sumn T (fun s => w i * w j * (q s * ((X s i - m i) * (X s j - m j))))))).
  { apply sumn_ext. intros i Hi. apply sumn_ext. intros j Hj. rewrite sumn_scale. unfold expectation. fold (m i) (m j). ring. }
  rewrite (sumn_ext n _ (fun i => sumn T (fun s => sumn n (fun j => w i * w j * (q s * ((X s i - m i) * (X s j - m j))))))) by (intros; apply sumn_swap).
  rewrite sumn_swap. apply sumn_ext. intros s Hs.
  assert (D : dot n w (X s) - dot n w m = sumn n (fun i => w i * (X s i - m i))).
  { unfold dot. rewrite <- sumn_minus. apply sumn_ext. intros; ring. }
  rewrite D. transitivity (q s * (sumn n (fun i => w i * (X s i - m i)) * sumn n (fun j => w j * (X s j - m j)))); [|ring].
  rewrite <- sumn_scale_r. rewrite <- sumn_scale. apply sumn_ext. intros i Hi. rewrite <- sumn_scale, <- sumn_scale. apply sumn_ext. intros j Hj. ring.
Qed.
