From Verif Require Import RBase SortLib RiskModel RiskSpec.
Open Scope R_scope.

(** * map2 and sums *)
Lemma map2_combine {A B C} (f : A -> B -> C) l m : map2 f l m = map (fun z => f (fst z) (snd z)) (combine l m).
Proof. revert m; induction l as [|a l IH]; destruct m; simpl; auto. f_equal; auto. Qed.

Lemma combine_map_fst {A B} (l : list (A * B)) : combine (map fst l) (map snd l) = l.
Proof. induction l as [|[a b] l IH]; simpl; f_equal; auto. Qed.

Lemma prob_combine p x P : prob p x P = rsum (map (fun z => if P (snd z) then fst z else 0) (combine p x)).
Proof. unfold prob. rewrite map2_combine. reflexivity. Qed.

Lemma expect_combine p x f : expect p x f = rsum (map (fun z => fst z * f (snd z)) (combine p x)).
Proof. unfold expect. rewrite map2_combine. reflexivity. Qed.

Lemma combine_in {A B} (l : list A) (m : list B) z : In z (combine l m) -> In (fst z) l /\ In (snd z) m.
Proof. destruct z as [a b]. intros H. split; [eapply in_combine_l|eapply in_combine_r]; eauto. Qed.

Lemma rsum_fst_combine (p x : list R) : length p = length x -> rsum (map fst (combine p x)) = rsum p.
Proof.
  revert x; induction p as [|q p IH]; destruct x as [|y x]; simpl; intros H; try discriminate; auto.
  unfold rsum in IH. rewrite IH by lia. reflexivity.
Qed.

(** * The quantile found by the sorted cumulative sum *)
Definition pairs_prob (s : list (R * R)) (P : R -> bool) : R :=
  rsum (map (fun z => if P (snd z) then fst z else 0) s).

Lemma pairs_prob_cons z s P : pairs_prob (z :: s) P = (if P (snd z) then fst z else 0) + pairs_prob s P.
Proof. reflexivity. Qed.

Lemma pairs_prob_nonneg s P : (forall z, In z s -> 0 <= fst z) -> 0 <= pairs_prob s P.
Proof.
  intros H. apply rsum_nonneg. intros y Hy. apply in_map_iff in Hy as (z & <- & Hz).
  destruct (P (snd z)); [auto|lra].
Qed.

Lemma pairs_prob_zero s P : (forall z, In z s -> P (snd z) = false) -> pairs_prob s P = 0.
Proof.
  intros H. unfold pairs_prob. rewrite (rsum_ext _ (fun _ => 0)); [rewrite rsum_const; lra|].
  intros z Hz. rewrite H; auto.
Qed.

Lemma quantile_search s acc alpha :
  StronglySorted Rle (map snd s) -> (forall z, In z s -> 0 <= fst z) ->
  acc < alpha <= acc + rsum (map fst s) ->
  exists i, first_true (map (fun c => Rleb alpha c) (cumsum acc (map fst s))) = Some i /\
    (i < length s)%nat /\
    let q := nth i (map snd s) 0 in
    acc + pairs_prob s (fun y => Rltb y q) < alpha <= acc + pairs_prob s (fun y => Rleb y q).
Proof.
  revert acc. induction s as [|[q0 x0] s IH]; cbn [map fst snd rsum fold_right]; intros acc Hs Hn [Ha Hb].
  - lra.
  - cbn [cumsum map first_true]. inversion Hs as [|? ? Hs' Hf]; subst.
    rewrite Forall_forall in Hf.
    assert (Hn' : forall z, In z s -> 0 <= fst z) by (intros; apply Hn; simpl; auto).
    destruct (Rleb_spec alpha (acc + q0)) as [Hle|Hgt].
    + exists 0%nat. split; [reflexivity|]. split; [simpl; lia|]. cbn [nth].
      rewrite !pairs_prob_cons. cbn [fst snd].
      rewrite (pairs_prob_zero s).
      2:{ intros z Hz. apply Rltb_false, Hf, in_map. exact Hz. }
      destruct (Rltb_spec x0 x0); [lra|]. destruct (Rleb_spec x0 x0); [|lra].
      pose proof (pairs_prob_nonneg s (fun y => Rleb y x0) Hn'). lra.
    + destruct (IH (acc + q0) Hs' Hn') as (i & Hi & Hlt & Hq).
      { unfold rsum in *; lra. }
      rewrite Hi. exists (S i). split; [reflexivity|]. split; [simpl; lia|].
      cbn [nth]. cbv zeta in *. set (q := nth i (map snd s) 0) in *.
      assert (Hxq : x0 <= q).
      { apply Hf. apply nth_In. rewrite map_length. exact Hlt. }
      rewrite !pairs_prob_cons. cbn [fst snd].
      destruct (Rleb_spec x0 q); [|lra].
      assert (0 <= q0) by (apply (Hn (q0, x0)); simpl; auto).
      destruct (Rltb_spec x0 q); lra.
Qed.

Lemma take_combine (p x : list R) o : length p = length x ->
  (forall i, In i o -> (i < length x)%nat) ->
  take (0,0) (combine p x) o = combine (take 0 p o) (take 0 x o).
Proof.
  intros Hl. induction o as [|i o IH]; simpl; intros H; [reflexivity|].
  rewrite combine_nth by auto. f_equal. apply IH. auto.
Qed.

Lemma var_is_quantile argsort alpha x p : sorts Rle 0 argsort ->
  prob_vector p (length x) -> 0 < alpha <= 1 ->
  is_quantile p x alpha (var_pnl argsort alpha x p).
Proof.
  intros Hsort (Hlen & Hnn & Hsum) Ha. destruct (Hsort x) as [Hperm Hss].
  assert (Hin : forall i, In i (argsort x) -> (i < length x)%nat).
  { intros i Hi. eapply argsort_in; [split; eassumption|exact Hi]. }
  set (s := take (0,0) (combine p x) (argsort x)).
  assert (Hc : length (combine p x) = length x) by (rewrite combine_length; lia).
  assert (Hs : Permutation s (combine p x)) by (apply take_perm; rewrite Hc; exact Hperm).
  assert (Es : s = combine (take 0 p (argsort x)) (take 0 x (argsort x))) by (apply take_combine; auto).
  assert (E1 : map fst s = take 0 p (argsort x)).
  { rewrite Es. clear. unfold take. induction (argsort x); simpl; f_equal; auto. }
  assert (E2 : map snd s = take 0 x (argsort x)).
  { rewrite Es. clear. unfold take. induction (argsort x); simpl; f_equal; auto. }
  destruct (quantile_search s 0 alpha) as (i & Hi & Hlt & Hq).
  - rewrite E2. exact Hss.
  - intros z Hz. apply (Permutation_in _ Hs), combine_in in Hz as [Hz _]. auto.
  - assert (rsum (map fst s) = 1).
    { rewrite (rsum_perm _ (map fst (combine p x))) by (apply Permutation_map; exact Hs).
      rewrite rsum_fst_combine; auto. }
    lra.
  - unfold var_pnl, argmax_bool. rewrite <- E1, <- E2, Hi. cbv zeta in *.
    set (q := nth i (map snd s) 0) in *. split.
    + assert (In q (map snd s)) as Hq' by (apply nth_In; rewrite map_length; exact Hlt).
      rewrite E2 in Hq'. eapply Permutation_in; [|exact Hq']. apply take_perm. exact Hperm.
    + rewrite !prob_combine.
      rewrite !(rsum_perm (map _ (combine p x)) (map _ s)) by (apply Permutation_map; symmetry; exact Hs).
      unfold pairs_prob in Hq. lra.
Qed.

(** * Quantiles are unique *)
Lemma prob_mono p x (P Q : R -> bool) : (forall q, In q p -> 0 <= q) ->
  (forall y, P y = true -> Q y = true) -> prob p x P <= prob p x Q.
Proof.
  intros Hn HPQ. rewrite !prob_combine. apply rsum_le. intros z Hz.
  apply combine_in in Hz as [Hz _]. specialize (Hn _ Hz). specialize (HPQ (snd z)).
  destruct (P (snd z)); [rewrite HPQ by auto; lra|]. destruct (Q (snd z)); lra.
Qed.

Lemma quantile_unique p x alpha q q' : (forall q, In q p -> 0 <= q) ->
  is_quantile p x alpha q -> is_quantile p x alpha q' -> q = q'.
Proof.
  assert (H : forall q q', (forall q, In q p -> 0 <= q) -> is_quantile p x alpha q ->
            is_quantile p x alpha q' -> q < q' -> False).
  { intros a b Hn (_ & _ & Ha) (_ & Hb & _) Hlt.
    pose proof (prob_mono p x (fun y => Rleb y a) (fun y => Rltb y b) Hn) as Hm.
    assert (forall y, Rleb y a = true -> Rltb y b = true).
    { intros y Hy. apply Rleb_true in Hy. apply Rltb_true. lra. }
    specialize (Hm H). cbv beta in Hm. lra. }
  intros Hn H1 H2. destruct (Rtotal_order q q') as [Hlt|[He|Hgt]]; auto; exfalso; eauto.
Qed.

(** * CVaR is the Rockafellar-Uryasev minimum *)
Definition tail_value (p x : list R) (alpha q : R) : R :=
  - ((rsum (map2 (fun w y => if Rltb y q then w * y else 0) p x) +
      q * (alpha - prob p x (fun y => Rltb y q))) / alpha).

Lemma tail_value_ru p x alpha q : length p = length x -> 0 < alpha ->
  tail_value p x alpha q = ru p x alpha (- q).
Proof.
  intros Hl Ha. unfold tail_value, ru.
  assert (E : expect p x (fun y => Rmax 0 (- y - - q)) =
     q * prob p x (fun y => Rltb y q) - rsum (map2 (fun w y => if Rltb y q then w * y else 0) p x)).
  { rewrite prob_combine, expect_combine, map2_combine, <- rsum_scale, <- rsum_minus.
    apply rsum_ext. intros [w y] _. cbn [fst snd].
    destruct (Rltb_spec y q); [rewrite Rmax_right by lra; ring|rewrite Rmax_left by lra; ring]. }
  rewrite E. field. lra.
Qed.

Lemma ru_min p x alpha q c : length p = length x -> (forall w, In w p -> 0 <= w) -> 0 < alpha ->
  is_quantile p x alpha q -> ru p x alpha (- q) <= ru p x alpha c.
Proof.
  intros Hl Hn Ha (_ & Hlt & Hge). unfold ru.
  assert (K : expect p x (fun y => Rmax 0 (- y - - q)) <= alpha * (c + q) + expect p x (fun y => Rmax 0 (- y - c))).
  { set (d := c + q). destruct (Rle_dec 0 d) as [Hd|Hd].
    - assert (expect p x (fun y => Rmax 0 (- y - - q)) <=
              d * prob p x (fun y => Rltb y q) + expect p x (fun y => Rmax 0 (- y - c))).
      { rewrite prob_combine, !expect_combine, <- rsum_scale, <- rsum_plus. apply rsum_le.
        intros [w y] Hz. apply combine_in in Hz as [Hz _]. specialize (Hn _ Hz). cbn [fst snd] in *.
        assert (Hmul : Rmax 0 (- y - - q) <= (if Rltb y q then d else 0) + Rmax 0 (- y - c)).
        { unfold d in *. destruct (Rltb_spec y q); unfold Rmax;
            repeat match goal with |- context [Rle_dec ?a ?b] => destruct (Rle_dec a b) end; lra. }
        destruct (Rltb y q); nra. }
      assert (d * prob p x (fun y => Rltb y q) <= alpha * d) by nra. lra.
    - assert (expect p x (fun y => Rmax 0 (- y - - q)) <=
              d * prob p x (fun y => Rleb y q) + expect p x (fun y => Rmax 0 (- y - c))).
      { rewrite prob_combine, !expect_combine, <- rsum_scale, <- rsum_plus. apply rsum_le.
        intros [w y] Hz. apply combine_in in Hz as [Hz _]. specialize (Hn _ Hz). cbn [fst snd] in *.
        assert (Hmul : Rmax 0 (- y - - q) <= (if Rleb y q then d else 0) + Rmax 0 (- y - c)).
        { unfold d in *. destruct (Rleb_spec y q); unfold Rmax;
            repeat match goal with |- context [Rle_dec ?a ?b] => destruct (Rle_dec a b) end; lra. }
        destruct (Rleb y q); nra. }
      assert (d * prob p x (fun y => Rleb y q) <= alpha * d) by nra. lra. }
  apply Rmult_le_reg_l with (r := alpha); [exact Ha|].
  rewrite !Rmult_plus_distr_l. unfold Rdiv.
  replace (alpha * (expect p x (fun y => Rmax 0 (- y - - q)) * / alpha))
    with (expect p x (fun y => Rmax 0 (- y - - q))) by (field; lra).
  replace (alpha * (expect p x (fun y => Rmax 0 (- y - c)) * / alpha))
    with (expect p x (fun y => Rmax 0 (- y - c))) by (field; lra).
  lra.
Qed.

Lemma cvar_pnl_is_cvar argsort alpha x p : sorts Rle 0 argsort ->
  prob_vector p (length x) -> 0 < alpha <= 1 ->
  is_cvar p x alpha (- cvar_pnl argsort alpha x p) /\
  - cvar_pnl argsort alpha x p = ru p x alpha (- var_pnl argsort alpha x p).
Proof.
  intros Hsort Hp Ha. pose proof (var_is_quantile argsort alpha x p Hsort Hp Ha) as Hq.
  destruct Hp as (Hl & Hn & Hs).
  assert (E : - cvar_pnl argsort alpha x p = ru p x alpha (- var_pnl argsort alpha x p)).
  { rewrite <- tail_value_ru by (auto; lra). reflexivity. }
  split; [|exact E]. rewrite E. split; [|eauto]. intros c. apply ru_min; auto. lra.
Qed.

Lemma cvar_unique p x alpha v v' : is_cvar p x alpha v -> is_cvar p x alpha v' -> v = v'.
Proof.
  intros [H1 [c1 E1]] [H2 [c2 E2]]. specialize (H1 c2). specialize (H2 c1). lra.
Qed.

(** * From the API to columns *)
Definition eff_rows (dm : demean_arg) (p : list R) (Rm : list (list R)) : list (list R) :=
  match dm with DBool true => demean_rows p Rm | _ => Rm end.

Lemma rsum_repeat x n : rsum (repeat x n) = INR n * x.
Proof.
  induction n as [|n IH]; [simpl; lra|]. cbn [repeat rsum fold_right]. rewrite S_INR.
  unfold rsum in IH. rewrite IH. lra.
Qed.

Lemma uniform_prob_vector T : T <> 0%nat -> prob_vector (repeat (1 / INR T) T) T.
Proof.
  intros HT. assert (0 < INR T) by (apply lt_0_INR; lia). split; [apply repeat_length|]. split.
  - intros q Hq. apply repeat_spec in Hq. subst q. left. apply Rdiv_lt_0_compat; lra.
  - rewrite rsum_repeat. field. lra.
Qed.

Lemma demean_rows_length p Rm : length (demean_rows p Rm) = length Rm.
Proof. apply map_length. Qed.

Lemma eff_rows_length dm p Rm : length (eff_rows dm p Rm) = length Rm.
Proof. destruct dm as [|[|]|]; simpl; auto using demean_rows_length. Qed.

Lemma risk_inv column W Rm p conf dm out :
  portfolio_risk column W Rm p conf dm = Ok out ->
  0 < eff_conf conf < 1 /\ length Rm <> 0%nat /\
  (length (eff_p (length Rm) p) = length Rm ->
   out = map (fun w => - column (1 - eff_conf conf)
                 (pnl (eff_rows dm (eff_p (length Rm) p) Rm) w) (eff_p (length Rm) p)) W) /\
  (forall row w, In row (eff_rows dm (eff_p (length Rm) p) Rm) -> In w W -> length row = length w) /\
  dm <> DOther.
Proof.
  unfold portfolio_risk. fold (eff_conf conf).
  destruct (Rltb_spec 0 (eff_conf conf)); cbn [andb negb]; [|discriminate].
  destruct (Rltb_spec (eff_conf conf) 1); cbn [andb negb]; [|discriminate].
  intros H. split; [lra|].
  destruct dm as [|b|]; cbn [bind] in H; [| |discriminate].
  - destruct (default_p (length Rm) p) as [pp|] eqn:Ep; [|discriminate]. cbn [bind] in H.
    assert (Epp : pp = eff_p (length Rm) p).
    { unfold default_p, eff_p in *. destruct p; [congruence|]. destruct (length Rm); congruence. }
    subst pp.
    destruct (forallb _ Rm) eqn:Ef; cbn [negb] in H; [|discriminate].
    destruct (broadcast_p _ _) as [pb|] eqn:Eb; [|discriminate]. cbn [bind] in H.
    destruct (Nat.eqb_spec (length Rm) 0) as [|HT]; [discriminate|].
    split; [exact HT|]. split; [|split; [|discriminate]].
    + intros Hl. unfold broadcast_p in Eb. rewrite Hl, Nat.eqb_refl in Eb. injection Eb as <-.
      injection H as <-. reflexivity.
    + intros row w Hr Hw. simpl in Hr. rewrite forallb_forall in Ef. specialize (Ef row Hr).
      rewrite forallb_forall in Ef. specialize (Ef w Hw). apply Nat.eqb_eq in Ef. exact Ef.
  - destruct (default_p (length Rm) p) as [pp|] eqn:Ep; [|discriminate]. cbn [bind] in H.
    assert (Epp : pp = eff_p (length Rm) p).
    { unfold default_p, eff_p in *. destruct p; [congruence|]. destruct (length Rm); congruence. }
    subst pp. set (pp := eff_p (length Rm) p) in *.
    assert (exists rows, rows = eff_rows (DBool b) pp Rm /\
      (if negb (forallb (fun row => forallb (fun w => Nat.eqb (length row) (length w)) W) rows)
       then Err ValueError
       else let* p0 := broadcast_p (length Rm) pp in
            (if (length Rm =? 0)%nat then Err ValueError
             else Ok (map (fun w => - column (1 - eff_conf conf) (pnl rows w) p0) W))) = Ok out) as (rows & -> & H').
    { destruct b; [|exists Rm; auto].
      destruct (Nat.eqb_spec (length pp) (length Rm)); [|discriminate]. cbn [bind] in H. eauto. }
    clear H. set (rows := eff_rows (DBool b) pp Rm) in *.
    destruct (forallb _ rows) eqn:Ef; cbn [negb] in H'; [|discriminate].
    destruct (broadcast_p _ _) as [pb|] eqn:Eb; [|discriminate]. cbn [bind] in H'.
    destruct (Nat.eqb_spec (length Rm) 0) as [|HT]; [discriminate|].
    split; [exact HT|]. split; [|split; [|discriminate]].
    + intros Hl. unfold broadcast_p in Eb. rewrite Hl, Nat.eqb_refl in Eb. injection Eb as <-.
      injection H' as <-. reflexivity.
    + intros row w Hr Hw. rewrite forallb_forall in Ef. specialize (Ef row Hr).
      rewrite forallb_forall in Ef. specialize (Ef w Hw). apply Nat.eqb_eq in Ef. exact Ef.
Qed.

(** Demeaning the rows nets the expectation out of every portfolio P&L. *)
Lemma demean_pnl p Rm w : length p = length Rm -> (forall row, In row Rm -> length row = length w) ->
  pnl (demean_rows p Rm) w = map (fun y => y - expect p (scenario_pnl Rm w) (fun z => z)) (scenario_pnl Rm w).
Proof.
  intros Hl Hrow. unfold pnl, demean_rows, scenario_pnl. rewrite !map_map. apply map_ext_in.
  intros row Hr. specialize (Hrow row Hr) as Hlen.
  rewrite (rdot_sumn _ w (length w)) by (rewrite ?map_length, ?seq_length; auto).
  rewrite (rdot_sumn row w (length w)) by auto.
  rewrite (sumn_ext _ _ (fun j => nth j row 0 * nth j w 0 - col_mean p Rm j * nth j w 0)).
  2:{ intros j Hj. rewrite (nth_map_seq (fun j => nth j row 0 - col_mean p Rm j)) by lia. ring. }
  rewrite sumn_minus. f_equal. unfold expect, col_mean.
  rewrite (rsum_map2_sumn _ p _ 0 0 (length Rm)) by (rewrite ?map_length; auto).
  rewrite (sumn_ext _ _ (fun j => sumn (length Rm) (fun t => nth t p 0 * nth j (nth t Rm []) 0 * nth j w 0))).
  2:{ intros j _. rewrite (rsum_map2_sumn _ p Rm 0 [] (length Rm)) by auto. rewrite <- sumn_scale_r. reflexivity. }
  rewrite sumn_swap. apply sumn_ext. intros t Ht.
  rewrite (nth_map_lt (fun row => rdot row w) Rm t []) by lia.
  rewrite (rdot_sumn (nth t Rm []) w (length w)); [|apply Hrow, nth_In; lia|reflexivity].
  rewrite <- sumn_scale. apply sumn_ext. intros; ring.
Qed.

Lemma demean_rows_row_length p Rm row : In row (demean_rows p Rm) ->
  exists row', In row' Rm /\ length row = length row'.
Proof.
  unfold demean_rows. intros H. apply in_map_iff in H as (r & <- & Hr). exists r.
  rewrite map_length, seq_length. auto.
Qed.

Lemma demean_rows_row_length' p Rm row : In row Rm ->
  exists row', In row' (demean_rows p Rm) /\ length row = length row'.
Proof.
  intros H. eexists. split; [apply in_map; exact H|]. rewrite map_length, seq_length. auto.
Qed.

Lemma eff_rows_pnl dm p Rm w : length p = length Rm ->
  (forall row, In row (eff_rows dm p Rm) -> length row = length w) ->
  pnl (eff_rows dm p Rm) w = risk_pnl dm p Rm w.
Proof.
  intros Hl H. destruct dm as [|[|]|]; try reflexivity. simpl in *. apply demean_pnl; auto.
  intros row Hr. destruct (demean_rows_row_length' p Rm row Hr) as (r & Hr' & E). rewrite E. auto.
Qed.

Lemma eff_p_vector p T : p_ok p T -> T <> 0%nat -> prob_vector (eff_p T p) T.
Proof. destruct p; simpl; auto using uniform_prob_vector. Qed.

Lemma risk_pnl_length dm p Rm w : length (risk_pnl dm p Rm w) = length Rm.
Proof. unfold risk_pnl, scenario_pnl. destruct dm as [|[|]|]; rewrite ?map_length; reflexivity. Qed.

Lemma risk_columns column W Rm p conf dm out : p_ok p (length Rm) ->
  portfolio_risk column W Rm p conf dm = Ok out ->
  0 < eff_conf conf < 1 /\ prob_vector (eff_p (length Rm) p) (length Rm) /\
  out = map (fun w => - column (1 - eff_conf conf) (risk_pnl dm (eff_p (length Rm) p) Rm w)
               (eff_p (length Rm) p)) W.
Proof.
  intros Hp H. destruct (risk_inv _ _ _ _ _ _ _ H) as (Hc & HT & Ho & Hrow & _).
  pose proof (eff_p_vector p _ Hp HT) as Hv. split; [exact Hc|]. split; [exact Hv|].
  rewrite Ho by apply Hv. apply map_ext_in. intros w Hw.
  rewrite eff_rows_pnl; [reflexivity|apply Hv|]. intros row Hr. apply Hrow; auto.
Qed.

Lemma var_api_l argsort W Rm p conf dm out : sorts Rle 0 argsort -> p_ok p (length Rm) ->
  portfolio_var argsort W Rm p conf dm = Ok out ->
  Forall2 (fun w v => is_quantile (eff_p (length Rm) p)
      (risk_pnl dm (eff_p (length Rm) p) Rm w) (1 - eff_conf conf) (- v)) W out.
Proof.
  intros Hs Hp H. destruct (risk_columns _ _ _ _ _ _ _ Hp H) as (Hc & Hv & ->). clear H.
  induction W as [|w W IH]; simpl; constructor; auto.
  rewrite Ropp_involutive. apply var_is_quantile; auto; [|lra].
  rewrite risk_pnl_length. exact Hv.
Qed.

Lemma cvar_api_l argsort W Rm p conf dm out : sorts Rle 0 argsort -> p_ok p (length Rm) ->
  portfolio_cvar argsort W Rm p conf dm = Ok out ->
  Forall2 (fun w v => is_cvar (eff_p (length Rm) p)
      (risk_pnl dm (eff_p (length Rm) p) Rm w) (1 - eff_conf conf) v) W out.
Proof.
  intros Hs Hp H. destruct (risk_columns _ _ _ _ _ _ _ Hp H) as (Hc & Hv & ->). clear H.
  induction W as [|w W IH]; simpl; constructor; auto.
  apply cvar_pnl_is_cvar; auto; [|lra]. rewrite risk_pnl_length. exact Hv.
Qed.

(** * Risk axioms at the level of the P&L distribution *)
Lemma expect_le p x y f g : length p = length x -> length p = length y ->
  (forall q, In q p -> 0 <= q) -> (forall i, (i < length p)%nat -> f (nth i x 0) <= g (nth i y 0)) ->
  expect p x f <= expect p y g.
Proof.
  intros Hx Hy Hn H. unfold expect.
  rewrite (rsum_map2_sumn _ p x 0 0 (length p)) by auto.
  rewrite (rsum_map2_sumn _ p y 0 0 (length p)) by auto.
  apply sumn_le. intros i Hi. apply Rmult_le_compat_l; auto. apply Hn, nth_In; auto.
Qed.

Lemma ru_le p x y alpha c : length p = length x -> length p = length y -> 0 < alpha ->
  (forall q, In q p -> 0 <= q) -> (forall i, (i < length p)%nat -> nth i y 0 <= nth i x 0) ->
  ru p x alpha c <= ru p y alpha c.
Proof.
  intros Hx Hy Ha Hn H. unfold ru. apply Rplus_le_compat_l. unfold Rdiv.
  apply Rmult_le_compat_r; [left; apply Rinv_0_lt_compat; auto|].
  apply expect_le; auto. intros i Hi. specialize (H i Hi). unfold Rmax.
  repeat match goal with |- context [Rle_dec ?a ?b] => destruct (Rle_dec a b) end; lra.
Qed.

Lemma cvar_monotone_l p x y alpha v v' : prob_vector p (length x) -> length y = length x -> 0 < alpha ->
  (forall i, (i < length x)%nat -> nth i x 0 <= nth i y 0) ->
  is_cvar p x alpha v -> is_cvar p y alpha v' -> v' <= v.
Proof.
  intros (Hl & Hn & _) Hy Ha H [_ [c ->]] [Hm _]. eapply Rle_trans; [apply (Hm c)|].
  apply ru_le; auto; try lia. intros; apply H; lia.
Qed.

Lemma cvar_subadd_l p x y z alpha vx vy vz : prob_vector p (length z) ->
  length x = length z -> length y = length z -> 0 < alpha ->
  (forall i, (i < length z)%nat -> nth i z 0 = nth i x 0 + nth i y 0) ->
  is_cvar p x alpha vx -> is_cvar p y alpha vy -> is_cvar p z alpha vz -> vz <= vx + vy.
Proof.
  intros (Hl & Hn & _) Hx Hy Ha H [_ [c1 ->]] [_ [c2 ->]] [Hm _].
  eapply Rle_trans; [apply (Hm (c1 + c2))|]. unfold ru.
  assert (expect p z (fun y0 => Rmax 0 (- y0 - (c1 + c2))) <=
     expect p x (fun y0 => Rmax 0 (- y0 - c1)) + expect p y (fun y0 => Rmax 0 (- y0 - c2))).
  { unfold expect. rewrite (rsum_map2_sumn _ p z 0 0 (length z)) by auto.
    rewrite (rsum_map2_sumn _ p x 0 0 (length z)) by auto.
    rewrite (rsum_map2_sumn _ p y 0 0 (length z)) by auto. rewrite <- sumn_plus.
    apply sumn_le. intros i Hi. rewrite <- Rmult_plus_distr_l. apply Rmult_le_compat_l.
    - apply Hn, nth_In. lia.
    - rewrite H by auto. unfold Rmax.
      repeat match goal with |- context [Rle_dec ?a ?b] => destruct (Rle_dec a b) end; lra. }
  apply Rmult_le_compat_r with (r := / alpha) in H0; [|left; apply Rinv_0_lt_compat; auto].
  unfold Rdiv. lra.
Qed.

(** Affine image of the P&L: [y = k x + b] with [k >= 0]. *)
Lemma ru_affine p x y alpha k b c : prob_vector p (length x) -> length y = length x -> 0 < alpha -> 0 <= k ->
  (forall i, (i < length x)%nat -> nth i y 0 = k * nth i x 0 + b) ->
  ru p y alpha (k * c - b) = k * ru p x alpha c - b.
Proof.
  intros (Hl & Hn & _) Hy Ha Hk H. unfold ru.
  assert (E : expect p y (fun z => Rmax 0 (- z - (k * c - b))) = k * expect p x (fun z => Rmax 0 (- z - c))).
  { unfold expect. rewrite (rsum_map2_sumn _ p y 0 0 (length x)) by auto.
    rewrite (rsum_map2_sumn _ p x 0 0 (length x)) by auto. rewrite <- sumn_scale.
    apply sumn_ext. intros i Hi. rewrite H by auto.
    replace (- (k * nth i x 0 + b) - (k * c - b)) with (k * (- nth i x 0 - c)) by ring.
    replace (Rmax 0 (k * (- nth i x 0 - c))) with (k * Rmax 0 (- nth i x 0 - c))
      by (rewrite <- RmaxRmult by auto; rewrite Rmult_0_r; reflexivity). ring. }
  rewrite E. field. lra.
Qed.

Lemma cvar_affine_l p x y alpha k b v v' : prob_vector p (length x) -> length y = length x -> 0 < alpha -> 0 < k ->
  (forall i, (i < length x)%nat -> nth i y 0 = k * nth i x 0 + b) ->
  is_cvar p x alpha v -> is_cvar p y alpha v' -> v' = k * v - b.
Proof.
  intros Hp Hy Ha Hk H Hv Hv'. apply (cvar_unique p y alpha); [exact Hv'|].
  destruct Hv as [Hm [c ->]]. split.
  - intros c'. replace c' with (k * ((c' + b) / k) - b) by (field; lra).
    rewrite (ru_affine p x y) by (auto; lra). specialize (Hm ((c' + b) / k)). nra.
  - exists (k * c - b). symmetry. apply ru_affine; auto; lra.
Qed.

Lemma quantile_affine p x y alpha k b q : prob_vector p (length x) -> length y = length x -> 0 < k ->
  (forall i, (i < length x)%nat -> nth i y 0 = k * nth i x 0 + b) ->
  is_quantile p x alpha q -> is_quantile p y alpha (k * q + b).
Proof.
  intros (Hl & _) Hy Hk H (Hin & Hq). split.
  - apply (In_nth _ _ 0) in Hin as (i & Hi & <-). rewrite <- H by auto. apply nth_In. lia.
  - assert (E1 : prob p y (fun z => Rltb z (k * q + b)) = prob p x (fun z => Rltb z q)).
    { unfold prob. rewrite (rsum_map2_sumn _ p y 0 0 (length x)) by auto.
      rewrite (rsum_map2_sumn _ p x 0 0 (length x)) by auto. apply sumn_ext. intros i Hi.
      rewrite H by auto. destruct (Rltb_spec (nth i x 0) q), (Rltb_spec (k * nth i x 0 + b) (k * q + b)); auto; exfalso; nra. }
    assert (E2 : prob p y (fun z => Rleb z (k * q + b)) = prob p x (fun z => Rleb z q)).
    { unfold prob. rewrite (rsum_map2_sumn _ p y 0 0 (length x)) by auto.
      rewrite (rsum_map2_sumn _ p x 0 0 (length x)) by auto. apply sumn_ext. intros i Hi.
      rewrite H by auto. destruct (Rleb_spec (nth i x 0) q), (Rleb_spec (k * nth i x 0 + b) (k * q + b)); auto; exfalso; nra. }
    rewrite E1, E2. exact Hq.
Qed.

(** * The same at the level of API calls on one portfolio *)
Lemma cvar_one argsort w Rm p conf dm out : sorts Rle 0 argsort -> p_ok p (length Rm) ->
  portfolio_cvar argsort [w] Rm p conf dm = Ok out ->
  exists v, out = [v] /\ 0 < eff_conf conf < 1 /\ prob_vector (eff_p (length Rm) p) (length Rm) /\
    is_cvar (eff_p (length Rm) p) (risk_pnl dm (eff_p (length Rm) p) Rm w) (1 - eff_conf conf) v.
Proof.
  intros Hs Hp H. pose proof (cvar_api_l _ _ _ _ _ _ _ Hs Hp H) as HF.
  destruct (risk_columns _ _ _ _ _ _ _ Hp H) as (Hc & Hv & _).
  inversion HF as [|? ? ? ? Hv1 HF']; subst. inversion HF'; subst. eexists; eauto.
Qed.

Lemma var_one argsort w Rm p conf dm out : sorts Rle 0 argsort -> p_ok p (length Rm) ->
  portfolio_var argsort [w] Rm p conf dm = Ok out ->
  exists v, out = [v] /\ 0 < eff_conf conf < 1 /\ prob_vector (eff_p (length Rm) p) (length Rm) /\
    is_quantile (eff_p (length Rm) p) (risk_pnl dm (eff_p (length Rm) p) Rm w) (1 - eff_conf conf) (- v).
Proof.
  intros Hs Hp H. pose proof (var_api_l _ _ _ _ _ _ _ Hs Hp H) as HF.
  destruct (risk_columns _ _ _ _ _ _ _ Hp H) as (Hc & Hv & _).
  inversion HF as [|? ? ? ? Hv1 HF']; subst. inversion HF'; subst. eexists; eauto.
Qed.

(** * Between VaR and the worst loss *)
Lemma prob_total p x : length p = length x -> prob p x (fun _ => true) = rsum p.
Proof. intros H. rewrite prob_combine, <- (rsum_fst_combine p x H). reflexivity. Qed.

Lemma cvar_ge_var_l p x alpha q v : prob_vector p (length x) -> 0 < alpha ->
  is_quantile p x alpha q -> is_cvar p x alpha v -> - q <= v.
Proof.
  intros (Hl & Hn & _) Ha (_ & _ & Hq) [_ [c ->]]. unfold ru.
  destruct (Rle_lt_dec (- q) c) as [Hc|Hc].
  - assert (0 <= expect p x (fun y => Rmax 0 (- y - c))).
    { unfold expect. rewrite (rsum_map2_sumn _ p x 0 0 (length x)) by auto.
      apply sumn_nonneg. intros i Hi. apply Rmult_le_pos; [apply Hn, nth_In; lia|apply Rmax_l]. }
    assert (0 <= expect p x (fun y => Rmax 0 (- y - c)) / alpha)
      by (apply Rmult_le_pos; [auto|left; apply Rinv_0_lt_compat; auto]). lra.
  - assert (H : (- q - c) * prob p x (fun y => Rleb y q) <= expect p x (fun y => Rmax 0 (- y - c))).
    { unfold prob, expect. rewrite (rsum_map2_sumn _ p x 0 0 (length x)) by auto.
      rewrite (rsum_map2_sumn _ p x 0 0 (length x)) by auto. rewrite <- sumn_scale. apply sumn_le.
      intros i Hi. assert (0 <= nth i p 0) by (apply Hn, nth_In; lia).
      destruct (Rleb_spec (nth i x 0) q).
      - pose proof (Rmax_r 0 (- nth i x 0 - c)). nra.
      - pose proof (Rmax_l 0 (- nth i x 0 - c)). nra. }
    assert ((- q - c) * alpha <= expect p x (fun y => Rmax 0 (- y - c))) by nra.
    apply Rmult_le_compat_r with (r := / alpha) in H0; [|left; apply Rinv_0_lt_compat; auto].
    rewrite Rmult_assoc, Rinv_r in H0 by lra. unfold Rdiv. lra.
Qed.

Lemma cvar_le_worst_l p x alpha v m : prob_vector p (length x) -> 0 < alpha ->
  (forall y, In y x -> m <= y) -> is_cvar p x alpha v -> v <= - m.
Proof.
  intros (Hl & Hn & _) Ha Hm [H _]. eapply Rle_trans; [apply (H (- m))|]. unfold ru.
  replace (expect p x (fun y => Rmax 0 (- y - - m))) with 0; [unfold Rdiv; lra|].
  unfold expect. rewrite (rsum_map2_sumn _ p x 0 0 (length x)) by auto.
  symmetry. apply sumn_0. intros i Hi.
  assert (m <= nth i x 0) by (apply Hm, nth_In; auto). rewrite Rmax_left by lra. ring.
Qed.

(** CVaR is never below the expected loss. *)
Lemma cvar_ge_mean_l p x alpha v : prob_vector p (length x) -> 0 < alpha <= 1 ->
  is_cvar p x alpha v -> - expect p x (fun y => y) <= v.
Proof.
  intros (Hl & Hn & H1) Ha [_ [c ->]]. unfold ru.
  assert (E : - expect p x (fun y => y) - c <= expect p x (fun y => Rmax 0 (- y - c))).
  { replace c with (c * rsum p) at 1 by (rewrite H1; ring).
    rewrite (rsum_sumn p), Hl. unfold expect.
    rewrite !(rsum_map2_sumn _ p x 0 0 (length x)) by auto. rewrite <- sumn_scale.
    replace (- sumn (length x) (fun i => nth i p 0 * nth i x 0)) with
      (sumn (length x) (fun i => -1 * (nth i p 0 * nth i x 0))) by (rewrite sumn_scale; ring).
    rewrite <- sumn_minus. apply sumn_le. intros i Hi.
    assert (0 <= nth i p 0) by (apply Hn, nth_In; lia). pose proof (Rmax_r 0 (- nth i x 0 - c)). nra. }
  assert (E2 : 0 <= expect p x (fun y => Rmax 0 (- y - c))).
  { unfold expect. rewrite (rsum_map2_sumn _ p x 0 0 (length x)) by auto.
    apply sumn_nonneg. intros i Hi. apply Rmult_le_pos; [apply Hn, nth_In; lia|apply Rmax_l]. }
  assert (expect p x (fun y => Rmax 0 (- y - c)) <= expect p x (fun y => Rmax 0 (- y - c)) / alpha).
  { apply Rmult_le_reg_r with alpha; [lra|]. unfold Rdiv. rewrite Rmult_assoc, Rinv_l by lra. nra. }
  lra.
Qed.

(** * Order of the scenarios *)
Lemma perm_expect p x p' x' f : Permutation (combine p x) (combine p' x') -> expect p x f = expect p' x' f.
Proof. intros H. rewrite !expect_combine. apply rsum_perm, Permutation_map, H. Qed.

Lemma perm_prob p x p' x' P : Permutation (combine p x) (combine p' x') -> prob p x P = prob p' x' P.
Proof. intros H. rewrite !prob_combine. apply rsum_perm, Permutation_map, H. Qed.

Lemma combine_map_r {A B C} (f : B -> C) (l : list A) m :
  combine l (map f m) = map (fun z => (fst z, f (snd z))) (combine l m).
Proof. revert m; induction l as [|a l IH]; intros [|b m]; simpl; auto. f_equal. apply IH. Qed.

Lemma perm_risk_pnl dm p p' Rm Rm' w : Permutation (combine p Rm) (combine p' Rm') ->
  Permutation (combine p (risk_pnl dm p Rm w)) (combine p' (risk_pnl dm p' Rm' w)).
Proof.
  intros H.
  assert (H1 : Permutation (combine p (scenario_pnl Rm w)) (combine p' (scenario_pnl Rm' w))).
  { unfold scenario_pnl. rewrite !combine_map_r. apply Permutation_map, H. }
  unfold risk_pnl. destruct dm as [|[|]|]; auto.
  rewrite !combine_map_r. rewrite (perm_expect _ _ _ _ (fun z => z) H1). apply Permutation_map, H1.
Qed.

Lemma perm_quantile p x p' x' alpha q : length p = length x -> length p' = length x' ->
  Permutation (combine p x) (combine p' x') -> is_quantile p x alpha q -> is_quantile p' x' alpha q.
Proof.
  intros Hl Hl' H (Hin & Hq). split.
  - apply (In_nth _ _ 0) in Hin as (i & Hi & <-).
    assert (In (nth i p 0, nth i x 0) (combine p x)).
    { rewrite <- combine_nth by auto. apply nth_In. rewrite combine_length. lia. }
    apply (Permutation_in _ H), in_combine_r in H0. exact H0.
  - rewrite <- !(perm_prob _ _ _ _ _ H). exact Hq.
Qed.

Lemma perm_cvar p x p' x' alpha v :
  Permutation (combine p x) (combine p' x') -> is_cvar p x alpha v -> is_cvar p' x' alpha v.
Proof.
  intros H (Hm & c & ->). unfold is_cvar, ru in *. split.
  - intros c'. rewrite <- (perm_expect _ _ _ _ _ H). apply Hm.
  - exists c. rewrite <- (perm_expect _ _ _ _ _ H). reflexivity.
Qed.

(** * Acceptance *)
Lemma risk_accepts column W Rm p conf dm :
  0 < eff_conf conf < 1 -> dm <> DOther -> Rm <> [] -> p_ok p (length Rm) ->
  (forall row w, In row Rm -> In w W -> length row = length w) ->
  exists out, portfolio_risk column W Rm p conf dm = Ok out /\ length out = length W.
Proof.
  intros Hc Hd HR Hp Hrow. unfold portfolio_risk. fold (eff_conf conf).
  destruct (Rltb_spec 0 (eff_conf conf)); [|lra]. destruct (Rltb_spec (eff_conf conf) 1); [|lra].
  cbn [andb negb].
  assert (HT : length Rm <> 0%nat) by (destruct Rm; [congruence|discriminate]).
  assert (Ep : default_p (length Rm) p = Ok (eff_p (length Rm) p)).
  { destruct p; [reflexivity|]. simpl. destruct (length Rm); congruence. }
  pose proof (eff_p_vector p _ Hp HT) as (Hl & _).
  assert (G : forall rows, (forall row, In row rows -> exists row', In row' Rm /\ length row = length row') ->
    exists out, (if negb (forallb (fun row => forallb (fun w => Nat.eqb (length row) (length w)) W) rows)
       then Err ValueError
       else let* p0 := broadcast_p (length Rm) (eff_p (length Rm) p) in
            (if (length Rm =? 0)%nat then Err ValueError
             else Ok (map (fun w => - column (1 - eff_conf conf) (pnl rows w) p0) W))) = Ok out /\ length out = length W).
  { intros rows Hrows.
    replace (forallb _ rows) with true.
    - cbn [negb]. unfold broadcast_p. rewrite Hl, Nat.eqb_refl. cbn [bind].
      destruct (Nat.eqb_spec (length Rm) 0); [congruence|]. eexists; split; [reflexivity|]. apply map_length.
    - symmetry. apply forallb_forall. intros row Hr. apply forallb_forall. intros w Hw.
      destruct (Hrows row Hr) as (r' & Hr' & E). apply Nat.eqb_eq. rewrite E. auto. }
  destruct dm as [|b|]; cbn [bind]; [| |congruence]; rewrite Ep; cbn [bind].
  - apply G. eauto.
  - destruct b.
    + rewrite Hl, Nat.eqb_refl. cbn [bind]. apply G. intros row Hr. eapply demean_rows_row_length; eauto.
    + apply G. eauto.
Qed.

Lemma risk_rejects column W Rm p conf dm :
  ~ (0 < eff_conf conf < 1) \/ dm = DOther \/ Rm = [] -> exists e, portfolio_risk column W Rm p conf dm = Err e.
Proof.
  intros H. destruct (portfolio_risk column W Rm p conf dm) as [out|e] eqn:E; [|eauto].
  destruct (risk_inv _ _ _ _ _ _ _ E) as (Hc & HT & _ & _ & Hd).
  destruct H as [H|[H|H]]; [tauto|tauto|subst; simpl in HT; congruence].
Qed.

Lemma risk_conf_error column W Rm p conf dm :
  ~ (0 < eff_conf conf < 1) -> portfolio_risk column W Rm p conf dm = Err ValueError.
Proof.
  intros H. unfold portfolio_risk. fold (eff_conf conf).
  destruct (Rltb_spec 0 (eff_conf conf)), (Rltb_spec (eff_conf conf) 1); cbn [andb negb]; auto; tauto.
Qed.

(** * API-level laws *)
Lemma forall2_impl {A B} (P Q : A -> B -> Prop) l m : (forall a b, P a b -> Q a b) -> Forall2 P l m -> Forall2 Q l m.
Proof. induction 2; auto. Qed.

Lemma forall2_unique {A B} (P : A -> B -> Prop) l o o' :
  (forall a b b', P a b -> P a b' -> b = b') -> Forall2 P l o -> Forall2 P l o' -> o = o'.
Proof.
  intros HP H. revert o'. induction H; intros o' H'; inversion H'; subst; auto. f_equal; eauto.
Qed.

Lemma scenario_order_l argsort argsort' W Rm Rm' p p' conf dm out out' :
  sorts Rle 0 argsort -> sorts Rle 0 argsort' ->
  p_ok p (length Rm) -> p_ok p' (length Rm') ->
  Permutation (combine (eff_p (length Rm) p) Rm) (combine (eff_p (length Rm') p') Rm') ->
  (portfolio_var argsort W Rm p conf dm = Ok out -> portfolio_var argsort' W Rm' p' conf dm = Ok out' -> out = out') /\
  (portfolio_cvar argsort W Rm p conf dm = Ok out -> portfolio_cvar argsort' W Rm' p' conf dm = Ok out' -> out = out').
Proof.
  intros Hs Hs' Hp Hp' HP. split; intros H H'.
  - pose proof (var_api_l _ _ _ _ _ _ _ Hs Hp H) as F. pose proof (var_api_l _ _ _ _ _ _ _ Hs' Hp' H') as F'.
    destruct (risk_columns _ _ _ _ _ _ _ Hp H) as (Hc & Hv & _).
    destruct (risk_columns _ _ _ _ _ _ _ Hp' H') as (_ & Hv' & _).
    eapply (forall2_unique _ W); [|exact F|].
    + intros w v v' Q Q'. assert (- v = - v'); [|lra]. eapply quantile_unique; [apply Hv|exact Q|exact Q'].
    + eapply forall2_impl; [|exact F']. intros w v. simpl. apply perm_quantile.
      * rewrite risk_pnl_length. apply Hv'.
      * rewrite risk_pnl_length. apply Hv.
      * apply Permutation_sym, perm_risk_pnl, HP.
  - pose proof (cvar_api_l _ _ _ _ _ _ _ Hs Hp H) as F. pose proof (cvar_api_l _ _ _ _ _ _ _ Hs' Hp' H') as F'.
    eapply (forall2_unique _ W); [|exact F|].
    + intros w v v' Q Q'. exact (cvar_unique _ _ _ _ _ Q Q').
    + eapply forall2_impl; [|exact F']. intros w v. simpl. apply perm_cvar, Permutation_sym, perm_risk_pnl, HP.
Qed.

Lemma risk_pnl_combo Rm p w1 w2 w k dm : length p = length Rm ->
  (forall t, (t < length Rm)%nat ->
     rdot (nth t Rm []) w = k * rdot (nth t Rm []) w1 + rdot (nth t Rm []) w2) ->
  forall t, (t < length Rm)%nat ->
    nth t (risk_pnl dm p Rm w) 0 = k * nth t (risk_pnl dm p Rm w1) 0 + nth t (risk_pnl dm p Rm w2) 0.
Proof.
  intros Hl H t Ht.
  assert (S : forall u, nth t (scenario_pnl Rm u) 0 = rdot (nth t Rm []) u).
  { intros u. unfold scenario_pnl. apply (nth_map_lt (fun row => rdot row u)); auto. }
  unfold risk_pnl. destruct dm as [|[|]|]; try (rewrite !S; auto).
  assert (E : expect p (scenario_pnl Rm w) (fun z => z) =
     k * expect p (scenario_pnl Rm w1) (fun z => z) + expect p (scenario_pnl Rm w2) (fun z => z)).
  { unfold expect.
    assert (L : forall u, length (scenario_pnl Rm u) = length Rm) by (intros; apply map_length).
    rewrite !(rsum_map2_sumn _ p _ 0 0 (length Rm)) by auto.
    rewrite <- sumn_scale, <- sumn_plus. apply sumn_ext. intros i Hi. unfold scenario_pnl.
    rewrite !(nth_map_lt (fun row => rdot row _) Rm i []) by auto. rewrite H by auto. ring. }
  assert (L : forall u, length (scenario_pnl Rm u) = length Rm) by (intros; apply map_length).
  rewrite !(nth_map_lt _ _ t 0) by (rewrite L; auto). rewrite !S, E, H by auto. ring.
Qed.

Lemma rdot_scale row k w : rdot row (map (Rmult k) w) = k * rdot row w.
Proof.
  unfold rdot. revert w. induction row as [|a r IH]; intros [|b w]; cbn [map map2]; try (simpl; lra).
  specialize (IH w). rewrite !rsum_cons, IH. lra.
Qed.

Lemma rdot_plus row u w : length u = length w -> rdot row (map2 Rplus u w) = rdot row u + rdot row w.
Proof.
  unfold rdot. revert u w. induction row as [|a r IH]; intros [|b u] [|c w] H; try discriminate; cbn [map2]; try (simpl; lra).
  injection H as H. specialize (IH u w H). rewrite !rsum_cons, IH. lra.
Qed.

Lemma rdot_nil_r row : rdot row [] = 0.
Proof. unfold rdot. destruct row; reflexivity. Qed.

Lemma homogeneous_l argsort w Rm p conf dm k v v' : sorts Rle 0 argsort -> p_ok p (length Rm) -> 0 < k ->
  (portfolio_var argsort [w] Rm p conf dm = Ok [v] ->
   portfolio_var argsort [map (Rmult k) w] Rm p conf dm = Ok [v'] -> v' = k * v) /\
  (portfolio_cvar argsort [w] Rm p conf dm = Ok [v] ->
   portfolio_cvar argsort [map (Rmult k) w] Rm p conf dm = Ok [v'] -> v' = k * v).
Proof.
  intros Hs Hp Hk.
  assert (Hcombo : forall q, length q = length Rm -> forall t, (t < length (risk_pnl dm q Rm w))%nat ->
     nth t (risk_pnl dm q Rm (map (Rmult k) w)) 0 = k * nth t (risk_pnl dm q Rm w) 0 + 0).
  { intros q Hq t Ht. rewrite risk_pnl_length in Ht. rewrite Rplus_0_r.
    rewrite (risk_pnl_combo Rm q w [] _ k dm Hq); auto.
    - assert (E : nth t (risk_pnl dm q Rm []) 0 = 0); [|lra].
      assert (Z : scenario_pnl Rm [] = map (fun _ => 0) Rm).
      { apply map_ext. intros; apply rdot_nil_r. }
      unfold risk_pnl. rewrite Z. destruct dm as [|[|]|]; try (rewrite (nth_map_lt _ _ t []); auto; fail).
      rewrite (nth_map_lt _ _ t 0) by (rewrite map_length; auto). rewrite (nth_map_lt _ _ t []) by auto.
      unfold expect. rewrite (rsum_map2_sumn _ q _ 0 0 (length Rm)) by (rewrite ?map_length; auto).
      rewrite sumn_0; [lra|]. intros i Hi. rewrite (nth_map_lt _ _ i []) by auto. ring.
    - intros i Hi. rewrite rdot_scale, rdot_nil_r. ring. }
  split; intros H H'.
  - destruct (var_one _ _ _ _ _ _ _ Hs Hp H) as (? & E & Hc & Hv & Q). injection E as <-.
    destruct (var_one _ _ _ _ _ _ _ Hs Hp H') as (? & E & _ & _ & Q'). injection E as <-.
    assert (- v' = k * (- v) + 0); [|lra].
    eapply quantile_unique; [apply Hv|exact Q'|].
    eapply quantile_affine; [| |exact Hk| |exact Q].
    + rewrite risk_pnl_length; exact Hv.
    + rewrite !risk_pnl_length; reflexivity.
    + apply Hcombo, Hv.
  - destruct (cvar_one _ _ _ _ _ _ _ Hs Hp H) as (? & E & Hc & Hv & Q). injection E as <-.
    destruct (cvar_one _ _ _ _ _ _ _ Hs Hp H') as (? & E & _ & _ & Q'). injection E as <-.
    rewrite <- (Rminus_0_r (k * v)).
    eapply cvar_affine_l; [| | |exact Hk| |exact Q|exact Q'].
    + rewrite risk_pnl_length; exact Hv.
    + rewrite !risk_pnl_length; reflexivity.
    + lra.
    + apply Hcombo, Hv.
Qed.

Lemma translate_l argsort w w' Rm Rm' p conf k v v' : sorts Rle 0 argsort -> p_ok p (length Rm) ->
  length Rm' = length Rm ->
  (forall t, (t < length Rm)%nat -> nth t (scenario_pnl Rm' w') 0 = nth t (scenario_pnl Rm w) 0 + k) ->
  (portfolio_var argsort [w] Rm p conf DNone = Ok [v] ->
   portfolio_var argsort [w'] Rm' p conf DNone = Ok [v'] -> v' = v - k) /\
  (portfolio_cvar argsort [w] Rm p conf DNone = Ok [v] ->
   portfolio_cvar argsort [w'] Rm' p conf DNone = Ok [v'] -> v' = v - k).
Proof.
  intros Hs Hp Hl Hk.
  assert (L : length (scenario_pnl Rm w) = length Rm) by apply map_length.
  assert (L' : length (scenario_pnl Rm' w') = length Rm) by (rewrite <- Hl; apply map_length).
  split; intros H H'.
  - destruct (var_one _ _ _ _ _ _ _ Hs Hp H) as (? & E & Hc & Hv & Q). injection E as <-.
    rewrite <- Hl in Hp. destruct (var_one _ _ _ _ _ _ _ Hs Hp H') as (? & E & _ & _ & Q'). injection E as <-.
    rewrite Hl in Q'. simpl in Q, Q'.
    assert (- v' = 1 * (- v) + k); [|lra].
    eapply quantile_unique; [apply Hv|exact Q'|].
    eapply quantile_affine; [| |exact Rlt_0_1| |exact Q]; rewrite ?L, ?L'; auto.
    intros i Hi. rewrite Hk by auto. lra.
  - destruct (cvar_one _ _ _ _ _ _ _ Hs Hp H) as (? & E & Hc & Hv & Q). injection E as <-.
    rewrite <- Hl in Hp. destruct (cvar_one _ _ _ _ _ _ _ Hs Hp H') as (? & E & _ & _ & Q'). injection E as <-.
    rewrite Hl in Q'. simpl in Q, Q'.
    replace (v - k) with (1 * v - k) by ring.
    eapply cvar_affine_l; [| | |exact Rlt_0_1| |exact Q|exact Q']; rewrite ?L, ?L'; auto; [lra|].
    intros i Hi. rewrite Hk by auto. lra.
Qed.

Lemma monotone_api argsort w w' Rm Rm' p conf v v' : sorts Rle 0 argsort -> p_ok p (length Rm) ->
  length Rm' = length Rm ->
  (forall t, (t < length Rm)%nat -> nth t (scenario_pnl Rm w) 0 <= nth t (scenario_pnl Rm' w') 0) ->
  portfolio_cvar argsort [w] Rm p conf DNone = Ok [v] ->
  portfolio_cvar argsort [w'] Rm' p conf DNone = Ok [v'] -> v' <= v.
Proof.
  intros Hs Hp Hl Hk H H'.
  assert (L : length (scenario_pnl Rm w) = length Rm) by apply map_length.
  assert (L' : length (scenario_pnl Rm' w') = length Rm) by (rewrite <- Hl; apply map_length).
  destruct (cvar_one _ _ _ _ _ _ _ Hs Hp H) as (? & E & Hc & Hv & Q). injection E as <-.
  rewrite <- Hl in Hp. destruct (cvar_one _ _ _ _ _ _ _ Hs Hp H') as (? & E & _ & _ & Q'). injection E as <-.
  rewrite Hl in Q'. simpl in Q, Q'.
  eapply cvar_monotone_l; [| | | |exact Q|exact Q']; rewrite ?L, ?L'; auto. lra.
Qed.

Lemma subadditive_api argsort u w Rm p conf dm a b c : sorts Rle 0 argsort -> p_ok p (length Rm) ->
  length u = length w ->
  portfolio_cvar argsort [u] Rm p conf dm = Ok [a] ->
  portfolio_cvar argsort [w] Rm p conf dm = Ok [b] ->
  portfolio_cvar argsort [map2 Rplus u w] Rm p conf dm = Ok [c] -> c <= a + b.
Proof.
  intros Hs Hp Hl H1 H2 H3.
  destruct (cvar_one _ _ _ _ _ _ _ Hs Hp H1) as (? & E & Hc & Hv & Q1). injection E as <-.
  destruct (cvar_one _ _ _ _ _ _ _ Hs Hp H2) as (? & E & _ & _ & Q2). injection E as <-.
  destruct (cvar_one _ _ _ _ _ _ _ Hs Hp H3) as (? & E & _ & _ & Q3). injection E as <-.
  eapply cvar_subadd_l; [| | | | |exact Q1|exact Q2|exact Q3]; rewrite ?risk_pnl_length; auto; [lra|].
  intros i Hi. rewrite (risk_pnl_combo Rm _ u w _ 1 dm); auto; [lra|apply Hv|].
  intros t Ht. rewrite rdot_plus by auto. lra.
Qed.

Lemma cvar_bounds_api argsort w Rm p conf dm a b : sorts Rle 0 argsort -> p_ok p (length Rm) ->
  portfolio_var argsort [w] Rm p conf dm = Ok [a] ->
  portfolio_cvar argsort [w] Rm p conf dm = Ok [b] ->
  let q := eff_p (length Rm) p in let x := risk_pnl dm q Rm w in
  a <= b /\ - expect q x (fun y => y) <= b /\ exists y, In y x /\ b <= - y.
Proof.
  intros Hs Hp H1 H2 q x.
  destruct (var_one _ _ _ _ _ _ _ Hs Hp H1) as (? & E & Hc & Hv & Q1). injection E as <-.
  destruct (cvar_one _ _ _ _ _ _ _ Hs Hp H2) as (? & E & _ & _ & Q2). injection E as <-.
  fold q x in Q1, Q2, Hv. assert (Hv' : prob_vector q (length x)) by (unfold x; rewrite risk_pnl_length; exact Hv).
  split; [|split].
  - rewrite <- (Ropp_involutive a). eapply cvar_ge_var_l; eauto. lra.
  - eapply cvar_ge_mean_l; eauto. lra.
  - assert (exists m, In m x /\ forall y, In y x -> m <= y) as (m & Hm & Hle).
    { destruct Q1 as [Hin _]. clear -Hin. revert Hin. generalize (- a). induction x as [|y x IH]; intros z Hin; [easy|].
      destruct x as [|y' x']; [exists y; split; [now left|intros ? [->|[]]; lra]|].
      destruct (IH y' (or_introl eq_refl)) as (m & Hm & Hle). destruct (Rle_lt_dec y m).
      - exists y. split; [now left|]. intros z' [->|Hz]; [lra|]. specialize (Hle z' Hz). lra.
      - exists m. split; [now right|]. intros z' [->|Hz]; [lra|]. auto. }
    exists m. split; [exact Hm|]. eapply cvar_le_worst_l; eauto. lra.
Qed.
