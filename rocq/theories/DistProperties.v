(** C30, C31: asset distributions and price histories. *)
From Coq Require Import Lia Lra.
From Verif Require Import RBase QpBase MomModel MomSpec ConsModel DistModel OptSpec DistSpec DistProofs DistProofs2 DistProofs3.
Open Scope R_scope.
Open Scope list_scope.

(** * C30 *)
(** Whatever is constructed is a valid distribution. *)
Theorem distribution_is_valid : forall i d, make_dist i = Ok d -> valid_dist d.
Proof. exact make_dist_valid. Qed.
Print Assumptions distribution_is_valid.

(** Construction succeeds exactly on consistent inputs, and fails only with ValueError. *)
Theorem distribution_accepts_iff_consistent : forall i, pandas_ok i ->
  (forall N, consistent N i <-> exists d, make_dist i = Ok d /\ d_N d = N) /\
  (forall e, make_dist i = Err e -> e = ValueError).
Proof.
  intros i P. split; [|intros e; apply make_dist_err]. intros N. split.
  - apply consistent_make_dist.
  - intros (d & E & <-). apply make_dist_consistent; assumption.
Qed.
Print Assumptions distribution_accepts_iff_consistent.

(** Supplied arrays are stored unchanged (mu flattened); missing moments are the weighted moments of
    the scenarios under the stored probabilities, which are the supplied ones rescaled to one, or
    uniform; without scenarios, probabilities are dropped. *)
Theorem distribution_values : forall i d, make_dist i = Ok d ->
  d_scen d = option_map snd (i_scen i) /\
  (forall l m, i_mu i = Some (l, m) -> d_mu d = Some (flat m)) /\
  (forall l c, i_cov i = Some (l, c) -> d_cov d = Some c) /\
  (i_scen i = None -> d_probs d = None /\ (i_mu i = None -> d_mu d = None) /\ (i_cov i = None -> d_cov d = None)) /\
  (forall l X, i_scen i = Some (l, X) -> exists T p q, d_T d = Some T /\ nd_shape X = [T; d_N d] /\ d_probs d = Some p /\
     real_array p [T] q /\ normalised T (i_probs i) q /\
     (i_mu i = None -> exists m, d_mu d = Some m /\ real_array m [d_N d] (mean_of T q (as_mat (d_N d) X))) /\
     (i_cov i = None -> exists c, d_cov d = Some c /\ nd_shape c = [d_N d; d_N d] /\
        forall a j, (j < d_N d)%nat -> nd_at c (pos (d_N d) a j) = Fin (cov_of T q (as_mat (d_N d) X) a j))).
Proof. exact make_dist_values. Qed.
Print Assumptions distribution_values.

(** Any label supplied becomes the asset names. *)
Theorem distribution_names : forall i d l, pandas_ok i -> make_dist i = Ok d -> In l (supplied_labels i) -> d_names d = Some l.
Proof. exact make_dist_names. Qed.
Print Assumptions distribution_names.

(** Estimating again from the stored scenarios and probabilities gives the same distribution:
    rebuilding an accepted distribution from its own fields is accepted and changes nothing but a
    second division by a total of one. *)
Theorem distribution_rebuild : forall i d, make_dist i = Ok d ->
  exists d', make_dist (mkIn (option_map (fun m => (None, m)) (d_mu d)) (option_map (fun c => (None, c)) (d_cov d))
                       (option_map (fun X => (None, X)) (d_scen d)) (d_probs d) (d_names d)) = Ok d' /\
    d_N d' = d_N d /\ d_T d' = d_T d /\ d_cov d' = d_cov d /\ d_scen d' = d_scen d /\ d_names d' = d_names d /\
    (forall m, d_mu d = Some m -> d_mu d' = Some (flat m)) /\
    (forall p, d_probs d = Some p -> exists p' q T, d_probs d' = Some p' /\ real_array p [T] q /\ real_array p' [T] q).
Proof.
  intros i d H. pose proof (make_dist_valid i d H) as V.
  set (i' := mkIn _ _ _ _ _).
  assert (SL : supplied_labels i' = match d_names d with Some l => [l] | None => [] end).
  { unfold supplied_labels, i'. simpl. destruct (d_mu d), (d_cov d), (d_scen d); simpl; rewrite ?app_nil_r; reflexivity. }
  assert (P : pandas_ok i') by (unfold pandas_ok, i'; simpl; destruct (d_mu d), (d_cov d), (d_scen d); simpl; auto).
  assert (C : consistent (d_N d) i').
  { split; [apply V|]. split.
    { rewrite SL. destruct (d_names d) as [l|] eqn:En.
      - exists l. split; [apply (vd_names _ V), En|]. intros x [<-|[]]. reflexivity.
      - exists (repeat EmptyString (d_N d)). split; [apply repeat_length|intros x []]. }
    split; [|split].
    - unfold i'. simpl. destruct (d_mu d) as [m|] eqn:E; simpl; [|exact I]. destruct (vd_mu _ V m E) as (f & Hs & Hf).
      pose proof (size1 m _ Hs) as Hz. split; [exact Hz|]. exists f. rewrite Hz in Hf. exact Hf.
    - unfold i'. simpl. destruct (d_cov d) as [c|] eqn:E; simpl; [|exact I]. apply (vd_cov _ V), E.
    - unfold i'. simpl. pose proof (vd_scen _ V) as Q. destruct (d_scen d) as [X|]; simpl.
      + destruct (d_probs d) as [p|]; [|destruct Q]. destruct (d_T d) as [T|]; [|destruct Q]. destruct Q as (Q1 & Q2 & _ & _ & q & Hq & Hp).
        exists T. split; [exact Q1|]. split; [exact Q2|]. simpl. destruct Hq as [Hs Hq]. pose proof (size1 p T Hs) as Hz. split; [exact Hz|].
        exists q. split; [intros k Hk; split; [apply Hq; lia|apply Hp; exact Hk]|]. destruct Hp as [_ ->]. lra.
      + destruct (vd_some _ V) as [K|K]; [left|right]; [destruct (d_mu d)|destruct (d_cov d)]; simpl; congruence. }
  destruct (consistent_make_dist i' _ C) as (d' & E' & EN). exists d'. split; [exact E'|]. split; [exact EN|].
  destruct (make_dist_values i' d' E') as (V1 & V2 & V3 & V4 & V5).
  pose proof (make_dist_valid i' d' E') as V'.
  assert (ES : d_scen d' = d_scen d) by (rewrite V1; unfold i'; simpl; destruct (d_scen d); reflexivity).
  pose proof (vd_scen _ V) as Q. pose proof (vd_scen _ V') as Q'. rewrite ES in Q'.
  split.
  { destruct (d_scen d) as [X|] eqn:EX.
    - destruct (d_probs d) as [p|]; [|destruct Q]. destruct (d_T d) as [T|]; [|destruct Q]. destruct (d_probs d') as [p'|]; [|destruct Q']. destruct (d_T d') as [T'|]; [|destruct Q'].
      destruct Q as (_ & (f & Hs & _) & _). destruct Q' as (_ & (f' & Hs' & _) & _). congruence.
    - destruct (d_probs d); [destruct Q|]. destruct (d_T d); [destruct Q|]. destruct (d_probs d'); [destruct Q'|]. destruct (d_T d'); [destruct Q'|]. reflexivity. }
  split.
  { destruct (d_cov d) as [c|] eqn:E.
    - apply (V3 None). reflexivity.
    - destruct (d_scen d) as [X|] eqn:EX; [|apply V4; reflexivity]. destruct (d_probs d), (d_T d); try (destruct Q; fail). destruct Q as (_ & _ & _ & Q & _). congruence. }
  split; [exact ES|]. split.
  { destruct (d_names d) as [l|] eqn:En.
    - apply (make_dist_names i' d' l P E'). rewrite SL. left. reflexivity.
    - destruct (make_dist_inv i' d' E') as (mu & cov & F). destruct (df_names _ _ _ _ F) as (n1 & n2 & E1 & E2 & E3).
      unfold names_mu, names_cov, names_scen, i' in *. simpl in *. destruct (d_mu d), (d_cov d), (d_scen d); simpl in *; congruence. }
  split. { intros m E. apply (V2 None). unfold i'. simpl. rewrite E. reflexivity. }
  intros p E. rewrite E in Q. destruct (d_scen d) as [X|] eqn:EX; [|destruct Q]. destruct (d_T d) as [T|]; [|destruct Q].
  destruct Q as (Q1 & _ & _ & _ & q & Hq & Hp).
  destruct (V5 None X) as (T' & p' & q' & ET' & HX' & EP' & Hq' & Hn' & _). { unfold i'. simpl. try rewrite EX. reflexivity. }
  exists p', q, T. split; [exact EP'|]. split; [exact Hq|].
  assert (T' = T) by (pose proof (vd_scen _ V) as QQ; rewrite EX, E in QQ; destruct (d_T d) as [T0|] eqn:E0; [|destruct QQ]; destruct QQ as (_ & (f & Hs & _) & _ & _ & q0 & (Hq0 & _) & _); destruct Hq as [Hq _]; congruence).
  subst T'. destruct Hq' as [Hs' Hq'']. split; [exact Hs'|]. intros k Hk. rewrite (Hq'' k Hk). f_equal.
  rewrite (size1 p' T Hs') in Hk. unfold i' in Hn'. simpl in Hn'. rewrite E in Hn'. simpl in Hn'. rewrite (Hn' k Hk).
  assert (HV : forall u, (u < T)%nat -> val (nd_at p u) = q u) by (intros u Hu; destruct Hq as [Hs Hq]; rewrite Hq by (rewrite (size1 p T Hs); exact Hu); reflexivity).
  rewrite (sumn_ext T _ q) by exact HV. rewrite HV by exact Hk. destruct Hp as [_ ->]. field.
Qed.
Print Assumptions distribution_rebuild.

(** The docstring promises an error unless (mu and cov) or scenarios are given: one of the two alone
    is accepted. *)
Theorem distribution_mu_alone_accepted_refuted : forall N f, (0 < N)%nat ->
  exists d, make_dist (mkIn (Some (None, mkND [N] (fun k => Fin (f k)))) None None None None) = Ok d /\ d_cov d = None /\ d_scen d = None.
Proof.
  intros N f HN. set (i := mkIn _ _ _ _ _).
  assert (C : consistent N i).
  { split; [exact HN|]. split; [exists (repeat EmptyString N); split; [apply repeat_length|intros l []]|]. split.
    - simpl. split; [apply size1; reflexivity|]. exists f. reflexivity.
    - split; [exact I|]. left. discriminate. }
  destruct (consistent_make_dist i N C) as (d & E & _). exists d. split; [exact E|].
  destruct (make_dist_values i d E) as (V1 & _ & _ & V4 & _). destruct (V4 eq_refl) as (_ & _ & V). split; [apply V; reflexivity|exact V1].
Qed.
Print Assumptions distribution_mu_alone_accepted_refuted.

Definition ex_X : nd := mkND [2; 2]%nat (fun k => Fin (INR k)).
Definition ex_p : nd := mkND [2]%nat (fun k => Fin (if Nat.eqb k 0 then 1 else 3)).
Definition ex_in : dist_in := mkIn None None (Some (Some ["a"; "b"]%string, ex_X)) (Some ex_p) None.
Example distribution_case : pandas_ok ex_in /\ consistent 2 ex_in /\
  ~ (exists N, consistent N (mkIn None None (Some (None, ex_X)) (Some (mkND [2]%nat (fun k => if Nat.eqb k 0 then NaN else Fin 1))) None)).
Proof.
  split; [|split].
  - split; [exact I|]. split; [exact I|]. exists 2%nat. reflexivity.
  - split; [lia|]. split; [exists ["a"; "b"]%string; split; [reflexivity|intros l [<-|[]]; reflexivity]|].
    split; [exact I|]. split; [exact I|]. exists 2%nat. split; [lia|]. split.
    + exists INR. split; [reflexivity|]. intros k _. reflexivity.
    + split; [reflexivity|]. exists (fun k => if Nat.eqb k 0 then 1 else 3). split; [|simpl; lra].
      intros k Hk. split; [reflexivity|]. destruct (Nat.eqb k 0); lra.
  - intros (N & _ & _ & _ & _ & T & HT & (f & Hs & _) & HU). injection Hs as <- <-. destruct HU as (_ & g & Hg & _).
    destruct (Hg 0%nat) as [E _]; [lia|]. discriminate.
Qed.

(** * C31 *)
(** An array of prices is accepted exactly when it is a price history; anything else raises ValueError. *)
Theorem from_prices_array_iff : forall a,
  ((exists d, from_prices (PArr a) = Ok d) <-> (exists T N f, price_history a T N f)) /\
  (forall p e, from_prices p = Err e -> e = ValueError).
Proof.
  intros a. split; [|exact from_prices_err]. split.
  - intros (d & H). destruct (prices_array_inv a d H) as (T & f & HH). eauto.
  - intros (T & N & f & H). destruct (prices_accept None a T N f (PArr a) H) as (d & X & p & m & c & E & _); [discriminate|reflexivity|]. eauto.
Qed.
Print Assumptions from_prices_array_iff.

(** A labelled table of finite prices likewise. *)
Theorem from_prices_frame_iff : forall cols a r, nd_shape a = [r; List.length cols] -> nd_all p_fin a = true ->
  ((exists d, from_prices (PFrame cols a) = Ok d) <-> (exists T f, price_history a T (List.length cols) f)).
Proof.
  intros cols a r Hs Hf. split.
  - intros (d & H). exact (prices_frame_inv cols a d r Hs Hf H).
  - intros (T & f & H). destruct (prices_accept (Some cols) a T (List.length cols) f (PFrame cols a) H) as (d & X & p & m & c & E & _).
    + intros l E. injection E as <-. reflexivity.
    + reflexivity.
    + eauto.
Qed.
Print Assumptions from_prices_frame_iff.

(** The scenarios stored are the simple returns: above -1, equally weighted, one fewer than the rows,
    and compounding them from the first price reproduces every later price. *)
Theorem from_prices_compounds : forall a T N f labels, price_history a T N f ->
  (forall l, labels = Some l -> List.length l = N) ->
  exists d X pr r, from_prices (match labels with Some l => PFrame l a | None => PArr a end) = Ok d /\
    d_N d = N /\ d_T d = Some T /\ d_names d = labels /\
    d_scen d = Some X /\ real_array X [T; N] r /\ (forall k, (k < T * N)%nat -> -1 < r k) /\
    (forall j t, (j < N)%nat -> (t <= T)%nat -> compound (f (pos N 0 j)) (fun s => r (pos N s j)) t = f (pos N t j)) /\
    d_probs d = Some pr /\ real_array pr [T] (fun _ => 1 / INR T).
Proof.
  intros a T N f labels H HL. destruct (prices_accept labels a T N f _ H HL eq_refl) as (d & X & pr & m & c & E & E1 & E2 & E3 & E4 & E5 & E6 & E7 & _).
  exists d, X, pr, (ret_of N f). repeat (split; [assumption|]). split; [intros k Hk; exact (ret_gt a T N f k H Hk)|]. split; [|auto].
  intros j t Hj Ht. rewrite <- (compound_prices N f j t).
  - clear. induction t as [|t IH]; [reflexivity|]. simpl compound. rewrite IH. unfold ret_of, pos.
    replace (t * N + j + N)%nat with (S t * N + j)%nat by (simpl; lia). reflexivity.
  - intros s Hs. destruct H as (_ & _ & _ & Hp). apply Hp. unfold pos. nia.
Qed.
Print Assumptions from_prices_compounds.

Definition ex_prices : nd := mkND [3; 1]%nat (fun k => Fin (INR (S k))).
Example from_prices_case : price_history ex_prices 2 1 (fun k => INR (S k)) /\
  compound 1 (fun s => INR (S (S s)) / INR (S s) - 1) 2 = 3.
Proof.
  split; [|simpl; field].
  split; [lia|]. split; [lia|]. split; [split; [reflexivity|intros; reflexivity]|]. intros k _. apply lt_0_INR. lia.
Qed.

(** A labelled table is not checked for infinities: an infinite first price is accepted and turned
    into a return of -100%. *)
Theorem from_prices_infinite_first_price_refuted :
  exists cols a d X, nd_shape a = [2; List.length cols]%nat /\ nd_at a 0 = PInf /\ from_prices (PFrame cols a) = Ok d /\
    d_scen d = Some X /\ nd_at X 0 = Fin (-1).
Proof.
  set (a := mkND [2; 1]%nat (fun k => if Nat.eqb k 0 then PInf else Fin 1)).
  set (i := mkIn None None (Some (Some ["x"]%string, price_returns a)) None None).
  assert (C : consistent 1 i).
  { split; [lia|]. split; [exists ["x"]%string; split; [reflexivity|intros l [<-|[]]; reflexivity]|]. split; [exact I|]. split; [exact I|].
    simpl. exists 1%nat. split; [lia|]. split; [|exact I]. exists (fun _ => -1). split; [reflexivity|]. intros k Hk. unfold nd_size in Hk. simpl in Hk.
    assert (k = 0%nat) by lia. subst k. reflexivity. }
  destruct (consistent_make_dist i 1 C) as (d & E & _). exists ["x"]%string, a, d, (price_returns a).
  split; [reflexivity|]. split; [reflexivity|]. split.
  - unfold from_prices. assert (E1 : nd_any p_le0 a = false).
    { apply nd_any_iff. intros k Hk. simpl. destruct (Nat.eqb k 0); [reflexivity|]. simpl. apply Rleb_false. lra. }
    assert (E2 : nd_any p_nan a = false). { apply nd_any_iff. intros k Hk. simpl. destruct (Nat.eqb k 0); reflexivity. }
    rewrite E1, E2. simpl. exact E.
  - destruct (make_dist_values i d E) as (V & _). split; [exact V|reflexivity].
Qed.
Print Assumptions from_prices_infinite_first_price_refuted.

(** [from_scenarios] on log returns stores [e^x - 1 > -1]; an entry of minus infinity silently becomes
    a total loss. *)
Theorem from_scenarios_log : forall labels X p d T N x, real_array X [T; N] x -> from_scenarios true labels X p = Ok d ->
  exists X', d_scen d = Some X' /\ real_array X' [T; N] (fun k => exp (x k) - 1) /\ forall k, -1 < exp (x k) - 1.
Proof.
  intros labels X p d T N x [Hs Hx] H. unfold from_scenarios in H. destruct (make_dist_values _ _ H) as (V & _). eexists. split; [exact V|].
  split.
  - split; [exact Hs|]. intros k Hk. simpl. rewrite (Hx k Hk). reflexivity.
  - intros k. pose proof (exp_pos (x k)). lra.
Qed.
Print Assumptions from_scenarios_log.
