(** Properties of the conjugate-posterior wrappers. *)
From Coq Require Import Psatz ZArith.
From Verif Require Import RBase QpBase OptModel OptSpec OptProofs3 OptProofs6 OptProofs7 OptProofs8 ExistSpec ExistProperties NiwModel NiwSpec NiwProofs NiwProofs2 NiwProperties EmModel2.
From Verif Require ProjModel ConvModel.
Open Scope R_scope.
Open Scope list_scope.

(** The wrappers and the posterior object say the same thing, for counts given as whole numbers. *)
Theorem posterior_moments_niw_values :
  forall chol mu sg t0 nu0 smu ssg n m s, exact_chol chol ->
    posterior_moments_niw chol mu sg (INR t0) (INR nu0) smu ssg (INR n) = Ok (m, s) ->
    let N := v_n mu in
    (0 < t0)%nat /\ (0 < n)%nat /\
    (forall i, (i < N)%nat -> snd m i = (INR t0 * v_at mu i + INR n * v_at smu i) / INR (t0 + n)) /\
    (forall i j, (i < N)%nat -> (j < N)%nat ->
       INR (nu0 + n + N + 1) * snd s i j = INR nu0 * m_at sg i j + INR n * m_at ssg i j
         + INR t0 * INR n / INR (t0 + n) * ((v_at mu i - v_at smu i) * (v_at mu j - v_at smu j))).
Proof.
  intros chol mu sg t0 nu0 smu ssg n m s Hc H N. unfold posterior_moments_niw, niw_updated in H. rewrite !trunc_INR, <- !INR_IZR_INZ in H.
  apply bind_ok in H as (o' & E & H). apply bind_ok in E as (o & Ei & E). apply bind_ok in E as ([o1 p] & Eu & E). injection E as <-.
  destruct (niw_posterior _ _ _ _ _ _ _ _ _ _ _ Hc Ei Eu) as (A1 & A2 & _ & _ & A3 & A4 & _).
  destruct (niw_estimators _ _ _ _ _ _ _ _ _ _ _ Ei Eu) as (B1 & (C & B2 & B3) & _).
  rewrite B1, B2 in H. cbn [bind] in H. injection H as <- <-. split; [exact A1|]. split; [exact A2|]. split; [exact A3|].
  intros i j Hi Hj. rewrite B3, <- A4 by auto. fold N. field. apply not_0_INR. lia.
Qed.
Print Assumptions posterior_moments_niw_values.

(** Which call succeeds, and that the answers agree. *)
Theorem posterior_moments_niw_agree :
  forall chol mu sg t0 nu0 smu ssg n,
    (forall m s u, posterior_moments_niw_with_uncertainty chol mu sg t0 nu0 smu ssg n = Ok (m, s, u) ->
       posterior_moments_niw chol mu sg t0 nu0 smu ssg n = Ok (m, s) /\
       exists b, from_niw chol mu sg t0 nu0 smu ssg n = Ok b /\ b_mu b = m /\ b_sigma b = s /\ b_smu b = u) /\
    (forall m s, posterior_moments_niw chol mu sg t0 nu0 smu ssg n = Ok (m, s) ->
       let nu := IZR (ProjModel.trunc nu0) + IZR (ProjModel.trunc n) in
       (2 < nu -> exists u, posterior_moments_niw_with_uncertainty chol mu sg t0 nu0 smu ssg n = Ok (m, s, u)) /\
       (nu <= 2 -> posterior_moments_niw_with_uncertainty chol mu sg t0 nu0 smu ssg n = Err ValueError)) /\
    (forall t0' nu0' n', ProjModel.trunc t0' = ProjModel.trunc t0 -> ProjModel.trunc nu0' = ProjModel.trunc nu0 -> ProjModel.trunc n' = ProjModel.trunc n ->
       posterior_moments_niw chol mu sg t0' nu0' smu ssg n' = posterior_moments_niw chol mu sg t0 nu0 smu ssg n) /\
    ((0 <= t0 < 1 \/ 0 <= n < 1) -> forall r, posterior_moments_niw chol mu sg t0 nu0 smu ssg n <> Ok r).
Proof.
  intros chol mu sg t0 nu0 smu ssg n. unfold posterior_moments_niw, posterior_moments_niw_with_uncertainty, from_niw, niw_updated.
  split; [|split; [|split]].
  - intros m s u H. apply bind_ok in H as (o' & E & H). apply bind_ok in E as (o & Ei & E). apply bind_ok in E as ([o1 p] & Eu & E). injection E as <-.
    rewrite Ei. cbn [bind]. rewrite Eu. cbn [bind]. apply bind_ok in H as (a & E1 & H). apply bind_ok in H as (b & E2 & H). apply bind_ok in H as (c & E3 & H). injection H as <- <- <-.
    rewrite E1, E2, E3. cbn [bind]. split; [reflexivity|]. eexists. repeat split.
  - intros m s H. set (nu := IZR (ProjModel.trunc nu0) + IZR (ProjModel.trunc n)). apply bind_ok in H as (o' & E & H). apply bind_ok in E as (o & Ei & E). apply bind_ok in E as ([o1 p] & Eu & E). injection E as <-.
    rewrite Ei. cbn [bind]. rewrite Eu. cbn [bind]. apply bind_ok in H as (a & E1 & H). apply bind_ok in H as (b & E2 & H). injection H as <- <-. rewrite E1, E2. cbn [bind].
    assert (H0 : (0 <= ProjModel.trunc nu0)%Z) by (apply niw_init_ok in Ei as (_ & _ & _ & Hn & _); apply le_IZR; exact Hn).
    apply niw_init_ok in Ei as (_ & _ & _ & _ & _ & _ & _ & _ & ix & _ & ->).
    apply niw_update_ok in Eu as (_ & _ & _ & _ & _ & _ & _ & _ & _ & _ & _ & Hp & ->). subst p. unfold get_S_mu, with_post. cbn [w_post nu1 w_nu0].
    replace (IZR (ProjModel.trunc (IZR (ProjModel.trunc nu0))) + IZR (ProjModel.trunc n)) with nu.
    2:{ unfold nu. rewrite trunc_IZR by exact H0. reflexivity. }
    destruct (Rleb_spec nu 2); cbn [negb guard]; split; intros; try lra; [reflexivity|]. cbn [bind]. eauto.
  - intros t0' nu0' n' -> -> ->. reflexivity.
  - intros Hs r H. assert (Z : forall x, 0 <= x < 1 -> ProjModel.trunc x = 0%Z). { intros x (Hx1 & Hx2). unfold ProjModel.trunc. destruct (Rleb_spec 0 x); [|lra]. destruct (base_Int_part x) as [E1 E2].
      assert (Int_part x < 1)%Z by (apply lt_IZR; lra). assert (-1 < Int_part x)%Z by (apply lt_IZR; lra). lia. }
    apply bind_ok in H as (o' & E & _). apply bind_ok in E as (o & Ei & E). apply bind_ok in E as ([o1 p] & Eu & _). destruct Hs as [Hs|Hs].
    + rewrite (Z _ Hs) in Ei. rewrite (proj1 (niw_rejects chol mu sg (IZR 0) (IZR (ProjModel.trunc nu0)))) in Ei; [discriminate|]. do 5 right. left. lra.
    + rewrite (Z _ Hs) in Eu. rewrite (proj2 (proj2 (niw_rejects chol mu sg t0 nu0)) o) in Eu; [discriminate| |right; right; left; lra].
      apply (proj2 (proj2 (niw_protocol chol (fun _ _ => 0) o)) _ _ _ _ Ei).
Qed.
Print Assumptions posterior_moments_niw_agree.

Example posterior_moments_case : exists r, posterior_moments_niw_with_uncertainty best_chol (VIn (Some ["x"; "y"]%string) 1 2 pm2) (MIn (Some (["x"; "y"], ["x"; "y"])%string) 2 2 2 id2) (INR 4) (INR 4)
    (VIn None 1 2 (fun _ => 0)) (MIn None 2 2 2 id2) (INR 12) = Ok r.
Proof.
  assert (Hid : psd 2 id2) by (intros x; unfold quad, id2; simpl; unfold delta; simpl; nra).
  destruct (niw_answers best_chol (Some ["x"; "y"]%string) None None 2 pm2 id2 4 4 (fun _ => 0) id2 12 best_chol_complete) as (o & o' & p & A1 & _ & A2 & _); try lia; auto.
  destruct (niw_estimators _ _ _ _ _ _ _ _ _ _ _ A1 A2) as (B1 & (C & B2 & _) & _ & B3). destruct B3 as (U & B3 & _); [lia|].
  unfold posterior_moments_niw_with_uncertainty, niw_updated. rewrite !trunc_INR, <- !INR_IZR_INZ. change (sq (Some ["x"; "y"]%string)) with (Some (["x"; "y"], ["x"; "y"])%string) in A1.
  rewrite A1. cbn [bind]. rewrite A2. cbn [bind]. rewrite B1, B2, B3. cbn [bind]. eexists. reflexivity.
Qed.
