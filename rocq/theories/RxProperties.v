(** Relaxed risk parity called with raw arrays (property C172). *)
From Coq Require Import Lia Psatz.
From Verif Require Import RBase QpBase OptModel OptSpec ProjModel OptProofs OptProofs4 OptProofs6 OptProofs8 ExistSpec ExistProperties RxModel RxSpec RxProofs.
Open Scope R_scope.
Open Scope list_scope.

(** A call whose arrays do not fit together -- covariance not square, mean of another length, constraint matrix without one
    column per asset, right-hand side of another length, budgets of another length or not positive -- raises. *)
Theorem rrp_misfit_raises : forall conelp lp chol a lam target mint, ~ well_shaped a ->
  exists e, rrp_call conelp lp chol a lam target mint = Some (Err e).
Proof.
  intros conelp lp chol a lam target mint H. unfold rrp_call. destruct (checked chol a lam) as [[[n G] A]|e] eqn:E; [|eauto].
  exfalso. apply H. eapply checked_shape. exact E.
Qed.
Print Assumptions rrp_misfit_raises.

(** In particular a single row given as a one-dimensional array or list is refused when there are two assets or more. *)
Theorem rrp_one_dimensional_row_raises : forall conelp lp chol a lam target mint n row m, (2 <= n)%nat -> r_shape (x_cov a) = [n; n] ->
  x_G a = Some row \/ x_A a = Some row -> (exists f, row = Array f /\ r_shape f = [m]) \/ (exists l, row = Numbers l) ->
  exists e, rrp_call conelp lp chol a lam target mint = Some (Err e).
Proof.
  intros conelp lp chol a lam target mint n row m Hn Hc Hr Hd. apply rrp_misfit_raises. intros (n' & E & _ & _ & PG & PA & _).
  rewrite Hc in E. injection E as <-. assert (K : forall k, ~ matrix_shape row k n).
  { intros k. destruct Hd as [(f & -> & Hf)|(l & ->)]; cbn [matrix_shape]; [rewrite Hf; intros [X|[_ X]]; [discriminate|lia]|intros [_ X]; lia]. }
  destruct Hr as [Hr|Hr]; [rewrite Hr in PG; destruct PG as (k & X & _)|rewrite Hr in PA; destruct PA as (k & X & _)]; exact (K k X).
Qed.
Print Assumptions rrp_one_dimensional_row_raises.

(** With numpy matrices and matching right-hand sides, the weights answered satisfy every row given, and are non-negative. *)
Theorem rrp_arrays_respected : forall conelp lp chol a lam target mint n r, exact_cp conelp -> exact_chol chol ->
  r_shape (x_cov a) = [n; n] -> r_shape (x_mean a) = [n] ->
  (x_G a = None \/ exists g h m, array_pair n (x_G a) (x_h a) g h m) -> (x_A a = None \/ exists g h m, array_pair n (x_A a) (x_b a) g h m) ->
  rrp_call conelp lp chol a lam target mint = Some (Ok r) ->
  (forall i, (i < n)%nat -> 0 <= rr_weights r i) /\
  (forall g h m i, array_pair n (x_G a) (x_h a) g h m -> (i < m)%nat -> row_value n g i (rr_weights r) <= r_at h i) /\
  (forall g h m i, array_pair n (x_A a) (x_b a) g h m -> (i < m)%nat -> row_value n g i (rr_weights r) = r_at h i) /\
  (x_A a = None -> sumn n (rr_weights r) = 1).
Proof.
  intros conelp lp chol a lam target mint n r Hs Hch Hc Hm HG HA H.
  unfold rrp_call in H. destruct (checked chol a lam) as [[[n' G] A]|e] eqn:E; [|discriminate].
  (* the rows the call used *)
  unfold checked in E. cbv zeta in E. rewrite Hc, Nat.eqb_refl in E. cbn [guard] in E. assert (N : r_size (x_mean a) = n) by (unfold r_size; rewrite Hm; cbn; lia). rewrite N in E.
  apply bind_ok in E as (Gm & E1 & E). apply bind_ok in E as (hm & E2 & E). apply bind_ok in E as (Am & E3 & E). apply bind_ok in E as (bm & E4 & E).
  apply guard_ok in E as [_ E]. apply bind_ok in E as (L & _ & E). apply guard_ok in E as [_ E]. apply bind_ok in E as (bud & _ & E). apply guard_ok in E as [_ E].
  apply bind_ok in E as (Gr & E5 & E). apply bind_ok in E as (Ar & E6 & E). injection E as <- <- <-.
  destruct (numeric Gr) as [G|] eqn:NG; [|discriminate]. destruct (numeric Ar) as [A|] eqn:NA; [|discriminate]. injection H as H.
  assert (J : forall Mo vo M v l rs, stored Mo = Ok M -> stored vo = Ok v -> user_rows n M v = Ok l -> numeric l = Some rs ->
     (forall g h m, array_pair n Mo vo g h m -> rs = Some (array_rows m n g h)) /\ (Mo = None -> rs = None)).
  { intros Mo vo M v l rs S1 S2 S3 S4. split.
    - intros g h m P. destruct (array_rows_stored n Mo vo (Some (array_rows m n g h))) as (M' & v' & l' & T1 & T2 & T3 & T4); [right; exists g, h, m; auto|]. congruence.
    - intros ->. cbn in S1. injection S1 as <-. cbn in S3. injection S3 as <-. cbn in S4. congruence. }
  destruct (J _ _ _ _ _ _ E1 E2 E5 NG) as [JG JG0]. destruct (J _ _ _ _ _ _ E3 E4 E6 NA) as [JA JA0].
  destruct (rrp_solve_inv conelp lp chol n _ _ G A (x_budgets a) lam target mint r Hs Hch H) as (L' & bud' & j & _ & _ & _ & _ & _ & _ & _ & P & _).
  destruct P as [P1 _ _ [P2 P3] P4 _ _ _ _]. split; [exact P1|]. split; [|split].
  - intros g h m i Q Hi. rewrite (JG g h m Q) in P2. apply (P2 (fun j => r_at g (i * n + j)%nat) (r_at h i)). cbn [opt_rows]. unfold array_rows.
    apply in_map_iff. exists i. split; [reflexivity|]. apply in_seq. lia.
  - intros g h m i Q Hi. rewrite (JA g h m Q) in P3. apply (P3 (fun j => r_at g (i * n + j)%nat) (r_at h i)). cbn [opt_rows]. unfold array_rows.
    apply in_map_iff. exists i. split; [reflexivity|]. apply in_seq. lia.
  - intros E. apply P4. rewrite (JA0 E). intros x y [].
Qed.
Print Assumptions rrp_arrays_respected.

(** Such calls are the programme with exactly those rows; a right-hand side without a matrix is ignored. *)
Theorem rrp_arrays_programme : forall conelp lp chol a lam target mint n G A, r_shape (x_cov a) = [n; n] -> r_shape (x_mean a) = [n] ->
  array_rows_of n (x_G a) (x_h a) G -> array_rows_of n (x_A a) (x_b a) A ->
  rrp_call conelp lp chol a lam target mint =
  Some (rrp_solve conelp lp chol n (r_at (x_mean a)) (fun i j => r_at (x_cov a) (i * n + j)%nat) G A (x_budgets a) lam target mint).
Proof. exact array_call. Qed.
Print Assumptions rrp_arrays_programme.

(** Two uncorrelated assets. *)
Definition two_assets (G h : option cvx_arg) : rrp_args :=
  RrpArgs (mkR [2]%nat (fun _ => 0)) (mkR [2; 2]%nat (fun k => if (k =? 0)%nat || (k =? 3)%nat then 1 else 0)%bool) G h None None None.
Lemma two_eye i j : (i < 2)%nat -> (j < 2)%nat -> r_at (x_cov (two_assets None None)) (i * 2 + j)%nat = if (i =? j)%nat then 1 else 0.
Proof. intros Hi Hj. destruct i as [|[|]]; destruct j as [|[|]]; try lia; reflexivity. Qed.
Lemma two_psd : psd 2 (fun i j => r_at (x_cov (two_assets None None)) (i * 2 + j)%nat).
Proof. intros x. rewrite quad2. cbn. pose proof (Rle_0_sqr (x 0%nat)). pose proof (Rle_0_sqr (x 1%nat)). unfold Rsqr in *. lra. Qed.
Lemma two_answers rows : constrained 2 rows None (fun _ => 1 / 2) ->
  exists r, rrp_solve best_cp best_cp best_chol 2 (fun _ => 0) (fun i j => r_at (x_cov (two_assets None None)) (i * 2 + j)%nat) rows None None 0 None None = Ok r.
Proof.
  intros HC. apply (rrp_solve_total best_cp best_cp best_chol 2 _ _ rows None None 0 None None (fun _ => 1 / INR 2) 0); auto using best_cp_complete, best_chol_complete, two_psd; try lra; try (intros; discriminate).
  exists (fun _ => 1 / 2). constructor; auto.
  - intros. lra.
  - intros i Hi. unfold mv, dot, symmetrise. cbn [sumn]. destruct i as [|[|]]; try lia; cbn; lra.
  - intros _. cbn. lra.
  - exact I.
Qed.

(** Not true: the inner lists of a nested list are the rows of [G].  They are its columns: with G = [[1, 1], [0, 0]] and
    h = [1/2, 1] no fully invested portfolio meets the first row, and the call answers. *)
Theorem rrp_nested_rows_refuted :
  ~ (forall conelp lp chol a lam target mint r ls hs i, exact_cp conelp -> exact_chol chol -> x_G a = Some (Nested ls) -> x_h a = Some (Numbers hs) ->
       rrp_call conelp lp chol a lam target mint = Some (Ok r) -> (i < List.length ls)%nat ->
       sumn (List.length (nth i ls [])) (fun j => nth j (nth i ls []) 0 * rr_weights r j) <= nth i hs 0).
Proof.
  intros F. set (a := two_assets (Some (Nested [[1; 1]; [0; 0]])) (Some (Numbers [1 / 2; 1]))).
  set (rows := [((fun j => nth 0 (nth j [[1; 1]; [0; 0]] []) 0), 1 / 2); ((fun j => nth 1 (nth j [[1; 1]; [0; 0]] []) 0), 1)] : rows).
  destruct (two_answers (Some rows)) as [r Hr].
  { split; [|intros x y []]. intros g h [E|[E|[]]]; injection E as <- <-; unfold dot; cbn; lra. }
  assert (HC : rrp_call best_cp best_cp best_chol a 0 None None = Some (Ok r)).
  { refine (eq_trans _ (f_equal Some Hr)). exact (call_of best_cp best_cp best_chol a 0 None None 2 _ _ _ (Some rows) _ _ _ None eq_refl eq_refl eq_refl eq_refl eq_refl eq_refl eq_refl eq_refl eq_refl eq_refl). }
  pose proof (F best_cp best_cp best_chol a 0 None None r _ _ 0%nat best_cp_exact best_chol_exact eq_refl eq_refl HC ltac:(cbn; lia)) as K. cbn in K.
  destruct (rrp_solve_inv _ _ _ _ _ _ _ _ _ _ _ _ r best_cp_exact best_chol_exact Hr) as (L' & bud' & j & _ & _ & _ & _ & _ & _ & _ & P & _).
  pose proof (rp_budget _ _ _ _ _ _ _ _ _ _ _ _ _ P) as B. specialize (B ltac:(intros x y [])). cbn in B. lra.
Qed.
Print Assumptions rrp_nested_rows_refuted.

(** Not true: a constraint matrix without a right-hand side is refused.  With one row the bound becomes NaN and the solvers run. *)
Theorem rrp_missing_bound_refuted :
  ~ (forall conelp lp chol a lam target mint, exact_cp conelp -> exact_chol chol -> x_G a <> None -> x_h a = None ->
       exists e, rrp_call conelp lp chol a lam target mint = Some (Err e)).
Proof.
  intros F. set (g := mkR [1; 2]%nat (fun _ => 1)). set (a := two_assets (Some (Array g)) None).
  destruct (F best_cp best_cp best_chol a 0 None None best_cp_exact best_chol_exact ltac:(discriminate) eq_refl) as [e He].
  destruct (two_answers None) as [r Hr]; [split; intros x y []|].
  unfold rrp_solve in Hr. cbn [two_assets x_cov] in Hr. apply bind_ok in Hr as (L & EL & _).
  assert (C : rrp_call best_cp best_cp best_chol a 0 None None = None); [|congruence].
  assert (K : checked best_chol a 0 = Ok (2%nat, Some [((fun _ => 1) : vec, None : option R)], None)).
  { transitivity (let* _ := cholesky_pd best_chol 2 (symmetrise (fun i j => r_at (x_cov (two_assets None None)) (i * 2 + j)%nat)) in
                  guard (negb (Rltb 0 0)) ValueError (Ok (2%nat, Some [((fun _ => 1) : vec, None : option R)], None : option (list (vec * option R))))); [reflexivity|].
    cbn [two_assets x_cov]. rewrite EL. cbn [bind]. destruct (Rltb_spec 0 0); [lra|]. reflexivity. }
  unfold rrp_call. rewrite K. reflexivity.
Qed.
Print Assumptions rrp_missing_bound_refuted.

(** Two assets, the first capped at 1/4. *)
Example rrp_arrays_case : let a := two_assets (Some (Array (mkR [1; 2]%nat (fun k => if (k =? 0)%nat then 1 else 0)))) (Some (Array (mkR [1]%nat (fun _ => 3 / 4)))) in
  well_shaped a /\ exists r, rrp_call best_cp best_cp best_chol a 0 None None = Some (Ok r) /\ rr_weights r 0%nat <= 3 / 4.
Proof.
  intros a. assert (HP : array_pair 2 (x_G a) (x_h a) (mkR [1; 2]%nat (fun k => if (k =? 0)%nat then 1 else 0)) (mkR [1]%nat (fun _ => 3 / 4)) 1).
  { split; [reflexivity|]. split; [reflexivity|]. split; [reflexivity|]. left. reflexivity. }
  assert (HW : well_shaped a).
  { exists 2%nat. split; [reflexivity|]. split; [reflexivity|]. split; [cbn; lia|]. split; [|split].
    - exists 1%nat. split; [left; reflexivity|]. exists 1%nat, 1%nat. split; [|reflexivity]. right. split; reflexivity.
    - exact I.
    - intros l E. discriminate. }
  split; [exact HW|].
  destruct (two_answers (Some (array_rows 1 2 (mkR [1; 2]%nat (fun k => if (k =? 0)%nat then 1 else 0)) (mkR [1]%nat (fun _ => 3 / 4))))) as [r Hr].
  { split; [|intros x y []]. intros g h [E|[]]. injection E as <- <-. unfold dot. cbn. lra. }
  exists r. assert (HC : rrp_call best_cp best_cp best_chol a 0 None None = Some (Ok r)).
  { rewrite (rrp_arrays_programme best_cp best_cp best_chol a 0 None None 2 _ None eq_refl eq_refl (or_intror (ex_intro _ _ (ex_intro _ _ (ex_intro _ _ (conj HP eq_refl))))) (or_introl (conj eq_refl (conj (or_introl eq_refl) eq_refl)))).
    f_equal. exact Hr. }
  split; [exact HC|].
  destruct (rrp_arrays_respected best_cp best_cp best_chol a 0 None None 2 r best_cp_exact best_chol_exact eq_refl eq_refl (or_intror (ex_intro _ _ (ex_intro _ _ (ex_intro _ _ HP)))) (or_introl eq_refl) HC) as (_ & K & _).
  specialize (K _ _ _ 0%nat HP ltac:(lia)). unfold row_value in K. cbn in K. lra.
Qed.
