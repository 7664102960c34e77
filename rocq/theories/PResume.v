(* Stopping a solver and starting it again.  For every arithmetic. *)
From Coq Require Import List Arith Bool ZArith Lia.
From Verif Require Import Num Py Arr MLayout MAssign MNoise MSparse MFactor MGraph MLinear MSolver SpecLayout SpecTree SpecAssign SpecGraph SpecSolver SpecResume.
From Verif Require Import PBase PLayout PAssign PAssign2 PGraph PGraph2 PGraph4 PExGraph PSolver PSolver2 PExSolver.
Import ListNotations.

Section AnyNum.
Context {T : Type} {N : Num T}.
Variable E : env T.
Let C := e_cls E.

Lemma cholmod_blind : iteration_blind (cholmod_solve (T := T)).
Proof. intros A b l i j. reflexivity. Qed.
Lemma cg_blind tol : iteration_blind (conjugate_gradient_solver (T := T) tol).
Proof. intros A b l i j. reflexivity. Qed.

(* ---- the fixed-iteration solver ---- *)
Lemma gauss_newton_blind lin g : iteration_blind lin -> forall k i j a, gauss_newton E lin g k i a = gauss_newton E lin g k j a.
Proof.
  intros Hb. induction k as [|k IH]; intros i j a; simpl; auto. unfold gauss_newton_step.
  destruct (compute_whitened_residual_vector E g a) as [r|]; simpl; auto.
  destruct (compute_whitened_residual_jacobian E g a r) as [A|]; simpl; auto.
  destruct (matmul (transpose A) r) as [b|]; simpl; auto. rewrite (Hb A (vneg b) n0 i j).
  destruct (lin A (vneg b) n0 j) as [d|]; simpl; auto.
  destruct (manifold_retract (e_cls E) a (mkAssign d (g_local_layout g))) as [a'|]; simpl; auto.
Qed.
Lemma gauss_newton_split lin g : forall k l i a,
  gauss_newton E lin g (k + l) i a = (a' <- gauss_newton E lin g k i a ;; gauss_newton E lin g l (i + k) a').
Proof.
  induction k as [|k IH]; intros l i a; cbn [gauss_newton bind Nat.add]; [rewrite Nat.add_0_r; auto|].
  destruct (gauss_newton_step E lin g i a) as [a1|]; cbn [bind]; auto. rewrite IH.
  replace (S i + k) with (i + S k) by lia. auto.
Qed.
Lemma fixed_resumes lin g init n m u u' u'' f f' f'' : iteration_blind lin -> (1 <= n)%Z -> (1 <= m)%Z ->
  Z.to_nat n <= f -> Z.to_nat m <= f' -> Z.to_nat (n + m) <= f'' ->
  forall b, fixed_solve E f u n lin g init = Some (Ok b) ->
  fixed_solve E f' u' m lin g b = fixed_solve E f'' u'' (n + m) lin g init.
Proof.
  intros Hb Hn Hm Hf Hf' Hf'' b H. rewrite fixed_solve_ok in H by auto. rewrite !fixed_solve_ok by (auto; lia).
  f_equal. injection H as H. apply bind_ok in H. destruct H as (a & Ha & H).
  apply bind_ok in H. destruct H as (r & _ & H). injection H as <-.
  rewrite Z2Nat.inj_add by lia. rewrite gauss_newton_split, Ha. cbn [bind].
  rewrite (gauss_newton_blind lin g Hb _ (0 + Z.to_nat n) 0). auto.
Qed.

(* ---- states that differ in the number of the iteration only ---- *)
Definition later (k : nat) (s s' : sstate T) : Prop :=
  s_iter s' = s_iter s + k /\ s_assign s' = s_assign s /\ s_cost s' = s_cost s /\ s_res s' = s_res s /\
  s_done s' = s_done s /\ s_extra s' = s_extra s.
(* a loop body does the same, k iterations later *)
Definition shifts (k : nat) (f f' : sstate T -> result (sstate T)) : Prop :=
  forall s s', later k s s' -> match f s, f' s' with Ok t, Ok t' => later k t t' | Err e, Err e' => e = e' | _, _ => False end.

Lemma conv_shift cfg cfg' k s s' c d ng : later k s s' ->
  cost_tolerance cfg = cost_tolerance cfg' -> gradient_tolerance cfg = gradient_tolerance cfg' -> parameter_tolerance cfg = parameter_tolerance cfg' ->
  Z.leb (gradient_start cfg) (Z.of_nat (s_iter s)) = Z.leb (gradient_start cfg') (Z.of_nat (s_iter s')) ->
  check_convergence E cfg s c d ng = check_convergence E cfg' s' c d ng.
Proof.
  intros (Hi & Ha & Hc & _ & _ & _) H1 H2 H3 H4. unfold check_convergence, converged_gradient, converged_cost, converged_parameters.
  rewrite Ha, Hc, H1, H2, H3, H4. auto.
Qed.

Section Shift.
Variables (cfg : term_cfg T) (lin : linear_solver (T := T)) (g : graph T) (n m : Z) (k : nat).
Hypothesis Hb : iteration_blind lin.
Hypothesis Hg : (gradient_start cfg <= 0)%Z.
Hypothesis Hm : (n = m + Z.of_nat k)%Z.
Lemma exceeded_shift s s' : later k s s' -> exceeded_max_iterations (term_with m cfg) s = exceeded_max_iterations (term_with n cfg) s'.
Proof.
  intros (Hi & _). unfold exceeded_max_iterations. cbn [max_iterations term_with]. rewrite Hi.
  apply Bool.eq_iff_eq_true. rewrite !Z.leb_le. lia.
Qed.
Lemma check_shift s s' c d ng : later k s s' ->
  check_convergence E (term_with m cfg) s c d ng = check_convergence E (term_with n cfg) s' c d ng.
Proof.
  intros Hl. apply (conv_shift _ _ k); auto. cbn [gradient_start term_with].
  transitivity true; [|symmetry]; apply Z.leb_le; lia.
Qed.
Lemma gn_shifts : shifts k (gn_step E (term_with m cfg) lin g) (gn_step E (term_with n cfg) lin g).
Proof.
  intros s s' Hl. pose proof Hl as (Hi & Ha & Hc & Hr & Hd & He). unfold gn_step, gn_update. rewrite Ha, Hr, He.
  destruct (compute_whitened_residual_jacobian E g (s_assign s) (s_res s)) as [A|]; cbn [bind]; auto.
  destruct (matmul (transpose A) (s_res s)) as [b|]; cbn [bind]; auto. rewrite (Hb A (vneg b) n0 (s_iter s') (s_iter s)).
  destruct (lin A (vneg b) n0 (s_iter s)) as [d|]; cbn [bind]; auto.
  destruct (manifold_retract (e_cls E) (s_assign s) (mkAssign d (g_local_layout g))) as [a'|]; cbn [bind]; auto.
  destruct (compute_cost E g a') as [cr|]; cbn [bind]; auto. rewrite <- (check_shift s s' _ _ _ Hl).
  destruct (check_convergence E (term_with m cfg) s (fst cr) (mkAssign d (g_local_layout g)) (vneg b)) as [v|]; cbn [bind]; auto.
  rewrite <- (exceeded_shift s s' Hl). repeat split; auto. cbn [s_iter]. lia.
Qed.
End Shift.
Lemma quality_shift A c k s s' d : later k s s' -> step_quality A c s' d = step_quality A c s d.
Proof. intros (_ & _ & Hc & Hr & _). unfold step_quality. rewrite Hc, Hr. auto. Qed.
Lemma lm_shifts cfg lin g n m k x y : iteration_blind lin -> (gradient_start (lm_term cfg) <= 0)%Z -> (n = m + Z.of_nat k)%Z ->
  shifts k (lm_step E (lm_with m x cfg) lin g) (lm_step E (lm_with n y cfg) lin g).
Proof.
  intros Hb Hg Hm s s' Hl. pose proof Hl as (Hi & Ha & Hc & Hr & Hd & He). unfold lm_step. cbn [lm_term lm_with lm_quality_min].
  rewrite Ha, Hr, He, Hc.
  destruct (compute_whitened_residual_jacobian E g (s_assign s) (s_res s)) as [A|]; cbn [bind]; auto.
  destruct (matmul (transpose A) (vneg (s_res s))) as [b|]; cbn [bind]; auto. rewrite (Hb A b (s_extra s) (s_iter s') (s_iter s)).
  destruct (lin A b (s_extra s) (s_iter s)) as [d|]; cbn [bind]; auto.
  destruct (manifold_retract (e_cls E) (s_assign s) (mkAssign d (g_local_layout g))) as [a'|]; cbn [bind]; auto.
  destruct (compute_cost E g a') as [cr|]; cbn [bind]; auto. rewrite (quality_shift A (fst cr) k s s' d Hl).
  destruct (step_quality A (fst cr) s d) as [q|]; cbn [bind]; auto.
  rewrite <- (check_shift (lm_term cfg) n m k Hg s s' _ _ _ Hl).
  destruct (check_convergence E (term_with m (lm_term cfg)) s (fst cr) (mkAssign d (g_local_layout g)) b) as [v|]; cbn [bind]; auto.
  rewrite <- (exceeded_shift (lm_term cfg) n m k Hm s s' Hl). repeat split; auto. cbn [s_iter]. lia.
Qed.
Lemma dl_shifts cfg lin g n m k x y : iteration_blind lin -> (gradient_start (dl_term cfg) <= 0)%Z -> (n = m + Z.of_nat k)%Z ->
  shifts k (dl_step E (dl_with m x cfg) lin g) (dl_step E (dl_with n y cfg) lin g).
Proof.
  intros Hb Hg Hm s s' Hl. pose proof Hl as (Hi & Ha & Hc & Hr & Hd & He). unfold dl_step. cbn [dl_term dl_with dl_quality_min].
  rewrite Ha, Hr, He, Hc.
  destruct (compute_whitened_residual_jacobian E g (s_assign s) (s_res s)) as [A|]; cbn [bind]; auto.
  destruct (matmul (transpose A) (vneg (s_res s))) as [b|]; cbn [bind]; auto. rewrite (Hb A b n0 (s_iter s') (s_iter s)).
  destruct (lin A b n0 (s_iter s)) as [gn|]; cbn [bind]; auto.
  destruct (matmul A b) as [Asd|]; cbn [bind]; auto.
  set (d := dogleg_step_of b Asd gn (s_extra s)).
  destruct (manifold_retract (e_cls E) (s_assign s) (mkAssign d (g_local_layout g))) as [a'|]; cbn [bind]; auto.
  destruct (compute_cost E g a') as [cr|]; cbn [bind]; auto. rewrite (quality_shift A (fst cr) k s s' d Hl).
  destruct (step_quality A (fst cr) s d) as [q|]; cbn [bind]; auto.
  rewrite <- (check_shift (dl_term cfg) n m k Hg s s' _ _ _ Hl).
  destruct (check_convergence E (term_with m (dl_term cfg)) s (fst cr) (mkAssign d (g_local_layout g)) b) as [v|]; cbn [bind]; auto.
  rewrite <- (exceeded_shift (dl_term cfg) n m k Hm s s' Hl). repeat split; auto. cbn [s_iter]. lia.
Qed.

(* the loop, started k iterations later *)
Lemma loop_shift k f f' : shifts k f f' -> forall fuel s s', later k s s' ->
  match while_loop fuel (fun s => negb (s_done s)) f s, while_loop fuel (fun s => negb (s_done s)) f' s' with
  | Some (Ok t), Some (Ok t') => later k t t' | Some (Err e), Some (Err e') => e = e' | None, None => True | _, _ => False end.
Proof.
  intros Hs. induction fuel as [|fuel IH]; intros s s' Hl; pose proof Hl as (_ & _ & _ & _ & Hd & _); cbn [while_loop]; rewrite Hd.
  - destruct (negb (s_done s)); auto.
  - destruct (negb (s_done s)); auto. specialize (Hs s s' Hl). destruct (f s), (f' s'); try tauto. apply IH; auto.
Qed.
(* more fuel does not change the outcome *)
Lemma loop_more (f : sstate T -> result (sstate T)) : forall fuel more s r, while_loop fuel (fun s => negb (s_done s)) f s = Some r ->
  while_loop (fuel + more) (fun s => negb (s_done s)) f s = Some r.
Proof.
  induction fuel as [|fuel IH]; intros more s r; cbn [while_loop Nat.add].
  - destruct (negb (s_done s)) eqn:Ed; [discriminate|]. destruct more; cbn [while_loop]; rewrite Ed; auto.
  - destruct (negb (s_done s)); auto. destruct (f s); auto.
Qed.
Lemma loop_fuel (f : sstate T -> result (sstate T)) fuel fuel' s r r' : while_loop fuel (fun s => negb (s_done s)) f s = Some r ->
  while_loop fuel' (fun s => negb (s_done s)) f s = Some r' -> r = r'.
Proof.
  intros H H'. apply (loop_more f fuel fuel') in H. apply (loop_more f fuel' fuel) in H'. rewrite Nat.add_comm in H'. congruence.
Qed.
(* running on from a state reached *)
Lemma loop_from (f : sstate T -> result (sstate T)) : forall k s t fuel, runs f k s t ->
  while_loop (k + fuel) (fun s => negb (s_done s)) f s = while_loop fuel (fun s => negb (s_done s)) f t.
Proof. intros k s t fuel Hr. induction Hr as [|k s s' s'' Hd Hs Hr IH]; auto. cbn [Nat.add while_loop]. rewrite Hd, Hs. auto. Qed.

(* ---- changing the limit ---- *)
(* with a smaller limit the same states are reached, but the last one is final *)
Definition limits (f f' : sstate T -> result (sstate T)) (n : Z) : Prop := forall s,
  match f s, f' s with
  | Ok t, Ok t' => s_iter t = S (s_iter s) /\ s_iter t' = S (s_iter s) /\ s_assign t' = s_assign t /\ s_cost t' = s_cost t /\
      s_res t' = s_res t /\ s_extra t' = s_extra t /\ s_done t' = (Z.leb (n - 1) (Z.of_nat (s_iter s)) || s_done t)
  | Err e, Err e' => e = e' | _, _ => False end.
Lemma cap_or n m i c : (n <= m)%Z -> (n - 1 <=? i)%Z || c = (n - 1 <=? i)%Z || ((m - 1 <=? i)%Z || c).
Proof.
  intros H. destruct (Z.leb_spec (n - 1) i) as [H1|H1]; cbn [orb]; auto. destruct (Z.leb_spec (m - 1) i) as [H2|H2]; cbn [orb]; auto. lia.
Qed.
Lemma gn_limits cfg lin g n m : (n <= m)%Z -> limits (gn_step E (term_with m cfg) lin g) (gn_step E (term_with n cfg) lin g) n.
Proof.
  intros Hn s. unfold gn_step. destruct (gn_update E lin g s) as [[[b d] a']|]; cbn [bind]; auto.
  destruct (compute_cost E g a') as [cr|]; cbn [bind]; auto.
  change (check_convergence E (term_with n cfg)) with (check_convergence E (term_with m cfg)).
  destruct (check_convergence E (term_with m cfg) s (fst cr) d b) as [v|]; cbn [bind]; auto.
  cbn [s_iter s_assign s_cost s_res s_extra s_done]. unfold exceeded_max_iterations. cbn [max_iterations term_with].
  repeat split; auto; try lia. apply cap_or; auto.
Qed.
Lemma lm_limits cfg lin g n m x y : (n <= m)%Z -> limits (lm_step E (lm_with m x cfg) lin g) (lm_step E (lm_with n y cfg) lin g) n.
Proof.
  intros Hn s. unfold lm_step. cbn [lm_term lm_with lm_quality_min].
  destruct (compute_whitened_residual_jacobian E g (s_assign s) (s_res s)) as [A|]; cbn [bind]; auto.
  destruct (matmul (transpose A) (vneg (s_res s))) as [b|]; cbn [bind]; auto.
  destruct (lin A b (s_extra s) (s_iter s)) as [d|]; cbn [bind]; auto.
  destruct (manifold_retract (e_cls E) (s_assign s) (mkAssign d (g_local_layout g))) as [a'|]; cbn [bind]; auto.
  destruct (compute_cost E g a') as [cr|]; cbn [bind]; auto.
  destruct (step_quality A (fst cr) s d) as [q|]; cbn [bind]; auto.
  change (check_convergence E (term_with n (lm_term cfg))) with (check_convergence E (term_with m (lm_term cfg))).
  destruct (check_convergence E (term_with m (lm_term cfg)) s (fst cr) (mkAssign d (g_local_layout g)) b) as [v|]; cbn [bind]; auto.
  cbn [s_iter s_assign s_cost s_res s_extra s_done]. unfold exceeded_max_iterations. cbn [max_iterations term_with].
  repeat split; auto; try lia. apply cap_or; auto.
Qed.
Lemma dl_limits cfg lin g n m x y : (n <= m)%Z -> limits (dl_step E (dl_with m x cfg) lin g) (dl_step E (dl_with n y cfg) lin g) n.
Proof.
  intros Hn s. unfold dl_step. cbn [dl_term dl_with dl_quality_min].
  destruct (compute_whitened_residual_jacobian E g (s_assign s) (s_res s)) as [A|]; cbn [bind]; auto.
  destruct (matmul (transpose A) (vneg (s_res s))) as [b|]; cbn [bind]; auto.
  destruct (lin A b n0 (s_iter s)) as [gn|]; cbn [bind]; auto.
  destruct (matmul A b) as [Asd|]; cbn [bind]; auto.
  set (d := dogleg_step_of b Asd gn (s_extra s)).
  destruct (manifold_retract (e_cls E) (s_assign s) (mkAssign d (g_local_layout g))) as [a'|]; cbn [bind]; auto.
  destruct (compute_cost E g a') as [cr|]; cbn [bind]; auto.
  destruct (step_quality A (fst cr) s d) as [q|]; cbn [bind]; auto.
  change (check_convergence E (term_with n (dl_term cfg))) with (check_convergence E (term_with m (dl_term cfg))).
  destruct (check_convergence E (term_with m (dl_term cfg)) s (fst cr) (mkAssign d (g_local_layout g)) b) as [v|]; cbn [bind]; auto.
  cbn [s_iter s_assign s_cost s_res s_extra s_done]. unfold exceeded_max_iterations. cbn [max_iterations term_with].
  repeat split; auto; try lia. apply cap_or; auto.
Qed.

Lemma state_eta (s t : sstate T) : s_iter s = s_iter t -> s_assign s = s_assign t -> s_cost s = s_cost t -> s_res s = s_res t ->
  s_done s = s_done t -> s_extra s = s_extra t -> s = t.
Proof. destruct s, t. cbn. intros; subst; auto. Qed.

(* runs that stay below the smaller limit are the same *)
Lemma limit_runs f f' n : limits f f' n -> forall k s t, (Z.of_nat (s_iter s + k) <= n - 1)%Z -> runs f k s t -> runs f' k s t.
Proof.
  intros HL k s t Hk Hr. induction Hr as [|k s s' s'' Hd Hs Hr IH]; [constructor|].
  pose proof (HL s) as H. rewrite Hs in H. destruct (f' s) as [t'|] eqn:Et; [|tauto].
  destruct H as (H1 & H2 & H3 & H4 & H5 & H6 & H7).
  assert (t' = s').
  { apply state_eta; auto; [congruence|]. rewrite H7. destruct (Z.leb_spec (n - 1) (Z.of_nat (s_iter s))); auto. lia. }
  subst t'. econstructor; eauto. apply IH. rewrite H1. lia.
Qed.
(* a run that is still going after n iterations is cut off there *)
Lemma limit_cut f f' n k s t : limits f f' n -> s_iter s = 0 -> n = Z.of_nat k -> 1 <= k -> runs f k s t ->
  exists t', runs f' k s t' /\ s_done t' = true /\ s_assign t' = s_assign t /\ s_cost t' = s_cost t /\ s_res t' = s_res t /\ s_extra t' = s_extra t.
Proof.
  intros HL Hi -> Hk Hr. destruct k as [|k]; [lia|]. apply runs_snoc in Hr. destruct Hr as (s1 & Hr & Hd & Hs).
  assert (Hit : s_iter s1 = k).
  { clear Hd Hs Hk. assert (G : forall k s t, runs f k s t -> s_iter t = s_iter s + k).
    { intros k0 s0 t0 H0. induction H0 as [|k0 s0 s0' s0'' Hd Hs Hr' IH]; [lia|].
      pose proof (HL s0) as H. rewrite Hs in H. destruct (f' s0); [|tauto]. destruct H as (H & _). lia. }
    rewrite (G _ _ _ Hr). lia. }
  pose proof (limit_runs f f' _ HL k s s1 ltac:(lia) Hr) as Hr'.
  pose proof (HL s1) as H. rewrite Hs in H. destruct (f' s1) as [t'|] eqn:Et; [|tauto].
  destruct H as (_ & H2 & H3 & H4 & H5 & H6 & H7). exists t'.
  split; [apply runs_snoc; eauto|]. split; auto. rewrite H7, Hit.
  replace (Z.leb (Z.of_nat (S k) - 1) (Z.of_nat k)) with true by (symmetry; apply Z.leb_le; lia). auto.
Qed.
(* a run that has ended by then is the same, up to and including its end *)
Lemma limit_done f f' n k s t : limits f f' n -> s_iter s = 0 -> (Z.of_nat k <= n)%Z -> 1 <= k -> runs f k s t -> s_done t = true ->
  runs f' k s t.
Proof.
  intros HL Hi Hk H1 Hr Hd. destruct k as [|k]; [lia|]. apply runs_snoc in Hr. destruct Hr as (s1 & Hr & Hd1 & Hs).
  pose proof (limit_runs f f' _ HL k s s1 ltac:(lia) Hr) as Hr'.
  pose proof (HL s1) as H. rewrite Hs in H. destruct (f' s1) as [t'|] eqn:Et; [|tauto].
  destruct H as (H0 & H2 & H3 & H4 & H5 & H6 & H7). apply runs_snoc. exists s1. split; auto. split; auto. rewrite Et. f_equal.
  apply state_eta; auto; [congruence|]. rewrite H7, Hd. apply orb_true_r.
Qed.

(* every run with the smaller limit is one with the larger limit, and if the latter is not at
   its end the former was cut off *)
Lemma limit_iter f f' n : limits f f' n -> forall k s t, runs f' k s t -> s_iter t = s_iter s + k.
Proof.
  intros HL k s t Hr. induction Hr as [|k s s' s'' Hd Hs Hr IH]; [lia|].
  pose proof (HL s) as H. rewrite Hs in H. destruct (f s); [|tauto]. destruct H as (_ & H & _). lia.
Qed.
Lemma limit_up_going f f' n : limits f f' n -> forall k s t, runs f' k s t -> s_done t = false -> runs f k s t.
Proof.
  intros HL. induction k as [|k IH]; intros s t Hr Hd; [inversion Hr; subst; constructor|].
  apply runs_snoc in Hr. destruct Hr as (s1 & Hr & Hd1 & Hs). apply runs_snoc. exists s1. split; auto. split; auto.
  pose proof (HL s1) as H. rewrite Hs in H. destruct (f s1) as [t1|]; [|tauto]. destruct H as (H1 & H2 & H3 & H4 & H5 & H6 & H7).
  f_equal. rewrite Hd in H7. symmetry in H7. apply orb_false_iff in H7. apply state_eta; try congruence. rewrite Hd. apply H7.
Qed.
Lemma limit_up f f' n k s t' : limits f f' n -> s_iter s = 0 -> 1 <= k -> (1 <= n)%Z -> runs f' k s t' -> s_done t' = true ->
  exists t, runs f k s t /\ s_assign t' = s_assign t /\ (Z.of_nat k <= n)%Z /\ (s_done t = true \/ s_done t = false /\ n = Z.of_nat k).
Proof.
  intros HL Hi Hk Hn Hr Hd. destruct k as [|k]; [lia|]. apply runs_snoc in Hr. destruct Hr as (s1 & Hr & Hd1 & Hs).
  pose proof (limit_up_going _ _ _ HL _ _ _ Hr Hd1) as Hr'. pose proof (limit_iter _ _ _ HL _ _ _ Hr) as Hit.
  assert (Hkn : (Z.of_nat (S k) <= n)%Z).
  { destruct k as [|k]; [lia|]. apply runs_snoc in Hr. destruct Hr as (s2 & Hr2 & Hd2 & Hs2).
    pose proof (HL s2) as H. rewrite Hs2 in H. destruct (f s2) as [t2|]; [|tauto]. destruct H as (_ & _ & _ & _ & _ & _ & H7).
    rewrite Hd1 in H7. symmetry in H7. apply orb_false_iff in H7. destruct H7 as (H7 & _). apply Z.leb_gt in H7.
    pose proof (limit_iter _ _ _ HL _ _ _ Hr2). lia. }
  pose proof (HL s1) as H. rewrite Hs in H. destruct (f s1) as [t|] eqn:Et; [|tauto]. destruct H as (H1 & H2 & H3 & H4 & H5 & H6 & H7).
  exists t. split; [apply runs_snoc; eauto|]. split; auto. split; auto. destruct (s_done t); [left; auto | right]. split; auto.
  rewrite Hd, orb_false_r in H7. symmetry in H7. apply Z.leb_le in H7. lia.
Qed.

(* ---- layouts ---- *)
Lemma layouts_back vs ws init a st : wf_assign C vs false init -> NoDup ws ->
  update_storage_layout C init (make_layout C ws false) = Ok a ->
  as_layout st = as_layout a -> length (as_storage st) = length (as_storage a) ->
  exists b, update_storage_layout C st (as_layout init) = Ok b /\ update_storage_layout C b (make_layout C ws false) = Ok st /\
    as_layout b = as_layout init.
Proof.
  intros Hwf Nw Eu HL Hlen. pose proof Hwf as (Nv & Hv & Hs). unfold update_storage_layout in Eu at 1.
  destruct (layout_eqb (as_layout init) (make_layout C ws false)) eqn:El.
  - injection Eu as <-. exists st. unfold update_storage_layout. rewrite HL.
    assert (layout_eqb (as_layout init) (as_layout init) = true) as ->.
    { rewrite Hv. apply layout_eqb_ok; try apply make_layout_nodup; auto. apply same_layout_refl. }
    rewrite El. auto.
  - assert (Hvs : forall v, In v vs <-> In v ws).
    { destruct (set_eqb (get_variables (as_layout init)) (get_variables (make_layout C ws false))) eqn:Es.
      - assert (Hiff : forall v, In v (get_variables (as_layout init)) <-> In v (get_variables (make_layout C ws false))) by (apply set_eqb_ok; auto).
        intros v. specialize (Hiff v). rewrite Hv, !lay_vars, !order_in in Hiff by auto. exact Hiff.
      - exfalso. repeat (let x := fresh in let y := fresh in apply bind_ok in Eu; destruct Eu as (x & y & Eu)).
        rewrite ?Es in *. discriminate. }
    assert (Ha : as_layout a = make_layout C ws false).
    { repeat (let x := fresh in let y := fresh in apply bind_ok in Eu; destruct Eu as (x & y & Eu)). injection Eu as <-. auto. }
    assert (Hla : length (as_storage a) = l_dim (make_layout C ws false)).
    { destruct (update_ok C vs ws false init Hwf Nw Hvs) as (a2 & E2 & _ & _ & Hl & _). unfold update_storage_layout in E2.
      rewrite El in E2. congruence. }
    assert (Hst : wf_assign C ws false st) by (split; [auto | split; [congruence | rewrite HL, Ha; congruence]]).
    assert (El' : layout_eqb (as_layout st) (as_layout init) = false).
    { destruct (layout_eqb (as_layout st) (as_layout init)) eqn:Eq; auto. rewrite HL, Ha, Hv in Eq. rewrite Hv in El.
      apply layout_eqb_ok in Eq; try (apply make_layout_nodup; auto). apply same_layout_sym in Eq.
      apply layout_eqb_ok in Eq; try (apply make_layout_nodup; auto). congruence. }
    destruct (update_ok C ws vs false st Hst Nv) as (b & Eb & _ & _ & Hlb & _); [intros v; symmetry; auto|].
    assert (HLb : as_layout b = as_layout init).
    { rewrite <- Hv in Eb. unfold update_storage_layout in Eb. rewrite El' in Eb.
      repeat (let x := fresh in let y := fresh in apply bind_ok in Eb; destruct Eb as (x & y & Eb)). injection Eb as <-. auto. }
    assert (Hb : wf_assign C vs false b) by (split; [auto | split; [congruence | rewrite HLb, Hv; auto]]).
    destruct (update_ok C vs ws false b Hb Nw Hvs) as (st' & Est & _).
    assert (Hst' : as_layout st' = make_layout C ws false).
    { unfold update_storage_layout in Est. rewrite HLb, El in Est.
      repeat (let x := fresh in let y := fresh in apply bind_ok in Est; destruct Est as (x & y & Est)). injection Est as <-. auto. }
    exists b. rewrite Hv. split; [auto|]. split; [|congruence]. rewrite Est. f_equal.
    rewrite <- (assign_eta st'), <- (assign_eta st). rewrite Hst', HL, Ha. f_equal.
    eapply update_round_trip; eauto.
Qed.

(* ---- the three solvers together ---- *)
Lemma restart_shifts lin step x0 solve gs g n m k : restartable E lin step x0 solve gs -> iteration_blind lin -> (gs <= 0)%Z ->
  (n = m + Z.of_nat k)%Z -> shifts k (step m g) (step n g).
Proof. intros [cfg|cfg|cfg] Hb Hg Hn; [apply gn_shifts | apply lm_shifts | apply dl_shifts]; auto. Qed.
Lemma restart_limits lin step x0 solve gs g n m : restartable E lin step x0 solve gs -> (n <= m)%Z -> limits (step m g) (step n g) n.
Proof. intros [cfg|cfg|cfg] Hn; [apply gn_limits | apply lm_limits | apply dl_limits]; auto. Qed.
Lemma restart_keeps lin step x0 solve gs g n : restartable E lin step x0 solve gs -> keeps (step n g).
Proof. intros [cfg|cfg|cfg]; [apply gn_keeps | apply lm_keeps | apply dl_keeps]. Qed.
Lemma restart_inc lin step x0 solve gs g n : restartable E lin step x0 solve gs ->
  forall s s', step n g s = Ok s' -> s_iter s' = S (s_iter s) /\ ((n - 1 <= Z.of_nat (s_iter s))%Z -> s_done s' = true).
Proof. intros [cfg|cfg|cfg] s s' H; [apply gn_inc in H | apply lm_inc in H | apply dl_inc in H]; exact H. Qed.
Lemma restart_solve lin step x0 solve gs g init n fuel k s st : restartable E lin step x0 solve gs -> s_extra s = x0 ->
  runs (step n g) k s st -> forall n', solve n' (s_extra st) fuel g init = solve_with E fuel (step n') (s_extra st) g init.
Proof.
  intros [cfg|cfg|cfg] Hx Hr n'; try reflexivity.
  assert (s_extra st = n0) as ->; [|reflexivity]. revert Hx. induction Hr as [|k s s' s'' Hd Hs Hr IH]; auto. intros Hx. apply IH.
  unfold gn_step in Hs. apply bind_ok in Hs. destruct Hs as (((b & d) & a') & _ & Hs). apply bind_ok in Hs. destruct Hs as (cr & _ & Hs).
  apply bind_ok in Hs. destruct Hs as (v & _ & Hs). injection Hs as <-. auto.
Qed.

Section Resume.
Variables (fs : list (factor T)) (g : graph T) (init : assign T) (vs : list var) (lin : linear_solver (T := T)).
Variables (step : Z -> graph T -> sstate T -> result (sstate T)) (x0 : T) (solve : Z -> T -> nat -> graph T -> assign T -> option (result (assign T))) (gs : Z).
Hypothesis CO : classes_ok C.
Hypothesis Hok : forall f, In f fs -> factor_ok f.
Hypothesis Hgm : graph_make E fs = Ok g.
Hypothesis Hwf : wf_assign C vs false init.
Hypothesis HR : restartable E lin step x0 solve gs.
Variables (n m : Z) (a : assign T) (c : T) (res : list T).
Hypothesis Hn : (1 <= n)%Z.
Hypothesis Hm : (1 <= m)%Z.
Hypothesis Ea : update_storage_layout C init (g_layout g) = Ok a.
Hypothesis Ec : compute_cost E g a = Ok (c, res).
Let s0 := mkState 0 a c res false x0.

Lemma solve_loop l fuel : solve l x0 fuel g init =
  match while_loop fuel (fun s => negb (s_done s)) (step l g) s0 with
  | None => None | Some (Err e) => Some (Err e) | Some (Ok t) => Some (update_storage_layout C (s_assign t) (as_layout init)) end.
Proof.
  pose proof (restart_solve lin step x0 solve gs g init l fuel 0 s0 s0 HR eq_refl (runs_0 _ _) l) as H. cbn [s_extra] in H.
  change (s_extra s0) with x0 in H. rewrite H.
  unfold solve_with. fold C. rewrite Ea. unfold init_state. rewrite Ec. cbn [bind fst snd]. reflexivity.
Qed.

Lemma graph_ws : g_layout g = make_layout C (mentioned fs) false.
Proof. destruct (made E fs g Hok Hgm) as (Hgr & _). exact (ig_layout _ _ _ Hgr). Qed.

Lemma stops_early k st f f' : runs (step (n + m) g) k s0 st -> s_done st = true -> (Z.of_nat k <= n)%Z -> Z.to_nat n <= f -> Z.to_nat (n + m) <= f' ->
  solve n x0 f g init = solve (n + m)%Z x0 f' g init.
Proof.
  intros Hr Hd Hk Hf Hf'. rewrite !solve_loop.
  assert (H1 : 1 <= k) by (destruct k; [inversion Hr; subst; discriminate | lia]).
  assert (Hr' : runs (step n g) k s0 st) by (apply (limit_done (step (n + m)%Z g)) with (n := n); auto; eapply restart_limits; eauto; lia).
  replace f with (k + (f - k)) by lia. replace f' with (k + (f' - k)) by lia.
  rewrite (loop_from _ _ _ _ _ Hr), (loop_from _ _ _ _ _ Hr').
  destruct (f - k), (f' - k); cbn [while_loop]; rewrite Hd; auto.
Qed.

Lemma resumes st f f' f'' : iteration_blind lin -> (gs <= 0)%Z ->
  runs (step (n + m)%Z g) (Z.to_nat n) s0 st -> s_done st = false -> current E g st ->
  Z.to_nat n <= f -> Z.to_nat m <= f' -> Z.to_nat (n + m) <= f'' ->
  exists b, solve n x0 f g init = Some (Ok b) /\ (forall v, get_value C b v = get_value C (s_assign st) v) /\
    solve m (s_extra st) f' g b = solve (n + m)%Z x0 f'' g init.
Proof.
  intros Hb Hg Hr Hd Hcur Hf Hf' Hf''. pose proof graph_ws as HG. pose proof (mentioned_nodup fs) as NDm.
  destruct (limit_cut (step (n + m)%Z g) (step n g) n (Z.to_nat n) s0 st) as (t & Hrt & Hdt & Hat & Hct & Hrest & Hxt); auto; try lia.
  { eapply restart_limits; eauto; lia. }
  destruct (keeps_runs _ _ _ _ (restart_keeps _ _ _ _ _ g n HR) Hrt) as (HL & Hlen). cbn [s_assign s0] in HL, Hlen.
  pose proof Ea as Ea'. rewrite HG in Ea'.
  destruct (layouts_back vs (mentioned fs) init a (s_assign t) Hwf NDm Ea' HL Hlen) as (b & Eb & Eb' & HLb).
  exists b. split; [|split].
  - rewrite solve_loop. replace f with (Z.to_nat n + (f - Z.to_nat n)) by lia. rewrite (loop_from _ _ _ _ _ Hrt).
    destruct (f - Z.to_nat n); cbn [while_loop]; rewrite Hdt; cbn [negb]; rewrite Eb; auto.
  - intros v. rewrite <- Hat. pose proof Hwf as (Nv & Hv & Hs).
    destruct (update_ok C vs (mentioned fs) false init Hwf NDm) as (a2 & E2 & _ & Hcase & Hla & _).
    { destruct (set_eqb (get_variables (as_layout init)) (get_variables (g_layout g))) eqn:Es.
      - assert (Hiff : forall v, In v (get_variables (as_layout init)) <-> In v (get_variables (g_layout g))) by (apply set_eqb_ok; auto).
        intros w. specialize (Hiff w). rewrite Hv, HG, !lay_vars, !order_in in Hiff by auto. exact Hiff.
      - exfalso. rewrite update_err in Ea'; [discriminate|]. right; right. rewrite Hv.
        split; [apply make_layout_nodup; auto|]. split; [apply make_layout_nodup; auto|]. intros Hiff.
        rewrite <- Hv, <- HG in Hiff. assert (set_eqb (get_variables (as_layout init)) (get_variables (g_layout g)) = true).
        { apply set_eqb_ok. exact Hiff. } congruence. }
    rewrite Ea' in E2. injection E2 as <-.
    assert (Hst : exists ws, wf_assign C ws false (s_assign t)).
    { destruct Hcase as [->|HLa].
      - exists vs. split; [auto|]. rewrite HL, Hlen, Hv. split; auto. rewrite Hs, Hv; auto.
      - exists (mentioned fs). split; [auto|]. rewrite HL, Hlen, HLa. split; auto. }
    destruct Hst as (ws & Hws). pose proof Hws as (Nw & Hw & _).
    rewrite Hv in Eb. destruct (set_eqb (get_variables (as_layout (s_assign t))) (get_variables (make_layout C vs false))) eqn:Es.
    + assert (Hiff : forall v, In v (get_variables (as_layout (s_assign t))) <-> In v (get_variables (make_layout C vs false))) by (apply set_eqb_ok; auto).
      destruct (update_values C ws vs (s_assign t) CO Hws Nv) as (b2 & E2 & _ & Hval).
      { intros w. specialize (Hiff w). rewrite Hw, !lay_vars, !order_in in Hiff by auto. exact Hiff. }
      rewrite Eb in E2. injection E2 as <-. auto.
    + exfalso. rewrite update_err in Eb; [discriminate|]. right; right. rewrite Hw.
      split; [apply make_layout_nodup; auto|]. split; [apply make_layout_nodup; auto|]. intros Hiff. rewrite <- Hw in Hiff.
      assert (set_eqb (get_variables (as_layout (s_assign t))) (get_variables (make_layout C vs false)) = true) by (apply set_eqb_ok; exact Hiff).
      congruence.
  - rewrite <- HG in Eb'. rewrite (restart_solve lin step x0 solve gs g b (n + m)%Z f' (Z.to_nat n) s0 st HR eq_refl Hr m).
    rewrite solve_loop. unfold solve_with. fold C. rewrite Eb'. unfold init_state. rewrite Hat.
    unfold current in Hcur. rewrite Hcur. cbn [bind fst snd].
    set (s1 := mkState 0 (s_assign st) (s_cost st) (s_res st) false (s_extra st)).
    assert (Hl : later (Z.to_nat n) s1 st).
    { repeat split; auto. cbn [s_iter s1]. clear - Hr HR.
      assert (G : forall k s t, runs (step (n + m)%Z g) k s t -> s_iter t = s_iter s + k).
      { intros k s t H. induction H as [|k s s' s'' Hd Hs Hr' IH]; [lia|]. apply (restart_inc lin step x0 solve gs g _ HR) in Hs. lia. }
      rewrite (G _ _ _ Hr). reflexivity. }
    pose proof (restart_shifts lin step x0 solve gs g (n + m)%Z m (Z.to_nat n) HR Hb Hg ltac:(lia)) as Hsh.
    pose proof (loop_shift _ _ _ Hsh f' s1 st Hl) as Hloop.
    destruct (loop_stops_1 (step m g) m (restart_inc _ _ _ _ _ _ _ HR) f' s1) as (r & Er & _); auto; [unfold iteration_cap; lia|].
    rewrite Er in Hloop |- *.
    destruct (loop_stops_1 (step (n + m)%Z g) (n + m)%Z (restart_inc _ _ _ _ _ _ _ HR) f'' s0) as (r2 & Er2 & _); auto; [unfold iteration_cap; lia|].
    destruct (while_loop f' (fun s => negb (s_done s)) (step (n + m)%Z g) st) as [r3|] eqn:Er3; [|destruct r; tauto].
    assert (r3 = r2).
    { eapply loop_fuel; [|exact Er2]. rewrite (loop_from _ _ _ _ f' Hr). exact Er3. }
    subst r3. rewrite Er2. rewrite HLb. destruct r as [t1|e], r2 as [t2|e2]; try tauto; [|congruence].
    destruct Hloop as (_ & Hlast & _). congruence.
Qed.
End Resume.

(* Gauss-Newton never rejects, so every run can be split *)
Lemma gn_splits fs g init vs lin cfg n m f f' f'' b : classes_ok C -> (forall h, In h fs -> factor_ok h) -> graph_make E fs = Ok g ->
  wf_assign C vs false init -> iteration_blind lin -> (gradient_start cfg <= 0)%Z -> (1 <= n)%Z -> (1 <= m)%Z ->
  Z.to_nat n <= f -> Z.to_nat m <= f' -> Z.to_nat (n + m) <= f'' ->
  gn_solve E f (term_with n cfg) lin g init = Some (Ok b) ->
  gn_solve E f'' (term_with (n + m) cfg) lin g init = Some (Ok b) \/
  gn_solve E f'' (term_with (n + m) cfg) lin g init = gn_solve E f' (term_with m cfg) lin g b.
Proof.
  intros CO Hok Hg Hwf Hb Hgs Hn Hm Hf Hf' Hf'' H. pose proof (restart_gn E lin cfg) as HR. pose proof H as H0.
  unfold gn_solve, solve_with in H. fold C in H. destruct (update_storage_layout C init (g_layout g)) as [a|] eqn:Ea; [|discriminate].
  unfold init_state in H. destruct (compute_cost E g a) as [[c res]|] eqn:Ec; cbn [bind fst snd] in H; [|discriminate].
  destruct (while_loop f (fun s => negb (s_done s)) (gn_step E (term_with n cfg) lin g) (mkState 0 a c res false n0)) as [[t'|]|] eqn:Ew; try discriminate.
  destruct (while_runs _ _ _ _ Ew) as (k & _ & Hr & Hd).
  assert (Hk : 1 <= k) by (destruct k; [inversion Hr; subst; discriminate | lia]).
  destruct (limit_up (gn_step E (term_with (n + m) cfg) lin g) (gn_step E (term_with n cfg) lin g) n k (mkState 0 a c res false n0) t') as (t & Hrt & Hat & Hkn & Hcase); auto.
  { apply gn_limits. lia. }
  destruct Hcase as [Hdt|[Hdt Hnk]].
  - left. rewrite <- H0. symmetry.
    exact (stops_early g init lin _ _ _ _ HR n m a c res Hn Hm Ea Ec k t f f'' Hrt Hdt Hkn Hf Hf'').
  - right. assert (Hc : current E g t).
    { refine (runs_ind_inv _ (current E g) _ k _ _ Hrt Ec). intros s s' _ Hs. apply gn_tr in Hs. tauto. }
    assert (Hrt' : runs (gn_step E (term_with (n + m) cfg) lin g) (Z.to_nat n) (mkState 0 a c res false n0) t).
    { rewrite Hnk, Nat2Z.id. rewrite Hnk in Hrt. exact Hrt. }
    destruct (resumes fs g init vs lin _ _ _ _ CO Hok Hg Hwf HR n m a c res Hn Hm Ea Ec t f f' f'' Hb Hgs Hrt' Hdt Hc Hf Hf' Hf'') as (b' & Eb & _ & Hfin).
    cbn beta in Eb, Hfin. rewrite H0 in Eb. injection Eb as <-. symmetry. exact Hfin.
Qed.
End AnyNum.
