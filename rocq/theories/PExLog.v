(* What the solvers print: bundled statements and concrete instances. *)
From Coq Require Import List Arith Bool ZArith Lia.
From Verif Require Import Num NumF32 Py Arr MLayout MAssign MNoise MSparse MFactor MGraph MLinear MSolver MLog SpecLayout SpecTree SpecAssign SpecGraph SpecSolver SpecLog.
From Verif Require Import PBase PLayout PAssign PAssign2 PGraph PGraph2 PGraph4 PExGraph PSolver PSolver2 PLog PExAssign PExSolver Ex ExG ExS.
Import ListNotations.

Lemma transparent : forall (T : Type) (N : Num T) (E : env T) verbose fuel lin g init,
  (forall cfg, result_of (gn_logged E verbose fuel cfg lin g init) = gn_solve E fuel cfg lin g init) /\
  (forall cfg, result_of (lm_logged E verbose fuel cfg lin g init) = lm_solve E fuel cfg lin g init) /\
  (forall cfg, result_of (dl_logged E verbose fuel cfg lin g init) = dl_solve E fuel cfg lin g init) /\
  (forall unroll it, result_of (fixed_logged E verbose fuel unroll it lin g init) = fixed_solve E fuel unroll it lin g init).
Proof.
  intros T N E verbose fuel lin g init.
  assert (H : forall show step extra, result_of (solve_logged E verbose fuel show step extra g init) = solve_with E fuel step extra g init).
  { intros show step extra. pose proof (solve_log E verbose fuel show step extra g init) as H.
    destruct (solve_with E fuel step extra g init) as [[a'|]|]; try (rewrite H; reflexivity).
    destruct H as (a & c & res & k & st & _ & _ & _ & _ & _ & _ & ->). reflexivity. }
  split; [intros; apply H|]. split; [intros; apply H|]. split; [intros; apply H|]. intros unroll it.
  pose proof (fixed_log E verbose fuel unroll it lin g init) as Hf. destruct (fixed_solve E fuel unroll it lin g init) as [[a'|]|]; try (rewrite Hf; reflexivity).
  destruct Hf as (c & res & k & st & _ & _ & _ & _ & ->). reflexivity.
Qed.

Lemma silent : forall (T : Type) (N : Num T) (E : env T) verbose fuel lin g init r ms, verbose = false \/ (exists e, r = Err e) ->
  (forall cfg, gn_logged E verbose fuel cfg lin g init = Some (r, ms) -> ms = []) /\
  (forall cfg, lm_logged E verbose fuel cfg lin g init = Some (r, ms) -> ms = []) /\
  (forall cfg, dl_logged E verbose fuel cfg lin g init = Some (r, ms) -> ms = []) /\
  (forall unroll it, fixed_logged E verbose fuel unroll it lin g init = Some (r, ms) -> ms = []).
Proof.
  intros T N E verbose fuel lin g init r ms Hv.
  assert (H : forall show step extra, solve_logged E verbose fuel show step extra g init = Some (r, ms) -> ms = []).
  { intros show step extra H. pose proof (solve_log E verbose fuel show step extra g init) as Hl.
    destruct (solve_with E fuel step extra g init) as [[a'|]|]; [|congruence|congruence].
    destruct Hl as (a & c & res & k & st & _ & _ & _ & _ & _ & _ & Hl). rewrite Hl in H. injection H as <- <-.
    destruct Hv as [->|(e & Hv)]; [|discriminate]. rewrite say_none. reflexivity. }
  split; [intros cfg; apply H|]. split; [intros cfg; apply H|]. split; [intros cfg; apply H|]. intros unroll it Hf.
  pose proof (fixed_log E verbose fuel unroll it lin g init) as Hl. destruct (fixed_solve E fuel unroll it lin g init) as [[a'|]|]; [|congruence|congruence].
  destruct Hl as (c & res & k & st & _ & _ & _ & _ & Hl). rewrite Hl in Hf. injection Hf as <- <-.
  destruct Hv as [->|(e & Hv)]; [|discriminate]. rewrite say_none. reflexivity.
Qed.

Section Solvers.
Context {T : Type} {N : Num T}.
Variable E : env T.
Variables (fuel : nat) (lin : linear_solver (T := T)) (g : graph T) (init a' : assign T) (ms : list (message T)).
Lemma gn_lines cfg : gn_logged E true fuel cfg lin g init = Some (Ok a', ms) ->
  exists a c res k st, update_storage_layout (e_cls E) init (g_layout g) = Ok a /\ compute_cost E g a = Ok (c, res) /\
    trail (gn_step E cfg lin g) k (mkState 0 a c res false n0) st (st k) /\ 1 <= k <= iteration_cap (max_iterations cfg) /\
    (forall i, i <= k -> s_done (st i) = (k <=? i) /\ cost_current E g (st i)) /\
    update_storage_layout (e_cls E) (s_assign (st k)) (as_layout init) = Ok a' /\
    ms = report (Some (max_iterations cfg)) false k st /\
    (forall fs vs, classes_ok (e_cls E) -> (forall f, In f fs -> factor_ok f) -> graph_make E fs = Ok g -> wf_assign (e_cls E) vs false init ->
       exists r, compute_cost E g a' = Ok (s_cost (st k), r)).
Proof.
  apply (solve_report E fuel (gn_show cfg) (gn_step E cfg lin) n0 (max_iterations cfg) false g init); auto.
  - apply gn_keeps.
  - intros; eapply gn_inc; eauto.
  - intros s k s' _ Hc Hr. exists (s_res s'). eapply (proj1 (tracked_cost E g lin s Hc)); eauto.
Qed.
Lemma lm_lines cfg : lm_logged E true fuel cfg lin g init = Some (Ok a', ms) ->
  exists a c res k st, update_storage_layout (e_cls E) init (g_layout g) = Ok a /\ compute_cost E g a = Ok (c, res) /\
    trail (lm_step E cfg lin g) k (mkState 0 a c res false (lambda_initial cfg)) st (st k) /\ 1 <= k <= iteration_cap (max_iterations (lm_term cfg)) /\
    (forall i, i <= k -> s_done (st i) = (k <=? i) /\ cost_current E g (st i)) /\
    update_storage_layout (e_cls E) (s_assign (st k)) (as_layout init) = Ok a' /\
    ms = report (Some (max_iterations (lm_term cfg))) true k st /\
    (forall fs vs, classes_ok (e_cls E) -> (forall f, In f fs -> factor_ok f) -> graph_make E fs = Ok g -> wf_assign (e_cls E) vs false init ->
       exists r, compute_cost E g a' = Ok (s_cost (st k), r)).
Proof.
  apply (solve_report E fuel (extra_show (lm_term cfg)) (lm_step E cfg lin) (lambda_initial cfg) (max_iterations (lm_term cfg)) true g init); auto.
  - apply lm_keeps.
  - intros; eapply lm_inc; eauto.
  - intros s k s' _ Hc Hr. eapply (proj1 (proj2 (tracked_cost E g lin s Hc))); eauto.
Qed.
Lemma dl_lines cfg : dl_logged E true fuel cfg lin g init = Some (Ok a', ms) ->
  exists a c res k st, update_storage_layout (e_cls E) init (g_layout g) = Ok a /\ compute_cost E g a = Ok (c, res) /\
    trail (dl_step E cfg lin g) k (mkState 0 a c res false (radius_initial cfg)) st (st k) /\ 1 <= k <= iteration_cap (max_iterations (dl_term cfg)) /\
    (forall i, i <= k -> s_done (st i) = (k <=? i) /\ cost_current E g (st i)) /\
    update_storage_layout (e_cls E) (s_assign (st k)) (as_layout init) = Ok a' /\
    ms = report (Some (max_iterations (dl_term cfg))) true k st /\
    (forall fs vs, classes_ok (e_cls E) -> (forall f, In f fs -> factor_ok f) -> graph_make E fs = Ok g -> wf_assign (e_cls E) vs false init ->
       exists r, compute_cost E g a' = Ok (s_cost (st k), r)).
Proof.
  apply (solve_report E fuel (extra_show (dl_term cfg)) (dl_step E cfg lin) (radius_initial cfg) (max_iterations (dl_term cfg)) true g init); auto.
  - apply dl_keeps.
  - intros; eapply dl_inc; eauto.
  - intros s k s' _ Hc Hr. eapply (proj2 (proj2 (tracked_cost E g lin s Hc))); eauto.
Qed.
End Solvers.

Ltac drop H := destruct H as (a & c & res & k & st & Ha & Hc & Ht & Hk & Hi & Hu & Hm & _); exists a, c, res, k, st; repeat (split; [assumption|]); assumption.
Lemma report_lines : forall (T : Type) (N : Num T) (E : env T) fuel lin g init a' ms,
  (forall cfg, gn_logged E true fuel cfg lin g init = Some (Ok a', ms) -> reported E (gn_step E cfg lin) n0 (max_iterations cfg) false g init a' ms) /\
  (forall cfg, lm_logged E true fuel cfg lin g init = Some (Ok a', ms) -> reported E (lm_step E cfg lin) (lambda_initial cfg) (max_iterations (lm_term cfg)) true g init a' ms) /\
  (forall cfg, dl_logged E true fuel cfg lin g init = Some (Ok a', ms) -> reported E (dl_step E cfg lin) (radius_initial cfg) (max_iterations (dl_term cfg)) true g init a' ms).
Proof.
  intros T N E fuel lin g init a' ms. split; [|split]; intros cfg H.
  - apply gn_lines in H. drop H.
  - apply lm_lines in H. drop H.
  - apply dl_lines in H. drop H.
Qed.
(* the fixed-iteration solver *)
Lemma fixed_lines : forall (T : Type) (N : Num T) (E : env T) fuel unroll it lin g init a' ms,
  fixed_logged E true fuel unroll it lin g init = Some (Ok a', ms) ->
  exists c res k st, compute_cost E g init = Ok (c, res) /\
    trail (fixed_step E it lin g) k (mkState 0 init c res false n0) st (st k) /\ k = (if unroll then Z.to_nat it else Nat.max 1 (Z.to_nat it)) /\
    (forall i, i <= k -> current E g (st i)) /\ a' = s_assign (st k) /\ ms = report None false k st.
Proof.
  intros T N E fuel unroll it lin g init a' ms H. pose proof (fixed_log E true fuel unroll it lin g init) as Hl.
  destruct (fixed_solve E fuel unroll it lin g init) as [[a1|e]|]; try (rewrite Hl in H; discriminate).
  destruct Hl as (c & res & k & st & Hc & Ht & Hk & Ha & Hm). rewrite Hm in H. injection H as <- <-.
  exists c, res, k, st. split; auto. split; [exact Ht|]. split; [destruct unroll; auto|]. split.
  - destruct Ht as (H0 & _ & Hst). intros [|i] Hi; [rewrite H0; exact Hc|]. eapply fixed_inc. apply Hst. lia.
  - split; auto. apply (report_of fixed_show None false (fixed_step E it lin g) k (mkState 0 init c res false n0)); auto. intros; eapply fixed_inc; eauto.
Qed.
(* the last line carries the cost of what is returned *)
Lemma last_of_report (T : Type) max_i more k (st : nat -> sstate T) : exists ms0, report max_i more k st = ms0 ++ [Terminated k (s_cost (st k))] /\ length ms0 = k.
Proof. unfold report. eexists. split; [reflexivity|]. rewrite map_length, seq_length. auto. Qed.
Lemma last_line : forall (T : Type) (N : Num T) (E : env T) fs g vs init fuel lin a' ms, classes_ok (e_cls E) -> (forall f, In f fs -> factor_ok f) ->
  graph_make E fs = Ok g -> wf_assign (e_cls E) vs false init ->
  (exists cfg, gn_logged E true fuel cfg lin g init = Some (Ok a', ms)) \/
  (exists cfg, lm_logged E true fuel cfg lin g init = Some (Ok a', ms)) \/
  (exists cfg, dl_logged E true fuel cfg lin g init = Some (Ok a', ms)) \/
  (exists unroll it, fixed_logged E true fuel unroll it lin g init = Some (Ok a', ms)) ->
  exists ms0 c r, ms = ms0 ++ [Terminated (length ms0) c] /\ compute_cost E g a' = Ok (c, r).
Proof.
  intros T N E fs g vs init fuel lin a' ms CO Hok Hg Hwf H.
  assert (Hfin : forall max_i more k (st : nat -> sstate T), ms = report max_i more k st -> (exists r, compute_cost E g a' = Ok (s_cost (st k), r)) ->
    exists ms0 c r, ms = ms0 ++ [Terminated (length ms0) c] /\ compute_cost E g a' = Ok (c, r)).
  { intros max_i more k st -> (r & Hr). destruct (last_of_report T max_i more k st) as (ms0 & -> & Hl). exists ms0, (s_cost (st k)), r. rewrite Hl. auto. }
  destruct H as [(cfg & H)|[(cfg & H)|[(cfg & H)|(unroll & it & H)]]].
  - apply gn_lines in H. destruct H as (a & c & res & k & st & _ & _ & _ & _ & _ & _ & Hm & Hr). apply (Hfin _ _ _ _ Hm). eapply Hr; eauto.
  - apply lm_lines in H. destruct H as (a & c & res & k & st & _ & _ & _ & _ & _ & _ & Hm & Hr). apply (Hfin _ _ _ _ Hm). eapply Hr; eauto.
  - apply dl_lines in H. destruct H as (a & c & res & k & st & _ & _ & _ & _ & _ & _ & Hm & Hr). apply (Hfin _ _ _ _ Hm). eapply Hr; eauto.
  - apply fixed_lines in H. destruct H as (c & res & k & st & _ & _ & _ & Hcur & -> & Hm). apply (Hfin _ _ _ _ Hm). exists (s_res (st k)). apply Hcur. auto.
Qed.

#[local] Existing Instance NumF32.
(* the printed costs of Levenberg-Marquardt may rise, from below 5 to above 10^17, and what
   comes back then is worse than the initial value *)
Lemma printed_rises : exists (E : env f32) fs g init a' l1 l2 l3 rest, graph_make E fs = Ok g /\
  lm_logged E true 3 (lm_default 3) cholmod_solve g init = Some (Ok a', l1 :: l2 :: l3 :: rest) /\
  nltb (line_cost l1) (lit 5) = true /\ line_cost l2 = line_cost l1 /\ nltb (lit 100000000000000000) (line_cost l3) = true.
Proof.
  exists exSE, (sq 2), (gsq 2), (scalars [vx] [nlit 1 100]). do 5 eexists. split; [vm_compute; reflexivity|]. split; [vm_compute; reflexivity|].
  split; [vm_compute; reflexivity|]. split; vm_compute; reflexivity.
Qed.

(* a verbose run of each solver from an assignment whose layout is not the graph's *)
Lemma ex_logs : exists a1 a2 a3 a4 m1 m2 m3 m4 x y z, classes_ok (e_cls (exSE (T := f32))) /\ (forall f, In f (two (T := f32)) -> factor_ok f) /\ graph_make exSE two = Ok gtwo /\
  wf_assign (e_cls exSE) [vy; vx] false swapped /\ as_layout swapped <> g_layout gtwo /\
  gn_logged exSE true 9 (term_default 9) cholmod_solve gtwo swapped = Some (Ok a1, m1) /\ m1 = [Iteration 0 (Some 9%Z) (lit 40) None; Iteration 1 (Some 9%Z) x None; Iteration 2 (Some 9%Z) n0 None; Terminated 3 n0] /\
  lm_logged exSE true 3 (lm_default 3) cholmod_solve gtwo swapped = Some (Ok a2, m2) /\ length m2 = 4 /\
  dl_logged exSE true 9 (dl_default 9) cholmod_solve gtwo swapped = Some (Ok a3, m3) /\ nth 1 m3 (Terminated 0 n0) <> nth 0 m3 (Terminated 0 n0) /\
  fixed_logged exSE true 9 false 2 cholmod_solve gtwo swapped = Some (Ok a4, m4) /\ m4 = [Iteration 0 None (lit 40) None; Iteration 1 None y None; Terminated 2 z] /\
  gn_logged exSE false 9 (term_default 9) cholmod_solve gtwo swapped = Some (Ok a1, []).
Proof.
  do 11 eexists. split; [exact exC_ok|]. split; [exact two_ok|]. split; [vm_compute; reflexivity|]. split; [exact swapped_wf|]. split; [vm_compute; discriminate|].
  split; [vm_compute; reflexivity|]. split; [vm_compute; reflexivity|]. split; [vm_compute; reflexivity|]. split; [vm_compute; reflexivity|].
  split; [vm_compute; reflexivity|]. split; [vm_compute; discriminate|]. split; [vm_compute; reflexivity|]. split; [vm_compute; reflexivity|]. vm_compute. reflexivity.
Qed.
(* an assignment without a value for one of the variables: an exception, and no output *)
Lemma ex_raises : gn_logged exSE true 9 (term_default 9) cholmod_solve gtwo (scalars [vx] [lit 1]) = Some (Err AssertionError, []).
Proof. vm_compute. reflexivity. Qed.

(* Dogleg on x^2 = 2 from 1: the first step is accepted and the second starts from a current residual *)
Lemma ex_until : exists s s1, init_state exSE (gsq 2) (scalars [vx] [lit 1]) n1 = Ok s /\
  dl_step exSE (dl_default 9) cholmod_solve (gsq 2) s = Ok s1 /\ s_done s1 = false /\ s_assign s1 <> s_assign s /\ current exSE (gsq 2) s1.
Proof. do 2 eexists. split; [vm_compute; reflexivity|]. split; [vm_compute; reflexivity|]. split; [vm_compute; reflexivity|]. split; [vm_compute; discriminate|]. vm_compute. reflexivity. Qed.
