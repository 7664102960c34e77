(* solve() does not raise on well-formed problems. *)
From Coq Require Import List Arith Bool ZArith Lia Permutation.
From Verif Require Import Num Py Arr MLayout MAssign MNoise MSparse MFactor MGraph MLinear MSolver SpecLayout SpecTree SpecAssign SpecGraph SpecSparse SpecSolver SpecOrder SpecInv.
From Verif Require Import PBase PLayout PTree PAssign PAssign2 PAssign3 PStack PGraph PGraph2 PGraph3 PGraph4 PVec PSparse PCg PJac PLayout2 PHold PExGraph PSolver PSolver2 PInv.
Import ListNotations.

Section Lin.
Context {T : Type} {N : Num T}.

Lemma matmul_ok (A : coo T) x : coo_ok A -> length x = snd (m_shape A) -> exists y, matmul A x = Ok y /\ length y = fst (m_shape A).
Proof.
  intros (H1 & H2 & _) Hx. unfold matmul. rewrite Hx, Nat.eqb_refl. cbn [assert_ bind]. rewrite H1, H2, Nat.eqb_refl. cbn [andb].
  eexists. split; [reflexivity|]. rewrite scatter_length. unfold vzero. apply repeat_length.
Qed.
Lemma transpose_ok (A : coo T) : coo_ok A -> coo_ok (transpose A).
Proof. unfold coo_ok, transpose. cbn. tauto. Qed.

Lemma cholmod_total : total_solver (cholmod_solve (T := T)).
Proof.
  intros A b l i HA Hb. unfold cholmod_solve. rewrite scipy_rows. cbn [transpose m_shape fst]. rewrite Hb, Nat.eqb_refl.
  eexists. split; [reflexivity|]. destruct (gram_shape (scipy_dense (as_scipy (transpose A))) (nadd l (nlit 1 100000))) as (H1 & H2).
  rewrite scipy_rows in H1, H2. cbn [transpose m_shape fst] in H1, H2. apply elim_length; auto.
Qed.

Lemma cg_loop_ok n op M atol2 : (forall p : list T, length p = n -> exists q, op p = Ok q /\ length q = n) ->
  (forall r : list T, length r = n -> length (M r) = n) -> forall k x r gamma p,
  length x = n -> length r = n -> length p = n -> exists y left, cg_loop k op M atol2 x r gamma p = Ok (y, left).
Proof.
  intros Hop HM. induction k as [|k IH]; intros x r gamma p Hx Hr Hp; cbn [cg_loop]; [eauto|].
  destruct (nltb _ _); [|eauto]. destruct (Hop p Hp) as (Ap & -> & HA). cbn [bind].
  assert (Hr' : length (vsub r (vscale (ndiv gamma (vdot p Ap)) Ap)) = n) by (unfold vsub, vscale; rewrite zipw_length, map_length; lia).
  apply IH; auto.
  - unfold vadd, vscale. rewrite zipw_length, map_length. lia.
  - unfold vadd, vscale. rewrite zipw_length, map_length, HM by auto. lia.
Qed.
Lemma cg_total tol : total_solver (cg_solve (T := T) tol).
Proof.
  intros A b l i HA Hb.
  assert (Hop : forall p, length p = length b -> exists q, ata_function A l (length b) p = Ok q /\ length q = length b).
  { intros p Hp. unfold ata_function. destruct (matmul_ok A p HA) as (Ax & -> & HAx); [lia|]. cbn [bind].
    destruct (matmul_ok (transpose A) Ax (transpose_ok A HA)) as (ATAx & -> & Hl); [exact HAx|]. cbn [bind]. cbn in Hl.
    eexists. split; [reflexivity|]. unfold vadd, vmul, vscale. rewrite !zipw_length, map_length, diag_length. lia. }
  assert (HM : forall r : list T, length r = length b -> length (jacobi A (length b) r) = length b).
  { intros r Hr. unfold jacobi. rewrite zipw_length, diag_length. lia. }
  assert (Hz : length (@vzero T N (length b)) = length b) by apply repeat_length.
  destruct (Hop _ Hz) as (Ax0 & E0 & H0).
  assert (Hr0 : length (vsub b Ax0) = length b) by (unfold vsub; rewrite zipw_length; lia).
  assert (He : exists x, cg_solve tol A b l i = Ok x).
  { unfold cg_solve, cg_run, cg. rewrite E0. cbn [bind].
    destruct (cg_loop_ok (length b) _ (jacobi A (length b)) (nmax (nmul (nmul (tol i) (tol i)) (vdot b b)) (nmul n0 n0)) Hop HM
      (length b) (vzero (length b)) (vsub b Ax0) (vdot (vsub b Ax0) (jacobi A (length b) (vsub b Ax0))) (jacobi A (length b) (vsub b Ax0)) Hz Hr0 (HM _ Hr0)) as (y & left & ->).
    cbn [bind fst]. eauto. }
  destruct He as (x & Ex). exists x. split; auto. eapply cg_sized; eauto.
Qed.
Lemma dogleg_length n (sd Asd gn : list T) radius : length sd = n -> length gn = n -> length (dogleg_step_of sd Asd gn radius) = n.
Proof.
  intros H1 H2. unfold dogleg_step_of. repeat match goal with |- context [if ?b then _ else _] => destruct b end; auto;
    unfold vadd, vsub, vscale; rewrite ?zipw_length, ?map_length, ?zipw_length, ?map_length; lia.
Qed.
End Lin.

Section Total.
Context {T : Type} {N : Num T}.
Variable E : env T.
Let C := e_cls E.
Hypothesis CO : classes_ok C.
Variable fs : list (factor T).
Variable g : graph T.
Hypothesis Hok : forall f, In f fs -> factor_ok f.
Hypothesis Hg : is_graph E fs g.
Hypothesis Hne : fs <> [].
Hypothesis Hrd : total residual_dim fs <> 0.
Hypothesis Hpd : l_dim (graph_layout E fs false) <> 0.
Hypothesis Hws : well_shaped E fs.
Variable lin : linear_solver (T := T).
Hypothesis Hlin : total_solver lin.

Let n := l_dim (graph_layout E fs true).
Let m := total residual_dim fs.

(* an assignment in the graph's storage order *)
Definition held (a : assign T) : Prop := exists val, holds E fs a val.
Definition ready (s : sstate T) : Prop := held (s_assign s) /\ length (s_res s) = m.

Lemma cost_total a : held a -> exists c r, compute_cost E g a = Ok (c, r) /\ length r = m.
Proof.
  intros (val & Ha). pose proof (holds_legal E fs CO a val Ha) as Hl.
  destruct (residual_vector_ok E fs g a val Hok Hne Hg (holds_assigns E fs a val Ha)) as (ws & Hw & Hv).
  { intros f Hf. apply (ws_residual E fs Hws); auto. }
  unfold compute_cost. rewrite Hv. cbn [bind]. eexists _, _. split; [reflexivity|].
  unfold compute_whitened_residual_vector in Hv. apply bind_ok in Hv. destruct Hv as (? & _ & Hv). apply bind_ok in Hv. destruct Hv as (? & _ & Hv).
  apply bind_ok in Hv. destruct Hv as (r & _ & Hv). apply bind_ok in Hv. destruct Hv as ([] & Hl' & Hv). injection Hv as <-.
  unfold assert_ in Hl'. destruct (Nat.eqb (length r) (g_residual_dim g)) eqn:El; [|discriminate]. apply Nat.eqb_eq in El.
  rewrite El. apply (ig_dim _ _ _ Hg).
Qed.
Lemma jacobian_total s : ready s -> exists A, compute_whitened_residual_jacobian E g (s_assign s) (s_res s) = Ok A /\ coo_ok A /\ m_shape A = (m, n).
Proof.
  intros ((val & Ha) & Hr). pose proof (holds_legal E fs CO _ val Ha) as Hl.
  destruct (jacobian_coo_ok E fs g (s_assign s) (s_res s) val Hok) as (A & EA & HA & Hs & _); auto.
  - intros f Hf. apply (ws_jacobian E fs Hws); auto.
  - apply (holds_assigns E fs _ val Ha).
  - exists A. auto.
Qed.
Lemma retract_total a x : held a -> length x = n -> exists a', manifold_retract C a (mkAssign x (g_local_layout g)) = Ok a' /\ held a'.
Proof.
  intros (val & Ha) Hx. rewrite (ig_local _ _ _ Hg).
  destruct (retract_holds E fs CO _ a val x (ws_preserved E fs Hws) Ha (fun _ _ => I) Hx) as (a' & val' & Ea & _ & Hh & _).
  exists a'. split; auto. exists val'. auto.
Qed.
Lemma convergence_total cfg s c x b : ready s -> length b = n -> exists conv, check_convergence E cfg s c (mkAssign x (g_local_layout g)) b = Ok conv.
Proof.
  intros (Ha & _) Hb. unfold check_convergence, converged_gradient. cbn [as_layout]. fold C.
  destruct (retract_total (s_assign s) b Ha Hb) as (a' & Er & Ha'). rewrite Er. cbn [bind].
  destruct Ha as (val & Ha). destruct Ha' as (val' & Ha'). apply (holds_storage E fs CO) in Ha, Ha'. destruct Ha as (H1 & _), Ha' as (H2 & _).
  destruct (vsub (as_storage (s_assign s)) (as_storage a')) as [|y l] eqn:Ev.
  - exfalso. apply (f_equal (@length _)) in Ev. unfold vsub in Ev. rewrite zipw_length in Ev. cbn in Ev. lia.
  - cbn [bind]. eauto.
Qed.
Lemma update_total s : ready s -> exists b d a', gn_update E lin g s = Ok (b, mkAssign d (g_local_layout g), a') /\ length b = n /\ held a'.
Proof.
  intros Hs. destruct (jacobian_total s Hs) as (A & EA & HA & Hsh). unfold gn_update. rewrite EA. cbn [bind].
  destruct (matmul_ok (transpose A) (s_res s) (transpose_ok A HA)) as (b & -> & Hb); [cbn; rewrite Hsh; apply Hs|]. cbn [bind].
  cbn in Hb. rewrite Hsh in Hb. cbn in Hb.
  assert (Hb' : length (vneg b) = n) by (unfold vneg; rewrite map_length; auto).
  destruct (Hlin A (vneg b) n0 (s_iter s) HA) as (x & -> & Hx); [rewrite Hsh; auto|]. cbn [bind]. rewrite Hsh in Hx. cbn in Hx.
  destruct (retract_total (s_assign s) x (proj1 Hs) Hx) as (a' & Er & Ha'). fold C. rewrite Er. cbn [bind].
  exists (vneg b), x, a'. auto.
Qed.
Lemma gn_total cfg s : ready s -> exists s', gn_step E cfg lin g s = Ok s' /\ ready s'.
Proof.
  intros Hs. destruct (update_total s Hs) as (b & d & a' & Eu & Hb & Ha'). unfold gn_step. rewrite Eu. cbn [bind].
  destruct (cost_total a' Ha') as (c & r & -> & Hr). cbn [bind fst snd].
  destruct (convergence_total cfg s c d b Hs Hb) as (conv & ->). cbn [bind]. eexists. split; [reflexivity|]. split; auto.
Qed.
Lemma fixed_total it s : ready s -> exists s', fixed_step E it lin g s = Ok s' /\ ready s'.
Proof.
  intros Hs. destruct (update_total s Hs) as (b & d & a' & Eu & Hb & Ha'). unfold fixed_step. rewrite Eu. cbn [bind].
  destruct (cost_total a' Ha') as (c & r & -> & Hr). cbn [bind fst snd]. eexists. split; [reflexivity|]. split; auto.
Qed.
Lemma quality_total s A c x : ready s -> coo_ok A -> m_shape A = (m, n) -> length x = n -> exists q, step_quality A c s x = Ok q.
Proof.
  intros Hs HA Hsh Hx. unfold step_quality. destruct (matmul_ok A x HA) as (Ax & -> & _); [rewrite Hsh; auto|]. cbn [bind]. eauto.
Qed.
Lemma accept_held (acc : bool) s prop x : held (s_assign s) -> held prop -> manifold_retract C (s_assign s) x = Ok prop ->
  held (mkAssign (if acc then as_storage prop else as_storage (s_assign s)) (as_layout (s_assign s))).
Proof.
  intros Hs Hp Er. destruct acc.
  - apply retract_layout in Er. rewrite <- Er, assign_eta. auto.
  - rewrite assign_eta. auto.
Qed.
Lemma lm_total cfg s : ready s -> exists s', lm_step E cfg lin g s = Ok s' /\ ready s'.
Proof.
  intros Hs. destruct (jacobian_total s Hs) as (A & EA & HA & Hsh). unfold lm_step. rewrite EA. cbn [bind].
  destruct (matmul_ok (transpose A) (vneg (s_res s)) (transpose_ok A HA)) as (b & -> & Hb); [cbn; rewrite Hsh; unfold vneg; rewrite map_length; apply Hs|]. cbn [bind].
  cbn in Hb. rewrite Hsh in Hb. cbn in Hb.
  destruct (Hlin A b (s_extra s) (s_iter s) HA) as (x & -> & Hx); [rewrite Hsh; auto|]. cbn [bind]. rewrite Hsh in Hx. cbn in Hx.
  destruct (retract_total (s_assign s) x (proj1 Hs) Hx) as (a' & Er & Ha'). fold C. rewrite Er. cbn [bind].
  destruct (cost_total a' Ha') as (c & r & -> & Hr). cbn [bind fst snd].
  destruct (quality_total s A c x Hs HA Hsh Hx) as (q & ->). cbn [bind].
  destruct (convergence_total (lm_term cfg) s c x b Hs Hb) as (conv & ->). cbn [bind]. eexists. split; [reflexivity|]. split; auto.
  cbn [s_assign]. eapply accept_held; eauto. apply Hs.
Qed.
Lemma dl_total cfg s : ready s -> exists s', dl_step E cfg lin g s = Ok s' /\ ready s'.
Proof.
  intros Hs. destruct (jacobian_total s Hs) as (A & EA & HA & Hsh). unfold dl_step. rewrite EA. cbn [bind].
  destruct (matmul_ok (transpose A) (vneg (s_res s)) (transpose_ok A HA)) as (b & -> & Hb); [cbn; rewrite Hsh; unfold vneg; rewrite map_length; apply Hs|]. cbn [bind].
  cbn in Hb. rewrite Hsh in Hb. cbn in Hb.
  destruct (Hlin A b n0 (s_iter s) HA) as (gn & -> & Hx); [rewrite Hsh; auto|]. cbn [bind]. rewrite Hsh in Hx. cbn in Hx.
  destruct (matmul_ok A b HA) as (Asd & -> & _); [rewrite Hsh; auto|]. cbn [bind].
  pose proof (dogleg_length n b Asd gn (s_extra s) Hb Hx) as Hst. set (x := dogleg_step_of b Asd gn (s_extra s)) in *. cbv zeta.
  destruct (retract_total (s_assign s) x (proj1 Hs) Hst) as (a' & Er & Ha'). fold C. rewrite Er. cbn [bind].
  destruct (cost_total a' Ha') as (c & r & -> & Hr). cbn [bind fst snd].
  destruct (quality_total s A c x Hs HA Hsh Hst) as (q & ->). cbn [bind].
  destruct (convergence_total (dl_term cfg) s c x b Hs Hb) as (conv & ->). cbn [bind]. eexists. split; [reflexivity|]. split; auto.
  cbn [s_assign]. eapply accept_held; eauto. apply Hs.
Qed.
Lemma body_total step extra solve s : nonlinear_solver E lin step extra solve -> ready s -> exists s', step g s = Ok s' /\ ready s'.
Proof. intros [cfg|cfg|cfg]; [apply gn_total | apply lm_total | apply dl_total]. Qed.

Lemma loop_total (step : sstate T -> result (sstate T)) : (forall s, ready s -> exists s', step s = Ok s' /\ ready s') ->
  forall fuel s, ready s -> match while_loop fuel (fun s => negb (s_done s)) step s with
                            | None => True | Some (Ok s') => ready s' | Some (Err _) => False end.
Proof.
  intros Hst. induction fuel as [|fuel IH]; intros s Hs; cbn [while_loop]; destruct (negb (s_done s)); auto.
  destruct (Hst s Hs) as (s' & -> & Hs'). apply IH; auto.
Qed.
Lemma iterate_total (step : sstate T -> result (sstate T)) : (forall s, ready s -> exists s', step s = Ok s' /\ ready s') ->
  forall k s, ready s -> exists s', iterate k step s = Ok s' /\ ready s'.
Proof.
  intros Hst. induction k as [|k IH]; intros s Hs; cbn [iterate]; [eauto|]. destruct (Hst s Hs) as (s' & -> & Hs'). cbn [bind]. auto.
Qed.

Lemma solve_total step extra solve init val fuel : nonlinear_solver E lin step extra solve -> assigns E fs init val ->
  solve fuel g init = None \/ exists a' val', solve fuel g init = Some (Ok a') /\ assigns E fs a' val'.
Proof.
  intros Hb Hi. assert (Hs : solve fuel g init = solve_with E fuel step extra g init) by (destruct Hb; reflexivity). rewrite Hs.
  unfold solve_with. rewrite (ig_layout _ _ _ Hg). destruct (update_holds E CO fs init val Hi) as (a & -> & Ha).
  unfold init_state. destruct (cost_total a (ex_intro _ val Ha)) as (c & r & -> & Hr). cbn [bind fst snd].
  assert (Hst : forall s, ready s -> exists s', step g s = Ok s' /\ ready s') by (intros s; eapply body_total; eauto).
  assert (H0 : ready (mkState 0 a c r false extra)) by (split; [exists val; auto|auto]).
  pose proof (loop_total (step g) Hst fuel _ H0) as Hl. destruct (while_loop _ _ _ _) as [[s|]|]; [|contradiction|auto].
  right. destruct Hl as ((val' & Hv) & _). destruct (update_back E CO fs (s_assign s) val' init val Hv Hi) as (a' & -> & Ha').
  exists a', val'. auto.
Qed.
Lemma fixed_solve_total init val fuel unroll it : holds E fs init val ->
  (fixed_solve E fuel unroll it lin g init = None /\ unroll = false) \/
  exists a' val', fixed_solve E fuel unroll it lin g init = Some (Ok a') /\ assigns E fs a' val'.
Proof.
  intros Hi. unfold fixed_solve, init_state. destruct (cost_total init (ex_intro _ val Hi)) as (c & r & -> & Hr). cbn [bind fst snd].
  assert (H0 : ready (mkState 0 init c r false n0)) by (split; [exists val; auto|auto]).
  destruct unroll.
  - destruct (iterate_total _ (fixed_total it) (Z.to_nat it) _ H0) as (s & -> & (val' & Hv) & _). right. exists (s_assign s), val'.
    split; auto. apply holds_assigns; auto.
  - pose proof (loop_total _ (fixed_total it) fuel _ H0) as Hl. destruct (while_loop _ _ _ _) as [[s|]|]; [|contradiction|auto].
    right. destruct Hl as ((val' & Hv) & _). exists (s_assign s), val'. split; auto. apply holds_assigns; auto.
Qed.
End Total.
