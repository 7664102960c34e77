(* Invariants of the variable values are kept by every solver. *)
From Coq Require Import List Arith Bool ZArith Lia Permutation.
From Verif Require Import Num Py Arr MLayout MAssign MNoise MSparse MFactor MGraph MLinear MSolver SpecLayout SpecTree SpecAssign SpecGraph SpecSparse SpecSolver SpecOrder SpecInv.
From Verif Require Import PBase PLayout PTree PAssign PAssign2 PAssign3 PStack PGraph PGraph2 PGraph4 PVec PSparse PCg PJac PLayout2 PHold PExGraph PSolver PSolver2.
Import ListNotations.

(* ---- the linear solvers return one entry per column ---- *)
Section Sized.
Context {T : Type} {N : Num T}.

Lemma matmul_length (A : coo T) x y : matmul A x = Ok y -> length x = snd (m_shape A) /\ length y = fst (m_shape A).
Proof.
  unfold matmul. intros H. apply bind_ok in H. destruct H as ([] & H1 & H2).
  unfold assert_ in H1. destruct (Nat.eqb (length x) (snd (m_shape A))) eqn:E1; [|discriminate]. apply Nat.eqb_eq in E1.
  destruct (_ && _); [|discriminate]. injection H2 as <-. rewrite scatter_length. unfold vzero. rewrite repeat_length. auto.
Qed.

Lemma scipy_rows (A : coo T) : length (scipy_dense (as_scipy A)) = fst (m_shape A).
Proof.
  unfold scipy_dense. cbn [as_scipy sp_shape sp_row sp_col sp_data].
  assert (H : forall l (acc : list (list T)), length (fold_left (fun acc (rcv : nat * nat * T) =>
     upd (upd (fun x => nadd x (snd rcv)) (snd (fst rcv))) (fst (fst rcv)) acc) l acc) = length acc).
  { induction l as [|a l IH]; intros acc; cbn [fold_left]; auto. rewrite IH. apply upd_length. }
  rewrite H, repeat_length. auto.
Qed.

Lemma elim_length n : forall M (b : list T), length M = n -> length b = n -> Forall (fun row => length row = n) M ->
  length (elim n M b) = n.
Proof.
  induction n as [|n IH]; intros M b HM Hb Hr; auto. destruct M as [|[|a v] M]; [discriminate| |].
  - inversion Hr; subst. discriminate.
  - destruct b as [|b0 b]; [discriminate|]. cbn [elim length]. f_equal. inversion Hr as [|? ? Hv Hr']; subst.
    cbn [length] in *. apply IH.
    + rewrite map_length. lia.
    + rewrite zipw_length. lia.
    + apply Forall_forall. intros row Hin. apply in_map_iff in Hin. destruct Hin as (row' & <- & Hin).
      rewrite Forall_forall in Hr'. specialize (Hr' _ Hin). unfold vsub, vscale. rewrite zipw_length, map_length.
      destruct row'; cbn [tl length] in *; lia.
Qed.

Lemma gram_shape (M : list (list T)) beta : length (gram_beta M beta) = length M /\ Forall (fun row => length row = length M) (gram_beta M beta).
Proof.
  unfold gram_beta. split.
  - rewrite map_length, combine_length, seq_length. lia.
  - apply Forall_forall. intros row Hin. apply in_map_iff in Hin. destruct Hin as (? & <- & _).
    rewrite map_length, combine_length, seq_length. lia.
Qed.

Lemma cholmod_sized : sized (cholmod_solve (T := T)).
Proof.
  intros A b l i x Hb H. unfold cholmod_solve in H. destruct (Nat.eqb _ _) eqn:El; [|discriminate].
  apply Nat.eqb_eq in El. injection H as <-. destruct (gram_shape (scipy_dense (as_scipy (transpose A))) (nadd l (nlit 1 100000))) as (H1 & H2).
  rewrite elim_length; auto. rewrite scipy_rows. auto.
Qed.

Lemma cg_loop_length n op M atol2 : (forall p q, op p = Ok q -> length p = n /\ length q = n) ->
  (forall r : list T, length r = n -> length (M r) = n) -> forall k x r gamma p y left,
  length x = n -> length r = n -> length p = n -> cg_loop k op M atol2 x r gamma p = Ok (y, left) -> length y = n.
Proof.
  intros Hop HM. induction k as [|k IH]; intros x r gamma p y left Hx Hr Hp H; cbn [cg_loop] in H.
  - injection H as <- _. auto.
  - destruct (nltb _ _); [|injection H as <- _; auto]. apply bind_ok in H. destruct H as (Ap & Eo & H).
    destruct (Hop _ _ Eo) as (_ & HA).
    assert (Hr' : length (vsub r (vscale (ndiv gamma (vdot p Ap)) Ap)) = n) by (unfold vsub, vscale; rewrite zipw_length, map_length; lia).
    eapply IH; [| | |exact H]; auto.
    + unfold vadd, vscale. rewrite zipw_length, map_length. lia.
    + unfold vadd, vscale. rewrite zipw_length, map_length, HM by auto. lia.
Qed.

Lemma cg_sized tol : sized (cg_solve (T := T) tol).
Proof.
  intros A b l i x Hb H. unfold cg_solve in H. apply bind_ok in H. destruct H as ((y & left) & H & Hx). cbn [fst] in Hx. injection Hx as <-.
  unfold cg_run, cg in H. apply bind_ok in H. destruct H as (Ax0 & E0 & H).
  assert (Hop : forall p q, ata_function A l (length b) p = Ok q -> length p = length b /\ length q = length b).
  { intros p q Hq. unfold ata_function in Hq. apply bind_ok in Hq. destruct Hq as (Ax & E1 & Hq). apply bind_ok in Hq. destruct Hq as (ATAx & E2 & Hq).
    injection Hq as <-. apply matmul_length in E1, E2. cbn in E2. unfold vadd, vmul, vscale. rewrite !zipw_length, map_length, diag_length. lia. }
  assert (HM : forall r : list T, length r = length b -> length (jacobi A (length b) r) = length b).
  { intros r Hr. unfold jacobi. rewrite zipw_length, diag_length. lia. }
  destruct (Hop _ _ E0) as (_ & H0). rewrite <- Hb.
  eapply cg_loop_length; [exact Hop | exact HM | | | |exact H].
  - unfold vzero. apply repeat_length.
  - unfold vsub. rewrite zipw_length. lia.
  - apply HM. unfold vsub. rewrite zipw_length. lia.
Qed.
End Sized.

Section Inv.
Context {T : Type} {N : Num T}.
Variable E : env T.
Let C := e_cls E.
Hypothesis CO : classes_ok C.
Variable fs : list (factor T).
Variable g : graph T.
Hypothesis Hg : is_graph E fs g.
Variable Q : var -> pytree T -> Prop.
Hypothesis HQ : preserved E fs Q.

(* in the graph's storage order, all values satisfying Q *)
Definition good (a : assign T) : Prop := exists val, holds E fs a val /\ forall v, In v (mentioned fs) -> Q v (val v).

Lemma good_retract a x a' : good a -> length x = l_dim (graph_layout E fs true) ->
  manifold_retract C a (mkAssign x (g_local_layout g)) = Ok a' -> good a'.
Proof.
  intros (val & Ha & Hv) Hx H. rewrite (ig_local _ _ _ Hg) in H.
  destruct (retract_holds E fs CO Q a val x HQ Ha Hv Hx) as (a1 & val' & E1 & _ & Hh & Hr). fold C in E1. rewrite E1 in H. injection H as <-.
  exists val'. split; auto. intros v Hin. apply Hr; auto.
Qed.

Lemma jacobian_width a r A : compute_whitened_residual_jacobian E g a r = Ok A -> snd (m_shape A) = l_dim (graph_layout E fs true).
Proof.
  unfold compute_whitened_residual_jacobian. intros H. apply bind_ok in H. destruct H as (a' & _ & H).
  apply bind_ok in H. destruct H as ((vals & stop) & _ & H). apply bind_ok in H. destruct H as (_ & _ & H). apply bind_ok in H. destruct H as (_ & _ & H).
  injection H as <-. cbn. rewrite (ig_local _ _ _ Hg). auto.
Qed.

Lemma good_update lin s u : sized lin -> good (s_assign s) -> gn_update E lin g s = Ok u -> good (snd u).
Proof.
  intros Hs Hgd Eu. unfold gn_update in Eu. apply bind_ok in Eu. destruct Eu as (A & EA & Eu). apply bind_ok in Eu. destruct Eu as (b & Eb & Eu).
  apply bind_ok in Eu. destruct Eu as (d & Ed & Eu). apply bind_ok in Eu. destruct Eu as (a1 & Er & Eu). injection Eu as <-. cbn [snd].
  eapply good_retract; [exact Hgd| |exact Er]. rewrite <- (jacobian_width _ _ _ EA). eapply Hs; [|exact Ed].
  apply matmul_length in Eb. cbn in Eb. unfold vneg. rewrite map_length. tauto.
Qed.
Lemma good_gn cfg lin s s' : sized lin -> good (s_assign s) -> gn_step E cfg lin g s = Ok s' -> good (s_assign s').
Proof.
  intros Hs Hgd H. unfold gn_step in H. apply bind_ok in H. destruct H as (((ATb & delta) & a') & Eu & H).
  apply (good_update lin s _ Hs Hgd) in Eu.
  apply bind_ok in H. destruct H as ((c & r) & Ec & H). apply bind_ok in H. destruct H as (conv & Ev & H). injection H as <-. exact Eu.
Qed.
Lemma good_fixed it lin s s' : sized lin -> good (s_assign s) -> fixed_step E it lin g s = Ok s' -> good (s_assign s').
Proof.
  intros Hs Hgd H. unfold fixed_step in H. apply bind_ok in H. destruct H as (((ATb & delta) & a') & Eu & H).
  apply (good_update lin s _ Hs Hgd) in Eu. apply bind_ok in H. destruct H as ((c & r) & Ec & H). injection H as <-. exact Eu.
Qed.
Lemma good_trust lin step qmin s s' : trust_body E lin step qmin -> good (s_assign s) -> step g s = Ok s' -> good (s_assign s').
Proof.
  intros Hb Hgd H. destruct (trust_body_step E lin step qmin g s s' Hb H) as (A & st & prop & c & r & q & Ht).
  destruct Ht as [HA Hp Hc Hq Ha Hr _ _]. 
  assert (Hl : length st = l_dim (graph_layout E fs true)).
  { destruct Hq as (Ax & Em & _). apply matmul_length in Em.
    rewrite <- (jacobian_width _ _ _ HA). tauto. }
  destruct (nleb qmin q).
  - destruct (Ha eq_refl) as (-> & _). eapply good_retract; eauto.
  - destruct (Hr eq_refl) as (-> & _). auto.
Qed.
Lemma good_body lin step extra solve s s' : nonlinear_solver E lin step extra solve -> sized lin ->
  good (s_assign s) -> step g s = Ok s' -> good (s_assign s').
Proof.
  intros Hb Hs Hgd H. destruct Hb as [cfg|cfg|cfg].
  - eapply good_gn; eauto.
  - eapply good_trust; [apply trust_lm|exact Hgd|exact H].
  - eapply good_trust; [apply trust_dl|exact Hgd|exact H].
Qed.

Lemma good_all a vs : (forall v, In v vs <-> In v (mentioned fs)) -> good a -> all_values E Q vs a.
Proof. intros Hvs (val & (ws & Hwf & Hs & Hv) & Hq) v Hin. apply Hvs in Hin. exists (val v). split; auto. Qed.

Lemma all_assigns a vs : wf_assign C vs false a -> (forall v, In v vs <-> In v (mentioned fs)) -> all_values E Q vs a ->
  exists val, assigns E fs a val /\ forall v, In v (mentioned fs) -> Q v (val v).
Proof.
  intros Hwf Hvs Ha. exists (fun v => unwrap (vc_default (C (v_ty v))) (get_value C a v)). split.
  - exists vs. split; auto. split; auto. intros v Hin. destruct (Ha v Hin) as (x & Ex & _). fold C in Ex. rewrite Ex. auto.
  - intros v Hin. apply Hvs in Hin. destruct (Ha v Hin) as (x & Ex & Hx). fold C in Ex. rewrite Ex. auto.
Qed.
Lemma all_good a vs a' : wf_assign C vs false a -> (forall v, In v vs <-> In v (mentioned fs)) -> all_values E Q vs a ->
  update_storage_layout C a (g_layout g) = Ok a' -> good a'.
Proof.
  intros Hwf Hvs Ha Hu. destruct (all_assigns a vs Hwf Hvs Ha) as (val & Hv & Hq).
  rewrite (ig_layout _ _ _ Hg) in Hu. destruct (update_holds E CO fs a val Hv) as (a1 & E1 & Hh). fold C in E1. rewrite E1 in Hu. injection Hu as <-.
  exists val. auto.
Qed.
End Inv.

Section Solve.
Context {T : Type} {N : Num T}.
Variable E : env T.
Let C := e_cls E.

Lemma solve_invariant (fs : list (factor T)) g lin step extra solve (Q : var -> pytree T -> Prop) : classes_ok C ->
  (forall f, In f fs -> factor_ok f) -> graph_make E fs = Ok g -> nonlinear_solver E lin step extra solve -> sized lin -> preserved E fs Q ->
  forall init vs, wf_assign C vs false init -> all_values E Q vs init ->
  (forall fuel a', solve fuel g init = Some (Ok a') -> all_values E Q vs a') /\
  (forall a c r k st, update_storage_layout C init (g_layout g) = Ok a -> compute_cost E g a = Ok (c, r) ->
     runs (step g) k (mkState 0 a c r false extra) st -> all_values E Q vs (s_assign st)).
Proof.
  intros CO Hok Eg Hb Hs HQ init vs Hwf Ha. destruct (made E fs g Hok Eg) as (Hg & _).
  assert (Hvs : forall a, update_storage_layout C init (g_layout g) = Ok a -> forall v, In v vs <-> In v (mentioned fs)).
  { intros a Hu. rewrite (ig_layout _ _ _ Hg) in Hu. pose proof Hwf as (ND & HL & _). unfold graph_layout in Hu. fold C in Hu.
    destruct (set_eqb (get_variables (as_layout init)) (get_variables (make_layout C (mentioned fs) false))) eqn:Es.
    - assert (Hi : forall v, In v (get_variables (as_layout init)) <-> In v (get_variables (make_layout C (mentioned fs) false))) by (apply set_eqb_ok; auto).
      intros v. specialize (Hi v).
      rewrite HL, !lay_vars, !order_in in Hi by (auto; apply mentioned_nodup). exact Hi.
    - exfalso. rewrite update_err in Hu; [discriminate|]. right; right. rewrite HL.
      split; [apply make_layout_nodup; auto|]. split; [apply make_layout_nodup; apply mentioned_nodup|]. intros Hiff.
      rewrite <- HL in Hiff. assert (set_eqb (get_variables (as_layout init)) (get_variables (make_layout C (mentioned fs) false)) = true) by (apply set_eqb_ok; exact Hiff).
      congruence. }
  assert (Hruns : forall a c r k st, update_storage_layout C init (g_layout g) = Ok a ->
     runs (step g) k (mkState 0 a c r false extra) st -> good E fs Q (s_assign st)).
  { intros a c r k st Hu Hr. pose proof (Hvs a Hu) as Hv.
    apply (runs_ind_inv (step g) (fun s => good E fs Q (s_assign s)) (fun s s' Hgd Hst => good_body E CO fs g Hg Q HQ lin step extra solve s s' Hb Hs Hgd Hst) k _ _ Hr).
    cbn [s_assign]. eapply all_good; eauto. }
  split.
  - intros fuel a' H. destruct (solvers_layout E fs g init vs false lin step extra solve fuel CO Hok Eg Hwf Hb) as (Hl & _).
    destruct (Hl a' eq_refl H) as (_ & _ & a & c & r & k & st & Hu & Hc & Hr & _ & Hget).
    pose proof (good_all E fs Q _ vs (Hvs a Hu) (Hruns a c r k st Hu Hr)) as Hal.
    intros v Hin. destruct (Hal v Hin) as (x & Hx & Hq). exists x. split; auto. rewrite Hget. auto.
  - intros a c r k st Hu Hc Hr. apply (good_all E fs Q); [apply (Hvs a Hu)|]. eapply Hruns; eauto.
Qed.

(* the fixed-iteration solver, from an assignment already in the graph's storage order *)
Lemma fixed_invariant (fs : list (factor T)) g lin (Q : var -> pytree T -> Prop) : classes_ok C ->
  (forall f, In f fs -> factor_ok f) -> graph_make E fs = Ok g -> sized lin -> preserved E fs Q ->
  forall init vs fuel unroll it a', wf_assign C vs false init -> same_layout (as_layout init) (g_layout g) -> all_values E Q vs init ->
  fixed_solve E fuel unroll it lin g init = Some (Ok a') -> all_values E Q vs a'.
Proof.
  intros CO Hok Eg Hs HQ init vs fuel unroll it a' Hwf Hsl Ha H. destruct (made E fs g Hok Eg) as (Hg & _).
  rewrite (ig_layout _ _ _ Hg) in Hsl. pose proof (holds_vars E fs vs init Hwf Hsl) as Hvs.
  assert (Hgd : good E fs Q init).
  { destruct (all_assigns E fs Q init vs Hwf Hvs Ha) as (val & (ws & H1 & H2 & H3) & Hq). exists val. split; auto.
    exists ws. split; auto. split; auto. intros v Hin. apply H3, H2; auto. }
  assert (Hstep : forall s s', good E fs Q (s_assign s) -> fixed_step E it lin g s = Ok s' -> good E fs Q (s_assign s')).
  { intros s s'. apply good_fixed; auto. }
  unfold fixed_solve in H. destruct (init_state E g init n0) as [st|] eqn:Ei; [|discriminate].
  unfold init_state in Ei. apply bind_ok in Ei. destruct Ei as ((c & r) & _ & Ei). injection Ei as <-.
  assert (Hit : forall n s s', good E fs Q (s_assign s) -> iterate n (fixed_step E it lin g) s = Ok s' -> good E fs Q (s_assign s')).
  { induction n as [|n IH]; intros s s' Hgs Hi; cbn [iterate] in Hi; [injection Hi as <-; auto|].
    apply bind_ok in Hi. destruct Hi as (s1 & E1 & Hi). eauto. }
  apply (good_all E fs Q); auto. destruct unroll.
  - destruct (iterate _ _ _) as [s1|] eqn:Es; [|discriminate]. injection H as <-. eapply Hit; [|exact Es]. auto.
  - destruct (while_loop _ _ _ _) as [[s1|]|] eqn:Es; try discriminate. injection H as <-.
    destruct (while_runs _ _ _ _ Es) as (k & _ & Hr & _). eapply (runs_ind_inv _ (fun s => good E fs Q (s_assign s)) Hstep); [exact Hr|]. auto.
Qed.
End Solve.
