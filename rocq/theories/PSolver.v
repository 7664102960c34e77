(* Solver loops: termination, layouts, tracked quantities.  For every arithmetic. *)
From Coq Require Import List Arith Bool ZArith Lia.
From Verif Require Import Num Py Arr MLayout MAssign MNoise MSparse MFactor MGraph MLinear MSolver SpecLayout SpecTree SpecAssign SpecGraph SpecSolver.
From Verif Require Import PBase PLayout PAssign PAssign2 PGraph PGraph2 PGraph4 PExGraph.
Import ListNotations.

Section AnyNum.
Context {T : Type} {N : Num T}.
Variable E : env T.
Let C := e_cls E.

Lemma bind_ok {A B} (r : result A) (f : A -> result B) b : bind r f = Ok b -> exists a, r = Ok a /\ f a = Ok b.
Proof. destruct r; simpl; [eauto | discriminate]. Qed.
Ltac binds H := repeat (let x := fresh "x" in let Hx := fresh "Hx" in apply bind_ok in H; destruct H as (x & Hx & H)).

Section Loop.
Variable step : sstate T -> result (sstate T).
Variable mx : Z.
Hypothesis Hinc : forall s s', step s = Ok s' -> s_iter s' = S (s_iter s) /\ ((mx - 1 <= Z.of_nat (s_iter s))%Z -> s_done s' = true).

Lemma loop_stops : forall fuel s, (iteration_cap mx <= s_iter s + fuel) ->
  (s_done s = true \/ (s_done s = false /\ s_iter s < iteration_cap mx)) ->
  exists r, while_loop fuel (fun s => negb (s_done s)) step s = Some r /\
    stops_within step 0 (iteration_cap mx - s_iter s) s r.
Proof.
  induction fuel as [|fuel IH]; intros s Hf Hd; simpl.
  - destruct Hd as [Hd|[Hd Hi]]; [|lia]. rewrite Hd. simpl. exists (Ok s). split; auto. left. exists 0, s.
    repeat split; auto; [lia | constructor].
  - destruct Hd as [Hd|[Hd Hi]]; rewrite Hd; cbn [negb].
    + exists (Ok s). split; auto. left. exists 0, s. repeat split; auto; [lia | constructor].
    + destruct (step s) as [s'|e] eqn:Es.
      * destruct (Hinc s s' Es) as (Hi' & Hd'). destruct (IH s') as (r & Er & Hr); [lia | |].
        { destruct (s_done s') eqn:Ed; [left; auto | right]. split; auto.
          destruct (Nat.lt_ge_cases (s_iter s') (iteration_cap mx)) as [|Hge]; auto. exfalso.
          assert (false = true) by (apply Hd'; unfold iteration_cap in *; lia). discriminate. }
        exists r. split; auto. destruct Hr as [(k & st' & Hk & Hrn & H1 & H2)|(k & st' & e & Hk & Hrn & H1 & H2)].
        -- left. exists (S k), st'. repeat split; auto; [lia | lia | econstructor; eauto].
        -- right. exists (S k), st', e. repeat split; auto; [lia | econstructor; eauto | apply H2 | apply H2].
      * exists (Err e). split; auto. right. exists 0, s, e. repeat split; auto; [lia | constructor].
Qed.

Lemma loop_stops_1 fuel s : iteration_cap mx <= fuel -> s_iter s = 0 -> s_done s = false ->
  exists r, while_loop fuel (fun s => negb (s_done s)) step s = Some r /\ stops_within step 1 (iteration_cap mx) s r.
Proof.
  intros Hf Hi Hd. destruct (loop_stops fuel s) as (r & Er & Hr); [lia | right; split; auto; unfold iteration_cap; lia|].
  exists r. split; auto. rewrite Hi, Nat.sub_0_r in Hr. destruct Hr as [(k & st' & Hk & Hrn & H1 & H2)|Hr]; [|right; auto].
  left. exists k, st'. repeat split; auto; [|lia]. destruct k; [|lia]. inversion Hrn; subst. congruence.
Qed.
End Loop.

Lemma solve_stops (step : graph T -> sstate T -> result (sstate T)) mx extra g init fuel :
  (forall s s', step g s = Ok s' -> s_iter s' = S (s_iter s) /\ ((mx - 1 <= Z.of_nat (s_iter s))%Z -> s_done s' = true)) ->
  iteration_cap mx <= fuel ->
  exists r, solve_with E fuel step extra g init = Some r /\ solve_outcome E step extra 1 (iteration_cap mx) g init r.
Proof.
  intros Hinc Hf. unfold solve_with, solve_outcome. fold C.
  destruct (update_storage_layout C init (g_layout g)) as [a|e] eqn:Eu; [|exists (Err e); split; auto; left; eauto].
  unfold init_state. destruct (compute_cost E g a) as [[c res]|e] eqn:Ec; cbn [bind].
  2:{ exists (Err e). split; auto. right. exists a. split; auto. left. eauto. }
  destruct (loop_stops_1 (step g) mx Hinc fuel (mkState 0 a (fst (c, res)) (snd (c, res)) false extra)) as (run & Er & Hr); auto.
  rewrite Er. cbn [fst snd] in *. destruct run as [st|e].
  - eexists. split; [reflexivity|]. right. exists a. split; auto. right. exists c, res, (Ok st). repeat split; auto.
  - exists (Err e). split; auto. right. exists a. split; auto. right. exists c, res, (Err e). repeat split; auto.
Qed.

Lemma gn_inc cfg lin g s s' : gn_step E cfg lin g s = Ok s' ->
  s_iter s' = S (s_iter s) /\ ((max_iterations cfg - 1 <= Z.of_nat (s_iter s))%Z -> s_done s' = true).
Proof.
  intros H. unfold gn_step in H. apply bind_ok in H. destruct H as (((ATb & delta) & a') & _ & H).
  binds H. injection H as <-. cbn [s_iter s_done]. split; [lia|]. intros Hm.
  unfold exceeded_max_iterations. rewrite (proj2 (Z.leb_le _ _) Hm). auto.
Qed.
Lemma lm_inc cfg lin g s s' : lm_step E cfg lin g s = Ok s' ->
  s_iter s' = S (s_iter s) /\ ((max_iterations (lm_term cfg) - 1 <= Z.of_nat (s_iter s))%Z -> s_done s' = true).
Proof.
  intros H. unfold lm_step in H. binds H. injection H as <-. cbn [s_iter s_done]. split; [lia|]. intros Hm.
  unfold exceeded_max_iterations. rewrite (proj2 (Z.leb_le _ _) Hm). auto.
Qed.
Lemma dl_inc cfg lin g s s' : dl_step E cfg lin g s = Ok s' ->
  s_iter s' = S (s_iter s) /\ ((max_iterations (dl_term cfg) - 1 <= Z.of_nat (s_iter s))%Z -> s_done s' = true).
Proof.
  intros H. unfold dl_step in H. binds H. injection H as <-. cbn [s_iter s_done]. split; [lia|]. intros Hm.
  unfold exceeded_max_iterations. rewrite (proj2 (Z.leb_le _ _) Hm). auto.
Qed.

(* ---- C28 ---- *)
Lemma iterate_fixed lin g it : forall k s, 
  compute_cost E g (s_assign s) = Ok (s_cost s, s_res s) ->
  (st' <- iterate k (fixed_step E it lin g) s ;; Ok (s_assign st')) =
  (a <- gauss_newton E lin g k (s_iter s) (s_assign s) ;; _ <- compute_whitened_residual_vector E g a ;; Ok a).
Proof.
  induction k as [|k IH]; intros s Hc.
  - cbn [iterate gauss_newton bind]. unfold compute_cost in Hc. apply bind_ok in Hc. destruct Hc as (r & Er & _). rewrite Er. auto.
  - cbn [iterate gauss_newton]. pose proof Hc as Hc'. unfold compute_cost in Hc'. apply bind_ok in Hc'. destruct Hc' as (r & Er & Hr).
    injection Hr as Hr1 Hr2. unfold fixed_step, gn_update, gauss_newton_step. rewrite Er. cbn [bind]. rewrite <- Hr2. fold C.
    destruct (compute_whitened_residual_jacobian E g (s_assign s) r) as [A|]; cbn [bind]; auto.
    destruct (matmul (transpose A) r) as [ATr|]; cbn [bind]; auto.
    destruct (lin A (vneg ATr) n0 (s_iter s)) as [d|]; cbn [bind]; auto.
    destruct (manifold_retract C (s_assign s) (mkAssign d (g_local_layout g))) as [a'|]; cbn [bind]; auto.
    unfold compute_cost. destruct (compute_whitened_residual_vector E g a') as [r'|e] eqn:Er'; cbn [bind fst snd].
    + rewrite IH by (cbn [s_assign s_cost s_res]; unfold compute_cost; rewrite Er'; auto).
      cbn [s_iter s_assign]. rewrite Nat.add_1_r. auto.
    + destruct k as [|k]; cbn [gauss_newton bind].
      * rewrite Er'. auto.
      * unfold gauss_newton_step. rewrite Er'. auto.
Qed.

Lemma fixed_loop lin g it : forall n fuel s, s_done s = false -> (Z.of_nat (s_iter s + S n) = it)%Z -> S n <= fuel ->
  while_loop fuel (fun s => negb (s_done s)) (fixed_step E it lin g) s = Some (iterate (S n) (fixed_step E it lin g) s).
Proof.
  induction n as [|n IH]; intros [|fuel] s Hd Hi Hf; try lia; cbn [while_loop iterate]; rewrite Hd; cbn [negb].
  - destruct (fixed_step E it lin g s) as [s'|e] eqn:Es; cbn [bind]; auto.
    assert (Hd' : s_done s' = true).
    { unfold fixed_step in Es. apply bind_ok in Es. destruct Es as (((ATb & delta) & a') & _ & Es). binds Es. injection Es as <-.
      cbn [s_done]. apply Z.leb_le. lia. }
    destruct fuel; simpl; rewrite Hd'; auto.
  - destruct (fixed_step E it lin g s) as [s'|e] eqn:Es; cbn [bind]; auto.
    assert (Hd' : s_done s' = false /\ s_iter s' = S (s_iter s)).
    { unfold fixed_step in Es. apply bind_ok in Es. destruct Es as (((ATb & delta) & a') & _ & Es). binds Es. injection Es as <-.
      cbn [s_done s_iter]. split; [apply Z.leb_gt; lia | lia]. }
    destruct Hd' as [Hd' Hi']. rewrite IH; auto; [lia|lia].
Qed.

Lemma fixed_solve_ok fuel unroll it lin g init : (1 <= it)%Z -> Z.to_nat it <= fuel ->
  fixed_solve E fuel unroll it lin g init =
    Some (a <- gauss_newton E lin g (Z.to_nat it) 0 init ;; _ <- compute_whitened_residual_vector E g a ;; Ok a).
Proof.
  intros Hit Hf. unfold fixed_solve, init_state. 
  destruct (compute_cost E g init) as [[c res]|e] eqn:Ec; cbn [bind].
  - cbn [fst snd]. set (st := mkState 0 init c res false n0).
    assert (Hrun : (if unroll then Some (iterate (Z.to_nat it) (fixed_step E it lin g) st)
                    else while_loop fuel (fun s => negb (s_done s)) (fixed_step E it lin g) st) =
                   Some (iterate (Z.to_nat it) (fixed_step E it lin g) st)).
    { destruct unroll; auto. destruct (Z.to_nat it) as [|n] eqn:En; [lia|]. apply fixed_loop; auto. subst st. cbn [s_iter]. lia. }
    rewrite Hrun. pose proof (iterate_fixed lin g it (Z.to_nat it) st Ec) as Hi. cbn [s_iter s_assign st] in Hi. subst st. cbn [s_iter s_assign] in Hi. rewrite <- Hi.
    set (st := mkState 0 init c res false n0).
    destruct (iterate (Z.to_nat it) (fixed_step E it lin g) st); auto.
  - unfold compute_cost in Ec. destruct (compute_whitened_residual_vector E g init) as [r|e'] eqn:Er; cbn [bind] in Ec; [discriminate|].
    injection Ec as ->. destruct (Z.to_nat it) as [|n] eqn:En; [lia|]. cbn [gauss_newton]. unfold gauss_newton_step. rewrite Er. auto.
Qed.

(* ---- tracked quantities ---- *)
Lemma retract_layout (a d a' : assign T) : manifold_retract C a d = Ok a' -> as_layout a' = as_layout a.
Proof. intros H. unfold manifold_retract in H. binds H. injection H as <-. auto. Qed.
Lemma assign_eta (a : assign T) : mkAssign (as_storage a) (as_layout a) = a. Proof. destruct a; auto. Qed.

Lemma lm_tr cfg lin g s s' : lm_step E cfg lin g s = Ok s' ->
  exists A ATb step prop c r q, trust_step E g (lm_quality_min cfg) s s' A step prop c r q /\
    matmul (transpose A) (vneg (s_res s)) = Ok ATb /\ lin A ATb (s_extra s) (s_iter s) = Ok step /\
    s_extra s' = lm_lambda cfg (s_extra s) (nleb (lm_quality_min cfg) q) /\
    exists conv, check_convergence E (lm_term cfg) s c (mkAssign step (g_local_layout g)) ATb = Ok conv /\
      s_done s' = (exceeded_max_iterations (lm_term cfg) s || (nleb (lm_quality_min cfg) q && conv)).
Proof.
  intros H. unfold lm_step in H. fold C in H.
  apply bind_ok in H. destruct H as (A & EA & H). apply bind_ok in H. destruct H as (ATb & Eb & H).
  apply bind_ok in H. destruct H as (step & Es & H). apply bind_ok in H. destruct H as (prop & Ep & H).
  apply bind_ok in H. destruct H as ((c & r) & Ec & H). apply bind_ok in H. destruct H as (q & Eq & H).
  apply bind_ok in H. destruct H as (conv & Ev & H). injection H as <-. cbn [fst snd] in *.
  exists A, ATb, step, prop, c, r, q. split; [|split; [auto|split; [auto|split; [auto|exists conv; auto]]]].
  pose proof (retract_layout _ _ _ Ep) as HL.
  constructor; auto; cbn [s_assign s_cost s_res s_iter]; try lia.
  1: { unfold step_quality in Eq. apply bind_ok in Eq. destruct Eq as (Ad & Em & Eq). injection Eq as <-. eauto. }
  all: intros Hq; rewrite Hq; split; auto.
  - rewrite <- HL. apply assign_eta.
  - apply assign_eta.
Qed.
Lemma dl_tr cfg lin g s s' : dl_step E cfg lin g s = Ok s' ->
  exists A ATb gn Asd step prop c r q, trust_step E g (dl_quality_min cfg) s s' A step prop c r q /\
    matmul (transpose A) (vneg (s_res s)) = Ok ATb /\ lin A ATb n0 (s_iter s) = Ok gn /\ matmul A ATb = Ok Asd /\
    step = dogleg_step_of ATb Asd gn (s_extra s) /\
    s_extra s' = dogleg_radius (s_extra s) q step /\
    exists conv, check_convergence E (dl_term cfg) s c (mkAssign step (g_local_layout g)) ATb = Ok conv /\
      s_done s' = (exceeded_max_iterations (dl_term cfg) s || (nleb (dl_quality_min cfg) q && conv)).
Proof.
  intros H. unfold dl_step in H. fold C in H.
  apply bind_ok in H. destruct H as (A & EA & H). apply bind_ok in H. destruct H as (ATb & Eb & H).
  apply bind_ok in H. destruct H as (gn & Es & H). apply bind_ok in H. destruct H as (Asd & Ea & H). apply bind_ok in H. destruct H as (prop & Ep & H).
  apply bind_ok in H. destruct H as ((c & r) & Ec & H). apply bind_ok in H. destruct H as (q & Eq & H).
  apply bind_ok in H. destruct H as (conv & Ev & H). injection H as <-. cbn [fst snd] in *.
  exists A, ATb, gn, Asd, (dogleg_step_of ATb Asd gn (s_extra s)), prop, c, r, q.
  split; [|split; [auto|split; [auto|split; [auto|split; [auto|split; [auto|exists conv; auto]]]]]].
  pose proof (retract_layout _ _ _ Ep) as HL.
  constructor; auto; cbn [s_assign s_cost s_res s_iter]; try lia.
  1: { unfold step_quality in Eq. apply bind_ok in Eq. destruct Eq as (Ad & Em & Eq). injection Eq as <-. eauto. }
  all: intros Hq; rewrite Hq; split; auto.
  - rewrite <- HL. apply assign_eta.
  - apply assign_eta.
Qed.
Lemma gn_tr cfg lin g s s' : gn_step E cfg lin g s = Ok s' -> current E g s' /\ s_iter s' = S (s_iter s).
Proof.
  intros H. unfold gn_step in H. apply bind_ok in H. destruct H as (((ATb & delta) & a') & Eu & H).
  apply bind_ok in H. destruct H as ((c & r) & Ec & H). apply bind_ok in H. destruct H as (conv & Ev & H). injection H as <-.
  unfold current in *. cbn [s_assign s_cost s_res fst snd s_iter] in *. split; auto. lia.
Qed.
Lemma fixed_tr it lin g s s' : fixed_step E it lin g s = Ok s' -> current E g s'.
Proof.
  intros H. unfold fixed_step in H. apply bind_ok in H. destruct H as (((ATb & delta) & a') & Eu & H).
  apply bind_ok in H. destruct H as ((c & r) & Ec & H). injection H as <-. exact Ec.
Qed.

Lemma tr_cost_current g qmin s s' A step prop c r q : trust_step E g qmin s s' A step prop c r q -> cost_current E g s -> cost_current E g s'.
Proof.
  intros [_ _ Hc _ Ha Hr _ _] (r0 & H0). unfold cost_current. destruct (nleb qmin q) eqn:Eq.
  - destruct (Ha eq_refl) as [-> ->]. eauto.
  - destruct (Hr eq_refl) as [-> ->]. eauto.
Qed.
Lemma tr_current_accept g qmin s s' A step prop c r q : trust_step E g qmin s s' A step prop c r q -> nleb qmin q = true -> current E g s'.
Proof. intros [_ _ Hc _ Ha Hr Hs _] Hq. destruct (Ha Hq) as [H1 H2]. unfold current in *. rewrite H1, H2, Hs. auto. Qed.

Lemma runs_ind_inv (step : sstate T -> result (sstate T)) (P : sstate T -> Prop) :
  (forall s s', P s -> step s = Ok s' -> P s') -> forall k s s', runs step k s s' -> P s -> P s'.
Proof. intros HP k s s' Hr. induction Hr; eauto. Qed.
Lemma runs_snoc (step : sstate T -> result (sstate T)) k s s' : runs step (S k) s s' <->
  exists s1, runs step k s s1 /\ s_done s1 = false /\ step s1 = Ok s'.
Proof.
  revert s. induction k as [|k IH]; intros s; split.
  - intros H. inversion H; subst. inversion H3; subst. exists s. split; [constructor | auto].
  - intros (s1 & H1 & H2 & H3). inversion H1; subst. econstructor; eauto. constructor.
  - intros H. inversion H as [|? ? s2 ? Hd Hs Hr]; subst. apply IH in Hr. destruct Hr as (s1 & H1 & H2 & H3).
    exists s1. split; auto. econstructor; eauto.
  - intros (s1 & H1 & H2 & H3). inversion H1 as [|? ? s2 ? Hd Hs Hr]; subst. econstructor; eauto. apply IH. eauto.
Qed.

(* ---- C29 ---- *)
Lemma update_same_layout a L b vs local : L = make_layout C vs local -> NoDup vs -> layout_nodup (as_layout a) ->
  update_storage_layout C a L = Ok b -> same_layout (as_layout b) L.
Proof.
  intros -> ND Hn H. unfold update_storage_layout in H. destruct (layout_eqb (as_layout a) (make_layout C vs local)) eqn:El.
  - injection H as <-. apply layout_eqb_ok in El; auto. apply make_layout_nodup; auto.
  - binds H. injection H as <-. apply same_layout_refl.
Qed.
Lemma gn_layout cfg lin g s s' : gn_step E cfg lin g s = Ok s' -> as_layout (s_assign s') = as_layout (s_assign s).
Proof.
  intros H. unfold gn_step in H. apply bind_ok in H. destruct H as (((ATb & delta) & a') & Eu & H).
  unfold gn_update in Eu. apply bind_ok in Eu. destruct Eu as (A & _ & Eu). apply bind_ok in Eu. destruct Eu as (b & _ & Eu).
  apply bind_ok in Eu. destruct Eu as (d & _ & Eu). apply bind_ok in Eu. destruct Eu as (a1 & Er & Eu). injection Eu as <- <- <-.
  apply bind_ok in H. destruct H as ((c & r) & Ec & H). apply bind_ok in H. destruct H as (conv & Ev & H). injection H as <-.
  cbn [s_assign]. eapply retract_layout; eauto.
Qed.
Lemma tr_layout g qmin s s' A step prop c r q : trust_step E g qmin s s' A step prop c r q -> as_layout (s_assign s') = as_layout (s_assign s).
Proof.
  intros [_ Hp _ _ Ha Hr _ _]. destruct (nleb qmin q) eqn:Eq.
  - destruct (Ha eq_refl) as [-> _]. eapply retract_layout; eauto.
  - destruct (Hr eq_refl) as [-> _]. auto.
Qed.
End AnyNum.
