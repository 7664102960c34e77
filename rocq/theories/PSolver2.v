(* Solver theorems that hold for every arithmetic, bundled. *)
From Coq Require Import List Arith Bool ZArith Lia.
From Verif Require Import Num Py Arr MLayout MAssign MNoise MSparse MFactor MGraph MLinear MSolver SpecLayout SpecTree SpecAssign SpecGraph SpecSolver.
From Verif Require Import PBase PLayout PAssign PAssign2 PGraph PGraph2 PGraph4 PExGraph PSolver.
Import ListNotations.

Section AnyNum.
Context {T : Type} {N : Num T}.
Variable E : env T.
Let C := e_cls E.

Lemma solvers_terminate g init lin fuel :
  (forall cfg, iteration_cap (max_iterations cfg) <= fuel ->
     exists r, gn_solve E fuel cfg lin g init = Some r /\
       solve_outcome E (gn_step E cfg lin) n0 1 (iteration_cap (max_iterations cfg)) g init r) /\
  (forall cfg, iteration_cap (max_iterations (lm_term cfg)) <= fuel ->
     exists r, lm_solve E fuel cfg lin g init = Some r /\
       solve_outcome E (lm_step E cfg lin) (lambda_initial cfg) 1 (iteration_cap (max_iterations (lm_term cfg))) g init r) /\
  (forall cfg, iteration_cap (max_iterations (dl_term cfg)) <= fuel ->
     exists r, dl_solve E fuel cfg lin g init = Some r /\
       solve_outcome E (dl_step E cfg lin) (radius_initial cfg) 1 (iteration_cap (max_iterations (dl_term cfg))) g init r).
Proof.
  repeat split; intros cfg Hf; apply solve_stops; auto; intros s s'.
  - apply gn_inc.
  - apply lm_inc.
  - apply dl_inc.
Qed.

(* ---- layouts ---- *)
Lemma at_set_len {A} (l : list A) a b v l' : a <= b -> at_set l a b v = Ok l' -> length l' = length l.
Proof.
  intros Hab H. unfold at_set in H. destruct (Nat.eqb_spec (length v) (Nat.min b (length l) - Nat.min a (length l))) as [e|].
  - injection H as <-. rewrite !app_length, firstn_length, skipn_length. lia.
  - destruct v as [|x [|]]; try discriminate. injection H as <-.
    rewrite !app_length, firstn_length, skipn_length, repeat_length. lia.
Qed.
Lemma retract_length (a d a' : assign T) : manifold_retract C a d = Ok a' -> length (as_storage a') = length (as_storage a).
Proof.
  intros H. unfold manifold_retract in H. apply bind_ok in H. destruct H as (_ & _ & H). apply bind_ok in H. destruct H as (_ & _ & H).
  apply bind_ok in H. destruct H as (st & Hf & H). injection H as <-. cbn [as_storage].
  assert (G : forall ts l l', foldM (retract_type C a d) ts l = Ok l' -> length l' = length l).
  { induction ts as [|t ts IH]; simpl; intros l l' Hl; [injection Hl as <-; auto|].
    apply bind_ok in Hl. destruct Hl as (l1 & H1 & Hl). rewrite (IH _ _ Hl). clear - H1.
    unfold retract_type in H1. repeat (apply bind_ok in H1; destruct H1 as (? & _ & H1)). eapply at_set_len; [|eassumption]. lia. }
  rewrite (G _ _ _ Hf), repeat_length. auto.
Qed.

(* a step that keeps the layout and the storage length of the assignment *)
Definition keeps (step : sstate T -> result (sstate T)) : Prop := forall s s', step s = Ok s' ->
  as_layout (s_assign s') = as_layout (s_assign s) /\ length (as_storage (s_assign s')) = length (as_storage (s_assign s)).
Lemma keeps_runs step k s s' : keeps step -> runs step k s s' ->
  as_layout (s_assign s') = as_layout (s_assign s) /\ length (as_storage (s_assign s')) = length (as_storage (s_assign s)).
Proof.
  intros Hk Hr. induction Hr as [|k s s1 s2 Hd Hs Hr IH]; auto. destruct (Hk _ _ Hs), IH. split; congruence.
Qed.
Lemma trust_keeps g qmin s s' A step prop c r q : trust_step E g qmin s s' A step prop c r q ->
  as_layout (s_assign s') = as_layout (s_assign s) /\ length (as_storage (s_assign s')) = length (as_storage (s_assign s)).
Proof.
  intros [_ Hp _ _ Ha Hr _ _]. destruct (nleb qmin q) eqn:Eq.
  - destruct (Ha eq_refl) as [-> _]. split; [eapply retract_layout; eauto | eapply retract_length; eauto].
  - destruct (Hr eq_refl) as [-> _]. auto.
Qed.
Lemma gn_keeps cfg lin g : keeps (gn_step E cfg lin g).
Proof.
  intros s s' H. unfold gn_step in H. apply bind_ok in H. destruct H as (((ATb & delta) & a') & Eu & H).
  unfold gn_update in Eu. apply bind_ok in Eu. destruct Eu as (A & _ & Eu). apply bind_ok in Eu. destruct Eu as (b & _ & Eu).
  apply bind_ok in Eu. destruct Eu as (d & _ & Eu). apply bind_ok in Eu. destruct Eu as (a1 & Er & Eu). injection Eu as <- <- <-.
  apply bind_ok in H. destruct H as ((c & r) & Ec & H). apply bind_ok in H. destruct H as (conv & Ev & H). injection H as <-.
  cbn [s_assign]. split; [eapply retract_layout; eauto | eapply retract_length; eauto].
Qed.
Lemma lm_keeps cfg lin g : keeps (lm_step E cfg lin g).
Proof. intros s s' H. destruct (lm_tr E _ _ _ _ _ H) as (A & ATb & step & prop & c & r & q & Ht & _). eapply trust_keeps; eauto. Qed.
Lemma dl_keeps cfg lin g : keeps (dl_step E cfg lin g).
Proof. intros s s' H. destruct (dl_tr E _ _ _ _ _ H) as (A & ATb & gn & Asd & step & prop & c & r & q & Ht & _). eapply trust_keeps; eauto. Qed.

Lemma while_runs (step : sstate T -> result (sstate T)) : forall fuel s st', while_loop fuel (fun s => negb (s_done s)) step s = Some (Ok st') ->
  exists k, k <= fuel /\ runs step k s st' /\ s_done st' = true.
Proof.
  induction fuel as [|fuel IH]; simpl; intros s st' H; destruct (s_done s) eqn:Ed; simpl in H; try discriminate.
  - injection H as <-. exists 0. repeat split; auto. constructor.
  - injection H as <-. exists 0. repeat split; auto; [lia | constructor].
  - destruct (step s) as [s1|] eqn:Es; [|discriminate]. destruct (IH _ _ H) as (k & Hk & Hr & Hd).
    exists (S k). repeat split; auto; [lia | econstructor; eauto].
Qed.

Lemma same_layout_nodup vs local (a : layout) : NoDup vs -> a = make_layout C vs local -> layout_nodup a.
Proof. intros ND ->. apply make_layout_nodup; auto. Qed.

Lemma solve_layout fs g init vs fuel step extra a' : classes_ok C ->
  (forall f, In f fs -> factor_ok f) -> graph_make E fs = Ok g -> wf_assign C vs false init ->
  keeps (step g) -> solve_with E fuel step extra g init = Some (Ok a') ->
  same_layout (as_layout a') (as_layout init) /\ length (as_storage a') = length (as_storage init) /\
  exists a c res k st, update_storage_layout C init (g_layout g) = Ok a /\ compute_cost E g a = Ok (c, res) /\
    runs (step g) k (mkState 0 a c res false extra) st /\ s_done st = true /\
    forall v, get_value C a' v = get_value C (s_assign st) v.
Proof.
  intros CO Hok Hg Hwf Hk H. destruct (made E fs g Hok Hg) as (Hgr & _). pose proof Hwf as (ND & HL & Hs).
  pose proof (ig_layout _ _ _ Hgr) as HG. unfold graph_layout in HG. fold C in HG.
  pose proof (mentioned_nodup fs) as NDm.
  unfold solve_with in H. fold C in H. destruct (update_storage_layout C init (g_layout g)) as [a|] eqn:Eu; [|discriminate].
  unfold init_state in H. destruct (compute_cost E g a) as [[c res]|] eqn:Ec; cbn [bind] in H; [|discriminate]. cbn [fst snd] in H.
  destruct (while_loop fuel (fun s => negb (s_done s)) (step g) (mkState 0 a c res false extra)) as [[st|]|] eqn:Ew; try discriminate.
  injection H as H. destruct (while_runs _ _ _ _ Ew) as (k & _ & Hr & Hd). destruct (keeps_runs _ _ _ _ Hk Hr) as (HL1 & Hlen1).
  cbn [s_assign] in HL1, Hlen1.
  assert (Hvs : forall v, In v vs <-> In v (mentioned fs)).
  { destruct (set_eqb (get_variables (as_layout init)) (get_variables (g_layout g))) eqn:Es.
    - assert (Hiff : forall v, In v (get_variables (as_layout init)) <-> In v (get_variables (g_layout g))) by (apply set_eqb_ok; auto).
      intros v. specialize (Hiff v). rewrite HL, HG, !lay_vars, !order_in in Hiff by auto. exact Hiff.
    - exfalso. rewrite update_err in Eu; [discriminate|]. right; right. rewrite HL, HG. 
      split; [apply make_layout_nodup; auto|]. split; [apply make_layout_nodup; auto|]. intros Hiff.
      rewrite <- HL, <- HG in Hiff. assert (set_eqb (get_variables (as_layout init)) (get_variables (g_layout g)) = true).
      { apply set_eqb_ok. exact Hiff. } congruence. }
  destruct (update_ok C vs (mentioned fs) false init Hwf NDm Hvs) as (b & Eb & HLb & Hcase & Hlb & _).
  rewrite <- HG in Eb. rewrite Eu in Eb. injection Eb as <-.
  assert (Hst : exists ws, wf_assign C ws false (s_assign st) /\ forall v, In v ws <-> In v vs).
  { destruct Hcase as [->|HLa].
    - exists vs. split; [|tauto]. split; [auto|]. rewrite HL1, Hlen1, HL. split; auto. rewrite Hs, HL; auto.
    - exists (mentioned fs). split; [|intros v; symmetry; apply Hvs]. split; [auto|]. rewrite HL1, Hlen1, HLa. split; auto. }
  destruct Hst as (ws & Hws & Hwv). rewrite HL in H.
  destruct (update_values C ws vs (s_assign st) CO Hws ND Hwv) as (b & Eb & HLb' & Hv).
  destruct (update_ok C ws vs false (s_assign st) Hws ND Hwv) as (b2 & Eb2 & _ & _ & Hlb2 & _).
  rewrite H in Eb, Eb2. injection Eb as <-. injection Eb2 as <-. rewrite HL. repeat split; try apply HLb'.
  - rewrite Hlb2, Hs, HL. auto.
  - exists a, c, res, k, st. repeat split; auto.
Qed.

Lemma solve_wrong fs g init vs local fuel step extra :
  (forall f, In f fs -> factor_ok f) -> graph_make E fs = Ok g -> wf_assign C vs local init ->
  ~ (forall v, In v vs <-> In v (mentioned fs)) -> solve_with E fuel step extra g init = Some (Err AssertionError).
Proof.
  intros Hok Hg (ND & HL & Hs) Hne. destruct (made E fs g Hok Hg) as (Hgr & _).
  assert (He : update_storage_layout C init (g_layout g) = Err AssertionError).
  { apply update_err. right; right. rewrite HL, (ig_layout _ _ _ Hgr). unfold graph_layout. fold C.
    pose proof (mentioned_nodup fs) as NDm. split; [apply make_layout_nodup; auto|]. split; [apply make_layout_nodup; auto|].
    intros H. apply Hne. intros v. specialize (H v). rewrite !lay_vars in H by auto. rewrite !order_in in H. exact H. }
  unfold solve_with. fold C. rewrite He. auto.
Qed.

Lemma body_keeps lin step extra solve g : nonlinear_solver E lin step extra solve -> keeps (step g).
Proof. intros [cfg|cfg|cfg]; [apply gn_keeps | apply lm_keeps | apply dl_keeps]. Qed.

Lemma solvers_layout fs g init vs local lin step extra solve fuel : classes_ok C ->
  (forall f, In f fs -> factor_ok f) -> graph_make E fs = Ok g -> wf_assign C vs local init ->
  nonlinear_solver E lin step extra solve ->
  (forall a', local = false -> solve fuel g init = Some (Ok a') ->
     same_layout (as_layout a') (as_layout init) /\ length (as_storage a') = length (as_storage init) /\
     exists a c res k st, update_storage_layout C init (g_layout g) = Ok a /\ compute_cost E g a = Ok (c, res) /\
       runs (step g) k (mkState 0 a c res false extra) st /\ s_done st = true /\
       forall v, get_value C a' v = get_value C (s_assign st) v) /\
  (~ (forall v, In v vs <-> In v (mentioned fs)) -> solve fuel g init = Some (Err AssertionError)).
Proof.
  intros CO Hok Hg Hwf Hb.
  assert (Hs : solve fuel g init = solve_with E fuel step extra g init) by (destruct Hb; reflexivity). rewrite Hs. split.
  - intros a' ->. apply (solve_layout fs g init vs); auto. eapply body_keeps; eauto.
  - intros Hne. eapply solve_wrong; eauto.
Qed.

(* ---- C31 ---- *)
Lemma gn_step_is cfg lin g s s' : current E g s -> gn_step E cfg lin g s = Ok s' ->
  gauss_newton_step E lin g (s_iter s) (s_assign s) = Ok (s_assign s').
Proof.
  intros Hc H. unfold gn_step in H. apply bind_ok in H. destruct H as (((ATb & delta) & a') & Eu & H).
  apply bind_ok in H. destruct H as ((c & r) & Ec & H). apply bind_ok in H. destruct H as (conv & Ev & H). injection H as <-. cbn [s_assign].
  unfold current, compute_cost in Hc. apply bind_ok in Hc. destruct Hc as (r0 & Er & Hc). injection Hc as _ Hc. 
  unfold gauss_newton_step. rewrite Er, Hc. cbn [bind]. fold C.
  unfold gn_update in Eu. fold C in Eu. destruct (compute_whitened_residual_jacobian E g (s_assign s) (s_res s)) as [A|]; cbn [bind] in *; [|discriminate].
  destruct (matmul (transpose A) (s_res s)) as [b|]; cbn [bind] in *; [|discriminate].
  destruct (lin A (vneg b) n0 (s_iter s)) as [d|]; cbn [bind] in *; [|discriminate].
  destruct (manifold_retract C (s_assign s) _); cbn [bind] in *; [|discriminate]. congruence.
Qed.
Lemma gn_runs_is cfg lin g k s s' : runs (gn_step E cfg lin g) k s s' -> current E g s ->
  gauss_newton E lin g k (s_iter s) (s_assign s) = Ok (s_assign s') /\ current E g s'.
Proof.
  intros Hr. induction Hr as [s|k s s1 s2 Hd Hs Hr IH]; intros Hc; [split; auto|].
  destruct (gn_tr E _ _ _ _ _ Hs) as (Hc1 & Hi). destruct (IH Hc1) as (IH1 & IH2). split; auto.
  cbn [gauss_newton]. rewrite (gn_step_is _ _ _ _ _ Hc Hs). cbn [bind]. rewrite <- Hi. auto.
Qed.

Lemma fixed_is_gn fs g init vs lin : (forall f, In f fs -> factor_ok f) -> graph_make E fs = Ok g -> 
  wf_assign C vs false init -> same_layout (as_layout init) (g_layout g) ->
  forall cfg c res k st fuel unroll, compute_cost E g init = Ok (c, res) -> 1 <= k -> k <= fuel ->
  runs (gn_step E cfg lin g) k (mkState 0 init c res false n0) st ->
  update_storage_layout C init (g_layout g) = Ok init /\
  fixed_solve E fuel unroll (Z.of_nat k) lin g init = Some (Ok (s_assign st)).
Proof.
  intros Hok Hg (NDv & HLv & _) Hsl cfg c res k st fuel unroll Hc Hk Hf Hr. assert (Hnd : layout_nodup (as_layout init)) by (rewrite HLv; apply make_layout_nodup; auto). destruct (made E fs g Hok Hg) as (Hgr & _). split.
  - unfold update_storage_layout. rewrite (proj2 (layout_eqb_ok (as_layout init) (g_layout g) Hnd
      ltac:(rewrite (ig_layout _ _ _ Hgr); apply make_layout_nodup; apply mentioned_nodup)) Hsl). auto.
  - destruct (gn_runs_is _ _ _ _ _ _ Hr Hc) as (H1 & H2). cbn [s_iter s_assign] in H1.
    rewrite fixed_solve_ok by lia. rewrite Nat2Z.id, H1. cbn [bind]. unfold current, compute_cost in H2.
    apply bind_ok in H2. destruct H2 as (r & Er & _). rewrite Er. auto.
Qed.

(* ---- C32, C33 ---- *)
Lemma tracked_cost g lin s : compute_cost E g (s_assign s) = Ok (s_cost s, s_res s) ->
  (forall cfg k s', runs (gn_step E cfg lin g) k s s' -> compute_cost E g (s_assign s') = Ok (s_cost s', s_res s')) /\
  (forall cfg k s', runs (lm_step E cfg lin g) k s s' -> cost_current E g s') /\
  (forall cfg k s', runs (dl_step E cfg lin g) k s s' -> cost_current E g s').
Proof.
  intros Hc. split; [|split]; intros cfg k s' Hr.
  - eapply gn_runs_is; eauto.
  - eapply (runs_ind_inv _ (cost_current E g)); eauto.
    + intros s1 s2 H1 H. destruct (lm_tr E _ _ _ _ _ H) as (A & ATb & step & prop & c & r & q & Ht & _). eapply tr_cost_current; eauto.
    + exists (s_res s). auto.
  - eapply (runs_ind_inv _ (cost_current E g)); eauto.
    + intros s1 s2 H1 H. destruct (dl_tr E _ _ _ _ _ H) as (A & ATb & gn & Asd & step & prop & c & r & q & Ht & _). eapply tr_cost_current; eauto.
    + exists (s_res s). auto.
Qed.

Lemma trust_body_step lin step qmin g s s' : trust_body E lin step qmin -> step g s = Ok s' ->
  exists A d prop c r q, trust_step E g qmin s s' A d prop c r q.
Proof.
  intros [cfg|cfg] H.
  - destruct (lm_tr E _ _ _ _ _ H) as (A & ATb & d & prop & c & r & q & Ht & _). eauto 10.
  - destruct (dl_tr E _ _ _ _ _ H) as (A & ATb & gn & Asd & d & prop & c & r & q & Ht & _). eauto 10.
Qed.
Lemma residual_of_last_proposal lin step qmin g s s' : trust_body E lin step qmin -> step g s = Ok s' ->
  exists A d prop c r q, trust_step E g qmin s s' A d prop c r q /\
    (nleb qmin q = true -> current E g s') /\
    (nleb qmin q = false -> s_assign s' = s_assign s /\ exists c, compute_cost E g prop = Ok (c, s_res s')).
Proof.
  intros Hb H. destruct (trust_body_step _ _ _ _ _ _ Hb H) as (A & d & prop & c & r & q & Ht).
  exists A, d, prop, c, r, q. split; [auto|]. split.
  - apply (tr_current_accept E _ _ _ _ _ _ _ _ _ _ Ht).
  - intros Hq. split; [apply (tr_rej _ _ _ _ _ _ _ _ _ _ _ Ht Hq)|]. exists c.
    rewrite (tr_res _ _ _ _ _ _ _ _ _ _ _ Ht). apply (tr_cost _ _ _ _ _ _ _ _ _ _ _ Ht).
Qed.
End AnyNum.
