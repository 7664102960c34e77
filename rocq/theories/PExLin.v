(* Bundled statements and concrete instances for linear problems. *)
From Coq Require Import List Arith Bool ZArith Lia Permutation Reals Lra.
From Verif Require Import Num NumR Py Arr MLayout MAssign MNoise MSparse MFactor MGraph MLinear MSolver SpecLayout SpecTree SpecAssign SpecGraph SpecSparse SpecDeriv SpecSolver SpecOrder SpecInv SpecLin.
From Verif Require Import PBase PLayout PTree PVec PAssign PAssign2 PGraph PGraph2 PHold PExGraph PSolver PSolver2 PSolverR PInv PTotal PLin Ex ExG ExS PExInv PExOrder PExSym.
Import ListNotations.
Local Open Scope R_scope.

Section Any.
Variable E : env R.
Variable fs : list (factor R).
Variable g : graph R.
Hypothesis LP : linear_problem E fs.
Hypothesis WP : well_posed E fs.
Hypothesis Eg : graph_make E fs = Ok g.

Lemma cost_values a b val : assigns E fs a val -> assigns E fs b val -> compute_cost E g a = compute_cost E g b.
Proof.
  intros Ha Hb. destruct (posed_graph E fs WP) as (Hne & _ & Hrd & Hpd). destruct WP as [CO Hok Hws _ _]. destruct (made E fs g Hok Eg) as (Hg & _).
  assert (Hl : forall v, In v (mentioned fs) -> value_ok (e_cls E (v_ty v)) (val v)).
  { destruct Ha as (vs & Hwf & Hvs & Hval). intros v Hin. destruct (get_value_ok _ CO vs a v Hwf) as (x & Ex & Hx & _); [apply Hvs; auto|].
    rewrite Hval in Ex by (apply Hvs; auto). injection Ex as ->. auto. }
  destruct (residual_vector_ok E fs g a val Hok Hne Hg Ha) as (ws & H1 & H2); [intros; apply (ws_residual E fs Hws); auto|].
  destruct (residual_vector_ok E fs g b val Hok Hne Hg Hb) as (ws' & H1' & H2'); [intros; apply (ws_residual E fs Hws); auto|].
  unfold compute_cost. rewrite H2, H2'. rewrite H1 in H1'. injection H1' as <-. auto.
Qed.

Section Point.
Variables (z : assign R) (valz : var -> pytree R) (cz : R) (rz : list R).
Hypothesis Hz : assigns E fs z valz.
Hypothesis Ez : compute_cost E g z = Ok (cz, rz).

(* k steps from a *)
Lemma lin_rate step (Q : sstate R -> Prop) a val c0 r0 extra k st :
  (forall s s', inv E fs g s -> Q s -> step s = Ok s' -> inv E fs g s' /\ Q s' /\ progress E fs g s s') ->
  holds E fs a val -> compute_cost E g a = Ok (c0, r0) -> 0 <= extra -> Q (mkState 0 a c0 r0 false extra) ->
  iterate k step (mkState 0 a c0 r0 false extra) = Ok st -> (1 <= k)%nat ->
  inv E fs g st /\ s_cost st <= cz + (extra + 1 / 100000) * distance2 fs val valz / INR k /\ s_cost st <= c0.
Proof.
  intros Hst Ha Ec Hx Hq H Hk. destruct (posed_graph E fs WP) as (Hne & _ & Hrd & Hpd). pose proof WP as [CO Hok Hws _ _]. destruct (made E fs g Hok Eg) as (Hg & _).
  destruct (update_holds E CO fs z valz Hz) as (z' & Eu & Hz').
  assert (Ez' : compute_cost E g z' = Ok (cz, rz)) by (rewrite <- Ez; apply (cost_values z' z valz); auto; apply holds_assigns; auto).
  assert (Hi : inv E fs g (mkState 0 a c0 r0 false extra)) by (split; [split; [exact Ec | exists val; auto] | auto]).
  destruct (chain_mono E fs g step Q Hst k _ _ Hi Hq H) as (Hi' & Hm).
  pose proof (chain_rate E fs g step Q Hst z' valz cz rz k Hz' Ez' _ _ Hi Hq H) as Hr.
  unfold damping in Hr. cbn [s_extra s_assign s_cost] in Hr, Hm.
  rewrite (held_distance E fs LP CO a val z' valz Ha Hz') in Hr.
  split; auto. split; auto. assert (Hk' : 0 < INR k) by (apply lt_0_INR; lia).
  apply (Rmult_le_reg_l (INR k)); auto. replace (INR k * (cz + (extra + 1 / 100000) * distance2 fs val valz / INR k)) with (INR k * cz + (extra + 1 / 100000) * distance2 fs val valz) by (field; lra). auto.
Qed.

Lemma lin_gn_runs cfg a val c0 r0 k st : holds E fs a val -> compute_cost E g a = Ok (c0, r0) -> (1 <= k)%nat ->
  runs (gn_step E cfg cholmod_solve g) k (mkState 0 a c0 r0 false 0) st ->
  inv E fs g st /\ s_cost st <= cz + 1 / 100000 * distance2 fs val valz / INR k /\ s_cost st <= c0.
Proof.
  intros Ha Ec Hk Hr. destruct (posed_graph E fs WP) as (Hne & _ & Hrd & Hpd). pose proof WP as [CO Hok Hws _ _]. destruct (made E fs g Hok Eg) as (Hg & _).
  rewrite <- (Rplus_0_l (1 / 100000)).
  apply (lin_rate (gn_step E cfg cholmod_solve g) (fun s => s_extra s = 0) a val c0 r0 0 k st); auto; [|lra | apply runs_iterate; auto].
  intros s s' H1 H2 H3. apply (gn_lin E fs g LP CO Hok Hg Hne Hrd Hws cfg); auto.
Qed.
Lemma lin_lm_runs cfg a val c0 r0 k st : 0 <= lambda_initial cfg -> 1 <= lambda_factor cfg -> 0 <= lambda_min cfg -> lm_quality_min cfg <= 1 ->
  holds E fs a val -> compute_cost E g a = Ok (c0, r0) -> (1 <= k)%nat ->
  runs (lm_step E cfg cholmod_solve g) k (mkState 0 a c0 r0 false (lambda_initial cfg)) st ->
  inv E fs g st /\ s_cost st <= cz + (lambda_initial cfg + 1 / 100000) * distance2 fs val valz / INR k /\ s_cost st <= c0.
Proof.
  intros H1 H2 H3 H4 Ha Ec Hk Hr. destruct (posed_graph E fs WP) as (Hne & _ & Hrd & Hpd). pose proof WP as [CO Hok Hws _ _]. destruct (made E fs g Hok Eg) as (Hg & _).
  apply (lin_rate (lm_step E cfg cholmod_solve g) (fun s => True) a val c0 r0 (lambda_initial cfg) k st); auto; [|apply runs_iterate; auto].
  intros s s' H5 _ H6. apply (lm_lin E fs g LP CO Hok Hg Hne Hrd Hws cfg); auto.
Qed.
Lemma lin_fixed fuel unroll it init val0 : assigns E fs init val0 -> same_layout (as_layout init) (g_layout g) -> (1 <= it)%Z -> (Z.to_nat it <= fuel)%nat ->
  exists a' c r, fixed_solve E fuel unroll it cholmod_solve g init = Some (Ok a') /\ compute_cost E g a' = Ok (c, r) /\
    c <= cz + 1 / 100000 * distance2 fs val0 valz / IZR it.
Proof.
  intros Hi Hs Hit Hf. destruct (posed_graph E fs WP) as (Hne & _ & Hrd & Hpd). pose proof WP as [CO Hok Hws _ _]. destruct (made E fs g Hok Eg) as (Hg & _).
  assert (Ha : holds E fs init val0). { destruct Hi as (vs & H1 & H2 & H3). exists vs. split; auto. split; [rewrite <- (ig_layout _ _ _ Hg); auto|]. intros v Hv. apply H3, H2; auto. }
  destruct (cost_total E CO fs g Hok Hg Hne Hws init (ex_intro _ val0 Ha)) as (c0 & r0 & Ec & Hl).
  set (s0 := mkState 0 init c0 r0 false 0).
  assert (Hr0 : ready E fs s0) by (split; [exists val0; auto | auto]).
  destruct (iterate_total E fs (fixed_step E it cholmod_solve g) (fun s => fixed_total E CO fs g Hok Hg Hne Hrd Hws cholmod_solve cholmod_total it s) (Z.to_nat it) s0 Hr0) as (st & Est & Hst).
  destruct (lin_rate (fixed_step E it cholmod_solve g) (fun s => s_extra s = 0) init val0 c0 r0 0 (Z.to_nat it) st) as (Hinv & Hrate & _); auto; [|lra|lia|].
  { intros s s' H1 H2 H3. apply (fixed_lin E fs g LP CO Hok Hg Hne Hrd Hws it); auto. }
  exists (s_assign st), (s_cost st), (s_res st). split; [|split; [apply Hinv|]].
  - unfold fixed_solve, init_state. rewrite Ec. cbn [bind fst snd]. change n0 with 0. fold s0. rewrite Est.
    destruct unroll; [reflexivity|]. destruct (Z.to_nat it) as [|k] eqn:Ek; [lia|].
    rewrite (fixed_loop E cholmod_solve g it k fuel s0); auto; [rewrite Est; auto|]. cbn. lia.
  - rewrite Rplus_0_l in Hrate. rewrite INR_IZR_INZ, Z2Nat.id in Hrate by lia. auto.
Qed.

Lemma lin_solve step extra fuel init val0 a' :
  (forall a val c0 r0 k st, holds E fs a val -> compute_cost E g a = Ok (c0, r0) -> (1 <= k)%nat -> runs (step g) k (mkState 0 a c0 r0 false extra) st ->
     inv E fs g st /\ s_cost st <= cz + (extra + 1 / 100000) * distance2 fs val valz / INR k /\ s_cost st <= c0) -> 0 <= extra ->
  assigns E fs init val0 -> solve_with E fuel step extra g init = Some (Ok a') ->
  exists c r, compute_cost E g a' = Ok (c, r) /\ c <= cz + (extra + 1 / 100000) * distance2 fs val0 valz.
Proof.
  intros Hrun Hx Hi H. pose proof WP as [CO Hok Hws _ _]. destruct (made E fs g Hok Eg) as (Hg & _).
  unfold solve_with in H. rewrite (ig_layout _ _ _ Hg) in H. destruct (update_holds E CO fs init val0 Hi) as (a & Eu & Ha). rewrite Eu in H.
  unfold init_state in H. destruct (compute_cost E g a) as [[c0 r0]|] eqn:Ec; cbn [bind fst snd] in H; [|discriminate].
  destruct (while_loop fuel _ (step g) _) as [[st|]|] eqn:Ew; try discriminate. injection H as H.
  destruct (while_runs _ _ _ _ Ew) as (k & _ & Hr & Hd).
  assert (Hk : (1 <= k)%nat). { destruct k; [|lia]. inversion Hr; subst. discriminate. }
  destruct (Hrun a val0 c0 r0 k st Ha Ec Hk Hr) as (((Hc & val' & Hh) & _) & Hle & _).
  destruct (update_back E CO fs (s_assign st) val' init val0 Hh Hi) as (a1 & Eb & Ha1). rewrite H in Eb. injection Eb as <-.
  exists (s_cost st), (s_res st). split.
  - rewrite (cost_values a' (s_assign st) val'); auto. apply holds_assigns; auto.
  - assert (HD : 0 <= distance2 fs val0 valz).
    { unfold distance2. generalize (mentioned fs). induction l as [|v l IH]; [simpl map; rewrite vsum_nil; lra|]. simpl map. rewrite vsum_cons. pose proof (sumsq_nonneg (vsub (ravel (valz v)) (ravel (val0 v)))). lra. }
    assert (1 <= INR k) by (apply (le_INR 1 k) in Hk; simpl in Hk; auto).
    assert (HP : 0 <= (extra + 1 / 100000) * distance2 fs val0 valz) by (apply Rmult_le_pos; lra).
    assert (Hq : (extra + 1 / 100000) * distance2 fs val0 valz / INR k <= (extra + 1 / 100000) * distance2 fs val0 valz).
    { apply (Rmult_le_reg_r (INR k)); [lra|]. unfold Rdiv. rewrite Rmult_assoc, Rinv_l by lra. nra. }
    lra.
Qed.
End Point.
End Any.

Lemma linear_solves E fs g : linear_problem E fs -> well_posed E fs -> graph_make E fs = Ok g ->
  forall init val0 z valz cz rz, assigns E fs init val0 -> assigns E fs z valz -> compute_cost E g z = Ok (cz, rz) ->
  (forall cfg fuel a', gn_solve E fuel cfg cholmod_solve g init = Some (Ok a') ->
     exists c r, compute_cost E g a' = Ok (c, r) /\ c <= cz + 1 / 100000 * distance2 fs val0 valz) /\
  (forall cfg fuel a', 0 <= lambda_initial cfg -> 1 <= lambda_factor cfg -> 0 <= lambda_min cfg -> lm_quality_min cfg <= 1 ->
     lm_solve E fuel cfg cholmod_solve g init = Some (Ok a') ->
     exists c r, compute_cost E g a' = Ok (c, r) /\ c <= cz + (lambda_initial cfg + 1 / 100000) * distance2 fs val0 valz) /\
  (forall fuel unroll it, same_layout (as_layout init) (g_layout g) -> (1 <= it)%Z -> (Z.to_nat it <= fuel)%nat ->
     exists a' c r, fixed_solve E fuel unroll it cholmod_solve g init = Some (Ok a') /\ compute_cost E g a' = Ok (c, r) /\
       c <= cz + 1 / 100000 * distance2 fs val0 valz / IZR it).
Proof.
  intros LP WP Eg init val0 z valz cz rz Hi Hz Ez. split; [|split].
  - intros cfg fuel a' H. rewrite <- (Rplus_0_l (1 / 100000)).
    apply (lin_solve E fs g WP Eg valz cz (gn_step E cfg cholmod_solve) 0 fuel init val0 a'); auto; [|lra].
    intros a val c0 r0 k st H1 H2 H3 H4. rewrite Rplus_0_l. eapply lin_gn_runs; eauto.
  - intros cfg fuel a' H1 H2 H3 H4 H.
    apply (lin_solve E fs g WP Eg valz cz (lm_step E cfg cholmod_solve) (lambda_initial cfg) fuel init val0 a'); auto.
    intros a val c0 r0 k st H5 H6 H7 H8. eapply lin_lm_runs; eauto.
  - intros fuel unroll it H1 H2 H3. eapply lin_fixed; eauto.
Qed.

Lemma linear_runs E fs g : linear_problem E fs -> well_posed E fs -> graph_make E fs = Ok g ->
  forall a val c0 r0 z valz cz rz, assigns E fs a val -> same_layout (as_layout a) (g_layout g) -> compute_cost E g a = Ok (c0, r0) ->
  assigns E fs z valz -> compute_cost E g z = Ok (cz, rz) -> forall k st, (1 <= k)%nat ->
  (forall cfg, runs (gn_step E cfg cholmod_solve g) k (mkState 0 a c0 r0 false 0) st ->
     current E g st /\ s_cost st <= c0 /\ s_cost st <= cz + 1 / 100000 * distance2 fs val valz / INR k) /\
  (forall cfg, 0 <= lambda_initial cfg -> 1 <= lambda_factor cfg -> 0 <= lambda_min cfg -> lm_quality_min cfg <= 1 ->
     runs (lm_step E cfg cholmod_solve g) k (mkState 0 a c0 r0 false (lambda_initial cfg)) st ->
     current E g st /\ s_cost st <= c0 /\ s_cost st <= cz + (lambda_initial cfg + 1 / 100000) * distance2 fs val valz / INR k).
Proof.
  intros LP WP Eg a val c0 r0 z valz cz rz Ha Hs Ec Hz Ez k st Hk. pose proof WP as [CO Hok Hws _ _]. destruct (made E fs g Hok Eg) as (Hg & _).
  assert (Hh : holds E fs a val). { destruct Ha as (vs & H1 & H2 & H3). exists vs. split; auto. split; [rewrite <- (ig_layout _ _ _ Hg); auto|]. intros v Hv. apply H3, H2; auto. }
  split; [intros cfg Hr | intros cfg H1 H2 H3 H4 Hr].
  - destruct (lin_gn_runs E fs g LP WP Eg z valz cz rz Hz Ez cfg a val c0 r0 k st) as (((Hc & _) & _) & H5 & H6); auto.
  - destruct (lin_lm_runs E fs g LP WP Eg z valz cz rz Hz Ez cfg a val c0 r0 k st) as (((Hc & _) & _) & H5 & H6); auto.
Qed.

(* ---- a chain of two scalars with contradicting measurements ---- *)
(* class 21: x - z, class 22: y - x - z *)
Definition exLE : env R := mkEnv exC
  (fun fd vals => match fd_cls fd, vals with
     | 21%nat, [x] => vsub (ravel x) (par fd)
     | 22%nat, [x; y] => vsub (vsub (ravel y) (ravel x)) (par fd)
     | _, _ => []
     end)
  (fun fd vals => match fd_cls fd, vals with
     | 21%nat, _ => [[[1]]]
     | 22%nat, _ => [[[-1]]; [[1]]]
     | _, _ => []
     end).
Definition chain_fs : list (factor R) :=
  [anchor vx 1; mkFactor 22 [vx; vy] (DiagGaussian (mkArr [1%nat] [2])) [leaf1 [2]]; anchor vy 7].

Lemma chain_factors f : In f chain_fs -> factor_ok f.
Proof. intros [<-|[<-|[<-|[]]]]; (split; [split; [reflexivity | exists 1%nat; reflexivity] | repeat constructor]). Qed.
Lemma chain_linear : linear_problem exLE chain_fs.
Proof.
  assert (Hs : forall f val v, legal_for exLE f val -> In v (f_vars f) -> v_ty v = 2%nat -> exists r, val v = leaf1 [r]).
  { intros f val v Hl Hv Ht. specialize (Hl v Hv). rewrite Ht in Hl. apply scalar_shape in Hl. auto. }
  split.
  - intros v [<-|[<-|[]]]; split; reflexivity.
  - intros f [<-|[<-|[<-|[]]]]; exact I.
  - intros f val val' [<-|[<-|[<-|[]]]] _ _; reflexivity.
  - intros f val val' [<-|[<-|[<-|[]]]] Hl Hl'; unfold residual_at, jacobians_at, jacobian_times_change; cbn [map f_vars anchor zipw jacobians_at e_jac exLE exSE anonymize fd_cls f_cls fold_right].
    + destruct (Hs _ _ vx Hl (or_introl eq_refl) eq_refl) as (r & ->). destruct (Hs _ _ vx Hl' (or_introl eq_refl) eq_refl) as (r' & ->).
      comp. unfold Rlit. f_equal. lra.
    + destruct (Hs _ _ vx Hl (or_introl eq_refl) eq_refl) as (r & ->). destruct (Hs _ _ vx Hl' (or_introl eq_refl) eq_refl) as (r' & ->).
      destruct (Hs _ _ vy Hl (or_intror (or_introl eq_refl)) eq_refl) as (q & ->). destruct (Hs _ _ vy Hl' (or_intror (or_introl eq_refl)) eq_refl) as (q' & ->).
      comp. unfold Rlit. f_equal. lra.
    + destruct (Hs _ _ vy Hl (or_introl eq_refl) eq_refl) as (r & ->). destruct (Hs _ _ vy Hl' (or_introl eq_refl) eq_refl) as (r' & ->).
      comp. unfold Rlit. f_equal. lra.
Qed.
Lemma chain_posed : well_posed exLE chain_fs.
Proof.
  split.
  - intros [|[|t]]; repeat constructor.
  - exact chain_factors.
  - split.
    + intros val f Hv Hf. assert (Hx : exists x, val vx = leaf1 [x]) by (apply scalar_shape, (Hv vx); left; auto).
      assert (Hy : exists x, val vy = leaf1 [x]) by (apply scalar_shape, (Hv vy); right; left; auto). destruct Hx as (x & Ex), Hy as (y & Ey).
      destruct Hf as [<-|[<-|[<-|[]]]]; unfold residual_shape_ok, residual_at; simpl map; rewrite ?Ex, ?Ey; reflexivity.
    + intros val f Hv [<-|[<-|[<-|[]]]]; repeat constructor.
    + intros v x d [<-|[<-|[]]] Hx' Hd; destruct (scalar_shape x Hx') as (r & ->);
      (destruct d as [|e [|? ?]]; try discriminate Hd; eexists; (split; [reflexivity | split; repeat constructor])).
  - exists (anchor vx 1). split; [left; auto | discriminate].
  - exists vx. split; [left; auto | discriminate].
Qed.
Lemma chain_assigns x y : assigns exLE chain_fs (scalars [vx; vy] [x; y]) (fun v => if Nat.eqb (v_id v) 0 then leaf1 [x] else leaf1 [y]).
Proof.
  exists [vx; vy]. split; [split; [repeat constructor; simpl; intuition discriminate | split; reflexivity]|]. split; [intros v; reflexivity|]. intros v [<-|[<-|[]]]; reflexivity.
Qed.
Lemma linear_example : linear_problem exLE chain_fs /\ well_posed exLE chain_fs /\
  (exists g, graph_make exLE chain_fs = Ok g /\ exists c r, compute_cost exLE g (scalars [vx; vy] [1; 7]) = Ok (c, r) /\ c = 64) /\
  assigns exLE chain_fs (scalars [vx; vy] [0; 0]) (fun v => if Nat.eqb (v_id v) 0 then leaf1 [0] else leaf1 [0]) /\
  assigns exLE chain_fs (scalars [vx; vy] [1; 7]) (fun v => if Nat.eqb (v_id v) 0 then leaf1 [1] else leaf1 [7]).
Proof.
  split; [exact chain_linear|]. split; [exact chain_posed|]. split; [|split; apply chain_assigns].
  eexists. split; [reflexivity|]. do 2 eexists. split; [comp; reflexivity|]. unfold Rlit. lra.
Qed.

(* the regulariser keeps Gauss-Newton from the minimiser *)
Lemma anchor_linear : linear_problem exSE one_anchor.
Proof.
  split.
  - intros v [<-|[]]; split; reflexivity.
  - intros f [<-|[]]; exact I.
  - intros f val val' [<-|[]] _ _; reflexivity.
  - intros f val val' [<-|[]] Hl Hl'; unfold residual_at, jacobians_at, jacobian_times_change; cbn [map f_vars anchor zipw jacobians_at e_jac exLE exSE anonymize fd_cls f_cls fold_right].
    destruct (scalar_shape _ (Hl vx (or_introl eq_refl))) as (r & ->). destruct (scalar_shape _ (Hl' vx (or_introl eq_refl))) as (r' & ->).
    comp. unfold Rlit. f_equal. lra.
Qed.
Lemma not_exact : exists (E : env R) fs g init z val valz cz rz a' c r, linear_problem E fs /\ well_posed E fs /\ graph_make E fs = Ok g /\
  assigns E fs init val /\ assigns E fs z valz /\ compute_cost E g z = Ok (cz, rz) /\
  gn_solve E 2 (term_default 2) cholmod_solve g init = Some (Ok a') /\ compute_cost E g a' = Ok (c, r) /\ cz < c.
Proof.
  exists exSE, one_anchor, (graph_of one_anchor), (scalars [vx] [0]), (scalars [vx] [1]), (fun _ => leaf1 [0]), (fun _ => leaf1 [1]).
  do 2 eexists. exists (scalars [vx] [100000/100001 + 100000/100001 * (1/100001)]). do 2 eexists.
  split; [exact anchor_linear|]. split; [exact anchor_posed|]. split; [reflexivity|]. do 2 (split; [apply scalar_assigns|]).
  split; [comp; reflexivity|]. split; [exact near_stop|]. split; [comp; reflexivity|]. unfold Rlit.
  match goal with |- ?a < ?b => replace a with 0 by field; replace b with ((1/100001 * (1/100001)) * (1/100001 * (1/100001))) by field end.
  repeat apply Rmult_lt_0_compat; lra.
Qed.
