(* Bundled statements and concrete instances: Gauss-Newton on linear residuals under Huber noise. *)
From Coq Require Import List Arith Bool ZArith Lia Permutation Reals Lra Psatz.
From Verif Require Import Num NumR Py Arr MLayout MAssign MNoise MSparse MFactor MGraph MLinear MSolver SpecLayout SpecTree SpecAssign SpecGraph SpecSparse SpecDeriv SpecNoise SpecSolver SpecOrder SpecInv SpecLin SpecCgLin SpecLoss SpecTrCg SpecLocal SpecHalt SpecRobust.
From Verif Require Import PBase PLayout PTree PVec PSparse PAssign PAssign2 PGraph PGraph2 PHold PExGraph PSolver PSolver2 PSolverR PDescent PLinear PInv PTotal PCg PLin PLinDl PLinCg PLocal PNear PLinTr PHalt PRobust PRobust2 PRobust3 PRobust4 PRobust5 Ex ExG ExS PExInv PExSolver PExOrder PExSym PExTwin PExLoss PExLin PExLinCg PExLinDl PExLocal PExSuper PExNear PExLinTr PExHalt PExPart.
Import ListNotations.
Local Open Scope R_scope.

Lemma gn_moved E g lin step s s' : gauss_newton_iteration E g lin step -> step s = Ok s' -> moved E g lin s s'.
Proof.
  intros [(cfg & ->)|(it & ->)] H; [unfold gn_step in H | unfold fixed_step in H]; apply bind_ok in H; destruct H as (((b & d) & a') & Eu & H); apply bind_ok in H; destruct H as ((c & r) & Ec & H).
  - apply bind_ok in H. destruct H as (conv & _ & H). injection H as <-. exists b, d. cbn. auto.
  - injection H as <-. exists b, d. cbn. auto.
Qed.

Section Bundle.
Variable E : env R.
Variable fs : list (factor R).
Variable g : graph R.
Hypothesis RP : robust_problem E fs.
Hypothesis WP : well_posed E fs.
Hypothesis Eg : graph_make E fs = Ok g.
Notation n := (l_dim (graph_layout E fs true)).
Notation fresh := (fresh E fs g).

Lemma at_fresh s val : at_values E fs g s val -> fresh s /\ holds E fs (s_assign s) val.
Proof. intros (H1 & H2 & H3). pose proof (lin_holds E fs g WP Eg _ _ H1 H2) as Hh. split; auto. split; [exact H3 | exists val; auto]. Qed.
Lemma start_exists : exists s val A, fresh s /\ holds E fs (s_assign s) val /\ compute_whitened_residual_jacobian E g (s_assign s) (s_res s) = Ok A.
Proof.
  destruct (posed_graph E fs WP) as (Hne & _ & Hrd & Hpd). pose proof WP as [CO Hok Hws _ _]. destruct (made E fs g Hok Eg) as (Hg & _).
  destruct (default_holds E fs WP) as (a & val & Ha). destruct (cost_total E CO fs g Hok Hg Hne Hws a (ex_intro _ val Ha)) as (c0 & r0 & Ec & Hl).
  assert (Hf : fresh (mkState 0 a c0 r0 false 0)) by (split; [exact Ec | exists val; auto]).
  destruct (jac_of E fs g CO Hok Hg Hne Hrd Hws _ Hf) as (A & EA & _). exists (mkState 0 a c0 r0 false 0), val, A. auto.
Qed.
Lemma robust_bounds : exists sigma F sr valr, 0 < sigma <= F /\ holds E fs (s_assign sr) valr /\
  (forall x, length x = n -> exists p, length p = n /\ sigma * sumsq p <= bare_form E fs valr x /\
     forall s A, fresh s -> compute_whitened_residual_jacobian E g (s_assign s) (s_res s) = Ok A -> mapply A p = mapply A x) /\
  forall s A, fresh s -> compute_whitened_residual_jacobian E g (s_assign s) (s_res s) = Ok A ->
    (forall x, length x = n -> sumsq (mapply A x) <= F * sumsq x) /\ (forall y, diag_form A y y <= F * sumsq y).
Proof.
  destruct (posed_graph E fs WP) as (Hne & _ & Hrd & Hpd). pose proof WP as [CO Hok Hws _ _]. destruct (made E fs g Hok Eg) as (Hg & _).
  destruct start_exists as (sr & valr & Ar & Hfr & Hhr & EAr). pose proof (holds_legal E fs CO _ _ Hhr) as Hlr.
  destruct (bounds E fs g RP CO Hok Hg Hne Hrd Hws sr valr Ar Hfr Hhr EAr) as (sigma & F & HsF & Hup & _ & Hlow).
  destruct (diag_uniform E fs g RP CO Hok Hg Hne Hrd Hws valr Hlr) as (Q & HQ & HD).
  exists sigma, (F + Q), sr, valr. split; [lra|]. split; auto. split; auto. intros s A Hf EA. split.
  - intros x Hx. pose proof (Hup s A Hf EA x Hx). pose proof (sumsq_nonneg x). assert (0 <= Q * sumsq x) by (apply Rmult_le_pos; auto). lra.
  - intros y. pose proof (HD s A Hf EA y). pose proof (sumsq_nonneg y). assert (0 <= F * sumsq y) by (apply Rmult_le_pos; auto; lra). lra.
Qed.
Lemma column_at : every_column E fs g -> forall s A, fresh s -> compute_whitened_residual_jacobian E g (s_assign s) (s_res s) = Ok A -> no_zero_column A.
Proof.
  destruct (posed_graph E fs WP) as (Hne & _ & Hrd & Hpd). pose proof WP as [CO Hok Hws _ _]. destruct (made E fs g Hok Eg) as (Hg & _).
  intros (a & val & c & r & A0 & H1 & H2 & H3 & H4 & H5). pose proof (lin_holds E fs g WP Eg _ _ H1 H2) as Ha.
  intros s A Hf EA. apply (columns_everywhere E fs g RP CO Hok Hg Hne Hrd Hws val (holds_legal E fs CO _ _ Ha) (mkState 0 a c r false 0) A0) with (s := s); auto. split; [exact H3 | exists val; auto].
Qed.

Lemma share_ok sigma F lin q : 0 < sigma <= F -> solver_share E fs g sigma F lin q -> 0 < q <= 1 /\ q / sigma <= / F.
Proof.
  intros Hs [|tol t _ Ht Ht1].
  - assert (Hi : / (F + 1 / 100000) <= / F) by (apply Rinv_le_contravar; lra). replace (sigma / (F + 1 / 100000) / sigma) with (/ (F + 1 / 100000)) by (field; lra). split; auto.
    split; [apply Rdiv_lt_0_compat; lra|]. apply (Rmult_le_reg_r (F + 1 / 100000)); [lra|]. replace (sigma / (F + 1 / 100000) * (F + 1 / 100000)) with sigma by (field; lra). lra.
  - assert (Ht0 : 0 <= t < 1) by (pose proof (Rabs_pos (tol 0%nat)); pose proof (Ht 0%nat); lra). assert (Hsq : 0 < (1 - t) * (1 - t) <= 1) by nra.
    replace ((1 - t) * (1 - t) * sigma / F / sigma) with ((1 - t) * (1 - t) * / F) by (field; lra). assert (Hi : 0 < / F) by (apply Rinv_0_lt_compat; lra). split; [|nra].
    split; [apply Rdiv_lt_0_compat; nra|]. apply (Rmult_le_reg_r F); [lra|]. replace ((1 - t) * (1 - t) * sigma / F * F) with ((1 - t) * (1 - t) * sigma) by (field; lra). nra.
Qed.
Lemma share_total sigma F lin q : solver_share E fs g sigma F lin q -> total_solver lin.
Proof. intros [|tol t _ _ _]; [apply cholmod_total | apply cg_total]. Qed.

Lemma robust_iterates : exists sigma F, 0 < sigma <= F /\ forall level, exists mu, 0 < mu <= 1 /\
  forall lin q step, solver_share E fs g sigma F lin q -> gauss_newton_iteration E g lin step ->
  0 < mu * q <= 1 /\
  forall k s val s', at_values E fs g s val -> total_loss E fs val <= level -> iterate k step s = Ok s' ->
  exists val', at_values E fs g s' val' /\ total_loss E fs val' <= total_loss E fs val /\
   forall z valz, assigns E fs z valz ->
     total_loss E fs val' - total_loss E fs valz <= (1 - mu * q) ^ k * (total_loss E fs val - total_loss E fs valz).
Proof.
  destruct (posed_graph E fs WP) as (Hne & _ & Hrd & Hpd). pose proof WP as [CO Hok Hws _ _]. destruct (made E fs g Hok Eg) as (Hg & _).
  destruct robust_bounds as (sigma & F & sr & valr & HsF & Hhr & Hlow & Hup). exists sigma, F. split; auto. intros level.
  destruct (level_modulus (map f_noise fs) level) as (mu & Hmu & HM). { intros nm Hin. apply in_map_iff in Hin. destruct Hin as (f & <- & Hf). apply (rp_noise _ _ RP f Hf). }
  exists mu. split; auto. intros lin q step Hsh Hst. destruct (share_ok sigma F lin q HsF Hsh) as (Hq & HqF).
  set (kappa := q / sigma) in *. assert (Hkap : 0 < kappa <= / F) by (split; [apply Rdiv_lt_0_compat; lra | auto]).
  assert (Hlin : forall s A, fresh s -> compute_whitened_residual_jacobian E g (s_assign s) (s_res s) = Ok A ->
    exists x, lin A (mapply (transpose A) (vneg (s_res s))) 0 (s_iter s) = Ok x /\ length x = n /\ kappa * sumsq (mapply (transpose A) (vneg (s_res s))) <= vdot x (mapply (transpose A) (vneg (s_res s))) /\ sumsq (mapply A x) <= vdot x (mapply (transpose A) (vneg (s_res s)))).
  { intros s A Hf EA. destruct (Hup s A Hf EA) as (U1 & U2). destruct Hsh as [|tol t Hc Ht Ht1].
    - destruct (cholmod_part E fs g CO Hok Hg Hne Hrd Hws F s A ltac:(lra) U1 Hf EA) as (x & X1 & X2 & X3 & X4). exists x. do 2 (split; auto). split; auto.
      unfold kappa. replace (sigma / (F + 1 / 100000) / sigma) with (/ (F + 1 / 100000)) by (field; lra). auto.
    - pose proof (column_at Hc s A Hf EA) as Hz.
      destruct (cg_takes E fs g CO Hok Hg Hne Hrd Hws F t tol s A ltac:(lra) U1 U2 Hz Ht Ht1 Hf EA) as (x & X1 & X2 & X3 & X4). exists x. do 2 (split; auto). split; auto.
      unfold kappa. replace ((1 - t) * (1 - t) * sigma / F / sigma) with ((1 - t) * (1 - t) / F) by (field; lra). auto. }
  assert (Hmq : mu * sigma * kappa = mu * q) by (unfold kappa; field; lra). assert (Hr : 0 < mu * q <= 1) by nra. split; auto.
  induction k as [|k IH]; intros s val s' Ha Hl H.
  - injection H as <-. exists val. split; auto. split; [lra|]. intros. cbn [pow]. lra.
  - destruct (iterate_last _ _ _ _ H) as (s1 & H1 & H2). destruct (IH s val s1 Ha Hl H1) as (v1 & Ha1 & Hl1 & He1). destruct (at_fresh _ _ Ha1) as (Hf1 & Hh1).
    destruct (loss_falls E fs g RP CO Hok Hg Hne Hrd Hws sr valr Hhr sigma F HsF Hlow level mu Hmu HM lin kappa Hkap Hlin s1 v1 s' Hf1 Hh1 (gn_moved E g lin step s1 s' Hst H2)) as (Hf' & v' & Hh' & Hle & Hz).
    exists v'. split; [apply (fresh_at E fs g WP Eg); auto|]. split; [lra|]. intros z valz Hzz. specialize (He1 z valz Hzz).
    destruct (Rle_dec (total_loss E fs valz) level) as [Hlz|Hlz].
    2:{ assert (0 <= (1 - mu * q) ^ S k <= 1) by (split; [apply pow_le; lra | apply Rle_trans with (1 ^ S k); [apply pow_incr; lra | rewrite pow1; lra]]).
      assert (Hn : total_loss E fs val - total_loss E fs valz <= 0) by lra. set (p := (1 - mu * q) ^ S k) in *. nra. }
    destruct (update_holds E CO fs z valz Hzz) as (z' & _ & Hz').
    specialize (Hz z' valz Hz' ltac:(lra) Hlz). rewrite Hmq in Hz. cbn [pow].
    assert ((1 - mu * q) * (total_loss E fs v1 - total_loss E fs valz) <= (1 - mu * q) * ((1 - mu * q) ^ k * (total_loss E fs val - total_loss E fs valz))) by (apply Rmult_le_compat_l; lra). lra.
Qed.
Lemma rest_least s val gr : at_values E fs g s val -> half_gradient E g s gr -> (gr = vzero n <-> least_loss E fs val).
Proof.
  destruct (posed_graph E fs WP) as (Hne & _ & Hrd & Hpd). pose proof WP as [CO Hok Hws _ _]. destruct (made E fs g Hok Eg) as (Hg & _).
  destruct robust_bounds as (sigma & F & sr & valr & HsF & Hhr & Hlow & Hup). intros Ha (A & EA & EG). destruct (at_fresh _ _ Ha) as (Hf & Hh).
  destruct (jac_of E fs g CO Hok Hg Hne Hrd Hws s Hf) as (A' & EA' & HA & Hsh & Hm & Hw). rewrite EA in EA'. injection EA' as <-.
  assert (Hm' : length (s_res s) = fst (m_shape A)) by (rewrite Hsh; auto).
  rewrite matmul_mapply in EG by (auto using transpose_ok). injection EG as <-. set (c := mapply (transpose A) (vneg (s_res s))).
  assert (Hgl : length (mapply (transpose A) (s_res s)) = n) by (rewrite mapply_length; cbn; rewrite Hsh; auto).
  assert (Hcg : vneg (mapply (transpose A) (s_res s)) = c) by (apply neg_gradient; auto).
  assert (Hss : sumsq c = sumsq (mapply (transpose A) (s_res s))) by (rewrite <- Hcg, !sumsq_dot, vdot_neg_r, vdot_comm, vdot_neg_r; lra).
  split.
  - intros Hz z valz Hzz. rewrite Hz in Hss. replace (sumsq (vzero n)) with 0 in Hss by (rewrite sumsq_dot, vdot_zero_l; auto).
    destruct (update_holds E CO fs z valz Hzz) as (z' & _ & Hz'). set (level := Rmax (total_loss E fs val) (total_loss E fs valz)).
    destruct (level_modulus (map f_noise fs) level) as (mu & Hmu & HM). { intros nm Hin. apply in_map_iff in Hin. destruct Hin as (f & <- & Hin). apply (rp_noise _ _ RP f Hin). }
    pose proof (loss_excess E fs g RP CO Hok Hg Hne Hrd Hws sr valr Hhr sigma F HsF Hlow level mu Hmu HM s val A z' valz Hf Hh EA Hz' (Rmax_l _ _) (Rmax_r _ _)) as Hex.
    fold c in Hex. rewrite Hss in Hex. assert (Hp : 0 < 2 * mu * sigma) by (repeat apply Rmult_lt_0_compat; lra).
    assert (total_loss E fs val - total_loss E fs valz <= 0); [|lra]. apply (Rmult_le_reg_l (2 * mu * sigma)); auto. lra.
  - intros Hleast. assert (HF : 0 < F) by lra. set (t := / F). assert (Ht : t * F = 1) by (unfold t; field; lra).
    assert (Hc : length c = n) by (unfold c; rewrite mapply_length; cbn; rewrite Hsh; auto).
    assert (Hx : length (vscale t c) = n) by (rewrite vscale_length; auto).
    destruct (pl_retract E fs (rp_plain _ _ RP) CO Hws (s_assign s) val (vscale t c) Hh Hx) as (a2 & val2 & Er2 & Hh2 & Hst2).
    destruct (step_forms E fs g RP CO Hok Hg Hne Hrd Hws valr (holds_legal E fs CO _ _ Hhr) (s_assign s) val (s_res s) A (vscale t c) Hh Hw EA Hx) as (_ & H2 & _ & _).
    specialize (H2 _ _ Hh2 Hst2). rewrite (ngrad_dot E fs A s (vscale t c)) in H2 by auto. fold c in H2. pose proof (proj1 (Hup s A Hf EA) (vscale t c) Hx) as HU.
    rewrite vdot_scale_l, <- sumsq_dot in H2. rewrite sumsq_scale in HU. specialize (Hleast a2 val2 (holds_assigns E fs _ _ Hh2)).
    assert (Ht0 : 0 < t) by (apply Rinv_0_lt_compat; auto). assert (HS : sumsq c <= 0).
    { replace (F * (t * t * sumsq c)) with ((t * F) * (t * sumsq c)) in HU by ring. rewrite Ht in HU. apply (Rmult_le_reg_l t); auto. lra. }
    assert (H0 : sumsq (mapply (transpose A) (s_res s)) = 0) by (rewrite <- Hss; apply Rle_antisym; [auto | apply sumsq_nonneg]). apply sumsq_zero in H0. rewrite Hgl in H0. auto.
Qed.
End Bundle.

Lemma robust_steps : forall (E : env R) fs g, robust_problem E fs -> well_posed E fs -> graph_make E fs = Ok g ->
  exists sigma F, 0 < sigma <= F /\ forall level, exists mu, 0 < mu <= 1 /\
  forall lin q step, solver_share E fs g sigma F lin q -> gauss_newton_iteration E g lin step ->
  0 < mu * q <= 1 /\
  forall k s val s', at_values E fs g s val -> total_loss E fs val <= level -> iterate k step s = Ok s' ->
  exists val', at_values E fs g s' val' /\ total_loss E fs val' <= total_loss E fs val /\
   forall z valz, assigns E fs z valz ->
     total_loss E fs val' - total_loss E fs valz <= (1 - mu * q) ^ k * (total_loss E fs val - total_loss E fs valz).
Proof. intros E fs g RP WP Eg. apply (robust_iterates E fs g RP WP Eg). Qed.
Lemma robust_solves : forall (E : env R) fs g, robust_problem E fs -> well_posed E fs -> graph_make E fs = Ok g ->
  exists sigma F, 0 < sigma <= F /\ forall level, exists mu, 0 < mu <= 1 /\
  forall lin q, solver_share E fs g sigma F lin q -> 0 < mu * q <= 1 /\
  forall init val, assigns E fs init val -> total_loss E fs val <= level ->
  (forall cfg fuel, (iteration_cap (max_iterations cfg) <= fuel)%nat ->
     exists a' k val', gn_solve E fuel cfg lin g init = Some (Ok a') /\ (1 <= k <= iteration_cap (max_iterations cfg))%nat /\ assigns E fs a' val' /\
       total_loss E fs val' <= total_loss E fs val /\
       forall z valz, assigns E fs z valz ->
         total_loss E fs val' - total_loss E fs valz <= (1 - mu * q) ^ k * (total_loss E fs val - total_loss E fs valz)) /\
  (forall fuel unroll it, same_layout (as_layout init) (g_layout g) -> (1 <= it)%Z -> (Z.to_nat it <= fuel)%nat ->
     exists a' val', fixed_solve E fuel unroll it lin g init = Some (Ok a') /\ assigns E fs a' val' /\
       total_loss E fs val' <= total_loss E fs val /\
       forall z valz, assigns E fs z valz ->
         total_loss E fs val' - total_loss E fs valz <= (1 - mu * q) ^ (Z.to_nat it) * (total_loss E fs val - total_loss E fs valz)).
Proof.
  intros E fs g RP WP Eg. destruct (robust_iterates E fs g RP WP Eg) as (sigma & F & HsF & HL). exists sigma, F. split; auto. intros level. destruct (HL level) as (mu & Hmu & H). exists mu. split; auto.
  intros lin q Hsh. split; [apply (H lin q (gn_step E (term_default 100) lin g) Hsh); left; eauto|]. intros init val Hi Hl.
  pose proof (share_total E fs g sigma F lin q Hsh) as Hlin. split.
  - intros cfg fuel Hfu. apply (solve_values E fs g WP Eg lin Hlin init val Hi (fun k v' => total_loss E fs v' <= total_loss E fs val /\
       forall z valz, assigns E fs z valz -> total_loss E fs v' - total_loss E fs valz <= (1 - mu * q) ^ k * (total_loss E fs val - total_loss E fs valz)) _ _ _ _ fuel (solver_gn E lin cfg)).
    + destruct (solvers_terminate E g init lin fuel) as (Hx & _). auto.
    + intros s k st Ha _ Hit. destruct (H lin q (gn_step E cfg lin g) Hsh ltac:(left; eauto)) as (_ & Hk). destruct (Hk k s val st Ha Hl Hit) as (v' & V1 & V2 & V3). exists v'. auto.
  - intros fuel unroll it Hlay Hit Hfu. destruct (fixed_values E fs g WP Eg lin Hlin init val Hi (fun k v' => total_loss E fs v' <= total_loss E fs val /\
       forall z valz, assigns E fs z valz -> total_loss E fs v' - total_loss E fs valz <= (1 - mu * q) ^ k * (total_loss E fs val - total_loss E fs valz)) fuel unroll it Hlay Hit Hfu) as (a' & v' & A1 & A2 & A3 & A4); [|exists a', v'; auto].
    intros s st Ha _ Hs. destruct (H lin q (fixed_step E it lin g) Hsh ltac:(right; eauto)) as (_ & Hk). destruct (Hk _ s val st Ha Hl Hs) as (v' & V1 & V2 & V3). exists v'. auto.
Qed.
Lemma robust_rest : forall (E : env R) fs g s val gr, robust_problem E fs -> well_posed E fs -> graph_make E fs = Ok g -> at_values E fs g s val -> half_gradient E g s gr ->
  (gr = vzero (l_dim (g_local_layout g)) <-> least_loss E fs val).
Proof.
  intros E fs g s val gr RP WP Eg. pose proof WP as [_ Hok _ _ _]. destruct (made E fs g Hok Eg) as (Hg & _). rewrite (ig_local _ _ _ Hg). apply (rest_least E fs g RP WP Eg).
Qed.

(* ---- two Huber factors on one scalar; the first is met exactly at the start ---- *)
Definition pulls (s z s' z' : R) : list (factor R) := [pull s z; pull s' z'].
Lemma pulls_robust s z s' z' : robust_problem exSE (pulls s z s' z').
Proof.
  split.
  - intros v [<-|[]]; split; reflexivity.
  - intros f [<-|[<-|[]]]; right; do 2 eexists; (split; [reflexivity | split; [exact I | lra]]).
  - intros f val val' [<-|[<-|[]]] _ _; reflexivity.
  - intros f val val' [<-|[<-|[]]] Hl Hl'; unfold residual_at, jacobians_at, jacobian_times_change, pull; cbn [map f_vars zipw jacobians_at e_jac exLE exSE anonymize fd_cls f_cls fold_right];
    destruct (scalar_shape _ (Hl vx (or_introl eq_refl))) as (r & ->); destruct (scalar_shape _ (Hl' vx (or_introl eq_refl))) as (r' & ->);
    comp; unfold Rlit; f_equal; lra.
Qed.
Lemma pulls_posed s z s' z' : well_posed exSE (pulls s z s' z').
Proof.
  split.
  - intros [|[|t]]; repeat constructor.
  - intros f [<-|[<-|[]]]; (split; [split; [split; [reflexivity | exists 1%nat; reflexivity] | split; reflexivity] | repeat constructor]).
  - split.
    + intros val f Hv [<-|[<-|[]]]; destruct (scalar_shape _ (Hv vx (or_introl eq_refl))) as (x & Ex); unfold residual_shape_ok, residual_at; simpl map; rewrite Ex; reflexivity.
    + intros val f Hv [<-|[<-|[]]]; destruct (scalar_shape _ (Hv vx (or_introl eq_refl))) as (x & Ex); unfold jacobian_shape_ok, jacobians_at; simpl map; rewrite Ex; repeat constructor.
    + intros v x d [<-|[]] Hx' Hd. destruct (scalar_shape x Hx') as (r & ->).
      destruct d as [|e [|? ?]]; try discriminate Hd; eexists; (split; [reflexivity | split; repeat constructor]).
  - eexists. split; [left; reflexivity | discriminate].
  - exists vx. split; [left; auto | discriminate].
Qed.
Lemma pulls_assigns s z s' z' x : assigns exSE (pulls s z s' z') (scalars [vx] [x]) (fun _ => leaf1 [x]).
Proof. exists [vx]. split; [split; [repeat constructor; simpl; tauto | split; reflexivity]|]. split; [intros v; reflexivity|]. intros v [<-|[]]. reflexivity. Qed.
Definition rise : list (factor R) := pulls 2 (-8) 1 248.
Definition dstep : R := 4 / (4 + 1 / 16 + 1 / 100000).
Lemma dstep_range : 1 / 2 <= dstep <= 1.
Proof.
  unfold dstep. split; apply (Rmult_le_reg_r (4 + 1 / 16 + 1 / 100000)); try lra; replace (4 / (4 + 1 / 16 + 1 / 100000) * (4 + 1 / 16 + 1 / 100000)) with 4 by (field; lra); lra.
Qed.
Lemma rise_residual : compute_whitened_residual_vector exSE (graph_of rise) (scalars [vx] [-8]) = Ok [0; -16].
Proof.
  comp. rewrite (PExLoss.root (2 * (-8 - -8)) 0), (PExLoss.root (1 * (-8 - 248)) 256) by lra. rewrite (PExLoss.far 256) by lra. rewrite (proj2 (Rltb_ok 0 1)) by lra. cbn.
  replace (sqrt (1 / 256)) with (/ 16) by (symmetry; apply sqrt_lem_1; lra). do 3 f_equal; [|f_equal]; lra.
Qed.
Lemma rise_jacobian : compute_whitened_residual_jacobian exSE (graph_of rise) (scalars [vx] [-8]) [0; -16] = Ok (mkCoo [2; / 4] (mkCoords [0%nat; 1%nat] [0%nat; 0%nat]) (2%nat, 1%nat)).
Proof.
  comp. rewrite (PExLoss.root 0 0), (PExLoss.root (-16) 16) by lra. rewrite (PExLoss.far 16) by lra. rewrite (proj2 (Rltb_ok 0 1)) by lra. cbn.
  replace (sqrt (1 / 16)) with (/ 4) by (symmetry; apply sqrt_lem_1; lra). repeat f_equal; lra.
Qed.
Lemma rise_cost x r : compute_whitened_residual_vector exSE (graph_of rise) (scalars [vx] [x]) = Ok r -> compute_cost exSE (graph_of rise) (scalars [vx] [x]) = Ok (sumsq r, r).
Proof. intros H. unfold compute_cost. rewrite H. reflexivity. Qed.
Lemma rise_after d : 1 / 2 <= d <= 1 -> exists r, compute_cost exSE (graph_of rise) (scalars [vx] [-8 + d]) = Ok (256 + d, r).
Proof.
  intros Hd. assert (Er : compute_whitened_residual_vector exSE (graph_of rise) (scalars [vx] [-8 + d]) = Ok [2 * d * sqrt (1 / (2 * d)); - (256 - d) * sqrt (1 / (256 - d))]).
  { comp. rewrite (PExLoss.root (2 * (-8 + d - -8)) (2 * d)), (PExLoss.root (1 * (-8 + d - 248)) (256 - d)) by (lra || ring). rewrite !PExLoss.far by lra. cbn. do 3 f_equal; [ring|]. f_equal. ring. }
  eexists. rewrite (rise_cost _ _ Er). do 2 f_equal. 
  assert (H1 : sqrt (1 / (2 * d)) * sqrt (1 / (2 * d)) = 1 / (2 * d)) by (apply sqrt_sqrt, Rlt_le, Rdiv_lt_0_compat; lra).
  assert (H2 : sqrt (1 / (256 - d)) * sqrt (1 / (256 - d)) = 1 / (256 - d)) by (apply sqrt_sqrt, Rlt_le, Rdiv_lt_0_compat; lra).
  set (p := sqrt (1 / (2 * d))) in *. set (q := sqrt (1 / (256 - d))) in *. match goal with |- sumsq [?a; ?b] = _ => change (a * a + (b * b + 0) = 256 + d) end.
  replace (2 * d * p * (2 * d * p)) with (2 * d * (2 * d) * (p * p)) by ring. replace (- (256 - d) * q * (- (256 - d) * q)) with ((256 - d) * (256 - d) * (q * q)) by ring. rewrite H1, H2. field. lra.
Qed.
Lemma rise_update : gn_update exSE cholmod_solve (graph_of rise) (mkState 0 (scalars [vx] [-8]) 256 [0; -16] false 0) =
  Ok ([4], mkAssign [dstep] (g_local_layout (graph_of rise)), scalars [vx] [-8 + dstep]).
Proof.
  unfold gn_update. cbn [s_assign s_res s_iter]. rewrite rise_jacobian. cbn [bind].
  match goal with |- (x <- ?m ;; _) = _ => replace m with (Ok [-4] : result (list R)) end. 2:{ comp. do 2 f_equal. lra. }
  cbn [bind]. replace (vneg [-4]) with [4]. 2:{ comp. f_equal. lra. }
  match goal with |- (x <- ?m ;; _) = _ => replace m with (Ok [dstep] : result (list R)) end. 2:{ symmetry. comp. do 2 f_equal. unfold Rlit, dstep. field. }
  cbn [bind]. match goal with |- (x <- ?m ;; _) = _ => replace m with (Ok (scalars [vx] [-8 + dstep]) : result (assign R)) end; [reflexivity|]. comp. reflexivity.
Qed.
Lemma cost_rises : exists (E : env R) fs g init val c r a' c' r', robust_problem E fs /\ well_posed E fs /\ graph_make E fs = Ok g /\
  assigns E fs init val /\ same_layout (as_layout init) (g_layout g) /\ compute_cost E g init = Ok (c, r) /\
  (forall fuel unroll, (1 <= fuel)%nat -> fixed_solve E fuel unroll 1 cholmod_solve g init = Some (Ok a')) /\ compute_cost E g a' = Ok (c', r') /\ c < c'.
Proof.
  destruct (rise_after dstep dstep_range) as (r' & E').
  exists exSE, rise, (graph_of rise), (scalars [vx] [-8]), (fun _ => leaf1 [-8]), 256, [0; -16], (scalars [vx] [-8 + dstep]), (256 + dstep), r'.
  split; [apply pulls_robust|]. split; [apply pulls_posed|]. split; [reflexivity|]. split; [apply pulls_assigns|]. split; [repeat split; reflexivity|].
  assert (E0 : compute_cost exSE (graph_of rise) (scalars [vx] [-8]) = Ok (256, [0; -16])). { rewrite (rise_cost _ _ rise_residual). do 2 f_equal. comp. lra. }
  split; auto. split; [|split; [exact E' | pose proof dstep_range; lra]].
  intros fuel unroll Hf. unfold fixed_solve, init_state. rewrite E0. cbn [bind fst snd]. change n0 with 0.
  assert (Es : fixed_step exSE 1 cholmod_solve (graph_of rise) (mkState 0 (scalars [vx] [-8]) 256 [0; -16] false 0) = Ok (mkState 1 (scalars [vx] [-8 + dstep]) (256 + dstep) r' true 0)).
  { unfold fixed_step. rewrite rise_update. cbn [bind]. rewrite E'. reflexivity. }
  destruct unroll.
  - change (Z.to_nat 1) with 1%nat. cbn [iterate]. rewrite Es. reflexivity.
  - destruct fuel as [|fuel]; [lia|]. cbn [while_loop s_done negb]. rewrite Es. destruct fuel; reflexivity.
Qed.
Lemma robust_example : exists (E : env R) fs g init val, robust_problem E fs /\ well_posed E fs /\ graph_make E fs = Ok g /\ every_column E fs g /\
  assigns E fs init val /\ same_layout (as_layout init) (g_layout g) /\ (exists f w d, In f fs /\ f_noise f = Huber w d) /\
  exists s gr, at_values E fs g s val /\ half_gradient E g s gr /\ gr <> vzero (l_dim (g_local_layout g)).
Proof.
  exists exSE, rise, (graph_of rise), (scalars [vx] [-8]), (fun _ => leaf1 [-8]). split; [apply pulls_robust|]. split; [apply pulls_posed|]. split; [reflexivity|].
  assert (E0 : compute_cost exSE (graph_of rise) (scalars [vx] [-8]) = Ok (256, [0; -16])). { rewrite (rise_cost _ _ rise_residual). do 2 f_equal. comp. lra. }
  split.
  { exists (scalars [vx] [-8]), (fun _ => leaf1 [-8]). do 3 eexists. split; [apply pulls_assigns|]. split; [repeat split; reflexivity|]. split; [exact E0|]. split; [exact rise_jacobian|].
    intros j Hj. assert (Hj' : (j < 1)%nat) by exact Hj. destruct j; [|lia]. exists 0%nat, 2. split; [left; reflexivity | lra]. }
  split; [apply pulls_assigns|]. split; [repeat split; reflexivity|]. split; [exists (pull 2 (-8)); do 2 eexists; split; [left; reflexivity | reflexivity]|].
  exists (mkState 0 (scalars [vx] [-8]) 256 [0; -16] false 0), [-4]. split; [split; [apply pulls_assigns | split; [repeat split; reflexivity | exact E0]]|]. split.
  - eexists. split; [exact rise_jacobian|]. comp. do 2 f_equal. lra.
  - comp. intros H. injection H as H. lra.
Qed.
