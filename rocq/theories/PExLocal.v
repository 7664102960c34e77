(* Bundling lemmas and concrete instances for C77. *)
From Coq Require Import List Arith Bool ZArith Lia Permutation Reals Lra Psatz.
From Verif Require Import Num NumR Py Arr MLayout MAssign MNoise MSparse MFactor MGraph MLinear MSolver SpecLayout SpecTree SpecAssign SpecGraph SpecSparse SpecDeriv SpecSolver SpecOrder SpecInv SpecLin SpecCgLin SpecDescent SpecLocal.
From Verif Require Import PBase PLayout PAssign PAssign2 PStack PGraph PGraph2 PGraph3 PGraph4 PVec PSparse PLinear PCg PCgConv PJac PGraph5 PLayout2 POrder PHold PExGraph PSolver PSolver2 PInv PTotal PSolverR PDescent PLin PLinDl PLinCg PLocal PExInv Ex ExG ExS PExOrder PExPart PExSym PExDescent PExLin PExLinDl.
Import ListNotations.
Local Open Scope R_scope.

Lemma cost_same E fs g : well_posed E fs -> graph_make E fs = Ok g -> forall a b val, assigns E fs a val -> assigns E fs b val -> compute_cost E g a = compute_cost E g b.
Proof. intros. eapply cost_values; eauto. Qed.

Section Bundle.
Variable E : env R.
Variable fs : list (factor R).
Variable g : graph R.
Hypothesis HP : plain_problem E fs.
Hypothesis WP : well_posed E fs.
Hypothesis Eg : graph_make E fs = Ok g.
Variables (z : assign R) (valz : var -> pytree R) (cz : R) (rz : list R) (rho m K S : R).
Hypothesis Hza : assigns E fs z valz.
Hypothesis Hzl : same_layout (as_layout z) (g_layout g).
Hypothesis Ez : compute_cost E g z = Ok (cz, rz).
Hypothesis Hm : 0 < m.
Hypothesis HK : 0 <= K.
Hypothesis HS : 0 <= S.
Hypothesis Hrho : S + K * m * rho < m * m.
Hypothesis Hreg : regular_near E fs g z rz rho m K S.

Let Hz : holds E fs z valz := lin_holds E fs g WP Eg z valz Hza Hzl.

Lemma at_fresh s val : at_values E fs g s val -> fresh E fs g s.
Proof. intros (H1 & H2 & H3). split; auto. exists val. apply (lin_holds E fs g WP Eg); auto. Qed.
Lemma fresh_at s val : fresh E fs g s -> holds E fs (s_assign s) val -> at_values E fs g s val.
Proof.
  intros (Hc & _) Hh. destruct (made E fs g (wp_factors _ _ WP) Eg) as (Hg & _). split; [apply holds_assigns; auto|]. split; auto.
  rewrite (ig_layout _ _ _ Hg). destruct Hh as (vs & _ & H & _). auto.
Qed.
Lemma dist_values a val : holds E fs a val -> dist z a = distance fs val valz.
Proof.
  intros Ha. unfold dist, err, distance. change (sqrt (sumsq (vsub (as_storage z) (as_storage a))) = sqrt (distance2 fs val valz)). f_equal.
  apply (pl_distance E fs HP (wp_classes _ _ WP)); auto.
Qed.
Lemma at_dist s val : at_values E fs g s val -> dist z (s_assign s) = distance fs val valz.
Proof. intros (H1 & H2 & H3). apply dist_values. apply (lin_holds E fs g WP Eg); auto. Qed.

Definition rate (lambda : R) : R := (lambda + 1 / 100000 + S + K * m * rho) / (m * m + (lambda + 1 / 100000)).
Lemma rate_ok lambda val s : 0 <= lambda -> at_values E fs g s val -> distance fs val valz <= rho -> 0 <= rate lambda <= 1.
Proof.
  intros Hl Ha Hd. rewrite <- (at_dist s val Ha) in Hd. pose proof (dist_pos z (s_assign s)) as D0.
  assert (0 <= K * m * rho) by (apply Rmult_le_pos; [apply Rmult_le_pos; lra | lra]). unfold rate. assert (Hb : 0 < m * m + (lambda + 1 / 100000)) by nra. split.
  - apply Rmult_le_pos; [lra | apply Rlt_le, Rinv_0_lt_compat; auto].
  - apply (Rmult_le_reg_r (m * m + (lambda + 1 / 100000))); auto. unfold Rdiv. rewrite Rmult_assoc, Rinv_l by lra. lra.
Qed.

Notation gauss_newton := (gauss_newton_iteration E g).
Lemma gauss_newton_went lin step s s' : gauss_newton lin step -> step s = Ok s' -> went E g lin s s'.
Proof. intros [(cfg & ->)|(it & ->)] H; [eapply gn_went | eapply fixed_went]; eauto. Qed.

Lemma cholmod_one step s s' val : gauss_newton cholmod_solve step -> at_values E fs g s val -> distance fs val valz <= rho -> step s = Ok s' ->
  exists val', at_values E fs g s' val' /\ distance fs val' valz * (m * m + 1 / 100000) <= (1 / 100000 + S + K * m * distance fs val valz) * distance fs val valz.
Proof.
  intros Hst Ha Hd H. destruct (posed_graph E fs WP) as (Hne & _ & Hrd & _). pose proof WP as [CO Hok Hws _ _]. destruct (made E fs g Hok Eg) as (Hg & _).
  rewrite <- (at_dist s val Ha) in *. destruct (went_cholmod E fs g HP CO Hok Hg Hne Hrd Hws z valz cz rz rho m K S Hz Ez Hm HK HS Hrho Hreg s s' (at_fresh s val Ha) Hd (gauss_newton_went _ _ _ _ Hst H)) as (Hf & Hle).
  pose proof Hf as (_ & val' & Hh). exists val'. split; [apply fresh_at; auto|]. rewrite <- (dist_values _ _ Hh). lra.
Qed.
Lemma cholmod_many step k s s' val : gauss_newton cholmod_solve step -> at_values E fs g s val -> distance fs val valz <= rho -> iterate k step s = Ok s' ->
  exists val', at_values E fs g s' val' /\ distance fs val' valz <= rate 0 ^ k * distance fs val valz.
Proof.
  intros Hst Ha Hd H. destruct (posed_graph E fs WP) as (Hne & _ & Hrd & _). pose proof WP as [CO Hok Hws _ _]. destruct (made E fs g Hok Eg) as (Hg & _).
  pose proof (rate_ok 0 val s (Rle_refl 0) Ha Hd) as Hq. rewrite <- (at_dist s val Ha) in *.
  destruct (contract_chain E fs g z rho step (rate 0) Hq) with (k := k) (s := s) (s' := s') as (Hf & Hle); auto; [|eapply at_fresh; eauto|].
  - intros s1 s2 Hf1 Hd1 H1. destruct (went_cholmod E fs g HP CO Hok Hg Hne Hrd Hws z valz cz rz rho m K S Hz Ez Hm HK HS Hrho Hreg s1 s2 Hf1 Hd1 (gauss_newton_went _ _ _ _ Hst H1)) as (Hf2 & Hle).
    split; auto. unfold rate. rewrite !Rplus_0_l. apply (ratio rho (1 / 100000 + S) (m * m + 1 / 100000) (K * m)); auto; [nra | apply dist_pos | apply Rmult_le_pos; lra].
  - pose proof Hf as (_ & val' & Hh). exists val'. split; [apply fresh_at; auto|]. rewrite <- (dist_values _ _ Hh). auto.
Qed.

(* conjugate gradients *)
Lemma cg_one tol f step s s' val : gauss_newton (cg_solve tol) step -> 0 <= f -> bounded_near E fs g z rho f -> at_values E fs g s val -> distance fs val valz <= rho -> step s = Ok s' ->
  exists val', at_values E fs g s' val' /\
    distance fs val' valz * (m * m) <= (S + K * m * distance fs val valz + Rabs (tol (s_iter s)) * (f * f + f * K * distance fs val valz + S)) * distance fs val valz.
Proof.
  intros Hst Hf0 Hb Ha Hd H. destruct (posed_graph E fs WP) as (Hne & _ & Hrd & _). pose proof WP as [CO Hok Hws _ _]. destruct (made E fs g Hok Eg) as (Hg & _).
  rewrite <- (at_dist s val Ha) in *. destruct (went_cg E fs g HP CO Hok Hg Hne Hrd Hws z valz cz rz rho m K S Hz Ez Hm HK HS Hrho Hreg tol f s s' Hf0 Hb (at_fresh s val Ha) Hd (gauss_newton_went _ _ _ _ Hst H)) as (Hf & Hle).
  pose proof Hf as (_ & val' & Hh). exists val'. split; [apply fresh_at; auto|]. rewrite <- (dist_values _ _ Hh). lra.
Qed.
Lemma cg_many tol t f step k s s' val : gauss_newton (cg_solve tol) step -> 0 <= f -> bounded_near E fs g z rho f -> (forall i, Rabs (tol i) <= t) ->
  S + K * m * rho + t * (f * f + f * K * rho + S) <= m * m -> at_values E fs g s val -> distance fs val valz <= rho -> iterate k step s = Ok s' ->
  exists val', at_values E fs g s' val' /\ distance fs val' valz <= ((S + K * m * rho + t * (f * f + f * K * rho + S)) / (m * m)) ^ k * distance fs val valz.
Proof.
  intros Hst Hf0 Hb Ht Hq1 Ha Hd H. destruct (posed_graph E fs WP) as (Hne & _ & Hrd & _). pose proof WP as [CO Hok Hws _ _]. destruct (made E fs g Hok Eg) as (Hg & _).
  rewrite <- (at_dist s val Ha) in *. pose proof (dist_pos z (s_assign s)) as D0.
  assert (Ht0 : 0 <= t) by (eapply Rle_trans; [apply Rabs_pos | apply (Ht O)]). assert (Hkm : 0 <= K * m) by (apply Rmult_le_pos; lra). assert (Hfk : 0 <= f * K) by (apply Rmult_le_pos; lra).
  assert (Hff : 0 <= f * f) by (apply Rmult_le_pos; lra). assert (Hmm : 0 < m * m) by (apply Rmult_lt_0_compat; auto).
  set (N := S + K * m * rho + t * (f * f + f * K * rho + S)) in *.
  assert (HN : 0 <= N). { unfold N. assert (0 <= K * m * rho) by (apply Rmult_le_pos; lra). assert (0 <= f * K * rho) by (apply Rmult_le_pos; lra). assert (0 <= t * (f * f + f * K * rho + S)) by (apply Rmult_le_pos; lra). lra. }
  assert (Hq : 0 <= N / (m * m) <= 1).
  { split; [apply Rmult_le_pos; [auto | apply Rlt_le, Rinv_0_lt_compat; auto]|]. apply (Rmult_le_reg_r (m * m)); auto. unfold Rdiv. rewrite Rmult_assoc, Rinv_l by lra. lra. }
  destruct (contract_chain E fs g z rho step (N / (m * m)) Hq) with (k := k) (s := s) (s' := s') as (Hf & Hle); auto; [|eapply at_fresh; eauto|].
  - intros s1 s2 Hf1 Hd1 H1. destruct (went_cg E fs g HP CO Hok Hg Hne Hrd Hws z valz cz rz rho m K S Hz Ez Hm HK HS Hrho Hreg tol f s1 s2 Hf0 Hb Hf1 Hd1 (gauss_newton_went _ _ _ _ Hst H1)) as (Hf2 & Hle).
    split; auto. pose proof (dist_pos z (s_assign s1)) as D1. apply (Rmult_le_reg_l (m * m)); auto. replace (m * m * (N / (m * m) * dist z (s_assign s1))) with (N * dist z (s_assign s1)) by (field; lra).
    eapply Rle_trans; [exact Hle|]. apply Rmult_le_compat_r; auto. unfold N. set (d := dist z (s_assign s1)) in *.
    assert (K * m * d <= K * m * rho) by (apply Rmult_le_compat_l; auto). assert (f * K * d <= f * K * rho) by (apply Rmult_le_compat_l; auto). assert (0 <= f * K * d) by (apply Rmult_le_pos; auto).
    assert (Rabs (tol (s_iter s1)) * (f * f + f * K * d + S) <= t * (f * f + f * K * rho + S)) by (apply Rmult_le_compat; [apply Rabs_pos | lra | apply Ht | lra]). lra.
  - pose proof Hf as (_ & val' & Hh). exists val'. split; [apply fresh_at; auto|]. rewrite <- (dist_values _ _ Hh). auto.
Qed.

(* accepted Levenberg-Marquardt steps *)
Lemma rate_mono l1 l2 : 0 <= l1 <= l2 -> rate l1 <= rate l2.
Proof.
  intros Hl. unfold rate. set (b1 := m * m + (l1 + 1 / 100000)). set (b2 := m * m + (l2 + 1 / 100000)). set (k := m * m - S - K * m * rho).
  assert (B1 : 0 < b1) by (unfold b1; nra). assert (B2 : 0 < b2) by (unfold b2; nra). assert (Hk : 0 < k) by (unfold k; lra).
  replace (l1 + 1 / 100000 + S + K * m * rho) with (b1 - k) by (unfold b1, k; ring). replace (l2 + 1 / 100000 + S + K * m * rho) with (b2 - k) by (unfold b2, k; ring).
  assert (b1 <= b2) by (unfold b1, b2; lra). assert (/ b2 <= / b1) by (apply Rinv_le_contravar; auto).
  replace ((b1 - k) / b1) with (1 - k * / b1) by (field; lra). replace ((b2 - k) / b2) with (1 - k * / b2) by (field; lra).
  assert (k * / b2 <= k * / b1) by (apply Rmult_le_compat_l; lra). lra.
Qed.
Lemma lm_many cfg l s s' val : 0 < lm_quality_min cfg -> 1 <= lambda_factor cfg -> 0 <= s_extra s -> at_values E fs g s val -> distance fs val valz <= rho ->
  accepted E g (lm_step E cfg cholmod_solve) (lm_quality_min cfg) l s s' ->
  exists val', at_values E fs g s' val' /\ distance fs val' valz <= rate (s_extra s) ^ length l * distance fs val valz.
Proof.
  intros Hq Hfac H0 Ha Hd Hacc. destruct (posed_graph E fs WP) as (Hne & _ & Hrd & _). pose proof WP as [CO Hok Hws _ _]. destruct (made E fs g Hok Eg) as (Hg & _).
  revert val H0 Ha Hd. induction Hacc as [s|s s1 s2 A d prop c r q ng l H Ht Hle Eng Hacc IH]; intros val H0 Ha Hd.
  - exists val. split; auto. cbn. lra.
  - pose proof (rate_ok _ _ _ H0 Ha Hd) as Hr. pose proof (at_dist s val Ha) as Hds. rewrite <- Hds in Hd.
    destruct (lm_near E fs g HP CO Hok Hg Hne Hrd Hws z valz cz rz rho m K S Hz Ez Hm HK HS Hrho Hreg cfg s s1 A d prop c r q Hq H0 (at_fresh s val Ha) Hd H Ht Hle) as (Hf1 & Ee & Hd1).
    pose proof (shrink _ _ H0 Hfac) as (S1 & S2). rewrite <- Ee in S1, S2. pose proof Hf1 as (_ & val1 & Hh1). pose proof (dist_pos z (s_assign s)) as D0.
    assert (Hstep : dist z (s_assign s1) <= rate (s_extra s) * dist z (s_assign s)).
    { unfold rate. apply (ratio rho (s_extra s + 1 / 100000 + S) (m * m + (s_extra s + 1 / 100000)) (K * m)); auto; [nra | apply Rmult_le_pos; lra]. }
    rewrite (dist_values _ _ Hh1) in Hstep. rewrite Hds in *.
    destruct (IH val1) as (val' & Ha' & Hd'); auto; [apply fresh_at; auto | nra|].
    exists val'. split; auto. eapply Rle_trans; [exact Hd'|]. cbn [length pow].
    assert (Hpow : rate (s_extra s1) ^ length l <= rate (s_extra s) ^ length l).
    { apply pow_incr. split; [|apply rate_mono; lra]. apply (rate_ok _ val1 s1); auto; [apply fresh_at; auto | nra]. }
    assert (P0 : 0 <= rate (s_extra s) ^ length l) by (apply pow_le; lra). assert (0 <= distance fs val1 valz) by (apply sqrt_pos).
    assert (H3 : rate (s_extra s1) ^ length l * distance fs val1 valz <= rate (s_extra s) ^ length l * (rate (s_extra s) * distance fs val valz)).
    { eapply Rle_trans; [apply Rmult_le_compat_r; [auto | exact Hpow]|]. apply Rmult_le_compat_l; auto. }
    lra.
Qed.

(* no other stationary point *)
Lemma only_stationary s val gr : at_values E fs g s val -> distance fs val valz <= rho -> half_gradient E g s gr -> sumsq gr = 0 -> distance fs val valz = 0.
Proof.
  intros Ha Hd (A & EA & ET) Hgr. destruct (posed_graph E fs WP) as (Hne & _ & Hrd & _). pose proof WP as [CO Hok Hws _ _]. destruct (made E fs g Hok Eg) as (Hg & _).
  rewrite <- (at_dist s val Ha) in *. pose proof (at_fresh s val Ha) as Hf. pose proof (dist_pos z (s_assign s)) as D0.
  destruct (near_facts E fs g HP CO Hok Hg Hne Hrd Hws z valz cz rz rho m K S Hz Ez Hreg s A Hf EA Hd) as (HA & Hsh & Hr & Hrz & He & Hlow & HW & HSv).
  set (n := l_dim (graph_layout E fs true)) in *. rewrite matmul_mapply in ET by (auto using transpose_ok; cbn; rewrite Hsh; auto). injection ET as ET.
  assert (Hg0 : gr = vzero n). { pose proof (PVec.sumsq_zero gr) as Hsz. apply Hsz in Hgr. rewrite Hgr. f_equal. rewrite <- ET, mapply_length. cbn. rewrite Hsh. auto. }
  destruct (near_step E fs g HP CO Hok Hg Hne Hrd Hws z valz cz rz rho m K S Hz Ez Hm HK HS Hrho Hreg s A (vzero n) 0 (vzero n) Hf EA Hd (Rle_refl 0)) as (a' & c' & r' & val' & H1 & H2 & H3 & H4).
  - apply vzero_length.
  - apply vzero_length.
  - intros y Hy. rewrite !vdot_zero_r. rewrite (mapply_adjoint A y (s_res s)) by (auto; rewrite Hsh; auto). rewrite ET, Hg0, vdot_zero_r.
    rewrite vdot_comm, mapply_adjoint by (auto; rewrite ?mapply_length, ?Hsh; auto using vzero_length). rewrite vdot_comm, vdot_zero_r. lra.
  - assert (Hsame : dist z a' = dist z (s_assign s)).
    { destruct Ha as (Ha1 & Ha2 & _). pose proof (lin_holds E fs g WP Eg _ _ Ha1 Ha2) as Hh. destruct (pl_retract E fs HP CO Hws (s_assign s) val (vzero n) Hh) as (a2 & val2 & Er & _ & Hst); [apply vzero_length|].
      rewrite (ig_local _ _ _ Hg) in H1. rewrite H1 in Er. injection Er as <-. unfold dist, err. rewrite Hst. do 2 f_equal. pose proof (pl_held_length E fs HP CO _ _ Hh) as Hl. fold n in Hl. rewrite <- Hl.
      apply vadd_zero. }
    rewrite Hsame in H4. rewrite (vnorm_eq (vzero n) 0) in H4; [|lra|rewrite sumsq_dot, vdot_zero_r; ring].
    destruct D0 as [D0|D0]; auto. exfalso. assert (K * m * dist z (s_assign s) <= K * m * rho) by (apply Rmult_le_compat_l; auto; apply Rmult_le_pos; lra).
    set (d := dist z (s_assign s)) in *. assert ((S + K * m * d) * d < m * m * d) by (apply Rmult_lt_compat_r; lra). lra.
Qed.

(* whole solves *)
Lemma gn_solves cfg fuel init val0 a' : assigns E fs init val0 -> distance fs val0 valz <= rho -> gn_solve E fuel cfg cholmod_solve g init = Some (Ok a') ->
  exists val', assigns E fs a' val' /\ distance fs val' valz <= rate 0 * distance fs val0 valz.
Proof.
  intros Hi Hd H. pose proof WP as [CO Hok Hws _ _]. destruct (made E fs g Hok Eg) as (Hg & _).
  unfold gn_solve, solve_with in H. rewrite (ig_layout _ _ _ Hg) in H. destruct (update_holds E CO fs init val0 Hi) as (a & Eu & Ha). rewrite Eu in H.
  unfold init_state in H. destruct (compute_cost E g a) as [[c0 r0]|] eqn:Ec; cbn [bind fst snd] in H; [|discriminate].
  destruct (while_loop fuel _ _ _) as [[st|]|] eqn:Ew; try discriminate. injection H as H.
  destruct (while_runs _ _ _ _ Ew) as (k & _ & Hr & Hdn). assert (Hk : (1 <= k)%nat). { destruct k; [|lia]. inversion Hr; subst. discriminate. }
  set (s0 := mkState 0 a c0 r0 false n0) in *. assert (Ha0 : at_values E fs g s0 val0) by (apply fresh_at; auto; split; [exact Ec | exists val0; auto]).
  destruct (cholmod_many (gn_step E cfg cholmod_solve g) k s0 st val0) as (val' & Hav & Hle); auto; [left; eauto | apply runs_iterate; auto|].
  destruct Hav as (Hv1 & Hv2 & Hv3). pose proof (lin_holds E fs g WP Eg _ _ Hv1 Hv2) as Hh.
  destruct (update_back E CO fs (s_assign st) val' init val0 Hh Hi) as (a1 & Eb & Ha1). rewrite H in Eb. injection Eb as <-.
  exists val'. split; auto. pose proof (rate_ok 0 val0 s0 (Rle_refl 0) Ha0 Hd) as Hq. assert (0 <= distance fs val0 valz) by apply sqrt_pos.
  eapply Rle_trans; [exact Hle|]. apply Rmult_le_compat_r; auto. destruct k as [|k]; [lia|]. cbn [pow]. assert (rate 0 ^ k <= 1) by (rewrite <- (pow1 k); apply pow_incr; lra). assert (0 <= rate 0 ^ k) by (apply pow_le; lra). nra.
Qed.
Lemma fixed_solves fuel unroll it init val0 : assigns E fs init val0 -> same_layout (as_layout init) (g_layout g) -> distance fs val0 valz <= rho ->
  (1 <= it)%Z -> (Z.to_nat it <= fuel)%nat ->
  exists a' val', fixed_solve E fuel unroll it cholmod_solve g init = Some (Ok a') /\ assigns E fs a' val' /\ distance fs val' valz <= rate 0 ^ Z.to_nat it * distance fs val0 valz.
Proof.
  intros Hi Hs Hd Hit Hfu. destruct (posed_graph E fs WP) as (Hne & _ & Hrd & Hpd). pose proof WP as [CO Hok Hws _ _]. destruct (made E fs g Hok Eg) as (Hg & _).
  pose proof (lin_holds E fs g WP Eg init val0 Hi Hs) as Ha.
  destruct (cost_total E CO fs g Hok Hg Hne Hws init (ex_intro _ val0 Ha)) as (c0 & r0 & Ec & Hl).
  set (s0 := mkState 0 init c0 r0 false 0).
  assert (Hr0 : PTotal.ready E fs s0) by (split; [exists val0; auto | auto]).
  destruct (iterate_total E fs (fixed_step E it cholmod_solve g) (fun s => fixed_total E CO fs g Hok Hg Hne Hrd Hws cholmod_solve cholmod_total it s) (Z.to_nat it) s0 Hr0) as (st & Est & Hst).
  assert (Ha0 : at_values E fs g s0 val0) by (split; [auto | split; auto]).
  destruct (cholmod_many (fixed_step E it cholmod_solve g) (Z.to_nat it) s0 st val0) as (val' & Hav & Hle); auto; [right; eauto|].
  exists (s_assign st), val'. split; [|split; [apply Hav | auto]].
  unfold fixed_solve, init_state. rewrite Ec. cbn [bind fst snd]. change n0 with 0. fold s0. rewrite Est.
  destruct unroll; [reflexivity|]. destruct (Z.to_nat it) as [|k] eqn:Ek; [lia|].
  rewrite (fixed_loop E cholmod_solve g it k fuel s0); auto; [rewrite Est; auto|]. cbn. lia.
Qed.
End Bundle.

(* ---- (x^2 - 3)^2 + (x - 6)^2, minimal at x = 2 with residual (1, -4) ---- *)
Definition bowl : list (factor R) := [square vx 3; anchor vx 6].
Definition gbowl : graph R := graph_of bowl.
Lemma bowl_posed : well_posed exSE bowl /\ graph_make exSE bowl = Ok gbowl /\ plain_problem exSE bowl.
Proof.
  assert (Hf : forall f, In f bowl -> exists v z, In v [vx; vy] /\ (f = square v z \/ f = anchor v z)) by (intros f [<-|[<-|[]]]; [exists vx, 3%Z | exists vx, 6%Z]; simpl; auto).
  split; [|split; [reflexivity | intros v [<-|[]]; split; reflexivity]]. split.
  - exact exS_classes.
  - apply ok_two; auto.
  - apply shaped_two; auto.
  - exists (square vx 3). split; [left; auto | discriminate].
  - exists vx. split; [left; auto | discriminate].
Qed.
Lemma bowl_assigns x : assigns exSE bowl (scalars [vx] [x]) (const_of x) /\ same_layout (as_layout (scalars (T := R) [vx] [x])) (g_layout gbowl).
Proof.
  split; [|repeat split]. exists [vx]. split; [split; [repeat constructor; simpl; tauto | split; reflexivity]|]. split; [intros v; simpl; tauto|]. intros v [<-|[]]. reflexivity.
Qed.
Lemma bowl_only b val : assigns exSE bowl b val -> same_layout (as_layout b) (g_layout gbowl) -> exists x, b = scalars [vx] [x].
Proof.
  intros Ha Hs. destruct bowl_posed as (WP & Eg & HP). pose proof (lin_holds exSE bowl gbowl WP Eg b val Ha Hs) as Hh.
  pose proof (pl_held_length exSE bowl HP exS_classes b val Hh) as Hl. destruct Hh as (vs & Hwf & Hsl & _). pose proof (holds_vars exSE bowl vs b Hwf Hsl) as Hv.
  destruct Hwf as (ND & HL & _). change (length (as_storage b) = 1%nat) in Hl. destruct b as [st lay]. cbn [as_storage as_layout] in *.
  destruct st as [|x [|y st]]; try discriminate. exists x. unfold scalars. f_equal. rewrite HL. f_equal.
  destruct vs as [|v vs]; [exfalso; apply (proj2 (Hv vx)); left; auto|]. assert (v = vx) by (destruct (proj1 (Hv v) (or_introl eq_refl)) as [<-|[]]; auto). subst v.
  destruct vs as [|w vs]; auto. exfalso. destruct (proj1 (Hv w) (or_intror (or_introl eq_refl))) as [Hw|[]]. subst w. inversion ND as [|? ? Hn _]; subst. apply Hn. left. auto.
Qed.
Definition bowl_jac (x : R) : coo R := mkCoo [2 * x; 1] (mkCoords [0%nat; 1%nat] [0%nat; 0%nat]) (2%nat, 1%nat).
Lemma bowl_cost x : exists c, compute_cost exSE gbowl (scalars [vx] [x]) = Ok (c, [x * x - 3; x - 6]).
Proof. eexists. comp. do 2 f_equal. f_equal; [unfold Rlit; field|]. f_equal. unfold Rlit. field. Qed.
Lemma bowl_jacobian x r : length r = 2%nat -> compute_whitened_residual_jacobian exSE gbowl (scalars [vx] [x]) r = Ok (bowl_jac x).
Proof.
  destruct r as [|r1 [|r2 [|]]]; try discriminate. intros _. comp. unfold bowl_jac. f_equal. f_equal. f_equal; [unfold Rlit; field|]. f_equal. unfold Rlit. field.
Qed.
Lemma norm1 (x : R) : vnorm [x] = Rabs x.
Proof. apply vnorm_eq; [apply Rabs_pos|]. unfold sumsq, vsum. cbn. rewrite <- Rabs_mult. rewrite Rabs_pos_eq; [lra | apply Rle_0_sqr]. Qed.
Lemma bowl_times x v : matmul (bowl_jac x) [v] = Ok [2 * x * v; v].
Proof. comp. do 2 f_equal; [lra|]. f_equal. lra. Qed.
Lemma one_long x v (Av : list R) : matmul (bowl_jac x) v = Ok Av -> exists a, v = [a].
Proof. destruct v as [|a [|b v]]; [discriminate | eauto | discriminate]. Qed.
Lemma sq_norm2 (a b : R) : sumsq [a; b] = a * a + b * b.
Proof. unfold sumsq, vsum. cbn. lra. Qed.

Lemma bowl_regular : regular_near exSE bowl gbowl (scalars [vx] [2]) [1; -4] (1/2) 3 1 2 /\ bounded_near exSE bowl gbowl (scalars [vx] [2]) (1/2) 6.
Proof.
  split.
  - intros b val c r A Ha Hs Ec EA e Hd. destruct (bowl_only b val Ha Hs) as (x & ->). destruct (bowl_cost x) as (c0 & E0). rewrite E0 in Ec. injection Ec as <- <-.
    rewrite bowl_jacobian in EA by auto. injection EA as <-. assert (He : e = [2 - x]) by reflexivity. rewrite He in *. rewrite norm1 in *.
    assert (Hx : 3/2 <= x <= 5/2) by (revert Hd; unfold Rabs; destruct (Rcase_abs _); lra). split; [|split].
    + intros y Ay Hy H. destruct (one_long _ _ _ H) as (a & ->). rewrite bowl_times in H. injection H as <-. rewrite sq_norm2.
      replace (sumsq [a]) with (a * a) by (unfold sumsq, vsum; cbn; lra). pose proof (Rle_0_sqr a) as Ha2. unfold Rsqr in Ha2. assert (9 <= 4 * (x * x)) by nra. nra.
    + intros Ae H. rewrite bowl_times in H. injection H as <-.
      replace (vsub (vadd [2 * x * (2 - x); 2 - x] [x * x - 3; x - 6]) [1; -4]) with [- ((2 - x) * (2 - x)); 0].
      2:{ unfold vsub, vadd, zipw. rn. cbn [map combine]. cbn. f_equal; [lra|]. f_equal. lra. }
      apply norm_le_of; [rewrite Rmult_1_l; apply Rmult_le_pos; apply Rabs_pos|]. rewrite sq_norm2, <- Rabs_mult. rewrite Rabs_pos_eq by apply Rle_0_sqr. lra.
    + intros v Av H. destruct (one_long _ _ _ H) as (a & ->). rewrite bowl_times in H. injection H as <-. rewrite norm1.
      replace (vdot [2 * x * a; a] [1; -4]) with (- (2 * ((2 - x) * a))) by (rewrite !vdot_cons, vdot_nil_l; lra).
      rewrite Rmult_assoc, <- Rabs_mult. pose proof (Rle_abs (- ((2 - x) * a))) as H. rewrite Rabs_Ropp in H. lra.
  - intros b val c r A Ha Hs Ec EA Hd v Av H. destruct (bowl_only b val Ha Hs) as (x & ->). destruct (bowl_cost x) as (c0 & E0). rewrite E0 in Ec. injection Ec as <- <-.
    rewrite bowl_jacobian in EA by auto. injection EA as <-. change (vnorm [2 - x] <= 1/2) in Hd. rewrite norm1 in Hd.
    assert (Hx : 3/2 <= x <= 5/2) by (revert Hd; unfold Rabs; destruct (Rcase_abs _); lra).
    destruct (one_long _ _ _ H) as (a & ->). rewrite bowl_times in H. injection H as <-. rewrite sq_norm2.
    replace (sumsq [a]) with (a * a) by (unfold sumsq, vsum; cbn; lra). pose proof (Rle_0_sqr a) as Ha2. unfold Rsqr in Ha2. assert (4 * (x * x) <= 25) by nra. nra.
Qed.
Lemma bowl_distance x y : distance bowl (const_of x) (const_of y) = Rabs (y - x).
Proof.
  unfold distance, distance2. change (sqrt (vsum [sumsq [y - x]]) = Rabs (y - x)). rewrite <- (norm1 (y - x)). rewrite vsum_cons, vsum_nil, Rplus_0_r. reflexivity.
Qed.
Lemma bowl_example : exists g s, good_solution exSE bowl g (scalars [vx] [2]) (fun _ => leaf1 [2]) (1/2) 3 1 2 /\
  bounded_near exSE bowl g (scalars [vx] [2]) (1/2) 6 /\ 2 + 1 * 3 * (1/2) + 1/10 * (6 * 6 + 6 * 1 * (1/2) + 2) <= 3 * 3 /\
  at_values exSE bowl g s (fun _ => leaf1 [5/2]) /\ distance bowl (fun _ => leaf1 [5/2]) (fun _ => leaf1 [2]) = 1/2.
Proof.
  destruct bowl_posed as (P1 & P2 & P3). destruct (bowl_assigns 2) as (A1 & A2). destruct (bowl_assigns (5/2)) as (B1 & B2). destruct bowl_regular as (R1 & R2).
  destruct (bowl_cost 2) as (c & Ec). destruct (bowl_cost (5/2)) as (c' & Ec').
  exists gbowl, (mkState 0 (scalars [vx] [5/2]) c' [5/2 * (5/2) - 3; 5/2 - 6] false 0). split.
  { do 5 (split; auto). split; [|lra]. exists c, [1; -4]. split; [rewrite Ec; do 2 f_equal; f_equal; [lra | f_equal; lra] | auto]. }
  split; auto. split; [lra|]. split.
  - split; [exact B1|]. split; auto.
  - change (distance bowl (const_of (5/2)) (const_of 2) = 1/2). rewrite bowl_distance. unfold Rabs. destruct (Rcase_abs _); lra.
Qed.

(* ---- the statements ---- *)
Lemma near_cholmod : forall (E : env R) fs g z valz rho m K S, good_solution E fs g z valz rho m K S ->
  forall step s val, gauss_newton_iteration E g cholmod_solve step -> at_values E fs g s val -> distance fs val valz <= rho ->
  (forall s', step s = Ok s' -> exists val', at_values E fs g s' val' /\
     distance fs val' valz * (m * m + 1 / 100000) <= (1 / 100000 + S + K * m * distance fs val valz) * distance fs val valz) /\
  (forall k s', runs step k s s' -> exists val', at_values E fs g s' val' /\
     distance fs val' valz <= ((1 / 100000 + S + K * m * rho) / (m * m + 1 / 100000)) ^ k * distance fs val valz).
Proof.
  intros E fs g z valz rho m K S (HP & WP & Eg & Hza & Hzl & (cz & rz & Ez & Hreg) & Hm & HK & HS & Hrho) step s val Hst Ha Hd. split.
  - intros s' H. eapply cholmod_one; eauto.
  - intros k s' Hr. pose proof (runs_iterate _ _ _ _ Hr) as Hi. 
    destruct (cholmod_many E fs g HP WP Eg z valz cz rz rho m K S Hza Hzl Ez Hm HK HS Hrho Hreg step k s s' val Hst Ha Hd Hi) as (val' & H1 & H2).
    exists val'. split; auto. unfold rate in H2. rewrite !Rplus_0_l in H2. auto.
Qed.
Lemma near_cg : forall (E : env R) fs g z valz rho m K S, good_solution E fs g z valz rho m K S ->
  forall f tol step s val, 0 <= f -> bounded_near E fs g z rho f -> gauss_newton_iteration E g (cg_solve tol) step -> at_values E fs g s val -> distance fs val valz <= rho ->
  (forall s', step s = Ok s' -> exists val', at_values E fs g s' val' /\
     distance fs val' valz * (m * m) <= (S + K * m * distance fs val valz + Rabs (tol (s_iter s)) * (f * f + f * K * distance fs val valz + S)) * distance fs val valz) /\
  (forall t, (forall i, Rabs (tol i) <= t) -> S + K * m * rho + t * (f * f + f * K * rho + S) <= m * m ->
   forall k s', runs step k s s' -> exists val', at_values E fs g s' val' /\
     distance fs val' valz <= ((S + K * m * rho + t * (f * f + f * K * rho + S)) / (m * m)) ^ k * distance fs val valz).
Proof.
  intros E fs g z valz rho m K S (HP & WP & Eg & Hza & Hzl & (cz & rz & Ez & Hreg) & Hm & HK & HS & Hrho) f tol step s val Hf Hb Hst Ha Hd. split.
  - intros s' H. eapply cg_one; eauto.
  - intros t Ht Hle k s' Hr. pose proof (runs_iterate _ _ _ _ Hr) as Hi. eapply cg_many; eauto.
Qed.
Lemma near_lm : forall (E : env R) fs g z valz rho m K S, good_solution E fs g z valz rho m K S ->
  forall cfg l s s' val, 0 < lm_quality_min cfg -> 1 <= lambda_factor cfg -> 0 <= s_extra s -> at_values E fs g s val -> distance fs val valz <= rho ->
  accepted E g (lm_step E cfg cholmod_solve) (lm_quality_min cfg) l s s' ->
  exists val', at_values E fs g s' val' /\
    distance fs val' valz <= ((s_extra s + 1 / 100000 + S + K * m * rho) / (m * m + (s_extra s + 1 / 100000))) ^ length l * distance fs val valz.
Proof.
  intros E fs g z valz rho m K S (HP & WP & Eg & Hza & Hzl & (cz & rz & Ez & Hreg) & Hm & HK & HS & Hrho) cfg l s s' val Hq Hfac H0 Ha Hd H.
  exact (lm_many E fs g HP WP Eg z valz cz rz rho m K S Hza Hzl Ez Hm HK HS Hrho Hreg cfg l s s' val Hq Hfac H0 Ha Hd H).
Qed.
Lemma near_solves : forall (E : env R) fs g z valz rho m K S, good_solution E fs g z valz rho m K S ->
  forall init val, assigns E fs init val -> distance fs val valz <= rho -> let q := (1 / 100000 + S + K * m * rho) / (m * m + 1 / 100000) in
  0 <= q < 1 /\
  (forall cfg fuel a', gn_solve E fuel cfg cholmod_solve g init = Some (Ok a') -> exists val', assigns E fs a' val' /\ distance fs val' valz <= q * distance fs val valz) /\
  (forall fuel unroll it, same_layout (as_layout init) (g_layout g) -> (1 <= it)%Z -> (Z.to_nat it <= fuel)%nat ->
   exists a' val', fixed_solve E fuel unroll it cholmod_solve g init = Some (Ok a') /\ assigns E fs a' val' /\ distance fs val' valz <= q ^ Z.to_nat it * distance fs val valz).
Proof.
  intros E fs g z valz rho m K S (HP & WP & Eg & Hza & Hzl & (cz & rz & Ez & Hreg) & Hm & HK & HS & Hrho) init val Ha Hd q.
  assert (Eq : q = rate rho m K S 0) by (unfold q, rate; rewrite !Rplus_0_l; auto). assert (D0 : 0 <= distance fs val valz) by apply sqrt_pos. split; [|split].
  - unfold q. assert (0 <= K * m * rho) by (apply Rmult_le_pos; [apply Rmult_le_pos; lra | lra]). assert (Hb : 0 < m * m + 1 / 100000) by nra. split.
    + apply Rmult_le_pos; [lra | apply Rlt_le, Rinv_0_lt_compat; auto].
    + apply (Rmult_lt_reg_r (m * m + 1 / 100000)); auto. unfold Rdiv at 1. rewrite Rmult_assoc, Rinv_l by lra. lra.
  - intros cfg fuel a' H. rewrite Eq. eapply gn_solves; eauto.
  - intros fuel unroll it Hs H1 H2. rewrite Eq. eapply fixed_solves; eauto.
Qed.
Lemma near_stationary : forall (E : env R) fs g z valz rho m K S, good_solution E fs g z valz rho m K S ->
  forall s val gr, at_values E fs g s val -> distance fs val valz <= rho -> half_gradient E g s gr -> sumsq gr = 0 -> distance fs val valz = 0.
Proof.
  intros E fs g z valz rho m K S (HP & WP & Eg & Hza & Hzl & (cz & rz & Ez & Hreg) & Hm & HK & HS & Hrho) s val gr Ha Hd Hg H0.
  exact (only_stationary E fs g HP WP Eg z valz cz rz rho m K S Hza Hzl Ez Hm HK HS Hrho Hreg s val gr Ha Hd Hg H0).
Qed.

(* ---- far from the solution: x^2 - 4 from x = 0, where the Jacobian vanishes ---- *)
Definition stuck_fs : list (factor R) := [square vx 4].
Lemma stuck_posed : well_posed exSE stuck_fs /\ plain_problem exSE stuck_fs.
Proof.
  assert (Hf : forall f, In f stuck_fs -> exists v z, In v [vx; vy] /\ (f = square v z \/ f = anchor v z)) by (intros f [<-|[]]; exists vx, 4%Z; simpl; auto).
  split; [|intros v [<-|[]]; split; reflexivity]. split.
  - exact exS_classes.
  - apply ok_two; auto.
  - apply shaped_two; auto.
  - exists (square vx 4). split; [left; auto | discriminate].
  - exists vx. split; [left; auto | discriminate].
Qed.
Lemma stuck_only b val : assigns exSE stuck_fs b val -> same_layout (as_layout b) (g_layout (graph_of stuck_fs)) -> exists x, b = scalars [vx] [x].
Proof.
  intros Ha Hs. destruct stuck_posed as (WP & HP). pose proof (lin_holds exSE stuck_fs _ WP eq_refl b val Ha Hs) as Hh.
  pose proof (pl_held_length exSE stuck_fs HP exS_classes b val Hh) as Hl. destruct Hh as (vs & Hwf & Hsl & _). pose proof (holds_vars exSE stuck_fs vs b Hwf Hsl) as Hv.
  destruct Hwf as (ND & HL & _). change (length (as_storage b) = 1%nat) in Hl. destruct b as [st lay]. cbn [as_storage as_layout] in *.
  destruct st as [|x [|y st]]; try discriminate. exists x. unfold scalars. f_equal. rewrite HL. f_equal.
  destruct vs as [|v vs]; [exfalso; apply (proj2 (Hv vx)); left; auto|]. assert (v = vx) by (destruct (proj1 (Hv v) (or_introl eq_refl)) as [<-|[]]; auto). subst v.
  destruct vs as [|w vs]; auto. exfalso. destruct (proj1 (Hv w) (or_intror (or_introl eq_refl))) as [Hw|[]]. subst w. inversion ND as [|? ? Hn _]; subst. apply Hn. left. auto.
Qed.
Definition stuck_jac (x : R) : coo R := mkCoo [2 * x] (mkCoords [0%nat] [0%nat]) (1%nat, 1%nat).
Lemma stuck_times x v : matmul (stuck_jac x) [v] = Ok [2 * x * v].
Proof. comp. do 2 f_equal. lra. Qed.
Lemma stuck_long x v (Av : list R) : matmul (stuck_jac x) v = Ok Av -> exists a, v = [a].
Proof. destruct v as [|a [|b v]]; [discriminate | eauto | discriminate]. Qed.
Lemma stuck_cost x : exists c, compute_cost exSE (graph_of stuck_fs) (scalars [vx] [x]) = Ok (c, [x * x - 4]).
Proof. eexists. comp. do 2 f_equal. f_equal. unfold Rlit. field. Qed.
Lemma stuck_jacobian x r : length r = 1%nat -> compute_whitened_residual_jacobian exSE (graph_of stuck_fs) (scalars [vx] [x]) r = Ok (stuck_jac x).
Proof. destruct r as [|r1 [|r2 r]]; try discriminate. intros _. comp. unfold stuck_jac. do 3 f_equal. unfold Rlit. field. Qed.
Lemma sq_norm1 (a : R) : sumsq [a] = a * a.
Proof. unfold sumsq, vsum. cbn. lra. Qed.
Lemma stuck_regular : regular_near exSE stuck_fs (graph_of stuck_fs) (scalars [vx] [2]) [0] (1/2) 3 1 0.
Proof.
  intros b val c r A Ha Hs Ec EA e Hd. destruct (stuck_only b val Ha Hs) as (x & ->). destruct (stuck_cost x) as (c0 & E0). rewrite E0 in Ec. injection Ec as <- <-.
  rewrite stuck_jacobian in EA by auto. injection EA as <-. assert (He : e = [2 - x]) by reflexivity. rewrite He in *. rewrite norm1 in *.
  assert (Hx : 3/2 <= x <= 5/2) by (revert Hd; unfold Rabs; destruct (Rcase_abs _); lra). split; [|split].
  - intros y Ay Hy H. destruct (stuck_long _ _ _ H) as (a & ->). rewrite stuck_times in H. injection H as <-. rewrite !sq_norm1.
    pose proof (Rle_0_sqr a) as Ha2. unfold Rsqr in Ha2. assert (9 <= 4 * (x * x)) by nra. nra.
  - intros Ae H. rewrite stuck_times in H. injection H as <-.
    replace (vsub (vadd [2 * x * (2 - x)] [x * x - 4]) [0]) with [- ((2 - x) * (2 - x))].
    2:{ unfold vsub, vadd, zipw. rn. cbn [map combine]. cbn. f_equal. lra. }
    rewrite norm1, Rabs_Ropp, Rabs_mult. lra.
  - intros v Av H. destruct (stuck_long _ _ _ H) as (a & ->). rewrite stuck_times in H. injection H as <-. rewrite vdot_cons, vdot_nil_l. lra.
Qed.
Lemma stuck : exists (E : env R) fs g init z val valz a' val', good_solution E fs g z valz (1/2) 3 1 0 /\
  assigns E fs init val /\ distance fs val valz <= 2 /\
  gn_solve E 1 (term_default 100) cholmod_solve g init = Some (Ok a') /\ assigns E fs a' val' /\ distance fs val' valz = 2.
Proof.
  assert (Ha : forall x, assigns exSE stuck_fs (scalars [vx] [x]) (const_of x)).
  { intros x. exists [vx]. split; [split; [repeat constructor; simpl; tauto | split; reflexivity]|]. split; [intros v; simpl; tauto|]. intros v [<-|[]]. reflexivity. }
  exists exSE, stuck_fs, (graph_of stuck_fs), (scalars [vx] [0]), (scalars [vx] [2]), (const_of 0), (const_of 2). destruct stuck_posed as (P1 & P2).
  assert (D : distance stuck_fs (const_of 0) (const_of 2) = 2).
  { unfold distance, distance2. change (sqrt (vsum [sumsq [2 - 0]]) = 2). rewrite vsum_cons, vsum_nil. replace (sumsq [2 - 0] + 0) with (2 * 2) by (unfold sumsq, vsum; cbn; lra). rewrite sqrt_square; lra. }
  exists (scalars [vx] [0]), (const_of 0). split.
  { split; auto. split; auto. split; [reflexivity|]. split; [apply Ha|]. split; [repeat split|]. split; [|lra].
    destruct (stuck_cost 2) as (c & Ec). exists c, [0]. split; [rewrite Ec; do 2 f_equal; f_equal; lra | apply stuck_regular]. }
  split; [apply Ha|]. split; [lra|]. split; [|split; [apply Ha | auto]].
  comp. replace ((- (0 + 1 * (Rlit 2 1 * 0) * (1 * (0 * 0 - Rlit 4 1))) - 0) / ((0 + 1 * (Rlit 2 1 * 0)) * (0 + 1 * (Rlit 2 1 * 0)) + 0 + (0 + Rlit 1 100000))) with 0 by (unfold Rlit; field).
    match goal with |- context [if Rltb ?a ?b then true else false] => assert (H1 : Rltb a b = true); [|rewrite H1; clear H1] end.
    { apply Rltb_ok. unfold Rlit. match goal with |- Rabs ?e / _ < _ => replace e with 0 by field end. rewrite Rabs_R0. unfold Rdiv at 1. rewrite Rmult_0_l. lra. }
    do 2 f_equal. f_equal. f_equal. lra.
Qed.
