(* What the stopping tests guarantee close to an exact fit of a nonlinear problem. *)
From Coq Require Import List Arith Bool ZArith Lia Reals Lra Psatz.
From Verif Require Import Num NumR Py Arr MLayout MAssign MNoise MSparse MFactor MGraph MLinear MSolver SpecLayout SpecTree SpecAssign SpecGraph SpecSparse SpecDeriv SpecSolver SpecOrder SpecInv SpecLin SpecCgLin SpecDescent SpecLocal SpecTrust SpecFinish.
From Verif Require Import PBase PLayout PAssign PAssign2 PStack PGraph PGraph2 PGraph3 PGraph4 PVec PSparse PLinear PCg PCgConv PJac PGraph5 PLayout2 POrder POrder2 PHold PExGraph PSolver PSolver2 PInv PTotal PSolverR PDescent PLin PLinDl PLinCg PLocal PBasin4 PBasin5 PBasin6 PExInv PExLinDl PExLocal PTrust PTrust2 PRobust3.
Import ListNotations.
Local Open Scope R_scope.

(* the stopping tests, for the cost c of the proposed values *)
Lemma tests_say E cfg s c d b conv : check_convergence E cfg s c d b = Ok conv -> exceeded_max_iterations cfg s || conv = true ->
  (max_iterations cfg - 1 <= Z.of_nat (s_iter s))%Z \/ (gradient_start cfg <= Z.of_nat (s_iter s))%Z \/
  Rabs (c - s_cost s) / s_cost s < cost_tolerance cfg \/ vnorm (as_storage d) < (vnorm (as_storage (s_assign s)) + parameter_tolerance cfg) * parameter_tolerance cfg.
Proof.
  intros H Hd. apply orb_true_iff in Hd. destruct Hd as [Hd| ->]; [left; apply Z.leb_le; exact Hd|].
  destruct (convergence_meaning E _ _ _ _ _ _ H) as (a' & _ & Hm). destruct (proj1 Hm eq_refl) as [H1|[(H1 & _)|H1]]; auto.
Qed.

Section Stop.
Variable E : env R.
Let C := e_cls E.
Variable fs : list (factor R).
Variable g : graph R.
Hypothesis HP : plain_problem E fs.
Hypothesis CO : classes_ok C.
Hypothesis Hok : forall f, In f fs -> factor_ok f.
Hypothesis Eg : graph_make E fs = Ok g.
Hypothesis Hg : is_graph E fs g.
Hypothesis Hne : fs <> [].
Hypothesis Hrd : total residual_dim fs <> 0%nat.
Hypothesis Hws : well_shaped E fs.
Let L := graph_layout E fs true.
Let n := l_dim L.
Notation fresh := (fresh E fs g).

Variables (z : assign R) (valz : var -> pytree R) (rz : list R) (rho m K f Lt : R).
Hypothesis Hz : holds E fs z valz.
Hypothesis Ez : compute_cost E g z = Ok (0, rz).
Hypothesis Prho : 0 < rho.
Hypothesis Hm : 0 < m.
Hypothesis HK : 0 <= K.
Hypothesis Hf : 0 <= f.
Hypothesis HL : 0 <= Lt.
Hypothesis Hrho : 0 + K * m * rho < m * m.
Hypothesis Hreg : regular_near E fs g z rz rho m K 0.
Hypothesis Hbd : bounded_near E fs g z rho f.
Hypothesis Htay : taylor_near E fs g z rho Lt.
Notation dist := (dist z).
Variables (tau eta : R).
Hypothesis Htau : 0 <= tau.
Hypothesis Htau1 : 3 * tau <= m * (rho / 2).
Hypothesis Htau2 : 2 * tau * Lt + Lt * Lt * (tau * tau / (m * m)) <= (1 - eta) * (m * m).
Hypothesis Heta : 0 < eta < 1.
Notation inside := (inside E fs g z rho tau).
Notation size := (size rho K f).
Notation grow := (grow rho m K f).

Lemma inside_jac s : inside s -> exists A, compute_whitened_residual_jacobian E g (s_assign s) (s_res s) = Ok A /\ matmul (transpose A) (vneg (s_res s)) = Ok (mapply (transpose A) (vneg (s_res s))).
Proof.
  intros (Hfr & _). assert (Hrs : PTotal.ready E fs s). { destruct Hfr as (Hcur & v & Hh). split; [exists v; auto|]. destruct (cost_total E CO fs g Hok Hg Hne Hws (s_assign s) (ex_intro _ v Hh)) as (c0 & r0 & E0 & L0). unfold current in Hcur. rewrite Hcur in E0. injection E0 as _ <-. auto. }
  destruct (jacobian_total E CO fs g Hok Hg Hrd Hws s Hrs) as (A & EA & HA & Hsh). exists A. split; auto. apply matmul_mapply; auto using transpose_ok. cbn. rewrite Hsh, vneg_length. apply Hrs.
Qed.
(* cost and distance have the same size *)
Lemma inside_size s : inside s -> s_cost s <= size * size * (dist (s_assign s) * dist (s_assign s)) /\ m / 2 * (m / 2) * (dist (s_assign s) * dist (s_assign s)) <= s_cost s /\ 0 <= dist (s_assign s) /\ 0 <= s_cost s.
Proof.
  intros Hin. destruct (inside_jac s Hin) as (A & EA & ET). destruct Hin as (Hfr & Hd & _).
  destruct (sizes E fs g HP CO Hok Eg Hg Hne Hrd Hws z valz rz rho m K f Hz Ez Prho Hm HK Hf Hrho Hreg Hbd s A _ Hfr EA Hd ET) as (S0 & S1 & S2 & _).
  destruct (size_pos rho K f Prho HK Hf) as (Ps & Ps'). pose proof (norm_pos (err z (s_assign s))) as De. change (0 <= dist (s_assign s)) in De. set (e := dist (s_assign s)) in *. destruct (vnorm_sq (s_res s)) as (R0 & R1). rewrite S0, <- R1.
  assert (H1 : vnorm (s_res s) <= size * e) by (eapply Rle_trans; [exact S1 | apply Rmult_le_compat_r; auto]). split; [|split; [|split]]; auto.
  - replace (size * size * (e * e)) with ((size * e) * (size * e)) by ring. apply Rmult_le_compat; auto.
  - replace (m / 2 * (m / 2) * (e * e)) with ((m / 2 * e) * (m / 2 * e)) by ring. assert (0 <= m / 2 * e) by (apply Rmult_le_pos; lra). apply Rmult_le_compat; auto.
  - apply Rmult_le_pos; auto.
Qed.
Lemma cheaper_nearer s s' : inside s -> inside s' -> s_cost s' <= s_cost s -> dist (s_assign s') <= 2 * size / m * dist (s_assign s).
Proof.
  intros H1 H2 Hc. destruct (inside_size s H1) as (A1 & _ & A3 & _). destruct (inside_size s' H2) as (_ & B2 & B3 & _). set (e := dist (s_assign s)) in *. set (e' := dist (s_assign s')) in *. destruct (size_pos rho K f Prho HK Hf) as (Ps & _).
  assert (H : m / 2 * e' <= size * e). { apply Rsqr_incr_0_var; [unfold Rsqr; lra | apply Rmult_le_pos; lra]. }
  apply (Rmult_le_reg_l (m / 2)); [lra|]. replace (m / 2 * (2 * size / m * e)) with (size * e) by (field; lra). auto.
Qed.

(* what a step tells: its length is comparable to the gradient, and why it was the last one *)
Definition told (cfg : term_cfg R) (s s' : sstate R) (kap : R) : Prop :=
  exists ng d, length d = length ng /\ kap * sumsq ng <= 2 * vdot d ng /\ m * m / 2 * dist (s_assign s) <= vnorm ng /\
  (s_done s' = true ->
    (max_iterations cfg - 1 <= Z.of_nat (s_iter s))%Z \/ (gradient_start cfg <= Z.of_nat (s_iter s))%Z \/
    Rabs (s_cost s' - s_cost s) / s_cost s < cost_tolerance cfg \/ vnorm d < (vnorm (as_storage (s_assign s)) + parameter_tolerance cfg) * parameter_tolerance cfg).

Lemma inside_norm s : inside s -> vnorm (as_storage (s_assign s)) <= vnorm (as_storage z) + rho / 2.
Proof.
  intros ((_ & v & Hh) & Hd & _). set (x := as_storage (s_assign s)). set (w := as_storage z). change (vnorm (vsub w x) <= rho / 2) in Hd.
  assert (Ll : length x = length w) by (unfold x, w; rewrite (pl_held_length E fs HP CO _ _ Hh), (pl_held_length E fs HP CO _ _ Hz); auto).
  assert (Ex : x = vadd w (vscale (-1) (vsub w x))).
  { apply (nth_ext' _ _ 0); [rewrite vadd_length; rewrite ?vscale_length, ?vsub_length; auto|]. intros i Hi. rewrite nth_vadd by (rewrite vscale_length, vsub_length; auto). rewrite nth_vscale, nth_vsub by auto. lra. }
  rewrite Ex. eapply Rle_trans; [apply norm_add; rewrite vscale_length, vsub_length; auto|]. apply Rplus_le_compat_l.
  replace (vnorm (vscale (-1) (vsub w x))) with (vnorm (vsub w x)); auto. symmetry. destruct (vnorm_sq (vsub w x)) as (D0 & D1). apply vnorm_eq; auto. rewrite sumsq_scale, D1. ring.
Qed.

Definition reach (kap : R) : R := 2 * size / m * (4 / (m * m * kap) * (vnorm (as_storage z) + rho + 1)).
Lemma told_stop cfg s s' kap : inside s -> inside s' -> 0 < kap -> told cfg s s' kap -> s_cost s' <= (1 - eta * (grow * kap)) * s_cost s -> 0 <= parameter_tolerance cfg -> cost_tolerance cfg <= eta * (grow * kap) -> 0 <= eta * (grow * kap) -> s_done s' = true ->
  (max_iterations cfg <= Z.of_nat (S (s_iter s)))%Z \/ (gradient_start cfg < Z.of_nat (S (s_iter s)))%Z \/ dist (s_assign s') <= reach kap * (parameter_tolerance cfg * (1 + parameter_tolerance cfg)).
Proof.
  intros Hin Hin' Hk (ng & d & Hl & Hlong & Hng & Hte) Hc Hp Htol Hek Hd. destruct (inside_size s Hin) as (_ & Q2 & Q3 & Q4). destruct (inside_size s' Hin') as (_ & _ & Q5 & Q6). pose proof (inside_norm s Hin) as Hx.
  assert (Hcc : s_cost s' <= s_cost s) by (assert (0 <= eta * (grow * kap) * s_cost s) by (apply Rmult_le_pos; auto); lra). pose proof (cheaper_nearer s s' Hin Hin' Hcc) as He'.
  destruct (size_pos rho K f Prho HK Hf) as (Ps & _). pose proof (norm_pos (as_storage z)) as Z0. set (p := parameter_tolerance cfg) in *. set (e := dist (s_assign s)) in *. set (X := vnorm (as_storage z)) in *.
  assert (Pmm : 0 < m * m) by (apply Rmult_lt_0_compat; auto). assert (Pmk : 0 < m * m * kap) by (apply Rmult_lt_0_compat; auto).
  assert (Psm : 0 <= 2 * size / m) by (apply Rmult_le_pos; [lra | left; apply Rinv_0_lt_compat; auto]). assert (P4 : 0 <= 4 / (m * m * kap)) by (apply Rmult_le_pos; [lra | left; apply Rinv_0_lt_compat; auto]).
  assert (Pp : 0 <= p * (1 + p)) by (apply Rmult_le_pos; lra).
  destruct (Hte Hd) as [H|[H|H]]; [left; lia | right; left; lia | right; right].
  assert (He : e <= 4 / (m * m * kap) * (X + rho + 1) * (p * (1 + p))).
  { destruct (Req_dec (s_cost s) 0) as [H0|H0].
    - assert (e * e <= 0) by (apply (Rmult_le_reg_l (m / 2 * (m / 2))); [apply Rmult_lt_0_compat; lra | lra]). assert (He0 : e = 0) by nra. rewrite He0. apply Rmult_le_pos; auto. apply Rmult_le_pos; auto. lra.
    - assert (Hc0 : 0 < s_cost s) by lra. destruct H as [H|H].
      + exfalso. assert (H1 : Rabs (s_cost s' - s_cost s) < cost_tolerance cfg * s_cost s). { apply (Rmult_lt_reg_r (/ s_cost s)); [apply Rinv_0_lt_compat; auto|]. replace (cost_tolerance cfg * s_cost s * / s_cost s) with (cost_tolerance cfg) by (field; lra). exact H. }
        rewrite Rabs_left1 in H1 by lra. assert (cost_tolerance cfg * s_cost s <= eta * (grow * kap) * s_cost s) by (apply Rmult_le_compat_r; auto). lra.
      + assert (Hd1 : kap * vnorm ng <= 2 * vnorm d).
        { destruct (vnorm_sq ng) as (N0 & N1). destruct (vnorm_sq d) as (D0 & D1). pose proof (dot_norms d ng Hl) as CS. destruct N0 as [N0|N0]; [|rewrite <- N0; lra].
          apply (Rmult_le_reg_r (vnorm ng)); auto. rewrite <- N1 in Hlong. lra. }
        assert (Hd2 : vnorm d <= (X + rho + 1) * (p * (1 + p))).
        { eapply Rle_trans; [left; exact H|]. replace ((X + rho + 1) * (p * (1 + p))) with ((X + rho + 1) * (1 + p) * p) by ring. apply Rmult_le_compat_r; auto.
          assert (0 <= (X + rho) * p) by (apply Rmult_le_pos; lra). lra. }
        apply (Rmult_le_reg_l (m * m * kap)); auto. replace (m * m * kap * (4 / (m * m * kap) * (X + rho + 1) * (p * (1 + p)))) with (4 * ((X + rho + 1) * (p * (1 + p)))) by (field; lra).
        assert (H1 : kap * (m * m / 2 * e) <= kap * vnorm ng) by (apply Rmult_le_compat_l; lra). lra. }
  eapply Rle_trans; [exact He'|]. unfold reach. rewrite Rmult_assoc. apply Rmult_le_compat_l; auto.
Qed.

(* ---- the three solvers ---- *)
Lemma done_told cfg qmin s s' A d ng prop c r q kap Ad conv : inside s -> 0 < qmin -> qmin <= eta -> trust_step E g qmin s s' A d prop c r q -> matmul (transpose A) (vneg (s_res s)) = Ok ng ->
  length d = n -> matmul A d = Ok Ad -> length ng = n -> kap * sumsq ng <= 2 * vdot d ng - sumsq Ad ->
  check_convergence E cfg s c (mkAssign d (g_local_layout g)) ng = Ok conv -> s_done s' = (exceeded_max_iterations cfg s || (nleb qmin q && conv)) -> told cfg s s' kap.
Proof.
  intros Hin Hq Hqe Ht ET Ld EAd Lng Hk Hconv Hdone. pose proof (tr_A _ _ _ _ _ _ _ _ _ _ _ Ht) as EA. pose proof Hin as (Hfr & Hd & _).
  destruct (sizes E fs g HP CO Hok Eg Hg Hne Hrd Hws z valz rz rho m K f Hz Ez Prho Hm HK Hf Hrho Hreg Hbd s A ng Hfr EA Hd ET) as (_ & _ & _ & S3 & _).
  exists ng, d. split; [congruence|]. split; [pose proof (sumsq_nonneg Ad); lra|]. split; auto. rewrite Hdone. intros Hd'.
  destruct Ht as [_ _ _ _ Hacc _ _ _]. destruct (nleb qmin q) eqn:Eq.
  - destruct (Hacc eq_refl) as (_ & Ec'). rewrite Ec'. apply (tests_say E cfg s c _ _ _ Hconv). exact Hd'.
  - left. rewrite orb_false_r in Hd'. apply Z.leb_le. exact Hd'.
Qed.

Definition lm_kap (lambda : R) : R := / (f * f + (lambda + Rlit 1 100000)).
Lemma lm_told cfg s s' : inside s -> 0 < lm_quality_min cfg -> lm_quality_min cfg <= eta -> 0 <= s_extra s -> lm_step E cfg cholmod_solve g s = Ok s' -> told (lm_term cfg) s s' (lm_kap (s_extra s)) /\ s_iter s' = S (s_iter s).
Proof.
  intros Hin Hq Hqe Hx H. destruct (lm_tr E _ _ _ _ _ H) as (A & ng & d & prop & c & r & q & Ht & ET & Ed & Ee & conv & Hconv & Hdone). pose proof (tr_A _ _ _ _ _ _ _ _ _ _ _ Ht) as EA. split; [|apply Ht].
  pose proof Hin as (Hs & Hd & _). destruct (ready_at E fs g CO Hok Eg Hws Hrd s A (fresh_ready E fs g s Hs) EA) as (HA & Hlr & _ & Hsn & Hlr'). rewrite (ig_local _ _ _ Hg) in Hsn. change (snd (m_shape A) = n) in Hsn.
  assert (Eng : ng = mapply (transpose A) (vneg (s_res s))) by (rewrite matmul_mapply in ET by (auto using transpose_ok); congruence). assert (Lng : length ng = snd (m_shape A)) by (rewrite Eng; apply mapply_length).
  assert (Hb : 0 < s_extra s + Rlit 1 100000) by (unfold Rlit; lra). destruct (cholmod_solve_ok A ng (s_extra s) (s_iter s) HA Hb Lng) as (d' & Ed' & Hn). rewrite Ed in Ed'. injection Ed' as <-. unfold lm_kap. set (be := s_extra s + Rlit 1 100000) in *.
  pose proof (proj1 Hn) as Ld. assert (HF : sumsq (mapply A ng) <= f * f * sumsq ng) by (apply (upper E fs g HP CO Hok Hg Hne Hrd Hws z valz rz rho m K f Hz Ez Prho Hreg Hbd s A); auto; change (length ng = n); congruence).
  assert (Pff : 0 <= f * f) by (apply Rmult_le_pos; auto). rewrite Eng in HF, Hn. destruct (damped_lower A (vneg (s_res s)) (f * f) HA Hlr Pff HF be d Hb Hn) as (D1 & D2). rewrite <- Eng in *.
  pose proof (sumsq_nonneg d) as D0. assert (D3 : 0 <= be * sumsq d) by (apply Rmult_le_pos; lra).
  apply (done_told (lm_term cfg) (lm_quality_min cfg) s s' A d ng prop c r q _ (mapply A d) conv); auto; try congruence; [apply matmul_mapply; auto|]. unfold Rdiv in D2. lra.
Qed.

Lemma dl_told cfg s s' : inside s -> 0 < dl_quality_min cfg -> dl_quality_min cfg <= eta -> 0 < s_extra s -> dl_step E cfg cholmod_solve g s = Ok s' -> told (dl_term cfg) s s' (dl_rate f tau (s_extra s)) /\ s_iter s' = S (s_iter s).
Proof.
  intros Hin Hq Hqe Hx H. destruct (dl_tr E _ _ _ _ _ H) as (A & ng & gn & Asd & d & prop & c & r & q & Ht & ET & Egn & Easd & Ed & Ee & conv & Hconv & Hdone). pose proof (tr_A _ _ _ _ _ _ _ _ _ _ _ Ht) as EA. split; [|apply Ht].
  pose proof Hin as (Hs & Hd & _). destruct (ready_at E fs g CO Hok Eg Hws Hrd s A (fresh_ready E fs g s Hs) EA) as (HA & Hlr & _ & Hsn & Hlr'). rewrite (ig_local _ _ _ Hg) in Hsn. change (snd (m_shape A) = n) in Hsn.
  assert (Eng : ng = mapply (transpose A) (vneg (s_res s))) by (rewrite matmul_mapply in ET by (auto using transpose_ok); congruence). assert (Lng : length ng = snd (m_shape A)) by (rewrite Eng; apply mapply_length).
  rewrite matmul_mapply in Easd by auto. injection Easd as <-.
  assert (Hmu : 0 < n0 + Rlit 1 100000) by (unfold Rlit; rn; lra). destruct (cholmod_solve_ok A ng n0 (s_iter s) HA Hmu Lng) as (x & Ex & Hn). rewrite Egn in Ex. injection Ex as <-.
  replace (n0 + Rlit 1 100000) with (Rlit 1 100000) in * by (rn; lra). set (mu := Rlit 1 100000) in *.
  assert (HF : sumsq (mapply A ng) <= f * f * sumsq ng) by (apply (upper E fs g HP CO Hok Hg Hne Hrd Hws z valz rz rho m K f Hz Ez Prho Hreg Hbd s A); auto; change (length ng = n); congruence).
  assert (Pff : 0 <= f * f) by (apply Rmult_le_pos; auto). rewrite Eng in HF, Hn, Ed.
  destruct (dogleg_lower A (vneg (s_res s)) (f * f) HA Hlr Pff HF mu gn _ (s_extra s) Hmu Hx Hn eq_refl) as (D0 & D1 & D2). rewrite <- Ed in D0, D1, D2. rewrite <- Eng in *.
  destruct (gradient_size E fs g HP CO Hok Eg Hg Hne Hrd Hws z valz rz rho m K f Hz Ez Prho Hm HK Hf Hrho Hreg Hbd tau Htau s A ng Hin EA ET) as (G1 & G2 & G3). assert (Pfb : 0 < f * f + mu) by lra. destruct (vnorm_sq ng) as (V0 & V1). assert (Pft : 0 <= f * tau) by (apply Rmult_le_pos; auto).
  apply (done_told (dl_term cfg) (dl_quality_min cfg) s s' A d ng prop c r q _ (mapply A d) conv); auto; try congruence; [apply matmul_mapply; auto|].
  eapply Rle_trans; [|exact D2]. pose proof (sumsq_nonneg ng) as N0. unfold dl_rate. fold mu. rewrite Rmult_comm. apply Rmin_glb.
  - apply Rle_trans with (sumsq ng * (s_extra s / (f * tau + 1))); [apply Rmult_le_compat_l; auto; apply Rmin_l|]. rewrite <- V1.
    apply (Rmult_le_reg_r (f * tau + 1)); [lra|]. replace (vnorm ng * vnorm ng * (s_extra s / (f * tau + 1)) * (f * tau + 1)) with (s_extra s * vnorm ng * vnorm ng) by (field; lra).
    apply Rmult_le_compat_l; [apply Rmult_le_pos; lra | lra].
  - apply Rle_trans with (sumsq ng * / (f * f + mu)); [apply Rmult_le_compat_l; auto; apply Rmin_r|]. unfold Rdiv. lra.
Qed.

(* Gauss-Newton takes the step of Levenberg-Marquardt with lambda = 0, without asking *)
Lemma gn_iteration cfg s s' : inside s -> gn_step E cfg cholmod_solve g s = Ok s' ->
  inside s' /\ s_cost s' <= (1 - eta * (grow * lm_kap 0)) * s_cost s /\ told cfg s s' (lm_kap 0) /\ s_iter s' = S (s_iter s).
Proof.
  intros Hin H. unfold gn_step in H. apply bind_ok in H. destruct H as (((b & delta) & a') & Hu & H).
  apply bind_ok in H. destruct H as ((c' & r') & Ec & H). apply bind_ok in H. destruct H as (conv & Hconv & H). injection H as <-. cbn [fst snd] in *.
  unfold gn_update in Hu. apply bind_ok in Hu. destruct Hu as (A & EA & Hu). apply bind_ok in Hu. destruct Hu as (ATr & ET & Hu). apply bind_ok in Hu. destruct Hu as (d & Ed & Hu). apply bind_ok in Hu. destruct Hu as (a1 & Er & Hu). injection Hu as <- <- <-.
  pose proof Hin as (Hs & Hd & Hcs). destruct (ready_at E fs g CO Hok Eg Hws Hrd s A (fresh_ready E fs g s Hs) EA) as (HA & Hlr & _ & Hsn & Hlr'). rewrite (ig_local _ _ _ Hg) in Hsn. change (snd (m_shape A) = n) in Hsn.
  assert (Hlr0 : length (s_res s) = fst (m_shape A)) by (rewrite <- (vneg_length (s_res s)); auto).
  rewrite matmul_mapply in ET by (auto using transpose_ok). injection ET as <-. rewrite neg_gradient in Ed, Hconv by auto. set (ng := mapply (transpose A) (vneg (s_res s))) in *. assert (Lng : length ng = snd (m_shape A)) by apply mapply_length.
  assert (ETn : matmul (transpose A) (vneg (s_res s)) = Ok ng) by (apply matmul_mapply; auto using transpose_ok).
  assert (Hb : 0 < n0 + Rlit 1 100000) by (unfold Rlit; rn; lra). destruct (cholmod_solve_ok A ng n0 (s_iter s) HA Hb Lng) as (d' & Ed' & Hn). rewrite Ed in Ed'. injection Ed' as <-. unfold lm_kap. change (n0 + Rlit 1 100000) with (0 + Rlit 1 100000) in *. set (be := 0 + Rlit 1 100000) in *.
  pose proof (proj1 Hn) as Ld. assert (HF : sumsq (mapply A ng) <= f * f * sumsq ng) by (apply (upper E fs g HP CO Hok Hg Hne Hrd Hws z valz rz rho m K f Hz Ez Prho Hreg Hbd s A); auto; change (length ng = n); congruence).
  assert (Pff : 0 <= f * f) by (apply Rmult_le_pos; auto). destruct (damped_lower A (vneg (s_res s)) (f * f) HA Hlr Pff HF be d Hb Hn) as (D1 & D2). fold ng in D1, D2.
  pose proof (sumsq_nonneg d) as D0. assert (D3 : 0 <= be * sumsq d) by (apply Rmult_le_pos; lra). assert (Ld' : length d = n) by congruence.
  destruct (proposal E fs g HP CO Hok Eg Hg Hne Hrd Hws z valz rz rho m K f Lt Hz Ez Prho Hm HK Hf HL Hrho Hreg Hbd Htay tau eta Htau Htau1 Htau2 s A d (mapply A d) ng a1 c' r' Hin EA ETn Ld' (matmul_mapply A d HA Ld) ltac:(lra) Er Ec) as (P1 & P2 & P3 & P4 & (val & Hh) & P5).
  set (P := s_cost s - sumsq (vadd (mapply A d) (s_res s))) in *.
  destruct (gradient_size E fs g HP CO Hok Eg Hg Hne Hrd Hws z valz rz rho m K f Hz Ez Prho Hm HK Hf Hrho Hreg Hbd tau Htau s A ng Hin EA ETn) as (G1 & G2 & G3). assert (Pfb : 0 < f * f + be) by lra. assert (Pib : 0 < / (f * f + be)) by (apply Rinv_0_lt_compat; auto).
  assert (HP1 : sumsq ng * / (f * f + be) <= P) by (unfold Rdiv in D2; lra).
  assert (HP2 : grow * / (f * f + be) * s_cost s <= P) by (eapply Rle_trans; [|exact HP1]; replace (grow * / (f * f + be) * s_cost s) with (grow * s_cost s * / (f * f + be)) by ring; apply Rmult_le_compat_r; lra).
  assert (HP3 : eta * (grow * / (f * f + be) * s_cost s) <= eta * P) by (apply Rmult_le_compat_l; lra). cbn [s_cost s_iter].
  assert (P0 : 0 <= eta * P) by (apply Rmult_le_pos; [lra|]; assert (0 <= m * m * sumsq d) by (apply Rmult_le_pos; [apply Rmult_le_pos; lra | auto]); lra).
  split; [split; [split; [exact Ec | exists val; auto] | cbn [s_assign s_cost]; split; [auto | lra]]|]. split; [lra|]. split; [|lia].
  destruct (sizes E fs g HP CO Hok Eg Hg Hne Hrd Hws z valz rz rho m K f Hz Ez Prho Hm HK Hf Hrho Hreg Hbd s A ng Hs EA Hd ETn) as (_ & _ & _ & S3 & _).
  exists ng, d. split; [congruence|]. split; [pose proof (sumsq_nonneg (mapply A d)); lra|]. split; auto. cbn [s_done s_cost]. intros Hdn.
  apply (tests_say E cfg s c' _ _ _ Hconv). exact Hdn.
Qed.
End Stop.
