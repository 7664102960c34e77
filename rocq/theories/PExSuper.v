(* Bundled statements and concrete instances: the forcing sequence of inexact conjugate gradients. *)
From Coq Require Import List Arith Bool ZArith Lia Permutation Reals Lra Psatz.
From Verif Require Import Num NumR Py Arr MLayout MAssign MNoise MSparse MFactor MGraph MLinear MSolver SpecLayout SpecTree SpecAssign SpecGraph SpecSparse SpecDeriv SpecSolver SpecOrder SpecInv SpecLin SpecCgLin SpecDescent SpecLocal.
From Verif Require Import PBase PLayout PAssign PAssign2 PGraph PGraph2 PVec PSparse PHold PExGraph PSolver PSolver2 PInv PTotal PSolverR PDescent PLin PLinDl PLinCg PLocal PExInv Ex ExG ExS PExOrder PExSym PExDescent PExLin PExLinDl PExLocal.
Import ListNotations.
Local Open Scope R_scope.

Lemma iterate_last {A} (f : A -> result A) k : forall s s', iterate (Datatypes.S k) f s = Ok s' -> exists s1, iterate k f s = Ok s1 /\ f s1 = Ok s'.
Proof.
  induction k as [|k IH]; intros s s' H; cbn in H; apply bind_ok in H; destruct H as (s1 & H1 & H2).
  - injection H2 as <-. exists s. auto.
  - destruct (IH s1 s' H2) as (s2 & H3 & H4). exists s2. split; auto. cbn. rewrite H1. auto.
Qed.

Section Super.
Variable E : env R.
Variable fs : list (factor R).
Variable g : graph R.
Variables (z : assign R) (valz : var -> pytree R) (rho m K S : R).
Hypothesis GS : good_solution E fs g z valz rho m K S.
Variables (f t : R) (tol : nat -> R).
Hypothesis Hf : 0 <= f.
Hypothesis Hb : bounded_near E fs g z rho f.
Hypothesis Ht : forall i, Rabs (tol i) <= t.
Notation q := ((S + K * m * rho + t * (f * f + f * K * rho + S)) / (m * m)).
Hypothesis Hq : q < 1.
Hypothesis Hlim : forall eps, 0 < eps -> exists N, forall i, (N <= i)%nat -> Rabs (tol i) <= eps.

Lemma step_count step s s' : gauss_newton_iteration E g (cg_solve tol) step -> step s = Ok s' -> s_iter s' = Datatypes.S (s_iter s).
Proof. intros [(cfg & ->)|(it & ->)] H; [apply gn_advances in H | apply fixed_advances in H]; destruct H as (b & d & _ & _ & H); auto. Qed.
Lemma iter_count step : gauss_newton_iteration E g (cg_solve tol) step -> forall k s s', iterate k step s = Ok s' -> s_iter s' = (k + s_iter s)%nat.
Proof.
  intros Hst. induction k as [|k IH]; intros s s' H; [injection H as <-; reflexivity|]. cbn in H. apply bind_ok in H. destruct H as (s1 & H1 & H2).
  rewrite (IH _ _ H2), (step_count step s s1 Hst H1). lia.
Qed.
Lemma same_distance s v w : at_values E fs g s v -> at_values E fs g s w -> distance fs v valz = distance fs w valz.
Proof.
  destruct GS as (HP & WP & Eg & Hza & Hzl & (cz & rz & Ez & Hreg) & Hm & HK & HS & Hrho). intros H1 H2.
  rewrite <- (at_dist E fs g HP WP Eg z valz Hza Hzl s v H1), <- (at_dist E fs g HP WP Eg z valz Hza Hzl s w H2). auto.
Qed.

Lemma factor_small eps : 0 < eps -> 0 <= rho -> exists N, forall k d, (N <= k)%nat -> 0 <= d <= q ^ k * rho ->
  (S + K * m * d + Rabs (tol k) * (f * f + f * K * d + S)) <= (S / (m * m) + eps) * (m * m).
Proof.
  intros He Hr0. destruct GS as (_ & _ & _ & _ & _ & _ & Hm & HK & HS & Hrho). assert (Hmm : 0 < m * m) by (apply Rmult_lt_0_compat; auto).
  assert (Ht0 : 0 <= t) by (eapply Rle_trans; [apply Rabs_pos | apply (Ht O)]). assert (Hkm : 0 <= K * m) by (apply Rmult_le_pos; lra). assert (Hfk : 0 <= f * K) by (apply Rmult_le_pos; lra).
  assert (Hff : 0 <= f * f) by (apply Rmult_le_pos; lra). assert (Hfkr : 0 <= f * K * rho) by (apply Rmult_le_pos; lra). assert (Hkmr : 0 <= K * m * rho) by (apply Rmult_le_pos; lra).
  assert (Hq0 : 0 <= q). { apply Rmult_le_pos; [|apply Rlt_le, Rinv_0_lt_compat; auto]. assert (0 <= t * (f * f + f * K * rho + S)) by (apply Rmult_le_pos; lra). lra. }
  set (B := f * f + f * K * rho + S). assert (HB : 0 <= B) by (unfold B; lra).
  set (e1 := eps * (m * m) / 2). assert (He1 : 0 < e1) by (unfold e1; apply Rdiv_lt_0_compat; [apply Rmult_lt_0_compat; auto | lra]).
  destruct (Hlim (e1 / (1 + B))) as (N1 & HN1); [apply Rdiv_lt_0_compat; lra|].
  destruct (pow_lt_1_zero q) with (y := e1 / (1 + K * m * rho)) as (N2 & HN2); [rewrite Rabs_pos_eq; auto | apply Rdiv_lt_0_compat; lra|].
  exists (Nat.max N1 N2). intros k d Hk (Hd0 & Hd). specialize (HN1 k ltac:(lia)). specialize (HN2 k ltac:(lia)). rewrite Rabs_pos_eq in HN2 by (apply pow_le; auto).
  assert (Hqk1 : q ^ k <= 1) by (rewrite <- (pow1 k); apply pow_incr; lra). assert (Hqk0 : 0 <= q ^ k) by (apply pow_le; auto).
  assert (Hdr : d <= rho). { eapply Rle_trans; [exact Hd|]. apply Rle_trans with (1 * rho); [apply Rmult_le_compat_r; auto | lra]. }
  assert (H1 : K * m * d <= e1).
  { apply Rle_trans with (K * m * (q ^ k * rho)); [apply Rmult_le_compat_l; auto|]. replace (K * m * (q ^ k * rho)) with (q ^ k * (K * m * rho)) by ring.
    apply Rle_trans with (e1 / (1 + K * m * rho) * (1 + K * m * rho)); [apply Rmult_le_compat; lra|]. right. field. lra. }
  assert (H2 : Rabs (tol k) * (f * f + f * K * d + S) <= e1).
  { apply Rle_trans with (Rabs (tol k) * B). { apply Rmult_le_compat_l; [apply Rabs_pos|]. unfold B. assert (f * K * d <= f * K * rho) by (apply Rmult_le_compat_l; auto). lra. }
    apply Rle_trans with (e1 / (1 + B) * (1 + B)); [apply Rmult_le_compat; [apply Rabs_pos | lra | auto | lra]|]. right. field. lra. }
  replace ((S / (m * m) + eps) * (m * m)) with (S + 2 * e1) by (unfold e1; field; lra). lra.
Qed.

Lemma super_step eps : 0 < eps -> exists N, forall step k s val s1 s2, gauss_newton_iteration E g (cg_solve tol) step ->
  at_values E fs g s val -> s_iter s = O -> distance fs val valz <= rho -> (N <= k)%nat -> iterate k step s = Ok s1 -> step s1 = Ok s2 ->
  exists v1 v2, at_values E fs g s1 v1 /\ at_values E fs g s2 v2 /\ distance fs v2 valz <= (S / (m * m) + eps) * distance fs v1 valz.
Proof.
  intros He. pose proof GS as (HP & WP & Eg & Hza & Hzl & (cz & rz & Ez & Hreg) & Hm & HK & HS & Hrho). assert (Hmm : 0 < m * m) by (apply Rmult_lt_0_compat; auto).
  destruct (Rle_dec 0 rho) as [Hr0|Hr0]; [|exists O; intros step k s val s1 s2 _ _ _ Hd; exfalso; apply Hr0; eapply Rle_trans; [apply sqrt_pos | exact Hd]].
  destruct (factor_small eps He Hr0) as (N & HN). exists N. intros step k s val s1 s2 Hst Ha Hi Hd Hk H1 H2.
  assert (Hq' : S + K * m * rho + t * (f * f + f * K * rho + S) <= m * m).
  { apply (Rmult_le_reg_r (/ (m * m))); [apply Rinv_0_lt_compat; auto|]. rewrite Rinv_r by lra. unfold Rdiv in Hq. lra. }
  destruct (cg_many E fs g HP WP Eg z valz cz rz rho m K S Hza Hzl Ez Hm HK HS Hrho Hreg tol t f step k s s1 val Hst Hf Hb Ht Hq' Ha Hd H1) as (v1 & Ha1 & Hd1).
  assert (Hnn : 0 <= distance fs val valz) by apply sqrt_pos. assert (Hn1 : 0 <= distance fs v1 valz) by apply sqrt_pos.
  assert (Hq0 : 0 <= q). { assert (0 <= K * m * rho) by (apply Rmult_le_pos; [apply Rmult_le_pos; lra | auto]). assert (0 <= f * K * rho) by (apply Rmult_le_pos; [apply Rmult_le_pos; lra | auto]). assert (0 <= f * f) by (apply Rmult_le_pos; lra).
    assert (0 <= t) by (eapply Rle_trans; [apply Rabs_pos | apply (Ht O)]). assert (0 <= t * (f * f + f * K * rho + S)) by (apply Rmult_le_pos; lra). apply Rmult_le_pos; [lra | apply Rlt_le, Rinv_0_lt_compat; auto]. }
  assert (Hqk : 0 <= q ^ k) by (apply pow_le; auto). assert (Hqk1 : q ^ k <= 1) by (rewrite <- (pow1 k); apply pow_incr; lra).
  assert (Hd1' : distance fs v1 valz <= q ^ k * rho) by (eapply Rle_trans; [exact Hd1 | apply Rmult_le_compat_l; auto]).
  assert (Hd1r : distance fs v1 valz <= rho). { eapply Rle_trans; [exact Hd1'|]. apply Rle_trans with (1 * rho); [apply Rmult_le_compat_r; auto | lra]. }
  destruct (cg_one E fs g HP WP Eg z valz cz rz rho m K S Hza Hzl Ez Hm HK HS Hrho Hreg tol f step s1 s2 v1 Hst Hf Hb Ha1 Hd1r H2) as (v2 & Ha2 & Hd2).
  exists v1, v2. split; auto. split; auto. rewrite (iter_count step Hst k s s1 H1), Hi, Nat.add_0_r in Hd2.
  pose proof (HN k (distance fs v1 valz) Hk (conj Hn1 Hd1')) as Hs. apply (Rmult_le_reg_r (m * m)); auto. eapply Rle_trans; [exact Hd2|].
  replace ((S / (m * m) + eps) * distance fs v1 valz * (m * m)) with ((S / (m * m) + eps) * (m * m) * distance fs v1 valz) by ring. apply Rmult_le_compat_r; auto.
Qed.

Lemma super_tail eps : 0 < eps -> exists N, forall step k s val s', gauss_newton_iteration E g (cg_solve tol) step ->
  at_values E fs g s val -> s_iter s = O -> distance fs val valz <= rho -> iterate k step s = Ok s' ->
  exists v', at_values E fs g s' v' /\ distance fs v' valz <= (S / (m * m) + eps) ^ (k - N) * distance fs val valz.
Proof.
  intros He. destruct (super_step eps He) as (N & HN). exists N. pose proof GS as (HP & WP & Eg & Hza & Hzl & (cz & rz & Ez & Hreg) & Hm & HK & HS & Hrho). assert (Hmm : 0 < m * m) by (apply Rmult_lt_0_compat; auto).
  assert (Hq' : S + K * m * rho + t * (f * f + f * K * rho + S) <= m * m).
  { apply (Rmult_le_reg_r (/ (m * m))); [apply Rinv_0_lt_compat; auto|]. rewrite Rinv_r by lra. unfold Rdiv in Hq. lra. }
  intros step k. induction k as [|k IH]; intros s val s' Hst Ha Hi Hd H.
  - injection H as <-. exists val. split; auto. cbn. lra.
  - destruct (iterate_last _ _ _ _ H) as (s1 & H1 & H2). destruct (IH s val s1 Hst Ha Hi Hd H1) as (v1 & Ha1 & Hd1). assert (Hnn : 0 <= distance fs val valz) by apply sqrt_pos.
    destruct (le_lt_dec N k) as [Hk|Hk].
    + destruct (HN step k s val s1 s' Hst Ha Hi Hd Hk H1 H2) as (w1 & v2 & Hw1 & Ha2 & Hd2). exists v2. split; auto. rewrite (same_distance s1 w1 v1 Hw1 Ha1) in Hd2.
      replace (Datatypes.S k - N)%nat with (Datatypes.S (k - N)) by lia. cbn [pow]. rewrite Rmult_assoc. eapply Rle_trans; [exact Hd2|]. apply Rmult_le_compat_l; auto.
      assert (0 <= S / (m * m)) by (apply Rmult_le_pos; [auto | apply Rlt_le, Rinv_0_lt_compat; auto]). lra.
    + destruct (cg_many E fs g HP WP Eg z valz cz rz rho m K S Hza Hzl Ez Hm HK HS Hrho Hreg tol t f step (Datatypes.S k) s s' val Hst Hf Hb Ht Hq' Ha Hd H) as (v' & Ha' & Hd').
      exists v'. split; auto. replace (Datatypes.S k - N)%nat with O by lia. cbn [pow]. rewrite Rmult_1_l. eapply Rle_trans; [exact Hd'|]. rewrite <- (Rmult_1_l (distance fs val valz)) at 2. apply Rmult_le_compat_r; auto.
      assert (Hr0 : 0 <= rho) by lra.
      assert (Hq0 : 0 <= q). { assert (0 <= K * m * rho) by (apply Rmult_le_pos; [apply Rmult_le_pos; lra | auto]). assert (0 <= f * K * rho) by (apply Rmult_le_pos; [apply Rmult_le_pos; lra | auto]). assert (0 <= f * f) by (apply Rmult_le_pos; lra).
        assert (0 <= t) by (eapply Rle_trans; [apply Rabs_pos | apply (Ht O)]). assert (0 <= t * (f * f + f * K * rho + S)) by (apply Rmult_le_pos; lra). apply Rmult_le_pos; [lra | apply Rlt_le, Rinv_0_lt_compat; auto]. }
      rewrite <- (pow1 (Datatypes.S k)). apply pow_incr. lra.
Qed.
End Super.

(* whole solves *)
Section Solve.
Variable E : env R.
Variable fs : list (factor R).
Variable g : graph R.
Hypothesis WP : well_posed E fs.
Hypothesis Eg : graph_make E fs = Ok g.
Variable lin : linear_solver (T := R).
Hypothesis Hlin : total_solver lin.
Variables (init : assign R) (val : var -> pytree R).
Hypothesis Hi : assigns E fs init val.
Variable P : nat -> (var -> pytree R) -> Prop.
Lemma solve_values step extra solve cap fuel : nonlinear_solver E lin step extra solve ->
  (exists r, solve fuel g init = Some r /\ solve_outcome E step extra 1 cap g init r) ->
  (forall s k st, at_values E fs g s val -> s_iter s = O -> iterate k (step g) s = Ok st -> exists v', at_values E fs g st v' /\ P k v') ->
  exists a' k val', solve fuel g init = Some (Ok a') /\ (1 <= k <= cap)%nat /\ assigns E fs a' val' /\ P k val'.
Proof.
  intros Hsol (r & Er & Ho) HP. pose proof WP as [CO Hok Hws _ _]. destruct (posed_graph E fs WP) as (Hne & _ & _ & _). destruct (made E fs g Hok Eg) as (Hg & _).
  destruct (never_raises E fs WP) as (g' & Eg' & Hnr). assert (g' = g) by congruence. subst g'. destruct (Hnr lin step extra solve Hlin Hsol init val Hi) as (Hne' & _).
  destruct (update_holds E CO fs init val Hi) as (a & Eu & Ha). unfold solve_outcome in Ho. rewrite (ig_layout _ _ _ Hg), Eu in Ho.
  destruct Ho as [(e & H & _)|(a1 & H & Ho)]; [discriminate|]. injection H as <-.
  destruct (cost_total E CO fs g Hok Hg Hne Hws a (ex_intro _ val Ha)) as (c0 & r0 & Ec & _).
  rewrite Ec in Ho. destruct Ho as [(e & H & _)|(c & res & run & H & Hrun & Hr)]; [discriminate|]. injection H as <- <-.
  destruct Hrun as [(k & st & Hk & Hruns & _ & ->)|(k & st & e & _ & _ & _ & _ & ->)]; [|exfalso; cbn in Hr; subst r; eapply Hne'; eauto].
  cbn [bind] in Hr. set (s0 := mkState 0 a c0 r0 false extra) in *.
  assert (H0 : at_values E fs g s0 val) by (apply (fresh_at E fs g WP Eg); auto; split; [exact Ec | exists val; auto]).
  destruct (HP s0 k st H0 eq_refl (runs_iterate _ _ _ _ Hruns)) as (vk & (H1 & H2 & H3) & Hp). pose proof (lin_holds E fs g WP Eg _ _ H1 H2) as Hh.
  destruct (update_back E CO fs (s_assign st) vk init val Hh Hi) as (a' & Eb & Ha'). exists a', k, vk. split; [congruence|]. auto.
Qed.
Lemma fixed_values fuel unroll it : same_layout (as_layout init) (g_layout g) -> (1 <= it)%Z -> (Z.to_nat it <= fuel)%nat ->
  (forall s st, at_values E fs g s val -> s_iter s = O -> iterate (Z.to_nat it) (fixed_step E it lin g) s = Ok st -> exists v', at_values E fs g st v' /\ P (Z.to_nat it) v') ->
  exists a' val', fixed_solve E fuel unroll it lin g init = Some (Ok a') /\ assigns E fs a' val' /\ P (Z.to_nat it) val'.
Proof.
  intros Hs Hit Hf HP. destruct (posed_graph E fs WP) as (Hne & _ & Hrd & Hpd). pose proof WP as [CO Hok Hws _ _]. destruct (made E fs g Hok Eg) as (Hg & _).
  pose proof (lin_holds E fs g WP Eg init val Hi Hs) as Ha. destruct (cost_total E CO fs g Hok Hg Hne Hws init (ex_intro _ val Ha)) as (c0 & r0 & Ec & Hl).
  set (s0 := mkState 0 init c0 r0 false 0) in *. assert (Hr0 : PTotal.ready E fs s0) by (split; [exists val; auto | auto]).
  destruct (iterate_total E fs (fixed_step E it lin g) (fun s => fixed_total E CO fs g Hok Hg Hne Hrd Hws lin Hlin it s) (Z.to_nat it) s0 Hr0) as (st & Est & Hst).
  destruct (HP s0 st) as (vk & Hk & Hp); [split; [auto | split; auto] | reflexivity | exact Est |]. exists (s_assign st), vk. split; [|split; [apply Hk | auto]].
  unfold fixed_solve, init_state. rewrite Ec. cbn [bind fst snd]. change n0 with 0. fold s0. rewrite Est.
  destruct unroll; [reflexivity|]. destruct (Z.to_nat it) as [|k] eqn:Ek; [lia|].
  rewrite (fixed_loop E lin g it k fuel s0); auto; [rewrite Est; auto|]. cbn. lia.
Qed.
End Solve.

Lemma super_steps : forall (E : env R) fs g z valz rho m K S, good_solution E fs g z valz rho m K S ->
  forall f t tol, 0 <= f -> bounded_near E fs g z rho f -> (forall i, Rabs (tol i) <= t) -> (S + K * m * rho + t * (f * f + f * K * rho + S)) / (m * m) < 1 ->
  (forall eps, 0 < eps -> exists N, forall i, (N <= i)%nat -> Rabs (tol i) <= eps) ->
  forall eps, 0 < eps -> exists N, forall step k s val s1 s2, gauss_newton_iteration E g (cg_solve tol) step ->
    at_values E fs g s val -> s_iter s = 0%nat -> distance fs val valz <= rho -> (N <= k)%nat -> runs step k s s1 -> step s1 = Ok s2 ->
    exists v1 v2, at_values E fs g s1 v1 /\ at_values E fs g s2 v2 /\ distance fs v2 valz <= (S / (m * m) + eps) * distance fs v1 valz.
Proof.
  intros E fs g z valz rho m K S GS f t tol Hf Hb Ht Hq Hlim eps He. destruct (super_step E fs g z valz rho m K S GS f t tol Hf Hb Ht Hq Hlim eps He) as (N & HN).
  exists N. intros step k s val s1 s2 Hst Ha Hi Hd Hk Hr H2. apply (HN step k s val s1 s2); auto. apply runs_iterate; auto.
Qed.
Lemma super_solves : forall (E : env R) fs g z valz rho m K S, good_solution E fs g z valz rho m K S ->
  forall f t tol, 0 <= f -> bounded_near E fs g z rho f -> (forall i, Rabs (tol i) <= t) -> (S + K * m * rho + t * (f * f + f * K * rho + S)) / (m * m) < 1 ->
  (forall eps, 0 < eps -> exists N, forall i, (N <= i)%nat -> Rabs (tol i) <= eps) ->
  forall eps, 0 < eps -> exists N, forall init val, assigns E fs init val -> distance fs val valz <= rho ->
    (forall cfg fuel, (iteration_cap (max_iterations cfg) <= fuel)%nat ->
       exists a' k val', gn_solve E fuel cfg (cg_solve tol) g init = Some (Ok a') /\ (1 <= k <= iteration_cap (max_iterations cfg))%nat /\ assigns E fs a' val' /\
         distance fs val' valz <= (S / (m * m) + eps) ^ (k - N) * distance fs val valz) /\
    (forall fuel unroll it, same_layout (as_layout init) (g_layout g) -> (1 <= it)%Z -> (Z.to_nat it <= fuel)%nat ->
       exists a' val', fixed_solve E fuel unroll it (cg_solve tol) g init = Some (Ok a') /\ assigns E fs a' val' /\
         distance fs val' valz <= (S / (m * m) + eps) ^ (Z.to_nat it - N) * distance fs val valz).
Proof.
  intros E fs g z valz rho m K S GS f t tol Hf Hb Ht Hq Hlim eps He. destruct (super_tail E fs g z valz rho m K S GS f t tol Hf Hb Ht Hq Hlim eps He) as (N & HN).
  exists N. intros init val Hi Hd. pose proof GS as (HP & WP & Eg & _). split.
  - intros cfg fuel Hfu. apply (solve_values E fs g WP Eg (cg_solve tol) (cg_total tol) init val Hi (fun k v => distance fs v valz <= (S / (m * m) + eps) ^ (k - N) * distance fs val valz) _ _ _ _ fuel (solver_gn E (cg_solve tol) cfg)).
    + destruct (solvers_terminate E g init (cg_solve tol) fuel) as (Hx & _). auto.
    + intros s k st Ha H0 H. apply (HN (gn_step E cfg (cg_solve tol) g) k s val st); auto. left. eauto.
  - intros fuel unroll it Hs Hit Hfu. apply (fixed_values E fs g WP Eg (cg_solve tol) (cg_total tol) init val Hi (fun k v => distance fs v valz <= (S / (m * m) + eps) ^ (k - N) * distance fs val valz) fuel unroll it Hs Hit Hfu).
    intros s st Ha H0 H. apply (HN (fixed_step E it (cg_solve tol) g) (Z.to_nat it) s val st); auto. right. eauto.
Qed.
Lemma forcing_sequence : forall eta, (forall i, Rabs (inexact_tolerance eta i) <= Rabs eta) /\
  forall eps, 0 < eps -> exists N, forall i, (N <= i)%nat -> Rabs (inexact_tolerance eta i) <= eps.
Proof.
  intros eta. assert (Hv : forall i, Rabs (inexact_tolerance eta i) = Rabs eta / INR (i + 1)).
  { intros i. unfold inexact_tolerance. change (ndiv (T := R)) with Rdiv. cbn [nlit NumR]. unfold Rlit. rewrite <- INR_IZR_INZ. assert (Hp : 0 < INR (i + 1)) by (apply lt_0_INR; lia).
    replace (eta / (INR (i + 1) / 1)) with (eta * / INR (i + 1)) by (field; lra). rewrite Rabs_mult, (Rabs_pos_eq (/ _)); [reflexivity|]. apply Rlt_le, Rinv_0_lt_compat; auto. }
  pose proof (Rabs_pos eta) as H0. split.
  - intros i. rewrite Hv. assert (Hp : 1 <= INR (i + 1)) by (rewrite plus_INR; pose proof (pos_INR i); simpl; lra). apply (Rmult_le_reg_r (INR (i + 1))); [lra|].
    replace (Rabs eta / INR (i + 1) * INR (i + 1)) with (Rabs eta * 1) by (field; lra). apply Rmult_le_compat_l; lra.
  - intros eps He. destruct (archimed_cor1 (eps / (1 + Rabs eta))) as (N & HN & HN0); [apply Rdiv_lt_0_compat; lra|]. exists N. intros i Hi. rewrite Hv.
    assert (Hp : INR N <= INR (i + 1)) by (apply le_INR; lia). assert (Hn : 0 < INR N) by (apply lt_0_INR; auto).
    assert (H1 : / INR (i + 1) <= / INR N) by (apply Rinv_le_contravar; auto). assert (H2 : 0 < / INR (i + 1)) by (apply Rinv_0_lt_compat; lra).
    apply Rle_trans with ((1 + Rabs eta) * (eps / (1 + Rabs eta))); [|right; field; lra]. unfold Rdiv at 1. apply Rmult_le_compat; lra.
Qed.

(* x^2 = 4 from x = 5/2 with the default eta *)
Lemma stuck_bounded : bounded_near exSE stuck_fs (graph_of stuck_fs) (scalars [vx] [2]) (1/2) 5.
Proof.
  intros b val c r A Ha Hs Ec EA Hd v Av H. destruct (stuck_only b val Ha Hs) as (x & ->). destruct (stuck_cost x) as (c0 & E0). rewrite E0 in Ec. injection Ec as <- <-.
  rewrite stuck_jacobian in EA by auto. injection EA as <-. change (vnorm [2 - x] <= 1/2) in Hd. rewrite norm1 in Hd.
  assert (Hx : 3/2 <= x <= 5/2) by (revert Hd; unfold Rabs; destruct (Rcase_abs _); lra).
  destruct (stuck_long _ _ _ H) as (a & ->). rewrite stuck_times in H. injection H as <-. rewrite !sq_norm1. pose proof (Rle_0_sqr a) as Ha2. unfold Rsqr in Ha2. assert (4 * (x * x) <= 25) by nra. nra.
Qed.
Lemma scalar_at fs x : mentioned fs = [vx] -> assigns exSE fs (scalars [vx] [x]) (const_of x).
Proof. intros Hm. exists [vx]. split; [split; [repeat constructor; simpl; tauto | split; reflexivity]|]. split; [intros v; rewrite Hm; simpl; tauto|]. intros v Hv. destruct Hv as [<-|[]]. reflexivity. Qed.
Lemma scalar_distance fs x y : mentioned fs = [vx] -> distance fs (const_of x) (const_of y) = Rabs (y - x).
Proof. intros Hm. unfold distance, distance2. rewrite Hm. change (sqrt (vsum [sumsq [y - x]]) = Rabs (y - x)). rewrite <- (norm1 (y - x)). rewrite vsum_cons, vsum_nil, Rplus_0_r. reflexivity. Qed.
Lemma super_example : exists g init, good_solution exSE stuck_fs g (scalars [vx] [2]) (fun _ => leaf1 [2]) (1/2) 3 1 0 /\ bounded_near exSE stuck_fs g (scalars [vx] [2]) (1/2) 5 /\
  (0 + 1 * 3 * (1/2) + Rabs (1/100) * (5 * 5 + 5 * 1 * (1/2) + 0)) / (3 * 3) < 1 /\
  assigns exSE stuck_fs init (fun _ => leaf1 [5/2]) /\ same_layout (as_layout init) (g_layout g) /\ distance stuck_fs (fun _ => leaf1 [5/2]) (fun _ => leaf1 [2]) = 1/2.
Proof.
  exists (graph_of stuck_fs), (scalars [vx] [5/2]). destruct stuck_posed as (P1 & P2). split.
  { split; auto. split; auto. split; [reflexivity|]. split; [apply (scalar_at stuck_fs 2 eq_refl)|]. split; [repeat split|]. split; [|lra].
    destruct (stuck_cost 2) as (c & Ec). exists c, [0]. split; [rewrite Ec; do 2 f_equal; f_equal; lra | apply stuck_regular]. }
  split; [exact stuck_bounded|]. split; [rewrite Rabs_pos_eq; lra|]. split; [apply (scalar_at stuck_fs (5/2) eq_refl)|]. split; [repeat split|].
  change (distance stuck_fs (const_of (5/2)) (const_of 2) = 1/2). rewrite scalar_distance by reflexivity. unfold Rabs. destruct (Rcase_abs _); lra.
Qed.

(* with CHOLMOD the factor stays the same forever *)
Definition anchor_jac : coo R := mkCoo [1] (mkCoords [0%nat] [0%nat]) (1%nat, 1%nat).
Lemma anchor_regular : regular_near exSE one_anchor (graph_of one_anchor) (scalars [vx] [1]) [0] 1 1 0 0.
Proof.
  assert (HP : plain_problem exSE one_anchor) by (intros v [<-|[]]; split; reflexivity). pose proof anchor_posed as WP.
  assert (Honly : forall b val, assigns exSE one_anchor b val -> same_layout (as_layout b) (g_layout (graph_of one_anchor)) -> exists x, b = scalars [vx] [x]).
  { intros b val Ha Hs. pose proof (lin_holds exSE one_anchor _ WP eq_refl b val Ha Hs) as Hh.
    pose proof (pl_held_length exSE one_anchor HP exS_classes b val Hh) as Hl. destruct Hh as (vs & Hwf & Hsl & _). pose proof (holds_vars exSE one_anchor vs b Hwf Hsl) as Hv.
    destruct Hwf as (ND & HL & _). change (length (as_storage b) = 1%nat) in Hl. destruct b as [st lay]. cbn [as_storage as_layout] in *.
    destruct st as [|x [|y st]]; try discriminate. exists x. unfold scalars. f_equal. rewrite HL. f_equal.
    destruct vs as [|v vs]; [exfalso; apply (proj2 (Hv vx)); left; auto|]. assert (v = vx) by (destruct (proj1 (Hv v) (or_introl eq_refl)) as [<-|[]]; auto). subst v.
    destruct vs as [|w vs]; auto. exfalso. destruct (proj1 (Hv w) (or_intror (or_introl eq_refl))) as [Hw|[]]. subst w. inversion ND as [|? ? Hn _]; subst. apply Hn. left. auto. }
  assert (Ht : forall v (Av : list R), matmul anchor_jac v = Ok Av -> exists a, v = [a] /\ Av = [a]).
  { intros v Av H. destruct v as [|a [|b v]]; [discriminate | | discriminate]. exists a. split; auto. revert H. comp. intros H. injection H as <-. f_equal. lra. }
  intros b val c r A Ha Hs Ec EA e Hd. destruct (Honly b val Ha Hs) as (x & ->).
  assert (Er : r = [x - 1]). { revert Ec. comp. intros Ec. injection Ec as <- <-. f_equal. unfold Rlit. lra. }
  subst r. assert (EA' : A = anchor_jac). { revert EA. comp. intros EA. injection EA as <-. unfold anchor_jac. f_equal. f_equal. unfold Rlit. lra. }
  subst A. assert (He : e = [1 - x]) by reflexivity. rewrite He in *. split; [|split].
  - intros y Ay Hy H. destruct (Ht _ _ H) as (a & -> & ->). lra.
  - intros Ae H. destruct (Ht _ _ H) as (a & Hae & ->). injection Hae as <-. replace (vsub (vadd [1 - x] [x - 1]) [0]) with [0].
    2:{ unfold vsub, vadd, zipw. rn. cbn [map combine]. cbn. f_equal. lra. }
    rewrite norm1, Rabs_R0. lra.
  - intros v Av H. destruct (Ht _ _ H) as (a & -> & ->). rewrite vdot_cons, vdot_nil_l. lra.
Qed.
Lemma cholmod_linear : exists (E : env R) fs g z valz a val c r, good_solution E fs g z valz 1 1 0 0 /\
  assigns E fs a val /\ same_layout (as_layout a) (g_layout g) /\ compute_cost E g a = Ok (c, r) /\ distance fs val valz = 1 /\
  forall k st, iterate k (fixed_step E 100 cholmod_solve g) (mkState 0 a c r false 0) = Ok st ->
    exists vk, at_values E fs g st vk /\ distance fs vk valz = (1 / 100001) ^ k.
Proof.
  assert (Hc : forall x, compute_cost exSE (graph_of one_anchor) (scalars [vx] [x]) = Ok ((x - 1) * (x - 1), [x - 1])) by (intros x; comp; f_equal; f_equal; [|f_equal]; unfold Rlit; lra).
  exists exSE, one_anchor, (graph_of one_anchor), (scalars [vx] [1]), (const_of 1), (scalars [vx] [0]), (const_of 0). do 2 eexists. split.
  { split; [intros v [<-|[]]; split; reflexivity|]. split; [exact anchor_posed|]. split; [reflexivity|]. split; [apply (scalar_at one_anchor 1 eq_refl)|]. split; [repeat split|]. split; [|lra].
    do 2 eexists. split; [apply Hc|]. replace (1 - 1) with 0 by lra. apply anchor_regular. }
  split; [apply (scalar_at one_anchor 0 eq_refl)|]. split; [repeat split|]. split; [apply Hc|]. split; [rewrite scalar_distance by reflexivity; rewrite Rabs_pos_eq; lra|].
  assert (Hstep : forall n x dn s', fixed_step exSE 100 cholmod_solve (graph_of one_anchor) (mkState n (scalars [vx] [x]) ((x - 1) * (x - 1)) [x - 1] dn 0) = Ok s' ->
    exists n' dn', s' = mkState n' (scalars [vx] [1 - (1 - x) / 100001]) ((1 - (1 - x) / 100001 - 1) * (1 - (1 - x) / 100001 - 1)) [1 - (1 - x) / 100001 - 1] dn' 0).
  { intros n x dn s' H. unfold fixed_step in H. apply bind_ok in H. destruct H as (((b & d) & a') & Eu & H). assert (Ha' : a' = scalars [vx] [1 - (1 - x) / 100001]).
    { revert Eu. comp. intros Eu. injection Eu as _ _ <-. f_equal. f_equal. unfold Rlit. field. }
    subst a'. rewrite Hc in H. cbn [bind fst snd] in H. injection H as <-. do 2 eexists. reflexivity. }
  assert (Hk : forall k n x dn st, iterate k (fixed_step exSE 100 cholmod_solve (graph_of one_anchor)) (mkState n (scalars [vx] [x]) ((x - 1) * (x - 1)) [x - 1] dn 0) = Ok st -> x <= 1 ->
    exists y, at_values exSE one_anchor (graph_of one_anchor) st (const_of y) /\ y <= 1 /\ 1 - y = (1 / 100001) ^ k * (1 - x)).
  { induction k as [|k IH]; intros n x dn st H Hx.
    - injection H as <-. exists x. split; [|cbn; lra]. split; [apply (scalar_at one_anchor x eq_refl)|]. split; [repeat split | apply Hc].
    - cbn [iterate] in H. apply bind_ok in H. destruct H as (s1 & H1 & H2). destruct (Hstep _ _ _ _ H1) as (n' & dn' & ->). destruct (IH _ _ _ _ H2) as (y & Hy1 & Hy2 & Hy3); [lra|]. exists y. split; auto. split; auto. rewrite Hy3. cbn [pow]. field. }
  intros k st H. destruct (Hk k O 0 false st H ltac:(lra)) as (y & Hy1 & Hy2 & Hy3). exists (const_of y). split; auto. rewrite scalar_distance by reflexivity. rewrite Rabs_pos_eq by lra. rewrite Hy3. lra.
Qed.
