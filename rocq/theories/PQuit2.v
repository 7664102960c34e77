(* Solves on consistent pose graphs, whatever the connections, with the reason why they stopped. *)
From Coq Require Import List Arith Bool ZArith Lia Permutation Reals Lra Psatz.
From Verif Require Import Num NumR Py Arr MLayout MAssign MNoise MSparse MFactor MGraph MLinear MSolver MLie MPose SpecLayout SpecTree SpecAssign SpecNoise SpecGraph SpecSparse SpecLie SpecPose SpecZero SpecSpatial SpecTwin SpecInv SpecOrder SpecSolver SpecLin SpecLocal SpecBook SpecNear SpecBasin SpecPoseStop.
From Verif Require Import PBase PLayout PAssign PGraph PGraph2 PGraph3 PVec PSparse PLinear PLie PPose PFrame PSolver PSolver2 PSolverR PNoise PDescent PTotal PLocal PLin PLinDl PLinCg POrder PHold PInv PTwin2 PFree PZero PJacZero PNear PExGraph PBook PExInv PExLinDl PExLocal PExHalt PBasin4 PBasin5 PBasin7 PBasin8 PBasin9 PBasin10 PBasin11 PBasin12 PFinish PPoseStop PPoseStop2 SpecGauge SpecLoose SpecDrift SpecQuit PGauge3 PGauge4 PLoose PLoose2 PLoose3 PDrift PDrift2 PQuit.
Import ListNotations.
Local Open Scope R_scope.
Notation moved := SpecBook.moved.

Section Loop.
Variable groups : vty -> lie_ops R (list R).
Variable fs : list (factor R).
Variable z : var -> pytree R.
Variable g : graph R.
Hypothesis SB : solved_by groups fs z.
Let E := pose_env groups.
Hypothesis WP : well_posed E fs.
Hypothesis Eg : graph_make E fs = Ok g.
Variable rt : var -> option var.
Notation fixes e := (rooted groups fs rt e).
Notation lst := (lst groups fs z rt).

(* what is known between iterations *)
Definition live (m rho : R) (good : R -> Prop) (x : R) (val old : var -> pytree R) (e : var -> list R) : Prop :=
  lst m rho val e /\ (forall v, In v (mentioned fs) -> old v = val v) /\ 0 < x /\ (size fs e = 0 \/ good x).

Section Solve.
Variables (cfg : term_cfg R) (step : graph R -> sstate R -> result (sstate R)) (extra : R) (solve : nat -> graph R -> assign R -> option (result (assign R))).
Hypothesis Hsol : nonlinear_solver E cholmod_solve step extra solve.
Hypothesis Hcap : forall fuel init, (iteration_cap (max_iterations cfg) <= fuel)%nat -> exists r, solve fuel g init = Some r /\ solve_outcome E step extra 1 (iteration_cap (max_iterations cfg)) g init r.
Variables (m M d q h rho D0 N : R) (ex : sstate R -> R) (good : R -> Prop).
Hypotheses (Hm : 0 < m) (HM : 0 <= M) (Hq : 0 <= q < 1) (Hh : 0 < h) (Hrho : 0 < rho) (Hrd : rho <= d) (HD0 : 0 <= D0) (HN0 : 0 <= N).
Hypothesis HB : forall val e, apart groups fs z val e -> fixes e -> size fs e <= d -> m * size fs e * (m * size fs e) <= cost_at E fs val <= M * size fs e * (M * size fs e).
Hypothesis HN : forall a val S, 0 <= S -> proper groups fs val -> (forall v, In v (mentioned fs) -> forall i, Rabs (nth i (params (val v)) 0) <= S) -> holds E fs a val -> vnorm (as_storage a) <= N * S.
Hypothesis Hex : forall s, s_extra s = extra -> 0 < ex s /\ good (ex s).
Hypothesis Hone : forall s s' val old e, carries E fs g s val old -> live m rho good (ex s) val old e -> step g s = Ok s' ->
  exists val' old' e' xi p, carries E fs g s' val' old' /\ live m rho good (ex s') val' old' e' /\ cost_at E fs val' <= q * cost_at E fs val /\ within fs (D0 * size fs e) val val' /\ s_iter s' = S (s_iter s) /\
    h * size fs e <= size fs xi /\ cost_at E fs p <= q * cost_at E fs val /\ (s_done s' = true -> tests groups fs cfg s val xi p).

Let s := sqrt q.
Let B := D0 / m / (1 - s).
Let X := B * (m * rho).
Let Dq := M / m * ((N * (1 + X) + 1) / h).
Lemma s_range : 0 <= s < 1.
Proof. apply sqrt_below. exact Hq. Qed.
Lemma B_pos : 0 <= B.
Proof. pose proof s_range. apply Rmult_le_pos; [apply Rmult_le_pos; [auto | apply Rlt_le, Rinv_0_lt_compat; auto] | apply Rlt_le, Rinv_0_lt_compat; lra]. Qed.
Lemma X_pos : 0 <= X.
Proof. apply Rmult_le_pos; [apply B_pos|]. apply Rmult_le_pos; lra. Qed.
Lemma root_low val e : lst m rho val e -> m * size fs e <= sqrt (cost_at E fs val).
Proof.
  intros (A1 & A2 & A3 & _). destruct (HB val e A1 A2 ltac:(lra)) as (L & _). pose proof (size_pos fs e). rewrite <- (sqrt_square (m * size fs e)) by (apply Rmult_le_pos; lra). apply sqrt_le_1_alt. exact L.
Qed.
Lemma root_high val e : lst m rho val e -> sqrt (cost_at E fs val) <= M * size fs e.
Proof.
  intros (A1 & A2 & A3 & _). destruct (HB val e A1 A2 ltac:(lra)) as (_ & L). pose proof (size_pos fs e). rewrite <- (sqrt_square (M * size fs e)) by (apply Rmult_le_pos; lra). apply sqrt_le_1_alt. exact L.
Qed.
Lemma root_top val e : lst m rho val e -> sqrt (cost_at E fs val) <= m * rho.
Proof. intros (_ & _ & _ & L). rewrite <- (sqrt_square (m * rho)) by (apply Rmult_le_pos; lra). apply sqrt_le_1_alt. exact L. Qed.
Lemma root_step val val' : cost_at E fs val' <= q * cost_at E fs val -> sqrt (cost_at E fs val') <= s * sqrt (cost_at E fs val).
Proof. intros H. unfold s. rewrite <- sqrt_mult_alt by lra. apply sqrt_le_1_alt. exact H. Qed.
Lemma shrunk val val' e e' : lst m rho val e -> lst m rho val' e' -> cost_at E fs val' <= q * cost_at E fs val -> size fs e' <= M / m * size fs e.
Proof.
  intros H1 H2 H3. apply root_low in H2. apply root_high in H1. apply root_step in H3. pose proof s_range. pose proof (sqrt_pos (cost_at E fs val)). apply (Rmult_le_reg_l m); auto. replace (m * (M / m * size fs e)) with (M * size fs e) by (field; lra). nra.
Qed.
Lemma said bound st val old e e' xi p : 0 <= bound -> carries E fs g st val old -> lst m rho val e -> (forall v, In v (mentioned fs) -> old v = val v) -> poses_below fs (bound + X) val ->
  h * size fs e <= size fs xi -> cost_at E fs p <= q * cost_at E fs val -> size fs e' <= M / m * size fs e -> cost_tolerance cfg <= 1 - q -> 0 <= parameter_tolerance cfg -> tests groups fs cfg st val xi p ->
  halted cfg (Dq * (1 + bound)) (S (s_iter st)) (size fs e').
Proof.
  intros Hb (Ha & Hl & _) HL Ho Hpb Hlong Hc He' Hct Hpt Ht. unfold halted. cbv zeta. set (t := parameter_tolerance cfg) in *. pose proof (size_pos fs e) as Pe. pose proof X_pos as PX.
  assert (PMm : 0 <= M / m) by (apply Rmult_le_pos; [auto | apply Rlt_le, Rinv_0_lt_compat; auto]).
  assert (PD : 0 <= Dq) by (apply Rmult_le_pos; [auto|]; apply Rlt_le, Rdiv_lt_0_compat; [assert (0 <= N * (1 + X)) by (apply Rmult_le_pos; lra); lra | auto]).
  assert (Pt : 0 <= t * (1 + t)) by (apply Rmult_le_pos; lra). assert (Pr : 0 <= Dq * (1 + bound) * (t * (1 + t))) by (apply Rmult_le_pos; [apply Rmult_le_pos; lra | auto]).
  destruct (Rle_lt_or_eq_dec 0 _ Pe) as [Hpos|Hz]; [|right; right; rewrite <- Hz, Rmult_0_r in He'; lra].
  pose proof HL as (A1 & A2 & A3 & _). destruct (HB val e A1 A2 ltac:(lra)) as (L & _). assert (Hms : 0 < m * size fs e) by (apply Rmult_lt_0_compat; auto). assert (I2 : 0 < cost_at E fs val) by nra.
  destruct Ht as [Ht|[Ht|[Ht|Ht]]]; [left; lia | right; left; lia | exfalso | right; right].
  - fold E in Ht. assert (Hd1 : 0 <= (1 - q) * cost_at E fs val) by (apply Rmult_le_pos; lra). rewrite Rabs_left1 in Ht by lra. apply (Rmult_lt_compat_r (cost_at E fs val)) in Ht; [|auto].
    replace (- (cost_at E fs p - cost_at E fs val) / cost_at E fs val * cost_at E fs val) with (cost_at E fs val - cost_at E fs p) in Ht by (field; lra). pose proof (Rmult_le_compat_r _ _ _ (Rlt_le _ _ I2) Hct). lra.
  - pose proof (HN (s_assign st) val (bound + X) ltac:(lra) (proper_apart groups fs z SB val e A1) Hpb (lin_holds E fs g WP Eg _ _ Ha Hl)) as HB'. fold t in Ht.
    assert (Hx : h * size fs e <= (N * (bound + X) + t) * t) by (apply Rle_trans with (size fs xi); auto; apply Rlt_le; eapply Rlt_le_trans; [exact Ht|]; apply Rmult_le_compat_r; lra).
    assert (Hy : (N * (bound + X) + t) * t <= (N * (1 + X) + 1) * ((1 + bound) * (t * (1 + t)))).
    { replace ((N * (1 + X) + 1) * ((1 + bound) * (t * (1 + t)))) with ((N * (1 + X) + 1) * ((1 + bound) * (1 + t)) * t) by ring. apply Rmult_le_compat_r; auto.
      assert (Q1 : 0 <= N * X) by (apply Rmult_le_pos; auto). assert (Q2 : 0 <= N * bound) by (apply Rmult_le_pos; auto). assert (Q3 : 1 <= (1 + bound) * (1 + t)) by nra. assert (Q4 : 1 + bound <= (1 + bound) * (1 + t)) by nra. assert (Q5 : 1 + t <= (1 + bound) * (1 + t)) by nra.
      set (Y := (1 + bound) * (1 + t)) in *. assert (N * (1 + bound) <= N * Y) by (apply Rmult_le_compat_l; auto). assert (N * X * 1 <= N * X * Y) by (apply Rmult_le_compat_l; auto). lra. }
    assert (Hz : size fs e <= (N * (1 + X) + 1) / h * ((1 + bound) * (t * (1 + t)))).
    { apply (Rmult_le_reg_l h); auto. replace (h * ((N * (1 + X) + 1) / h * ((1 + bound) * (t * (1 + t))))) with ((N * (1 + X) + 1) * ((1 + bound) * (t * (1 + t)))) by (field; lra). lra. }
    eapply Rle_trans; [exact He'|]. unfold Dq. replace (M / m * ((N * (1 + X) + 1) / h) * (1 + bound) * (t * (1 + t))) with (M / m * ((N * (1 + X) + 1) / h * ((1 + bound) * (t * (1 + t))))) by ring. apply Rmult_le_compat_l; auto.
Qed.

Lemma quit_on bound fuel init val e : 0 <= bound -> cost_tolerance cfg <= 1 - q -> 0 <= parameter_tolerance cfg -> (iteration_cap (max_iterations cfg) <= fuel)%nat -> assigns E fs init val -> poses_below fs bound val -> lst m rho val e ->
  exists a' val' e' k, solve fuel g init = Some (Ok a') /\ assigns E fs a' val' /\ (1 <= k <= iteration_cap (max_iterations cfg))%nat /\
    apart groups fs z val' e' /\ size fs e' <= M / m * s ^ k * size fs e /\ halted cfg (Dq * (1 + bound)) k (size fs e').
Proof.
  intros Hbd Hct Hpt Hf Hi Hpb Hl0. destruct (Hcap fuel init Hf) as (r & Er & Ho). pose proof WP as [CO Hok Hws _ _]. destruct (made E fs g Hok Eg) as (Hg & _).
  destruct (never_raises E fs WP) as (g' & Eg' & Hnr). assert (g' = g) by congruence. subst g'. destruct (Hnr cholmod_solve step extra solve cholmod_total Hsol init val Hi) as (Hne' & _).
  destruct (update_holds E CO fs init val Hi) as (a & Eu & Ha). unfold solve_outcome in Ho. rewrite (ig_layout _ _ _ Hg), Eu in Ho.
  destruct Ho as [(er & H & _)|(a1 & H & Ho)]; [discriminate|]. injection H as <-.
  destruct Ho as [(er & _ & H)|(c & res & run & Ec & Hrun & Hr)]; [exfalso; subst r; eapply Hne'; eauto|].
  destruct Hrun as [(k & st & Hk & Hruns & Hdn & ->)|(k & st & er & _ & _ & _ & _ & ->)]; [|exfalso; cbn in Hr; subst r; eapply Hne'; eauto].
  cbn [bind] in Hr. set (s0 := mkState 0 a c res false extra) in *. pose proof s_range as Hs. pose proof B_pos as PB.
  assert (Hc0 : carries E fs g s0 val val) by (apply (holds_carries E fs g WP Eg s0 val c); auto). set (c0 := sqrt (cost_at E fs val)).
  set (inv := fun st => exists val' old' e', carries E fs g st val' old' /\ live m rho good (ex st) val' old' e' /\ sqrt (cost_at E fs val') <= s ^ s_iter st * c0 /\ within fs (B * (c0 - sqrt (cost_at E fs val'))) val val' /\ (s_done st = true -> halted cfg (Dq * (1 + bound)) (s_iter st) (size fs e'))).
  destruct (run_inv (step g) inv (fun _ => True)) with (k := k) (s := s0) (s' := st) as ((val' & old' & e' & I1 & (I2 & _) & I3 & _ & I5) & J & _); auto.
  - intros u u' (v1 & o1 & e1 & H1 & H2 & H3 & H4 & _) Hst. destruct (Hone u u' v1 o1 e1 H1 H2 Hst) as (v2 & o2 & e2 & xi & p & G1 & G2 & G3 & G4 & G5 & G6 & G7 & G8). split; [|auto].
    pose proof H2 as (K1 & K2 & _). pose proof G2 as (K3 & _). pose proof (root_step v1 v2 G3) as R1. pose proof (sqrt_pos (cost_at E fs v1)) as R2. pose proof (sqrt_pos (cost_at E fs v2)) as R3.
    exists v2, o2, e2. split; [exact G1|]. split; [exact G2|]. rewrite G5. split; [|split].
    + cbn [pow]. rewrite Rmult_assoc. eapply Rle_trans; [exact R1|]. apply Rmult_le_compat_l; [lra | exact H3].
    + eapply within_more; [|eapply within_then; [exact H4 | exact G4]]. pose proof (root_low v1 e1 K1) as R4.
      assert (R5 : D0 * size fs e1 <= B * (sqrt (cost_at E fs v1) - sqrt (cost_at E fs v2))).
      { apply Rle_trans with (B * ((1 - s) * (m * size fs e1))); [right; unfold B; field; lra|]. apply Rmult_le_compat_l; auto. apply Rle_trans with ((1 - s) * sqrt (cost_at E fs v1)); [apply Rmult_le_compat_l; lra | lra]. }
      lra.
    + intros Hd'. apply (said bound u v1 o1 e1 e2 xi p); auto.
      * intros v Hv i. specialize (H4 v Hv i). specialize (Hpb v Hv i). replace (nth i (params (v1 v)) 0) with (nth i (params (val v)) 0 + (nth i (params (v1 v)) 0 - nth i (params (val v)) 0)) by ring. eapply Rle_trans; [apply Rabs_triang|].
        assert (B * (c0 - sqrt (cost_at E fs v1)) <= X). { unfold X. apply Rmult_le_compat_l; auto. pose proof (root_top val e Hl0). unfold c0. lra. } lra.
      * apply (shrunk v1 v2); auto.
  - exists val, val, e. split; [exact Hc0|]. destruct (Hex s0 eq_refl) as (X1 & X2). split; [split; auto|]. split; [cbn [pow s_iter s0]; fold c0; lra|]. split; [|discriminate]. apply within_refl. fold c0. rewrite Rminus_diag_eq by auto. lra.
  - cbn [s_iter s0] in J. rewrite Nat.add_0_l in J. rewrite J in *. destruct I1 as (Ia & Ib & _). pose proof (lin_holds E fs g WP Eg _ _ Ia Ib) as Hh'.
    destruct (update_back E CO fs (s_assign st) val' init val Hh' Hi) as (a' & Eb & Ha'). exists a', val', e', k. split; [congruence|]. split; [exact Ha'|]. split; [exact Hk|]. pose proof (root_low val' e' I2) as R1. pose proof (root_high val e Hl0) as R2. destruct I2 as (I2 & _). split; [exact I2|]. split; [|auto].
    apply (Rmult_le_reg_l m); auto. replace (m * (M / m * s ^ k * size fs e)) with (s ^ k * (M * size fs e)) by (field; lra). eapply Rle_trans; [exact R1|]. eapply Rle_trans; [exact I3|]. apply Rmult_le_compat_l; [apply pow_le; lra | exact R2].
Qed.
End Solve.

(* every start close enough is a start in the slice *)
Lemma quit_start m M d Cs ds rho : 0 < m -> 0 <= M -> 0 <= Cs -> 0 < ds -> 0 < rho -> rho <= d ->
  (forall val e, apart groups fs z val e -> fixes e -> size fs e <= d -> m * size fs e * (m * size fs e) <= cost_at E fs val <= M * size fs e * (M * size fs e)) ->
  (forall val e, apart groups fs z val e -> size fs e <= ds -> exists e', apart groups fs z val e' /\ fixes e' /\ size fs e' <= Cs * size fs e) ->
  exists rho1, 0 < rho1 /\ forall val e, apart groups fs z val e -> size fs e <= rho1 -> exists e', lst m rho val e' /\ size fs e' <= Cs * size fs e.
Proof.
  intros Hm HM HCs Hds Hrho Hrd HB HR. assert (HMC : 0 <= M * Cs) by (apply Rmult_le_pos; auto).
  destruct (min4 ds (rho / (Cs + 1)) (m * rho / (M * Cs + 1)) 1) as (ra & Hra & A1 & A2 & A3 & _); auto; try lra; try (apply Rdiv_lt_0_compat; try lra; apply Rmult_lt_0_compat; auto).
  exists ra. split; auto. intros val e Ho Hs. pose proof (size_pos fs e) as Pe. destruct (HR val e Ho ltac:(lra)) as (e1 & Ho1 & Hf1 & Hs1). pose proof (small_mul rho Cs (size fs e) Hrho HCs ltac:(lra) Pe) as Q1. pose proof (size_pos fs e1) as P1.
  destruct (HB _ e1 Ho1 Hf1 ltac:(lra)) as (_ & U1). pose proof (small_mul (m * rho) (M * Cs) (size fs e) ltac:(apply Rmult_lt_0_compat; auto) HMC ltac:(lra) Pe) as Q2.
  assert (X1 : M * size fs e1 <= M * Cs * size fs e) by (rewrite Rmult_assoc; apply Rmult_le_compat_l; auto). assert (X0 : 0 <= M * size fs e1) by (apply Rmult_le_pos; auto).
  exists e1. split; auto. split; auto. split; auto. split; [lra|]. eapply Rle_trans; [exact U1|]. apply Rmult_le_compat; auto; lra.
Qed.

Hypothesis HPa : parts fs rt.

Lemma quit_all b0 b1 qmin top : 0 < b0 -> b0 <= b1 -> qmin < 1 -> 0 < top -> exists q C rho1 D m M d rho G h D0 N,
  (0 <= q < 1 /\ 0 <= C /\ 0 < rho1 /\ 0 <= D) /\ (0 < m /\ 0 <= M /\ 0 < rho /\ rho <= d /\ 0 <= G /\ 0 < h /\ 0 <= D0 /\ 0 <= N /\ G * rho <= top) /\
  (forall val e, apart groups fs z val e -> fixes e -> size fs e <= d -> m * size fs e * (m * size fs e) <= cost_at E fs val <= M * size fs e * (M * size fs e)) /\
  (forall beta val old e xi p, 0 < beta -> (size fs e = 0 \/ b0 <= beta <= b1) -> lst m rho val e -> (forall v, In v (mentioned fs) -> old v = val v) -> damped_step E fs beta val old xi -> moved E fs val xi p ->
    (size fs xi <= G * size fs e /\ h * size fs e <= size fs xi) /\ within fs (D0 * size fs e) val p /\ (size fs e = 0 -> forall v, In v (mentioned fs) -> p v = val v) /\ (0 < size fs e -> qmin <= quality E fs val old xi p) /\ cost_at E fs p <= q * cost_at E fs val /\
    exists e', lst m rho p e' /\ (size fs e = 0 -> size fs e' = 0)) /\
  forall cfg step extra solve ex good, nonlinear_solver E cholmod_solve step extra solve ->
    (forall fuel init, (iteration_cap (max_iterations cfg) <= fuel)%nat -> exists r, solve fuel g init = Some r /\ solve_outcome E step extra 1 (iteration_cap (max_iterations cfg)) g init r) ->
    (forall s, s_extra s = extra -> 0 < ex s /\ good (ex s)) ->
    (forall s s' val old e, carries E fs g s val old -> live m rho good (ex s) val old e -> step g s = Ok s' ->
      exists val' old' e' xi p, carries E fs g s' val' old' /\ live m rho good (ex s') val' old' e' /\ cost_at E fs val' <= q * cost_at E fs val /\ within fs (D0 * size fs e) val val' /\ s_iter s' = S (s_iter s) /\
        h * size fs e <= size fs xi /\ cost_at E fs p <= q * cost_at E fs val /\ (s_done s' = true -> tests groups fs cfg s val xi p)) ->
    quits groups fs z rho1 (sqrt q) C D (1 - q) cfg (fun fuel => solve fuel g).
Proof.
  intros Hb0 Hb1 Hqm Htop. pose proof WP as [CO _ _ _ _]. destruct (quit_near groups fs z SB rt HPa) as (m & M & d & Cs & ds & Dn & Hm & HM & Hd & HCs & Hds & HDn & HB & HR & HT). destruct (HT b0 b1 qmin Hb0 Hb1 Hqm) as (q & G & h & rho0 & Hq & HG & Hh & Hr0 & Hrd & HS).
  destruct (storage_below groups fs CO) as (N & HN0 & HN). set (rho := Rmin rho0 (top / (G + 1))). assert (Hrho : 0 < rho) by (apply Rmin_pos; auto; apply Rdiv_lt_0_compat; lra). assert (M1 : rho <= rho0) by apply Rmin_l. assert (M2 : rho <= top / (G + 1)) by apply Rmin_r. clearbody rho.
  destruct (quit_start m M d Cs ds rho Hm HM HCs Hds Hrho ltac:(lra) HB HR) as (rho1 & Hr1 & HSt). assert (HD0 : 0 <= Dn * G) by (apply Rmult_le_pos; auto). pose proof (sqrt_below q Hq) as Hsq.
  assert (PMm : 0 <= M / m) by (apply Rmult_le_pos; [auto | apply Rlt_le, Rinv_0_lt_compat; auto]).
  set (Y := Dn * G / m / (1 - sqrt q) * (m * rho)). assert (PY : 0 <= Y). { apply Rmult_le_pos; [|apply Rmult_le_pos; lra]. apply Rmult_le_pos; [apply Rmult_le_pos; [auto | apply Rlt_le, Rinv_0_lt_compat; auto] | apply Rlt_le, Rinv_0_lt_compat; lra]. }
  exists q, (M / m * Cs), rho1, (M / m * ((N * (1 + Y) + 1) / h)), m, M, d, rho, G, h, (Dn * G), N. split; [split; [exact Hq|]; split; [apply Rmult_le_pos; auto|]; split; [exact Hr1|]|].
  { apply Rmult_le_pos; auto. apply Rlt_le, Rdiv_lt_0_compat; auto. assert (0 <= N * (1 + Y)) by (apply Rmult_le_pos; lra). lra. }
  split; [do 3 (split; [assumption|]); split; [lra|]; do 4 (split; [assumption|]); apply small_mul; lra|]. split; [exact HB|]. split; [exact (HS rho Hrho M1)|].
  intros cfg step extra solve ex good Hsol Hcap Hex Hone Hct Hpt bound fuel init val e Hbd Hf Hi Hpb Ho Hs. destruct (HSt val e Ho Hs) as (e1 & L1 & S1).
  destruct (quit_on cfg step extra solve Hsol Hcap m M d q h rho (Dn * G) N ex good Hm HM Hq Hh Hrho ltac:(lra) HD0 HN0 HB HN Hex Hone bound fuel init val e1 Hbd Hct Hpt Hf Hi Hpb L1) as (a' & val' & e' & k & R1 & R2 & R3 & R4 & R5 & R6).
  exists a', val', e', k. do 4 (split; [assumption|]). split; [|exact R6]. eapply Rle_trans; [exact R5|]. replace (M / m * Cs * sqrt q ^ k * size fs e) with (M / m * sqrt q ^ k * (Cs * size fs e)) by ring. apply Rmult_le_compat_l; auto. apply Rmult_le_pos; auto. apply pow_le. lra.
Qed.

Lemma quit_gn : exists q C rho D delta, 0 <= q < 1 /\ 0 <= C /\ 0 < rho /\ 0 <= D /\ 0 < delta /\ forall cfg, quits groups fs z rho q C D delta cfg (fun fuel => gn_solve E fuel cfg cholmod_solve g).
Proof.
  destruct (quit_all (1 / 100000) (1 / 100000) 0 1 ltac:(lra) ltac:(lra) ltac:(lra) ltac:(lra)) as (q & C & rho1 & D & m & M & d & rho & G & h & D0 & N & (Hq & HC & Hr1 & HD) & (Hm & HM & Hrho & Hrd & HG & Hh & HD0 & HN & Htop) & HB & HT & HA).
  exists (sqrt q), C, rho1, D, (1 - q). split; [apply sqrt_below; auto|]. do 3 (split; [assumption|]). split; [lra|]. intros cfg.
  apply (HA cfg (fun g => gn_step E cfg cholmod_solve g) 0 (fun fuel => gn_solve E fuel cfg cholmod_solve) (fun _ => 1) (fun _ => True) (solver_gn E cholmod_solve cfg)).
  - intros fuel' init' Hf'. destruct (solvers_terminate E g init' cholmod_solve fuel') as (Hx & _). auto.
  - intros s _. split; [lra | auto].
  - intros s s' v o e1 Hc0 (S1 & S2 & _) Hst. apply (carries_agree groups fs g) in Hc0; auto. destruct (gn_near groups fs g WP Eg cfg s s' v Hc0 Hst) as (xi & p & N1 & N2 & N3 & N4 & N5).
    destruct (HT (1 / 100000) v v e1 xi p ltac:(lra) ltac:(right; lra) S1 ltac:(auto) N1 N2) as ((_ & B0) & B1 & _ & _ & B2 & e' & B3 & _).
    exists p, p, e', xi, p. split; [exact N3|]. split; [split; auto; split; auto; split; [lra | auto]|]. do 5 (split; [assumption|]). exact N5.
Qed.

Lemma quit_lm qmin lambda : qmin < 1 -> 0 < lambda -> exists q C rho D delta, 0 <= q < 1 /\ 0 <= C /\ 0 < rho /\ 0 <= D /\ 0 < delta /\
  forall cfg, lm_quality_min cfg <= qmin -> 1 <= lambda_factor cfg -> 0 < lambda_min cfg -> 0 < lambda_initial cfg <= lambda -> quits groups fs z rho q C D delta (lm_term cfg) (fun fuel => lm_solve E fuel cfg cholmod_solve g).
Proof.
  intros Hqm Hla. destruct (quit_all (1 / 100000) (lambda + 1 / 100000) qmin 1 ltac:(lra) ltac:(lra) Hqm ltac:(lra)) as (q & C & rho1 & D & m & M & d & rho & G & h & D0 & N & (Hq & HC & Hr1 & HD) & (Hm & HM & Hrho & Hrd & HG & Hh & HD0 & HN & Htop) & HB & HT & HA).
  exists (sqrt q), C, rho1, D, (1 - q). split; [apply sqrt_below; auto|]. do 3 (split; [assumption|]). split; [lra|]. intros cfg C1 C2 C3 C4.
  apply (HA (lm_term cfg) (fun g => lm_step E cfg cholmod_solve g) (lambda_initial cfg) (fun fuel => lm_solve E fuel cfg cholmod_solve) s_extra (fun l => l <= lambda) (solver_lm E cholmod_solve cfg)).
  - intros fuel' init' Hf'. destruct (solvers_terminate E g init' cholmod_solve fuel') as (_ & Hx & _). auto.
  - intros s Hse. rewrite Hse. split; lra.
  - intros s s' v o e1 Hc0 (S1 & S4 & S5 & S6) Hst. destruct (lm_near groups fs g WP Eg cfg s s' v o Hc0 S5 Hst) as (xi & p & b' & p' & N1 & N2 & N3 & N4 & N5 & N6 & N7 & N8). rewrite N5.
    assert (Hb : size fs e1 = 0 \/ 1 / 100000 <= s_extra s + 1 / 100000 <= lambda + 1 / 100000) by (destruct S6 as [|S6]; [left; auto | right; lra]).
    destruct (HT (s_extra s + 1 / 100000) v o e1 xi p ltac:(lra) Hb S1 S4 N1 N2) as ((_ & B0) & B1 & HZ & HQ & B2 & e' & B3 & B4). destruct (HT (s_extra s + 1 / 100000) v o e1 xi p' ltac:(lra) Hb S1 S4 N1 N7) as (_ & _ & _ & _ & B2' & _). pose proof (size_pos fs e1) as Pe.
    destruct N3 as [(Ha & ->)|(Hr & ->)]; cbn [b_val b_old b_extra] in *.
    + exists p, p, e', xi, p'. split; [exact N4|]. split; [|do 5 (split; [assumption|]); exact N8]. split; [exact B3|]. split; [auto|]. split; [apply Rdiv_lt_0_compat; lra|].
      destruct S6 as [S6|S6]; [left; auto|right]. apply Rle_trans with (s_extra s); auto. apply (Rmult_le_reg_r (lambda_factor cfg)); [lra|]. unfold Rdiv. rewrite Rmult_assoc, Rinv_l, Rmult_1_r by lra. nra.
    + destruct (Rle_lt_or_eq_dec 0 _ Pe) as [Hpos|Hz]; [specialize (HQ Hpos); fold E in Hr; lra|]. pose proof S1 as (A1 & A2 & A3 & _). destruct (HB _ e1 A1 A2 ltac:(lra)) as (L & U). rewrite <- Hz, !Rmult_0_r in L, U.
      exists v, p, e1, xi, p'. split; [exact N4|]. split; [|split; [replace (cost_at E fs v) with 0 by lra; lra|]; split; [apply within_refl; apply Rmult_le_pos; auto|]; do 3 (split; [assumption|]); exact N8].
      split; [exact S1|]. split; [intros w Hw; apply HZ; auto|]. split; [eapply Rlt_le_trans; [exact C3 | apply Rmax_l] | left; auto].
Qed.

Lemma quit_dl qmin radius : qmin < 1 -> 0 < radius -> exists q C rho D delta, 0 <= q < 1 /\ 0 <= C /\ 0 < rho /\ 0 <= D /\ 0 < delta /\
  forall cfg, dl_quality_min cfg <= qmin -> radius <= radius_initial cfg -> quits groups fs z rho q C D delta (dl_term cfg) (fun fuel => dl_solve E fuel cfg cholmod_solve g).
Proof.
  intros Hqm Hra. assert (Hq' : Rmax qmin (1 / 4) < 1) by (apply Rmax_lub_lt; lra). pose proof (Rmax_l qmin (1 / 4)) as X1. pose proof (Rmax_r qmin (1 / 4)) as X2.
  destruct (quit_all (1 / 100000) (1 / 100000) (Rmax qmin (1 / 4)) radius ltac:(lra) ltac:(lra) Hq' Hra) as (q & C & rho1 & D & m & M & d & rho & G & h & D0 & N & (Hq & HC & Hr1 & HD) & (Hm & HM & Hrho & Hrd & HG & Hh & HD0 & HN & Htop) & HB & HT & HA).
  exists (sqrt q), C, rho1, D, (1 - q). split; [apply sqrt_below; auto|]. do 3 (split; [assumption|]). split; [lra|]. intros cfg C1 C2.
  apply (HA (dl_term cfg) (fun g => dl_step E cfg cholmod_solve g) (radius_initial cfg) (fun fuel => dl_solve E fuel cfg cholmod_solve) s_extra (fun l => radius <= l) (solver_dl E cholmod_solve cfg)).
  - intros fuel' init' Hf'. destruct (solvers_terminate E g init' cholmod_solve fuel') as (_ & _ & Hx). auto.
  - intros s Hse. rewrite Hse. split; lra.
  - intros s s' v o e1 Hc0 (S1 & S4 & S5 & S6) Hst. pose proof (size_pos fs e1) as Pe. assert (Hb : size fs e1 = 0 \/ 1 / 100000 <= 1 / 100000 <= 1 / 100000) by (right; lra).
    assert (Hin : forall gn, damped_step E fs (1 / 100000) v o gn -> size fs gn <= s_extra s).
    { intros gn Hd. assert (Hmv : exists p', moved E fs v gn p') by (eexists (fun v => _); intros w Hw; reflexivity). destruct Hmv as (p1 & Hp1).
      destruct (HT (1 / 100000) v o e1 gn p1 ltac:(lra) Hb S1 S4 Hd Hp1) as ((Sg & _) & _). pose proof S1 as (_ & _ & A3 & _). assert (G * size fs e1 <= G * rho) by (apply Rmult_le_compat_l; auto). destruct S6 as [S6|S6]; [rewrite S6, Rmult_0_r in Sg; lra | lra]. }
    destruct (dl_near groups fs g WP Eg cfg s s' v o Hc0 S5 Hin Hst) as (xi & p & b' & p' & N1 & N2 & N3 & N4 & N5 & N6 & N7 & N8). rewrite N5.
    destruct (HT (1 / 100000) v o e1 xi p ltac:(lra) Hb S1 S4 N1 N2) as ((_ & B0) & B1 & HZ & HQ & B2 & e' & B3 & B4). destruct (HT (1 / 100000) v o e1 xi p' ltac:(lra) Hb S1 S4 N1 N7) as (_ & _ & _ & _ & B2' & _).
    unfold decided in N3. fold E in N3. set (Q := quality E fs v o xi p) in *. set (nx := if Rlt_dec Q (1 / 4) then _ else _) in N3.
    assert (Pex : 0 < nx). { unfold nx. destruct (Rlt_dec Q (1 / 4)); [lra|]. destruct (Rlt_dec (3 / 4) Q); auto. eapply Rlt_le_trans; [exact S5 | apply Rmax_l]. }
    assert (Gex : 0 < size fs e1 -> s_extra s <= nx). { intros Hpos. specialize (HQ Hpos). unfold nx. destruct (Rlt_dec Q (1 / 4)); [lra|]. destruct (Rlt_dec (3 / 4) Q); [apply Rmax_l | apply Rle_refl]. }
    cbv zeta in N3. fold nx in N3. destruct N3 as [(Ha & ->)|(Hr & ->)]; cbn [b_val b_old b_extra] in *.
    + exists p, p, e', xi, p'. split; [exact N4|]. split; [|do 5 (split; [assumption|]); exact N8]. split; [exact B3|]. split; [auto|]. split; [exact Pex|].
      destruct (Rle_lt_or_eq_dec 0 _ Pe) as [Hpos|Hz]; [|left; auto]. destruct S6 as [S6|S6]; [lra|]. right. specialize (Gex Hpos). lra.
    + destruct (Rle_lt_or_eq_dec 0 _ Pe) as [Hpos|Hz]; [specialize (HQ Hpos); lra|]. pose proof S1 as (A1 & A2 & A3 & _). destruct (HB _ e1 A1 A2 ltac:(lra)) as (L & U). rewrite <- Hz, !Rmult_0_r in L, U.
      exists v, p, e1, xi, p'. split; [exact N4|]. split; [|split; [replace (cost_at E fs v) with 0 by lra; lra|]; split; [apply within_refl; apply Rmult_le_pos; auto|]; do 3 (split; [assumption|]); exact N8].
      split; [exact S1|]. split; [intros w Hw; apply HZ; auto|]. split; [exact Pex | left; auto].
Qed.
End Loop.
