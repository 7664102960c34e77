(* The pull of one more factor on a Gauss-Newton iteration. *)
From Coq Require Import List Arith Bool ZArith Lia Permutation Reals Lra Psatz.
From Verif Require Import Num NumR Py Arr MLayout MAssign MNoise MSparse MFactor MGraph MLinear MSolver SpecLayout SpecTree SpecAssign SpecGraph SpecSparse SpecNoise SpecDeriv SpecOrder SpecInv SpecSolver SpecTwin SpecBook SpecPull.
From Verif Require Import PBase PLayout PTree PAssign PAssign2 PAssign3 PStack PGraph PGraph2 PJac PVec PSparse PLinear PCg PGraph3 PGraph4 PGraph5 PHold POrder POrder2 PSolver PSolver2 PSolverR PDescent PTotal PInv PTwin PTwin2 PExGraph PExInv PLinCg PLin PLinDl PExLinDl PBook PExBook PFree PMean3 SpecPull.
Import ListNotations.
Local Open Scope R_scope.

Lemma flat_line b q : 0 <= q -> (forall t, 0 <= 2 * t * b + t * t * q) -> b = 0.
Proof.
  intros Hq H. destruct (Req_dec b 0) as [|Hb]; auto. exfalso. specialize (H (- b / (q + 1))).
  assert (Hp : 0 < b * b) by (pose proof (Rsqr_pos_lt b Hb) as P; exact P).
  replace (2 * (- b / (q + 1)) * b + - b / (q + 1) * (- b / (q + 1)) * q) with (- (b * b) * ((q + 2) / ((q + 1) * (q + 1)))) in H by (field; lra).
  assert (0 < (q + 2) / ((q + 1) * (q + 1))) by (apply Rdiv_lt_0_compat; [lra | apply Rmult_lt_0_compat; lra]). nra.
Qed.
Lemma sumsq_line (a b : list R) t : length a = length b -> sumsq (vadd a (vscale t b)) = sumsq a + 2 * t * vdot a b + t * t * sumsq b.
Proof. intros H. rewrite sumsq_add, sumsq_scale, vdot_scale_r by (rewrite vscale_length; auto). ring. Qed.

(* ---- one factor ---- *)
Section Factor.
Variable E : env R.
Let C := e_cls E.
Variables (val : var -> pytree R) (f : factor R).
Hypothesis Hf : factor_ok f.
Hypothesis Hr : residual_shape_ok E val f.
Hypothesis HJ : jacobian_shape_ok E val f.
Let nm := f_noise f.
Let al := alpha nm (residual_at E val f).
Let w0 := wl (base nm) (residual_at E val f).
Let be := beta nm (vnorm (vscale al w0)).
Definition plainly (xi : var -> list R) : list R := wl (base nm) (pushed (residual_dim f) (f_vars f) (jacobians_at E val f) xi).
Notation fits xi := (forall v, In v (f_vars f) -> length (xi v) = vldim C v).

Lemma plainly_length xi : length (plainly xi) = residual_dim f.
Proof.
  destruct Hf as (Hn & _). unfold plainly. destruct (wl_ok (base nm) (pushed (residual_dim f) (f_vars f) (jacobians_at E val f) xi)) as (_ & H); [apply base_ok; auto | |].
  - rewrite (pushed_len E _ _ _ xi HJ). unfold residual_dim. rewrite base_dim. auto.
  - rewrite H. apply base_dim.
Qed.
Lemma plainly_line xi t eta : fits xi -> fits eta -> plainly (stepped xi t eta) = vadd (plainly xi) (vscale t (plainly eta)).
Proof.
  intros Hx He. destruct Hf as (Hn & _). unfold plainly, stepped. rewrite (pushed_move C _ _ _ xi eta t HJ) by auto.
  assert (Hl : forall z, length (pushed (residual_dim f) (f_vars f) (jacobians_at E val f) z) = noise_dim (base nm)) by (intros z; rewrite (pushed_len E _ _ _ z HJ), base_dim; auto).
  rewrite wl_add, wl_scale; auto; try apply base_linear; try (apply base_ok; auto). rewrite vscale_length. auto.
Qed.
Lemma at_formula xi : fits xi -> model_at E val val xi f = sumsq (vadd (vscale be (plainly xi)) (vscale al w0)).
Proof.
  intros Hx. rewrite (model_formula E val val xi f Hf Hr HJ Hx). f_equal. unfold mixed, plainly. destruct Hf as (Hn & _).
  pose proof (base_linear nm) as BL. pose proof (base_ok nm Hn) as BO. pose proof (base_dim nm) as BD.
  assert (P1 : length (pushed (residual_dim f) (f_vars f) (jacobians_at E val f) xi) = noise_dim (base nm)) by (rewrite BD; apply (pushed_len E _ _ _ xi HJ)).
  assert (P2 : length (residual_at E val f) = noise_dim (base nm)) by (rewrite BD; exact Hr). change (f_noise f) with nm.
  rewrite wl_add, !wl_scale by (auto; rewrite ?vscale_length; auto). reflexivity.
Qed.
Lemma w0_length : length w0 = residual_dim f.
Proof. destruct Hf as (Hn & _). destruct (wl_ok (base nm) (residual_at E val f)) as (_ & H); [apply base_ok; auto | rewrite base_dim; auto | unfold w0; rewrite H; apply base_dim]. Qed.
Lemma at_line xi t eta : fits xi -> fits eta ->
  model_at E val val (stepped xi t eta) f = model_at E val val xi f + 2 * t * vdot (vadd (vscale be (plainly xi)) (vscale al w0)) (vscale be (plainly eta)) + t * t * sumsq (vscale be (plainly eta)).
Proof.
  intros Hx He. assert (Hs : fits (stepped xi t eta)) by (intros v Hv; unfold stepped; rewrite vadd_length; rewrite ?vscale_length; auto; rewrite Hx, He; auto).
  rewrite !at_formula by auto. rewrite plainly_line by auto.
  assert (L1 : length (vadd (vscale be (plainly xi)) (vscale al w0)) = residual_dim f) by (rewrite vadd_length; rewrite !vscale_length, plainly_length; auto; symmetry; apply w0_length).
  rewrite <- sumsq_line by (rewrite L1, vscale_length, plainly_length; auto). f_equal.
  apply (vec_ext (residual_dim f)).
  - rewrite vadd_length; rewrite ?vscale_length, ?vadd_length; rewrite ?vscale_length, ?plainly_length, ?w0_length; auto.
  - rewrite vadd_length; rewrite L1; auto. rewrite !vscale_length, plainly_length. auto.
  - intros u Hu. rewrite !vdot_add_r; rewrite ?vdot_scale_r, ?vdot_add_r, ?vdot_scale_r; rewrite ?L1, ?vscale_length, ?vadd_length; rewrite ?vscale_length, ?plainly_length, ?w0_length; auto. ring.
Qed.
End Factor.

(* ---- sums over factors ---- *)
Section Sum.
Variable E : env R.
Variable fs : list (factor R).
Variable val : var -> pytree R.

Lemma stepped_tangent xi t eta : tangent E fs xi -> tangent E fs eta -> tangent E fs (stepped xi t eta).
Proof. intros Hx He v Hv. unfold stepped. rewrite vadd_length; rewrite ?vscale_length; [apply Hx; auto | rewrite Hx, He; auto]. Qed.
Lemma model_line xi eta : (forall f, In f fs -> factor_ok f /\ residual_shape_ok E val f /\ jacobian_shape_ok E val f) -> tangent E fs xi -> tangent E fs eta ->
  exists b q, 0 <= q /\ forall t, model E fs val val (stepped xi t eta) = model E fs val val xi + 2 * t * b + t * t * q.
Proof.
  intros Hf Hx He.
  assert (Hv : forall f v, In f fs -> In v (f_vars f) -> length (xi v) = vldim (e_cls E) v /\ length (eta v) = vldim (e_cls E) v).
  { intros f v H1 H2. assert (In v (mentioned fs)) by (apply mentioned_in; eauto). auto. }
  clear Hx He. unfold model. induction fs as [|f l IH]; cbn [map].
  - exists 0, 0. split; [lra|]. intros t. rewrite vsum_nil. lra.
  - destruct IH as (b & q & Hq & H); [intros; apply Hf; right; auto | intros f' v H1 H2; apply (Hv f' v); auto; right; auto|].
    destruct (Hf f (or_introl eq_refl)) as (F1 & F2 & F3). eexists _, _. split; [|intros t; rewrite !vsum_cons, H, (at_line E val f F1 F2 F3 xi t eta) by (intros v Hin; apply (Hv f v (or_introl eq_refl) Hin))].
    2: { match goal with |- ?m + 2 * t * ?c + t * t * ?p + (?m' + 2 * t * b + t * t * q) = _ => instantiate (1 := p + q); instantiate (1 := c + b) end. ring. }
    pose proof (sumsq_nonneg (vscale (beta (f_noise f) (vnorm (vscale (alpha (f_noise f) (residual_at E val f)) (wl (base (f_noise f)) (residual_at E val f))))) (plainly E val f eta))). lra.
Qed.
Lemma inner_line xi t eta : tangent E fs xi -> tangent E fs eta ->
  inner fs (stepped xi t eta) (stepped xi t eta) = inner fs xi xi + 2 * t * inner fs xi eta + t * t * inner fs eta eta.
Proof.
  intros Hx He. unfold inner. assert (H : forall v, In v (mentioned fs) -> length (xi v) = length (eta v)) by (intros v Hv; rewrite Hx, He; auto).
  clear Hx He. induction (mentioned fs) as [|v l IH]; cbn [map]; [rewrite !vsum_nil; ring|]. rewrite !vsum_cons, IH by (intros; apply H; right; auto).
  rewrite <- !sumsq_dot. unfold stepped at 1. rewrite sumsq_line by (apply H; left; auto). rewrite !sumsq_dot. ring.
Qed.
Lemma inner_nonneg xi : 0 <= inner fs xi xi.
Proof. unfold inner. apply vsum_nonneg. intros z Hz. apply in_map_iff in Hz. destruct Hz as (v & <- & _). rewrite <- sumsq_dot. apply sumsq_nonneg. Qed.
Lemma step_to xi xi' : tangent E fs xi -> tangent E fs xi' -> agree fs (stepped xi 1 (gap xi xi')) xi'.
Proof.
  intros Hx Hx' v Hv. unfold stepped, gap. assert (Hl : length (xi v) = length (xi' v)) by (rewrite Hx, Hx'; auto).
  apply (vec_ext (length (xi v))); [rewrite vadd_length; auto; rewrite vscale_length, vsub_length; auto | auto|].
  intros u Hu. rewrite vdot_add_r by (rewrite vscale_length, vsub_length; congruence). rewrite vdot_scale_r, vdot_sub_r by congruence. ring.
Qed.
End Sum.

(* ---- one more factor ---- *)
Lemma more_pull E fs f val m G beta0 xi xi' : (forall h, In h (fs ++ [f]) -> factor_ok h /\ residual_shape_ok E val h /\ jacobian_shape_ok E val h) ->
  mentioned (fs ++ [f]) = mentioned fs -> 0 <= beta0 -> 0 <= G -> stiff E fs val m -> reach E fs f (base (f_noise f)) val G ->
  damped_step E fs beta0 val val xi -> damped_step E (fs ++ [f]) beta0 val val xi' ->
  let al := alpha (f_noise f) (residual_at E val f) in let n := vnorm (wl (base (f_noise f)) (residual_at E val f)) in
  let be := beta (f_noise f) (vnorm (vscale al (wl (base (f_noise f)) (residual_at E val f)))) in
  0 <= al -> 0 <= be ->
  (m + beta0) * (size fs (gap xi xi') * size fs (gap xi xi')) <= (al * n + be * (sqrt G * size fs xi)) * (be * (sqrt G * size fs (gap xi xi'))).
Proof.
  intros Hok Hm Hb HG Hst Hre (Tx & Mx) (Tx' & Mx') al n be Hal Hbe.
  assert (Ht : forall z, tangent E (fs ++ [f]) z <-> tangent E fs z) by (intros z; unfold tangent; rewrite Hm; tauto). apply Ht in Tx'.
  set (h := gap xi xi'). assert (Th : tangent E fs h) by (intros v Hv; unfold h, gap; rewrite vsub_length; [apply Tx'; auto | rewrite Tx', Tx; auto]).
  assert (Hin : In f (fs ++ [f])) by (apply in_or_app; right; left; auto). destruct (Hok f Hin) as (F1 & F2 & F3).
  assert (Hfv : forall z, tangent E fs z -> forall v, In v (f_vars f) -> length (z v) = vldim (e_cls E) v) by (intros z Hz v Hv; apply Hz; rewrite <- Hm; apply mentioned_in; eauto).
  destruct (model_line E fs val xi h (fun f' H => Hok f' (in_or_app _ _ _ (or_introl H))) Tx Th) as (b & q & Hq & Hline).
  pose proof (fun t => at_line E val f F1 F2 F3 xi t h (Hfv xi Tx) (Hfv h Th)) as Fline. fold al be in Fline.
  set (U := vadd (vscale be (plainly E val f xi)) (vscale al (wl (base (f_noise f)) (residual_at E val f)))) in *. set (V := vscale be (plainly E val f h)) in *.
  set (I := inner fs h h). set (X := inner fs xi h).
  assert (Hsplit : forall z, model E (fs ++ [f]) val val z = model E fs val val z + model_at E val val z f) by (intros z; unfold model; rewrite map_app, vsum_app; cbn [map]; rewrite vsum_cons, vsum_nil; lra).
  assert (Hinn : forall z z', inner (fs ++ [f]) z z' = inner fs z z') by (intros; unfold inner; rewrite Hm; auto).
  assert (I0 : 0 <= I) by apply inner_nonneg.
  assert (B0 : b + beta0 * X = 0).
  { apply (flat_line _ (q + beta0 * I)); [apply Rplus_le_le_0_compat; auto; apply Rmult_le_pos; auto|]. intros t. destruct (Mx (stepped xi t h)) as (H & _); [apply stepped_tangent; auto|].
    rewrite Hline, (inner_line E) in H by auto. fold X I in H. nra. }
  assert (C0 : q + beta0 * I + vdot U V + sumsq V = 0).
  { apply (flat_line _ (q + beta0 * I + sumsq V)); [pose proof (sumsq_nonneg V); assert (0 <= beta0 * I) by (apply Rmult_le_pos; auto); lra|]. intros t. destruct (Mx' (stepped xi (1 + t) h)) as (H & _); [apply Ht; apply stepped_tangent; auto|].
    assert (Ag : agree (fs ++ [f]) xi' (stepped xi 1 h)) by (intros v Hv; symmetry; apply (step_to E fs xi xi' Tx Tx'); rewrite <- Hm; auto).
    rewrite (model_ext E (fs ++ [f]) val val xi' (stepped xi 1 h) Ag), (inner_ext (fs ++ [f]) xi' (stepped xi 1 h) xi' (stepped xi 1 h) Ag Ag) in H.
    rewrite !Hsplit, !Hinn, !Hline, !Fline, !(inner_line E) in H by auto. fold X I in H. assert (EX : b = - beta0 * X) by lra. rewrite EX in H. nra. }
  assert (Hm2 : m * I <= q).
  { specialize (Hst xi h Tx Th). rewrite !Hline in Hst. fold I in Hst. lra. }
  assert (Hsz : forall z, size fs z * size fs z = inner fs z z) by (intros z; unfold size; apply sqrt_sqrt; apply inner_nonneg).
  rewrite Hsz. fold I.
  assert (Hu : forall z, tangent E fs z -> vnorm (plainly E val f z) <= sqrt G * size fs z).
  { intros z Hz. destruct (Hre z Hz) as (u & Eu & Hu). unfold plainly, wl. rewrite Eu. cbn [unwrap]. unfold size. rewrite <- sqrt_mult by (auto; apply inner_nonneg). unfold vnorm. apply sqrt_le_1_alt. auto. }
  assert (Hnv : forall k (z : list R), 0 <= k -> vnorm (vscale k z) = k * vnorm z).
  { intros k z Hk. unfold vnorm. change (sqrt (sumsq (vscale k z)) = k * sqrt (sumsq z)). rewrite sumsq_scale, sqrt_mult by (try apply sumsq_nonneg; apply Rle_0_sqr). rewrite sqrt_square by auto. auto. }
  assert (LU : length U = residual_dim f) by (unfold U; rewrite vadd_length; rewrite !vscale_length, (plainly_length E val f F1 F3); auto; symmetry; apply (w0_length E val f F1 F2)).
  assert (LV : length V = residual_dim f) by (unfold V; rewrite vscale_length; apply (plainly_length E val f F1 F3)).
  assert (HUV : - vdot U V <= vnorm U * vnorm V).
  { replace (- vdot U V) with (vdot U (vscale (-1) V)) by (rewrite vdot_scale_r; ring). eapply Rle_trans; [apply dot_le_norms; rewrite vscale_length; congruence|].
    apply Req_le. f_equal. unfold vnorm. f_equal. change (sumsq (vscale (-1) V) = sumsq V). rewrite sumsq_scale. ring. }
  assert (HU : vnorm U <= al * n + be * (sqrt G * size fs xi)).
  { unfold U. destruct (vnorm_sq (vscale be (plainly E val f xi))) as (N0 & _). destruct (vnorm_sq (vscale al (wl (base (f_noise f)) (residual_at E val f)))) as (N1 & _).
    apply Rle_trans with (vnorm (vscale be (plainly E val f xi)) + vnorm (vscale al (wl (base (f_noise f)) (residual_at E val f)))).
    - rewrite <- (sqrt_square (_ + _)) by lra. apply sqrt_le_1_alt. apply norm_triangle. rewrite !vscale_length, (plainly_length E val f F1 F3). symmetry. apply (w0_length E val f F1 F2).
    - rewrite !Hnv by auto. fold n. pose proof (Rmult_le_compat_l be _ _ Hbe (Hu xi Tx)). lra. }
  assert (HV : vnorm V <= be * (sqrt G * size fs h)) by (unfold V; rewrite Hnv by auto; apply Rmult_le_compat_l; auto).
  destruct (vnorm_sq U) as (U0 & _). destruct (vnorm_sq V) as (V0 & _). pose proof (sumsq_nonneg V).
  assert (vnorm U * vnorm V <= (al * n + be * (sqrt G * size fs xi)) * (be * (sqrt G * size fs h))) by (apply Rmult_le_compat; auto).
  lra.
Qed.
