(* Noise models: Mahalanobis norm, Huber weights, joint NLL. *)
From Coq Require Import List Arith Bool Reals Lra Lia Permutation.
From Verif Require Import Num NumR Py Arr MLayout MAssign MNoise MSparse MFactor MGraph SpecSparse SpecNoise SpecTree SpecAssign SpecGraph SpecDeriv.
From Verif Require Import PBase PVec PSum PStack PGraph PGraph2 PGraph4 PDeriv PExGraph.
Import ListNotations.
Local Open Scope R_scope.

(* ---- C40 ---- *)
Lemma diag_norm c r : Forall (fun x => 0 < x) c -> length r = length c ->
  exists w, whiten_residual (diag_from_covariance c) r = Ok w /\
    sumsq w = sumn (length c) (fun i => nth i r 0 * nth i r 0 / nth i c 0).
Proof.
  intros Hc Hr. cbn [diag_from_covariance whiten_residual a_shape a_data]. rewrite Hr.
  rewrite (proj2 (shape_eqb_ok [length c] [length c]) eq_refl). cbn [assert_ bind]. eexists. split; [reflexivity|].
  rewrite (sumsq_sumn (length c)) by (rewrite vmul_length; rewrite map_length; auto).
  apply sumn_ext. intros i Hi. rewrite nth_vmul by (rewrite map_length; auto).
  rewrite (nth_map' _ _ _ _ 0) by auto. rn.
  assert (Hp : 0 < nth i c 0) by (rewrite Forall_forall in Hc; apply Hc, nth_In; auto).
  pose proof (sqrt_lt_R0 _ Hp) as Hs. pose proof (sqrt_sqrt (nth i c 0) ltac:(lra)) as Hq.
  replace (nth i r 0 * nth i r 0 / nth i c 0) with (nth i r 0 * nth i r 0 / (sqrt (nth i c 0) * sqrt (nth i c 0))) by (rewrite Hq; auto).
  field. lra.
Qed.

Lemma shaped_chunks (W : arr R) k : arr_ok W = true -> a_shape W = [k; k] -> shaped k k (chunks k k (a_data W)).
Proof.
  intros Ha Hs. split; [apply chunks_length|]. apply Forall_forall. intros row Hin. apply In_nth_error in Hin. destruct Hin as (i & Hi).
  assert (Hik : (i < k)%nat). { rewrite <- (chunks_length k k (a_data W)). apply nth_error_Some. congruence. }
  rewrite nth_error_chunks in Hi by auto. injection Hi as <-.
  apply Nat.eqb_eq in Ha. rewrite Hs in Ha. unfold slice. rewrite firstn_length, skipn_length. cbn in Ha. nia.
Qed.

Lemma gaussian_norm (W : arr R) k r : arr_ok W = true -> a_shape W = [k; k] -> length r = k ->
  exists w, whiten_residual (Gaussian W) r = Ok w /\ length w = k /\
    (forall i, (i < k)%nat -> nth i w 0 = sumn k (fun j => ent (chunks k k (a_data W)) i j * nth j r 0)) /\
    sumsq w = sumn k (fun i => sumn k (fun j => nth i r 0 * sumn k (fun l => ent (chunks k k (a_data W)) l i * ent (chunks k k (a_data W)) l j) * nth j r 0)).
Proof.
  intros Ha Hs Hr. cbn [whiten_residual]. rewrite Hs, Hr, Nat.eqb_refl. eexists. split; [reflexivity|].
  pose proof (shaped_chunks W k Ha Hs) as HW. set (M := chunks k k (a_data W)) in *.
  assert (Hl : length (mvec M r) = k) by (rewrite mvec_length; destruct HW; auto).
  split; auto. split; [intros; eapply nth_mvec; eauto|]. rewrite (sumsq_sumn k) by auto.
  transitivity (sumn k (fun l => sumn k (fun i => sumn k (fun j => nth i r 0 * (ent M l i * ent M l j) * nth j r 0)))).
  - apply sumn_ext. intros l Hl'. rewrite (nth_mvec k k M r l HW Hr Hl').
    rewrite <- sumn_scale_r. apply sumn_ext. intros i Hi. rewrite <- sumn_scale. apply sumn_ext. intros j Hj. ring.
  - rewrite sumn_swap. apply sumn_ext. intros i Hi. rewrite sumn_swap. apply sumn_ext. intros j Hj.
    rewrite sumn_scale_r, sumn_scale. auto.
Qed.

Lemma covariance_norm chol inv cov k r : shaped k k cov -> (0 < k)%nat -> is_cholesky k cov (chol cov) -> is_inverse k (chol cov) (inv (chol cov)) -> length r = k ->
  exists n w, gaussian_from_covariance chol inv cov = Ok n /\ noise_ok n /\ noise_dim n = k /\ whiten_residual n r = Ok w /\
    (forall y, (forall i, (i < k)%nat -> sumn k (fun j => ent cov i j * nth j y 0) = nth i r 0) -> sumsq w = sumn k (fun i => nth i r 0 * nth i y 0)) /\
    exists y, length y = k /\ forall i, (i < k)%nat -> sumn k (fun j => ent cov i j * nth j y 0) = nth i r 0.
Proof.
  intros Hcov Hk (HL & HLL) (HW & HWL) Hr. set (L := chol cov) in *. set (W := inv L) in *.
  unfold gaussian_from_covariance. fold L. fold W.
  replace (forallb (fun row => Nat.eqb (length row) (length cov)) cov) with true.
  2:{ symmetry. apply forallb_forall. intros row Hin. apply Nat.eqb_eq. destruct Hcov as (Hl & Hf). rewrite Forall_forall in Hf. rewrite Hl. auto. }
  cbn [assert_ bind].
  assert (HlW : length W = k) by (destruct HW; auto).
  assert (Hnc : ncols W = k).
  { destruct HW as (Hl & Hf). destruct W as [|row W']; [cbn in Hl; lia|]. inversion Hf; auto. }
  rewrite HlW, Hnc.
  assert (Hch : chunks k k (concat W) = W) by (rewrite <- HlW at 1; apply chunks_concat; destruct HW; auto).
  assert (Hok : arr_ok (mkArr [k; k] (concat W)) = true).
  { apply Nat.eqb_eq. cbn. destruct HW as (Hl & Hf). rewrite <- Hl at 1. clear -Hf. induction Hf; cbn; auto. rewrite app_length. lia. }
  destruct (gaussian_norm (mkArr [k; k] (concat W)) k r Hok eq_refl Hr) as (w & Hw & Hlw & Hnth & _).
  cbn [a_data] in Hnth. rewrite Hch in Hnth.
  exists (Gaussian (mkArr [k; k] (concat W))), w. split; [reflexivity|]. split; [split; [auto | exists k; auto]|]. split; [reflexivity|]. split; [exact Hw|].
  split.
  - intros y Hy. set (z := fun l => sumn k (fun m => ent L m l * nth m y 0)).
    assert (Hrz : forall j, (j < k)%nat -> nth j r 0 = sumn k (fun l => ent L j l * z l)).
    { intros j Hj. rewrite <- (Hy j Hj).
      transitivity (sumn k (fun m => sumn k (fun l => ent L j l * (ent L m l * nth m y 0)))).
      - apply sumn_ext. intros m Hm. rewrite <- (HLL j m Hj Hm), <- sumn_scale_r. apply sumn_ext. intros. ring.
      - rewrite sumn_swap. apply sumn_ext. intros l Hl. unfold z. rewrite <- sumn_scale. auto. }
    assert (Hwz : forall i, (i < k)%nat -> nth i w 0 = z i).
    { intros i Hi. rewrite (Hnth i Hi).
      transitivity (sumn k (fun j => sumn k (fun l => ent W i j * ent L j l * z l))).
      - apply sumn_ext. intros j Hj. rewrite (Hrz j Hj), <- sumn_scale. apply sumn_ext. intros. ring.
      - rewrite sumn_swap. transitivity (sumn k (fun l => (if Nat.eqb i l then 1 else 0) * z l)).
        + apply sumn_ext. intros l Hl. rewrite sumn_scale_r. f_equal. apply HWL; auto.
        + apply sumn_delta; auto. }
    rewrite (sumsq_sumn k) by auto.
    transitivity (sumn k (fun i => sumn k (fun m => z i * (ent L m i * nth m y 0)))).
    + apply sumn_ext. intros i Hi. rewrite (Hwz i Hi). unfold z at 2. rewrite <- sumn_scale. auto.
    + rewrite sumn_swap. apply sumn_ext. intros m Hm. rewrite (Hrz m Hm), <- sumn_scale_r. apply sumn_ext. intros. ring.
  - exists (map (fun m => sumn k (fun i => ent W i m * nth i w 0)) (seq 0 k)). split; [rewrite map_length, seq_length; auto|].
    intros j Hj.
    transitivity (sumn k (fun m => sumn k (fun l => ent L j l * sumn k (fun i => ent W i m * ent L m l * nth i w 0)))).
    + apply sumn_ext. intros m Hm. rewrite nth_list by auto. rewrite <- (HLL j m Hj Hm), <- sumn_scale_r. apply sumn_ext. intros l Hl.
      rewrite Rmult_assoc. f_equal. rewrite <- sumn_scale. apply sumn_ext. intros. ring.
    + rewrite sumn_swap.
      transitivity (sumn k (fun l => ent L j l * nth l w 0)).
      * apply sumn_ext. intros l Hl. rewrite sumn_scale. f_equal. rewrite sumn_swap.
        rewrite <- (sumn_delta' k l (fun i => nth i w 0)) by auto. apply sumn_ext. intros i Hi. rewrite sumn_scale_r. f_equal. apply HWL; auto.
      * transitivity (sumn k (fun p => sumn k (fun l => ent L j l * ent W l p) * nth p r 0)).
        -- transitivity (sumn k (fun l => sumn k (fun p => ent L j l * ent W l p * nth p r 0))).
           ++ apply sumn_ext. intros l Hl. rewrite (Hnth l Hl), <- sumn_scale. apply sumn_ext. intros. ring.
           ++ rewrite sumn_swap. apply sumn_ext. intros p Hp. rewrite sumn_scale_r. auto.
        -- rewrite <- (sumn_delta k j (fun p => nth p r 0)) by auto. apply sumn_ext. intros p Hp. f_equal. apply HWL; auto.
Qed.

Lemma jacobian_columns (n : noise R) J c r x : linear_noise n -> noise_ok n -> length r = noise_dim n -> shaped (noise_dim n) c J -> length x = c ->
  exists JW, whiten_jacobian n J r = Ok JW /\ whiten_residual n (mvec J x) = Ok (mvec JW x) /\
    forall r', length r' = noise_dim n -> whiten_jacobian n J r' = Ok JW.
Proof.
  intros Hlin Hok Hr (HJ & HJc) Hx. destruct n as [W|d|? ?]; [| |destruct Hlin]; cbn in *.
  - destruct Hok as (Ha & k & Hs). rewrite Hs in *. cbn in Hr, HJ. rewrite HJ, mvec_length, HJ, !Nat.eqb_refl.
    eexists. split; [reflexivity|]. split; [|auto]. destruct J as [|row J'].
    + cbn in HJ. clear Hr Hs. subst k. reflexivity.
    + assert (Hc : ncols (row :: J') = c) by (inversion HJc; auto). rewrite Hc. rewrite mvec_mmul; auto.
  - destruct Hok as (Ha & k & Hs). apply Nat.eqb_eq in Ha. rewrite Hs in *. cbn in Hr, HJ, Ha. rewrite Hr, HJ, mvec_length, HJ.
    cbn. rewrite !Nat.eqb_refl. cbn [andb assert_ bind]. eexists. split; [reflexivity|].
    split; [rewrite <- mvec_diag by lia; auto|]. intros r' Hr'. rewrite Hr', !Nat.eqb_refl. reflexivity.
Qed.

(* ---- C41 ---- *)
Lemma huber_residual w delta r r' : 0 < delta -> whiten_residual w r = Ok r' ->
  (vnorm r' < delta -> whiten_residual (Huber w (scal delta)) r = Ok r') /\
  (delta <= vnorm r' -> 0 < sqrt (delta / vnorm r') <= 1 /\
     whiten_residual (Huber w (scal delta)) r = Ok (vscale (sqrt (delta / vnorm r')) r')) /\
  exists rw, whiten_residual (Huber w (scal delta)) r = Ok rw /\ sumsq rw = huber_weighted delta (vnorm r').
Proof.
  intros Hd Hw.
  assert (HA : vnorm r' < delta -> whiten_residual (Huber w (scal delta)) r = Ok r').
  { intros H. cbn [whiten_residual]. rewrite Hw. cbn [bind scalar scal a_shape a_data]. cbn [nltb NumR]. unfold Rltb. destruct (Rlt_dec (vnorm r') delta); [auto | lra]. }
  assert (HB : delta <= vnorm r' -> 0 < sqrt (delta / vnorm r') <= 1 /\ whiten_residual (Huber w (scal delta)) r = Ok (vscale (sqrt (delta / vnorm r')) r')).
  { intros H. split.
    - assert (0 < delta / vnorm r') by (apply Rdiv_lt_0_compat; lra). split; [apply sqrt_lt_R0; auto|].
      rewrite <- sqrt_1. apply sqrt_le_1_alt. apply (Rmult_le_reg_r (vnorm r')); [lra|]. field_simplify; lra.
    - cbn [whiten_residual]. rewrite Hw. cbn [bind scalar scal a_shape a_data]. cbn [nltb NumR]. unfold Rltb. destruct (Rlt_dec (vnorm r') delta); [lra|].
      f_equal. unfold vscale. apply map_ext. intros x. rn. apply Rmult_comm. }
  split; auto. split; auto.
  assert (Hn2 : sumsq r' = vnorm r' * vnorm r') by (unfold vnorm; rn; rewrite sqrt_sqrt; auto; apply sumsq_nonneg).
  unfold huber_weighted. destruct (Rlt_dec (vnorm r') delta) as [H|H].
  - exists r'. split; auto.
  - apply Rnot_lt_le in H. destruct (HB H) as (Hs & HB'). exists (vscale (sqrt (delta / vnorm r')) r'). split; auto.
    rewrite sumsq_scale, sqrt_sqrt, Hn2; [field; lra|]. apply Rlt_le, Rdiv_lt_0_compat; lra.
Qed.
Lemma huber_weighted_facts delta : 0 < delta ->
  continuity (huber_weighted delta) /\
  (forall n, 0 <= n -> 0 <= huber_weighted delta n <= n * n) /\
  (forall n m, 0 <= n -> n <= m -> huber_weighted delta n <= huber_weighted delta m) /\
  (forall n, n <= delta -> huber_weighted delta n = huber_loss delta n) /\
  (forall n, delta < n -> huber_weighted delta n < huber_loss delta n).
Proof.
  intros Hd.
  assert (Hmin : forall n, huber_weighted delta n = n * Rmin n delta).
  { intros n. unfold huber_weighted. destruct (Rlt_dec n delta).
    - rewrite Rmin_left by lra. auto.
    - rewrite Rmin_right by lra. lra. }
  split.
  - assert (Hc : continuity (fun n => n * ((n + delta - Rabs (n - delta)) * / 2))).
    { apply continuity_mult; [apply derivable_continuous, derivable_id|].
      apply (continuity_mult (fun n => n + delta - Rabs (n - delta)) (fun _ => / 2)); [|apply continuity_const; intros ? ?; auto].
      apply (continuity_minus (fun n => n + delta) (fun n => Rabs (n - delta))).
      - apply derivable_continuous, derivable_plus; [apply derivable_id | apply derivable_const].
      - apply (continuity_comp (fun n => n - delta) Rabs); [|apply Rcontinuity_abs].
        apply derivable_continuous, derivable_minus; [apply derivable_id | apply derivable_const]. }
    intros x eps He. destruct (Hc x eps He) as (alp & Ha & Hb). exists alp. split; auto. intros y Hy.
    assert (Hx : forall n, huber_weighted delta n = n * ((n + delta - Rabs (n - delta)) * / 2)).
    { intros n. unfold huber_weighted. destruct (Rlt_dec n delta).
      - rewrite Rabs_left by lra. field.
      - rewrite Rabs_right by lra. field. }
    rewrite !Hx. apply Hb. auto.
  - split; [|split; [|split]].
    + intros n Hn. rewrite Hmin. pose proof (Rmin_l n delta). assert (0 <= Rmin n delta) by (apply Rmin_glb; lra). nra.
    + intros n m Hn Hm. rewrite !Hmin. pose proof (Rmin_l n delta). pose proof (Rmin_r n delta).
      assert (Rmin n delta <= Rmin m delta) by (apply Rmin_glb; lra). assert (0 <= Rmin n delta) by (apply Rmin_glb; lra). nra.
    + intros n Hn. unfold huber_weighted, huber_loss. destruct (Rlt_dec n delta); auto. assert (n = delta) by lra. subst. lra.
    + intros n Hn. unfold huber_weighted, huber_loss. destruct (Rlt_dec n delta); [lra|]. nra.
Qed.

(* ---- C42 ---- *)
Lemma vnorm_scale k (x : list R) : 0 <= k -> vnorm (vscale k x) = k * vnorm x.
Proof. intros Hk. unfold vnorm. rn. rewrite sumsq_scale, sqrt_mult_alt by nra. rewrite sqrt_square; auto. Qed.
Lemma huber_jacobian w delta r r' rw J J' cols : 0 < delta -> whiten_residual w r = Ok r' ->
  whiten_residual (Huber w (scal delta)) r = Ok rw -> whiten_jacobian w J rw = Ok J' -> shaped (length r') cols J' ->
  let n := vnorm r' in
  (n < delta <-> vnorm rw < delta) /\
  (n < delta -> rw = r' /\ whiten_jacobian (Huber w (scal delta)) J rw = Ok J') /\
  (delta <= n -> rw = vscale (sqrt (delta / n)) r' /\
     exists JH, whiten_jacobian (Huber w (scal delta)) J rw = Ok JH /\ JH = map (vscale (sqrt (sqrt (delta / n)))) J' /\
     gradient cols JH rw = vscale (sqrt (sqrt (n / delta))) (vscale (delta / n) (gradient cols J' r'))) /\
  (delta < n -> sqrt (delta / n) < sqrt (sqrt (delta / n)) /\ 1 < sqrt (sqrt (n / delta))).
Proof.
  intros Hd Hw Hrw HJ HJ' n. destruct (huber_residual w delta r r' Hd Hw) as (HA & HB & _). fold n in HA, HB.
  assert (Hlow : n < delta -> rw = r').
  { intros H. rewrite (HA H) in Hrw. congruence. }
  assert (Hhigh : delta <= n -> rw = vscale (sqrt (delta / n)) r' /\ vnorm rw = sqrt (delta / n) * n).
  { intros H. destruct (HB H) as (Hk & He). assert (Er : rw = vscale (sqrt (delta / n)) r') by congruence. split; auto. rewrite Er. apply vnorm_scale. lra. }
  assert (Hsq : delta <= n -> delta <= sqrt (delta / n) * n).
  { intros H. destruct (HB H) as (Hk & _). assert (Hq : sqrt (delta / n) * sqrt (delta / n) = delta / n) by (apply sqrt_sqrt; apply Rlt_le, Rdiv_lt_0_compat; lra).
    assert (Hdn : delta = delta / n * n) by (field; lra). rewrite <- Hq in Hdn. set (s := sqrt (delta / n)) in *. clearbody s.
    assert (s * s <= s) by nra. assert (0 < n) by lra. nra. }
  assert (Hcmp : n < delta <-> vnorm rw < delta).
  { split.
    - intros H. rewrite (Hlow H). auto.
    - intros H. destruct (Rlt_or_le n delta) as [|Hge]; auto. destruct (Hhigh Hge) as (_ & He). specialize (Hsq Hge). lra. }
  split; auto. split.
  - intros H. split; auto. cbn [whiten_jacobian]. rewrite HJ. cbn [bind scalar scal a_shape a_data]. cbn [nltb NumR]. unfold Rltb.
    apply Hcmp in H. destruct (Rlt_dec (vnorm rw) delta); [auto | lra].
  - assert (H4 : delta <= n -> delta / (sqrt (delta / n) * n) = sqrt (delta / n)).
    { intros H. destruct (HB H) as (Hk & _). assert (Hq : sqrt (delta / n) * sqrt (delta / n) = delta / n) by (apply sqrt_sqrt; apply Rlt_le, Rdiv_lt_0_compat; lra).
      apply (Rmult_eq_reg_r (sqrt (delta / n))); [|lra]. rewrite Hq. field. split; lra. }
    split.
    + intros H. destruct (Hhigh H) as (Er & En). split; auto. destruct (HB H) as (Hk & _).
      assert (EJ : whiten_jacobian (Huber w (scal delta)) J rw = Ok (map (vscale (sqrt (sqrt (delta / n)))) J')).
      { cbn [whiten_jacobian]. rewrite HJ. cbn [bind scalar scal a_shape a_data]. cbn [nltb NumR]. unfold Rltb.
        destruct (Rlt_dec (vnorm rw) delta) as [Hlt|_]; [apply Hcmp in Hlt; lra|]. f_equal. apply map_ext. intros row. unfold vscale.
        apply map_ext. intros x. rn. rewrite En, H4 by auto. apply Rmult_comm. }
      exists (map (vscale (sqrt (sqrt (delta / n)))) J'). split; auto. split; auto.
      assert (Hvs : forall k v, vscale k v = map (Rmult k) v) by reflexivity. rewrite (Hvs (sqrt (sqrt (n / delta)))), (Hvs (delta / n)).
      unfold gradient. rewrite !map_map. apply map_ext. intros j. rn. rewrite map_length.
      set (s := sqrt (delta / n)) in *. set (q := sqrt s).
      assert (Hqq : q * q = s) by (apply sqrt_sqrt; lra). assert (Hss : s * s = delta / n) by (apply sqrt_sqrt; apply Rlt_le, Rdiv_lt_0_compat; lra).
      assert (Hq0 : 0 < q) by (apply sqrt_lt_R0; lra).
      assert (Hinv : sqrt (sqrt (n / delta)) = / q).
      { assert (H1 : sqrt (n / delta) = / s).
        { apply sqrt_lem_1; [apply Rlt_le, Rdiv_lt_0_compat; lra | left; apply Rinv_0_lt_compat; lra |].
          rewrite <- Rinv_mult. rewrite Hss. field. lra. }
        rewrite H1. apply sqrt_lem_1; [left; apply Rinv_0_lt_compat; lra | left; apply Rinv_0_lt_compat; lra |]. rewrite <- Rinv_mult. rewrite Hqq. auto. }
      rewrite Hinv.
      transitivity (sumn (length J') (fun i => q * s * (ent J' i j * nth i r' 0))).
      * apply sumn_ext. intros i Hi. rewrite Er. rewrite nth_vscale. unfold ent. rewrite (nth_map' _ _ _ _ ([] : list R)) by auto. rewrite nth_vscale. fold q. ring.
      * rewrite sumn_scale. assert (Hqs : q * s = / q * (delta / n)). { rewrite <- Hss, <- Hqq. field. lra. } rewrite Hqs. ring.
    + intros H. destruct (HB ltac:(lra)) as (Hk & _).
      assert (Hlt : delta / n < 1) by (apply (Rmult_lt_reg_r n); [lra|]; field_simplify; lra).
      assert (H0 : 0 < delta / n) by (apply Rdiv_lt_0_compat; lra).
      assert (Hs1 : sqrt (delta / n) < 1) by (rewrite <- sqrt_1; apply sqrt_lt_1_alt; lra).
      split.
      * set (s := sqrt (delta / n)) in *. assert (Hqq : sqrt s * sqrt s = s) by (apply sqrt_sqrt; lra). assert (0 < sqrt s) by (apply sqrt_lt_R0; lra).
        assert (sqrt s < 1) by (rewrite <- sqrt_1; apply sqrt_lt_1_alt; lra). nra.
      * assert (1 < n / delta) by (apply (Rmult_lt_reg_r delta); [lra|]; field_simplify; lra).
        rewrite <- sqrt_1. apply sqrt_lt_1_alt. split; [lra|]. rewrite <- sqrt_1. apply sqrt_lt_1_alt. lra.
Qed.
(* a unit-variance scalar with delta = 1 and Jacobian 1: the gradient n^(1/4) instead of 1 *)
Lemma huber_gradient_unbounded B : exists (w : noise R) r rw JH,
  whiten_residual (Huber w (scal 1)) r = Ok rw /\ whiten_jacobian (Huber w (scal 1)) [[1]] rw = Ok JH /\
  noise_ok (Huber w (scal 1)) /\ exists g, gradient 1 JH rw = [g] /\ B < g.
Proof.
  set (b := Rabs B + 1). assert (Hb : 1 <= b) by (unfold b; pose proof (Rabs_pos B); lra).
  set (x := b * b * (b * b)). assert (Hbb : 1 <= b * b) by nra. assert (Hx : 1 <= x) by (unfold x; nra).
  set (w := DiagGaussian (mkArr [1%nat] [1])).
  assert (Hw : whiten_residual w [x] = Ok [1 * x]) by reflexivity.
  assert (Hn : vnorm [1 * x] = x).
  { unfold vnorm. rn. rewrite sumsq_cons. change (sumsq []) with 0. replace (1 * x * (1 * x) + 0) with (x * x) by ring. apply sqrt_square. lra. }
  destruct (huber_residual w 1 [x] _ Rlt_0_1 Hw) as (_ & HB & _). rewrite Hn in HB. destruct (HB Hx) as (Hk & Hrw).
  assert (HJ : whiten_jacobian w [[1]] (vscale (sqrt (1 / x)) [1 * x]) = Ok [[1 * 1]]) by reflexivity.
  destruct (huber_jacobian w 1 [x] _ _ [[1]] _ 1 Rlt_0_1 Hw Hrw HJ) as (_ & _ & Hhigh & _).
  { split; [reflexivity | repeat constructor]. }
  rewrite Hn in Hhigh. destruct (Hhigh Hx) as (_ & JH & EJ & _ & Hg).
  exists w, [x], (vscale (sqrt (1 / x)) [1 * x]), JH. split; auto. split; auto.
  split; [split; [split; [reflexivity | exists 1%nat; reflexivity] | split; reflexivity]|].
  exists b. split; [|unfold b; pose proof (Rle_abs B); lra].
  assert (Hs : sqrt (sqrt (x / 1)) = b).
  { replace (x / 1) with (b * b * (b * b)) by (unfold x; field). rewrite sqrt_square by nra. apply sqrt_square. lra. }
  rewrite Hg, Hs. unfold gradient, vscale, sumn, ent. cbn. f_equal. unfold vsum. cbn. field. lra.
Qed.

(* ---- C43 ---- *)
Section NLL.
Variable E : env R.
Variables (ln : R -> R) (det : list (list R) -> R).
Let C := e_cls E.

Lemma lit_m2 : nlit (-2) 1 = -2.
Proof. rn. unfold Rlit. lra. Qed.
Lemma stack_noise L gfs s i f : is_stack E L gfs s -> nth_error gfs i = Some f -> noise_index i (fd_noise (fs_factor s)) = f_noise f.
Proof.
  intros Hs Hf. change (noise_index i (fd_noise (fs_factor s))) with (fd_noise (fd_index i (fs_factor s))).
  rewrite (is_fac _ _ _ _ Hs i f Hf). reflexivity.
Qed.
Lemma traverse_seq_some {A B} (F : nat -> result B) (G : A -> option B) (l : list A) k :
  (forall i x, nth_error l i = Some x -> exists y, F (k + i)%nat = Ok y /\ G x = Some y) ->
  exists ys, traverse F (seq k (length l)) = Ok ys /\ Forall2 (fun x y => G x = Some y) l ys.
Proof.
  revert k. induction l as [|x l IH]; intros k H; cbn [length seq traverse]; [exists []; auto|].
  destruct (H 0%nat x eq_refl) as (y & Hy & Hg). rewrite Nat.add_0_r in Hy. rewrite Hy. cbn [bind].
  destruct (IH (S k)) as (ys & -> & Hf). { intros i z Hi. replace (S k + i)%nat with (k + S i)%nat by lia. apply H. auto. }
  cbn [bind]. eexists. split; [reflexivity|]. constructor; auto.
Qed.
Lemma stack_logdets_ok L gfs s : is_stack E L gfs s -> (forall f, In f gfs -> factor_ok f) -> (forall f, In f gfs -> linear_noise (f_noise f)) ->
  exists ys, stack_logdets ln det s = Ok ys /\ Forall2 (fun f y => log_normaliser ln det (f_noise f) = Some y) gfs ys.
Proof.
  intros Hs Hok Hlin. unfold stack_logdets. rewrite (is_num _ _ _ _ Hs).
  destruct (fd_noise (fs_factor s)) as [W|d|w dl] eqn:En.
  - apply traverse_seq_some. intros i f Hf. pose proof (stack_noise L gfs s i f Hs Hf) as Hn. rewrite En in Hn. cbn in Hn.
    assert (Hno : noise_ok (f_noise f)) by (apply Hok; eapply nth_error_In; eauto). rewrite <- Hn in *. destruct Hno as (Ha & k & Hk).
    cbn [plus]. destruct (arr_index i W) as [sh dat]. cbn in Hk. subst sh. eexists. split; [reflexivity|].
    cbn [log_normaliser a_shape hd last a_data]. rewrite lit_m2. reflexivity.
  - assert (H : exists ys, traverse (fun n => Ok (nmul (nlit (-2) 1) (ln (nabs (fold_right nmul n1 (a_data (arr_index n d))))))) (seq 0 (length gfs)) = Ok ys /\
      Forall2 (fun f y => log_normaliser ln det (f_noise f) = Some y) gfs ys).
    { apply traverse_seq_some. intros i f Hf. pose proof (stack_noise L gfs s i f Hs Hf) as Hn. rewrite En in Hn. cbn in Hn. rewrite <- Hn.
      eexists. split; [reflexivity|]. cbn [log_normaliser plus]. rewrite lit_m2. reflexivity. }
    destruct H as (ys & Ht & Hf). exists ys. split; auto. rewrite <- Ht. symmetry.
    generalize (seq 0 (length gfs)). induction l as [|x l IH]; cbn [traverse map]; auto. rewrite IH. reflexivity.
  - exfalso. destruct gfs as [|f gfs]; [exact (is_ne _ _ _ _ Hs eq_refl)|].
    pose proof (stack_noise L _ s 0 f Hs eq_refl) as Hn. rewrite En in Hn. cbn in Hn. specialize (Hlin f (or_introl eq_refl)). rewrite <- Hn in Hlin. exact Hlin.
Qed.
Lemma stack_logdets_huber L gfs s f : is_stack E L gfs s -> In f gfs -> ~ linear_noise (f_noise f) -> stack_logdets ln det s = Err AssertionError.
Proof.
  intros Hs Hf Hn. apply In_nth_error in Hf. destruct Hf as (i & Hi). pose proof (stack_noise L gfs s i f Hs Hi) as He.
  unfold stack_logdets. destruct (fd_noise (fs_factor s)); auto; cbn in He; rewrite <- He in Hn; exfalso; apply Hn; exact I.
Qed.

Lemma nll_fold L gss ss acc : Forall2 (is_stack E L) gss ss -> (forall f, In f (concat gss) -> factor_ok f) ->
  (forall f, In f (concat gss) -> linear_noise (f_noise f)) ->
  exists ys, Forall2 (fun f y => log_normaliser ln det (f_noise f) = Some y) (concat gss) ys /\
    foldM (fun acc s => l <- stack_logdets ln det s ;; Ok (nadd acc (vsum l))) ss acc = Ok (acc + vsum ys).
Proof.
  intros H. revert acc. induction H as [|gfs s gss ss Hs H IH]; intros acc Hok Hlin.
  - exists []. split; [constructor|]. cbn [foldM]. rewrite vsum_nil, Rplus_0_r. auto.
  - cbn [concat] in *. destruct (stack_logdets_ok L gfs s Hs) as (ys & Ey & Fy).
    { intros; apply Hok, in_or_app; auto. } { intros; apply Hlin, in_or_app; auto. }
    destruct (IH (acc + vsum ys)) as (zs & Fz & Ez). { intros; apply Hok, in_or_app; auto. } { intros; apply Hlin, in_or_app; auto. }
    exists (ys ++ zs). split; [apply Forall2_app; auto|]. cbn [foldM]. rewrite Ey. cbn [bind]. rn. rewrite Ez, vsum_app. f_equal. lra.
Qed.
Lemma nll_fold_huber L gss ss acc f : Forall2 (is_stack E L) gss ss -> (forall gfs, In gfs gss -> group_ok gfs) -> In f (concat gss) -> ~ linear_noise (f_noise f) ->
  foldM (fun acc s => l <- stack_logdets ln det s ;; Ok (nadd acc (vsum l))) ss acc = Err AssertionError.
Proof.
  intros H. revert acc. induction H as [|gfs s gss ss Hs H IH]; intros acc Hok Hin Hn; [destruct Hin|].
  cbn [concat] in Hin. cbn [foldM]. destruct (stack_logdets ln det s) as [l|e] eqn:El.
  - cbn [bind]. apply in_app_or in Hin. destruct Hin as [Hin|Hin].
    + rewrite (stack_logdets_huber L gfs s f Hs Hin Hn) in El. discriminate.
    + apply IH; auto. intros; apply Hok; right; auto.
  - cbn [bind]. f_equal.
    assert (Hx : (exists f', In f' gfs /\ ~ linear_noise (f_noise f')) \/ forall f', In f' gfs -> linear_noise (f_noise f')).
    { clear. induction gfs as [|f' l IH]; [right; intros ? []|]. destruct (f_noise f') eqn:Ef.
      - destruct IH as [(x & Hx & Hn)|Hl]; [left; exists x; split; [right; auto | auto] | right; intros x [<-|Hx]; [rewrite Ef; exact I | auto]].
      - destruct IH as [(x & Hx & Hn)|Hl]; [left; exists x; split; [right; auto | auto] | right; intros x [<-|Hx]; [rewrite Ef; exact I | auto]].
      - left. exists f'. split; [left; auto|]. rewrite Ef. auto. }
    destruct Hx as [(f' & Hf' & Hn')|Hl].
    + rewrite (stack_logdets_huber L gfs s f' Hs Hf' Hn') in El. congruence.
    + destruct (stack_logdets_ok L gfs s Hs) as (ys & Ey & _); [|auto|congruence]. intros x Hx. apply (Hok gfs); [left; auto | auto].
Qed.

Lemma joint_nll fs g : (forall f, In f fs -> factor_ok f) -> graph_make E fs = Ok g ->
  (forall a val, assigns E fs a val -> (forall f, In f fs -> residual_shape_ok E val f) ->
    ((forall f, In f fs -> linear_noise (f_noise f)) ->
      exists c r ys, compute_cost E g a = Ok (c, r) /\ Forall2 (fun f y => log_normaliser ln det (f_noise f) = Some y) fs ys /\
        compute_joint_nll E ln det g a = Ok (c + vsum ys)) /\
    ((exists f, In f fs /\ ~ linear_noise (f_noise f)) -> compute_joint_nll E ln det g a = Err AssertionError)) /\
  (forall fs' g' a a' val, Permutation fs fs' -> graph_make E fs' = Ok g' -> assigns E fs a val -> assigns E fs' a' val ->
    (forall f, In f fs -> residual_shape_ok E val f) -> compute_joint_nll E ln det g a = compute_joint_nll E ln det g' a') /\
  (forall a b val val' ca ra cb rb na nb, assigns E fs a val -> assigns E fs b val' ->
    (forall f, In f fs -> residual_shape_ok E val f) -> (forall f, In f fs -> residual_shape_ok E val' f) ->
    compute_cost E g a = Ok (ca, ra) -> compute_cost E g b = Ok (cb, rb) ->
    compute_joint_nll E ln det g a = Ok na -> compute_joint_nll E ln det g b = Ok nb -> na - nb = ca - cb).
Proof.
  intros Hok Hm. destruct (made E fs g Hok Hm) as (Hg & Hne).
  assert (Hmain : forall fs g, (forall f, In f fs -> factor_ok f) -> is_graph E fs g -> fs <> [] -> forall a val, assigns E fs a val -> (forall f, In f fs -> residual_shape_ok E val f) ->
    ((forall f, In f fs -> linear_noise (f_noise f)) ->
      exists c r ys, compute_cost E g a = Ok (c, r) /\ Forall2 (fun f y => log_normaliser ln det (f_noise f) = Some y) fs ys /\
        compute_joint_nll E ln det g a = Ok (c + vsum ys)) /\
    ((exists f, In f fs /\ ~ linear_noise (f_noise f)) -> compute_joint_nll E ln det g a = Err AssertionError)).
  { clear. intros fs g Hok Hg Hne a val Ha Hsh. destruct (cost_ok E fs g a val Hok Hne Hg Ha Hsh) as (r & ws & Hr & Hc & _ & _).
    assert (Hcon : forall f, In f (concat (kgroups fs)) <-> In f fs).
    { intros f. split; apply Permutation_in; [|symmetry]; apply kgroups_perm. }
    split.
    - intros Hlin. destruct (nll_fold (graph_layout E fs false) (kgroups fs) (g_stacks g) (sumsq r) (ig_stacks _ _ _ Hg)) as (ys & Fy & Ef).
      { intros f Hf. apply Hok, Hcon; auto. } { intros f Hf. apply Hlin, Hcon; auto. }
      destruct (forall2_perm _ _ fs _ (kgroups_perm fs) Fy) as (ys' & Hp & Fy').
      exists (sumsq r), r, ys'. split; auto. split; auto. unfold compute_joint_nll. rewrite Hr. cbn [bind]. rewrite Ef. f_equal. f_equal. apply vsum_perm. auto.
    - intros (f & Hf & Hn). unfold compute_joint_nll. rewrite Hr. cbn [bind].
      apply (nll_fold_huber (graph_layout E fs false) (kgroups fs) (g_stacks g) (sumsq r) f (ig_stacks _ _ _ Hg)); auto.
      + apply kgroups_ok. auto.
      + apply Hcon; auto. }
  assert (Hdec : forall l : list (factor R), (forall f, In f l -> linear_noise (f_noise f)) \/ exists f, In f l /\ ~ linear_noise (f_noise f)).
  { clear. induction l as [|f' l IH]; [left; intros ? []|]. destruct (f_noise f') eqn:Ef.
    - destruct IH as [Hl|(x & Hx & Hn)]; [left; intros x [<-|Hx]; [rewrite Ef; exact I | auto] | right; exists x; split; [right; auto | auto]].
    - destruct IH as [Hl|(x & Hx & Hn)]; [left; intros x [<-|Hx]; [rewrite Ef; exact I | auto] | right; exists x; split; [right; auto | auto]].
    - right. exists f'. split; [left; auto|]. rewrite Ef. auto. }
  split; [intros a val Ha Hsh; apply (Hmain fs g Hok Hg Hne a val Ha Hsh)|]. split.
  - intros fs' g' a a' val Hp Hm' Ha Ha' Hsh.
    assert (Hok' : forall f, In f fs' -> factor_ok f) by (intros f Hf; apply Hok; apply (Permutation_in _ (Permutation_sym Hp)); auto).
    destruct (made E fs' g' Hok' Hm') as (Hg' & Hne').
    assert (Hsh' : forall f, In f fs' -> residual_shape_ok E val f) by (intros f Hf; apply Hsh; apply (Permutation_in _ (Permutation_sym Hp)); auto).
    destruct (Hmain fs g Hok Hg Hne a val Ha Hsh) as (M1 & M2). destruct (Hmain fs' g' Hok' Hg' Hne' a' val Ha' Hsh') as (M1' & M2').
    destruct (Hdec fs) as [Hl|(f & Hf & Hn)].
    + destruct (M1 Hl) as (c & r & ys & Hc & Fy & ->).
      destruct M1' as (c' & r' & ys' & Hc' & Fy' & ->). { intros f Hf; apply Hl; apply (Permutation_in _ (Permutation_sym Hp)); auto. }
      destruct (cost_permutation E fs fs' g g' a a' val) as (c2 & r2 & r2' & Hc2 & Hc2' & _); auto.
      assert (c = c') by congruence. subst c'. f_equal. f_equal.
      destruct (forall2_perm _ _ fs' _ Hp Fy) as (zs & Hpz & Fz).
      assert (zs = ys').
      { clear -Fz Fy'. revert ys' Fy'. induction Fz; intros ys' F; inversion F; subst; auto. f_equal; auto. congruence. }
      subst zs. apply vsum_perm; auto.
    + rewrite M2 by eauto. rewrite M2'; auto. exists f. split; auto. apply (Permutation_in _ Hp); auto.
  - intros a b val val' ca ra cb rb na nb Ha Hb Hsa Hsb Hca Hcb Hna Hnb.
    destruct (Hmain fs g Hok Hg Hne a val Ha Hsa) as (M1 & M2). destruct (Hmain fs g Hok Hg Hne b val' Hb Hsb) as (M1' & _).
    destruct (Hdec fs) as [Hl|Hh]; [|rewrite (M2 Hh) in Hna; discriminate].
    destruct (M1 Hl) as (c & r & ys & Hc & Fy & En). destruct (M1' Hl) as (c' & r' & ys' & Hc' & Fy' & En').
    assert (ys = ys').
    { clear -Fy Fy'. revert ys' Fy'. induction Fy; intros ys' F; inversion F; subst; auto. f_equal; auto. congruence. }
    subst ys'. assert (na = c + vsum ys) by congruence. assert (nb = c' + vsum ys) by congruence. assert (c = ca) by congruence. assert (c' = cb) by congruence. lra.
Qed.
End NLL.
