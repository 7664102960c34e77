(* Theorems C40-C43: noise models and the joint negative log likelihood. *)
From Coq Require Import List Arith Bool ZArith Reals Permutation.
From Verif Require Import Num NumR Py Arr MLayout MAssign MNoise MSparse MFactor MGraph SpecSparse SpecNoise SpecTree SpecAssign SpecGraph SpecDeriv.
From Verif Require Import Ex ExG PExGraph PNoise PExNoise.
Import ListNotations.
Local Open Scope R_scope.

Theorem C40_mahalanobis :
  (forall c r, Forall (fun x => 0 < x) c -> length r = length c ->
    exists w, whiten_residual (diag_from_covariance c) r = Ok w /\
      sumsq w = sumn (length c) (fun i => nth i r 0 * nth i r 0 / nth i c 0)) /\
  (forall chol inv cov k r, shaped k k cov -> (0 < k)%nat -> is_cholesky k cov (chol cov) ->
    is_inverse k (chol cov) (inv (chol cov)) -> length r = k ->
    exists n w, gaussian_from_covariance chol inv cov = Ok n /\ noise_ok n /\ noise_dim n = k /\ whiten_residual n r = Ok w /\
      (forall y, (forall i, (i < k)%nat -> sumn k (fun j => ent cov i j * nth j y 0) = nth i r 0) ->
         sumsq w = sumn k (fun i => nth i r 0 * nth i y 0)) /\
      exists y, length y = k /\ forall i, (i < k)%nat -> sumn k (fun j => ent cov i j * nth j y 0) = nth i r 0).
Proof. exact noise_covariance. Qed.
Print Assumptions C40_mahalanobis.

Theorem C40_information_form :
  forall (W : arr R) k r, arr_ok W = true -> a_shape W = [k; k] -> length r = k ->
  exists w, whiten_residual (Gaussian W) r = Ok w /\ length w = k /\
    (forall i, (i < k)%nat -> nth i w 0 = sumn k (fun j => ent (chunks k k (a_data W)) i j * nth j r 0)) /\
    sumsq w = sumn k (fun i => sumn k (fun j =>
      nth i r 0 * sumn k (fun l => ent (chunks k k (a_data W)) l i * ent (chunks k k (a_data W)) l j) * nth j r 0)).
Proof. exact gaussian_norm. Qed.
Print Assumptions C40_information_form.

Theorem C40_jacobian_columns :
  forall (n : noise R) J c r x, linear_noise n -> noise_ok n -> length r = noise_dim n -> shaped (noise_dim n) c J -> length x = c ->
  exists JW, whiten_jacobian n J r = Ok JW /\ whiten_residual n (mvec J x) = Ok (mvec JW x) /\
    forall r', length r' = noise_dim n -> whiten_jacobian n J r' = Ok JW.
Proof. exact jacobian_columns. Qed.
Print Assumptions C40_jacobian_columns.

Example C40_example :
  shaped 2 2 ex_cov /\ is_cholesky 2 ex_cov (ex_chol ex_cov) /\ is_inverse 2 (ex_chol ex_cov) (ex_inv (ex_chol ex_cov)) /\
  Forall (fun x => 0 < x) [4; 9] /\
  linear_noise (Gaussian (mkArr [2%nat; 2%nat] [1; 2; 0; 3])) /\ noise_ok (Gaussian (mkArr [2%nat; 2%nat] [1; 2; 0; 3])) /\
  shaped 2 3 [[1; 2; 3]; [4; 5; 6]].
Proof. exact ex_covariance. Qed.

Theorem C41_huber_residual :
  forall delta, 0 < delta ->
  (forall (w : noise R) r r', whiten_residual w r = Ok r' ->
    (vnorm r' < delta -> whiten_residual (Huber w (scal delta)) r = Ok r') /\
    (delta <= vnorm r' -> 0 < sqrt (delta / vnorm r') <= 1 /\
       whiten_residual (Huber w (scal delta)) r = Ok (vscale (sqrt (delta / vnorm r')) r')) /\
    exists rw, whiten_residual (Huber w (scal delta)) r = Ok rw /\ sumsq rw = huber_weighted delta (vnorm r')) /\
  continuity (huber_weighted delta) /\
  (forall n, 0 <= n -> 0 <= huber_weighted delta n <= n * n) /\
  (forall n m, 0 <= n -> n <= m -> huber_weighted delta n <= huber_weighted delta m) /\
  (forall n, n <= delta -> huber_weighted delta n = huber_loss delta n) /\
  (forall n, delta < n -> huber_weighted delta n < huber_loss delta n).
Proof. exact huber_claims. Qed.
Print Assumptions C41_huber_residual.

Example C41_example : 0 < 5 / 2 /\ whiten_residual (DiagGaussian (mkArr [2%nat] [2; 1])) [3; 8] = Ok [6; 8] /\ vnorm [6; 8] = 10 /\
  whiten_residual (Huber (DiagGaussian (mkArr [2%nat] [2; 1])) (scal (5 / 2))) [3; 8] = Ok [3; 4] /\
  whiten_jacobian (DiagGaussian (mkArr [2%nat] [2; 1])) [[1]; [1]] [3; 4] = Ok [[2]; [1]] /\ shaped 2 1 [[2]; [1]] /\
  huber_weighted (5 / 2) 10 = 25 /\ huber_loss (5 / 2) 10 = 43 + 3 / 4 /\
  whiten_residual (Huber (DiagGaussian (mkArr [2%nat] [2; 1])) (scal 11)) [3; 8] = Ok [6; 8].
Proof. exact ex_huber. Qed.

Theorem C42_huber_jacobian :
  forall (w : noise R) delta r r' rw J J' cols, 0 < delta -> whiten_residual w r = Ok r' ->
  whiten_residual (Huber w (scal delta)) r = Ok rw -> whiten_jacobian w J rw = Ok J' -> shaped (length r') cols J' ->
  let n := vnorm r' in
  (n < delta <-> vnorm rw < delta) /\
  (n < delta -> rw = r' /\ whiten_jacobian (Huber w (scal delta)) J rw = Ok J') /\
  (delta <= n -> rw = vscale (sqrt (delta / n)) r' /\
     exists JH, whiten_jacobian (Huber w (scal delta)) J rw = Ok JH /\ JH = map (vscale (sqrt (sqrt (delta / n)))) J' /\
     gradient cols JH rw = vscale (sqrt (sqrt (n / delta))) (vscale (delta / n) (gradient cols J' r'))) /\
  (delta < n -> sqrt (delta / n) < sqrt (sqrt (delta / n)) /\ 1 < sqrt (sqrt (n / delta))).
Proof. exact huber_jacobian. Qed.
Print Assumptions C42_huber_jacobian.

Theorem C42_bounded_influence_refuted :
  forall B, exists (w : noise R) r rw JH,
  whiten_residual (Huber w (scal 1)) r = Ok rw /\ whiten_jacobian (Huber w (scal 1)) [[1]] rw = Ok JH /\
  noise_ok (Huber w (scal 1)) /\ exists g, gradient 1 JH rw = [g] /\ B < g.
Proof. exact huber_gradient_unbounded. Qed.
Print Assumptions C42_bounded_influence_refuted.

Example C42_example : 0 < 5 / 2 /\ whiten_residual (DiagGaussian (mkArr [2%nat] [2; 1])) [3; 8] = Ok [6; 8] /\ vnorm [6; 8] = 10 /\
  whiten_residual (Huber (DiagGaussian (mkArr [2%nat] [2; 1])) (scal (5 / 2))) [3; 8] = Ok [3; 4] /\
  whiten_jacobian (DiagGaussian (mkArr [2%nat] [2; 1])) [[1]; [1]] [3; 4] = Ok [[2]; [1]] /\ shaped 2 1 [[2]; [1]] /\
  huber_weighted (5 / 2) 10 = 25 /\ huber_loss (5 / 2) 10 = 43 + 3 / 4 /\
  whiten_residual (Huber (DiagGaussian (mkArr [2%nat] [2; 1])) (scal 11)) [3; 8] = Ok [6; 8].
Proof. exact ex_huber. Qed.

Theorem C43_joint_nll :
  forall (E : env R) ln det fs g, (forall f, In f fs -> factor_ok f) -> graph_make E fs = Ok g ->
  (forall a val, assigns E fs a val -> (forall f, In f fs -> residual_shape_ok E val f) ->
    ((forall f, In f fs -> linear_noise (f_noise f)) ->
      exists c r ys, compute_cost E g a = Ok (c, r) /\ Forall2 (fun f y => log_normaliser ln det (f_noise f) = Some y) fs ys /\
        compute_joint_nll E ln det g a = Ok (c + vsum ys)) /\
    ((exists f, In f fs /\ ~ linear_noise (f_noise f)) -> compute_joint_nll E ln det g a = Err AssertionError)) /\
  (forall fs' g' a a' val, Permutation fs fs' -> graph_make E fs' = Ok g' -> assigns E fs a val -> assigns E fs' a' val ->
    (forall f, In f fs -> residual_shape_ok E val f) -> compute_joint_nll E ln det g a = compute_joint_nll E ln det g' a') /\
  (forall a b val val' ca ra cb rb na nb, assigns E fs a val -> assigns E fs b val' ->
    (forall f, In f fs -> residual_shape_ok E val f) -> (forall f, In f fs -> residual_shape_ok E val' f) ->
    compute_cost E g a = Ok (ca, ra) -> compute_cost E g b = Ok (cb, rb) ->
    compute_joint_nll E ln det g a = Ok na -> compute_joint_nll E ln det g b = Ok nb -> na - nb = ca - cb).
Proof. exact joint_nll. Qed.
Print Assumptions C43_joint_nll.

Example C43_example : (forall f, In f (ex_lin (T := R)) -> factor_ok f) /\ (exists g, graph_make exE (ex_lin (T := R)) = Ok g) /\
  assigns exE (ex_lin (T := R)) ex_lina ex_linval /\ (forall f, In f (ex_lin (T := R)) -> residual_shape_ok exE ex_linval f) /\
  (forall f, In f (ex_lin (T := R)) -> linear_noise (f_noise f)) /\
  (forall f, In f ex_hub -> factor_ok f) /\ (exists g, graph_make exE ex_hub = Ok g) /\
  assigns exE ex_hub ex_lina ex_linval /\ (forall f, In f ex_hub -> residual_shape_ok exE ex_linval f) /\
  (exists f, In f ex_hub /\ ~ linear_noise (f_noise f)).
Proof. exact ex_nll. Qed.
