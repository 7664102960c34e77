(* Concrete noise models meeting the hypotheses of the noise theorems. *)
From Coq Require Import List Arith Bool ZArith Reals Lra Lia.
From Verif Require Import Num NumR Py Arr MLayout MAssign MNoise MSparse MFactor MGraph SpecSparse SpecNoise SpecTree SpecAssign SpecGraph SpecDeriv.
From Verif Require Import PBase PVec PSum PGraph PNoise PExGraph Ex ExG.
Import ListNotations.
Local Open Scope R_scope.

Definition ex_cov : list (list R) := [[4; 2]; [2; 2]].
Definition ex_chol (_ : list (list R)) : list (list R) := [[2; 0]; [1; 1]].
Definition ex_inv (_ : list (list R)) : list (list R) := [[1 / 2; 0]; [- (1 / 2); 1]].

Lemma ex_covariance : shaped 2 2 ex_cov /\ is_cholesky 2 ex_cov (ex_chol ex_cov) /\ is_inverse 2 (ex_chol ex_cov) (ex_inv (ex_chol ex_cov)) /\
  Forall (fun x => 0 < x) [4; 9] /\
  linear_noise (Gaussian (mkArr [2%nat; 2%nat] [1; 2; 0; 3])) /\ noise_ok (Gaussian (mkArr [2%nat; 2%nat] [1; 2; 0; 3])) /\
  shaped 2 3 [[1; 2; 3]; [4; 5; 6]].
Proof.
  assert (Hs : forall m n M, length M = m -> Forall (fun row : list R => length row = n) M -> shaped m n M) by (intros; split; auto).
  split; [apply Hs; repeat constructor|].
  split; [split; [apply Hs; repeat constructor|]; intros [|[|i]] [|[|j]] Hi Hj; try lia; unfold sumn, ent; cbn; unfold vsum; cbn; lra|].
  split; [split; [apply Hs; repeat constructor|]; intros [|[|i]] [|[|j]] Hi Hj; try lia; unfold sumn, ent; cbn; unfold vsum; cbn; lra|].
  split; [repeat constructor; lra|]. split; [exact I|]. split; [split; [reflexivity | exists 2%nat; reflexivity] | apply Hs; repeat constructor].
Qed.

(* residual [3; 8] whitened by [2; 1] is [6; 8] of norm 10; with delta = 5/2 the weight is 1/4
   (square root 1/2) and the Jacobian's weight sqrt (1/2) *)
Lemma ex_huber : 0 < 5 / 2 /\ whiten_residual (DiagGaussian (mkArr [2%nat] [2; 1])) [3; 8] = Ok [6; 8] /\ vnorm [6; 8] = 10 /\
  whiten_residual (Huber (DiagGaussian (mkArr [2%nat] [2; 1])) (scal (5 / 2))) [3; 8] = Ok [3; 4] /\
  whiten_jacobian (DiagGaussian (mkArr [2%nat] [2; 1])) [[1]; [1]] [3; 4] = Ok [[2]; [1]] /\ shaped 2 1 [[2]; [1]] /\
  huber_weighted (5 / 2) 10 = 25 /\ huber_loss (5 / 2) 10 = 43 + 3 / 4 /\
  whiten_residual (Huber (DiagGaussian (mkArr [2%nat] [2; 1])) (scal 11)) [3; 8] = Ok [6; 8].
Proof.
  assert (H0 : whiten_residual (DiagGaussian (mkArr [2%nat] [2; 1])) [3; 8] = Ok [6; 8]) by (cbn; repeat (f_equal; try lra)).
  assert (Hn : vnorm [6; 8] = 10).
  { unfold vnorm. rn. rewrite !sumsq_cons. unfold sumsq. cbn. unfold vsum. cbn. replace (6 * 6 + (8 * 8 + 0)) with (10 * 10) by lra. apply sqrt_square. lra. }
  split; [lra|]. split; auto. split; auto.
  split; [|split; [cbn; repeat (f_equal; try lra) | split; [split; [reflexivity | repeat constructor]|]]].
  - destruct (huber_residual _ (5 / 2) [3; 8] _ ltac:(lra) H0) as (_ & HB & _). rewrite Hn in HB. destruct HB as (_ & ->); [lra|].
    replace (sqrt (5 / 2 / 10)) with (1 / 2). { unfold vscale. cbn. repeat (f_equal; try lra). }
    symmetry. apply sqrt_lem_1; lra.
  - split; [unfold huber_weighted; destruct (Rlt_dec 10 (5 / 2)); lra|]. split; [unfold huber_loss; destruct (Rlt_dec 10 (5 / 2)); lra|].
    destruct (huber_residual _ 11 [3; 8] _ ltac:(lra) H0) as (HA & _). apply HA. rewrite Hn. lra.
Qed.

Definition ex_hub : list (factor R) := ex_lin ++ [mkFactor 12 [va; vc] (Huber (dg2 1 1) (mkArr [] [1])) [leaf1 [0; 0]]].
Lemma ex_nll : (forall f, In f (ex_lin (T := R)) -> factor_ok f) /\ (exists g, graph_make exE (ex_lin (T := R)) = Ok g) /\
  assigns exE (ex_lin (T := R)) ex_lina ex_linval /\ (forall f, In f (ex_lin (T := R)) -> residual_shape_ok exE ex_linval f) /\
  (forall f, In f (ex_lin (T := R)) -> linear_noise (f_noise f)) /\
  (forall f, In f ex_hub -> factor_ok f) /\ (exists g, graph_make exE ex_hub = Ok g) /\
  assigns exE ex_hub ex_lina ex_linval /\ (forall f, In f ex_hub -> residual_shape_ok exE ex_linval f) /\
  (exists f, In f ex_hub /\ ~ linear_noise (f_noise f)).
Proof.
  destruct ex_lin_cost as (H1 & H2 & H3 & H4 & _). split; auto. split; auto. split; auto. split; auto.
  split; [intros f [<-|[<-|[<-|[]]]]; exact I|].
  assert (Hok : forall f, In f ex_hub -> factor_ok f).
  { intros f Hf. apply in_app_or in Hf. destruct Hf as [Hf|[<-|[]]]; [auto|].
    split; [split; [split; [reflexivity | exists 2%nat; reflexivity] | split; reflexivity]|]. repeat constructor. }
  split; [exact Hok|]. split.
  - destruct (PGraph.graph_make_ok exE ex_hub Hok) as (H & _).
    destruct H as (g & Eg & _); [eexists; split; [left; reflexivity | discriminate] | eauto].
  - split; [apply ex_lin_assigns; left; reflexivity|]. split.
    + intros f [<-|[<-|[<-|[<-|[]]]]]; reflexivity.
    + eexists. split; [right; right; right; left; reflexivity | auto].
Qed.

Lemma noise_covariance :
  (forall c r, Forall (fun x => 0 < x) c -> length r = length c ->
    exists w, whiten_residual (diag_from_covariance c) r = Ok w /\
      sumsq w = sumn (length c) (fun i => nth i r 0 * nth i r 0 / nth i c 0)) /\
  (forall chol inv cov k r, shaped k k cov -> (0 < k)%nat -> is_cholesky k cov (chol cov) ->
    is_inverse k (chol cov) (inv (chol cov)) -> length r = k ->
    exists n w, gaussian_from_covariance chol inv cov = Ok n /\ noise_ok n /\ noise_dim n = k /\ whiten_residual n r = Ok w /\
      (forall y, (forall i, (i < k)%nat -> sumn k (fun j => ent cov i j * nth j y 0) = nth i r 0) ->
         sumsq w = sumn k (fun i => nth i r 0 * nth i y 0)) /\
      exists y, length y = k /\ forall i, (i < k)%nat -> sumn k (fun j => ent cov i j * nth j y 0) = nth i r 0).
Proof. split; [exact diag_norm | exact covariance_norm]. Qed.
Lemma huber_claims delta : 0 < delta ->
  (forall (w : noise R) r r', whiten_residual w r = Ok r' ->
    (vnorm r' < delta -> whiten_residual (Huber w (scal delta)) r = Ok r') /\
    (delta <= vnorm r' -> 0 < sqrt (delta / vnorm r') <= 1 /\
       whiten_residual (Huber w (scal delta)) r = Ok (vscale (sqrt (delta / vnorm r')) r')) /\
    exists rw, whiten_residual (Huber w (scal delta)) r = Ok rw /\ sumsq rw = huber_weighted delta (vnorm r')) /\
  continuity (huber_weighted delta) /\
  (forall n, 0 <= n -> 0 <= huber_weighted delta n <= n * n) /\
  (forall n m, 0 <= n -> n <= m -> huber_weighted delta n <= huber_weighted delta m) /\
  (forall n, n <= delta -> huber_weighted delta n = huber_loss delta n) /\
  (forall n, delta < n -> huber_weighted delta n < huber_loss delta n).
Proof. intros Hd. split; [intros; apply huber_residual; auto | apply huber_weighted_facts; auto]. Qed.
