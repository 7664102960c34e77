(* Sequences of vectors with geometrically shrinking steps converge; the loss near a limit of Gauss-Newton. *)
From Coq Require Import List Arith Bool Lia ZArith Permutation Reals Lra Psatz.
From Verif Require Import Num NumR Py Arr MLayout MAssign MNoise MSparse MFactor MGraph MLinear MSolver SpecLayout SpecTree SpecAssign SpecGraph SpecSparse SpecDeriv SpecNoise SpecSolver SpecOrder SpecInv SpecLin SpecCgLin SpecLoss SpecRobust.
From Verif Require Import PBase PVec PSparse PLinear PCg PSolverR PDescent PLin PNear PLocal PBasin4 PBasin5.
Import ListNotations.
Local Open Scope R_scope.

Lemma scalar_limit (U : nat -> R) B q : 0 <= q < 1 -> (forall j d, Rabs (U (j + d)%nat - U j) <= B * q ^ j) -> exists l, forall j, Rabs (l - U j) <= B * q ^ j.
Proof.
  intros Hq H. assert (HB : 0 <= B). { pose proof (H 0%nat 0%nat) as H0. pose proof (Rabs_pos (U (0 + 0)%nat - U 0%nat)). cbn [pow] in H0. lra. }
  assert (Hsmall : forall eps, 0 < eps -> exists N, forall j, (N <= j)%nat -> B * q ^ j < eps).
  { intros eps He. destruct (pow_lt_1_zero q) with (y := eps / (B + 1)) as (N & HN); [rewrite Rabs_pos_eq; lra | apply Rdiv_lt_0_compat; lra|].
    exists N. intros j Hj. specialize (HN j Hj). rewrite Rabs_pos_eq in HN by (apply pow_le; lra). apply Rle_lt_trans with ((B + 1) * q ^ j).
    - apply Rmult_le_compat_r; [apply pow_le; lra | lra].
    - apply (Rmult_lt_compat_l (B + 1)) in HN; [|lra]. replace ((B + 1) * (eps / (B + 1))) with eps in HN by (field; lra). auto. }
  assert (HC : Cauchy_crit U).
  { intros eps He. destruct (Hsmall (eps / 2)) as (N & HN); [lra|]. exists N. intros i j Hi Hj. unfold R_dist.
    assert (Hi' : Rabs (U i - U N) < eps / 2) by (eapply Rle_lt_trans; [|apply (HN N); lia]; replace i with (N + (i - N))%nat by lia; apply H).
    assert (Hj' : Rabs (U j - U N) < eps / 2) by (eapply Rle_lt_trans; [|apply (HN N); lia]; replace j with (N + (j - N))%nat by lia; apply H).
    replace (U i - U j) with ((U i - U N) - (U j - U N)) by ring. eapply Rle_lt_trans; [apply Rabs_triang|]. rewrite Rabs_Ropp. lra. }
  destruct (R_complete U HC) as (l & Hl). exists l. intros j. apply le_epsilon. intros eps He. destruct (Hl eps He) as (N & HN). specialize (HN (j + N)%nat ltac:(lia)). unfold R_dist in HN.
  replace (l - U j) with ((U (j + N)%nat - U j) - (U (j + N)%nat - l)) by ring. eapply Rle_trans; [apply Rabs_triang|]. rewrite Rabs_Ropp. pose proof (H j N). lra.
Qed.
Lemma choose n (P : nat -> R -> Prop) : (forall i, (i < n)%nat -> exists x, P i x) -> exists z, length z = n /\ forall i, (i < n)%nat -> P i (nth i z 0).
Proof.
  induction n as [|n IH]; intros H; [exists []; split; auto; intros; lia|]. destruct IH as (z & Hz & Hp); [intros i Hi; apply H; lia|]. destruct (H n) as (x & Hx); [lia|].
  exists (z ++ [x]). split; [rewrite app_length; simpl; lia|]. intros i Hi. destruct (Nat.eq_dec i n) as [->|Hd].
  - rewrite <- Hz, nth_middle, Hz. auto.
  - rewrite app_nth1 by lia. apply Hp. lia.
Qed.
Lemma comp_le_norm (x : list R) i : (i < length x)%nat -> Rabs (nth i x 0) <= vnorm x.
Proof.
  intros Hi. rewrite <- (Rabs_pos_eq (vnorm x)) by apply norm_pos. apply Rsqr_le_abs_0. unfold Rsqr. rewrite (proj2 (vnorm_sq x)).
  revert i Hi. induction x as [|y x IH]; intros i Hi; [simpl in Hi; lia|]. rewrite sumsq_cons. pose proof (sumsq_nonneg x). destruct i as [|i]; cbn [nth]; [nra|].
  pose proof (IH i ltac:(simpl in Hi; lia)). nra.
Qed.
Lemma vector_limit n (X : nat -> list R) M q : 0 <= q < 1 -> (forall k, length (X k) = n) -> (forall k, vnorm (vsub (X (S k)) (X k)) <= M * q ^ k) ->
  exists z, length z = n /\ forall k, vnorm (vsub z (X k)) <= M / (1 - q) * q ^ k.
Proof.
  intros Hq HX HM. assert (HM0 : 0 <= M). { pose proof (HM 0%nat) as H0. pose proof (norm_pos (vsub (X 1%nat) (X 0%nat))). cbn [pow] in H0. lra. }
  set (B := M / (1 - q)). assert (HB : 0 <= B) by (apply Rmult_le_pos; [auto | left; apply Rinv_0_lt_compat; lra]). assert (HBM : B * (1 - q) = M) by (unfold B; field; lra).
  assert (Hfar : forall d j, vnorm (vsub (X (j + d)%nat) (X j)) <= B * q ^ j * (1 - q ^ d)).
  { induction d as [|d IH]; intros j.
    - rewrite Nat.add_0_r. cbn [pow]. replace (vnorm (vsub (X j) (X j))) with 0; [lra|]. symmetry. apply vnorm_eq; [lra|]. rewrite self_distance. ring.
    - replace (j + S d)%nat with (S (j + d)) by lia. eapply Rle_trans; [apply (norm_mid _ (X (j + d)%nat)); rewrite !HX; auto|]. pose proof (HM (j + d)%nat) as H1. pose proof (IH j) as H2.
      rewrite pow_add in H1. cbn [pow]. rewrite <- HBM in H1. set (Q := q ^ j) in *. set (Q' := q ^ d) in *. lra. }
  assert (Hfar' : forall j d, vnorm (vsub (X (j + d)%nat) (X j)) <= B * q ^ j).
  { intros j d. eapply Rle_trans; [apply Hfar|]. assert (0 <= q ^ d) by (apply pow_le; lra). assert (0 <= B * q ^ j) by (apply Rmult_le_pos; [auto | apply pow_le; lra]). nra. }
  destruct (choose n (fun i l => forall j, Rabs (l - nth i (X j) 0) <= B * q ^ j)) as (z & Hz & Hl).
  { intros i Hi. apply scalar_limit; auto. intros j d. eapply Rle_trans; [|apply (Hfar' j d)]. rewrite <- nth_vsub by (rewrite !HX; auto). apply comp_le_norm. rewrite vsub_length; rewrite !HX; auto. }
  exists z. split; auto. intros k. apply le_epsilon. intros eps He.
  destruct (pow_lt_1_zero q) with (y := eps / (INR n * B + 1)) as (N & HN); [rewrite Rabs_pos_eq; lra | apply Rdiv_lt_0_compat; [lra | pose proof (pos_INR n); nra]|].
  specialize (HN (k + N)%nat ltac:(lia)). rewrite Rabs_pos_eq in HN by (apply pow_le; lra).
  assert (HD : vnorm (vsub z (X (k + N)%nat)) <= eps).
  { eapply Rle_trans; [apply (norm_le_comps _ (B * q ^ (k + N)))|].
    - apply Rmult_le_pos; [auto | apply pow_le; lra].
    - intros i Hi. rewrite vsub_length in Hi by (rewrite HX; auto). rewrite Hz in Hi. rewrite nth_vsub by (rewrite HX; auto). apply Hl; auto.
    - rewrite vsub_length by (rewrite HX; auto). rewrite Hz. pose proof (pos_INR n) as Hn. assert (HP : 0 < INR n * B + 1) by nra.
      apply (Rmult_lt_compat_l (INR n * B + 1)) in HN; auto. replace ((INR n * B + 1) * (eps / (INR n * B + 1))) with eps in HN by (field; lra). assert (0 <= q ^ (k + N)) by (apply pow_le; lra). nra. }
  eapply Rle_trans; [apply (norm_mid _ (X (k + N)%nat)); rewrite !HX; auto|]. pose proof (Hfar' k N). lra.
Qed.
(* a better bound on the steps is a better bound on the distance to the limit *)
Lemma limit_bound n (X : nat -> list R) M q M' q' z : 0 <= q < 1 -> 0 <= q' < 1 -> length z = n -> (forall k, length (X k) = n) -> (forall k, vnorm (vsub (X (S k)) (X k)) <= M * q ^ k) ->
  (forall k, vnorm (vsub z (X k)) <= M' * q' ^ k) -> forall k, vnorm (vsub z (X k)) <= M / (1 - q) * q ^ k.
Proof.
  intros Hq Hq' Hz HX HM HM' k. destruct (vector_limit n X M q Hq HX HM) as (y & Hy & Hl).
  assert (Hd : vnorm (vsub z y) <= 0).
  { apply le_epsilon. intros eps He. set (B := M / (1 - q)) in *. set (D := Rabs B + Rabs M' + 1). assert (HD : 0 < D) by (unfold D; pose proof (Rabs_pos B); pose proof (Rabs_pos M'); lra).
    destruct (pow_lt_1_zero q) with (y := eps / (2 * D)) as (N & HN); [rewrite Rabs_pos_eq; lra | apply Rdiv_lt_0_compat; lra|].
    destruct (pow_lt_1_zero q') with (y := eps / (2 * D)) as (N' & HN'); [rewrite Rabs_pos_eq; lra | apply Rdiv_lt_0_compat; lra|].
    specialize (HN (N + N')%nat ltac:(lia)). specialize (HN' (N + N')%nat ltac:(lia)). rewrite Rabs_pos_eq in HN, HN' by (apply pow_le; lra). set (j := (N + N')%nat) in *.
    eapply Rle_trans; [apply (norm_mid _ (X j)); rewrite HX; auto|]. rewrite (norm_flip (X j) y) by (rewrite HX; auto).
    pose proof (Hl j) as H1. pose proof (HM' j) as H2. assert (0 <= q ^ j) by (apply pow_le; lra). assert (0 <= q' ^ j) by (apply pow_le; lra).
    assert (B * q ^ j <= D * q ^ j) by (apply Rmult_le_compat_r; auto; unfold D; pose proof (Rle_abs B); pose proof (Rabs_pos M'); lra).
    assert (M' * q' ^ j <= D * q' ^ j) by (apply Rmult_le_compat_r; auto; unfold D; pose proof (Rle_abs M'); pose proof (Rabs_pos B); lra).
    apply (Rmult_lt_compat_l D) in HN, HN'; auto. replace (D * (eps / (2 * D))) with (eps / 2) in HN, HN' by (field; lra). lra. }
  pose proof (norm_mid z y (X k)) as Hm. rewrite Hz, Hy, HX in Hm. specialize (Hm eq_refl eq_refl). pose proof (Hl k). lra.
Qed.
