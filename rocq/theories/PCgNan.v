(* The Jacobi preconditioner divides by the squared column norms: one zero column turns
   every entry of the conjugate gradient solution into NaN. *)
From Coq Require Import List Arith Bool Lia Reals Lra ZArith.
From Verif Require Import Num NumR Py Arr MSparse MLinear SpecSparse PBase PVec PSparse PLinear PCg PFin PCgConv.
Import ListNotations.
Local Open Scope R_scope.
#[local] Existing Instance NumXR.

Definition nans (n : nat) : list xr := repeat NaN n.

Lemma xadd_nan_r a : xadd a NaN = NaN. Proof. destruct a; auto. Qed.
Lemma xmul_nan_r a : xmul a NaN = NaN. Proof. destruct a; auto. Qed.
Lemma vsum_nan (l : list xr) : In NaN l -> vsum l = NaN.
Proof.
  induction l as [|x l IH]; [intros []|]. change (vsum (x :: l)) with (xadd x (vsum l)).
  intros [->|Hin]; [auto|]. rewrite IH by auto. apply xadd_nan_r.
Qed.
Lemma zipw_in_nan (f : xr -> xr -> xr) (Hf : forall a, f a NaN = NaN) : forall a b i, length a = length b -> (i < length b)%nat ->
  nth i b (Fin 0) = NaN -> In NaN (zipw f a b).
Proof.
  induction a as [|x a IH]; intros [|y b] i Hl Hi E; simpl in *; try lia. destruct i as [|i]; [left; subst; auto|].
  right. apply (IH b i); auto; lia.
Qed.
Lemma scale_nans (p : list xr) : vscale NaN p = nans (length p).
Proof. induction p; auto. cbn. f_equal. exact IHp. Qed.
Lemma add_nans (a : list xr) n : length a = n -> vadd a (nans n) = nans n.
Proof.
  revert n; induction a as [|x a IH]; intros [|n] H; try discriminate; auto.
  change (vadd (x :: a) (nans (S n))) with (xadd x NaN :: vadd a (nans n)). rewrite xadd_nan_r, IH by (simpl in H; lia). auto.
Qed.
Lemma sub_nans (a : list xr) n : length a = n -> vsub a (nans n) = nans n.
Proof.
  revert n; induction a as [|x a IH]; intros [|n] H; try discriminate; auto.
  change (vsub (x :: a) (nans (S n))) with (xsub x NaN :: vsub a (nans n)). unfold xsub at 1. cbn [xneg]. rewrite xadd_nan_r, IH by (simpl in H; lia). auto.
Qed.
Lemma dot_nans n : (0 < n)%nat -> vdot (nans n) (nans n) = NaN.
Proof. destruct n; [lia|]. intros _. unfold vdot. apply vsum_nan. left. auto. Qed.

Lemma ata_function_total (A : coo xr) lambd x : coo_ok A -> length x = snd (m_shape A) ->
  exists y, ata_function A lambd (snd (m_shape A)) x = Ok y /\ length y = snd (m_shape A).
Proof.
  intros Hok Hx. rewrite ata_function_ok by auto. eexists; split; [reflexivity|].
  rewrite vadd_length; rewrite mapply_length; cbn [transpose m_shape fst]; auto.
  rewrite vmul_length; rewrite vscale_length, diag_length; auto.
Qed.
Lemma coo_fin_ok A : coo_ok A -> coo_ok (coo_fin A).
Proof. intros (H1 & H2 & H3 & H4). unfold coo_ok, coo_fin. cbn [m_coords m_vals m_shape]. rewrite fin_length. auto. Qed.

Lemma zero_column (A : coo R) rhs j : coo_ok A -> length rhs = fst (m_shape A) -> (j < snd (m_shape A))%nat ->
  (forall r v, In (r, j, v) (triples A) -> v = 0) ->
  nth j (mapply (transpose A) rhs) 0 = 0 /\ nth j (ata_diagonals A (snd (m_shape A))) 0 = 0.
Proof.
  intros Hok Hr Hj Hz. split.
  - rewrite nth_mapply by (try apply transpose_ok; auto). rewrite transpose_triples, map_map. apply vsum_map_zero.
    intros [[r c] v] Hin. cbn [fst snd]. destruct (Nat.eqb_spec c j) as [->|]; auto. rewrite (Hz r v Hin). lra.
  - rewrite <- (vdot_unitv (snd (m_shape A)) j) by (auto; apply diag_length). rewrite diag_dot by (auto; apply unitv_length).
    apply vsum_map_zero. intros [[r c] v] Hin. destruct (triples_in A r c v Hok Hin) as [_ Hc]. cbn [fst snd]. rewrite nth_unitv by auto.
    destruct (Nat.eqb_spec c j) as [->|]; [rewrite (Hz r v Hin)|]; lra.
Qed.

Lemma cg_zero_column (A : coo R) rhs lambd it (tol : nat -> R) j : coo_ok A -> length rhs = fst (m_shape A) ->
  (j < snd (m_shape A))%nat -> (forall r v, In (r, j, v) (triples A) -> v = 0) ->
  let c := mapply (transpose A) rhs in
  c <> vzero (snd (m_shape A)) -> Rabs (tol it) < 1 ->
  cg_solve (fun i => Fin (tol i)) (coo_fin A) (fin c) (Fin lambd) it = Ok (nans (snd (m_shape A))).
Proof.
  intros Hok Hr Hj Hcol c Hc Ht. set (n := snd (m_shape A)) in *. assert (Hlc : length c = n) by apply mapply_length.
  destruct (zero_column A rhs j Hok Hr Hj Hcol) as [Z1 Z2]. fold c in Z1. fold n in Z2.
  pose proof (dot_pos n c Hlc Hc) as Hpos.
  assert (Hokx := coo_fin_ok A Hok).
  assert (Htot : forall y, length y = n -> exists z, ata_function (coo_fin A) (Fin lambd) n y = Ok z /\ length z = n).
  { intros y Hy. apply (ata_function_total (coo_fin A)); auto. }
  assert (H0 : ata_function (coo_fin A) (Fin lambd) n (@vzero xr NumXR n) = Ok (fin (vzero n))).
  { rewrite vzero_fin, ata_function_fin. unfold n at 1. rewrite (ata_function_ok (N := NumR)) by (auto; apply vzero_length). cbn [bind]. f_equal. f_equal.
    fold (cg_op A lambd (vzero n)). fold n. 
    destruct (cg_op_linear A lambd Hok) as [_ Hs].
    assert (E : vscale 0 (@vzero R NumR n) = vzero n).
    { apply (vec_ext n); rewrite ?vscale_length; try apply vzero_length. intros u Hu. rewrite vdot_scale_r, vdot_zero_r. lra. }
    assert (Hl : length (cg_op A lambd (vzero n)) = n) by (apply cg_op_length; apply vzero_length).
    rewrite <- E, Hs by apply vzero_length. rewrite E.
    apply (vec_ext n); rewrite ?vscale_length; try apply vzero_length; auto.
    intros u Hu. rewrite vdot_scale_r, vdot_zero_r. lra. }
  unfold cg_solve, cg_run, cg. rewrite fin_length, Hlc, H0. cbn [bind]. rewrite vsub_fin.
  assert (Es : vsub c (vzero n) = c).
  { apply (vec_ext n); auto; [rewrite vsub_length; auto; rewrite vzero_length; auto|].
    intros y Hy. rewrite vdot_sub_r by (rewrite vzero_length; auto). rewrite vdot_zero_r. lra. }
  rewrite Es. set (z := jacobi (coo_fin A) n (fin c)).
  assert (Hlz : length z = n) by (unfold z, jacobi; rewrite zipw_length, fin_length, diag_length; lia).
  assert (Hzj : nth j z (Fin 0) = NaN).
  { unfold z, jacobi. rewrite ata_diagonals_fin. rewrite (nth_zipw _ _ _ _ (Fin 0) (Fin 0)) by (rewrite fin_length, ?diag_length; lia).
    unfold fin. rewrite !map_nth, Z1, Z2. cbn. unfold is_zero. destruct (Req_EM_T 0 0); [auto | lra]. }
  assert (Hg : vdot (fin c) z = NaN).
  { unfold vdot. apply vsum_nan. apply (zipw_in_nan _ xmul_nan_r) with (i := j); rewrite ?fin_length; auto; lia. }
  rewrite Hg, vdot_fin. destruct n as [|n'] eqn:En; [lia|]. cbn [cg_loop]. rewrite vdot_fin.
  assert (Hlt : nltb (nmax (nmul (nmul (Fin (tol it)) (Fin (tol it))) (Fin (vdot c c))) (nmul n0 n0)) (Fin (vdot c c)) = true).
  { change (xltb (xmax (Fin (tol it * tol it * vdot c c)) (Fin (0 * 0))) (Fin (vdot c c)) = true). rewrite xmax_fin, xltb_fin.
    unfold Rltb. destruct (Rlt_dec _ _) as [|Hn]; auto. exfalso. apply Hn.
    assert (Hsq : tol it * tol it < 1).
    { assert (E : tol it * tol it = Rabs (tol it) * Rabs (tol it)) by (rewrite <- Rabs_mult, Rabs_pos_eq; auto; apply Rle_0_sqr).
      rewrite E. pose proof (Rabs_pos (tol it)) as Hp. apply Rle_lt_trans with (Rabs (tol it) * 1); [apply Rmult_le_compat_l; lra | lra]. }
    apply Rmax_lub_lt; [|lra]. rewrite <- (Rmult_1_l (vdot c c)) at 2. apply Rmult_lt_compat_r; auto. }
  rewrite Hlt. destruct (Htot z Hlz) as (Az & EA & HA). rewrite EA. cbn [bind].
  assert (Ed : ndiv NaN (vdot z Az) = NaN) by reflexivity.
  rewrite Ed, !scale_nans, Hlz, HA.
  rewrite add_nans by (rewrite vzero_length; auto). rewrite sub_nans by (rewrite fin_length; auto).
  destruct n' as [|n'']; cbn [cg_loop]; [reflexivity|].
  rewrite dot_nans by lia.
  assert (Ef : forall a, nltb a NaN = false) by (intros []; reflexivity). rewrite Ef. reflexivity.
Qed.
