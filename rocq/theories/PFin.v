(* Computations over extended reals that stay finite agree with the real ones. *)
From Coq Require Import List Arith Bool Lia Reals Lra ZArith.
From Verif Require Import Num NumR Py Arr MSparse MLinear SpecSparse PBase PVec PSparse.
Import ListNotations.
Local Open Scope R_scope.
#[local] Existing Instance NumXR.

Definition fin (l : list R) : list xr := map Fin l.
Definition coo_fin (A : coo R) : coo xr := mkCoo (fin (m_vals A)) (m_coords A) (m_shape A).

Lemma fin_length l : length (fin l) = length l. Proof. apply map_length. Qed.
Lemma fin_zipw (fx : xr -> xr -> xr) (fr : R -> R -> R) : (forall a b, fx (Fin a) (Fin b) = Fin (fr a b)) ->
  forall a b, zipw fx (fin a) (fin b) = fin (zipw fr a b).
Proof. intros H. induction a as [|x a IH]; intros [|y b]; simpl; auto. rewrite H. f_equal. apply IH. Qed.
Lemma vadd_fin a b : vadd (fin a) (fin b) = fin (vadd a b).
Proof. apply fin_zipw. auto. Qed.
Lemma vsub_fin a b : vsub (fin a) (fin b) = fin (vsub a b).
Proof. apply fin_zipw. intros. simpl. unfold xsub. simpl. f_equal. Qed.
Lemma vmul_fin a b : vmul (fin a) (fin b) = fin (vmul a b).
Proof. apply fin_zipw. auto. Qed.
Lemma vscale_fin c a : vscale (Fin c) (fin a) = fin (vscale c a).
Proof. unfold vscale, fin. rewrite !map_map. auto. Qed.
Lemma vsq_fin a : vsq (fin a) = fin (vsq a).
Proof. unfold vsq, fin. rewrite !map_map. auto. Qed.
Lemma vneg_fin a : vneg (fin a) = fin (vneg a).
Proof. unfold vneg, fin. rewrite !map_map. auto. Qed.
Lemma vzero_fin n : @vzero xr NumXR n = fin (vzero n).
Proof. induction n; auto. change (@vzero xr NumXR (S n)) with (Fin 0 :: @vzero xr NumXR n). rewrite IHn. auto. Qed.
Lemma vsum_fin a : vsum (fin a) = Fin (vsum a).
Proof. induction a as [|x a IH]; auto. change (xadd (Fin x) (vsum (fin a)) = Fin (x + vsum a)). rewrite IH. auto. Qed.
Lemma vdot_fin a b : vdot (fin a) (fin b) = Fin (vdot a b).
Proof. unfold vdot. rewrite vmul_fin. apply vsum_fin. Qed.
Lemma sumsq_fin a : sumsq (fin a) = Fin (sumsq a).
Proof. unfold sumsq. rewrite vsq_fin. apply vsum_fin. Qed.
Lemma vnorm_fin a : vnorm (fin a) = Fin (vnorm a).
Proof.
  unfold vnorm. rewrite sumsq_fin. cbn [nsqrt NumXR xsqrt]. unfold is_neg, Rltb.
  destruct (Rlt_dec (sumsq a) 0) as [H|H]; auto. pose proof (sumsq_nonneg a). lra.
Qed.
Lemma gather_fin x cols : gather (Fin 0) (fin x) cols = fin (gather 0 x cols).
Proof.
  unfold gather, fin. rewrite map_map. apply map_ext. intros i. rewrite map_length. apply map_nth.
Qed.
Lemma upd_fin v r acc : upd (fun x : xr => xadd x (Fin v)) r (fin acc) = fin (upd (fun x => x + v) r acc).
Proof. revert r; induction acc as [|a acc IH]; intros [|r]; simpl; auto. f_equal. apply IH. Qed.
Lemma scatter_fin acc rows vals : scatter_add (fin acc) rows (fin vals) = fin (scatter_add acc rows vals).
Proof.
  unfold scatter_add. revert acc vals. induction rows as [|r rows IH]; intros acc [|v vals]; try reflexivity.
  cbn [fin map combine fold_left fst snd].
  change (nadd (Num := NumXR)) with xadd. rewrite upd_fin. apply IH.
Qed.
Lemma matmul_fin A x : matmul (coo_fin A) (fin x) = (y <- matmul A x ;; Ok (fin y)).
Proof.
  unfold matmul, coo_fin. cbn [m_shape m_vals m_coords]. rewrite !fin_length.
  destruct (Nat.eqb (length x) (snd (m_shape A))); simpl assert_; cbn [bind]; auto.
  destruct (Nat.eqb (length (m_vals A)) (length (c_cols (m_coords A))) && Nat.eqb (length (m_vals A)) (length (c_rows (m_coords A))));
    cbn [bind]; auto.
  rewrite vzero_fin. change (n0 (Num := NumXR)) with (Fin 0). rewrite gather_fin, vmul_fin, scatter_fin. auto.
Qed.
Lemma transpose_fin A : transpose (coo_fin A) = coo_fin (transpose A). Proof. reflexivity. Qed.

Lemma ata_diagonals_fin A n : ata_diagonals (coo_fin A) n = fin (ata_diagonals A n).
Proof. unfold ata_diagonals, coo_fin. cbn [m_vals m_coords]. rewrite vzero_fin, vsq_fin, scatter_fin. auto. Qed.
Lemma ata_function_fin A lambd n x : ata_function (coo_fin A) (Fin lambd) n (fin x) = (y <- ata_function A lambd n x ;; Ok (fin y)).
Proof.
  unfold ata_function. rewrite matmul_fin. destruct (matmul A x) as [Ax|]; cbn [bind]; auto.
  rewrite transpose_fin, matmul_fin. destruct (matmul (transpose A) Ax) as [y|]; cbn [bind]; auto.
  rewrite ata_diagonals_fin, vscale_fin, vmul_fin, vadd_fin. auto.
Qed.
Lemma xdiv_fin a b : b <> 0 -> xdiv (Fin a) (Fin b) = Fin (a / b).
Proof. intros H. simpl. unfold is_zero. destruct (Req_EM_T b 0); tauto. Qed.
Lemma zipw_div_fin x : forall d, Forall (fun c => c <> 0) d -> zipw xdiv (fin x) (fin d) = fin (zipw Rdiv x d).
Proof.
  induction x as [|a x IH]; intros [|c d] H; auto. inversion H; subst. cbn [fin map zipw]. rewrite xdiv_fin by auto.
  f_equal. apply IH. auto.
Qed.
Lemma xltb_fin a b : xltb (Fin a) (Fin b) = Rltb a b. Proof. reflexivity. Qed.
Lemma xmax_fin a b : xmax (Fin a) (Fin b) = Fin (Rmax a b).
Proof.
  simpl. unfold Rltb. destruct (Rlt_dec a b); f_equal; [rewrite Rmax_right | rewrite Rmax_left]; lra.
Qed.
