(* Vectors stored in two layouts over the same variables. *)
From Coq Require Import List Arith Bool Lia Permutation Reals Lra.
From Verif Require Import Num NumR Py Arr MLayout MAssign MNoise MSparse MFactor MGraph SpecLayout SpecTree SpecAssign SpecGraph SpecSparse.
From Verif Require Import PBase PLayout PTree PAssign PAssign2 PAssign3 PStack PGraph PGraph2 PJac PVec PSparse PGraph3 PGraph4 PLayout2.
Import ListNotations.
Local Open Scope R_scope.


(* ---- blocks of sums and multiples ---- *)
Section Blocks.
Variable C : cenv (T := R).

Lemma slice_zipw {A B D} (f : A -> B -> D) l1 l2 a b : slice (zipw f l1 l2) a b = zipw f (slice l1 a b) (slice l2 a b).
Proof.
  unfold slice. generalize (b - a)%nat. intros n. revert l1 l2 n; induction a as [|a IH]; intros l1 l2 n.
  - simpl. revert l1 l2; induction n as [|n IH]; intros [|x l1] [|y l2]; simpl; auto. f_equal; auto.
  - destruct l1 as [|x l1], l2 as [|y l2]; simpl; auto; destruct n; auto.
    destruct (skipn a l1); auto.
Qed.
Lemma slice_map' {A B} (f : A -> B) l a b : slice (map f l) a b = map f (slice l a b).
Proof. unfold slice. rewrite skipn_map, firstn_map. auto. Qed.
Lemma block_zipw (f : R -> R -> R) L x y v : block C L (zipw f x y) v = zipw f (block C L x v) (block C L y v).
Proof. unfold block. destruct (dict_get (l_index L) v); auto. apply slice_zipw. Qed.
Lemma block_map (f : R -> R) L x v : block C L (map f x) v = map f (block C L x v).
Proof. unfold block. destruct (dict_get (l_index L) v); auto. apply slice_map'. Qed.
End Blocks.

Section Vectors.
Variable C : cenv (T := R).
Variable local : bool.

Section One.
Variable vs : list var.
Hypothesis ND : NoDup vs.
Let L := make_layout C vs local.

Lemma vec_blocks x : length x = l_dim L -> x = concat (map (block C L x) (order vs)).
Proof.
  intros Hx. assert (Hb : forall v, In v vs -> length (block C L x v) = vdim C local v) by (intros; apply block_length; auto).
  apply (blocks_ext C vs local ND); auto.
  - rewrite (concat_total (vdim C local)) by (intros v Hv; apply Hb, order_in; auto).
    unfold L. rewrite lay_dim by auto. apply total_perm, order_perm.
  - intros v Hv. symmetry. apply (block_concat C vs local (block C L x)); auto.
Qed.
Lemma vdot_blocks x y : length x = l_dim L -> length y = l_dim L ->
  vdot x y = vsum (map (fun v => vdot (block C L x v) (block C L y v)) (order vs)).
Proof.
  intros Hx Hy. rewrite (vec_blocks x Hx) at 1. rewrite (vec_blocks y Hy) at 1.
  rewrite vdot_concat.
  - f_equal. generalize (order vs). induction l; simpl; f_equal; auto.
  - assert (H : forall v, In v (order vs) -> length (block C L x v) = length (block C L y v)).
    { intros v Hv. apply (order_in vs) in Hv. transitivity (vdim C local v); [|symmetry]; apply (block_length C vs local ND); auto. }
    revert H. generalize (order vs). induction l; simpl; constructor; auto.
Qed.
Lemma vec_of_blocks (xi : var -> list R) : (forall v, In v vs -> length (xi v) = vdim C local v) ->
  exists x, length x = l_dim L /\ forall v, In v vs -> block C L x v = xi v.
Proof.
  intros H. exists (concat (map xi (order vs))). split.
  - rewrite (concat_total (vdim C local)) by (intros v Hv; apply H, order_in; auto).
    unfold L. rewrite lay_dim by auto. apply total_perm, order_perm.
  - intros v Hv. apply (block_concat C vs local xi); auto.
Qed.
End One.

Section Two.
Variables vs vs' : list var.
Hypothesis ND : NoDup vs.
Hypothesis ND' : NoDup vs'.
Hypothesis Hvs : forall v, In v vs <-> In v vs'.
Let L := make_layout C vs local.
Let L' := make_layout C vs' local.

(* x and x' hold the same block for every variable *)
Definition vrel (x x' : list R) : Prop :=
  length x = l_dim L /\ length x' = l_dim L' /\ forall v, In v vs -> block C L x v = block C L' x' v.

Lemma order_same : Permutation (order vs) (order vs').
Proof. apply NoDup_Permutation; try apply order_nodup; auto. intros v. rewrite !order_in. auto. Qed.
Lemma dims_same : l_dim L = l_dim L'.
Proof.
  unfold L, L'. rewrite !lay_dim by auto. apply total_perm. apply NoDup_Permutation; auto.
Qed.

Lemma vrel_dot x x' y y' : vrel x x' -> vrel y y' -> vdot x y = vdot x' y'.
Proof.
  intros (H1 & H2 & H3) (H4 & H5 & H6). rewrite (vdot_blocks vs ND x y), (vdot_blocks vs' ND' x' y') by auto.
  fold L L'. rewrite (vsum_perm _ _ (Permutation_map _ order_same)). apply vsum_map_ext.
  intros v Hv. apply (order_in vs'), Hvs in Hv. rewrite H3, H6 by auto. auto.
Qed.
Lemma vrel_perm x x' : vrel x x' -> Permutation x x'.
Proof.
  intros (H1 & H2 & H3). rewrite (vec_blocks vs ND x H1), (vec_blocks vs' ND' x' H2). fold L L'.
  rewrite (perm_concat _ _ (Permutation_map (block C L x) order_same)). apply eq_perm. f_equal. apply map_ext_in.
  intros v Hv. apply (order_in vs'), Hvs in Hv. auto.
Qed.
Lemma vrel_sumsq x x' : vrel x x' -> sumsq x = sumsq x'.
Proof. intros H. rewrite !sumsq_dot. apply vrel_dot; auto. Qed.
Lemma vrel_norm x x' : vrel x x' -> vnorm x = vnorm x'.
Proof. intros H. unfold vnorm. f_equal. apply vrel_sumsq; auto. Qed.

Lemma vrel_zipw (f : R -> R -> R) x x' y y' : vrel x x' -> vrel y y' -> vrel (zipw f x y) (zipw f x' y').
Proof.
  intros (H1 & H2 & H3) (H4 & H5 & H6). repeat split; try (rewrite zipw_length; lia).
  intros v Hv. rewrite !block_zipw, H3, H6; auto.
Qed.
Lemma vrel_map (f : R -> R) x x' : vrel x x' -> vrel (map f x) (map f x').
Proof.
  intros (H1 & H2 & H3). repeat split; try (rewrite map_length; lia).
  intros v Hv. rewrite !block_map, H3; auto.
Qed.
Lemma vrel_to x : length x = l_dim L -> exists x', vrel x x'.
Proof.
  intros Hx. destruct (vec_of_blocks vs' ND' (block C L x)) as (x' & Hl & Hb).
  - intros v Hv. apply (block_length C vs local ND); auto. apply Hvs; auto.
  - exists x'. repeat split; auto. intros v Hv. symmetry. apply Hb, Hvs; auto.
Qed.
Lemma vrel_from x' : length x' = l_dim L' -> exists x, vrel x x'.
Proof.
  intros Hx. destruct (vec_of_blocks vs ND (block C L' x')) as (x & Hl & Hb).
  - intros v Hv. apply (block_length C vs' local ND'); auto. apply Hvs; auto.
  - exists x. repeat split; auto.
Qed.
Lemma vrel_ext x x' y' : vrel x x' -> length y' = l_dim L' ->
  (forall z z', vrel z z' -> vdot z x = vdot z' y') -> vrel x y'.
Proof.
  intros Hx Hy H. replace y' with x'; auto. pose proof Hx as (_ & Hl & _).
  apply (vec_ext (l_dim L')); auto. intros z' Hz. destruct (vrel_from z' Hz) as (z & Hr).
  rewrite <- (H z z' Hr). symmetry. apply vrel_dot; auto.
Qed.
End Two.
End Vectors.
