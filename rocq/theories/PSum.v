(* Finite sums over 0 <= i < n. *)
From Coq Require Import List Arith Bool Reals Lra Lia.
From Verif Require Import Num NumR Py Arr SpecSparse SpecNoise PVec.
Import ListNotations.
Local Open Scope R_scope.

Lemma sumn_ext n f g : (forall i, (i < n)%nat -> f i = g i) -> sumn n f = sumn n g.
Proof. intros H. apply vsum_map_ext. intros x Hx. apply in_seq in Hx. apply H. lia. Qed.
Lemma sumn_plus n f g : sumn n (fun i => f i + g i) = sumn n f + sumn n g.
Proof. apply vsum_map_plus. Qed.
Lemma sumn_scale n c f : sumn n (fun i => c * f i) = c * sumn n f.
Proof. apply vsum_map_scale. Qed.
Lemma sumn_scale_r n c f : sumn n (fun i => f i * c) = sumn n f * c.
Proof. rewrite (Rmult_comm _ c), <- sumn_scale. apply sumn_ext. intros. lra. Qed.
Lemma sumn_opp n f : sumn n (fun i => - f i) = - sumn n f.
Proof. rewrite <- (Rmult_1_l (sumn n f)), Ropp_mult_distr_l, <- sumn_scale. apply sumn_ext. intros. lra. Qed.
Lemma sumn_minus n f g : sumn n (fun i => f i - g i) = sumn n f - sumn n g.
Proof. unfold Rminus. rewrite sumn_plus, sumn_opp. auto. Qed.
Lemma sumn_zero n f : (forall i, (i < n)%nat -> f i = 0) -> sumn n f = 0.
Proof. intros H. apply vsum_map_zero. intros x Hx. apply in_seq in Hx. apply H. lia. Qed.
Lemma sumn_swap n m f : sumn n (fun i => sumn m (fun j => f i j)) = sumn m (fun j => sumn n (fun i => f i j)).
Proof. apply vsum_swap. Qed.
Lemma sumn_0 f : sumn 0 f = 0.
Proof. reflexivity. Qed.
Lemma sumn_S n f : sumn (S n) f = sumn n f + f n.
Proof. unfold sumn. rewrite seq_S, map_app, vsum_app. cbn [map plus]. rewrite vsum_cons, vsum_nil. lra. Qed.
Lemma sumn_S_l n f : sumn (S n) f = f 0%nat + sumn n (fun i => f (S i)).
Proof. unfold sumn. cbn [seq map]. rewrite vsum_cons, <- seq_shift, map_map. auto. Qed.
Lemma sumn_delta n i f : (i < n)%nat -> sumn n (fun j => (if Nat.eqb i j then 1 else 0) * f j) = f i.
Proof.
  induction n as [|n IH]; intros Hi; [lia|]. rewrite sumn_S. destruct (Nat.eqb_spec i n) as [->|Hne].
  - rewrite sumn_zero; [lra|]. intros j Hj. destruct (Nat.eqb_spec n j); [lia | lra].
  - rewrite IH by lia. lra.
Qed.
Lemma sumn_delta' n i f : (i < n)%nat -> sumn n (fun j => (if Nat.eqb j i then 1 else 0) * f j) = f i.
Proof. intros H. rewrite <- (sumn_delta n i f H). apply sumn_ext. intros j _. rewrite Nat.eqb_sym. auto. Qed.
Lemma sumn_split n m f : (m <= n)%nat -> sumn n f = sumn m f + sumn (n - m) (fun i => f (m + i)%nat).
Proof.
  intros H. unfold sumn. replace n with (m + (n - m))%nat at 1 by lia. rewrite seq_app, map_app, vsum_app. f_equal. f_equal.
  replace (0 + m)%nat with (m + 0)%nat by lia. generalize (n - m)%nat as k. intros k. generalize 0%nat as s.
  induction k as [|k IH]; intros s; cbn [seq map]; auto. rewrite <- IH. f_equal. f_equal. f_equal. lia.
Qed.
Lemma vdot_sumn n (a b : list R) : length a = n -> length b = n -> vdot a b = sumn n (fun i => nth i a 0 * nth i b 0).
Proof. intros. apply vdot_seq; auto. Qed.
Lemma sumsq_sumn n (a : list R) : length a = n -> sumsq a = sumn n (fun i => nth i a 0 * nth i a 0).
Proof. intros H. rewrite sumsq_dot. apply vdot_sumn; auto. Qed.
Lemma shaped_row m n M i : shaped m n M -> (i < m)%nat -> length (nth i M []) = n.
Proof. intros (Hl & Hf) Hi. rewrite Forall_forall in Hf. apply Hf, nth_In. lia. Qed.
Lemma nth_mvec m n M x i : shaped m n M -> length x = n -> (i < m)%nat -> nth i (mvec M x) 0 = sumn n (fun j => ent M i j * nth j x 0).
Proof.
  intros HM Hx Hi. unfold mvec. rewrite (nth_map' _ _ _ _ ([] : list R)) by (destruct HM; lia).
  apply vdot_sumn; auto. eapply shaped_row; eauto.
Qed.
Lemma nth_list n (f : nat -> R) i : (i < n)%nat -> nth i (map f (seq 0 n)) 0 = f i.
Proof. intros H. rewrite (nth_map' _ _ _ _ 0%nat) by (rewrite seq_length; lia). rewrite seq_nth by lia. auto. Qed.
