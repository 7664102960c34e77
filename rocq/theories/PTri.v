(* Matrices as entry functions; lower-triangular inverses. *)
From Coq Require Import List Arith Bool Reals Lra Lia.
From Verif Require Import Num NumR Py Arr SpecSparse SpecNoise SpecCov PVec PSum.
Import ListNotations.
Local Open Scope R_scope.

Section Alg.
Variable n : nat.
Implicit Types a b c : nat -> nat -> R.
Lemma meq_refl a : meq n a a. Proof. intros i j _ _. auto. Qed.
Lemma meq_sym a b : meq n a b -> meq n b a. Proof. intros H i j Hi Hj. symmetry. auto. Qed.
Lemma meq_trans a b c : meq n a b -> meq n b c -> meq n a c. Proof. intros H1 H2 i j Hi Hj. rewrite H1; auto. Qed.
Lemma mprod_ext a a' b b' : meq n a a' -> meq n b b' -> meq n (mprod n a b) (mprod n a' b').
Proof. intros Ha Hb i j Hi Hj. apply sumn_ext. intros k Hk. rewrite Ha, Hb; auto. Qed.
Lemma mprod_assoc a b c : meq n (mprod n (mprod n a b) c) (mprod n a (mprod n b c)).
Proof.
  intros i j Hi Hj. unfold mprod.
  transitivity (sumn n (fun k => sumn n (fun l => a i l * b l k * c k j))).
  - apply sumn_ext. intros k Hk. rewrite <- sumn_scale_r. auto.
  - rewrite sumn_swap. apply sumn_ext. intros l Hl. rewrite <- sumn_scale. apply sumn_ext. intros. ring.
Qed.
Lemma mprod_eye_l a : meq n (mprod n meye a) a.
Proof. intros i j Hi Hj. unfold mprod, meye. apply (sumn_delta n i (fun k => a k j)); auto. Qed.
Lemma mprod_eye_r a : meq n (mprod n a meye) a.
Proof.
  intros i j Hi Hj. unfold mprod, meye. rewrite <- (sumn_delta' n j (fun k => a i k)) by auto. apply sumn_ext. intros. ring.
Qed.
Lemma mtr_prod a b : meq n (mtr (mprod n a b)) (mprod n (mtr b) (mtr a)).
Proof. intros i j Hi Hj. unfold mtr, mprod. apply sumn_ext. intros. ring. Qed.
Lemma mtr_ext a b : meq n a b -> meq n (mtr a) (mtr b). Proof. intros H i j Hi Hj. apply H; auto. Qed.
Lemma mtr_eye : meq n (mtr meye) meye. Proof. intros i j _ _. unfold mtr, meye. rewrite Nat.eqb_sym. auto. Qed.
(* a left and a right inverse agree *)
Lemma inv_unique a l r : meq n (mprod n l a) meye -> meq n (mprod n a r) meye -> meq n l r.
Proof.
  intros Hl Hr. apply meq_trans with (mprod n l meye); [apply meq_sym, mprod_eye_r|].
  apply meq_trans with (mprod n l (mprod n a r)); [apply mprod_ext; [apply meq_refl | apply meq_sym; auto]|].
  apply meq_trans with (mprod n (mprod n l a) r); [apply meq_sym, mprod_assoc|].
  apply meq_trans with (mprod n meye r); [apply mprod_ext; [auto | apply meq_refl] | apply mprod_eye_l].
Qed.
(* a right inverse of a symmetric matrix is symmetric and two-sided *)
Lemma inv_symmetric a s : meq n (mtr a) a -> meq n (mprod n a s) meye -> meq n (mtr s) s /\ minverse n a s.
Proof.
  intros Hs Hr.
  assert (Hl : meq n (mprod n (mtr s) a) meye).
  { apply meq_trans with (mprod n (mtr s) (mtr a)); [apply mprod_ext; [apply meq_refl | apply meq_sym; auto]|].
    apply meq_trans with (mtr (mprod n a s)); [apply meq_sym, mtr_prod|]. apply meq_trans with (mtr meye); [apply mtr_ext; auto | apply mtr_eye]. }
  pose proof (inv_unique a _ _ Hl Hr) as H. split; auto. split; auto.
  apply meq_trans with (mprod n (mtr s) a); auto. apply mprod_ext; [apply meq_sym; auto | apply meq_refl].
Qed.
Lemma aat_symmetric a : meq n (mtr (mprod n a (mtr a))) (mprod n a (mtr a)).
Proof. intros i j _ _. unfold mtr, mprod. apply sumn_ext. intros. ring. Qed.

(* ---- triangular matrices ---- *)
Definition tri a : Prop := (forall i j, (i < j)%nat -> (j < n)%nat -> a i j = 0) /\ forall i, (i < n)%nat -> a i i <> 0.
Lemma tri_row a b i j : tri a -> (i < n)%nat -> mprod n a b i j = sumn i (fun k => a i k * b k j) + a i i * b i j.
Proof.
  intros (Ht & _) Hi. unfold mprod. rewrite (sumn_split n (S i)) by lia. rewrite sumn_S.
  rewrite (sumn_zero (n - S i)); [lra|]. intros k Hk. rewrite (Ht i) by lia. lra.
Qed.
Fixpoint fsub a (fuel i j : nat) : R :=
  match fuel with
  | O => 0
  | S f => (meye i j - sumn i (fun l => a i l * fsub a f l j)) / a i i
  end.
Lemma fsub_fuel a f : forall f' i j, (i < f)%nat -> (i < f')%nat -> fsub a f i j = fsub a f' i j.
Proof.
  induction f as [|f IH]; intros [|f'] i j Hf Hf'; try lia. cbn [fsub]. f_equal. f_equal. apply sumn_ext. intros l Hl. f_equal. apply IH; lia.
Qed.
Definition trinv a (i j : nat) : R := fsub a (S i) i j.
Lemma trinv_eq a i j : trinv a i j = (meye i j - sumn i (fun l => a i l * trinv a l j)) / a i i.
Proof. unfold trinv at 1. cbn [fsub]. f_equal. f_equal. apply sumn_ext. intros l Hl. f_equal. unfold trinv. apply fsub_fuel; lia. Qed.
Lemma trinv_right a : tri a -> meq n (mprod n a (trinv a)) meye.
Proof.
  intros Ht i j Hi Hj. rewrite tri_row by auto. rewrite (trinv_eq a i j). field. apply Ht; auto.
Qed.
(* any right inverse of a triangular matrix is triangular with the inverse diagonal *)
Lemma right_inverse_tri a z : tri a -> meq n (mprod n a z) meye ->
  (forall i j, (i < j)%nat -> (j < n)%nat -> z i j = 0) /\ forall i, (i < n)%nat -> z i i = 1 / a i i.
Proof.
  intros Ht Hr.
  assert (H0 : forall i j, (i < j)%nat -> (j < n)%nat -> z i j = 0).
  { intros i. induction i as [i IH] using lt_wf_ind. intros j Hij Hj. specialize (Hr i j ltac:(lia) Hj). rewrite tri_row in Hr by (auto; lia).
    rewrite sumn_zero in Hr. 2:{ intros k Hk. rewrite IH by lia. lra. }
    unfold meye in Hr. destruct (Nat.eqb_spec i j); [lia|]. pose proof (proj2 Ht i ltac:(lia)). apply (Rmult_eq_reg_l (a i i)); lra. }
  split; auto. intros i Hi. specialize (Hr i i Hi Hi). rewrite tri_row in Hr by auto. rewrite sumn_zero in Hr. 2:{ intros k Hk. rewrite H0 by lia. lra. }
  unfold meye in Hr. rewrite Nat.eqb_refl in Hr. pose proof (proj2 Ht i Hi). apply (Rmult_eq_reg_l (a i i)); auto. field_simplify; lra.
Qed.
Lemma trinv_tri a : tri a -> tri (trinv a).
Proof.
  intros Ht. destruct (right_inverse_tri a (trinv a) Ht (trinv_right a Ht)) as (H1 & H2). split; auto.
  intros i Hi. rewrite H2 by auto. pose proof (proj2 Ht i Hi). apply Rmult_integral_contrapositive_currified; [lra | apply Rinv_neq_0_compat; auto].
Qed.
Lemma trinv_left a : tri a -> meq n (mprod n (trinv a) a) meye.
Proof.
  intros Ht. pose proof (trinv_right a Ht) as H1. pose proof (trinv_right _ (trinv_tri a Ht)) as H2.
  pose proof (inv_unique _ _ _ H1 H2) as H3.
  apply meq_trans with (mprod n (trinv a) (trinv (trinv a))); auto. apply mprod_ext; [apply meq_refl | auto].
Qed.
(* w a left inverse of a, a w = 1: w^T w inverts a a^T *)
Lemma llt_inverse a w : minverse n a w -> meq n (mprod n (mprod n a (mtr a)) (mprod n (mtr w) w)) meye.
Proof.
  intros (Hr & Hl).
  apply meq_trans with (mprod n a (mprod n (mtr a) (mprod n (mtr w) w))); [apply mprod_assoc|].
  apply meq_trans with (mprod n a w); auto. apply mprod_ext; [apply meq_refl|].
  apply meq_trans with (mprod n (mprod n (mtr a) (mtr w)) w); [apply meq_sym, mprod_assoc|].
  apply meq_trans with (mprod n meye w); [|apply mprod_eye_l]. apply mprod_ext; [|apply meq_refl].
  apply meq_trans with (mtr (mprod n w a)); [apply meq_sym, mtr_prod|]. apply meq_trans with (mtr meye); [apply mtr_ext; auto | apply mtr_eye].
Qed.
(* the column recursion: a^T s is lower triangular with diagonal 1 / a i i *)
Lemma column_recursion a s : tri a -> meq n (mprod n (mprod n a (mtr a)) s) meye ->
  (forall i j, (i < j)%nat -> (j < n)%nat -> sumn n (fun k => a k i * s k j) = 0) /\
  forall i, (i < n)%nat -> sumn n (fun k => a k i * s k i) = 1 / a i i.
Proof.
  intros Ht Hs. apply (right_inverse_tri a (mprod n (mtr a) s) Ht).
  apply meq_trans with (mprod n (mprod n a (mtr a)) s); auto. apply meq_sym, mprod_assoc.
Qed.
End Alg.
