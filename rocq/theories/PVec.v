(* Vectors over the reals *)
From Coq Require Import List Arith Bool Lia Permutation Reals Lra.
From Verif Require Import Num NumR.
Import ListNotations.
Local Open Scope R_scope.

Ltac rn := cbn [n0 n1 nadd nsub nmul ndiv nneg nsqrt nabs nmax nmin nltb nleb nlit NumR] in *.

(* ---- lengths (any numbers) ---- *)
Section Len.
Context {T : Type} {N : Num T}.
Lemma zipw_length {A B D} (f : A -> B -> D) l1 l2 : length (zipw f l1 l2) = Nat.min (length l1) (length l2).
Proof. revert l2; induction l1; intros [|]; simpl; auto. Qed.
Lemma vadd_length (a b : list T) : length a = length b -> length (vadd a b) = length a.
Proof. intros H. unfold vadd. rewrite zipw_length. lia. Qed.
Lemma vsub_length (a b : list T) : length a = length b -> length (vsub a b) = length a.
Proof. intros H. unfold vsub. rewrite zipw_length. lia. Qed.
Lemma vmul_length (a b : list T) : length a = length b -> length (vmul a b) = length a.
Proof. intros H. unfold vmul. rewrite zipw_length. lia. Qed.
Lemma vscale_length c (a : list T) : length (vscale c a) = length a.
Proof. apply map_length. Qed.
Lemma vneg_length (a : list T) : length (vneg a) = length a.
Proof. apply map_length. Qed.
Lemma vzero_length n : length (@vzero T N n) = n.
Proof. apply repeat_length. Qed.
Lemma mvec_length (m : list (list T)) x : length (mvec m x) = length m.
Proof. apply map_length. Qed.
Lemma nth_zipw {A B D} (f : A -> B -> D) l1 l2 i da db dd : (i < length l1)%nat -> (i < length l2)%nat ->
  nth i (zipw f l1 l2) dd = f (nth i l1 da) (nth i l2 db).
Proof.
  revert l2 i; induction l1 as [|a l1 IH]; intros [|b l2] [|i]; simpl; intros; try lia; auto. apply IH; lia.
Qed.
Lemma nth_map' {A B} (f : A -> B) l i d d' : (i < length l)%nat -> nth i (map f l) d = f (nth i l d').
Proof. revert i; induction l; intros [|i]; simpl; intros; try lia; auto. apply IHl; lia. Qed.
Lemma nth_ext' {A} (l1 l2 : list A) d : length l1 = length l2 -> (forall i, (i < length l1)%nat -> nth i l1 d = nth i l2 d) -> l1 = l2.
Proof. intros Hl H. apply (nth_ext l1 l2 d d); auto. Qed.
Lemma nth_vzero n i : nth i (@vzero T N n) n0 = n0.
Proof. unfold vzero. revert i; induction n; intros [|i]; simpl; auto. Qed.
End Len.

(* ---- sums ---- *)
Arguments vsum : simpl never.
Arguments vdot : simpl never.
Arguments sumsq : simpl never.
Lemma vsum_app (a b : list R) : vsum (a ++ b) = vsum a + vsum b.
Proof. unfold vsum. induction a; simpl fold_right; simpl app; rn; [simpl; lra|]. simpl fold_right. rewrite IHa. rn. lra. Qed.
Lemma vsum_perm (a b : list R) : Permutation a b -> vsum a = vsum b.
Proof. unfold vsum. induction 1; simpl in *; rn; lra. Qed.
Lemma vsum_cons x (a : list R) : vsum (x :: a) = x + vsum a.
Proof. reflexivity. Qed.
Lemma vsum_nil : @vsum R NumR [] = 0.
Proof. reflexivity. Qed.
Lemma vsum_map_plus {A} (f g : A -> R) l : vsum (map (fun x => f x + g x) l) = vsum (map f l) + vsum (map g l).
Proof. induction l; simpl; rewrite ?vsum_nil, ?vsum_cons; [lra|]. rewrite IHl. lra. Qed.
Lemma vsum_map_scale {A} c (f : A -> R) l : vsum (map (fun x => c * f x) l) = c * vsum (map f l).
Proof. induction l; simpl; rewrite ?vsum_nil, ?vsum_cons; [lra|]. rewrite IHl. lra. Qed.
Lemma vsum_map_ext {A} (f g : A -> R) l : (forall x, In x l -> f x = g x) -> vsum (map f l) = vsum (map g l).
Proof. intros H. f_equal. apply map_ext_in. auto. Qed.
Lemma vsum_map_zero {A} (f : A -> R) l : (forall x, In x l -> f x = 0) -> vsum (map f l) = 0.
Proof. induction l; intros H; simpl; rewrite ?vsum_nil, ?vsum_cons; auto. rewrite H, IHl; [lra | intros; apply H; right; auto | left; auto]. Qed.
Lemma vsum_flat_map {A B} (f : B -> R) (F : A -> list B) l :
  vsum (map f (flat_map F l)) = vsum (map (fun x => vsum (map f (F x))) l).
Proof. induction l; simpl; auto. rewrite map_app, vsum_app, vsum_cons, IHl. auto. Qed.
Lemma vsum_nonneg (l : list R) : (forall x, In x l -> 0 <= x) -> 0 <= vsum l.
Proof. induction l; intros H; rewrite ?vsum_nil, ?vsum_cons; [lra|]. pose proof (H a (or_introl eq_refl)). assert (0 <= vsum l) by (apply IHl; intros; apply H; right; auto). lra. Qed.
Lemma vsum_le {A} (f g : A -> R) l : (forall x, In x l -> f x <= g x) -> vsum (map f l) <= vsum (map g l).
Proof. induction l; intros H; simpl; rewrite ?vsum_nil, ?vsum_cons; [lra|]. pose proof (H a (or_introl eq_refl)). assert (vsum (map f l) <= vsum (map g l)) by (apply IHl; intros; apply H; right; auto). lra. Qed.
Lemma vsum_swap {A B} (f : A -> B -> R) la lb :
  vsum (map (fun a => vsum (map (fun b => f a b) lb)) la) = vsum (map (fun b => vsum (map (fun a => f a b) la)) lb).
Proof.
  induction la; simpl; rewrite ?vsum_nil, ?vsum_cons.
  - symmetry. apply vsum_map_zero. auto.
  - rewrite IHla, <- vsum_map_plus. apply vsum_map_ext. intros. rewrite vsum_cons. auto.
Qed.

(* ---- dot product ---- *)
Lemma vadd_cons x a y (b : list R) : vadd (x :: a) (y :: b) = (x + y) :: vadd a b.
Proof. reflexivity. Qed.
Lemma vsub_cons x a y (b : list R) : vsub (x :: a) (y :: b) = (x - y) :: vsub a b.
Proof. reflexivity. Qed.
Lemma vscale_cons k x (a : list R) : vscale k (x :: a) = k * x :: vscale k a.
Proof. reflexivity. Qed.
Lemma vneg_cons x (a : list R) : vneg (x :: a) = - x :: vneg a.
Proof. reflexivity. Qed.
Lemma vzero_S n : @vzero R NumR (S n) = 0 :: vzero n.
Proof. reflexivity. Qed.
Lemma vdot_nil_l (b : list R) : vdot [] b = 0.
Proof. reflexivity. Qed.
Lemma vdot_nil_r (a : list R) : vdot a [] = 0.
Proof. destruct a; reflexivity. Qed.
Lemma vdot_cons x a y (b : list R) : vdot (x :: a) (y :: b) = x * y + vdot a b.
Proof. reflexivity. Qed.
Lemma vdot_comm (a b : list R) : vdot a b = vdot b a.
Proof. revert b; induction a; intros [|y b]; rewrite ?vdot_nil_l, ?vdot_nil_r, ?vdot_cons; auto. rewrite IHa. lra. Qed.
Lemma vdot_app (a1 a2 b1 b2 : list R) : length a1 = length b1 -> vdot (a1 ++ a2) (b1 ++ b2) = vdot a1 b1 + vdot a2 b2.
Proof.
  revert b1; induction a1; intros [|y b1]; simpl; intros H; try discriminate; rewrite ?vdot_cons, ?vdot_nil_l; [lra|].
  rewrite IHa1 by lia. lra.
Qed.
Lemma vdot_add_r (a b c : list R) : length b = length c -> vdot a (vadd b c) = vdot a b + vdot a c.
Proof.
  revert b c; induction a; intros [|y b] [|z c]; simpl length; intros H; try discriminate;
    rewrite ?vadd_cons, ?vdot_nil_l, ?vdot_nil_r, ?vdot_cons; try lra.
  rewrite IHa by lia. lra.
Qed.
Lemma vdot_add_l (a b c : list R) : length a = length b -> vdot (vadd a b) c = vdot a c + vdot b c.
Proof. intros. rewrite vdot_comm, vdot_add_r by auto. rewrite (vdot_comm c a), (vdot_comm c b). auto. Qed.
Lemma vdot_sub_r (a b c : list R) : length b = length c -> vdot a (vsub b c) = vdot a b - vdot a c.
Proof.
  revert b c; induction a; intros [|y b] [|z c]; simpl length; intros H; try discriminate;
    rewrite ?vsub_cons, ?vdot_nil_l, ?vdot_nil_r, ?vdot_cons; try lra.
  rewrite IHa by lia. lra.
Qed.
Lemma vdot_sub_l (a b c : list R) : length a = length b -> vdot (vsub a b) c = vdot a c - vdot b c.
Proof. intros. rewrite vdot_comm, vdot_sub_r by auto. rewrite (vdot_comm c a), (vdot_comm c b). auto. Qed.
Lemma vdot_scale_r k (a b : list R) : vdot a (vscale k b) = k * vdot a b.
Proof.
  revert b; induction a; intros [|y b]; rewrite ?vscale_cons, ?vdot_nil_l, ?vdot_cons; try (unfold vscale; simpl map; rewrite ?vdot_nil_r; lra).
  rewrite IHa. lra.
Qed.
Lemma vdot_scale_l k (a b : list R) : vdot (vscale k a) b = k * vdot a b.
Proof. rewrite vdot_comm, vdot_scale_r, vdot_comm. auto. Qed.
Lemma vdot_neg_r (a b : list R) : vdot a (vneg b) = - vdot a b.
Proof.
  revert b; induction a; intros [|y b]; rewrite ?vneg_cons, ?vdot_nil_l, ?vdot_cons; try (unfold vneg; simpl map; rewrite ?vdot_nil_r; lra).
  rewrite IHa. lra.
Qed.
Lemma vdot_neg_l (a b : list R) : vdot (vneg a) b = - vdot a b.
Proof. rewrite vdot_comm, vdot_neg_r, vdot_comm. auto. Qed.
Lemma vdot_zero_r n (a : list R) : vdot a (vzero n) = 0.
Proof.
  revert n; induction a; intros [|n]; rewrite ?vzero_S, ?vdot_nil_l, ?vdot_cons; auto.
  rewrite IHa. lra.
Qed.
Lemma vdot_zero_l n (a : list R) : vdot (vzero n) a = 0.
Proof. rewrite vdot_comm. apply vdot_zero_r. Qed.
Lemma vdot_concat (ls ms : list (list R)) : Forall2 (fun a b => length a = length b) ls ms ->
  vdot (concat ls) (concat ms) = vsum (zipw vdot ls ms).
Proof.
  induction 1; simpl; [reflexivity|]. rewrite vdot_app by auto. rewrite vsum_cons, IHForall2. auto.
Qed.
Lemma vdot_seq (a b : list R) n : length a = n -> length b = n ->
  vdot a b = vsum (map (fun i => nth i a 0 * nth i b 0) (seq 0 n)).
Proof.
  intros <- H.
  revert b H; induction a; intros [|y b] H; try discriminate; [reflexivity|].
  simpl length. rewrite <- cons_seq. simpl map. rewrite vdot_cons, vsum_cons. f_equal.
  rewrite <- seq_shift, map_map. apply IHa. simpl in H; lia.
Qed.

Lemma sumsq_dot (a : list R) : sumsq a = vdot a a.
Proof. unfold sumsq, vdot, vsq, vmul. f_equal. induction a; simpl; f_equal; auto. Qed.
Lemma sumsq_app (a b : list R) : sumsq (a ++ b) = sumsq a + sumsq b.
Proof. unfold sumsq, vsq. rewrite map_app. apply vsum_app. Qed.
Lemma sumsq_cons x (a : list R) : sumsq (x :: a) = x * x + sumsq a.
Proof. reflexivity. Qed.
Lemma sumsq_nonneg (a : list R) : 0 <= sumsq a.
Proof. induction a; [apply Rle_refl|]. rewrite sumsq_cons. pose proof (Rle_0_sqr a). unfold Rsqr in *. lra. Qed.
Lemma sumsq_zero (a : list R) : sumsq a = 0 <-> a = vzero (length a).
Proof.
  induction a as [|x a IH]; [split; auto|]. rewrite sumsq_cons. pose proof (sumsq_nonneg a) as H.
  pose proof (Rle_0_sqr x) as Hx. unfold Rsqr in Hx. unfold vzero. simpl repeat. fold (@vzero R NumR (length a)). split.
  - intros Hs. assert (x * x = 0) by lra. assert (x = 0) by (apply Rmult_integral in H0; tauto). subst x.
    f_equal. apply IH. lra.
  - intros Hv. injection Hv as Hx0 Ha. rn. rewrite Hx0. assert (sumsq a = 0) by (apply IH; auto). lra.
Qed.
Lemma sumsq_scale k (a : list R) : sumsq (vscale k a) = k * k * sumsq a.
Proof. rewrite !sumsq_dot, vdot_scale_l, vdot_scale_r. lra. Qed.
Lemma sumsq_add (a b : list R) : length a = length b -> sumsq (vadd a b) = sumsq a + 2 * vdot a b + sumsq b.
Proof. intros. rewrite !sumsq_dot, vdot_add_l, !vdot_add_r by auto. rewrite (vdot_comm b a). lra. Qed.
Lemma sumsq_sub (a b : list R) : length a = length b -> sumsq (vsub a b) = sumsq a - 2 * vdot a b + sumsq b.
Proof. intros. rewrite !sumsq_dot, vdot_sub_l, !vdot_sub_r by auto. rewrite (vdot_comm b a). lra. Qed.

(* ---- unit vectors, extensionality ---- *)
Definition unitv (n i : nat) : list R := map (fun j => if Nat.eqb j i then 1 else 0) (seq 0 n).
Lemma unitv_length n i : length (unitv n i) = n.
Proof. unfold unitv. rewrite map_length, seq_length. auto. Qed.
Lemma nth_unitv n i j : (j < n)%nat -> nth j (unitv n i) 0 = if Nat.eqb j i then 1 else 0.
Proof.
  intros H. unfold unitv. rewrite (nth_map' _ _ _ 0 O) by (rewrite seq_length; auto). rewrite seq_nth by auto. auto.
Qed.
Lemma vsum_pick n i (f : nat -> R) : (i < n)%nat ->
  vsum (map (fun j => if Nat.eqb j i then f j else 0) (seq 0 n)) = f i.
Proof.
  intros Hi. replace n with (i + (1 + (n - i - 1)))%nat by lia. rewrite seq_app, map_app, vsum_app. simpl.
  rewrite vsum_cons, Nat.eqb_refl. rewrite !vsum_map_zero; try lra.
  - intros j Hj. apply in_seq in Hj. destruct (Nat.eqb_spec j i); [lia | auto].
  - intros j Hj. apply in_seq in Hj. destruct (Nat.eqb_spec j i); [lia | auto].
Qed.
Lemma vdot_unitv n i (x : list R) : length x = n -> (i < n)%nat -> vdot (unitv n i) x = nth i x 0.
Proof.
  intros Hx Hi. rewrite (vdot_seq _ _ n) by (rewrite ?unitv_length; auto).
  rewrite <- (vsum_pick n i (fun j => nth j x 0) Hi). apply vsum_map_ext. intros j Hj. apply in_seq in Hj.
  rewrite nth_unitv by lia. destruct (Nat.eqb j i); lra.
Qed.
Lemma vec_ext n (a b : list R) : length a = n -> length b = n ->
  (forall y, length y = n -> vdot y a = vdot y b) -> a = b.
Proof.
  intros Ha Hb H. apply (nth_ext' a b 0); [lia|]. intros i Hi.
  rewrite <- (vdot_unitv n i a), <- (vdot_unitv n i b) by lia. apply H. apply unitv_length.
Qed.

(* ---- algebra of vectors ---- *)
Lemma nth_vadd (a b : list R) i : length a = length b -> nth i (vadd a b) 0 = nth i a 0 + nth i b 0.
Proof.
  intros H. destruct (Nat.lt_ge_cases i (length a)).
  - unfold vadd. rewrite (nth_zipw _ _ _ _ 0 0) by lia. auto.
  - rewrite !nth_overflow; try lia; try lra. rewrite vadd_length by auto; lia.
Qed.
Lemma nth_vsub (a b : list R) i : length a = length b -> nth i (vsub a b) 0 = nth i a 0 - nth i b 0.
Proof.
  intros H. destruct (Nat.lt_ge_cases i (length a)).
  - unfold vsub. rewrite (nth_zipw _ _ _ _ 0 0) by lia. auto.
  - rewrite !nth_overflow; try lia; try lra. rewrite vsub_length by auto; lia.
Qed.
Lemma nth_vscale k (a : list R) i : nth i (vscale k a) 0 = k * nth i a 0.
Proof.
  destruct (Nat.lt_ge_cases i (length a)).
  - unfold vscale. rewrite (nth_map' _ _ _ _ 0) by lia. auto.
  - rewrite !nth_overflow; try lra; rewrite ?vscale_length; auto.
Qed.
Lemma nth_vneg (a : list R) i : nth i (vneg a) 0 = - nth i a 0.
Proof.
  destruct (Nat.lt_ge_cases i (length a)).
  - unfold vneg. rewrite (nth_map' _ _ _ _ 0) by lia. auto.
  - rewrite !nth_overflow; try lra; rewrite ?vneg_length; auto.
Qed.
Lemma nth_vmul (a b : list R) i : length a = length b -> nth i (vmul a b) 0 = nth i a 0 * nth i b 0.
Proof.
  intros H. destruct (Nat.lt_ge_cases i (length a)).
  - unfold vmul. rewrite (nth_zipw _ _ _ _ 0 0) by lia. auto.
  - rewrite !nth_overflow; try lia; try lra. rewrite vmul_length by auto; lia.
Qed.

Lemma mvec_cons row (M : list (list R)) x : mvec (row :: M) x = vdot row x :: mvec M x.
Proof. reflexivity. Qed.
Lemma mvec_add (M : list (list R)) a b : length a = length b -> mvec M (vadd a b) = vadd (mvec M a) (mvec M b).
Proof. intros H. induction M as [|r M IH]; auto. rewrite !mvec_cons, vadd_cons, IH, vdot_add_r; auto. Qed.
Lemma mvec_scale (M : list (list R)) k a : mvec M (vscale k a) = vscale k (mvec M a).
Proof. unfold mvec, vscale. rewrite map_map. apply map_ext. intros. apply vdot_scale_r. Qed.
