(* Proofs: the exponential and logarithm maps and the adjoint of the four groups to second
   order: log (exp x^-1 exp y) = y - x and adj (exp x) = 1 up to higher order terms. *)
From Coq Require Import List Arith Bool Lia Reals Lra Psatz.
From Verif Require Import Num NumR MLie SpecNoise SpecLie SpecPose SpecZero SpecSpatial PVec PLie PExLie PFrame PZero PJacZero PSpatial PSpatial2 PSpatial3 PBasin.
Import ListNotations.
Local Open Scope R_scope.

Ltac adds := repeat lazymatch goal with |- PBasin.O _ _ (fun p => _ + _) => apply O_add end.

Section Families.
Context {P : Type}.
Variable u : P -> R.
Hypothesis Hu : forall p, 0 <= u p.
Notation O := (O u).

Definition small (X : P -> list R) : Prop := forall k, O 1 (fun p => (X p).[k]).
Definition near2 (X Y : P -> list R) : Prop := forall k, O 2 (fun p => (X p).[k] - (Y p).[k]).

(* ---- quaternions ---- *)
Lemma ec_near X : small X -> O 2 (fun p => ec (X p) - 1) /\ O 1 (fun p => ek (X p) - 1 / 2).
Proof.
  intros H. assert (Hl : O 1 (fun p => len3 (X p))) by (apply O_len3; auto). split.
  - apply (O_bound u 2 _ (fun p => len3 (X p) * len3 (X p)) 1); [lra| |apply O_mul_1; auto]. intros p _. unfold ec. pose proof (one_cos (len3 (X p) / 2)) as H1.
    rewrite Rabs_left1 by lra. pose proof (len3_pos (X p)). rewrite Rabs_pos_eq by nra. nra.
  - unfold ek. rewrite <- half_sinc_0. apply (O_comp u Hu half_sinc (fun p => len3 (X p)) 0); [apply half_sinc_lip | auto].
Qed.
Lemma exp_near X k : small X -> O 2 (fun p => ek (X p) * (X p).[k] - (X p).[k] / 2).
Proof.
  intros H. apply (O_ext u 2 (fun p => (ek (X p) - 1 / 2) * (X p).[k])); [intros; field|]. apply O_mul_1; auto. apply ec_near. auto.
Qed.
Lemma exp_small X k : small X -> O 1 (fun p => ek (X p) * (X p).[k]).
Proof.
  intros H. apply (O_mul_0 u 1); auto. apply (O_around u Hu 1 (1 / 2)). apply ec_near. auto.
Qed.

Section Pair.
Variables X Y : P -> list R.
Hypotheses (HX : small X) (HY : small Y).
Definition quo2 (p : P) : list R := quat_mul (quat_conj (quat_exp (X p))) (quat_exp (Y p)).
Lemma quo_first : O 2 (fun p => (quo2 p).[0] - 1).
Proof.
  destruct (ec_near X HX) as (Cx & _). destruct (ec_near Y HY) as (Cy & _).
  apply (O_ext u 2 (fun p => (ec (X p) - 1) * ec (Y p) + (ec (Y p) - 1) + (ek (X p) * (X p).[0]) * (ek (Y p) * (Y p).[0]) + (ek (X p) * (X p).[1]) * (ek (Y p) * (Y p).[1]) + (ek (X p) * (X p).[2]) * (ek (Y p) * (Y p).[2]))).
  { intros p. unfold quo2. rewrite !quat_exp_form. cbn. ring. }
  adds; auto; try (apply O_mul_1; apply exp_small; auto). apply (O_ext u 2 (fun p => ec (Y p) * (ec (X p) - 1))); [intros; ring|]. apply O_mul_0; auto. apply (O_around u Hu 2 1); auto.
Qed.
Lemma quo_rest k : (k < 3)%nat -> O 2 (fun p => (quo2 p).[(S k)] - ((Y p).[k] - (X p).[k]) / 2).
Proof.
  destruct (ec_near X HX) as (Cx & _). destruct (ec_near Y HY) as (Cy & _).
  assert (Hc : forall A B, small A -> small B -> O 2 (fun p => ec (A p) * (ek (B p) * (B p).[k]) - (B p).[k] / 2)).
  { intros A B HA HB. destruct (ec_near A HA) as (Ca & _). apply (O_ext u 2 (fun p => (ek (B p) * (B p).[k]) * (ec (A p) - 1) + (ek (B p) * (B p).[k] - (B p).[k] / 2))); [intros; ring|].
    apply O_add; auto; [|apply exp_near; auto]. apply O_mul_0; auto. apply O_down; auto. apply exp_small; auto. }
  pose (ex := fun i p => ek (X p) * (X p).[i]). pose (ey := fun i p => ek (Y p) * (Y p).[i]).
  assert (Hp : forall i j, O 2 (fun p => ex i p * ey j p)) by (intros i j; apply O_mul_1; apply exp_small; auto).
  intros Hk. assert (Main : forall i j, O 2 (fun p => (ec (X p) * (ek (Y p) * (Y p).[k]) - (Y p).[k] / 2) - (ec (Y p) * (ek (X p) * (X p).[k]) - (X p).[k] / 2) - (ex i p * ey j p - ex j p * ey i p))).
  { intros i j. apply O_sub; [|apply O_sub; auto]. apply O_sub; apply Hc; auto. }
  destruct k as [|[|[|k]]]; [| | |lia].
  - eapply O_ext; [|apply (Main 1%nat 2%nat)]. intros p. unfold quo2. rewrite !quat_exp_form. unfold ex, ey. cbn. field.
  - eapply O_ext; [|apply (Main 2%nat 0%nat)]. intros p. unfold quo2. rewrite !quat_exp_form. unfold ex, ey. cbn. field.
  - eapply O_ext; [|apply (Main 0%nat 1%nat)]. intros p. unfold quo2. rewrite !quat_exp_form. unfold ex, ey. cbn. field.
Qed.
End Pair.

Lemma quat_log_nth q k : (k < 3)%nat -> (quat_log q).[k] = quat_log_factor q.[0] (len3 (tl q)) * q.[(S k)].
Proof. intros Hk. unfold quat_log. destruct k as [|[|[|k]]]; [| | |lia]; cbn; reflexivity. Qed.
Lemma tl_nth (q : list R) k : (tl q).[k] = q.[(S k)].
Proof. destruct q; auto. cbn. destruct k; auto. Qed.
Lemma log_near Q k : O 1 (fun p => (Q p).[0] - 1) -> (forall i, (i < 3)%nat -> O 1 (fun p => (Q p).[(S i)])) -> (k < 3)%nat ->
  O 2 (fun p => (quat_log (Q p)).[k] - 2 * (Q p).[(S k)]).
Proof.
  intros H0 H1 Hk. assert (Hl : O 1 (fun p => len3 (tl (Q p)))).
  { apply O_len3; eapply O_ext; try (intros p; symmetry; apply tl_nth); apply H1; lia. }
  pose proof (O_inv u Hu 0 _ H0) as Hi. assert (Hy : O 1 (fun p => len3 (tl (Q p)) / (Q p).[0])).
  { apply (O_ext u 1 (fun p => / (Q p).[0] * len3 (tl (Q p)))); [intros; unfold Rdiv; ring|]. apply O_mul_0; auto. apply (O_around u Hu 1 1); auto. }
  pose proof (O_comp u Hu atc _ 0 atc_lip Hy) as Ha. rewrite atc_0 in Ha.
  assert (Hf : O 1 (fun p => 2 / (Q p).[0] * atc (len3 (tl (Q p)) / (Q p).[0]) - 2)).
  { apply (O_ext u 1 (fun p => 2 * (/ (Q p).[0] * (atc (len3 (tl (Q p)) / (Q p).[0]) - 1) + (/ (Q p).[0] - 1)))); [intros; unfold Rdiv; ring|].
    apply O_scale, O_add; auto. apply O_mul_0; auto. apply (O_around u Hu 1 1); auto. }
  destruct (O_small u Hu 0 _ 1 H0 ltac:(lra)) as (d & Hd & Hs).
  apply (O_local u 2 (fun p => (2 / (Q p).[0] * atc (len3 (tl (Q p)) / (Q p).[0]) - 2) * (Q p).[(S k)]) _ d); auto.
  - intros p Hp. specialize (Hs p Hp). apply Rabs_def2 in Hs. rewrite quat_log_nth, factor_form by (auto; lra). ring.
  - apply O_mul_1; auto.
Qed.
Lemma over k (l : list R) : (length l <= k)%nat -> l.[k] = 0. Proof. apply nth_overflow. Qed.

Definition pairs (raw : lie_ops R (list R)) (X Y : P -> list R) (p : P) : list R := lg_mul raw (lg_inv raw (lg_exp raw (X p))) (lg_exp raw (Y p)).
Definition vdiff (X Y : P -> list R) (p : P) : list R := vsub (Y p) (X p).
Lemma so3_log_near X Y k : small X -> small Y -> (k < 3)%nat -> O 2 (fun p => (quat_log (quo2 X Y p)).[k] - ((Y p).[k] - (X p).[k])).
Proof.
  intros HX HY Hk. pose proof (quo_first X Y HX HY) as H0. assert (H1 : forall i, (i < 3)%nat -> O 1 (fun p => (quo2 X Y p).[(S i)])).
  { intros i Hi. apply (O_ext u 1 (fun p => ((quo2 X Y p).[(S i)] - ((Y p).[i] - (X p).[i]) / 2) + ((Y p).[i] - (X p).[i]) / 2)); [intros; ring|].
    apply O_add; [apply O_down; auto; apply quo_rest; auto|]. apply (O_ext u 1 (fun p => / 2 * ((Y p).[i] - (X p).[i]))); [intros; unfold Rdiv; ring|]. apply O_scale, O_sub; auto. }
  apply (O_ext u 2 (fun p => ((quat_log (quo2 X Y p)).[k] - 2 * (quo2 X Y p).[(S k)]) + 2 * ((quo2 X Y p).[(S k)] - ((Y p).[k] - (X p).[k]) / 2))); [intros; field|].
  apply O_add; [apply log_near; auto; apply O_down; auto | apply O_scale, quo_rest; auto].
Qed.
Lemma so3_small X Y : small X -> small Y -> small (fun p => quat_log (quo2 X Y p)).
Proof.
  intros HX HY k. destruct (lt_dec k 3) as [Hk|Hk].
  - apply (O_ext u 1 (fun p => ((quat_log (quo2 X Y p)).[k] - ((Y p).[k] - (X p).[k])) + ((Y p).[k] - (X p).[k]))); [intros; ring|].
    apply O_add; [apply O_down; auto; apply so3_log_near; auto | apply O_sub; auto].
  - apply (O_ext u 1 (fun _ => 0)); [|apply O_zero]. intros p. symmetry. apply nth_overflow. cbn. lia.
Qed.

(* ---- rotations and the V matrix of SE(3) ---- *)
Lemma cross_small X V k : small X -> (forall i, O 1 (fun p => (V p).[i])) -> O 2 (fun p => (cross (X p) (V p)).[k]).
Proof.
  intros HX HV. destruct k as [|[|[|k]]]; cbn; try (apply O_sub; apply O_mul_1; auto). destruct k; apply O_zero.
Qed.
Lemma lin3_nth d s m v k : length v = 3%nat -> (k < 3)%nat -> (lin3 d s m v).[k] = v.[k] + s * (cross d v).[k] + m * (cross d (cross d v)).[k].
Proof. intros Lv Hk. three v. destruct k as [|[|[|k]]]; [| | |lia]; unfold lin3, vadd, vscale, cross; cbn; rn; ring. Qed.
Lemma cross_twice d v k : length v = 3%nat -> (cross d (cross d v)).[k] = (d.[0] * v.[0] + d.[1] * v.[1] + d.[2] * v.[2]) * (if k <? 3 then d.[k] else 0) - sq3 d * v.[k].
Proof. intros Lv. three v. unfold sq3. destruct k as [|[|[|k]]]; cbn; try ring. destruct k; ring. Qed.
(* m w_i w_j is small when m |w|^2 is *)
Lemma times_small X m i : small X -> O 1 (fun p => m p * sq3 (X p)) -> forall j, (i < 3)%nat -> (j < 3)%nat -> O 1 (fun p => m p * ((X p).[i] * (X p).[j])).
Proof.
  intros HX Hm j Hi Hj. apply (O_bound u 1 _ (fun p => m p * sq3 (X p)) 1); auto; [lra|]. intros p _. rewrite !Rabs_mult. apply Rmult_le_compat_l; [apply Rabs_pos|].
  unfold sq3. rewrite <- Rabs_mult. set (d := X p). assert (S : forall k, (k < 3)%nat -> d.[k] * d.[k] <= d.[0] * d.[0] + d.[1] * d.[1] + d.[2] * d.[2]) by (intros [|[|[|k]]] Hk; [nra | nra | nra | lia]).
  pose proof (S i Hi). pose proof (S j Hj). rewrite (Rabs_pos_eq (_ + _ + _)) by nra. apply Rabs_le. nra.
Qed.
Lemma twice_small X V m k : small X -> small V -> (forall p, length (V p) = 3%nat) -> O 1 (fun p => m p * sq3 (X p)) -> (k < 3)%nat -> O 2 (fun p => m p * (cross (X p) (cross (X p) (V p))).[k]).
Proof.
  intros HX HV LV Hm Hk. pose proof (fun i j Hi Hj => times_small X m i HX Hm j Hi Hj) as HT. apply Nat.ltb_lt in Hk as Hk'.
  apply (O_ext u 2 (fun p => (m p * ((X p).[0] * (X p).[k])) * (V p).[0] + (m p * ((X p).[1] * (X p).[k])) * (V p).[1] + (m p * ((X p).[2] * (X p).[k])) * (V p).[2] - (m p * sq3 (X p)) * (V p).[k])).
  { intros p. rewrite cross_twice by auto. rewrite Hk'. ring. }
  apply O_sub; [adds|]; apply O_mul_1; auto; apply HT; auto; lia.
Qed.
Lemma lin3_near X V s m k : small X -> small V -> (forall p, length (V p) = 3%nat) -> O 0 s -> O 1 (fun p => m p * sq3 (X p)) -> (k < 3)%nat ->
  O 2 (fun p => (lin3 (X p) (s p) (m p) (V p)).[k] - (V p).[k]).
Proof.
  intros HX HV LV Hs Hm Hk. apply (O_ext u 2 (fun p => s p * (cross (X p) (V p)).[k] + m p * (cross (X p) (cross (X p) (V p))).[k])).
  { intros p. rewrite lin3_nth by auto. ring. }
  apply O_add; [apply O_mul_0; auto; apply cross_small; auto | apply twice_small; auto].
Qed.
Lemma ek_bound X : small X -> O 0 (fun p => ek (X p)).
Proof. intros HX. apply (O_around u Hu 1 (1 / 2)). apply ec_near; auto. Qed.
Lemma vee_near X V k : small X -> small V -> (forall p, length (V p) = 3%nat) -> (k < 3)%nat -> O 2 (fun p => (vee (X p) (V p)).[k] - (V p).[k]).
Proof.
  intros HX HV LV Hk. unfold vee. pose proof (ek_bound X HX) as Kb. destruct (ec_near X HX) as (Hc & Hek). apply (lin3_near X V (fun p => 2 * ek (X p) * ek (X p)) (fun p => eb (X p))); auto.
  - repeat apply (O_mul u 0 0); auto. apply O_const.
  - apply (O_ext u 1 (fun p => (-2 * ek (X p)) * (ec (X p) - 1) + -2 * (ek (X p) - 1 / 2))); [intros p; rewrite exp_third; field|].
    apply O_add; [apply O_mul_0; [apply O_scale; auto | apply O_down; auto] | apply O_scale; auto].
Qed.
Lemma lift X V : (forall k, (k < 3)%nat -> O 2 (fun p => (X p).[k] - (V p).[k])) -> (forall p, length (X p) = 3%nat) -> small V -> small X.
Proof.
  intros H L HV k. destruct (lt_dec k 3) as [Hk|Hk].
  - apply (O_ext u 1 (fun p => ((X p).[k] - (V p).[k]) + (V p).[k])); [intros; ring|]. apply O_add; auto. apply O_down; auto.
  - apply (O_ext u 1 (fun _ => 0)); [|apply O_zero]. intros p. symmetry. apply nth_overflow. rewrite L. lia.
Qed.
Lemma rotate_near X V k : small X -> small V -> (forall p, length (V p) = 3%nat) -> (k < 3)%nat -> O 2 (fun p => (rotate (quat_conj (quat_exp (X p))) (V p)).[k] - (V p).[k]).
Proof.
  intros HX HV LV Hk. pose proof (ek_bound X HX) as Kb. destruct (ec_near X HX) as (Hc & _). pose proof (O_around u Hu 2 1 _ Hc) as Cb.
  pose (t := fun p => [(X p).[0]; (X p).[1]; (X p).[2]]).
  assert (Ht : small t) by (intros [|[|[|j]]]; cbn; auto; destruct j; apply O_zero).
  apply (O_ext u 2 (fun p => (lin3 (t p) (- (2 * ec (t p) * ek (t p))) (2 * ek (t p) * ek (t p)) (V p)).[k] - (V p).[k])).
  { intros p. f_equal. f_equal. replace (quat_conj (quat_exp (X p))) with (quat_exp (vneg (t p))).
    - destruct (numbers_neg (t p) eq_refl) as (E1 & E2 & _). rewrite rodrigues by auto. rewrite E1, E2, lin3_neg by auto. reflexivity.
    - rewrite quat_exp_neg by reflexivity. reflexivity. }
  apply (lin3_near t V (fun p => - (2 * ec (t p) * ek (t p))) (fun p => 2 * ek (t p) * ek (t p))); auto.
  - apply O_opp. apply (O_mul u 0 0); [apply (O_mul u 0 0); [apply O_const | exact Cb] | exact Kb].
  - apply O_mul_0; [apply (O_mul u 0 0); [apply (O_mul u 0 0); [apply O_const | exact Kb] | exact Kb]|]. unfold sq3. apply O_down; auto. adds; apply O_mul_1; auto.
Qed.

(* ---- SE(3) ---- *)
Lemma small_rot X : small X -> small (fun p => rotv (X p)). Proof. intros H [|[|[|k]]]; cbn; auto. destruct k; apply O_zero. Qed.
Lemma small_tra X : small X -> small (fun p => trav (X p)). Proof. intros H [|[|[|k]]]; cbn; auto. destruct k; apply O_zero. Qed.
Lemma vee3' w v : length v = 3%nat -> length (vee w v) = 3%nat. Proof. apply lin3_length. Qed.
Lemma rotate3 q v : length (rotate q v) = 3%nat. Proof. reflexivity. Qed.
Lemma se3_pair_rot X Y p : rot_part (pairs raw_se3 X Y p) = quo2 (fun p => rotv (X p)) (fun p => rotv (Y p)) p.
Proof.
  unfold pairs, quo2. cbn [raw_se3 lg_mul lg_inv lg_exp]. rewrite se3_mul_rot. rewrite <- (mul_rot (se3_inv _) (se3_exp _)). rewrite se3_inv_rot, se3_exp_rot.
  change (quat_conj (se3_exp (X p))) with (quat_conj (rot_part (se3_exp (X p)))). rewrite se3_exp_rot. reflexivity.
Qed.
Lemma se3_pair_tra X Y p : tra_part (pairs raw_se3 X Y p) =
  rotate (quat_conj (quat_exp (rotv (X p)))) (vadd (vee (rotv (Y p)) (trav (Y p))) (vneg (vee (rotv (X p)) (trav (X p))))).
Proof.
  unfold pairs. cbn [raw_se3 lg_mul lg_inv lg_exp]. rewrite se3_mul_tra, se3_inv_rot, se3_inv_tra.
  change (quat_conj (se3_exp (X p))) with (quat_conj (rot_part (se3_exp (X p)))). rewrite se3_exp_rot, !se3_exp_tra.
  rewrite rotate_add by (unfold vneg; rewrite ?map_length; apply vee3'; reflexivity). rewrite rotate_neg by (apply vee3'; reflexivity). reflexivity.
Qed.
Lemma se3_log_nth q k : (se3_log q).[k] = if k <? 3 then (lin3 (quat_log (rot_part q)) (- (1 / 2)) (eh (quat_log (rot_part q))) (tra_part q)).[k] else (quat_log (rot_part q)).[(k - 3)].
Proof.
  rewrite se3_log_form. assert (L : length (lin3 (quat_log (rot_part q)) (- (1 / 2)) (eh (quat_log (rot_part q))) (tra_part q)) = 3%nat) by (apply lin3_length; reflexivity).
  destruct (Nat.ltb_spec k 3); [apply app_nth1; lia | rewrite app_nth2, L by lia; auto].
Qed.
Lemma eh_near X : small X -> O 1 (fun p => eh (X p) * sq3 (X p)).
Proof.
  intros HX. destruct (ec_near X HX) as (Hc & Hk). assert (Hl : O 1 (fun p => len3 (X p))) by (apply O_len3; auto).
  assert (Hki : O 1 (fun p => / (2 * ek (X p)) - 1)). { apply (O_inv u Hu 0). apply (O_ext u 1 (fun p => 2 * (ek (X p) - 1 / 2))); [intros; field | apply O_scale; auto]. }
  destruct (O_small u Hu 0 _ (1 / 4) Hk ltac:(lra)) as (d & Hd & Hs). destruct (O_small u Hu 0 _ 1 Hl ltac:(lra)) as (d' & Hd' & Hs').
  apply (O_local u 1 (fun p => / (2 * ek (X p)) * (2 * (ek (X p) - 1 / 2) - (ec (X p) - 1))) _ (Rmin d d')).
  - apply Rmin_pos; auto.
  - intros p Hp. assert (u p <= d) by (eapply Rle_trans; [exact Hp | apply Rmin_l]). assert (u p <= d') by (eapply Rle_trans; [exact Hp | apply Rmin_r]).
    specialize (Hs p H). specialize (Hs' p H0). apply Rabs_def2 in Hs. apply Rabs_def2 in Hs'. pose proof PI2_1. pose proof (log_numbers (X p) ltac:(lra)) as E.
    apply (Rmult_eq_reg_l (2 * ek (X p))); [|lra]. rewrite E. field. lra.
  - apply O_mul_0; [apply (O_around u Hu 1 1); auto|]. apply O_sub; [apply O_scale; auto | apply O_down; auto].
Qed.
Lemma se3_log_near X Y k : small X -> small Y -> O 2 (fun p => if k <? 6 then (se3_log (pairs raw_se3 X Y p)).[k] - ((Y p).[k] - (X p).[k]) else 0).
Proof.
  intros HX HY. destruct (Nat.ltb_spec k 6) as [Hk|Hk]; [|apply O_zero].
  pose proof (small_rot X HX) as RX. pose proof (small_rot Y HY) as RY. pose proof (small_tra X HX) as TX. pose proof (small_tra Y HY) as TY.
  destruct (Nat.ltb_spec k 3) as [H3|H3].
  - apply (O_ext u 2 (fun p => (lin3 (quat_log (quo2 (fun p => rotv (X p)) (fun p => rotv (Y p)) p)) (- (1 / 2)) (eh (quat_log (quo2 (fun p => rotv (X p)) (fun p => rotv (Y p)) p)))
       (tra_part (pairs raw_se3 X Y p))).[k] - ((trav (Y p)).[k] - (trav (X p)).[k]))).
    { intros p. rewrite se3_log_nth, se3_pair_rot. apply Nat.ltb_lt in H3 as H3'. rewrite H3'. f_equal. destruct k as [|[|[|k]]]; [| | |lia]; reflexivity. }
    assert (Hv : forall p, length (vadd (vee (rotv (Y p)) (trav (Y p))) (vneg (vee (rotv (X p)) (trav (X p))))) = 3%nat).
    { intros p. apply vadd3; unfold vneg; rewrite ?map_length; apply vee3'; reflexivity. }
    assert (Hd : forall j, (j < 3)%nat -> O 2 (fun p => (vadd (vee (rotv (Y p)) (trav (Y p))) (vneg (vee (rotv (X p)) (trav (X p))))).[j] - (vadd (trav (Y p)) (vneg (trav (X p)))).[j])).
    { intros j Hj. apply (O_ext u 2 (fun p => ((vee (rotv (Y p)) (trav (Y p))).[j] - (trav (Y p)).[j]) - ((vee (rotv (X p)) (trav (X p))).[j] - (trav (X p)).[j]))).
      - intros p. pose proof (vee3' (rotv (Y p)) (trav (Y p)) eq_refl) as L1. pose proof (vee3' (rotv (X p)) (trav (X p)) eq_refl) as L2.
        revert L1 L2. generalize (vee (rotv (Y p)) (trav (Y p))) (vee (rotv (X p)) (trav (X p))). intros a b La Lb. three a. three b. destruct j as [|[|[|j]]]; [| | |lia]; cbn; ring.
      - apply O_sub; apply vee_near; auto. }
    assert (Hsm : small (fun p => vadd (trav (Y p)) (vneg (trav (X p))))).
    { intros j. apply (O_ext u 1 (fun p => (trav (Y p)).[j] - (trav (X p)).[j])); [|apply O_sub; [apply TY | apply TX]]. intros p. destruct j as [|[|[|j]]]; cbn; try ring. destruct j; ring. }
    pose proof (lift _ _ Hd Hv Hsm) as Hsm'.
    assert (Ht : forall j, (j < 3)%nat -> O 2 (fun p => (tra_part (pairs raw_se3 X Y p)).[j] - (vadd (vee (rotv (Y p)) (trav (Y p))) (vneg (vee (rotv (X p)) (trav (X p))))).[j])).
    { intros j Hj. eapply O_ext; [|apply (rotate_near _ _ j RX Hsm' Hv Hj)]. intros p. rewrite se3_pair_tra. reflexivity. }
    assert (Hts : small (fun p => tra_part (pairs raw_se3 X Y p))) by (apply (lift _ _ Ht); auto).
    apply (O_ext u 2 (fun p => ((lin3 (quat_log (quo2 (fun p => rotv (X p)) (fun p => rotv (Y p)) p)) (- (1 / 2)) (eh (quat_log (quo2 (fun p => rotv (X p)) (fun p => rotv (Y p)) p)))
       (tra_part (pairs raw_se3 X Y p))).[k] - (tra_part (pairs raw_se3 X Y p)).[k]) + ((tra_part (pairs raw_se3 X Y p)).[k] - (vadd (vee (rotv (Y p)) (trav (Y p))) (vneg (vee (rotv (X p)) (trav (X p))))).[k])
       + ((vadd (vee (rotv (Y p)) (trav (Y p))) (vneg (vee (rotv (X p)) (trav (X p))))).[k] - (vadd (trav (Y p)) (vneg (trav (X p)))).[k]))).
    { intros p. replace ((vadd (trav (Y p)) (vneg (trav (X p)))).[k]) with ((trav (Y p)).[k] - (trav (X p)).[k]); [ring|]. destruct k as [|[|[|k]]]; [| | |lia]; cbn; ring. }
    apply O_add; [apply O_add; auto | auto]. pose proof (so3_small _ _ RX RY) as HL.
    apply (lin3_near (fun p => quat_log (quo2 (fun p => rotv (X p)) (fun p => rotv (Y p)) p)) (fun p => tra_part (pairs raw_se3 X Y p)) (fun _ => - (1 / 2)) (fun p => eh (quat_log (quo2 (fun p => rotv (X p)) (fun p => rotv (Y p)) p)))); auto.
    + apply O_const.
    + apply (eh_near (fun p => quat_log (quo2 (fun p => rotv (X p)) (fun p => rotv (Y p)) p))); auto.
  - eapply O_ext; [|apply (so3_log_near _ _ (k - 3) RX RY); lia]. intros p. rewrite se3_log_nth. assert (Hn : (k <? 3) = false) by (apply Nat.ltb_ge; auto). rewrite Hn, se3_pair_rot.
    f_equal. destruct k as [|[|[|[|[|[|k]]]]]]; try lia; reflexivity.
Qed.
End Families.
