(* Proofs: logarithm, exponential and adjoint of the four groups near the identity, and the
   adjoint as a homomorphism. *)
From Coq Require Import List Arith Bool Lia Reals Lra Psatz.
From Verif Require Import Num NumR MLie SpecNoise SpecLie SpecPose SpecZero SpecSpatial PVec PLie PExLie PPose PFrame PZero PJacZero PSolverR PNoise PDescent PLocal PSpatial PSpatial2 PSpatial3 PSpatial4 PTwin2 PBasin PBasin2 PBasin3.
Import ListNotations.
Local Open Scope R_scope.

(* ---- norms and components ---- *)
Lemma comp_sq (x : list R) k : x.[k] * x.[k] <= sumsq x.
Proof.
  revert k. induction x as [|a x IH]; intros k.
  - replace (nth k [] 0) with 0 by (destruct k; reflexivity). change (sumsq []) with 0. lra.
  - assert (Hp : 0 <= sumsq x) by apply sumsq_nonneg. change (sumsq (a :: x)) with (a * a + sumsq x). destruct k; cbn [nth]; [nra|]. specialize (IH k). nra.
Qed.
Lemma comp_le_norm (x : list R) k : Rabs x.[k] <= vnorm x.
Proof.
  destruct (vnorm_sq x) as (H0 & H1). pose proof (comp_sq x k) as H.
  pose proof (Rabs_pos x.[k]). assert (Hs : Rabs x.[k] * Rabs x.[k] <= vnorm x * vnorm x) by (rewrite H1, <- Rabs_mult, Rabs_pos_eq by nra; auto). nra.
Qed.
Lemma norm_le_comps (x : list R) M : 0 <= M -> (forall k, (k < length x)%nat -> Rabs x.[k] <= M) -> vnorm x <= INR (length x) * M.
Proof.
  intros HM H. assert (Hs : sumsq x <= INR (length x) * (M * M)).
  { induction x as [|a x IH]; [change (sumsq []) with 0; cbn [length INR]; lra|]. change (sumsq (a :: x)) with (a * a + sumsq x). cbn [length]. rewrite S_INR.
    assert (Ha : Rabs a <= M) by (apply (H 0%nat); cbn; lia). assert (a * a <= M * M) by (pose proof (Rabs_pos a); replace (a * a) with (Rabs a * Rabs a) by (rewrite <- Rabs_mult; apply Rabs_pos_eq; nra); nra).
    assert (sumsq x <= INR (length x) * (M * M)) by (apply IH; intros k Hk; apply (H (S k)); cbn; lia). lra. }
  pose proof (pos_INR (length x)) as Hp. apply norm_le_of; [apply Rmult_le_pos; auto|]. eapply Rle_trans; [exact Hs|].
  replace (INR (length x) * M * (INR (length x) * M)) with (INR (length x) * INR (length x) * (M * M)) by ring. apply Rmult_le_compat_r; [nra|].
  destruct (length x) as [|n]; [cbn; lra|]. assert (1 <= INR (S n)) by (rewrite S_INR; pose proof (pos_INR n); lra). nra.
Qed.
(* one bound for the components below n *)
Lemma all_below {P} (u : P -> R) k n (f : nat -> P -> R) : (forall p, 0 <= u p) -> (forall i, (i < n)%nat -> O u k (f i)) ->
  exists C d, 0 <= C /\ 0 < d /\ forall p, u p <= d -> forall i, (i < n)%nat -> Rabs (f i p) <= C * u p ^ k.
Proof.
  intros Hu. induction n as [|n IH]; intros H; [exists 0, 1; split; [lra|]; split; [lra|]; intros; lia|].
  destruct IH as (C & d & HC & Hd & HI); [intros; apply H; lia|]. destruct (H n) as (C' & d' & HC' & Hd' & H'); [lia|].
  exists (C + C'), (Rmin d d'). split; [lra|]. split; [apply Rmin_pos; auto|]. intros p Hp i Hi.
  assert (u p <= d) by (eapply Rle_trans; [exact Hp | apply Rmin_l]). assert (u p <= d') by (eapply Rle_trans; [exact Hp | apply Rmin_r]). pose proof (pow_pos u Hu k p).
  destruct (Nat.eq_dec i n) as [->|]; [eapply Rle_trans; [apply H'; auto | apply Rmult_le_compat_r; lra] | eapply Rle_trans; [apply HI; auto; lia | apply Rmult_le_compat_r; lra]].
Qed.
Lemma norm_pos (x : list R) : 0 <= vnorm x. Proof. apply vnorm_sq. Qed.

Lemma shift3 (p q r t : list R) : length p = 3%nat -> length q = 3%nat -> length t = 3%nat -> vadd p (cross (vadd q t) r) = vadd (vadd p (cross q r)) (cross t r).
Proof. intros. three p. three q. three t. vecs. lists; ring. Qed.

(* ---- the adjoint of a small element ---- *)
Section Adjoint.
Context {P : Type}.
Variable u : P -> R.
Hypothesis Hu : forall p, 0 <= u p.
Notation O := (O u).
Definition bounded (V : P -> list R) : Prop := forall k, O 0 (fun p => (V p).[k]).

Lemma O_10 f g : O 1 f -> O 0 g -> O 1 (fun p => f p * g p). Proof. apply (O_mul u 1 0). Qed.
Lemma cross_one X V k : small u X -> bounded V -> O 1 (fun p => (cross (X p) (V p)).[k]).
Proof. intros HX HV. destruct k as [|[|[|k]]]; cbn; try (apply O_sub; apply O_10; auto). destruct k; apply O_zero. Qed.
Lemma lin3_one X V s m k : small u X -> bounded V -> (forall p, length (V p) = 3%nat) -> O 0 s -> O 1 (fun p => m p * sq3 (X p)) -> (k < 3)%nat ->
  O 1 (fun p => (lin3 (X p) (s p) (m p) (V p)).[k] - (V p).[k]).
Proof.
  intros HX HV LV Hs Hm Hlt. pose proof (fun i j Hi Hj => times_small u X m i HX Hm j Hi Hj) as HT. apply Nat.ltb_lt in Hlt as Hk'.
  apply (O_ext u 1 (fun p => s p * (cross (X p) (V p)).[k] + ((m p * ((X p).[0] * (X p).[k])) * (V p).[0] + (m p * ((X p).[1] * (X p).[k])) * (V p).[1] + (m p * ((X p).[2] * (X p).[k])) * (V p).[2] - (m p * sq3 (X p)) * (V p).[k]))).
  { intros p. rewrite lin3_nth by auto. rewrite cross_twice by auto. rewrite Hk'. ring. }
  apply O_add; [apply O_mul_0; auto; apply cross_one; auto|]. apply O_sub; [adds|]; apply O_10; auto; apply HT; auto; lia.
Qed.
Lemma rot_one X V k : small u X -> bounded V -> (forall p, length (V p) = 3%nat) -> (k < 3)%nat -> O 1 (fun p => (rotate (quat_exp (X p)) (V p)).[k] - (V p).[k]).
Proof.
  intros HX HV LV Hlt. pose proof (ek_bound u Hu X HX) as Kb. destruct (ec_near u Hu X HX) as (Hc & _). pose proof (O_around u Hu 2 1 _ Hc) as Cb.
  apply (O_ext u 1 (fun p => (lin3 (X p) (2 * ec (X p) * ek (X p)) (2 * ek (X p) * ek (X p)) (V p)).[k] - (V p).[k])); [intros p; rewrite rodrigues by auto; reflexivity|].
  apply (lin3_one X V (fun p => 2 * ec (X p) * ek (X p)) (fun p => 2 * ek (X p) * ek (X p))); auto.
  - apply (O_mul u 0 0); [apply (O_mul u 0 0); [apply O_const | exact Cb] | exact Kb].
  - apply O_mul_0; [apply (O_mul u 0 0); [apply (O_mul u 0 0); [apply O_const | exact Kb] | exact Kb]|]. unfold sq3. apply O_down; auto. adds; apply O_mul_1; auto.
Qed.
Lemma rot_bounded X V : small u X -> bounded V -> (forall p, length (V p) = 3%nat) -> bounded (fun p => rotate (quat_exp (X p)) (V p)).
Proof.
  intros HX HV LV k. destruct (lt_dec k 3) as [Hlt|Hlt].
  - apply (O_ext u 0 (fun p => ((rotate (quat_exp (X p)) (V p)).[k] - (V p).[k]) + (V p).[k])); [intros; ring|]. apply O_add; auto. apply O_down; auto. apply rot_one; auto.
  - apply (O_ext u 0 (fun _ => 0)); [|apply O_zero]. intros p. symmetry. apply nth_overflow. cbn. lia.
Qed.
Lemma b_rot X : bounded X -> bounded (fun p => rotv (X p)). Proof. intros H [|[|[|k]]]; cbn; auto. destruct k; apply O_zero. Qed.
Lemma b_tra X : bounded X -> bounded (fun p => trav (X p)). Proof. intros H [|[|[|k]]]; cbn; auto. destruct k; apply O_zero. Qed.
Lemma adj_one raw X V k : known raw -> small u X -> bounded V -> (forall p, length (V p) = lg_dim raw) -> (k < lg_dim raw)%nat ->
  O 1 (fun p => (mvec (lg_adj raw (lg_exp raw (X p))) (V p)).[k] - (V p).[k]).
Proof.
  intros [[]|[]] HX HV LV Hlt; cbn [raw_so2 raw_se2 raw_so3 raw_se3 lg_adj lg_exp lg_dim] in *.
  - destruct k; [|lia]. apply (O_ext u 1 (fun _ => 0)); [|apply O_zero]. intros p. pose proof (LV p) as L. destruct (V p) as [|x [|]]; try discriminate.
    unfold mvec, vdot, vmul, vsum. cbn [map nth zipw fold_right nadd nmul n0 NumR]. ring.
  - destruct (trig_near u Hu X 2 HX) as (Hc & Hs & _ & _). destruct (b_near u Hu X HX) as (B0 & B1).
    assert (L0 : O 1 (bx X)) by (apply (lift_one u Hu _ _ B0); auto). assert (L1 : O 1 (by_ X)) by (apply (lift_one u Hu _ _ B1); auto).
    destruct k as [|[|[|k]]]; [| | |lia].
    + apply (O_ext u 1 (fun p => (cos (X p).[2] - 1) * (V p).[0] - sin (X p).[2] * (V p).[1] + by_ X p * (V p).[2])).
      { intros p. pose proof (LV p) as L. destruct (V p) as [|x [|y [|z [|]]]]; try discriminate. unfold se2_adj, se2_exp, by_, mvec, vdot, vmul, vsum. cbn [map nth zipw fold_right nadd nmul n0 NumR]. ring. }
      apply O_add; [apply O_sub|]; apply O_10; auto.
    + apply (O_ext u 1 (fun p => sin (X p).[2] * (V p).[0] + (cos (X p).[2] - 1) * (V p).[1] - bx X p * (V p).[2])).
      { intros p. pose proof (LV p) as L. destruct (V p) as [|x [|y [|z [|]]]]; try discriminate. unfold se2_adj, se2_exp, bx, mvec, vdot, vmul, vsum. cbn [map nth zipw fold_right nadd nmul n0 NumR]. ring. }
      apply O_sub; [apply O_add|]; apply O_10; auto.
    + apply (O_ext u 1 (fun _ => 0)); [|apply O_zero]. intros p. pose proof (LV p) as L. destruct (V p) as [|x [|y [|z [|]]]]; try discriminate.
      unfold se2_adj, se2_exp, mvec, vdot, vmul, vsum. cbn [map nth zipw fold_right nadd nmul n0 NumR]. ring.
  - eapply O_ext; [|apply (rot_one X V k HX HV LV Hlt)]. intros p. cbv beta. rewrite matrix_rotate by auto. reflexivity.
  - pose proof (small_rot u X HX) as RX. pose proof (small_tra u X HX) as TX. pose proof (b_rot V HV) as RV. pose proof (b_tra V HV) as TV.
    assert (Hv : small u (fun p => vee (rotv (X p)) (trav (X p)))).
    { apply (lift u Hu _ (fun p => trav (X p))); [intros j Hj; apply vee_near; auto | intros; apply vee3'; reflexivity | auto]. }
    pose proof (rot_bounded _ _ RX RV (fun _ => eq_refl)) as Rb.
    assert (Hform : forall p, mvec (se3_adj (se3_exp (X p))) (V p) = vadd (rotate (quat_exp (rotv (X p))) (trav (V p))) (cross (vee (rotv (X p)) (trav (X p))) (rotate (quat_exp (rotv (X p))) (rotv (V p)))) ++ rotate (quat_exp (rotv (X p))) (rotv (V p))).
    { intros p. rewrite se3_adj_form by auto. rewrite se3_exp_rot, se3_exp_tra. reflexivity. }
    destruct (lt_dec k 3) as [H3|H3].
    + apply (O_ext u 1 (fun p => ((rotate (quat_exp (rotv (X p))) (trav (V p))).[k] - (trav (V p)).[k]) + (cross (vee (rotv (X p)) (trav (X p))) (rotate (quat_exp (rotv (X p))) (rotv (V p)))).[k])).
      { intros p. rewrite Hform, app_nth1 by (cbn; lia). destruct k as [|[|[|k]]]; [| | |lia]; cbn; ring. }
      apply O_add; [apply (rot_one _ (fun p => trav (V p))); auto|]. apply (cross_one (fun p => vee (rotv (X p)) (trav (X p))) (fun p => rotate (quat_exp (rotv (X p))) (rotv (V p)))); auto.
    + eapply O_ext; [|apply (rot_one _ (fun p => rotv (V p)) (k - 3) RX RV (fun _ => eq_refl)); lia]. intros p. cbv beta. rewrite Hform, app_nth2 by (cbn; lia).
      f_equal. destruct k as [|[|[|[|[|[|k]]]]]]; try lia; reflexivity.
Qed.
End Adjoint.
Definition pad (n : nat) (x : list R) : list R := map (fun k => x.[k]) (seq 0 n).
Lemma pad_length n x : length (pad n x) = n. Proof. unfold pad. rewrite map_length. apply seq_length. Qed.
Lemma pad_id n x : length x = n -> pad n x = x.
Proof.
  intros H. apply (nth_ext' _ _ 0); [rewrite pad_length; auto|]. intros i Hi. rewrite pad_length in Hi. unfold pad. rewrite (nth_indep _ 0 (x.[(length x)])) by (rewrite map_length, seq_length; auto).
  rewrite (map_nth (fun k => x.[k])). rewrite seq_nth by auto. reflexivity.
Qed.
Lemma pad_comp n x k : Rabs (pad n x).[k] <= vnorm x.
Proof.
  destruct (lt_dec k n) as [H|H].
  - unfold pad. rewrite (nth_indep _ 0 (x.[(length x)])) by (rewrite map_length, seq_length; auto). rewrite (map_nth (fun k => x.[k])). rewrite seq_nth by auto. apply comp_le_norm.
  - rewrite nth_overflow by (rewrite pad_length; lia). rewrite Rabs_R0. apply norm_pos.
Qed.

Section Group.
Variable raw : lie_ops R (list R).
Hypothesis Hk : known raw.
Notation "a ** b" := (lg_mul raw a b) (at level 40, left associativity).
Notation "a ^-" := (lg_inv raw a) (at level 2, format "a ^-").
Notation n := (lg_dim raw).

(* ---- facts shared by the planar and the spatial groups ---- *)
Lemma k_sized_exp d : sized_pose raw (lg_exp raw d).
Proof. destruct Hk as [[]|Hs]; [reflexivity | reflexivity | apply sized_exp; auto]. Qed.
Lemma k_unit_exp d : unit_pose raw (lg_exp raw d).
Proof.
  destruct Hk as [Hp|Hs]; [|apply unit_exp; auto]. split; [|intros Hs; exfalso; eapply not_both; eauto]. intros _. destruct Hp; apply cs_one.
Qed.
Lemma k_log_length q : length (lg_log raw q) = n.
Proof. destruct Hk as [[]|Hs]; [reflexivity | reflexivity | apply log_length; auto]. Qed.
Lemma k_exp_neg d : length d = n -> lg_exp raw (vneg d) = (lg_exp raw d)^-.
Proof.
  destruct Hk as [Hp|Hs]; [|apply exp_neg; auto]. intros Hd. destruct (planar_modelled raw Hp) as [(G & L & rep & near & Hr & HL & _ & _)].
  rewrite (rp_dim _ _ _ Hr) in Hd. rewrite !(rp_exp _ _ _ Hr) by (rewrite ?vneg_length; auto). rewrite (rp_inv _ _ _ Hr), (ll_exp_neg L near HL); auto.
Qed.
Lemma k_adj_shape g : shaped n n (lg_adj raw g).
Proof. destruct Hk as [[]|Hs]; [| |apply adj_shape; auto]; (split; [reflexivity|]); repeat constructor. Qed.
Lemma k_adj_length g v : length (mvec (lg_adj raw g) v) = n.
Proof. destruct (k_adj_shape g) as (H & _). unfold mvec. rewrite map_length. auto. Qed.
Lemma k_exp_adj g d : sized_pose raw g -> unit_pose raw g -> length d = n -> lg_exp raw (mvec (lg_adj raw g) d) = g ** lg_exp raw d ** g^-.
Proof.
  destruct Hk as [Hp|Hs]; [|apply exp_adj; auto]. intros Lg Ug Hd. destruct (planar_modelled raw Hp) as [(G & L & rep & near & Hr & HL & _ & Hx)].
  destruct (Hx g Lg (proj1 Ug Hp)) as (x & ->). rewrite (rp_adj _ _ _ Hr). rewrite (rp_dim _ _ _ Hr) in Hd. destruct (ll_adj_shape L near HL x) as (Hs' & _).
  rewrite !(rp_exp _ _ _ Hr) by (auto; unfold mvec; rewrite map_length; auto). rewrite (rp_inv _ _ _ Hr), !(rp_mul _ _ _ Hr), (ll_adj L near HL); auto.
Qed.
Lemma k_exp_log q : sized_pose raw q -> unit_pose raw q -> same_pose raw (lg_exp raw (lg_log raw q)) q.
Proof.
  destruct Hk as [Hp|Hs]; [|apply exp_log; auto]. intros Lq Uq. left. destruct (planar_modelled raw Hp) as [(G & L & rep & near & Hr & HL & _ & Hx)].
  destruct (Hx q Lq (proj1 Uq Hp)) as (x & ->). rewrite (rp_log _ _ _ Hr), (rp_exp _ _ _ Hr), (ll_exp_log L near HL); auto. apply (ll_log_dim L near HL).
Qed.
Lemma k_adj_mul a b v : unit_pose raw a -> length v = n -> mvec (lg_adj raw (a ** b)) v = mvec (lg_adj raw a) (mvec (lg_adj raw b) v).
Proof.
  destruct Hk as [[]|[]]; cbn [raw_so2 raw_se2 raw_so3 raw_se3 lg_adj lg_mul lg_dim]; intros Ua Hv.
  - destruct v as [|x [|]]; try discriminate. unfold mvec, vdot, vmul, vsum. cbn [map nth zipw fold_right nadd nmul n0 NumR]. lists; ring.
  - three v. unfold se2_adj, se2_mul. unfold mvec, vdot, vmul, vsum. cbn [map nth zipw fold_right nadd nmul n0 NumR]. lists; ring.
  - rewrite !matrix_rotate by auto. apply rotate_mul.
  - rewrite (se3_adj_form (se3_mul a b)) by auto. rewrite (se3_adj_form b) by auto. rewrite se3_adj_form by (rewrite app_length; reflexivity).
    rewrite rotv_app, trav_app by reflexivity. assert (Ha : norm4 (rot_part a) = 1) by (apply (proj2 Ua); constructor).
    rewrite se3_mul_rot, <- (mul_rot a b), !rotate_mul, se3_mul_tra. f_equal. rewrite rotate_add by reflexivity. rewrite <- cross_rotate by auto.
    apply shift3; reflexivity.
Qed.

(* ---- near the identity ---- *)
Let P := (list R * list R)%type.
Let u (p : P) : R := Rmax (vnorm (fst p)) (vnorm (snd p)).
Lemma u_pos p : 0 <= u p. Proof. unfold u. eapply Rle_trans; [apply norm_pos | apply Rmax_l]. Qed.
Lemma small_of (F : P -> list R) : (forall p, vnorm (F p) <= u p) -> small u F.
Proof.
  intros H k. exists 1, 1. split; [lra|]. split; [lra|]. intros p _. rewrite pow_1, Rmult_1_l. eapply Rle_trans; [apply comp_le_norm | apply H].
Qed.
Lemma small_fst : small u (@fst _ _). Proof. apply small_of. intros p. apply Rmax_l. Qed.
Lemma small_snd : small u (@snd _ _). Proof. apply small_of. intros p. apply Rmax_r. Qed.
Lemma near_log : exists C d, 0 <= C /\ 0 < d /\ forall x y r, length x = n -> length y = n -> vnorm x <= r -> vnorm y <= r -> r <= d ->
  vnorm (vsub (lg_log raw ((lg_exp raw x)^- ** lg_exp raw y)) (vsub y x)) <= C * (r * r).
Proof.
  destruct (all_below u 2 n (fun k p => (lg_log raw (pairs raw fst snd p)).[k] - ((snd p).[k] - (fst p).[k])) u_pos) as (C & d & HC & Hd & H).
  { intros k Hlt. apply log_pair; auto; [apply u_pos | apply small_fst | apply small_snd]. }
  exists (INR n * C), d. pose proof (pos_INR n). split; [apply Rmult_le_pos; auto|]. split; auto. intros x y r Lx Ly Hx Hy Hr.
  assert (Hup : u (x, y) <= r) by (apply Rmax_lub; auto). pose proof (u_pos (x, y)). specialize (H (x, y) ltac:(lra)). unfold pairs in H. cbn [fst snd] in H.
  set (q := (lg_exp raw x)^- ** lg_exp raw y) in *. assert (Ll : length (vsub (lg_log raw q) (vsub y x)) = n) by (rewrite vsub_length; rewrite ?vsub_length; rewrite ?k_log_length; congruence).
  rewrite Rmult_assoc. rewrite <- Ll. apply norm_le_comps; [apply Rmult_le_pos; nra|]. intros k Hlt. rewrite Ll in Hlt.
  rewrite nth_vsub by (rewrite ?vsub_length; rewrite ?k_log_length; congruence). rewrite nth_vsub by congruence. eapply Rle_trans; [apply H; auto|]. apply Rmult_le_compat_l; auto. cbn. rewrite Rmult_1_r. nra.
Qed.
Lemma first_same q p : spatial raw -> sized_pose raw q -> sized_pose raw p -> same_pose raw q p -> 0 <= q.[0] -> 0 < p.[0] -> q = p.
Proof.
  intros Hs Lq Lp [E|(_ & E & _)] H0 H1; auto. exfalso. assert (E0 : q.[0] = - p.[0]); [|lra].
  unfold sized_pose in Lq, Lp. assert (Hl : (4 <= length (lg_one raw))%nat) by (destruct Hs; cbn; lia).
  destruct q as [|a q]; [cbn in Lq; lia|]. destruct p as [|b p]; [cbn in Lp; lia|]. cbn in E. injection E as -> _. reflexivity.
Qed.
Lemma near_exp_log : exists d, 0 < d /\ forall x y, length x = n -> length y = n -> vnorm x <= d -> vnorm y <= d ->
  let q := (lg_exp raw x)^- ** lg_exp raw y in lg_exp raw (lg_log raw q) = q /\ (spatial raw -> 0 < q.[0]).
Proof.
  assert (Hq : forall x y, let q := (lg_exp raw x)^- ** lg_exp raw y in sized_pose raw q /\ unit_pose raw q).
  { intros x y q. split; [apply sized_mul; auto|]. apply unit_mul; auto; [apply unit_inv; auto|]; apply k_unit_exp. }
  destruct (Hk) as [Hp|Hs].
  - exists 1. split; [lra|]. intros x y Lx Ly _ _ q. destruct (Hq x y) as (Lq & Uq). split; [|intros Hs; exfalso; eapply not_both; eauto]. apply (planar_same raw); auto. apply k_exp_log; auto.
  - assert (Hf : O u 2 (fun p => (pairs raw fst snd p).[0] - 1)).
    { destruct Hs.
      - apply (quo_first u u_pos fst snd small_fst small_snd).
      - eapply O_ext; [|apply (quo_first u u_pos _ _ (small_rot u _ small_fst) (small_rot u _ small_snd))]. intros p. cbv beta. rewrite <- se3_pair_rot. reflexivity. }
    destruct (O_small u u_pos 1 _ 1 Hf ltac:(lra)) as (d & Hd & H). exists d. split; auto. intros x y Lx Ly Hx Hy q. destruct (Hq x y) as (Lq & Uq). fold q in Lq, Uq.
    specialize (H (x, y) (Rmax_lub _ _ _ Hx Hy)). change (pairs raw fst snd (x, y)) with q in H. apply Rabs_def2 in H. assert (H0 : 0 < q.[0]) by lra. split; [|auto].
    apply first_same; auto; [apply k_sized_exp | apply k_exp_log; auto|]. rewrite (exp_first raw Hs) by apply k_log_length. pose proof PI_RGT_0.
    assert (Hr : 0 <= rotation_angle raw (lg_log raw q) <= PI).
    { split; [apply len3_pos|]. pose proof (proj2 Uq Hs) as Uq4. unfold rotation_angle. destruct Hs; cbn [lg_log lg_dim raw_so3 raw_se3 Nat.sub].
      - apply quat_log_len; auto.
      - rewrite se3_log_form. rewrite skipn_app, skipn_all2, lin3_length by (rewrite ?lin3_length; reflexivity). cbn [Nat.sub skipn app]. apply quat_log_len; [reflexivity | exact Uq4]. }
    apply cos_ge_0; lra.
Qed.
Lemma near_adj : exists C d, 0 <= C /\ 0 < d /\ forall x v, length v = n -> vnorm x <= d ->
  vnorm (vsub (mvec (lg_adj raw (lg_exp raw x)) v) v) <= C * vnorm x * vnorm v.
Proof.
  pose (u1 := fun p : P => vnorm (fst p)). pose (V := fun p : P => vscale (/ vnorm (snd p)) (pad n (snd p))).
  assert (Hu1 : forall p, 0 <= u1 p) by (intros; apply norm_pos). assert (LV : forall p, length (V p) = n) by (intros; unfold V, vscale; rewrite map_length; apply pad_length).
  assert (Hs : small u1 (@fst (list R) (list R))). { intros k. exists 1, 1. split; [lra|]. split; [lra|]. intros p _. rewrite pow_1, Rmult_1_l. apply comp_le_norm. }
  assert (Hb : bounded u1 V).
  { intros k. exists 1, 1. split; [lra|]. split; [lra|]. intros p _. cbn. rewrite Rmult_1_r. unfold V. rewrite nth_vscale, Rabs_mult.
    destruct (Req_dec (vnorm (snd p)) 0) as [E|E].
    - pose proof (pad_comp n (snd p) k) as H. rewrite E in H. pose proof (Rabs_pos (pad n (snd p)).[k]). replace (Rabs (pad n (snd p)).[k]) with 0 by lra. lra.
    - pose proof (norm_pos (snd p)). assert (0 < vnorm (snd p)) by lra. rewrite Rabs_inv, (Rabs_pos_eq (vnorm (snd p))) by lra.
      apply (Rmult_le_reg_l (vnorm (snd p))); auto. rewrite <- Rmult_assoc, Rinv_r, Rmult_1_l, Rmult_1_r by lra. apply pad_comp. }
  destruct (all_below u1 1 n (fun k p => (mvec (lg_adj raw (lg_exp raw (fst p))) (V p)).[k] - (V p).[k]) Hu1) as (C & d & HC & Hd & H).
  { intros k Hlt. apply adj_one; auto. }
  pose proof (pos_INR n) as Hn. exists (INR n * C), d. split; [apply Rmult_le_pos; auto|]. split; auto. intros x v Lv Hx. specialize (H (x, v) Hx). cbn [fst] in H. unfold u1 in H. cbn [fst pow] in H.
  pose proof (norm_pos x) as Px. pose proof (norm_pos v) as Pv. assert (Ll : length (vsub (mvec (lg_adj raw (lg_exp raw x)) v) v) = n) by (rewrite vsub_length; rewrite k_adj_length; congruence).
  replace (INR n * C * vnorm x * vnorm v) with (INR n * (C * vnorm x * vnorm v)) by ring. rewrite <- Ll at 1. apply norm_le_comps; [repeat apply Rmult_le_pos; auto|].
  intros k Hlt. rewrite Ll in Hlt. specialize (H k Hlt). rewrite nth_vsub by (rewrite k_adj_length; congruence).
  destruct (Req_dec (vnorm v) 0) as [E|E].
  - assert (Ez : v = vscale 0 v). { apply (nth_ext' _ _ 0); [unfold vscale; rewrite map_length; auto|]. intros i _. rewrite nth_vscale. pose proof (comp_le_norm v i) as Hc. rewrite E in Hc.
      pose proof (Rabs_pos v.[i]). destruct (Req_dec v.[i] 0) as [->|Hne]; [ring|]. apply Rabs_pos_lt in Hne. lra. }
    rewrite Ez, mvec_vscale', !nth_vscale. rewrite Rmult_0_l, Rmult_0_l, Rminus_0_r, Rabs_R0. repeat apply Rmult_le_pos; auto. apply norm_pos.
  - assert (Ev : v = vscale (vnorm v) (V (x, v))).
    { unfold V. cbn [snd]. rewrite pad_id by auto. rewrite PTwin2.vscale_vscale. rewrite Rinv_r by auto. symmetry. apply scale1. }
    set (w := V (x, v)) in *. set (c := vnorm v) in *. clearbody w c. rewrite Ev, mvec_vscale', !nth_vscale. rewrite <- Rmult_minus_distr_l, Rabs_mult, Rabs_pos_eq by auto. rewrite Rmult_1_r in H. rewrite (Rmult_comm (C * vnorm x)). apply Rmult_le_compat_l; auto.
Qed.
End Group.
