(* Proofs: on a consistent pose graph the Gauss-Newton iterates converge to one set of poses that fits exactly. *)
From Coq Require Import List Arith Bool Lia Reals Lra Psatz.
From Verif Require Import Num NumR Py Arr MLayout MAssign MNoise MSparse MFactor MGraph MLinear MSolver MLie MPose SpecLayout SpecTree SpecAssign SpecNoise SpecGraph SpecLie SpecPose SpecZero SpecSpatial SpecTwin SpecInv SpecOrder SpecSolver SpecSym SpecFrame SpecBook SpecNear SpecBasin SpecGauge PGraph PVec PLie PPose PFrame PExSym PSolverR PNoise PDescent PLocal PLin PLinDl POrder PDeriv PTwin2 PFree PZero PJacZero PNear PSpatial PSpatial2 PSpatial3 PSpatial4 PBook PBasin4 PBasin5 PBasin6 PBasin7 PBasin8 PBasin9 PBasin10 PBasin11 PBasin12 PGauge PGauge2 PGauge3 SpecLoose PGauge4 PLoose PLoose2 PLoose3 SpecDrift PDrift PDrift2 PRobust6 PBasin PBasin2.
Import ListNotations.
Local Open Scope R_scope.
Notation moved := SpecBook.moved.

Section Close.
Context {P : Type}.
Variable u : P -> R.
Hypothesis Hu : forall p, 0 <= u p.
Definition cl (f : P -> R) (c : R) : Prop := O u 1 (fun p => f p - c).
Lemma cl_const c : cl (fun _ => c) c. Proof. unfold cl. apply (O_ext u 1 (fun _ => 0)); [intros; ring | apply O_zero]. Qed.
Lemma cl_add f g c d : cl f c -> cl g d -> cl (fun p => f p + g p) (c + d).
Proof. intros H1 H2. unfold cl. apply (O_ext u 1 (fun p => (f p - c) + (g p - d))); [intros; ring | apply O_add; auto]. Qed.
Lemma cl_sub f g c d : cl f c -> cl g d -> cl (fun p => f p - g p) (c - d).
Proof. intros H1 H2. unfold cl. apply (O_ext u 1 (fun p => (f p - c) - (g p - d))); [intros; ring | apply O_sub; auto]. Qed.
Lemma cl_opp f c : cl f c -> cl (fun p => - f p) (- c).
Proof. intros H1. unfold cl. apply (O_ext u 1 (fun p => - (f p - c))); [intros; ring | apply O_opp; auto]. Qed.
Lemma cl_mul f g c d : cl f c -> cl g d -> cl (fun p => f p * g p) (c * d).
Proof. intros H1 H2. unfold cl. apply (O_ext u 1 (fun p => f p * (g p - d) + (f p - c) * d)); [intros; ring|]. apply O_add; [|apply O_10; [exact H1 | apply O_const]]. apply (O_mul_0 u 1); [apply (O_around u Hu 1 c); auto | exact H2]. Qed.
Ltac cls := repeat first [assumption | apply cl_const | apply cl_add | apply cl_sub | apply cl_mul | apply cl_opp].
Variable X : P -> list R.
Variable x : list R.
Hypothesis HX : forall i, cl (fun p => (X p).[i]) x.[i].
Lemma mul_cl raw y k : PZero.known raw -> cl (fun p => (lg_mul raw (X p) y).[k]) (lg_mul raw x y).[k].
Proof.
  pose proof (HX 0) as X0. pose proof (HX 1) as X1. pose proof (HX 2) as X2. pose proof (HX 3) as X3. pose proof (HX 4) as X4. pose proof (HX 5) as X5. pose proof (HX 6) as X6.
  intros [[]|[]]; cbn [raw_so2 raw_se2 raw_so3 raw_se3 lg_mul].
  - destruct k as [|[|k]]; [cbn; rn; cls | cbn; rn; cls | destruct k; cbn; apply cl_const].
  - destruct k as [|[|[|[|k]]]]; [cbn; rn; cls | cbn; rn; cls | cbn; rn; cls | cbn; rn; cls | destruct k; cbn; apply cl_const].
  - destruct k as [|[|[|[|k]]]]; [cbn; rn; cls | cbn; rn; cls | cbn; rn; cls | cbn; rn; cls | destruct k; cbn; apply cl_const].
  - assert (Hf : forall q, se3_mul q y = quat_mul (rot_part q) (rot_part y) ++ vadd (rotate (rot_part q) (tra_part y)) (tra_part q)) by (intros q; unfold se3_mul; rewrite apply_rotate; auto).
    unfold cl. rewrite Hf. eapply O_ext; [intros p; rewrite Hf; reflexivity|].
    change (cl (fun p => (quat_mul (rot_part (X p)) (rot_part y) ++ vadd (rotate (rot_part (X p)) (tra_part y)) (tra_part (X p))).[k]) (quat_mul (rot_part x) (rot_part y) ++ vadd (rotate (rot_part x) (tra_part y)) (tra_part x)).[k]).
    destruct k as [|[|[|[|[|[|[|k]]]]]]]; [cbn; rn; cls | cbn; rn; cls | cbn; rn; cls | cbn; rn; cls | cbn; rn; cls | cbn; rn; cls | cbn; rn; cls | destruct k; cbn; apply cl_const].
Qed.
Lemma norm2_cl : cl (fun p => norm2 (X p)) (norm2 x).
Proof. pose proof (HX 0) as X0. pose proof (HX 1) as X1. unfold norm2. cbn. rn. cls. Qed.
Lemma norm4_cl : cl (fun p => norm4 (X p)) (norm4 x).
Proof. pose proof (HX 0) as X0. pose proof (HX 1) as X1. pose proof (HX 2) as X2. pose proof (HX 3) as X3. unfold norm4. cbn. rn. cls. Qed.
End Close.

(* limits of parameter vectors *)
Definition touches (S : list R -> Prop) (x : list R) : Prop := forall d, 0 < d -> exists x', S x' /\ forall i, Rabs (x'.[i] - x.[i]) <= d.
Definition fam (x : list R) : Type := {q : list R * R | 0 <= snd q /\ forall i, Rabs ((fst q).[i] - x.[i]) <= snd q}.
Definition fu {x} (q : fam x) : R := snd (proj1_sig q).
Definition fx {x} (q : fam x) : list R := fst (proj1_sig q).
Lemma fu_pos x (q : fam x) : 0 <= fu q. Proof. apply (proj2_sig q). Qed.
Lemma fam_cl x i : cl (@fu x) (fun q => (fx q).[i]) x.[i].
Proof. exists 1, 1. split; [lra|]. split; [lra|]. intros q _. rewrite pow_1, Rmult_1_l. apply (proj2_sig q). Qed.
(* a function close to c everywhere near x and always c on S is c at x *)
Lemma touch_same (S : list R -> Prop) x (f : list R -> R) c : touches S x -> cl (@fu x) (fun q => f (fx q)) (f x) -> (forall x', S x' -> f x' = c) -> f x = c.
Proof.
  intros HT (K & d & HK & Hd & H) HS. apply cond_eq. intros eps He. set (b := Rmin d (eps / 2 / (K + 1))). assert (Hb : 0 < b) by (apply Rmin_pos; auto; apply Rdiv_lt_0_compat; lra).
  destruct (HT b Hb) as (x' & Sx & Hx). pose (q := exist _ (x', b) (conj (Rlt_le _ _ Hb) Hx) : fam x). specialize (H q (Rmin_l _ _)). unfold fx, fu in H. cbn in H. rewrite Rmult_1_r, (HS x' Sx) in H.
  rewrite Rabs_minus_sym. pose proof (small_mul (eps / 2) K b ltac:(lra) HK (Rmin_r _ _) ltac:(lra)). lra.
Qed.
Lemma touch_unit raw (S : list R -> Prop) x : (forall x', S x' -> unit_pose raw x') -> touches S x -> unit_pose raw x.
Proof.
  intros HS HT. split; intros Hr.
  - apply (touch_same S x norm2 1 HT); [apply norm2_cl; [apply fu_pos | apply fam_cl] | intros x' H; apply (HS x' H); auto].
  - apply (touch_same S x norm4 1 HT); [apply norm4_cl; [apply fu_pos | apply fam_cl] | intros x' H; apply (HS x' H); auto].
Qed.

Section Graph.
Variable groups : vty -> lie_ops R (list R).
Variable fs : list (factor R).
Variable z : var -> pytree R.
Hypothesis SB : solved_by groups fs z.
Let E := pose_env groups.

(* the exact fits reached from z by unseen motions form a closed set *)
Lemma alike_closed w : (forall v, In v (mentioned fs) -> exists p, w v = group_value (v_ty v) p /\ sized_pose (groups (v_ty v)) p) ->
  (forall d, 0 < d -> exists w', alike groups fs z w' /\ within fs d w w') -> alike groups fs z w.
Proof.
  intros Lw HT. set (fr := fun v => lg_mul (groups (v_ty v)) (params (w v)) (lg_inv (groups (v_ty v)) (params (z v)))).
  assert (Hback : forall v x, In v (mentioned fs) -> sized_pose (groups (v_ty v)) x -> lg_mul (groups (v_ty v)) (lg_mul (groups (v_ty v)) x (lg_inv (groups (v_ty v)) (params (z v)))) (params (z v)) = x).
  { intros v x Hv Lx. destruct (proper_z groups fs z SB v Hv) as (p & Ep & Lp & Up). pose proof (kn groups fs z SB v Hv) as Hk. rewrite Ep, params_value, raw_assoc, inv_l by auto. apply mul_one; auto. }
  assert (Hof : forall v x, In v (mentioned fs) -> sized_pose (groups (v_ty v)) x -> lg_mul (groups (v_ty v)) (lg_mul (groups (v_ty v)) x (params (z v))) (lg_inv (groups (v_ty v)) (params (z v))) = x).
  { intros v x Hv Lx. destruct (proper_z groups fs z SB v Hv) as (p & Ep & Lp & Up). pose proof (kn groups fs z SB v Hv) as Hk. rewrite Ep, params_value, raw_assoc, inv_r by auto. apply mul_one; auto. }
  exists fr. split; [|intros v Hv; destruct (Lw v Hv) as (p & Ep & Lp); unfold fr; rewrite Ep, params_value, Hback by auto; auto].
  assert (Lfr : forall v, In v (mentioned fs) -> length (fr v) = length (lg_one (groups (v_ty v)))) by (intros v Hv; apply raw_mul_length; apply (kn groups fs z SB); auto).
  (* the frames of the approximations *)
  set (Sv := fun v x' => exists f', unseen_motion groups fs f' /\ x' = params (group_value (v_ty v) (lg_mul (groups (v_ty v)) (f' v) (params (z v))))).
  assert (Tv : forall v, In v (mentioned fs) -> touches (Sv v) (params (w v))).
  { intros v Hv d Hd. destruct (HT d Hd) as (w' & (f' & Hu' & Hf') & Hw). exists (params (w' v)). split; [exists f'; split; auto; rewrite <- (Hf' v Hv); auto | intros i; apply Hw; auto]. }
  constructor.
  - intros v Hv. pose proof (kn groups fs z SB v Hv) as Hk. destruct (proper_z groups fs z SB v Hv) as (p & Ep & Lp & Up). apply unit_mul; auto; [|apply unit_inv; auto; rewrite Ep, params_value; auto].
    apply (touch_unit _ (Sv v)); [|apply Tv; auto]. intros x' (f' & Hu' & ->). rewrite params_value. apply unit_mul; auto; [apply (um_unit _ _ _ Hu' v Hv) | rewrite Ep, params_value; auto].
  - intros v mu n Hf. assert (Hv : In v (mentioned fs)) by (apply (men fs _ v Hf); cbn; auto). pose proof (kn groups fs z SB v Hv) as Hk. apply (nth_ext _ _ 0 0); [apply Lfr; auto|]. intros i _.
    apply (touch_same (Sv v) (params (w v)) (fun x => (lg_mul (groups (v_ty v)) x (lg_inv (groups (v_ty v)) (params (z v)))).[i])); [apply Tv; auto | apply mul_cl; auto; [apply fu_pos | apply fam_cl]|].
    intros x' (f' & Hu' & ->). rewrite params_value, (um_prior _ _ _ Hu' v mu n Hf), Hof; auto. reflexivity.
  - intros va vb Tab n f Hb Hf. destruct (between_inv _ _ _ _ _ Hb) as (Hty & Ef). assert (Ha : In va (mentioned fs)) by (apply (men fs f va Hf); rewrite Ef; cbn; auto). assert (Hvb : In vb (mentioned fs)) by (apply (men fs f vb Hf); rewrite Ef; cbn; auto).
    set (raw := groups (v_ty va)). assert (Eraw : groups (v_ty vb) = raw) by (unfold raw; rewrite Hty; auto). pose proof (kn groups fs z SB va Ha) as Hk. fold raw in Hk.
    apply (nth_ext _ _ 0 0); [rewrite (Lfr va Ha), (Lfr vb Hvb), Eraw; auto|]. intros i _. unfold fr. rewrite Eraw. fold raw. set (ya := lg_inv raw (params (z va))). set (yb := lg_inv raw (params (z vb))).
    apply cond_eq. intros eps He. destruct (mul_cl _ (fu_pos _) _ _ (fam_cl (params (w va))) raw ya i Hk) as (K1 & d1 & HK1 & Hd1 & H1). destruct (mul_cl _ (fu_pos _) _ _ (fam_cl (params (w vb))) raw yb i Hk) as (K2 & d2 & HK2 & Hd2 & H2).
    destruct (min4 d1 d2 (eps / 3 / (K1 + 1)) (eps / 3 / (K2 + 1))) as (b & Hbp & B1 & B2 & B3 & B4); auto; try (apply Rdiv_lt_0_compat; lra).
    destruct (HT b Hbp) as (w' & (f' & Hu' & Hf') & Hw).
    pose (q1 := exist _ (params (w' va), b) (conj (Rlt_le _ _ Hbp) (fun i => Hw va Ha i)) : fam (params (w va))). pose (q2 := exist _ (params (w' vb), b) (conj (Rlt_le _ _ Hbp) (fun i => Hw vb Hvb i)) : fam (params (w vb))).
    specialize (H1 q1 B1). specialize (H2 q2 B2). unfold fx, fu in H1, H2. cbn [q1 q2 proj1_sig fst snd] in H1, H2. rewrite pow_1 in H1, H2.
    pose proof (small_mul (eps / 3) K1 b ltac:(lra) HK1 B3 ltac:(lra)) as Q1. pose proof (small_mul (eps / 3) K2 b ltac:(lra) HK2 B4 ltac:(lra)) as Q2.
    rewrite (Hf' va Ha), params_value in H1. rewrite (Hf' vb Hvb), params_value, Eraw in H2. fold raw in H1.
    assert (Sz : forall v, In v (mentioned fs) -> groups (v_ty v) = raw -> forall f0, lg_mul raw (lg_mul raw f0 (params (z v))) (lg_inv raw (params (z v))) = lg_mul raw f0 (lg_one raw)).
    { intros v Hv Ev f0. destruct (proper_z groups fs z SB v Hv) as (p & Ep & Lp & Up). rewrite Ev in Lp, Up. rewrite Ep, params_value, raw_assoc, inv_r by auto. auto. }
    unfold ya in H1. unfold yb in H2. rewrite (Sz va Ha Logic.eq_refl) in H1. rewrite (Sz vb Hvb Eraw), <- (um_between _ _ _ Hu' va vb Tab n f Hb Hf) in H2. fold ya in H1. fold yb in H2.
    set (c := (lg_mul raw (f' va) (lg_one raw)).[i]) in *.
    replace ((lg_mul raw (params (w va)) ya).[i] - (lg_mul raw (params (w vb)) yb).[i]) with ((c - (lg_mul raw (params (w vb)) yb).[i]) - (c - (lg_mul raw (params (w va)) ya).[i])) by ring.
    eapply Rle_lt_trans; [apply Rabs_triang|]. rewrite Rabs_Ropp. lra.
Qed.


(* one step from the same poses ends at the same poses *)
Lemma gn_same a a' b b' : proper groups fs a -> (forall v, In v (mentioned fs) -> a' v = a v) -> gauss_newton_turn E fs a b -> gauss_newton_turn E fs a' b' -> proper groups fs b /\ forall v, In v (mentioned fs) -> b' v = b v.
Proof.
  intros Pa Ha (xi & D1 & M1) (xi' & D2 & M2). split; [eapply (proper_moved groups fs z SB); eauto|].
  assert (La : forall v, In v (mentioned fs) -> value_ok (e_cls E (v_ty v)) (a v)) by (intros v Hv; apply pose_value_ok; destruct (Pa v Hv) as (p & Ep & Lp & _); exists p; auto).
  destruct (carried_still groups fs z SB a La) as (fr & Hu & Hc). assert (Hc' : carried groups fs fr a a') by (intros v Hv; rewrite (Ha v Hv); apply Hc; auto).
  apply (carried_damped groups fs z SB fr Hu _ a a' xi' La Hc') in D2. fold E in D2. assert (Ag : agree fs xi' xi).
  { destruct D1 as (T1 & O1), D2 as (T2 & O2). apply (O1 xi' T2). apply (O2 xi T1). }
  intros v Hv. specialize (M1 v Hv). specialize (M2 v Hv). rewrite (Ha v Hv), (Ag v Hv) in M2. congruence.
Qed.
Lemma gns_same k : forall a a' b b', proper groups fs a -> (forall v, In v (mentioned fs) -> a' v = a v) -> turns (gauss_newton_turn E fs) k a b -> turns (gauss_newton_turn E fs) k a' b' -> forall v, In v (mentioned fs) -> b' v = b v.
Proof.
  induction k as [|k IH]; intros a a' b b' Pa Ha H1 H2; inversion H1; inversion H2; subst; auto. destruct (gn_same a a' y y0 Pa Ha) as (Py & Hy); auto. apply (IH y y0); auto.
Qed.

Lemma geometric (s : nat -> R) D q : 0 <= q < 1 -> 0 <= D -> (forall j k, (j <= k)%nat -> Rabs (s k - s j) <= D * q ^ j) -> exists L, forall j, Rabs (L - s j) <= D * q ^ j.
Proof.
  intros Hq HD H. destruct (R_complete s) as (L & HL).
  - intros eps He. destruct (pow_lt_1_zero q) with (y := eps / 3 / (D + 1)) as (N & HN); [rewrite Rabs_pos_eq; lra | apply Rdiv_lt_0_compat; lra|]. exists N. intros n m0 Hn Hm. unfold R_dist.
    pose proof (H N n Hn) as H1. pose proof (H N m0 Hm) as H2. specialize (HN N (le_n _)). assert (Pq : 0 <= q ^ N) by (apply pow_le; lra). rewrite Rabs_pos_eq in HN by auto. pose proof (small_mul (eps / 3) D (q ^ N) ltac:(lra) HD (Rlt_le _ _ HN) Pq) as Q.
    replace (s n - s m0) with ((s n - s N) - (s m0 - s N)) by ring. eapply Rle_lt_trans; [apply Rabs_triang|]. rewrite Rabs_Ropp. lra.
  - exists L. intros j. apply le_epsilon. intros eps He. destruct (HL eps He) as (N & HN). specialize (HN (Nat.max N j) (Nat.le_max_l _ _)). unfold R_dist in HN. specialize (H j (Nat.max N j) (Nat.le_max_r _ _)).
    replace (L - s j) with ((s (Nat.max N j) - s j) - (s (Nat.max N j) - L)) by ring. eapply Rle_trans; [apply Rabs_triang|]. rewrite Rabs_Ropp. lra.
Qed.

Lemma pick_vars {X} (d : X) (Q : var -> X -> Prop) l : (forall v, In v l -> exists x, Q v x) -> exists f, forall v, In v l -> Q v (f v).
Proof.
  induction l as [|v l IH]; intros H; [exists (fun _ => d); intros v []|]. destruct IH as (f & Hf); [intros; apply H; right; auto|]. destruct (H v (or_introl Logic.eq_refl)) as (x & Hx).
  exists (fun w => if eqb w v then x else f w). intros w Hw. destruct (eqb w v) eqn:Ew; [apply eqb_ok in Ew; subst; auto|]. destruct Hw as [->|Hw]; auto. rewrite (proj2 (eqb_ok w w)) in Ew; [discriminate|auto].
Qed.

(* the iterates have a limit, and it fits exactly *)
Lemma gn_limit C q e val (vk : nat -> var -> pytree R) : 0 <= q < 1 -> 0 <= C -> proper groups fs val ->
  (forall j b, turns (gauss_newton_turn E fs) j val b -> (forall k c, turns (gauss_newton_turn E fs) k b c -> within fs (C * q ^ j * size fs e) b c) /\ exists w, alike groups fs z w /\ within fs (C * q ^ j * size fs e) b w) ->
  (forall k, exists val', turns (gauss_newton_turn E fs) k val val' /\ forall v, In v (mentioned fs) -> vk k v = val' v) ->
  exists w, alike groups fs z w /\ forall k val', turns (gauss_newton_turn E fs) k val val' -> within fs (C * q ^ k * size fs e) val' w.
Proof.
  intros Hq HC Pv HD Hk. pose proof (size_pos fs e) as Pe. set (D := C * size fs e). assert (HDp : 0 <= D) by (apply Rmult_le_pos; auto). assert (ED : forall j, C * q ^ j * size fs e = D * q ^ j) by (intros; unfold D; ring).
  assert (HS : forall j k, (j <= k)%nat -> within fs (D * q ^ j) (vk j) (vk k)).
  { intros j k Hjk. destruct (Hk j) as (bj & Tj & Ej). destruct (Hk k) as (bk & Tk & Ek). replace k with (j + (k - j))%nat in Tk by lia. destruct (turns_cut _ _ _ _ _ Tk) as (b & T1 & T2).
    destruct (HD j b T1) as (W & _). specialize (W _ _ T2). rewrite ED in W. intros v Hv i. rewrite (Ej v Hv), (Ek v Hv), (gns_same j val val b bj Pv ltac:(auto) T1 Tj v Hv). apply W; auto. }
  assert (HL : forall v, In v (mentioned fs) -> exists p, length p = length (lg_one (groups (v_ty v))) /\ forall j i, (i < length (lg_one (groups (v_ty v))))%nat -> Rabs (nth i p 0 - nth i (params (vk j v)) 0) <= D * q ^ j).
  { intros v Hv. destruct (choose (length (lg_one (groups (v_ty v)))) (fun i L => forall j, Rabs (L - nth i (params (vk j v)) 0) <= D * q ^ j)) as (p & Lp & Hp); [|exists p; split; auto].
    intros i _. apply (geometric (fun k => nth i (params (vk k v)) 0) D q Hq HDp). intros j k Hjk. apply HS; auto. }
  destruct (pick_vars [] _ _ HL) as (w0 & Hw0). set (w := fun v => group_value (v_ty v) (w0 v)).
  assert (Pk : forall k val', turns (gauss_newton_turn E fs) k val val' -> proper groups fs val').
  { intros k. clear -Pv SB. revert val Pv. induction k as [|k IH]; intros val Pv val' H; inversion H; subst; auto. apply (IH y); auto. destruct H1 as (xi & _ & M). eapply (proper_moved groups fs z SB); eauto. }
  assert (HW : forall k val', turns (gauss_newton_turn E fs) k val val' -> within fs (D * q ^ k) val' w).
  { intros k val' Hkv v Hv i. destruct (Hw0 v Hv) as (Lp & Hp). unfold w. rewrite params_value. destruct (Hk k) as (b & Tb & Eb).
    assert (Ev : vk k v = val' v) by (rewrite (Eb v Hv); apply (gns_same k val val val' b Pv ltac:(auto) Hkv Tb v Hv)). destruct (lt_dec i (length (lg_one (groups (v_ty v))))) as [Hi|Hi]; [rewrite <- Ev; apply Hp; auto|].
    destruct (Pk k val' Hkv v Hv) as (p & Ep & Lx & _). rewrite Ep, params_value, (nth_overflow p), nth_overflow by (try rewrite Lx; lia). rewrite Rminus_0_r, Rabs_R0. apply Rmult_le_pos; auto. apply pow_le. lra. }
  exists w. split; [|intros k val' Hkv; rewrite ED; auto]. apply alike_closed; [intros v Hv; exists (w0 v); split; auto; apply (Hw0 v Hv)|].
  intros d Hd. destruct (pow_lt_1_zero q) with (y := d / 2 / (D + 1)) as (N & HN); [rewrite Rabs_pos_eq; lra | apply Rdiv_lt_0_compat; lra|]. specialize (HN N (le_n _)). assert (Pq : 0 <= q ^ N) by (apply pow_le; lra). rewrite Rabs_pos_eq in HN by auto. pose proof (small_mul (d / 2) D (q ^ N) ltac:(lra) HDp (Rlt_le _ _ HN) Pq) as Q.
  destruct (Hk N) as (b & Tb & _). destruct (HD N b Tb) as (_ & w' & Aw & Ww). exists w'. split; auto. rewrite ED in Ww. eapply within_more; [|eapply within_then; [apply within_sym, (HW N b Tb) | exact Ww]]. lra.
Qed.
End Graph.
