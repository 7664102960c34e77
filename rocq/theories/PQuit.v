(* Proofs: on a consistent pose graph a short step means a small error, whatever the connections. *)
From Coq Require Import List Arith Bool ZArith Lia Reals Lra Psatz.
From Verif Require Import Num NumR Py Arr MLayout MAssign MNoise MSparse MFactor MGraph MLinear MSolver MLie MPose SpecLayout SpecTree SpecAssign SpecNoise SpecGraph SpecLie SpecPose SpecZero SpecSpatial SpecTwin SpecInv SpecOrder SpecSolver SpecSym SpecFrame SpecBook SpecNear SpecBasin SpecGauge PGraph PVec PLie PPose PFrame PExSym PSolverR PNoise PDescent PLocal PLin PLinDl POrder PDeriv PTwin2 PFree PZero PJacZero PNear PSpatial PSpatial2 PSpatial3 PSpatial4 PBook PBasin4 PBasin5 PBasin6 PBasin7 PBasin8 PBasin9 PBasin10 PBasin11 PBasin12 PGauge PGauge2 PGauge3 SpecLoose PGauge4 PLoose PLoose2 PLoose3 SpecDrift PDrift PDrift2 PFinish PPoseStop PHold PBase PLayout.
Import ListNotations.
Local Open Scope R_scope.
Notation moved := SpecBook.moved.

Lemma square_drop a b x : 0 <= a -> 0 <= b -> 0 <= x -> b <= x + a -> b * b - 2 * a * b <= x * x.
Proof. intros Ha Hb Hx H. destruct (Rle_or_lt b a) as [H1|H1]; nra. Qed.

Section Graph.
Variable groups : vty -> lie_ops R (list R).
Variable fs : list (factor R).
Variable z : var -> pytree R.
Hypothesis SB : solved_by groups fs z.
Variable rt : var -> option var.
Hypothesis HPa : parts fs rt.
Let E := pose_env groups.
Notation field := (var -> list R).
Notation LL := (LL groups fs).
Notation RR := (RR groups fs).
Notation fixes e := (rooted groups fs rt e).
Notation lst := (lst groups fs z rt).

Lemma step_long b0 b1 : 0 < b0 -> b0 <= b1 -> exists h rho, 0 < h /\ 0 < rho /\ forall beta val e xi p, b0 <= beta <= b1 -> apart groups fs z val e -> fixes e -> 0 < size fs e <= rho ->
  damped_step E fs beta val val xi -> moved E fs val xi p -> h * size fs e <= size fs xi.
Proof.
  intros Hb0 Hb1. destruct (slice_near groups fs z SB (rooted groups fs rt) (parts_lower groups fs z SB rt HPa)) as (m & M & d & Hm & HM & Hd & HS). destruct (slice_step groups fs z SB (rooted groups fs rt) m M d Hm HM Hd HS b0 b1 Hb0 Hb1) as (q & G & P & rho1 & Hq & HG & HP & Hr1 & Hrd & HT).
  destruct (graph_near groups fs z SB) as (K & d1 & HK & Hd1 & HN). destruct (LL_bounded groups fs z SB) as (B & HB0 & HB).
  destruct (min4 rho1 d1 (1 / 2 / (P + 1)) 1) as (rho & Hrho & A1 & A2 & A3 & A4); auto; try lra; [apply Rdiv_lt_0_compat; lra|].
  set (L := B + K + 1). assert (HL : 0 < L) by (unfold L; lra). exists ((1 - q) * m / (3 * L)), rho. split; [apply Rdiv_lt_0_compat; [apply Rmult_lt_0_compat; lra | lra]|]. split; auto.
  intros beta val e xi p Hb (Te & w & Hw & fr & Hu & Hfr) Hf (Hpos & Hs) Hdm Hp. pose proof (legal_of groups fs z SB e w Hw) as Lw.
  apply (carried_damped groups fs z SB fr Hu beta w val xi Lw Hfr) in Hdm. destruct (carried_moved groups fs z SB fr w val xi p Hfr Hp) as (p0 & Hp0 & _). pose proof Hdm as (Tx & _). fold E in Hdm, Tx.
  destruct (HT beta w e xi p0 Hb Te Hf ltac:(lra) Hw Hdm Hp0) as (_ & B2 & B3 & _). specialize (B3 Hpos). fold E in B2, B3. destruct (HS e w Te Hf ltac:(lra) Hw) as (HC & C1 & _). fold E in HC.
  destruct (HN e w (size fs e) Te (Rle_refl _) ltac:(lra) Hw) as ((_ & HMod) & _ & HJ). fold E in HMod. specialize (HJ xi Tx). pose proof (HB xi Tx) as HBx.
  pose proof (damped_zero groups fs z SB beta w e xi Hw ltac:(lra) Hdm HMod HC) as HZ. fold E in HZ. rewrite (HMod xi Tx) in HZ.
  pose proof (LL_len groups fs z SB w xi Lw) as L1. pose proof (LL_len groups fs z SB z xi (legal_z groups fs z SB)) as L2. pose proof (RR_len groups fs z SB w Lw) as L3. pose proof (size_pos fs xi) as Px.
  assert (HLL : vnorm (LL w xi) <= L * size fs xi).
  { pose proof (norm_split (LL w xi) (LL z xi) ltac:(congruence)) as Q. assert (K * size fs e * size fs xi <= K * 1 * size fs xi) by (apply Rmult_le_compat_r; auto; apply Rmult_le_compat_l; auto; lra). unfold L. lra. }
  set (c := cost_at E fs w) in *. set (mo := sumsq (vadd (LL w xi) (RR w))) in *. destruct (vnorm_sq (RR w)) as (Y0 & Y1). destruct (vnorm_sq (vadd (LL w xi) (RR w))) as (Y2 & Y3). fold mo in Y3. rewrite <- HC in Y1.
  assert (Tri : vnorm (RR w) <= vnorm (vadd (LL w xi) (RR w)) + vnorm (LL w xi)).
  { rewrite <- (norm_neg (LL w xi)). eapply Rle_trans; [|apply norm_add; rewrite vadd_length, vneg_length; congruence]. right. f_equal. apply (nth_ext' _ _ 0); [rewrite !vadd_length; rewrite ?vneg_length; rewrite ?vadd_length; congruence|]. intros i _. rewrite !nth_vadd, nth_vneg by (rewrite ?vneg_length; rewrite ?vadd_length; congruence). ring. }
  pose proof (norm_pos (LL w xi)) as Y4. pose proof (square_drop (vnorm (LL w xi)) (vnorm (RR w)) (vnorm (vadd (LL w xi) (RR w))) Y4 Y0 Y2 Tri) as SD. rewrite Y1, Y3 in SD.
  unfold quality in B3. rewrite (HMod xi Tx) in B3. fold c mo in B3. set (c' := cost_at E fs p0) in *. pose proof (small_mul (1 / 2) P (size fs e) ltac:(lra) HP ltac:(lra) ltac:(lra)) as Hhalf.
  assert (Hmc : mo <= c) by (assert (0 <= beta * (size fs xi * size fs xi)) by (apply Rmult_le_pos; [lra | apply Rmult_le_pos; auto]); lra).
  assert (Hlt : mo < c). { destruct (Rle_lt_or_eq_dec _ _ Hmc) as [|He]; auto. exfalso. rewrite He, (Rminus_diag_eq c c eq_refl) in B3. unfold Rdiv in B3. rewrite Rinv_0, Rmult_0_r, Rminus_0_l, Rabs_Ropp, Rabs_R1 in B3. lra. }
  set (Q := (c' - c) / (mo - c)) in *. assert (HQ : Q <= 3 / 2) by (pose proof (Rle_abs (Q - 1)); lra). assert (EQ : c - c' = Q * (c - mo)) by (unfold Q; field; lra).
  assert (H1 : (1 - q) * c <= 3 / 2 * (c - mo)). { assert (Q * (c - mo) <= 3 / 2 * (c - mo)) by (apply Rmult_le_compat_r; lra). lra. }
  assert (H2 : (1 - q) * (vnorm (RR w) * vnorm (RR w)) <= 3 * (L * size fs xi) * vnorm (RR w)). { rewrite Y1. assert (vnorm (LL w xi) * vnorm (RR w) <= L * size fs xi * vnorm (RR w)) by (apply Rmult_le_compat_r; auto). lra. }
  assert (Hm1 : 0 < m * size fs e) by (apply Rmult_lt_0_compat; auto). assert (H3 : (1 - q) * vnorm (RR w) <= 3 * (L * size fs xi)) by (apply (Rmult_le_reg_r (vnorm (RR w))); [lra|]; rewrite Rmult_assoc; exact H2).
  assert (H4 : (1 - q) * (m * size fs e) <= (1 - q) * vnorm (RR w)) by (apply Rmult_le_compat_l; lra). apply (Rmult_le_reg_l (3 * L)); [lra|]. replace (3 * L * ((1 - q) * m / (3 * L) * size fs e)) with ((1 - q) * (m * size fs e)) by (field; lra). lra.
Qed.

(* bounded poses are stored in a bounded vector *)
Lemma storage_below : classes_ok (e_cls E) -> exists N, 0 <= N /\ forall a val S, 0 <= S -> proper groups fs val -> (forall v, In v (mentioned fs) -> forall i, Rabs (nth i (params (val v)) 0) <= S) -> holds E fs a val -> vnorm (as_storage a) <= N * S.
Proof.
  intros CO. set (n := list_max (map (fun v => length (lg_one (groups (v_ty v)))) (mentioned fs))). exists (INR (length (order (mentioned fs))) * INR n). split; [apply Rmult_le_pos; apply pos_INR|].
  intros a val S HS Pv Hb Hh. destruct (holds_storage E fs CO a val Hh) as (Hl & Hblk). rewrite (vec_blocks (e_cls E) false (mentioned fs) (mentioned_nodup fs) (as_storage a) Hl), <- flat_map_concat_map, Rmult_assoc.
  apply flat_norm. intros v Hv. apply (proj1 (order_in _ _)) in Hv. change (vnorm (block (e_cls E) (graph_layout E fs false) (as_storage a) v) <= INR n * S). rewrite Hblk by auto. destruct (Pv v Hv) as (x & Ex & Lx & _). specialize (Hb v Hv). rewrite Ex, params_value in Hb. rewrite Ex. change (vnorm (params (group_value (v_ty v) x)) <= INR n * S). rewrite params_value.
  eapply Rle_trans; [apply norm_le_comps; [exact HS | intros k _; apply Hb]|]. apply Rmult_le_compat_r; auto. apply le_INR. rewrite Lx. pose proof (proj1 (list_max_le (map (fun v => length (lg_one (groups (v_ty v)))) (mentioned fs)) n) (le_n _)) as HM. rewrite Forall_forall in HM. apply HM. apply in_map_iff. exists v. auto.
Qed.

(* the one-step facts, with the length of the step *)
Lemma quit_near : exists m M d Cs ds D, 0 < m /\ 0 <= M /\ 0 < d /\ 0 <= Cs /\ 0 < ds /\ 0 <= D /\
  (forall val e, apart groups fs z val e -> fixes e -> size fs e <= d -> m * size fs e * (m * size fs e) <= cost_at E fs val <= M * size fs e * (M * size fs e)) /\
  (forall val e, apart groups fs z val e -> size fs e <= ds -> exists e', apart groups fs z val e' /\ fixes e' /\ size fs e' <= Cs * size fs e) /\
  forall b0 b1 qmin, 0 < b0 -> b0 <= b1 -> qmin < 1 -> exists q G h rho0, 0 <= q < 1 /\ 0 <= G /\ 0 < h /\ 0 < rho0 /\ rho0 <= d /\
  forall rho, 0 < rho -> rho <= rho0 -> forall beta val old e xi p, 0 < beta -> (size fs e = 0 \/ b0 <= beta <= b1) -> lst m rho val e -> (forall v, In v (mentioned fs) -> old v = val v) ->
    damped_step E fs beta val old xi -> moved E fs val xi p ->
    (size fs xi <= G * size fs e /\ h * size fs e <= size fs xi) /\ within fs (D * G * size fs e) val p /\ (size fs e = 0 -> forall v, In v (mentioned fs) -> p v = val v) /\ (0 < size fs e -> qmin <= quality E fs val old xi p) /\ cost_at E fs p <= q * cost_at E fs val /\
    exists e', lst m rho p e' /\ (size fs e = 0 -> size fs e' = 0).
Proof.
  destruct (drift_near groups fs z SB rt HPa) as (m & M & d & Cs & ds & D & Hm & HM & Hd & HCs & Hds & HD & HB & HR & HT).
  exists m, M, d, Cs, ds, D. do 6 (split; [assumption|]). split; [exact HB|]. split; [exact HR|]. intros b0 b1 qmin H0 H1 Hq. destruct (HT b0 b1 qmin H0 H1 Hq) as (q & G & rho1 & Hq1 & HG & Hr1 & Hrd & HS). destruct (step_long b0 b1 H0 H1) as (h & rho2 & Hh & Hr2 & HL).
  exists q, G, h, (Rmin rho1 rho2). pose proof (Rmin_l rho1 rho2) as I1. pose proof (Rmin_r rho1 rho2) as I2. split; [exact Hq1|]. split; [exact HG|]. split; [exact Hh|]. split; [apply Rmin_pos; auto|]. split; [lra|].
  intros rho Hrho Hle beta val old e xi p Hb Hc Hl Hold Hdm Hmv. destruct (HS rho Hrho ltac:(lra) beta val old e xi p Hb Hc Hl Hold Hdm Hmv) as (S1 & S2). split; [split; [exact S1|] | exact S2].
  destruct Hl as (Ho & Hf & Hs & _). pose proof (size_pos fs e) as Pe. destruct (Rle_lt_or_eq_dec 0 _ Pe) as [Hpos|Hz]; [|rewrite <- Hz, Rmult_0_r; apply size_pos]. destruct Hc as [Hc|Hc]; [lra|].
  apply damped_old with (old' := val) in Hdm; auto. apply (HL beta val e xi p); auto. split; lra.
Qed.
End Graph.
