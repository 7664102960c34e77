(* Proofs: the derivative at zero of log (exp (t d)^-1 exp (t e)) on SO(3) and SE(3). *)
From Coq Require Import List Arith Bool Lia Reals Lra.
From Verif Require Import Num NumR Py Arr MLie SpecNoise SpecDeriv SpecLie SpecPose SpecZero SpecSpatial.
From Verif Require Import PVec PLie PPose PFrame PZero PJacZero PSpatial PSpatial2.
Import ListNotations.
Local Open Scope R_scope.

Notation cont0 f := (continuity_pt f 0).
Definition vcont (V : R -> list R) : Prop := forall k, cont0 (fun t => nth k (V t) 0).
Lemma copp f : cont0 f -> cont0 (fun t => - f t). Proof. apply continuity_pt_opp. Qed.
Lemma cinv f : cont0 f -> f 0 <> 0 -> cont0 (fun t => / f t). Proof. apply continuity_pt_inv. Qed.
Lemma ccomp g f : cont0 f -> continuity_pt g (f 0) -> cont0 (fun t => g (f t)). Proof. intros. apply (continuity_pt_comp f g); auto. Qed.
Lemma csqrt f : cont0 f -> 0 <= f 0 -> cont0 (fun t => sqrt (f t)). Proof. intros H H0. apply ccomp; auto. apply continuity_pt_sqrt; auto. Qed.
Lemma cabs f : cont0 f -> cont0 (fun t => Rabs (f t)). Proof. intros H. apply ccomp; auto. apply Rcontinuity_abs. Qed.
Ltac ct := repeat first [apply cplus | apply cminus | apply cmult | apply copp | apply cconst | apply cid].
Lemma ceq f g e : 0 < e -> (forall t, Rabs t < e -> f t = g t) -> cont0 g -> cont0 f.
Proof. intros He H. apply (cont_local f g 0 e He). intros t Ht. rewrite Rminus_0_r in Ht. auto. Qed.
Lemma close f : cont0 f -> forall eps, 0 < eps -> exists e, 0 < e /\ forall t, Rabs t < e -> Rabs (f t - f 0) < eps.
Proof.
  intros H eps He. destruct (H eps He) as (d & Hd & Hc). exists d. split; auto. intros t Ht. destruct (Req_EM_T t 0) as [->|Hn]; [rewrite Rminus_diag_eq, Rabs_R0; auto|].
  apply (Hc t). split; [split; [exact I|auto]|]. cbn. unfold R_dist. rewrite Rminus_0_r. auto.
Qed.
Lemma squeeze f g e : 0 < e -> cont0 g -> g 0 = 0 -> (forall t, Rabs t < e -> Rabs (f t) <= Rabs (g t)) -> f 0 = 0 /\ cont0 f.
Proof.
  intros He Hg H0 Hb. assert (F0 : f 0 = 0).
  { specialize (Hb 0). rewrite H0, !Rabs_R0 in Hb. specialize (Hb He). destruct (Req_EM_T (f 0) 0) as [|Hn]; auto. apply Rabs_pos_lt in Hn. lra. }
  split; auto. intros eps Heps. destruct (close g Hg eps Heps) as (d & Hd & Hc). exists (Rmin d e). split; [apply Rmin_glb_lt; auto|].
  intros t (_ & Ht). cbn in *. unfold R_dist in *. rewrite Rminus_0_r in Ht. rewrite F0, Rminus_0_r.
  apply Rle_lt_trans with (Rabs (g t)); [apply Hb; eapply Rlt_le_trans; [exact Ht|apply Rmin_r]|]. specialize (Hc t). rewrite H0, Rminus_0_r in Hc. apply Hc. eapply Rlt_le_trans; [exact Ht|apply Rmin_l].
Qed.

(* ---- vectors ---- *)
Lemma vcont_list3 a b c : cont0 a -> cont0 b -> cont0 c -> vcont (fun t => [a t; b t; c t]).
Proof. intros Ha Hb Hc [|[|[|k]]]; cbn [nth]; auto. destruct k; apply cconst. Qed.
Lemma vcont_list4 a b c d : cont0 a -> cont0 b -> cont0 c -> cont0 d -> vcont (fun t => [a t; b t; c t; d t]).
Proof. intros Ha Hb Hc Hd [|[|[|[|k]]]]; cbn [nth]; auto. destruct k; apply cconst. Qed.
Lemma vcont_const v : vcont (fun _ => v). Proof. intros k. apply cconst. Qed.
Lemma vcont_cross U V : vcont U -> vcont V -> vcont (fun t => cross (U t) (V t)).
Proof. intros HU HV. unfold cross. apply vcont_list3; ct; apply HU || apply HV. Qed.
Lemma vcont_rotate Q V : vcont Q -> vcont V -> vcont (fun t => rotate (Q t) (V t)).
Proof. intros HQ HV. unfold rotate. apply vcont_list3; ct; apply HQ || apply HV. Qed.
Lemma vcont_conj Q : vcont Q -> vcont (fun t => quat_conj (Q t)).
Proof. intros HQ. unfold quat_conj. apply vcont_list4; ct; apply HQ. Qed.
Lemma vcont_ext V W : (forall t, V t = W t) -> vcont W -> vcont V.
Proof. intros E H k. apply (ceq _ (fun t => nth k (W t) 0) 1); [lra| |apply H]. intros t _. rewrite E. auto. Qed.
Lemma vcont_add U V : (forall t, length (U t) = 3%nat) -> (forall t, length (V t) = 3%nat) -> vcont U -> vcont V -> vcont (fun t => vadd (U t) (V t)).
Proof.
  intros LU LV HU HV. apply (vcont_ext _ (fun t => [nth 0 (U t) 0 + nth 0 (V t) 0; nth 1 (U t) 0 + nth 1 (V t) 0; nth 2 (U t) 0 + nth 2 (V t) 0])).
  - intros t. specialize (LU t). specialize (LV t). destruct (U t) as [|? [|? [|? [|]]]]; try discriminate. destruct (V t) as [|? [|? [|? [|]]]]; try discriminate. reflexivity.
  - apply vcont_list3; ct; apply HU || apply HV.
Qed.
Lemma vcont_scale s V : (forall t, length (V t) = 3%nat) -> cont0 s -> vcont V -> vcont (fun t => vscale (s t) (V t)).
Proof.
  intros LV Hs HV. apply (vcont_ext _ (fun t => [s t * nth 0 (V t) 0; s t * nth 1 (V t) 0; s t * nth 2 (V t) 0])).
  - intros t. specialize (LV t). destruct (V t) as [|? [|? [|? [|]]]]; try discriminate. reflexivity.
  - apply vcont_list3; ct; auto; apply HV.
Qed.

(* ---- the exponential of t d ---- *)
Lemma half_sinc_cont : continuity_pt half_sinc 0.
Proof.
  apply (quotient_continuous (fun t => sin (t / 2)) (1 / 2)); [replace (0 / 2) with 0 by field; apply sin_0|].
  replace (1 / 2) with (cos (0 / 2) * (/ 2)) by (replace (0 / 2) with 0 by field; rewrite cos_0; field).
  apply (derivable_pt_lim_comp (fun t => t / 2) sin); [|apply derivable_pt_lim_sin].
  apply (derivable_local _ (fun t => t * / 2) _ 1); [lra|intros; reflexivity|]. apply (times_derivable (fun _ => / 2)), cconst.
Qed.
Lemma half_sinc_0 : half_sinc 0 = 1 / 2. Proof. unfold half_sinc. destruct (Req_EM_T 0 0); auto. contradiction. Qed.
Lemma len_line_cont d : length d = 3%nat -> cont0 (fun t => len3 (vscale t d)) /\ len3 (vscale 0 d) = 0.
Proof.
  intros Hd. assert (E : forall t, len3 (vscale t d) = Rabs t * len3 d) by (intros; apply len3_scale; auto). split.
  - apply (ceq _ (fun t => Rabs t * len3 d) 1); [lra|intros; apply E|]. apply cmult; [apply cabs, cid | apply cconst].
  - rewrite E, Rabs_R0. ring.
Qed.
Lemma len_cont V : vcont V -> cont0 (fun t => len3 (V t)).
Proof. intros H. unfold len3. apply csqrt; [ct; apply H|]. apply (Rle_trans _ (len3 (V 0) * len3 (V 0))); [apply Rle_0_sqr|]. rewrite len3_eq. unfold sq3. lra. Qed.
Lemma ec_0 V : len3 (V 0) = 0 -> ec (V 0) = 1.
Proof. intros H. unfold ec. rewrite H. replace (0 / 2) with 0 by field. apply cos_0. Qed.
Lemma ek_0 V : len3 (V 0) = 0 -> ek (V 0) = 1 / 2.
Proof. intros H. unfold ek. rewrite H. apply half_sinc_0. Qed.
Lemma ec_cont V : cont0 (fun t => len3 (V t)) -> len3 (V 0) = 0 -> cont0 (fun t => ec (V t)).
Proof. intros H H0. unfold ec. apply (ccomp cos (fun t => len3 (V t) / 2)); [unfold Rdiv; ct; auto | apply continuity_cos]. Qed.
Lemma ek_cont V : cont0 (fun t => len3 (V t)) -> len3 (V 0) = 0 -> cont0 (fun t => ek (V t)).
Proof. intros H H0. unfold ek. apply ccomp; auto. rewrite H0. apply half_sinc_cont. Qed.

Definition atc (y : R) : R := if Req_EM_T y 0 then 1 else atan y / y.
Lemma atc_cont : continuity_pt atc 0.
Proof.
  apply (quotient_continuous atan 1); [apply atan_0|]. pose proof (derivable_pt_lim_atan 0) as H. replace (/ (1 + 0 ^ 2)) with 1 in H by field. exact H.
Qed.
Lemma atc_0 : atc 0 = 1. Proof. unfold atc. destruct (Req_EM_T 0 0); auto. contradiction. Qed.
Lemma factor_form w n : w <> 0 -> quat_log_factor w n = 2 / w * atc (n / w).
Proof.
  intros Hw. unfold quat_log_factor, atc. destruct (Req_EM_T n 0) as [->|Hn].
  - destruct (Req_EM_T (0 / w) 0) as [|H]; [field; auto|]. exfalso. apply H. field. auto.
  - destruct (Req_EM_T w 0); [contradiction|]. destruct (Req_EM_T (n / w) 0) as [H|H].
    + exfalso. apply Hn. replace n with (n / w * w) by (field; auto). rewrite H. ring.
    + field. auto.
Qed.

(* the rotation of exp (t d)^-1 exp (t e): its first component, and the others divided by t *)
Section Rot.
Variable d e : list R.
Hypothesis (Hd : length d = 3%nat) (He : length e = 3%nat).
Definition quo (t : R) : list R := quat_mul (quat_conj (quat_exp (vscale t d))) (quat_exp (vscale t e)).
Let cd t := ec (vscale t d). Let ce t := ec (vscale t e). Let kd t := ek (vscale t d). Let ke t := ek (vscale t e).
Let w t := cd t * ce t + t * t * (kd t * ke t * (d.[0] * e.[0] + d.[1] * e.[1] + d.[2] * e.[2])).
Let U t := [cd t * ke t * e.[0] - ce t * kd t * d.[0] - t * (kd t * ke t * (d.[1] * e.[2] - d.[2] * e.[1]));
            cd t * ke t * e.[1] - ce t * kd t * d.[1] - t * (kd t * ke t * (d.[2] * e.[0] - d.[0] * e.[2]));
            cd t * ke t * e.[2] - ce t * kd t * d.[2] - t * (kd t * ke t * (d.[0] * e.[1] - d.[1] * e.[0]))].
Lemma quo_form t : quo t = w t :: vscale t (U t).
Proof.
  unfold quo. rewrite !quat_exp_form, !nth_vscale. fold (cd t) (ce t) (kd t) (ke t). unfold quat_mul, quat_conj, w, U, vscale. cbn [nth map nmul NumR]. lists; ring.
Qed.
Lemma quo_cont : cont0 w /\ w 0 = 1 /\ vcont U /\ U 0 = [(e.[0] - d.[0]) / 2; (e.[1] - d.[1]) / 2; (e.[2] - d.[2]) / 2].
Proof.
  destruct (len_line_cont d Hd) as (L1 & L1'). destruct (len_line_cont e He) as (L2 & L2').
  assert (Cd : cont0 cd) by (apply (ec_cont (fun t => vscale t d)); auto). assert (Ce : cont0 ce) by (apply (ec_cont (fun t => vscale t e)); auto).
  assert (Kd : cont0 kd) by (apply (ek_cont (fun t => vscale t d)); auto). assert (Ke : cont0 ke) by (apply (ek_cont (fun t => vscale t e)); auto).
  assert (Cd0 : cd 0 = 1) by (apply (ec_0 (fun t => vscale t d)); auto). assert (Ce0 : ce 0 = 1) by (apply (ec_0 (fun t => vscale t e)); auto).
  assert (Kd0 : kd 0 = 1 / 2) by (apply (ek_0 (fun t => vscale t d)); auto). assert (Ke0 : ke 0 = 1 / 2) by (apply (ek_0 (fun t => vscale t e)); auto).
  split; [|split; [|split]].
  - unfold w. ct; auto.
  - unfold w. rewrite Cd0, Ce0. ring.
  - unfold U. apply vcont_list3; ct; auto.
  - unfold U. rewrite Cd0, Ce0, Kd0, Ke0. lists; field.
Qed.
Definition om (t : R) : list R := vscale (2 / w t * atc (Rabs t * len3 (U t) / w t)) (U t).
Lemma om_cont : vcont om /\ om 0 = [e.[0] - d.[0]; e.[1] - d.[1]; e.[2] - d.[2]].
Proof.
  destruct quo_cont as (Cw & W0 & CU & U0). split.
  - unfold om. apply vcont_scale; auto. unfold Rdiv. ct; auto; [apply cinv; auto; rewrite W0; lra|]. apply (ccomp atc (fun t => Rabs t * len3 (U t) * / w t)).
    + ct; [apply cabs, cid | apply len_cont; auto | apply cinv; auto; rewrite W0; lra].
    + rewrite Rabs_R0, !Rmult_0_l. apply atc_cont.
  - unfold om. rewrite W0, U0, Rabs_R0. replace (0 * _ / 1) with 0 by field. rewrite atc_0. unfold vscale. cbn [map nmul NumR]. lists; field.
Qed.
Lemma log_quo : exists eps, 0 < eps /\ forall t, Rabs t < eps -> 0 < nth 0 (quo t) 0 /\ quat_log (quo t) = vscale t (om t).
Proof.
  destruct quo_cont as (Cw & W0 & CU & U0). destruct (close w Cw (1 / 2)) as (eps & Hp & Hc); [lra|]. exists eps. split; auto. intros t Ht.
  specialize (Hc t Ht). rewrite W0 in Hc. apply Rabs_def2 in Hc. rewrite quo_form. cbn [nth]. split; [lra|].
  unfold quat_log. cbn [nth tl]. rewrite len3_scale by reflexivity. rewrite factor_form by lra. unfold om.
  set (f := 2 / w t * atc (Rabs t * len3 (U t) / w t)). rewrite vscale_mul.
  replace ([nth 0 (vscale t (U t)) 0; nth 1 (vscale t (U t)) 0; nth 2 (vscale t (U t)) 0]) with (vscale t (U t)) by reflexivity. rewrite vscale_mul. f_equal. ring.
Qed.
End Rot.

(* ---- translations ---- *)
Lemma sq3_scale t d : sq3 (vscale t d) = t * t * sq3 d.
Proof. unfold sq3. rewrite !nth_vscale. ring. Qed.
Lemma cross_scale t w v : cross (vscale t w) v = vscale t (cross w v).
Proof. unfold cross. rewrite !nth_vscale. unfold vscale. cbn [map nmul NumR]. lists; ring. Qed.
Lemma cross_scale_r t w v : cross w (vscale t v) = vscale t (cross w v).
Proof. unfold cross. rewrite !nth_vscale. unfold vscale. cbn [map nmul NumR]. lists; ring. Qed.
Lemma lin3_line t w s m v : lin3 (vscale t w) s m v = vadd v (vadd (vscale (s * t) (cross w v)) (vscale (m * (t * t)) (cross w (cross w v)))).
Proof. unfold lin3. rewrite !cross_scale, cross_scale_r, !vscale_mul, Rmult_assoc. auto. Qed.
Lemma lin3_scale t w s m v : length v = 3%nat -> lin3 w s m (vscale t v) = vscale t (lin3 w s m v).
Proof. intros Hv. three v. unfold lin3. vecs. lists; ring. Qed.
Lemma vee_line_cont w v : length w = 3%nat -> length v = 3%nat -> vcont (fun t => vee (vscale t w) v) /\ vee (vscale 0 w) v = v.
Proof.
  intros Hw Hv. destruct (len_line_cont w Hw) as (L & L0). split; [|apply lin3_zero; auto].
  apply (vcont_ext _ (fun t => vadd v (vadd (vscale (2 * ek (vscale t w) * ek (vscale t w) * t) (cross w v)) (vscale (eb (vscale t w) * (t * t)) (cross w (cross w v)))))); [intros t; apply lin3_line|].
  assert (K : cont0 (fun t => ek (vscale t w))) by (apply (ek_cont (fun t => vscale t w)); auto). assert (C : cont0 (fun t => ec (vscale t w))) by (apply (ec_cont (fun t => vscale t w)); auto).
  apply vcont_add; auto; [apply vcont_const|]. apply vcont_add; auto; apply vcont_scale; auto; try apply vcont_const; [ct; auto|].
  destruct (Req_EM_T (sq3 w) 0) as [Hz|Hz].
  - apply (ceq _ (fun _ => 0) 1); [lra| |apply cconst]. intros t _. assert (E : len3 (vscale t w) = 0).
    { assert (Hs : sq3 (vscale t w) = 0) by (rewrite sq3_scale, Hz; ring). rewrite <- len3_eq in Hs. apply Rmult_integral in Hs. tauto. }
    unfold eb. rewrite E. destruct (Req_EM_T 0 0); [ring|contradiction].
  - apply (ceq _ (fun t => (1 - 2 * ec (vscale t w) * ek (vscale t w)) * / sq3 w) 1); [lra| |ct; auto].
    intros t _. rewrite <- exp_third, sq3_scale. field. auto.
Qed.
Lemma eh_small V : vcont V -> (forall t, length (V t) = 3%nat) -> forall i j, (i < 3)%nat -> (j < 3)%nat ->
  cont0 (fun t => eh (vscale t (V t)) * (t * t) * (nth i (V t) 0 * nth j (V t) 0)).
Proof.
  intros CV LV i j Hi Hj. set (L := fun t => len3 (vscale t (V t))).
  assert (EL : forall t, L t = Rabs t * len3 (V t)) by (intros t; apply len3_scale; auto).
  assert (CL : cont0 L) by (apply (ceq _ (fun t => Rabs t * len3 (V t)) 1); [lra|intros; apply EL|]; ct; [apply cabs, cid | apply len_cont; auto]).
  assert (L0 : L 0 = 0) by (rewrite EL, Rabs_R0; ring).
  assert (CK : cont0 (fun t => ek (vscale t (V t)))) by (apply (ek_cont (fun t => vscale t (V t))); auto).
  assert (CC : cont0 (fun t => ec (vscale t (V t)))) by (apply (ec_cont (fun t => vscale t (V t))); auto).
  assert (K0 : ek (vscale 0 (V 0)) = 1 / 2) by (apply (ek_0 (fun t => vscale t (V t))); auto).
  assert (C0 : ec (vscale 0 (V 0)) = 1) by (apply (ec_0 (fun t => vscale t (V t))); auto).
  destruct (close _ CK (1 / 4)) as (e1 & He1 & H1); [lra|]. destruct (close L CL PI) as (e2 & He2 & H2); [apply PI_RGT_0|].
  set (g := fun t => 1 - ec (vscale t (V t)) * / (2 * ek (vscale t (V t)))).
  destruct (squeeze (fun t => eh (vscale t (V t)) * (t * t) * (nth i (V t) 0 * nth j (V t) 0)) g (Rmin e1 e2)) as (_ & H); auto.
  - apply Rmin_glb_lt; auto.
  - unfold g. ct; auto. apply (cinv (fun t => 2 * ek (vscale t (V t)))); [ct; auto|]. rewrite K0. lra.
  - unfold g. rewrite K0, C0. field.
  - intros t Ht. assert (T1 : Rabs t < e1) by (eapply Rlt_le_trans; [exact Ht|apply Rmin_l]). assert (T2 : Rabs t < e2) by (eapply Rlt_le_trans; [exact Ht|apply Rmin_r]).
    specialize (H1 t T1). specialize (H2 t T2). rewrite L0, Rminus_0_r in H2. rewrite K0 in H1. apply Rabs_def2 in H1, H2.
    pose proof (log_numbers (vscale t (V t))) as Hn. assert (Hl : len3 (vscale t (V t)) < 2 * PI) by (fold (L t); pose proof PI_RGT_0; lra). specialize (Hn Hl).
    assert (Eg : g t = eh (vscale t (V t)) * (t * t) * sq3 (V t)).
    { unfold g. rewrite sq3_scale in Hn. apply (Rmult_eq_reg_l (2 * ek (vscale t (V t)))); [|lra].
      replace (2 * ek (vscale t (V t)) * (1 - ec (vscale t (V t)) * / (2 * ek (vscale t (V t))))) with (2 * ek (vscale t (V t)) - ec (vscale t (V t))) by (field; lra). rewrite <- Hn. ring. }
    rewrite Eg, !(Rabs_mult (eh (vscale t (V t)) * (t * t))). apply Rmult_le_compat_l; [apply Rabs_pos|]. unfold sq3.
    set (x := nth 0 (V t) 0). set (y := nth 1 (V t) 0). set (z := nth 2 (V t) 0).
    rewrite (Rabs_right (x * x + y * y + z * z)) by (pose proof (Rle_0_sqr x); pose proof (Rle_0_sqr y); pose proof (Rle_0_sqr z); unfold Rsqr in *; lra).
    assert (Hb : forall a b, Rabs (a * b) <= (a * a + b * b) / 2).
    { intros a b. apply Rabs_le. pose proof (Rle_0_sqr (a - b)). pose proof (Rle_0_sqr (a + b)). unfold Rsqr in *. split; lra. }
    pose proof (Rle_0_sqr x). pose proof (Rle_0_sqr y). pose proof (Rle_0_sqr z). unfold Rsqr in *.
    destruct i as [|[|[|]]]; try lia; destruct j as [|[|[|]]]; try lia; fold x y z; (eapply Rle_trans; [apply Hb|lra]).
Qed.
Lemma log_line_cont V P : vcont V -> vcont P -> (forall t, length (V t) = 3%nat) -> (forall t, length (P t) = 3%nat) ->
  vcont (fun t => lin3 (vscale t (V t)) (- (1 / 2)) (eh (vscale t (V t))) (P t)) /\ lin3 (vscale 0 (V 0)) (- (1 / 2)) (eh (vscale 0 (V 0))) (P 0) = P 0.
Proof.
  intros CV CP LV LP. split; [|apply lin3_zero; auto; rewrite len3_scale, Rabs_R0 by auto; ring].
  set (G := fun i j t => eh (vscale t (V t)) * (t * t) * (nth i (V t) 0 * nth j (V t) 0)).
  set (p := fun i t => nth i (P t) 0).
  assert (HG : forall i j, (i < 3)%nat -> (j < 3)%nat -> cont0 (G i j)) by (intros i j Hi Hj; apply eh_small; auto).
  apply (vcont_ext _ (fun t => vadd (P t) (vadd (vscale (- (1 / 2) * t) (cross (V t) (P t)))
    [G 0%nat 1%nat t * p 1%nat t + G 0%nat 2%nat t * p 2%nat t - (G 1%nat 1%nat t + G 2%nat 2%nat t) * p 0%nat t;
     G 1%nat 0%nat t * p 0%nat t + G 1%nat 2%nat t * p 2%nat t - (G 0%nat 0%nat t + G 2%nat 2%nat t) * p 1%nat t;
     G 2%nat 0%nat t * p 0%nat t + G 2%nat 1%nat t * p 1%nat t - (G 0%nat 0%nat t + G 1%nat 1%nat t) * p 2%nat t]))).
  - intros t. rewrite lin3_line. do 2 f_equal. unfold G, p. unfold vscale at 1, cross. cbn [map nth nmul NumR]. lists; ring.
  - clearbody G. apply vcont_add; auto. apply vcont_add; auto; [apply vcont_scale; auto; [ct | apply vcont_cross; auto]|].
    apply vcont_list3; ct; try (apply HG; lia); apply CP.
Qed.
Lemma vscale_rotv t d : rotv (vscale t d) = vscale t (rotv d).
Proof. unfold rotv. rewrite !nth_vscale. reflexivity. Qed.
Lemma vscale_trav t d : trav (vscale t d) = vscale t (trav d).
Proof. unfold trav. rewrite !nth_vscale. reflexivity. Qed.
Lemma vneg_scale3 t (v : list R) : length v = 3%nat -> vneg (vscale t v) = vscale t (vneg v).
Proof. intros Hv. three v. vecs. lists; ring. Qed.
Lemma vadd_scale3 t (u v : list R) : length u = 3%nat -> length v = 3%nat -> vadd (vscale t u) (vscale t v) = vscale t (vadd u v).
Proof. intros Hu Hv. three u. three v. vecs. lists; ring. Qed.
Lemma vcont_neg V : (forall t, length (V t) = 3%nat) -> vcont V -> vcont (fun t => vneg (V t)).
Proof.
  intros L H. apply (vcont_ext _ (fun t => vscale (- (1)) (V t))); [|apply vcont_scale; auto; apply cconst].
  intros t. specialize (L t). destruct (V t) as [|? [|? [|? [|]]]]; try discriminate. vecs. lists; ring.
Qed.
Lemma vcont_exp w : length w = 3%nat -> vcont (fun t => quat_exp (vscale t w)) /\ quat_exp (vscale 0 w) = [1; 0; 0; 0].
Proof.
  intros Hw. destruct (len_line_cont w Hw) as (L & L0).
  assert (K : cont0 (fun t => ek (vscale t w))) by (apply (ek_cont (fun t => vscale t w)); auto). assert (C : cont0 (fun t => ec (vscale t w))) by (apply (ec_cont (fun t => vscale t w)); auto).
  assert (C0 : ec (vscale 0 w) = 1) by (apply (ec_0 (fun t => vscale t w)); auto).
  split.
  - apply (vcont_ext _ (fun t => [ec (vscale t w); ek (vscale t w) * (t * w.[0]); ek (vscale t w) * (t * w.[1]); ek (vscale t w) * (t * w.[2])])).
    + intros t. rewrite quat_exp_form, !nth_vscale. auto.
    + apply vcont_list4; ct; auto.
  - rewrite quat_exp_form, !nth_vscale, C0. lists; ring.
Qed.
Section Se3.
Variable d e : list R.
Hypothesis (Hd : length d = 6%nat) (He : length e = 6%nat).
Let x t := se3_mul (se3_inv (se3_exp (vscale t d))) (se3_exp (vscale t e)).
Definition mv (t : R) : list R := rotate (quat_conj (quat_exp (vscale t (rotv d)))) (vadd (vee (vscale t (rotv e)) (trav e)) (vneg (vee (vscale t (rotv d)) (trav d)))).
Lemma vee3 w v : length v = 3%nat -> length (vee w v) = 3%nat. Proof. apply lin3_length. Qed.
Lemma pair_rot t : rot_part (x t) = quo (rotv d) (rotv e) t.
Proof.
  unfold x, quo. rewrite se3_mul_rot. rewrite <- (mul_rot (se3_inv _)), se3_inv_rot, se3_exp_rot. change (quat_conj (se3_exp (vscale t d))) with (quat_conj (rot_part (se3_exp (vscale t d)))).
  rewrite se3_exp_rot, !vscale_rotv. auto.
Qed.
Lemma pair_tra t : tra_part (x t) = vscale t (mv t).
Proof.
  unfold x, mv. rewrite se3_mul_tra, se3_inv_rot, se3_inv_tra, !se3_exp_tra.
  change (quat_conj (se3_exp (vscale t d))) with (quat_conj (rot_part (se3_exp (vscale t d)))). rewrite se3_exp_rot, !vscale_rotv, !vscale_trav.
  unfold vee. rewrite !lin3_scale by reflexivity. fold (vee (vscale t (rotv e)) (trav e)). fold (vee (vscale t (rotv d)) (trav d)).
  rewrite !rotate_scale by (apply vee3; reflexivity). rewrite vneg_scale3 by reflexivity. rewrite vadd_scale3 by reflexivity. f_equal.
  rewrite rotate_add by (rewrite ?vneg_length; apply vee3; reflexivity). f_equal. symmetry. apply rotate_neg. apply vee3. reflexivity.
Qed.
Lemma mv_cont : vcont mv /\ mv 0 = vadd (trav e) (vneg (trav d)).
Proof.
  destruct (vee_line_cont (rotv d) (trav d) eq_refl eq_refl) as (C1 & E1). destruct (vee_line_cont (rotv e) (trav e) eq_refl eq_refl) as (C2 & E2).
  destruct (vcont_exp (rotv d) eq_refl) as (C3 & E3). split.
  - apply vcont_rotate; [apply vcont_conj; auto|]. apply vcont_add; auto. apply vcont_neg; auto.
  - unfold mv. rewrite E1, E2, E3. unfold rotate, quat_conj, trav. vecs. lists; ring.
Qed.
End Se3.

Lemma spatial_pair raw d e : spatial raw -> length d = lg_dim raw -> length e = lg_dim raw ->
  vderiv (fun t => lg_log raw (lg_mul raw (lg_inv raw (lg_exp raw (vscale t d))) (lg_exp raw (vscale t e)))) (vsub e d) /\
  exists eps, 0 < eps /\ forall t, Rabs t < eps -> nth 0 (lg_mul raw (lg_inv raw (lg_exp raw (vscale t d))) (lg_exp raw (vscale t e))) 0 <> 0.
Proof.
  intros []; cbn [lg_log lg_mul lg_inv lg_exp lg_dim raw_so3 raw_se3]; intros Hd He.
  - destruct (om_cont d e Hd He) as (C & E). destruct (log_quo d e Hd He) as (eps & Hp & Hl).
    assert (Es : vsub e d = om d e 0) by (rewrite E; three d; three e; reflexivity).
    split; [|exists eps; split; auto; intros t Ht; destruct (Hl t Ht) as (H & _); unfold quo in H; lra].
    split; [intros t; rewrite Es; reflexivity|]. intros k.
    apply (derivable_local _ (fun t => t * nth k (om d e t) 0) _ eps); auto.
    + intros t Ht. destruct (Hl t Ht) as (_ & El). unfold quo in El. rewrite El, nth_vscale. auto.
    + rewrite Es. apply (times_derivable (fun t => nth k (om d e t) 0)). apply C.
  - destruct (om_cont (rotv d) (rotv e) eq_refl eq_refl) as (C & E). destruct (log_quo (rotv d) (rotv e) eq_refl eq_refl) as (eps & Hp & Hl).
    destruct (mv_cont d e) as (CM & EM).
    set (A := fun t => lin3 (vscale t (om (rotv d) (rotv e) t)) (- (1 / 2)) (eh (vscale t (om (rotv d) (rotv e) t))) (mv d e t)).
    destruct (log_line_cont (om (rotv d) (rotv e)) (mv d e) C CM) as (CA & EA); try reflexivity. fold A in CA.
    assert (Elog : forall t, Rabs t < eps -> se3_log (se3_mul (se3_inv (se3_exp (vscale t d))) (se3_exp (vscale t e))) = vscale t (A t ++ om (rotv d) (rotv e) t)).
    { intros t Ht. rewrite se3_log_form, pair_rot, pair_tra. destruct (Hl t Ht) as (_ & ->). rewrite lin3_scale by reflexivity. unfold vscale at 5. rewrite map_app. reflexivity. }
    assert (Es : vsub e d = A 0 ++ om (rotv d) (rotv e) 0).
    { rewrite E. unfold A. rewrite EA, EM. do 6 (destruct d as [|? d]; [discriminate|]); destruct d; [|discriminate]. do 6 (destruct e as [|? e]; [discriminate|]); destruct e; [|discriminate].
      unfold vsub, trav, rotv. vecs. cbn [nsub app zipw NumR]. lists; ring. }
    split; [|exists eps; split; auto; intros t Ht; destruct (Hl t Ht) as (H & _); rewrite <- pair_rot in H; cbn [rot_part nth] in H; lra].
    assert (LA : forall t, length (A t) = 3%nat) by (intros; apply lin3_length; reflexivity).
    split; [intros t; rewrite Es, app_length, LA, se3_log_form, app_length, lin3_length by reflexivity; reflexivity|]. intros k.
    apply (derivable_local _ (fun t => t * nth k (A t ++ om (rotv d) (rotv e) t) 0) _ eps); auto.
    + intros t Ht. rewrite (Elog t Ht), nth_vscale. auto.
    + rewrite Es. apply (times_derivable (fun t => nth k (A t ++ om (rotv d) (rotv e) t) 0)).
      destruct (Nat.ltb_spec k 3) as [Hlt|Hge].
      * apply (ceq _ (fun t => nth k (A t) 0) 1); [lra| |apply CA]. intros t _. apply app_nth1. rewrite LA. auto.
      * apply (ceq _ (fun t => nth (k - 3) (om (rotv d) (rotv e) t) 0) 1); [lra| |apply C]. intros t _. rewrite app_nth2 by (rewrite LA; lia). rewrite LA. auto.
Qed.
