(* Proofs: which poses of a graph move together, and the same problem after a motion no
   measurement can see. *)
From Coq Require Import List Arith Bool Lia Reals Lra Psatz.
From Verif Require Import Num NumR Py Arr MLayout MAssign MNoise MSparse MFactor MGraph MLie MPose SpecLayout SpecTree SpecAssign SpecNoise SpecGraph SpecLie SpecPose SpecZero SpecSpatial SpecTwin SpecInv SpecOrder SpecSym SpecFrame SpecBook SpecNear SpecBasin SpecGauge SpecLoose PGraph PVec PLie PPose PFrame PExSym PSolverR PNoise PDescent PLocal PLin PLinDl POrder PDeriv PTwin2 PFree PZero PJacZero PNear PSpatial PSpatial2 PSpatial3 PSpatial4 PBook PBasin4 PBasin5 PBasin6 PBasin7 PBasin8 PBasin9 PBasin10 PBasin11 PBasin12 PGauge PGauge2 PGauge3.
Import ListNotations.
Local Open Scope R_scope.
Notation moved := SpecBook.moved.
Notation move := SpecFrame.move.

Lemma one_unit raw : unit_pose raw (lg_one raw).
Proof. split; intros []; unfold norm2, norm4; cbn; ring. Qed.
Lemma one_left raw y : known raw -> sized_pose raw y -> lg_mul raw (lg_one raw) y = y.
Proof.
  intros Hk Hy. rewrite <- (inv_l raw Hk (lg_one raw) (one_unit raw) Logic.eq_refl) at 1. rewrite raw_assoc by auto. apply cancel_left; auto. apply one_unit.
Qed.

(* ---- connected parts ---- *)
Lemma joined_more f fs r v : joined fs r v -> joined (f :: fs) r v.
Proof. induction 1; [apply joined_root | eapply joined_next; eauto; right; auto | eapply joined_back; eauto; right; auto]. Qed.
Lemma tied_more f fs v : tied fs v -> tied (f :: fs) v.
Proof. induction 1; [eapply tied_prior; right; eauto | eapply tied_next; eauto; right; auto | eapply tied_back; eauto; right; auto]. Qed.
Lemma joined_trans fs a b c : joined fs a b -> joined fs b c -> joined fs a c.
Proof. intros H1 H2. induction H2; auto; [eapply joined_next; eauto | eapply joined_back; eauto]. Qed.
Lemma joined_sym fs a b : joined fs a b -> joined fs b a.
Proof.
  induction 1 as [|va vb Tab n f Hb Hf _ IH|va vb Tab n f Hb Hf _ IH]; [apply joined_root| |].
  - eapply joined_trans; [eapply joined_back; [exact Hb | exact Hf | apply joined_root] | exact IH].
  - eapply joined_trans; [eapply joined_next; [exact Hb | exact Hf | apply joined_root] | exact IH].
Qed.
Lemma tied_along fs a b : joined fs a b -> tied fs a -> tied fs b.
Proof. induction 1; auto; intros Ht; [eapply tied_next; eauto | eapply tied_back; eauto]. Qed.

(* the part of each pose: None if a prior holds it, otherwise its root *)
Record parts (fs : list (factor R)) (rt : var -> option var) : Prop := {
  pa_held : forall v, rt v = None -> tied fs v;
  pa_root : forall v r, rt v = Some r -> joined fs r v /\ rt r = Some r;
  pa_prior : forall v mu n, In (prior_make v mu n) fs -> rt v = None;
  pa_edge : forall va vb Tab n f, between_make va vb Tab n = Ok f -> In f fs -> rt va = rt vb }.

Definition redirect (rt : var -> option var) (r : var) (to : option var) : var -> option var :=
  fun v => match rt v with Some s => if eqb s r then to else Some s | None => None end.
Lemma redirect_same rt r to va vb : rt va = rt vb -> redirect rt r to va = redirect rt r to vb.
Proof. unfold redirect. intros ->. reflexivity. Qed.
Lemma redirect_none rt r to v : rt v = None -> redirect rt r to v = None.
Proof. unfold redirect. intros ->. reflexivity. Qed.
Lemma redirect_at rt r to v : rt v = Some r -> redirect rt r to v = to.
Proof. unfold redirect. intros ->. rewrite (proj2 (eqb_ok r r)); auto. Qed.
Lemma redirect_off rt r to v s : rt v = Some s -> s <> r -> redirect rt r to v = Some s.
Proof. unfold redirect. intros -> H. destruct (eqb s r) eqn:E1; auto. apply eqb_ok in E1. contradiction. Qed.
Lemma redirect_case rt r to v : rt v = None /\ redirect rt r to v = None \/ rt v = Some r /\ redirect rt r to v = to \/ exists s, s <> r /\ rt v = Some s /\ redirect rt r to v = Some s.
Proof.
  destruct (rt v) as [s|] eqn:Ev; [|left; split; auto; apply redirect_none; auto]. right. destruct (eqb s r) eqn:E1.
  - apply eqb_ok in E1. subst s. left. split; auto. apply redirect_at; auto.
  - right. exists s. assert (s <> r) by (intros ->; rewrite (proj2 (eqb_ok r r)) in E1; [discriminate|auto]). split; auto. split; auto. apply redirect_off; auto.
Qed.

Lemma held f fs rt r : parts fs rt -> tied (f :: fs) r -> rt r = Some r ->
  (forall v, redirect rt r None v = None -> tied (f :: fs) v) /\ (forall v s, redirect rt r None v = Some s -> joined (f :: fs) s v /\ redirect rt r None s = Some s).
Proof.
  intros HP Ht Hr. split.
  - intros v Hv. destruct (redirect_case rt r None v) as [(H1 & _)|[(H1 & _)|(s & _ & _ & H2)]]; [apply tied_more, (pa_held _ _ HP); auto| |congruence].
    apply tied_along with r; auto. apply joined_more, (pa_root _ _ HP); auto.
  - intros v s Hv. destruct (redirect_case rt r None v) as [(_ & H2)|[(_ & H2)|(s' & Hs & H1 & H2)]]; [congruence | congruence|]. assert (s' = s) by congruence. subst s'.
    destruct (pa_root _ _ HP v s H1) as (J & Hs'). split; [apply joined_more; auto | apply redirect_off; auto].
Qed.
Lemma prior_only v mu n va vb (Tab : pytree R) n' : between_make va vb Tab n' = Ok (prior_make v mu n) -> False.
Proof. intros H. destruct (between_inv _ _ _ _ _ H) as (_ & H1). discriminate H1. Qed.

Lemma parts_exist groups fs : (forall f, In f fs -> pose_factor groups f) -> exists rt, parts fs rt.
Proof.
  induction fs as [|f fs IH]; intros Hf.
  - exists Some. constructor; [discriminate | intros v r [= <-]; split; [apply joined_root|auto] | intros v mu n [] | intros va vb Tab n f _ []].
  - destruct IH as (rt & HP); [intros g Hg; apply Hf; right; auto|]. assert (Pf : pose_factor groups f) by (apply Hf; left; auto).
    destruct Pf as [v mu n _ _ _|va vb Tab n f Hb _ _ _].
    + destruct (rt v) as [r|] eqn:Ev.
      * destruct (pa_root _ _ HP v r Ev) as (Jr & Er). assert (Tv : tied (prior_make v mu n :: fs) v) by (eapply tied_prior; left; reflexivity).
        assert (Tr : tied (prior_make v mu n :: fs) r) by (apply tied_along with v; auto; apply joined_sym, joined_more; auto).
        destruct (held (prior_make v mu n) fs rt r HP Tr Er) as (H1 & H2). exists (redirect rt r None). constructor; auto.
        -- intros v' mu' n' [Eq|Hin]; [|apply redirect_none, (pa_prior _ _ HP v' mu' n'); auto]. injection Eq as <- _ _. apply redirect_at; auto.
        -- intros va vb Tab n' f Hb [<-|Hin]; [exfalso; eapply prior_only; eauto|]. apply redirect_same, (pa_edge _ _ HP va vb Tab n' f); auto.
      * exists rt. constructor.
        -- intros v' Hv'. apply tied_more, (pa_held _ _ HP); auto.
        -- intros v' r Hv'. destruct (pa_root _ _ HP v' r Hv') as (J & Hr). split; auto. apply joined_more; auto.
        -- intros v' mu' n' [Eq|Hin]; [injection Eq as <- _ _; auto | apply (pa_prior _ _ HP v' mu' n'); auto].
        -- intros va vb Tab n' f Hb [<-|Hin]; [exfalso; eapply prior_only; eauto|]. apply (pa_edge _ _ HP va vb Tab n' f); auto.
    + assert (NP : forall v mu n', prior_make v mu n' = f -> False) by (intros v mu n' Eq; subst f; eapply prior_only; eauto).
      assert (EI : forall va' vb' Tab' n', between_make va' vb' Tab' n' = Ok f -> va' = va /\ vb' = vb).
      { intros va' vb' Tab' n' Hb'. destruct (between_inv _ _ _ _ _ Hb) as (_ & ->). destruct (between_inv _ _ _ _ _ Hb') as (_ & Eq). injection Eq as <- <- _ _. auto. }
      assert (Jab : joined (f :: fs) va vb) by (eapply joined_next; [exact Hb | left; reflexivity | apply joined_root]).
      destruct (rt va) as [r|] eqn:Ea; destruct (rt vb) as [s|] eqn:Eb.
      * destruct (pa_root _ _ HP va r Ea) as (Jr & Er). destruct (pa_root _ _ HP vb s Eb) as (Js & Es).
        assert (Jrs : joined (f :: fs) r s) by (eapply joined_trans; [apply joined_more; exact Jr|]; eapply joined_trans; [exact Jab|]; apply joined_sym, joined_more; auto).
        destruct (eqb s r) eqn:Esr.
        -- apply eqb_ok in Esr. subst s. exists rt. constructor.
           ++ intros v' Hv'. apply tied_more, (pa_held _ _ HP); auto.
           ++ intros v' r' Hv'. destruct (pa_root _ _ HP v' r' Hv') as (J & Hr'). split; auto. apply joined_more; auto.
           ++ intros v' mu' n' [Eq|Hin]; [exfalso; eapply NP; eauto | apply (pa_prior _ _ HP v' mu' n'); auto].
           ++ intros va' vb' Tab' n' f' Hb' [<-|Hin]; [destruct (EI _ _ _ _ Hb') as (-> & ->); congruence | apply (pa_edge _ _ HP va' vb' Tab' n' f'); auto].
        -- assert (Hrs : r <> s) by (intros ->; rewrite (proj2 (eqb_ok s s)) in Esr; [discriminate|auto]). exists (redirect rt s (Some r)). constructor.
           ++ intros v' Hv'. destruct (redirect_case rt s (Some r) v') as [(H1 & _)|[(_ & H2)|(t & _ & _ & H2)]]; [|congruence|congruence]. apply tied_more, (pa_held _ _ HP); auto.
           ++ intros v' t Hv'. destruct (redirect_case rt s (Some r) v') as [(_ & H2)|[(H1 & H2)|(t' & Ht & H1 & H2)]]; [congruence| |].
              ** assert (t = r) by congruence. subst t. split; [eapply joined_trans; [exact Jrs | apply joined_more, (pa_root _ _ HP v' s H1)] | apply redirect_off; auto].
              ** assert (t' = t) by congruence. subst t'. destruct (pa_root _ _ HP v' t H1) as (J & Ht'). split; [apply joined_more; auto | apply redirect_off; auto].
           ++ intros v' mu' n' [Eq|Hin]; [exfalso; eapply NP; eauto | apply redirect_none, (pa_prior _ _ HP v' mu' n'); auto].
           ++ intros va' vb' Tab' n' f' Hb' [<-|Hin]; [|apply redirect_same, (pa_edge _ _ HP va' vb' Tab' n' f'); auto]. destruct (EI _ _ _ _ Hb') as (-> & ->). rewrite (redirect_at rt s (Some r) vb Eb). apply redirect_off; auto.
      * destruct (pa_root _ _ HP va r Ea) as (Jr & Er). assert (Tr : tied (f :: fs) r).
        { apply tied_along with vb; [|apply tied_more, (pa_held _ _ HP); auto]. apply joined_sym. eapply joined_trans; [apply joined_more; exact Jr | exact Jab]. }
        destruct (held f fs rt r HP Tr Er) as (H1 & H2). exists (redirect rt r None). constructor; auto.
        -- intros v' mu' n' [Eq|Hin]; [exfalso; eapply NP; eauto | apply redirect_none, (pa_prior _ _ HP v' mu' n'); auto].
        -- intros va' vb' Tab' n' f' Hb' [<-|Hin]; [|apply redirect_same, (pa_edge _ _ HP va' vb' Tab' n' f'); auto]. destruct (EI _ _ _ _ Hb') as (-> & ->). rewrite (redirect_at rt r None va Ea), (redirect_none rt r None vb Eb); auto.
      * destruct (pa_root _ _ HP vb s Eb) as (Js & Es). assert (Ts : tied (f :: fs) s).
        { apply tied_along with va; [|apply tied_more, (pa_held _ _ HP); auto]. eapply joined_trans; [exact Jab|]. apply joined_sym, joined_more; auto. }
        destruct (held f fs rt s HP Ts Es) as (H1 & H2). exists (redirect rt s None). constructor; auto.
        -- intros v' mu' n' [Eq|Hin]; [exfalso; eapply NP; eauto | apply redirect_none, (pa_prior _ _ HP v' mu' n'); auto].
        -- intros va' vb' Tab' n' f' Hb' [<-|Hin]; [|apply redirect_same, (pa_edge _ _ HP va' vb' Tab' n' f'); auto]. destruct (EI _ _ _ _ Hb') as (-> & ->). rewrite (redirect_at rt s None vb Eb), (redirect_none rt s None va Ea); auto.
      * exists rt. constructor.
        -- intros v' Hv'. apply tied_more, (pa_held _ _ HP); auto.
        -- intros v' r' Hv'. destruct (pa_root _ _ HP v' r' Hv') as (J & Hr'). split; auto. apply joined_more; auto.
        -- intros v' mu' n' [Eq|Hin]; [exfalso; eapply NP; eauto | apply (pa_prior _ _ HP v' mu' n'); auto].
        -- intros va' vb' Tab' n' f' Hb' [<-|Hin]; [destruct (EI _ _ _ _ Hb') as (-> & ->); congruence | apply (pa_edge _ _ HP va' vb' Tab' n' f'); auto].
Qed.

Section Graph.
Variable groups : vty -> lie_ops R (list R).
Variable fs : list (factor R).
Variable z : var -> pytree R.
Hypothesis SB : solved_by groups fs z.
Let E := pose_env groups.
Notation field := (var -> list R).
Notation LL := (LL groups fs).
Notation RR := (RR groups fs).
Notation flatv := (flatv fs).
Notation legal val := (forall v, In v (mentioned fs) -> value_ok (e_cls E (v_ty v)) (val v)).
Definition carried (fr : var -> list R) (w val : var -> pytree R) : Prop :=
  forall v, In v (mentioned fs) -> val v = group_value (v_ty v) (lg_mul (groups (v_ty v)) (fr v) (params (w v))).

(* ---- the same problem after the motion ---- *)
Section Motion.
Variable fr : var -> list R.
Hypothesis Hu : unseen_motion groups fs fr.

Lemma carried_legal w val : carried fr w val -> legal val.
Proof. intros H v Hv. rewrite (H v Hv). apply pose_value_ok. eexists. split; [reflexivity|]. apply raw_mul_length. apply (sb_groups _ _ _ SB); auto. Qed.

Lemma carried_one w val f : legal w -> carried fr w val -> In f fs -> whitened_at E val f = whitened_at E w f /\ jacobians_at E val f = jacobians_at E w f.
Proof.
  intros Lw H Hf. destruct (sb_factors _ _ _ SB f Hf) as (Pf & Hrest). destruct Pf as [v mu n Hm Hn Hd|va vb Tab n f Hb Hm Hn Hd].
  - assert (Hv : In v (mentioned fs)) by (apply (men fs _ v Hf); cbn; auto). assert (Ev : val v = w v).
    { rewrite (H v Hv), (um_prior _ _ _ Hu v mu n Hf). pose proof (Lw v Hv) as Lv. destruct (proj2 (pose_value_ok groups (v_ty v) (w v)) Lv) as (p & Ep & Lp). rewrite Ep, params_value. f_equal. apply one_left; [apply (kn groups fs z SB); auto | exact Lp]. }
    unfold whitened_at, jacobians_at, residual_at. cbn [prior_make f_vars map]. rewrite Ev. auto.
  - pose proof (between_inv _ _ _ _ _ Hb) as (Hty & Ef). assert (Ha : In va (mentioned fs)) by (apply (men fs _ va Hf); rewrite Ef; cbn; auto). assert (Hb' : In vb (mentioned fs)) by (apply (men fs _ vb Hf); rewrite Ef; cbn; auto).
    assert (HM : forall v, In v (mentioned [f]) -> v = va \/ v = vb). { intros v Hv. apply mentioned_in in Hv. destruct Hv as (f' & [<-|[]] & Hv). rewrite Ef in Hv. cbn in Hv. destruct Hv as [<-|[<-|[]]]; auto. }
    assert (HI : forall v, In v (mentioned [f]) -> In v (mentioned fs)) by (intros v Hv; destruct (HM v Hv); subst v; auto).
    set (frame := fun t : vty => if Nat.eqb t (v_ty va) then fr va else lg_one (groups t)).
    assert (SB1 : solved_by groups [f] z). { constructor; [intros f' [<-|[]]; apply (sb_factors _ _ _ SB); auto | intros v Hv; apply (sb_groups _ _ _ SB); auto | intros v Hv; apply (sb_values _ _ _ SB); auto]. }
    assert (Rel1 : forall f', In f' [f] -> f_cls f' = 1%nat) by (intros f' [<-|[]]; rewrite Ef; reflexivity).
    assert (U1 : unit_frame groups frame).
    { intros t. change (unit_pose (groups t) (frame t)). unfold frame. destruct (Nat.eqb t (v_ty va)) eqn:Et; [apply Nat.eqb_eq in Et; subst t; apply (um_unit _ _ _ Hu); auto|]. split; intros []; unfold norm2, norm4; cbn; ring. }
    assert (F1 : framed groups [f] frame w val).
    { intros v Hv. rewrite (H v (HI v Hv)). unfold move. f_equal. unfold frame. destruct (HM v Hv) as [->| ->]; [rewrite Nat.eqb_refl; auto|]. rewrite <- Hty, Nat.eqb_refl. rewrite (um_between _ _ _ Hu va vb Tab n f Hb Hf). reflexivity. }
    assert (L1 : forall v, In v (mentioned [f]) -> value_ok (e_cls (pose_env groups) (v_ty v)) (w v)) by (intros v Hv; apply Lw; auto).
    split; [apply (framed_white groups [f] z SB1 Rel1 frame U1 w val f L1 F1 (or_introl Logic.eq_refl)) | apply (framed_jac groups [f] z SB1 Rel1 frame U1 w val f L1 F1 (or_introl Logic.eq_refl))].
Qed.
Lemma carried_cost w val : legal w -> carried fr w val -> cost_at E fs val = cost_at E fs w.
Proof. intros Lw H. unfold cost_at. apply vsum_map_ext. intros f Hf. rewrite (proj1 (carried_one w val f Lw H Hf)); auto. Qed.
Lemma carried_model w val xi : legal w -> carried fr w val -> model E fs val val xi = model E fs w w xi.
Proof.
  intros Lw H. unfold model. apply vsum_map_ext. intros f Hf. unfold model_at, whitened_jacobians_at. destruct (carried_one w val f Lw H Hf) as (H1 & H2). rewrite H1, H2. reflexivity.
Qed.
Lemma carried_damped beta w val xi : legal w -> carried fr w val -> damped_step E fs beta val val xi -> damped_step E fs beta w w xi.
Proof.
  intros Lw H (T & M). split; auto. intros eta Te. destruct (M eta Te) as (H1 & H2). rewrite !(carried_model w val) in H1 by auto. rewrite !(carried_model w val) in H2 by auto. auto.
Qed.
Lemma carried_moved w val xi p : carried fr w val -> moved E fs val xi p -> exists p0, moved E fs w xi p0 /\ carried fr p0 p.
Proof.
  intros H Hp. exists (fun v => group_value (v_ty v) (lie_retract (groups (v_ty v)) (params (w v)) (xi v))). split; [intros v Hv; reflexivity|].
  intros v Hv. specialize (Hp v Hv). cbn in Hp. injection Hp as Hp. rewrite <- Hp, (H v Hv). unfold lie_retract, rplus. rewrite !params_value. rewrite raw_assoc by (apply (sb_groups _ _ _ SB); auto). reflexivity.
Qed.
Lemma carried_quality w val xi p0 p : legal w -> legal p0 -> carried fr w val -> carried fr p0 p -> quality E fs val val xi p = quality E fs w w xi p0.
Proof. intros Lw Lp H Hp. unfold quality. rewrite (carried_cost w val), (carried_cost p0 p), (carried_model w val) by auto. reflexivity. Qed.
End Motion.

Lemma carried_then fa fb w1 w2 w3 : unseen_motion groups fs fa -> unseen_motion groups fs fb -> carried fa w1 w2 -> carried fb w2 w3 -> exists fc, unseen_motion groups fs fc /\ carried fc w1 w3.
Proof.
  intros Ua Ub H1 H2. exists (fun v => lg_mul (groups (v_ty v)) (fb v) (fa v)). split.
  - constructor.
    + intros v Hv. apply unit_mul; [apply (kn groups fs z SB); auto | apply (um_unit _ _ _ Ub); auto | apply (um_unit _ _ _ Ua); auto].
    + intros v mu n Hf. rewrite (um_prior _ _ _ Ua v mu n Hf), (um_prior _ _ _ Ub v mu n Hf). assert (Hv : In v (mentioned fs)) by (apply (men fs _ v Hf); cbn; auto). apply one_left; [apply (kn groups fs z SB); auto | reflexivity].
    + intros va vb Tab n f Hb Hf. rewrite (um_between _ _ _ Ua va vb Tab n f Hb Hf), (um_between _ _ _ Ub va vb Tab n f Hb Hf). destruct (between_inv _ _ _ _ _ Hb) as (Hty & _). rewrite Hty. reflexivity.
  - intros v Hv. rewrite (H2 v Hv), (H1 v Hv). rewrite params_value, raw_assoc by (apply (sb_groups _ _ _ SB); auto). reflexivity.
Qed.
Lemma carried_still w : legal w -> exists fr, unseen_motion groups fs fr /\ carried fr w w.
Proof.
  intros Lw. exists (fun v => lg_one (groups (v_ty v))). split.
  - constructor; [intros v _; split; intros []; unfold norm2, norm4; cbn; ring | auto | intros va vb Tab n f Hb _; destruct (between_inv _ _ _ _ _ Hb) as (Hty & _); rewrite Hty; auto].
  - intros v Hv. destruct (proj2 (pose_value_ok groups (v_ty v) (w v)) (Lw v Hv)) as (p & Ep & Lp). rewrite Ep, params_value. f_equal. symmetry. apply one_left; [apply (kn groups fs z SB); auto | exact Lp].
Qed.
End Graph.
