(* Bundling lemmas and concrete instances for C72. *)
From Coq Require Import List Arith Bool ZArith Lia Reals Lra Permutation.
From Verif Require Import Num NumR Py Arr MLayout MAssign MNoise MSparse MFactor MGraph MCov MLie MPose SpecLayout SpecTree SpecAssign SpecGraph SpecSparse SpecNoise SpecDeriv SpecCov SpecLie SpecOrder SpecPose SpecInfo.
From Verif Require Import PBase PVec PSparse PSum PTri PLayout PTree PAssign PAssign2 PGraph PGraph2 PGraph3 PGraph4 PJac PGraph5 PExGraph PDeriv PExSparse PCov PCov2 PNoise PLie PLin PPose PInfo.
Import ListNotations.
Local Open Scope R_scope.

Definition inverse_of_diag (c : list R) (i j : nat) : R := if Nat.eqb i j then / nth i c 0 else 0.

Lemma noise_info chol inv k sigma n : (0 < k)%nat -> noise_of_covariance chol inv k sigma n ->
  noise_ok n /\ noise_dim n = k /\ linear_noise n /\ meq k (mtr sigma) sigma /\ (exists om, minverse k sigma om) /\
  forall om, minverse k sigma om -> forall r, length r = k -> exists w, whiten_residual n r = Ok w /\ sumsq w = quad k om r.
Proof.
  intros Hk [cov m Hc Hch Hin Hm | c Hl Hpos].
  - assert (Hz : length (vzero (T := R) k) = k) by apply vzero_length.
    destruct (covariance_norm chol inv cov k _ Hc Hk Hch Hin Hz) as (m' & _ & Em & Hok & Hd & _).
    assert (m' = m) by congruence. subst m'.
    assert (Hsym : meq k (mtr (ent cov)) (ent cov)).
    { destruct Hch as (_ & Hch). intros i j Hi Hj. unfold mtr. rewrite <- (Hch j i), <- (Hch i j) by auto. apply sumn_ext. intros; ring. }
    assert (Hlin : linear_noise m).
    { unfold gaussian_from_covariance in Em. destruct (forallb _ _); cbn [assert_ bind] in Em; [|discriminate]. injection Em as <-. exact I. }
    split; auto. split; auto. split; auto. split; auto. split.
    + set (L := ent (chol cov)). set (W := ent (inv (chol cov))).
      assert (HW : minverse k L W).
      { destruct Hin as (_ & Hin). split; intros i j Hi Hj; apply (Hin i j Hi Hj). }
      exists (mprod k (mtr W) W). apply inv_symmetric; auto. destruct Hch as (_ & Hch).
      apply meq_trans with (mprod k (mprod k L (mtr L)) (mprod k (mtr W) W)); [|apply llt_inverse; auto].
      apply mprod_ext; [|apply meq_refl]. intros i j Hi Hj. symmetry. apply Hch; auto.
    + intros om (Hom & _) r Hr. destruct (covariance_norm chol inv cov k r Hc Hk Hch Hin Hr) as (m' & w & Em' & _ & _ & Hw & Hq & _).
      assert (m' = m) by congruence. subst m'. exists w. split; auto.
      rewrite (Hq (vec k (mv k om (fun i => nth i r 0)))).
      * rewrite quad_qd. unfold qd, dt. apply sumn_ext. intros i Hi. f_equal. apply nth_list. auto.
      * intros i Hi. rewrite <- (mv_inverse k (ent cov) om (fun i => nth i r 0) i Hom Hi). apply sumn_ext. intros j Hj. f_equal. apply nth_list. auto.
  - assert (Hc : forall i, (i < k)%nat -> 0 < nth i c 0) by (intros i Hi; rewrite Forall_forall in Hpos; apply Hpos, nth_In; lia).
    assert (Hinv : minverse k (fun i j => if Nat.eqb i j then nth i c 0 else 0) (inverse_of_diag c)).
    { apply inv_symmetric.
      - intros i j _ _. unfold mtr. rewrite Nat.eqb_sym. destruct (Nat.eqb_spec i j); subst; auto.
      - intros i j Hi Hj. unfold mprod. rewrite (sumn_ext _ _ (fun l => (if Nat.eqb i l then 1 else 0) * (nth i c 0 * inverse_of_diag c l j))).
        + rewrite (sumn_delta k i (fun l => nth i c 0 * inverse_of_diag c l j)) by auto. unfold inverse_of_diag, meye.
          destruct (Nat.eqb i j); [|ring]. field. specialize (Hc i Hi). lra.
        + intros l Hl'. destruct (Nat.eqb i l); ring. }
    split; [|split; [|split; [exact I|]]].
    + split; [|eexists; reflexivity]. unfold arr_ok. cbn. rewrite map_length, Nat.mul_1_r. apply Nat.eqb_refl.
    + cbn. auto.
    + split.
      * intros i j _ _. unfold mtr. rewrite Nat.eqb_sym. destruct (Nat.eqb_spec i j); subst; auto.
      * split; [eexists; exact Hinv|]. intros om Hom r Hr. destruct (diag_norm c r Hpos) as (w & Ew & Hw); [lia|]. exists w. split; auto.
        rewrite Hw, Hl. assert (He : meq k om (inverse_of_diag c)) by (apply (PTri.inv_unique k _ _ _ (proj2 Hom) (proj1 Hinv))).
        unfold quad. apply sumn_ext. intros i Hi.
        rewrite (sumn_ext _ _ (fun j => (if Nat.eqb i j then 1 else 0) * (nth i r 0 * / nth i c 0 * nth j r 0))).
        -- rewrite (sumn_delta k i (fun j => nth i r 0 * / nth i c 0 * nth j r 0)) by auto. field. specialize (Hc i Hi). lra.
        -- intros j Hj. rewrite He by auto. unfold inverse_of_diag. destruct (Nat.eqb i j); ring.
Qed.

(* the sum of symmetric forms *)
Lemma msum_sym k l : Forall (fun m => meq k (mtr m) m) l -> meq k (mtr (msum l)) (msum l).
Proof.
  intros H i j Hi Hj. unfold mtr, msum. induction H as [|m l Hm H IH]; [reflexivity|].
  cbn [map]. change (m j i + vsum (map (fun m => m j i) l) = m i j + vsum (map (fun m => m i j) l)). rewrite IH. f_equal. apply (Hm i j); auto.
Qed.
Lemma quad_msum k l x : quad k (msum l) x = vsum (map (fun m => quad k m x) l).
Proof.
  induction l as [|m l IH].
  - unfold quad, msum. cbn [map]. apply sumn_zero. intros i Hi. apply sumn_zero. intros j Hj. change (vsum []) with 0. ring.
  - cbn [map]. change (vsum (?a :: ?b)) with (a + vsum b). rewrite <- IH. unfold quad. rewrite <- sumn_plus. apply sumn_ext. intros i Hi.
    rewrite <- sumn_plus. apply sumn_ext. intros j Hj. unfold msum. cbn [map]. change (vsum (m i j :: ?b)) with (m i j + vsum b). ring.
Qed.

Section Priors.
Variable groups : vty -> lie_ops R (list R).
Variable chol inv : list (list R) -> list (list R).
Variable v : var.
Let k := lg_dim (groups (v_ty v)).
Let E := pose_env groups.
Hypothesis Hkn : known groups (v_ty v).

Lemma k_pos : (0 < k)%nat.
Proof. destruct (dim_pos groups (v_ty v) Hkn) as (H & _). unfold k. lia. Qed.

Lemma prior_pose sigma f : prior_on groups chol inv v sigma f -> pose_factor groups f /\ f_vars f = [v] /\ residual_dim f = k /\ linear_noise (f_noise f).
Proof.
  intros (mu & n & -> & Hmu & Hn). destruct (noise_info chol inv _ sigma n k_pos Hn) as (Hok & Hd & Hlin & _).
  split; [constructor; auto|]. split; auto.
Qed.

Lemma priors_mentioned sigmas fs : Forall2 (prior_on groups chol inv v) sigmas fs -> fs <> [] -> mentioned fs = [v].
Proof.
  intros H Hne. assert (Hv : Forall (fun f => f_vars f = [v]) fs).
  { clear Hne. induction H as [|s f ss fs Hf H IH]; constructor; auto. apply (prior_pose s f Hf). }
  clear H. destruct fs as [|f fs]; [contradiction|]. clear Hne. unfold mentioned. inversion Hv as [|? ? Hf Hr]; subst. cbn [flat_map]. rewrite Hf. cbn [app firsts].
  f_equal. clear Hv Hf. assert (H : forall x, In x (firsts (flat_map f_vars fs)) -> x = v).
  { intros x Hx. apply (proj1 (firsts_in _ _)) in Hx. apply in_flat_map in Hx. destruct Hx as (f' & Hf & Hx). rewrite Forall_forall in Hr. rewrite (Hr f' Hf) in Hx.
    destruct Hx as [<-|[]]; auto. }
  induction (firsts (flat_map f_vars fs)) as [|x l IH]; auto. cbn [filter]. rewrite (H x) by (left; auto).
  replace (eqb v v) with true by (symmetry; apply eqb_refl). cbn. apply IH. intros; apply H; right; auto.
Qed.

Lemma one_layout fs : mentioned fs = [v] -> l_dim (graph_layout E fs true) = k /\ dict_get (l_index (graph_layout E fs true)) v = Some 0%nat /\ l_local (graph_layout E fs true) = true.
Proof.
  intros Hm. assert (ND : NoDup (mentioned fs)) by apply mentioned_nodup.
  assert (Hd : l_dim (graph_layout E fs true) = k).
  { unfold graph_layout. rewrite (lay_dim (e_cls E) (mentioned fs) true ND), Hm. cbn. unfold k. lia. }
  split; auto. split; [|apply lay_local; auto].
  destruct (proj1 (lay_index_mem (e_cls E) (mentioned fs) true ND v)) as (i & Hi); [rewrite Hm; left; auto|].
  pose proof (lay_bound (e_cls E) (mentioned fs) true ND v i Hi) as Hb. unfold graph_layout in *. rewrite Hd in Hb. cbn in Hb. fold k in Hb.
  rewrite Hi. f_equal. lia.
Qed.

Lemma whole_slice (x : list R) n : length x = n -> slice x 0 n = x.
Proof. intros <-. unfold slice. cbn. rewrite Nat.sub_0_r. apply firstn_all. Qed.

Lemma prior_moved fs val x f sigma : prior_on groups chol inv v sigma f -> mentioned fs = [v] -> length x = k ->
  moved E (graph_layout E fs true) val x f = vneg x.
Proof.
  intros Hf Hm Hx. destruct (one_layout fs Hm) as (Hd & Hi & Hl). destruct (prior_pose sigma f Hf) as (_ & Hv & Hr & _).
  unfold moved, slots_times. rewrite Hv, Hr. destruct Hf as (mu & n & -> & _). unfold jacobians_at.
  cbn [prior_make f_vars anonymize map e_jac pose_env E]. unfold pose_jacobians. cbn [fd_cls fd_types fd_params anonymize prior_make f_cls f_vars f_params map].
  unfold prior_jacobians. cbn [zipw fold_right]. fold k. unfold block. rewrite Hi, Hl. cbn [vdim]. 
  rewrite whole_slice by (cbn; auto). rewrite neg_eye_mvec by auto. assert (Hl' : length (vneg x) = k) by (unfold vneg; rewrite map_length; auto).
  rewrite <- Hl'. apply vadd_zero.
Qed.

Lemma forall2_impl_in {A B} (P Q : A -> B -> Prop) l l' : (forall x y, In x l -> P x y -> Q x y) -> Forall2 P l l' -> Forall2 Q l l'.
Proof. intros H F. induction F; constructor; [apply H; auto; left; auto|]. apply IHF. intros; apply H; auto; right; auto. Qed.

Lemma quad_neg n h (x : list R) : quad n h (vneg x) = quad n h x.
Proof.
  assert (Hn : forall i, nth i (vneg x) 0 = - nth i x 0).
  { intros i. unfold vneg. replace 0 with (- 0) at 1 by ring. rewrite <- (map_nth Ropp). reflexivity. }
  unfold quad. apply sumn_ext. intros i _. apply sumn_ext. intros j _. rewrite !Hn. ring.
Qed.

Section List.
Variable sigmas : list (nat -> nat -> R).
Variable fs : list (factor R).
Variable g : graph R.
Variable a : assign R.
Variable val : var -> pytree R.
Hypothesis HF : Forall2 (prior_on groups chol inv v) sigmas fs.
Hypothesis Hne : fs <> [].
Hypothesis Hm : graph_make E fs = Ok g.
Hypothesis Ha : assigns E fs a val.

Lemma priors_of f : In f fs -> exists s, In s sigmas /\ prior_on groups chol inv v s f.
Proof.
  clear - HF. intros Hf. pose proof HF as HF0; clear HF; induction HF0 as [|s f' ss l Hp H IH]; [destruct Hf|]. destruct Hf as [<-|Hf]; [eexists; split; [left; auto | eauto]|].
  destruct (IH Hf) as (s' & H1 & H2). exists s'. split; auto. right; auto.
Qed.
Lemma priors_ready : mentioned fs = [v] /\ (forall f, In f fs -> factor_ok f) /\ (forall f, In f fs -> linear_noise (f_noise f)) /\
  (forall f, In f fs -> residual_shape_ok E val f) /\ (forall f, In f fs -> jacobian_shape_ok E val f) /\ total residual_dim fs <> 0%nat /\
  l_dim (g_local_layout g) = k.
Proof.
  pose proof (priors_mentioned _ _ HF Hne) as Hmen. pose proof k_pos as Hk.
  assert (Hpf : forall f, In f fs -> pose_factor groups f) by (intros f Hf; destruct (priors_of f Hf) as (s & _ & H); apply (prior_pose s f H)).
  assert (Hok : forall f, In f fs -> factor_ok f) by (intros f Hf; eapply pose_factor_ok; eauto).
  assert (Hlin : forall f, In f fs -> linear_noise (f_noise f)) by (intros f Hf; destruct (priors_of f Hf) as (s & _ & H); apply (prior_pose s f H)).
  assert (Hkk : forall w, In w (mentioned fs) -> known groups (v_ty w)) by (intros w Hw; rewrite Hmen in Hw; destruct Hw as [<-|[]]; auto).
  pose proof (pose_shaped groups fs Hpf Hkk) as Hsh.
  assert (Hval : forall w, In w (mentioned fs) -> value_ok (e_cls E (v_ty w)) (val w)).
  { intros w Hw. destruct Ha as (vs & Hwf & Hin & Hget). apply Hin in Hw.
    destruct (get_value_ok (e_cls E) (pose_classes groups) vs a w Hwf Hw) as (x & Ex & Hx & _). rewrite (Hget w Hw) in Ex. injection Ex as ->. auto. }
  split; auto. split; auto. split; auto. split; [intros f Hf; apply (ws_residual _ _ Hsh); auto|]. split; [intros f Hf; apply (ws_jacobian _ _ Hsh); auto|].
  split.
  - pose proof priors_of as HP. destruct fs as [|f l]; [contradiction|]. destruct (HP f (or_introl eq_refl)) as (s & _ & H). destruct (prior_pose s f H) as (_ & _ & Hd & _).
    change (residual_dim f + total residual_dim l <> 0)%nat. lia.
  - destruct (made E fs g Hok Hm) as (Hg & _). rewrite (ig_local _ _ _ Hg). apply one_layout. auto.
Qed.

(* the information matrix of the priors is the sum of their inverse covariances *)
Lemma priors_gram r A : compute_whitened_residual_jacobian E g a r = Ok A -> length r = total residual_dim fs ->
  forall oms, Forall2 (minverse k) sigmas oms -> meq k (gram A) (msum oms).
Proof.
  intros EA Hlr oms Ho. destruct priors_ready as (Hmen & Hok & Hlin & Hr & Hj & Hpos & Hd). pose proof k_pos as Hk.
  destruct (info_sum E fs g a val r Hok Hm Ha Hlin Hj Hlr Hpos) as (A0 & EA0 & _ & _ & HI). assert (A0 = A) by congruence. subst A0.
  destruct (made E fs g Hok Hm) as (Hg & _). rewrite Hd in HI. rewrite (ig_local _ _ _ Hg) in HI.
  apply form_unique; [apply gram_sym| |].
  - apply msum_sym. clear - HF Ho Hk. revert oms Ho. pose proof HF as HF0; clear HF; induction HF0 as [|sg f ss l Hf H IH]; intros oms Ho; inversion Ho as [|? om ? oms' H1 H2]; subst; constructor; auto.
    destruct Hf as (mu & n & _ & _ & Hn). destruct (noise_info chol inv _ sg n Hk Hn) as (_ & _ & _ & Hsy & _). apply (inv_symmetric k sg om); auto. apply H1.
  - intros u. rewrite <- !quad_vec. destruct (HI (vec k u) (vec_length k u)) as (ws & Hws & ->).
    rewrite quad_msum. f_equal. assert (Hu : length (vec k u) = k) by apply vec_length. generalize dependent (vec k u). clear u. intros x Hws Hx.
    assert (Hws' : Forall2 (fun f w => whiten_residual (f_noise f) (vneg x) = Ok w) fs ws).
    { refine (forall2_impl_in _ _ _ _ _ Hws). intros f w Hf Hw. destruct (priors_of f Hf) as (sg & _ & Hpo). rewrite <- Hw. f_equal.
      symmetry. apply (prior_moved fs val x f sg Hpo Hmen Hx). }
    clear - HF Ho Hws' Hx Hk. revert oms ws Ho Hws'. pose proof HF as HF0; clear HF; induction HF0 as [|sg f ss l Hf H IH]; intros oms ws Ho Hws; inversion Ho as [|? om ? oms' H1 H2]; subst;
      inversion Hws as [|? w ? ws' H3 H4]; subst; auto. cbn [map]. f_equal; auto.
    destruct Hf as (mu & n & -> & _ & Hn). destruct (noise_info chol inv _ sg n Hk Hn) as (_ & _ & _ & _ & _ & Hq).
    destruct (Hq om H1 (vneg x)) as (w' & Ew & Hw); [unfold vneg; rewrite map_length; auto|]. cbn [prior_make f_noise] in H3. assert (w' = w) by congruence. subst w'.
    rewrite Hw. apply quad_neg.
Qed.

Lemma priors_fuse chol' S fuel : recovered chol' E g a S -> (2 * k + 1 <= fuel)%nat ->
  exists M ch, compute_marginal (e_cls E) S fuel [v] [] = Ok (Some (M, ch)) /\ shaped k k M /\
    (exists oms, Forall2 (minverse k) sigmas oms) /\
    forall oms, Forall2 (minverse k) sigmas oms -> minverse k (msum oms) (ent M).
Proof.
  intros HR Hfu. destruct priors_ready as (Hmen & Hok & Hlin & Hr & Hj & Hpos & Hd). pose proof k_pos as Hk.
  destruct (recovered_marginal E fs g a val chol' S Hok Hm Ha Hr Hj Hpos HR) as (r & A & s & Er & Hlr & EA & Hs & HM).
  destruct (made E fs g Hok Hm) as (Hg & _). rewrite Hd in *. rewrite (ig_local _ _ _ Hg) in *.
  destruct (one_layout fs Hmen) as (_ & Hi & Hl).
  destruct (HM [v] fuel) as (ch & Ech); [intros w [<-|[]]; rewrite Hmen; left; auto | auto|].
  assert (Hidx : indices E (graph_layout E fs true) [v] = seq 0 k).
  { unfold indices. cbn [flat_map]. rewrite app_nil_r. unfold pos. rewrite Hi. reflexivity. }
  rewrite Hidx in Ech. do 2 eexists. split; [exact Ech|]. split; [|split].
  - unfold block_of, shaped. rewrite map_length, seq_length. split; auto. apply Forall_forall. intros row Hin. apply in_map_iff in Hin.
    destruct Hin as (i & <- & _). rewrite map_length, seq_length. auto.
  - clear - HF Hk. pose proof HF as HF0; clear HF; induction HF0 as [|sg f ss l Hf H IH]; [exists []; constructor|]. destruct IH as (oms & IH).
    destruct Hf as (mu & n & _ & _ & Hn). destruct (noise_info chol inv _ sg n Hk Hn) as (_ & _ & _ & _ & (om & Hom) & _). exists (om :: oms). constructor; auto.
  - intros oms Ho. pose proof (priors_gram r A EA Hlr oms Ho) as Hgr.
    assert (HsM : meq k (ent (block_of s (seq 0 k))) s).
    { intros i j Hi' Hj'. rewrite block_ent by (rewrite seq_length; auto). rewrite !seq_nth by auto. auto. }
    destruct Hs as (Hs1 & Hs2). split.
    + apply meq_trans with (mprod k (gram A) s); auto. apply mprod_ext; auto. apply meq_sym; auto.
    + apply meq_trans with (mprod k s (gram A)); auto. apply mprod_ext; auto. apply meq_sym; auto.
Qed.

(* and any factor of that sum makes the covariance object a recovered one *)
Lemma priors_recovered L oms : Forall2 (minverse k) sigmas oms -> is_factor_of k (msum oms) (fun i => i) L ->
  exists S, recovered (fun _ => L) E g a S.
Proof.
  intros Ho HL. destruct priors_ready as (Hmen & Hok & Hlin & Hr & Hj & Hpos & Hd).
  destruct (make_covariance E fs g a val (fun _ => L) Hok Hm Ha Hr Hj Hpos) as (r & A & S & Er & EA & HA & HS & _ & Hn & _).
  exists S. split; auto. exists r, A. split; auto. split; auto. rewrite Hn, Hd.
  assert (HSL : sc_L S = L).
  { unfold scov_make in HS. rewrite Er in HS. cbn [bind] in HS. rewrite EA in HS. cbn [bind] in HS. injection HS as <-. auto. }
  rewrite HSL. assert (Hlr : length r = total residual_dim fs).
  { destruct (made E fs g Hok Hm) as (Hg & _). eapply residual_vector_length; eauto. }
  pose proof (priors_gram r A EA Hlr oms Ho) as Hgr.
  destruct HL as (F1 & F2 & F3 & F4 & F5). split; auto. split; auto. split; auto. split; auto. intros i j Hi Hj'. rewrite F5, Hgr by auto. auto.
Qed.
End List.

(* m priors with the same covariance *)
Lemma msum_repeat (om : nat -> nat -> R) m i j : msum (repeat om m) i j = INR m * om i j.
Proof.
  unfold msum. induction m as [|m IH]; [cbn; change (0 = 0 * om i j); ring|]. rewrite S_INR. cbn [repeat map].
  change (vsum (?a :: ?b)) with (a + vsum b). rewrite IH. ring.
Qed.
Lemma repeated_prior chol' sigma m fs g a val S fuel : Forall2 (prior_on groups chol inv v) (repeat sigma m) fs -> fs <> [] ->
  graph_make E fs = Ok g -> assigns E fs a val -> recovered chol' E g a S -> (2 * k + 1 <= fuel)%nat ->
  exists M ch, compute_marginal (e_cls E) S fuel [v] [] = Ok (Some (M, ch)) /\ shaped k k M /\
    forall i j, (i < k)%nat -> (j < k)%nat -> ent M i j = sigma i j / INR m.
Proof.
  intros HF Hne Hm Ha HR Hfu. destruct (priors_fuse _ fs g a val HF Hne Hm Ha chol' S fuel HR Hfu) as (M & ch & EM & Hsh & (oms & Ho) & Hinv).
  exists M, ch. split; auto. split; auto.
  assert (Hm0 : (0 < m)%nat) by (destruct m; [cbn in HF; inversion HF; subst; contradiction | lia]).
  assert (Hmr : 0 < INR m) by (apply lt_0_INR; auto).
  assert (Hom : exists om, minverse k sigma om).
  { destruct m; [lia|]. cbn in Ho. inversion Ho; subst. eauto. }
  destruct Hom as (om & Hom).
  assert (Hrep : Forall2 (minverse k) (repeat sigma m) (repeat om m)) by (clear - Hom; induction m; cbn; constructor; auto).
  specialize (Hinv _ Hrep).
  assert (Hr : meq k (mprod k (msum (repeat om m)) (fun i j => sigma i j / INR m)) meye).
  { intros i j Hi Hj. rewrite <- (proj2 Hom i j Hi Hj). unfold mprod. apply sumn_ext. intros l Hl. rewrite msum_repeat. field. lra. }
  exact (PTri.inv_unique k _ _ _ (proj2 Hinv) Hr).
Qed.
End Priors.

(* ---- two priors on one SE(2) variable: covariances I / 9 and I / 16 ---- *)
Definition se2_groups (_ : vty) : lie_ops R (list R) := raw_se2.
Definition vp : var := mkVar 0%nat 0%nat.
Definition diag3 (x : R) : list (list R) := [[x; 0; 0]; [0; x; 0]; [0; 0; x]].
Definition chol3 (_ : list (list R)) : list (list R) := diag3 (/ 3).
Definition inv3 (_ : list (list R)) : list (list R) := diag3 3.
Definition sigma_a : nat -> nat -> R := ent (diag3 (/ 9)).
Definition sigma_b : nat -> nat -> R := fun i j => if Nat.eqb i j then nth i [/ 16; / 16; / 16] 0 else 0.
Definition prior_a : factor R := prior_make vp (group_value 0%nat [1; 0; 0; 0]) (Gaussian (mkArr [3%nat; 3%nat] [3; 0; 0; 0; 3; 0; 0; 0; 3])).
Definition prior_b : factor R := prior_make vp (group_value 0%nat [0; 1; 2; 5]) (diag_from_covariance [/ 16; / 16; / 16]).
Definition at_pose : assign R := mkAssign [0; -1; 7; 3] (make_layout (lie_class se2_groups) [vp] false).
Definition pose_there (_ : var) : pytree R := group_value 0%nat [0; -1; 7; 3].
Definition dcol (x : R) : csc R := [[(0%nat, x)]; [(1%nat, x)]; [(2%nat, x)]].

Ltac upto3 i H := destruct i as [|[|[|i]]]; [| | | exfalso; lia].
Lemma chol3_ok : is_cholesky 3 (diag3 (/ 9)) (diag3 (/ 3)) /\ is_inverse 3 (diag3 (/ 3)) (diag3 3).
Proof.
  split; (split; [split; [reflexivity | repeat constructor]|]); intros i j Hi Hj; upto3 i Hi; upto3 j Hj; unfold sumn, vsum, ent; cbn; rn; try (split; field); field.
Qed.
Lemma prior_a_ok : prior_on se2_groups chol3 inv3 vp sigma_a prior_a.
Proof.
  do 2 eexists. split; [reflexivity|]. split; [exists [1; 0; 0; 0]; split; reflexivity|]. cbn [lg_dim raw_se2 se2_groups].
  apply (nc_full chol3 inv3 3 (diag3 (/ 9))); [split; [reflexivity | repeat constructor] | apply chol3_ok | apply chol3_ok | reflexivity].
Qed.
Lemma prior_b_ok : prior_on se2_groups chol3 inv3 vp sigma_b prior_b.
Proof.
  do 2 eexists. split; [reflexivity|]. split; [exists [0; 1; 2; 5]; split; reflexivity|]. cbn [lg_dim raw_se2 se2_groups].
  apply (nc_diag chol3 inv3 3 [/ 16; / 16; / 16]); [reflexivity|]. repeat (constructor; [lra|]). constructor.
Qed.
Definition om (x : R) : nat -> nat -> R := fun i j => if Nat.eqb i j then x else 0.
Lemma om_a : minverse 3 sigma_a (om 9).
Proof. split; intros i j Hi Hj; upto3 i Hi; upto3 j Hj; unfold mprod, sumn, vsum, sigma_a, om, meye, ent; cbn; rn; field. Qed.
Lemma om_b : minverse 3 sigma_b (om 16).
Proof. split; intros i j Hi Hj; upto3 i Hi; upto3 j Hj; unfold mprod, sumn, vsum, sigma_b, om, meye; cbn; rn; field. Qed.
Lemma dcol_factor x h : 0 < x -> meq 3 h (om (x * x)) -> is_factor_of 3 h (fun i => i) (dcol x).
Proof.
  intros Hx Hh. split; [reflexivity|]. split.
  - intros [|[|[|[|j]]]] col H; try discriminate; injection H as <-; repeat constructor; cbn; lia.
  - split; [intros i Hi; upto3 i Hi; unfold centry, vsum; cbn; rn; lra|]. split; [split; auto|].
    intros i j Hi Hj. rewrite Hh by auto. unfold llt. cbn [length dcol]. upto3 i Hi; upto3 j Hj; unfold mprod, mtr, sumn, centry, vsum, om; cbn; rn; ring.
Qed.
Lemma ex_fused : exists g g' S S',
  Forall2 (prior_on se2_groups chol3 inv3 vp) [sigma_a; sigma_b] [prior_a; prior_b] /\ known se2_groups (v_ty vp) /\
  graph_make (pose_env se2_groups) [prior_a] = Ok g /\ graph_make (pose_env se2_groups) [prior_a; prior_b] = Ok g' /\
  assigns (pose_env se2_groups) [prior_a; prior_b] at_pose pose_there /\ mentioned [prior_a; prior_b] = mentioned [prior_a] /\
  recovered (fun _ => dcol 3) (pose_env se2_groups) g at_pose S /\ recovered (fun _ => dcol 5) (pose_env se2_groups) g' at_pose S' /\
  exists M M' ch ch', compute_marginal (lie_class se2_groups) S 7 [vp] [] = Ok (Some (M, ch)) /\
    compute_marginal (lie_class se2_groups) S' 7 [vp] [] = Ok (Some (M', ch')) /\
    forall i, (i < 3)%nat -> ent M i i = / 9 /\ ent M' i i = / 25.
Proof.
  assert (Hk : known se2_groups (v_ty vp)) by (left; constructor).
  assert (F1 : Forall2 (prior_on se2_groups chol3 inv3 vp) [sigma_a] [prior_a]) by (constructor; [apply prior_a_ok | constructor]).
  assert (F2 : Forall2 (prior_on se2_groups chol3 inv3 vp) [sigma_a; sigma_b] [prior_a; prior_b]) by (constructor; [apply prior_a_ok | constructor; [apply prior_b_ok | constructor]]).
  assert (O1 : Forall2 (minverse 3) [sigma_a] [om 9]) by (constructor; [apply om_a | constructor]).
  assert (O2 : Forall2 (minverse 3) [sigma_a; sigma_b] [om 9; om 16]) by (constructor; [apply om_a | constructor; [apply om_b | constructor]]).
  assert (Ha : forall fs, mentioned fs = [vp] -> assigns (pose_env se2_groups) fs at_pose pose_there).
  { intros fs Hm. exists [vp]. split; [split; [repeat constructor; simpl; intuition discriminate | split; reflexivity]|]. split; [intros w; rewrite Hm; reflexivity|].
    intros w [<-|[]]; reflexivity. }
  assert (Hm1 : mentioned [prior_a] = [vp]) by reflexivity. assert (Hm2 : mentioned [prior_a; prior_b] = [vp]) by reflexivity.
  destruct (graph_make (pose_env se2_groups) [prior_a]) as [g|] eqn:Eg; [|discriminate].
  destruct (graph_make (pose_env se2_groups) [prior_a; prior_b]) as [g'|] eqn:Eg'; [|discriminate].
  assert (Hne1 : [prior_a] <> []) by discriminate. assert (Hne2 : [prior_a; prior_b] <> []) by discriminate.
  destruct (priors_recovered se2_groups chol3 inv3 vp Hk _ _ g at_pose pose_there F1 Hne1 Eg (Ha _ Hm1) (dcol 3) [om 9] O1) as (S & HS).
  { apply dcol_factor; [lra|]. intros i j Hi Hj. unfold msum, om, vsum. cbn. rn. destruct (Nat.eqb i j); ring. }
  destruct (priors_recovered se2_groups chol3 inv3 vp Hk _ _ g' at_pose pose_there F2 Hne2 Eg' (Ha _ Hm2) (dcol 5) [om 9; om 16] O2) as (S' & HS').
  { apply dcol_factor; [lra|]. intros i j Hi Hj. unfold msum, om, vsum. cbn. rn. destruct (Nat.eqb i j); ring. }
  exists g, g', S, S'. split; auto. split; auto. split; auto. split; auto. split; [auto|]. split; [reflexivity|]. split; auto. split; auto.
  destruct (priors_fuse se2_groups chol3 inv3 vp Hk _ _ g at_pose pose_there F1 Hne1 Eg (Ha _ Hm1) _ S 7 HS) as (M & ch & EM & _ & _ & HM); [cbn; lia|].
  destruct (priors_fuse se2_groups chol3 inv3 vp Hk _ _ g' at_pose pose_there F2 Hne2 Eg' (Ha _ Hm2) _ S' 7 HS') as (M' & ch' & EM' & _ & _ & HM'); [cbn; lia|].
  exists M, M', ch, ch'. split; auto. split; auto. specialize (HM _ O1). specialize (HM' _ O2). cbn [lg_dim raw_se2 se2_groups] in HM, HM'.
  assert (Hi : forall x m h, 0 < x -> meq 3 h (om x) -> minverse 3 h m -> meq 3 m (om (/ x))).
  { intros x m h Hx Hh (_ & Hm). apply (PTri.inv_unique 3 (om x)).
    - apply meq_trans with (mprod 3 m h); auto. apply mprod_ext; [apply meq_refl | apply meq_sym; auto].
    - intros i j Hi Hj; upto3 i Hi; upto3 j Hj; unfold mprod, sumn, vsum, om, meye; cbn; rn; field; lra. }
  intros i Hi3. split.
  - rewrite (Hi 9 (ent M) (msum [om 9])) by (auto; try lra; intros p q _ _; unfold msum, om, vsum; cbn; rn; destruct (Nat.eqb p q); ring). unfold om. rewrite Nat.eqb_refl. auto.
  - rewrite (Hi 25 (ent M') (msum [om 9; om 16])) by (auto; try lra; intros p q _ _; unfold msum, om, vsum; cbn; rn; destruct (Nat.eqb p q); ring). unfold om. rewrite Nat.eqb_refl. auto.
Qed.
