(* Proofs about information matrices: they add up over factors; more information means
   smaller covariances. *)
From Coq Require Import List Arith Bool ZArith Lia Reals Lra Permutation.
From Verif Require Import Num NumR Py Arr MLayout MAssign MNoise MSparse MFactor MGraph MCov SpecLayout SpecTree SpecAssign SpecGraph SpecSparse SpecNoise SpecDeriv SpecCov SpecInfo.
From Verif Require Import PBase PVec PSparse PSum PTri PLayout PTree PAssign PAssign2 PGraph PGraph2 PGraph3 PGraph4 PJac PGraph5 PExGraph PDeriv PExSparse PCov PCov2.
Import ListNotations.
Local Open Scope R_scope.

Section Forms.
Variable n : nat.
Notation mat := (nat -> nat -> R).
Definition mv (h : mat) (u : nat -> R) (i : nat) : R := sumn n (fun j => h i j * u j).
Definition dt (u v : nat -> R) : R := sumn n (fun i => u i * v i).
Definition qd (h : mat) (u : nat -> R) : R := dt u (mv h u).

Lemma quad_qd h x : quad n h x = qd h (fun i => nth i x 0).
Proof.
  unfold quad, qd, dt, mv. apply sumn_ext. intros i _. rewrite <- sumn_scale. apply sumn_ext. intros j _. ring.
Qed.
Lemma dt_comm u v : dt u v = dt v u.
Proof. apply sumn_ext. intros; ring. Qed.
Lemma dt_ext u v u' v' : (forall i, (i < n)%nat -> u i = u' i) -> (forall i, (i < n)%nat -> v i = v' i) -> dt u v = dt u' v'.
Proof. intros Hu Hv. apply sumn_ext. intros i Hi. rewrite Hu, Hv; auto. Qed.
Lemma mv_ext h h' u u' i : meq n h h' -> (forall i, (i < n)%nat -> u i = u' i) -> (i < n)%nat -> mv h u i = mv h' u' i.
Proof. intros Hh Hu Hi. apply sumn_ext. intros j Hj. rewrite Hh, Hu; auto. Qed.
Lemma dt_mv h u v : meq n (mtr h) h -> dt u (mv h v) = dt (mv h u) v.
Proof.
  intros Hs. unfold dt, mv.
  rewrite (sumn_ext _ (fun i => u i * sumn n (fun j => h i j * v j)) (fun i => sumn n (fun j => u i * h i j * v j)))
    by (intros; rewrite <- sumn_scale; apply sumn_ext; intros; ring).
  rewrite sumn_swap. apply sumn_ext. intros j Hj. rewrite <- sumn_scale_r. apply sumn_ext. intros i Hi.
  rewrite <- (Hs i j) by auto. unfold mtr. ring.
Qed.
Lemma mv_inverse h s u i : meq n (mprod n h s) meye -> (i < n)%nat -> mv h (mv s u) i = u i.
Proof.
  intros H Hi. unfold mv.
  rewrite (sumn_ext _ _ (fun j => sumn n (fun k => h i j * s j k * u k))) by (intros; rewrite <- sumn_scale; apply sumn_ext; intros; ring).
  rewrite sumn_swap. rewrite (sumn_ext _ _ (fun k => (if Nat.eqb i k then 1 else 0) * u k)).
  - apply sumn_delta. auto.
  - intros k Hk. rewrite sumn_scale_r. f_equal. apply (H i k Hi Hk).
Qed.
Lemma dt_minus_l u v w : dt (fun i => u i - v i) w = dt u w - dt v w.
Proof. unfold dt. rewrite <- sumn_minus. apply sumn_ext. intros; ring. Qed.
Lemma mv_minus h u v i : mv h (fun i => u i - v i) i = mv h u i - mv h v i.
Proof. unfold mv. rewrite <- sumn_minus. apply sumn_ext. intros; ring. Qed.
Lemma qd_minus h u v : meq n (mtr h) h -> qd h (fun i => u i - v i) = qd h u - 2 * dt v (mv h u) + qd h v.
Proof.
  intros Hs. unfold qd. rewrite dt_minus_l.
  assert (H : forall w, dt w (mv h (fun i => u i - v i)) = dt w (mv h u) - dt w (mv h v)).
  { intros w. rewrite dt_comm, (dt_ext _ w (fun i => mv h u i - mv h v i) w), dt_minus_l, !(dt_comm _ w); auto. intros; apply mv_minus. }
  rewrite !H. rewrite (dt_mv h u v Hs), (dt_comm (mv h u) v). ring.
Qed.

(* more information in every direction, less variance in every direction *)
Lemma loewner h h' s s' : meq n (mtr h) h -> meq n (mtr h') h' -> minverse n h s -> minverse n h' s' ->
  (forall u, 0 <= qd h u <= qd h' u) -> forall x, qd s' x <= qd s x.
Proof.
  intros Hs Hs' (Hi & _) (Hi' & _) Hle x. set (u := mv s x). set (u' := mv s' x).
  assert (E1 : qd s x = qd h u).
  { unfold qd. rewrite (dt_comm u). apply dt_ext; auto. intros i Hl. symmetry. apply mv_inverse; auto. }
  assert (E2 : qd s' x = qd h' u').
  { unfold qd. rewrite (dt_comm u'). apply dt_ext; auto. intros i Hl. symmetry. apply mv_inverse; auto. }
  assert (E3 : dt u' (mv h u) = qd s' x).
  { unfold qd. rewrite dt_comm. apply dt_ext; auto. intros i Hl. apply mv_inverse; auto. }
  pose proof (proj1 (Hle (fun i => u i - u' i))) as H0. rewrite qd_minus, E3 in H0 by auto.
  pose proof (proj2 (Hle u')) as H1. rewrite E1. rewrite <- E2 in H1. lra.
Qed.

(* a symmetric matrix is determined by its quadratic form *)
Definition unit_at (i j : nat) : R := if Nat.eqb i j then 1 else 0.
Lemma mv_unit h i k : (k < n)%nat -> mv h (unit_at k) i = h i k.
Proof.
  intros Hk. unfold mv, unit_at. rewrite (sumn_ext _ _ (fun j => (if Nat.eqb k j then 1 else 0) * h i j)) by (intros; ring).
  rewrite sumn_delta by auto. auto.
Qed.
Lemma polar h u v : meq n (mtr h) h -> 4 * dt u (mv h v) = qd h (fun i => u i + v i) - qd h (fun i => u i - v i).
Proof.
  intros Hs. rewrite qd_minus by auto. 
  assert (E : qd h (fun i => u i + v i) = qd h u + 2 * dt v (mv h u) + qd h v).
  { pose proof (qd_minus h u (fun i => - v i) Hs) as H.
    assert (E1 : forall w, dt (fun i => - v i) w = - dt v w) by (intros w; unfold dt; rewrite <- sumn_opp; apply sumn_ext; intros; ring).
    assert (E2 : qd h (fun i => - v i) = qd h v).
    { unfold qd. rewrite E1. rewrite dt_comm, (dt_ext _ v (fun i => - mv h v i) v); auto.
      - unfold dt. rewrite <- sumn_opp. apply sumn_ext. intros; ring.
      - intros i _. unfold mv. rewrite <- sumn_opp. apply sumn_ext. intros; ring. }
    rewrite E1, E2 in H. replace (qd h (fun i => u i + v i)) with (qd h (fun i => u i - - v i)); [rewrite H; ring|].
    assert (E3 : forall i, (i < n)%nat -> u i - - v i = u i + v i) by (intros; ring).
    unfold qd. apply dt_ext; auto. intros i Hi. apply mv_ext; auto. intros ? ? _ _; auto. }
  rewrite E, (dt_mv h u v Hs), (dt_comm (mv h u) v). ring.
Qed.
Lemma form_unique h h' : meq n (mtr h) h -> meq n (mtr h') h' -> (forall u, qd h u = qd h' u) -> meq n h h'.
Proof.
  intros Hs Hs' Hq i j Hi Hj. pose proof (polar h (unit_at i) (unit_at j) Hs) as H1. pose proof (polar h' (unit_at i) (unit_at j) Hs') as H2.
  rewrite !Hq in H1.
  assert (E : forall m, dt (unit_at i) (mv m (unit_at j)) = m i j).
  { intros m. unfold dt, unit_at at 1. rewrite (sumn_ext _ _ (fun k => (if Nat.eqb i k then 1 else 0) * m k j)); [apply (sumn_delta n i (fun k => m k j)); auto|].
    intros k Hk. rewrite mv_unit by auto. auto. }
  rewrite E in H1, H2. lra.
Qed.
End Forms.

Definition vec (n : nat) (u : nat -> R) : list R := map u (seq 0 n).
Lemma vec_length n u : length (vec n u) = n.
Proof. unfold vec. rewrite map_length, seq_length. auto. Qed.
Lemma quad_vec n h u : quad n h (vec n u) = qd n h u.
Proof.
  rewrite quad_qd. unfold qd. apply dt_ext; [intros i Hi; apply nth_list; auto|]. intros i Hi. apply mv_ext; auto; [intros ? ? _ _; auto|].
  intros k Hk. apply nth_list. auto.
Qed.

(* ---- the information matrix of a graph ---- *)
Lemma gram_sym (A : coo R) n : meq n (mtr (gram A)) (gram A).
Proof. intros i j _ _. unfold mtr, gram. apply vsum_map_ext. intros; ring. Qed.
Lemma gram_quad (A : coo R) x : coo_ok A -> length x = snd (m_shape A) -> quad (snd (m_shape A)) (gram A) x = sumsq (mapply A x).
Proof.
  intros Hok Hx. rewrite quad_qd, sumsq_dot. rewrite mapply_adjoint; auto; [|apply mapply_length].
  rewrite (vdot_sumn (snd (m_shape A))); auto; [|rewrite mapply_length; unfold transpose; cbn [m_shape fst snd]; auto].
  unfold qd, dt. apply sumn_ext. intros i Hi. f_equal. rewrite gram_apply by auto. reflexivity.
Qed.

Lemma forall2_map_in {A B} (P : A -> B -> Prop) (w : A -> B) l : (forall x, In x l -> P x (w x)) -> Forall2 P l (map w l).
Proof. induction l as [|x l IH]; intros H; constructor; [apply H; left; auto|]. apply IH. intros; apply H; right; auto. Qed.

Section Graph.
Variable E : env R.
Let C := e_cls E.
(* what f makes of the tangent vector x, whitened *)
Definition moved (L : layout) (val : var -> pytree R) (x : list R) (f : factor R) : list R :=
  slots_times C L x (residual_dim f) (f_vars f) (jacobians_at E val f).

Lemma moved_ok fs val x f : In f fs -> factor_ok f -> linear_noise (f_noise f) -> jacobian_shape_ok E val f ->
  length x = l_dim (graph_layout E fs true) -> forall r o, (o + residual_dim f <= length r)%nat ->
  whiten_residual (f_noise f) (moved (graph_layout E fs true) val x f) =
  Ok (apply_slots E (graph_layout E fs true) x (residual_dim f) (f_vars f) (wjacs E val r (f, o))).
Proof.
  intros Hin Hok Hlin Hj Hx r o Hb. destruct (wjacs_ok E val r (f, o)) as (HW & _); [split; auto | exact Hb|].
  apply (whiten_slots C (graph_layout E fs true) x (residual_dim f) (f_noise f) (f_vars f) (jacobians_at E val f) _ (part r (f, o))); auto.
  - apply Hok.
  - unfold part. cbn [fst snd]. rewrite slice_length; lia.
  - intros v Hv. apply block_length; auto. apply mentioned_in. eauto.
Qed.

Lemma info_sum fs g a val r : (forall f, In f fs -> factor_ok f) -> graph_make E fs = Ok g -> assigns E fs a val ->
  (forall f, In f fs -> linear_noise (f_noise f)) -> (forall f, In f fs -> jacobian_shape_ok E val f) ->
  length r = total residual_dim fs -> total residual_dim fs <> 0%nat ->
  exists A, compute_whitened_residual_jacobian E g a r = Ok A /\ coo_ok A /\ snd (m_shape A) = l_dim (g_local_layout g) /\
    forall x, length x = l_dim (g_local_layout g) ->
    exists ws, Forall2 (fun f w => whiten_residual (f_noise f) (moved (g_local_layout g) val x f) = Ok w) fs ws /\
      quad (l_dim (g_local_layout g)) (gram A) x = vsum (map sumsq ws).
Proof.
  intros Hok Hm Ha Hlin Hj Hr Hpos. destruct (made E fs g Hok Hm) as (Hg & Hne). rewrite (ig_local _ _ _ Hg).
  destruct (jacobian_action E fs g a r val Hok Hj Hg Ha Hr Hpos) as (A & EA & HA & Hsh & _ & Hact).
  exists A. split; auto. split; auto. split; [rewrite Hsh; auto|]. intros x Hx.
  set (w := fun f => unwrap [] (whiten_residual (f_noise f) (moved (graph_layout E fs true) val x f))).
  assert (Hpl : forall fo, In fo (place residual_dim 0 (concat (kgroups fs))) -> In (fst fo) fs /\
    apply_slots E (graph_layout E fs true) x (residual_dim (fst fo)) (f_vars (fst fo)) (wjacs E val r fo) = w (fst fo)).
  { intros [f o] Hin. pose proof (placed _ _ _ Hin) as (Hf & Hb). split; auto. unfold w. cbn [fst].
    rewrite (moved_ok fs val x f Hf (Hok f Hf) (Hlin f Hf) (Hj f Hf) Hx r o) by lia. auto. }
  exists (map w fs). split.
  - assert (H : forall f, In f fs -> whiten_residual (f_noise f) (moved (graph_layout E fs true) val x f) = Ok (w f)).
    { intros f Hf. unfold w. assert (Hle : (residual_dim f <= length r)%nat).
      { rewrite Hr. clear - Hf. induction fs as [|f' l IH]; [destruct Hf|]. change (total residual_dim (f' :: l)) with (residual_dim f' + total residual_dim l)%nat.
        destruct Hf as [->|Hf]; [lia|]. specialize (IH Hf). lia. }
      rewrite (moved_ok fs val x f Hf (Hok f Hf) (Hlin f Hf) (Hj f Hf) Hx r 0) by lia. auto. }
    apply forall2_map_in. exact H.
  - replace (l_dim (graph_layout E fs true)) with (snd (m_shape A)) by (rewrite Hsh; auto).
    rewrite gram_quad by (auto; rewrite Hsh; auto). specialize (Hact x Hx). rewrite matmul_mapply in Hact by (auto; rewrite Hsh; auto).
    injection Hact as ->.
    rewrite (map_ext_in _ (fun fo => w (fst fo))) by (intros fo Hfo; apply Hpl; auto).
    rewrite map_map.
    transitivity (vsum (map (fun f => sumsq (w f)) (concat (kgroups fs)))).
    + clear Hpl. generalize 0%nat. induction (concat (kgroups fs)) as [|f l IH]; intros o; [reflexivity|]. cbn [place map concat fst].
      rewrite sumsq_app, IH. reflexivity.
    + apply vsum_perm, Permutation_map, kgroups_perm.
Qed.

Definition indices (L : layout) (vs : list var) : list nat := flat_map (fun v => seq (pos L v) (vldim C v)) vs.
Definition block_of (s : nat -> nat -> R) (idx : list nat) : list (list R) := map (fun i => map (s i) idx) idx.

Lemma indices_bound fs vs : (forall v, In v vs -> In v (mentioned fs)) ->
  Forall (fun i => (i < l_dim (graph_layout E fs true))%nat) (indices (graph_layout E fs true) vs).
Proof.
  intros Hin. apply Forall_forall. intros i Hi. apply in_flat_map in Hi. destruct Hi as (v & Hv & Hi). apply in_seq in Hi.
  pose proof (mentioned_nodup fs) as ND. destruct (proj1 (lay_index_mem C (mentioned fs) true ND v) (Hin v Hv)) as (k & Hk).
  pose proof (lay_bound C (mentioned fs) true ND v k Hk) as Hb. unfold pos in Hi. unfold graph_layout in *. fold C in Hi |- *. rewrite Hk in Hi. unfold vldim in *. simpl in Hb. lia.
Qed.

Lemma residual_vector_length fs g a val r : (forall f, In f fs -> factor_ok f) -> fs <> [] -> is_graph E fs g -> assigns E fs a val ->
  (forall f, In f fs -> residual_shape_ok E val f) -> compute_whitened_residual_vector E g a = Ok r -> length r = total residual_dim fs.
Proof.
  intros Hok Hne Hig Ha Hr Er. destruct (residual_vector_ok E fs g a val Hok Hne Hig Ha Hr) as (ws & Hws & Hvec). assert (r = concat ws) by congruence. subst r.
  rewrite <- (total_perm residual_dim _ _ (kgroups_perm fs)). apply traverse_forall2 in Hws.
  assert (Hin : forall f, In f (concat (kgroups fs)) -> In f fs) by (intros f; apply Permutation_in, kgroups_perm).
  clear - Hws Hin Hok Hr. induction Hws as [|f w l ws Hf Hws IH]; auto. cbn [concat]. rewrite app_length.
  rewrite IH by (intros; apply Hin; right; auto). destruct (whitened_at_ok E val f) as (w' & Ew & Hl); [apply Hok, Hin; left; auto | apply Hr, Hin; left; auto|].
  assert (w' = w) by congruence. subst w'. rewrite Hl. auto.
Qed.

Lemma recovered_marginal fs g a val chol S : (forall f, In f fs -> factor_ok f) -> graph_make E fs = Ok g -> assigns E fs a val ->
  (forall f, In f fs -> residual_shape_ok E val f) -> (forall f, In f fs -> jacobian_shape_ok E val f) -> total residual_dim fs <> 0%nat ->
  recovered chol E g a S ->
  exists r A s, compute_whitened_residual_vector E g a = Ok r /\ length r = total residual_dim fs /\
    compute_whitened_residual_jacobian E g a r = Ok A /\
    minverse (l_dim (g_local_layout g)) (gram A) s /\
    forall vs fuel, (forall v, In v vs -> In v (mentioned fs)) -> (2 * l_dim (g_local_layout g) + 1 <= fuel)%nat ->
      exists ch', compute_marginal C S fuel vs [] = Ok (Some (block_of s (indices (g_local_layout g) vs), ch')).
Proof.
  intros Hok Hm Ha Hr Hj Hpos (HS & r & A & Er & EA & HF).
  destruct (make_covariance E fs g a val chol Hok Hm Ha Hr Hj Hpos) as (r' & A' & S' & Er' & EA' & HA & HS' & HL & Hn & Hg & Hget).
  assert (r' = r) by congruence. subst r'. assert (A' = A) by congruence. subst A'. assert (S' = S) by congruence. subst S'.
  destruct (made E fs g Hok Hm) as (Hig & Hne).
  assert (Hlen : length r = total residual_dim fs) by (eapply residual_vector_length; eauto).
  set (M := scipy_dense (as_scipy (transpose A))) in *.
  assert (HSL : sc_L S = chol M).
  { unfold scov_make in HS. rewrite Er in HS. cbn [bind] in HS. rewrite EA in HS. cbn [bind] in HS. fold M in HS. injection HS as <-. auto. }
  cbv zeta in Hget.
  assert (HF' : is_factor_of (snd (m_shape A)) (aat M) (fun i => i) (chol M)).
  { rewrite <- HSL. destruct HF as (F1 & F2 & F3 & F4 & F5). split; auto. split; auto. split; auto. split; auto.
    intros i j Hi Hj'. rewrite F5, Hg by auto. auto. }
  assert (Hs : exists s, minverse (snd (m_shape A)) (gram A) s).
  { pose proof HF as (F1 & F2 & F3 & F4 & F5).
    assert (Hst : factor_stored S).
    { split; auto. intros k Hk. rewrite F1 in Hk. specialize (F3 k Hk). split; [lra|].
      unfold scov_make in HS. rewrite Er in HS. cbn [bind] in HS. rewrite EA in HS. cbn [bind] in HS. fold M in HS. injection HS as HS. rewrite <- HS in F1 |- *. cbn [sc_L sc_diag_inv] in *.
      rewrite map_map. rewrite (nth_map' _ _ _ _ 0%nat) by (rewrite seq_length; lia). rewrite seq_nth by lia. cbn [plus]. rewrite diagonal_fold. reflexivity. }
    destruct (inverse_exists S Hst) as (s & H1 & H2). rewrite F1 in H1, H2. exists s. split; intros i j Hi Hj'.
    - rewrite <- (H1 i j Hi Hj'). apply sumn_ext. intros k Hk. rewrite F5 by auto. auto.
    - rewrite <- (H2 i j Hi Hj'). apply sumn_ext. intros k Hk. rewrite F5 by auto. auto. }
  destruct Hs as (s & Hs). exists r, A, s. rewrite Hn in Hs. split; auto. split; auto. split; auto. split; auto.
  intros vs fuel Hin Hfu. rewrite <- Hn in Hs. destruct (Hget (fun i => i) s HF' Hs) as (HLn & Hlow & Hg').
  rewrite Hn in *. assert (Hl : g_local_layout g = graph_layout E fs true) by (apply (ig_local _ _ _ Hig)).
  pose proof (indices_bound fs vs Hin) as Hidx. rewrite <- Hl, <- HLn in Hidx.
  unfold compute_marginal, marginal_indices. rewrite HL, (indices_ok C _ vs [] (pos (g_local_layout g))).
  - cbn [bind app]. unfold marginal_of_indices. fold (indices (g_local_layout g) vs).
    destruct (history_rows S Hlow fuel (indices (g_local_layout g) vs) (indices (g_local_layout g) vs) [] (h_new S) Hidx Hidx) as (ch' & -> & _); [lia|].
    exists ch'. do 3 f_equal. unfold block_of. apply map_ext_in. intros i Hi. apply map_ext_in. intros j Hj'.
    rewrite Forall_forall in Hidx. pose proof (Hidx i Hi) as Bi. pose proof (Hidx j Hj') as Bj.
    destruct (history_get S Hlow [] fuel i j (h_new S) Bi Bj) as (c1 & E1 & _); [lia|].
    rewrite HLn in Bi, Bj. destruct (Hg' [] fuel i j (h_new S) Bi Bj Hfu) as (c2 & E2 & _). congruence.
  - intros v Hv. pose proof (mentioned_nodup fs) as ND. destruct (proj1 (lay_index_mem C (mentioned fs) true ND v) (Hin v Hv)) as (k & Hk).
    rewrite Hl. unfold pos, graph_layout. fold C. rewrite Hk. auto.
Qed.

Lemma block_ent s idx a b : (a < length idx)%nat -> (b < length idx)%nat -> ent (block_of s idx) a b = s (nth a idx 0%nat) (nth b idx 0%nat).
Proof. intros Ha Hb. unfold ent, block_of. rewrite (nth_map' _ _ _ _ 0%nat) by auto. rewrite (nth_map' _ _ _ _ 0%nat) by auto. auto. Qed.
Definition scatter (idx : list nat) (x : list R) (i : nat) : R := sumn (length idx) (fun a => (if Nat.eqb (nth a idx 0%nat) i then 1 else 0) * nth a x 0).
Lemma scatter_dt n idx x (f : nat -> R) : Forall (fun i => (i < n)%nat) idx -> sumn n (fun i => scatter idx x i * f i) = sumn (length idx) (fun a => nth a x 0 * f (nth a idx 0%nat)).
Proof.
  intros Hb. unfold scatter.
  rewrite (sumn_ext _ _ (fun i => sumn (length idx) (fun a => (if Nat.eqb (nth a idx 0%nat) i then 1 else 0) * (nth a x 0 * f i))))
    by (intros; rewrite <- sumn_scale_r; apply sumn_ext; intros; ring).
  rewrite sumn_swap. apply sumn_ext. intros a Ha. rewrite (sumn_delta n (nth a idx 0%nat) (fun i => nth a x 0 * f i)); auto.
  rewrite Forall_forall in Hb. apply Hb, nth_In. auto.
Qed.
Lemma quad_block n s idx x : Forall (fun i => (i < n)%nat) idx -> quad (length idx) (ent (block_of s idx)) x = qd n s (scatter idx x).
Proof.
  intros Hb. unfold qd, dt. rewrite scatter_dt by auto. unfold quad. apply sumn_ext. intros a Ha.
  unfold mv. rewrite (sumn_ext n _ (fun j => scatter idx x j * s (nth a idx 0%nat) j)) by (intros; ring). rewrite scatter_dt by auto.
  rewrite <- sumn_scale. apply sumn_ext. intros b Hbb. rewrite block_ent by auto. ring.
Qed.

Lemma more_factors fs more g g' a val chol chol' S S' :
  (forall f, In f (fs ++ more) -> factor_ok f) -> (forall f, In f (fs ++ more) -> linear_noise (f_noise f)) ->
  (forall f, In f (fs ++ more) -> residual_shape_ok E val f) -> (forall f, In f (fs ++ more) -> jacobian_shape_ok E val f) ->
  total residual_dim fs <> 0%nat -> mentioned (fs ++ more) = mentioned fs ->
  graph_make E fs = Ok g -> graph_make E (fs ++ more) = Ok g' -> assigns E fs a val ->
  recovered chol E g a S -> recovered chol' E g' a S' ->
  forall vs fuel, (forall v, In v vs -> In v (mentioned fs)) -> (2 * l_dim (g_local_layout g) + 1 <= fuel)%nat ->
  exists M M' ch ch', compute_marginal C S fuel vs [] = Ok (Some (M, ch)) /\ compute_marginal C S' fuel vs [] = Ok (Some (M', ch')) /\
    forall x, quad (total (vldim C) vs) (ent M') x <= quad (total (vldim C) vs) (ent M) x.
Proof.
  intros Hok Hlin Hr Hj Hpos Hmen Hm Hm' Ha HR HR' vs fuel Hin Hfu.
  assert (Hsub : forall f, In f fs -> In f (fs ++ more)) by (intros; apply in_or_app; auto).
  assert (Ha' : assigns E (fs ++ more) a val) by (unfold assigns in *; rewrite Hmen; exact Ha).
  assert (Hpos' : total residual_dim (fs ++ more) <> 0%nat).
  { rewrite total_app. lia. }
  destruct (recovered_marginal fs g a val chol S) as (r & A & s & Er & Hl & EA & Hs & HM); auto.
  destruct (recovered_marginal (fs ++ more) g' a val chol' S') as (r' & A' & s' & Er' & Hl' & EA' & Hs' & HM'); auto.
  destruct (info_sum fs g a val r) as (A0 & EA0 & HA0 & _ & HI); auto. assert (A0 = A) by congruence. subst A0.
  destruct (info_sum (fs ++ more) g' a val r') as (A0 & EA0' & HA0' & _ & HI'); auto. assert (A0 = A') by congruence. subst A0.
  assert (HL : g_local_layout g' = g_local_layout g).
  { destruct (made E fs g) as (Hg & _); auto. destruct (made E (fs ++ more) g') as (Hg' & _); auto.
    rewrite (ig_local _ _ _ Hg), (ig_local _ _ _ Hg'). unfold graph_layout. rewrite Hmen. auto. }
  rewrite HL in *. set (n := l_dim (g_local_layout g)) in *.
  destruct (HM vs fuel Hin Hfu) as (ch & Ech). destruct (HM' vs fuel) as (ch' & Ech'); auto; [rewrite Hmen; auto|].
  do 4 eexists. split; [exact Ech|]. split; [exact Ech'|]. intros x.
  assert (Hidx : Forall (fun i => (i < n)%nat) (indices (g_local_layout g) vs)).
  { unfold n. destruct (made E fs g) as (Hg & _); auto. rewrite (ig_local _ _ _ Hg). apply indices_bound. auto. }
  replace (total (vldim C) vs) with (length (indices (g_local_layout g) vs)) by apply flat_seq_length.
  rewrite !(quad_block n) by auto. apply (loewner n (gram A) (gram A')); auto; try apply gram_sym.
  intros u. rewrite <- !quad_vec. destruct (HI (vec n u)) as (ws & Hws & ->); [apply vec_length|]. destruct (HI' (vec n u)) as (ws' & Hws' & ->); [apply vec_length|].
  apply Forall2_app_inv_l in Hws'. destruct Hws' as (w1 & w2 & H1 & H2 & ->).
  assert (w1 = ws).
  { clear - Hws H1. revert w1 H1. induction Hws as [|f w l ws Hw Hws IH]; intros w1 H1; inversion H1; subst; auto. f_equal; [congruence|auto]. }
  subst w1. rewrite map_app, vsum_app.
  assert (Hn : forall l : list (list R), 0 <= vsum (map sumsq l)).
  { clear. induction l as [|w l IH]; [apply Rle_refl|]. pose proof (sumsq_nonneg w).
    change (vsum (map sumsq (w :: l))) with (sumsq w + vsum (map sumsq l)). lra. }
  pose proof (Hn ws). pose proof (Hn w2). lra.
Qed.
End Graph.
