(* Linear solvers *)
From Coq Require Import List Arith Bool Lia Permutation Reals Lra ZArith.
From Verif Require Import Num NumR Py Arr PBase MSparse MLinear SpecSparse PVec PSparse.
Import ListNotations.
Local Open Scope R_scope.

(* ---- symmetric positive definite systems ---- *)
Definition msq (n : nat) (M : list (list R)) : Prop := length M = n /\ Forall (fun row => length row = n) M.
Definition msym (n : nat) (M : list (list R)) : Prop :=
  forall x y, length x = n -> length y = n -> vdot x (mvec M y) = vdot y (mvec M x).
Definition mpd (n : nat) (M : list (list R)) : Prop :=
  forall x, length x = n -> x <> vzero n -> 0 < vdot x (mvec M x).

Lemma pd_unique n M x y : msq n M -> mpd n M -> length x = n -> length y = n -> mvec M x = mvec M y -> x = y.
Proof.
  intros (HM & _) Hp Hx Hy H. 
  assert (Hd : length (vsub x y) = n) by (rewrite vsub_length; lia).
  destruct (list_eq_dec Req_EM_T (vsub x y) (vzero n)) as [E|E].
  - apply (vec_ext n); auto. intros z Hz. pose proof (vdot_sub_r z x y) as Hs. rewrite E, vdot_zero_r in Hs.
    assert (0 = vdot z x - vdot z y) by (apply Hs; lia). lra.
  - exfalso. specialize (Hp _ Hd E).
    assert (Hz : vdot (vsub x y) (mvec M (vsub x y)) = 0).
    { assert (Em : mvec M (vsub x y) = vsub (mvec M x) (mvec M y)).
      { clear -Hx Hy. induction M as [|r M IH]; auto. rewrite !mvec_cons, vsub_cons, IH, vdot_sub_r by lia. auto. }
      rewrite Em, H, vdot_sub_r by auto. lra. }
    lra.
Qed.

Lemma mvec_split (M : list (list R)) n x0 y : Forall (fun row => length row = S n) M -> length y = n ->
  mvec M (x0 :: y) = vadd (vscale x0 (map (hd 0) M)) (mvec (map (@tl R) M) y).
Proof.
  intros HM Hy. induction HM as [|row M Hr HM IH]; [reflexivity|].
  cbn [map]. rewrite !mvec_cons, vscale_cons, vadd_cons, IH. f_equal.
  destruct row as [|a v]; [discriminate|]. simpl hd. simpl tl. rewrite vdot_cons. lra.
Qed.

Definition schur (a : R) (v : list R) (M' : list (list R)) : list (list R) :=
  map (fun row => vsub (tl row) (vscale (hd 0 row / a) v)) M'.

Lemma schur_mvec a v M' n y : Forall (fun row => length row = S n) M' -> length v = n -> length y = n ->
  mvec (schur a v M') y = vsub (mvec (map (@tl R) M') y) (vscale (vdot v y / a) (map (hd 0) M')).
Proof.
  intros HM Hv Hy. induction HM as [|row M Hr HM IH]; [reflexivity|].
  unfold schur in *. cbn [map]. rewrite !mvec_cons, vscale_cons, vsub_cons, IH. f_equal.
  destruct row as [|h t]; [discriminate|]. simpl in Hr. simpl tl; simpl hd.
  rewrite vdot_sub_l by (rewrite vscale_length; lia). rewrite vdot_scale_l. unfold Rdiv. ring.
Qed.

Section Step.
Variables (n : nat) (a : R) (v : list R) (M' : list (list R)).
Let M := (a :: v) :: M'.
Hypothesis Hsq : msq (S n) M.
Hypothesis Hsym : msym (S n) M.
Hypothesis Hpd : mpd (S n) M.
Let w := map (hd 0) M'.
Let M2 := map (@tl R) M'.

Lemma st_v : length v = n.
Proof. destruct Hsq as [_ H]. inversion H; subst. simpl in *. lia. Qed.
Lemma st_M' : length M' = n.
Proof. destruct Hsq as [H _]. simpl in H. lia. Qed.
Lemma st_F : Forall (fun row => length row = S n) M'.
Proof. destruct Hsq as [_ H]. inversion H; auto. Qed.
Lemma st_w : length w = n.
Proof. unfold w. rewrite map_length. apply st_M'. Qed.
Lemma st_M2 y : length (mvec M2 y) = n.
Proof. rewrite mvec_length. unfold M2. rewrite map_length. apply st_M'. Qed.

Lemma st_form x0 y z0 z : length y = n -> length z = n ->
  vdot (z0 :: z) (mvec M (x0 :: y)) = z0 * (a * x0 + vdot v y) + (x0 * vdot z w + vdot z (mvec M2 y)).
Proof.
  intros Hy Hz. unfold M. rewrite mvec_cons, !vdot_cons. f_equal.
  rewrite (mvec_split M' n) by (auto; apply st_F). rewrite vdot_add_r, vdot_scale_r; auto.
  rewrite vscale_length. pose proof st_w as Hw. pose proof (st_M2 y) as Hm. unfold w, M2 in *. lia.
Qed.
Lemma st_wv : w = v.
Proof.
  apply (vec_ext n); [apply st_w | apply st_v|]. intros z Hz.
  assert (Hz0 : length (@vzero R NumR n) = n) by apply vzero_length.
  pose proof (Hsym (0 :: z) (1 :: vzero n)) as H. rewrite !st_form in H by auto.
  simpl length in H. rewrite Hz, Hz0 in H. specialize (H eq_refl eq_refl).
  rewrite !vdot_zero_r, !vdot_zero_l in H.
  assert (Hm : mvec M2 (vzero n) = vzero n).
  { apply (vec_ext n); [apply st_M2 | auto|]. intros u Hu. rewrite vdot_zero_r.
    unfold mvec. assert (E : map (fun row => vdot row (vzero n)) M2 = vzero (length M2)).
    { clear. induction M2; auto. cbn [map length]. rewrite vzero_S, IHl, vdot_zero_r. auto. }
    rewrite E. apply vdot_zero_r. }
  rewrite Hm, vdot_zero_r in H. rewrite (vdot_comm z v). lra.
Qed.
Lemma st_a : 0 < a.
Proof.
  assert (Hz0 : length (@vzero R NumR n) = n) by apply vzero_length.
  assert (H : 0 < vdot (1 :: vzero n) (mvec M (1 :: vzero n))).
  { apply Hpd; [simpl; auto|]. rewrite vzero_S. intros H. injection H. lra. }
  rewrite st_form, !vdot_zero_r, !vdot_zero_l in H by auto. lra.
Qed.

Lemma st_schur_form z y : length z = n -> length y = n ->
  vdot z (mvec (schur a v M') y) = vdot z (mvec M2 y) - vdot v y / a * vdot z v.
Proof.
  intros Hz Hy. rewrite (schur_mvec a v M' n) by (auto using st_F, st_v).
  fold M2 w. rewrite vdot_sub_r by (rewrite vscale_length, st_w, st_M2; auto). rewrite vdot_scale_r, st_wv. auto.
Qed.
Lemma st_schur_sq : msq n (schur a v M').
Proof.
  unfold schur. split; [rewrite map_length; apply st_M'|].
  rewrite Forall_forall. intros row Hin. apply in_map_iff in Hin. destruct Hin as (r & <- & Hr).
  pose proof st_F as HF. rewrite Forall_forall in HF. specialize (HF r Hr). pose proof st_v as Hv.
  destruct r as [|h t]; [discriminate|]. simpl in *. rewrite vsub_length; rewrite ?vscale_length; lia.
Qed.
Lemma st_schur_sym : msym n (schur a v M').
Proof.
  intros x y Hx Hy. rewrite !st_schur_form by auto.
  pose proof (Hsym (0 :: x) (0 :: y)) as H. rewrite !st_form in H by auto. simpl length in H. rewrite Hx, Hy in H.
  specialize (H eq_refl eq_refl). rewrite (vdot_comm x v), (vdot_comm y v). unfold Rdiv in *. lra.
Qed.
Lemma st_schur_pd : mpd n (schur a v M').
Proof.
  intros y Hy Hn. rewrite st_schur_form by auto. pose proof st_a as Ha.
  assert (H : 0 < vdot (- (vdot v y / a) :: y) (mvec M (- (vdot v y / a) :: y))).
  { apply Hpd; [simpl; auto|]. rewrite vzero_S. intros H. injection H. auto. }
  rewrite st_form, st_wv in H by auto. rewrite (vdot_comm y v) in *.
  assert (E : a * - (vdot v y / a) + vdot v y = 0) by (field; lra). rewrite E in H. lra.
Qed.
Lemma st_solution b0 b' y : length b' = n -> length y = n ->
  mvec (schur a v M') y = zipw (fun row bi => nsub bi (nmul (ndiv (hd n0 row) a) b0)) M' b' ->
  mvec M ((b0 - vdot v y) / a :: y) = b0 :: b'.
Proof.
  intros Hb Hy H. pose proof st_a as Ha. unfold M. rewrite mvec_cons, vdot_cons. f_equal; [field; lra|].
  assert (Hb'' : zipw (fun row bi => nsub bi (nmul (ndiv (hd n0 row) a) b0)) M' b' = vsub b' (vscale (b0 / a) w)).
  { unfold w. pose proof st_M' as Hl. rewrite <- Hb in Hl. clear -Hl. revert b' Hl.
    induction M' as [|r M'' IH]; intros [|x b']; simpl length; intros Hl; try discriminate; auto.
    cbn [zipw map]. rewrite vscale_cons, vsub_cons, IH by lia. f_equal. rn. unfold Rdiv. ring. }
  rewrite Hb'' in H.
  apply (vec_ext n); [rewrite mvec_length; apply st_M' | auto|]. intros z Hz.
  rewrite (mvec_split M' n) by (auto using st_F). fold w M2.
  rewrite vdot_add_r by (rewrite vscale_length, st_w, st_M2; auto). rewrite vdot_scale_r.
  pose proof (st_schur_form z y Hz Hy) as Hs. rewrite H in Hs.
  rewrite vdot_sub_r in Hs by (rewrite vscale_length, st_w; auto). rewrite vdot_scale_r in Hs.
  rewrite st_wv in *. unfold Rdiv in *. lra.
Qed.
End Step.

Lemma elim_ok n : forall M b, msq n M -> msym n M -> mpd n M -> length b = n ->
  length (elim n M b) = n /\ mvec M (elim n M b) = b.
Proof.
  induction n as [|n IH]; intros M b Hsq Hsym Hpd Hb.
  - destruct Hsq as [HM _]. destruct M; [|discriminate]. destruct b; [|discriminate]. auto.
  - pose proof Hsq as [HM HF]. destruct M as [|row M']; [discriminate|]. inversion HF; subst.
    destruct row as [|a v]; [discriminate|]. destruct b as [|b0 b']; [discriminate|]. simpl in Hb.
    cbn [elim]. rn. fold (schur a v M').
    set (b'' := zipw _ M' b').
    assert (Hb'' : length b'' = n).
    { unfold b''. rewrite zipw_length. simpl in HM. lia. }
    destruct (IH (schur a v M') b'') as [H3 H4]; auto.
    + apply (st_schur_sq n a v M'); auto.
    + apply (st_schur_sym n a v M'); auto.
    + apply (st_schur_pd n a v M'); auto.
    + split; [simpl; auto|]. apply (st_solution n a v M'); auto.
Qed.

(* ---- A A^T + beta I ---- *)
Lemma gram_beta_sq M beta : msq (length M) (gram_beta M beta).
Proof.
  unfold gram_beta. split.
  - rewrite map_length, combine_length, seq_length. lia.
  - rewrite Forall_forall. intros row Hin. apply in_map_iff in Hin. destruct Hin as (x & <- & _).
    rewrite map_length, combine_length, seq_length. lia.
Qed.

Lemma combine_seq_map {A} (d : A) l : combine (seq 0 (length l)) l = map (fun i => (i, nth i l d)) (seq 0 (length l)).
Proof.
  assert (H : forall (l : list A) k, combine (seq k (length l)) l = map (fun i => (i, nth (i - k) l d)) (seq k (length l))).
  { clear. induction l as [|x l IH]; intros k; simpl; auto. rewrite Nat.sub_diag. f_equal. rewrite IH.
    apply map_ext_in. intros i Hi. apply in_seq in Hi. replace (i - k)%nat with (S (i - S k)) by lia. auto. }
  rewrite H. apply map_ext. intros. rewrite Nat.sub_0_r. auto.
Qed.

(* linear combination of the rows *)
Lemma gram_beta_dot M beta x y : length x = length M -> length y = length M ->
  vdot y (mvec (gram_beta M beta) x) =
  vsum (map (fun i => nth i y 0 * vsum (map (fun k => nth k x 0 * vdot (nth i M []) (nth k M [])) (seq 0 (length M)))) (seq 0 (length M)))
  + beta * vdot y x.
Proof.
  intros Hx Hy. set (n := length M) in *.
  rewrite (vdot_seq y (mvec (gram_beta M beta) x) n) by (auto; rewrite mvec_length; apply gram_beta_sq).
  rewrite (vdot_seq y x n) by auto. rewrite <- vsum_map_scale, <- vsum_map_plus. apply vsum_map_ext.
  intros i Hi. apply in_seq in Hi.
  assert (Hrow : nth i (mvec (gram_beta M beta) x) 0 =
     vdot (map (fun k => if Nat.eqb i k then vdot (nth i M []) (nth k M []) + beta else vdot (nth i M []) (nth k M [])) (seq 0 n)) x).
  { unfold mvec. rewrite (nth_map' _ _ _ 0 []) by (rewrite (proj1 (gram_beta_sq M beta)); fold n; lia). f_equal.
    unfold gram_beta. rewrite (combine_seq_map []). fold n. rewrite map_map.
    rewrite (nth_map' _ _ _ [] O) by (rewrite seq_length; lia). rewrite seq_nth by lia. simpl plus. rewrite map_map. auto. }
  rewrite Hrow, (vdot_seq _ x n) by (auto; rewrite map_length, seq_length; auto).
  assert (E : vsum (map (fun k => nth k (map (fun k => if Nat.eqb i k then vdot (nth i M []) (nth k M []) + beta else vdot (nth i M []) (nth k M [])) (seq 0 n)) 0 * nth k x 0) (seq 0 n)) =
    vsum (map (fun k => nth k x 0 * vdot (nth i M []) (nth k M []) + (if Nat.eqb k i then beta * nth k x 0 else 0)) (seq 0 n))).
  { apply vsum_map_ext. intros k Hk. apply in_seq in Hk. rewrite (nth_map' _ _ _ 0 O) by (rewrite seq_length; lia).
    rewrite seq_nth by lia. simpl plus. rewrite (Nat.eqb_sym k i). destruct (Nat.eqb i k); lra. }
  rewrite E, vsum_map_plus, (vsum_pick n i (fun k => beta * nth k x 0)) by lia. lra.
Qed.

(* ---- the CHOLMOD subproblem ---- *)
Definition normal_ok (A : coo R) (beta : R) (b x : list R) : Prop :=
  length x = snd (m_shape A) /\ vadd (mapply (transpose A) (mapply A x)) (vscale beta x) = b.

Lemma cholmod_matrix (A : coo R) beta x y : coo_ok A -> length x = snd (m_shape A) -> length y = snd (m_shape A) ->
  vdot y (mvec (gram_beta (scipy_dense (as_scipy (transpose A))) beta) x) =
  vdot (mapply A y) (mapply A x) + beta * vdot y x.
Proof.
  intros Hok Hx Hy. pose proof (transpose_ok A Hok) as HokT.
  destruct (scipy_dense_ok (transpose A)) as [HD HF]. cbn [transpose m_shape fst snd] in HD, HF.
  set (M := scipy_dense (as_scipy (transpose A))) in *.
  rewrite gram_beta_dot by lia. f_equal.
  assert (Hcomb : forall u z, length u = snd (m_shape A) -> length z = fst (m_shape A) ->
    vdot (mapply A u) z = vsum (map (fun k => nth k u 0 * vdot (nth k M []) z) (seq 0 (length M)))).
  { intros u z Hu Hz. rewrite mapply_adjoint by auto.
    rewrite <- (scipy_dense_mapply (transpose A) z) by auto. fold M.
    rewrite (vdot_seq u (mvec M z) (length M)) by (rewrite ?mvec_length; lia).
    apply vsum_map_ext. intros k Hk. apply in_seq in Hk. f_equal. unfold mvec. rewrite (nth_map' _ _ _ 0 []) by lia. auto. }
  rewrite (Hcomb y (mapply A x)) by (auto; apply mapply_length).
  apply vsum_map_ext. intros i Hi. apply in_seq in Hi. f_equal.
  rewrite (vdot_comm (nth i M [])). rewrite (Hcomb x (nth i M [])) by (auto; rewrite Forall_forall in HF; apply HF, nth_In; lia).
  apply vsum_map_ext. intros k Hk. rewrite (vdot_comm (nth i M []) (nth k M [])). auto.
Qed.

Lemma dot_pos n (x : list R) : length x = n -> x <> vzero n -> 0 < vdot x x.
Proof.
  intros Hx Hn. rewrite <- sumsq_dot. pose proof (sumsq_nonneg x). destruct (Req_dec (sumsq x) 0) as [E|E]; [|lra].
  apply sumsq_zero in E. rewrite Hx in E. congruence.
Qed.

Section Cholmod.
Variables (A : coo R) (beta : R).
Hypothesis Hok : coo_ok A.
Hypothesis Hbeta : 0 < beta.
Let n := snd (m_shape A).
Let M := gram_beta (scipy_dense (as_scipy (transpose A))) beta.

Lemma ch_len : length (scipy_dense (as_scipy (transpose A))) = n.
Proof. destruct (scipy_dense_ok (transpose A)). auto. Qed.
Lemma ch_sq : msq n M.
Proof. rewrite <- ch_len. apply gram_beta_sq. Qed.
Lemma ch_sym : msym n M.
Proof. intros x y Hx Hy. unfold M. rewrite !cholmod_matrix by auto. rewrite (vdot_comm x y), (vdot_comm (mapply A x)). auto. Qed.
Lemma ch_pd : mpd n M.
Proof.
  intros x Hx Hn. unfold M. rewrite cholmod_matrix by auto. pose proof (dot_pos n x Hx Hn).
  rewrite <- sumsq_dot. pose proof (sumsq_nonneg (mapply A x)). assert (0 < beta * vdot x x) by (apply Rmult_lt_0_compat; auto). lra.
Qed.
Lemma ch_mvec x : length x = n -> mvec M x = vadd (mapply (transpose A) (mapply A x)) (vscale beta x).
Proof.
  intros Hx. assert (HlT : length (mapply (transpose A) (mapply A x)) = n) by apply mapply_length.
  apply (vec_ext n).
  - rewrite mvec_length. apply ch_sq.
  - rewrite vadd_length; rewrite ?vscale_length; lia.
  - intros y Hy. unfold M. rewrite cholmod_matrix by auto.
    rewrite vdot_add_r by (rewrite vscale_length; lia). rewrite vdot_scale_r, normal_dot by auto. auto.
Qed.

Lemma normal_unique b x y : normal_ok A beta b x -> normal_ok A beta b y -> x = y.
Proof.
  intros (Hx & Ex) (Hy & Ey). apply (pd_unique n M); auto; try apply ch_sq; try apply ch_pd.
  rewrite !ch_mvec by auto. congruence.
Qed.
Lemma normal_exists b : length b = n -> normal_ok A beta b (elim n M b).
Proof.
  intros Hb. destruct (elim_ok n M b ch_sq ch_sym ch_pd Hb) as [H1 H2]. split; auto. rewrite <- ch_mvec by auto. auto.
Qed.

(* weak form *)
Lemma normal_weak b x : length b = n -> length x = n ->
  (normal_ok A beta b x <-> forall y, length y = n -> vdot (mapply A y) (mapply A x) + beta * vdot y x = vdot y b).
Proof.
  intros Hb Hx. assert (HlT : length (mapply (transpose A) (mapply A x)) = n) by apply mapply_length. split.
  - intros (_ & H) y Hy. rewrite <- H, vdot_add_r by (rewrite vscale_length; lia).
    rewrite vdot_scale_r, normal_dot by auto. auto.
  - intros H. split; auto. apply (vec_ext n); auto; [rewrite vadd_length; rewrite ?vscale_length; lia|].
    intros y Hy. rewrite <- H, vdot_add_r by (auto; rewrite vscale_length; lia). rewrite vdot_scale_r, normal_dot by auto. auto.
Qed.
End Cholmod.

Lemma cholmod_solve_ok (A : coo R) b lambd it : coo_ok A -> 0 < lambd + Rlit 1 100000 -> length b = snd (m_shape A) ->
  exists x, cholmod_solve A b lambd it = Ok x /\ normal_ok A (lambd + Rlit 1 100000) b x.
Proof.
  intros Hok Hl Hb. unfold cholmod_solve. rewrite ch_len, Hb, Nat.eqb_refl by auto.
  eexists; split; [reflexivity|]. apply normal_exists; auto.
Qed.

(* properties of the solution for b = A^T rhs *)
Lemma normal_descent (A : coo R) beta rhs x : coo_ok A -> 0 < beta -> length rhs = fst (m_shape A) ->
  normal_ok A beta (mapply (transpose A) rhs) x ->
  (x = vzero (snd (m_shape A)) <-> mapply (transpose A) rhs = vzero (snd (m_shape A))) /\
  (mapply (transpose A) rhs <> vzero (snd (m_shape A)) -> 0 < vdot x (mapply (transpose A) rhs)) /\
  sumsq (vsub (mapply A x) rhs) <= sumsq rhs.
Proof.
  intros Hok Hb Hr Hn. pose proof Hn as (Hx & Ex). set (n := snd (m_shape A)) in *.
  assert (Hlb : length (mapply (transpose A) rhs) = n) by apply mapply_length.
  assert (Hw : forall y, length y = n -> vdot (mapply A y) (mapply A x) + beta * vdot y x = vdot y (mapply (transpose A) rhs)).
  { apply normal_weak; auto. }
  pose proof (Hw x Hx) as Hxx. rewrite <- sumsq_dot in Hxx. pose proof (sumsq_nonneg (mapply A x)) as Hq.
  assert (Hz : x = vzero n <-> mapply (transpose A) rhs = vzero n).
  { split; intros Hz.
    - apply (vec_ext n); auto; [apply vzero_length|]. intros y Hy. rewrite <- Hw by auto. rewrite Hz.
      assert (E0 : mapply A (vzero n) = vscale 0 (mapply A (vzero n))).
      { rewrite <- mapply_scale by (auto; apply vzero_length). f_equal. apply (vec_ext n); rewrite ?vscale_length; try apply vzero_length.
        intros u Hu. rewrite vdot_scale_r, vdot_zero_r. lra. }
      rewrite E0, vdot_scale_r, !vdot_zero_r. lra.
    - destruct (list_eq_dec Req_EM_T x (vzero n)) as [|Hne]; auto. exfalso.
      pose proof (dot_pos n x Hx Hne). rewrite Hz, vdot_zero_r in Hxx.
      assert (0 < beta * vdot x x) by (apply Rmult_lt_0_compat; auto). lra. }
  split; [auto|]. split.
  - intros Hne. assert (Hxne : x <> vzero n) by tauto. pose proof (dot_pos n x Hx Hxne).
    assert (0 < beta * vdot x x) by (apply Rmult_lt_0_compat; auto). lra.
  - rewrite sumsq_sub by (rewrite mapply_length; auto). rewrite mapply_adjoint by auto.
    assert (0 <= beta * vdot x x).
    { apply Rmult_le_pos; [lra|]. rewrite <- sumsq_dot. apply sumsq_nonneg. }
    lra.
Qed.
