(* Conjugate gradient subproblem solver *)
From Coq Require Import List Arith Bool Lia Permutation Reals Lra ZArith.
From Verif Require Import Num NumR Py Arr PBase MSparse MLinear SpecSparse PVec PSparse PLinear.
Import ListNotations.
Local Open Scope R_scope.

(* ---- the operator ---- *)
Definition cg_op (A : coo R) (lambd : R) (x : list R) : list R :=
  vadd (mapply (transpose A) (mapply A x)) (vmul (vscale lambd (ata_diagonals A (snd (m_shape A)))) x).

Lemma diag_length {T} {N : Num T} (A : coo T) n : length (ata_diagonals A n) = n.
Proof. unfold ata_diagonals. rewrite scatter_length. apply vzero_length. Qed.

Lemma ata_function_ok {T} {N : Num T} (A : coo T) lambd x : coo_ok A -> length x = snd (m_shape A) ->
  ata_function A lambd (snd (m_shape A)) x =
    Ok (vadd (mapply (transpose A) (mapply A x)) (vmul (vscale lambd (ata_diagonals A (snd (m_shape A)))) x)).
Proof.
  intros Hok Hx. unfold ata_function. rewrite matmul_mapply by auto. cbn [bind].
  rewrite matmul_mapply; [reflexivity | apply transpose_ok; auto | apply mapply_length].
Qed.

Lemma diag_dot (A : coo R) z : coo_ok A -> length z = snd (m_shape A) ->
  vdot z (ata_diagonals A (snd (m_shape A))) = vsum (map (fun t => snd t * snd t * nth (snd (fst t)) z 0) (triples A)).
Proof.
  intros (H1 & H2 & H3 & H4) Hz. unfold ata_diagonals. rewrite vdot_scatter; rewrite ?vzero_length; auto.
  rewrite vdot_zero_r, Rplus_0_l. unfold triples. revert H1 H2.
  generalize (c_rows (m_coords A)) (c_cols (m_coords A)) (m_vals A). unfold vsq.
  induction l as [|r l IH]; intros [|c cs] [|v vs]; simpl; intros; try discriminate; auto.
  rewrite !vsum_cons. simpl. rewrite IH by lia. rn. lra.
Qed.

Lemma vdot_vmul (y d x : list R) : vdot y (vmul d x) = vdot (vmul y x) d.
Proof.
  revert d x; induction y as [|a y IH]; intros [|b d] [|c x]; try reflexivity.
  change (vmul (b :: d) (c :: x)) with ((b * c) :: vmul d x). change (vmul (a :: y) (c :: x)) with ((a * c) :: vmul y x).
  rewrite !vdot_cons, IH. lra.
Qed.
Lemma vmul_scale k (d x : list R) : vmul (vscale k d) x = vscale k (vmul d x).
Proof.
  revert x; induction d as [|b d IH]; intros [|c x]; try reflexivity.
  rewrite vscale_cons. change (vmul (b :: d) (c :: x)) with ((b * c) :: vmul d x).
  change (vmul (k * b :: vscale k d) (c :: x)) with ((k * b * c) :: vmul (vscale k d) x). rewrite vscale_cons, IH. f_equal. lra.
Qed.

Definition diag_form (A : coo R) (y x : list R) : R :=
  vsum (map (fun t => snd t * snd t * (nth (snd (fst t)) y 0 * nth (snd (fst t)) x 0)) (triples A)).

Lemma cg_op_length A lambd x : length x = snd (m_shape A) -> length (cg_op A lambd x) = snd (m_shape A).
Proof.
  intros Hx. unfold cg_op. rewrite vadd_length; rewrite mapply_length; cbn [transpose m_shape fst]; auto.
  rewrite vmul_length; rewrite vscale_length, diag_length; auto.
Qed.
Lemma cg_form A lambd x y : coo_ok A -> length x = snd (m_shape A) -> length y = snd (m_shape A) ->
  vdot y (cg_op A lambd x) = vdot (mapply A y) (mapply A x) + lambd * diag_form A y x.
Proof.
  intros Hok Hx Hy. unfold cg_op.
  rewrite vdot_add_r by (rewrite mapply_length, vmul_length; rewrite vscale_length, diag_length; auto).
  rewrite normal_dot by auto. f_equal. rewrite vmul_scale, vdot_scale_r. f_equal.
  rewrite vdot_vmul, diag_dot by (auto; rewrite vmul_length; lia). unfold diag_form.
  apply vsum_map_ext. intros t _. rewrite nth_vmul by lia. lra.
Qed.
Lemma diag_form_sym A x y : diag_form A x y = diag_form A y x.
Proof. unfold diag_form. apply vsum_map_ext. intros. lra. Qed.
Lemma diag_form_nonneg A x : 0 <= diag_form A x x.
Proof.
  unfold diag_form. apply vsum_nonneg. intros z Hz. apply in_map_iff in Hz. destruct Hz as (t & <- & _).
  apply Rmult_le_pos; [apply (Rle_0_sqr (snd t)) | apply (Rle_0_sqr (nth (snd (fst t)) x 0))].
Qed.

Lemma cg_sym_psd A lambd : coo_ok A -> 
  (forall x y, length x = snd (m_shape A) -> length y = snd (m_shape A) -> vdot x (cg_op A lambd y) = vdot y (cg_op A lambd x)) /\
  (0 <= lambd -> forall x, length x = snd (m_shape A) -> 0 <= vdot x (cg_op A lambd x)).
Proof.
  intros Hok. split.
  - intros x y Hx Hy. rewrite !cg_form by auto. rewrite (vdot_comm (mapply A x)), (diag_form_sym A x y). auto.
  - intros Hl x Hx. rewrite cg_form by auto. rewrite <- sumsq_dot. pose proof (sumsq_nonneg (mapply A x)).
    assert (0 <= lambd * diag_form A x x) by (apply Rmult_le_pos; auto; apply diag_form_nonneg). lra.
Qed.

(* ---- with distinct coordinates the diagonal is that of A^T A ---- *)
Definition cell (ts : list (nat * nat * R)) (i j : nat) : R :=
  vsum (map (fun t => if Nat.eqb (fst (fst t)) i && Nat.eqb (snd (fst t)) j then snd t else 0) ts).

Lemma cell_none ts i j : ~ In (i, j) (map fst ts) -> cell ts i j = 0.
Proof.
  intros H. unfold cell. apply vsum_map_zero. intros [[r c] v] Hin. simpl.
  destruct (Nat.eqb_spec r i), (Nat.eqb_spec c j); simpl; auto. subst. exfalso. apply H. apply (in_map fst) in Hin. auto.
Qed.

Lemma mapply_unit (A : coo R) i j : coo_ok A -> (i < fst (m_shape A))%nat -> (j < snd (m_shape A))%nat ->
  nth i (mapply A (unitv (snd (m_shape A)) j)) 0 = cell (triples A) i j.
Proof.
  intros Hok Hi Hj. rewrite nth_mapply by (auto; apply unitv_length). unfold cell. apply vsum_map_ext.
  intros [[r c] v] Hin. simpl. destruct (triples_in A r c v Hok Hin) as [Hr Hc]. rewrite nth_unitv by auto.
  destruct (Nat.eqb r i), (Nat.eqb c j); simpl; lra.
Qed.

Lemma column_squares m j : forall ts, NoDup (map fst ts) -> (forall t, In t ts -> (fst (fst t) < m)%nat) ->
  vsum (map (fun i => cell ts i j * cell ts i j) (seq 0 m)) =
  vsum (map (fun t => if Nat.eqb (snd (fst t)) j then snd t * snd t else 0) ts).
Proof.
  induction ts as [|[[r c] v] ts IH]; intros ND Hr.
  - apply vsum_map_zero. intros i _. unfold cell; simpl map. rewrite vsum_nil. lra.
  - inversion ND as [|? ? Hni ND']; subst. simpl map. rewrite vsum_cons. simpl fst; simpl snd.
    rewrite <- IH by (auto; intros; apply Hr; right; auto).
    assert (Hc : forall i, cell ((r, c, v) :: ts) i j = (if Nat.eqb r i && Nat.eqb c j then v else 0) + cell ts i j).
    { intros i. unfold cell. simpl map. rewrite vsum_cons. auto. }
    assert (E : vsum (map (fun i => cell ((r, c, v) :: ts) i j * cell ((r, c, v) :: ts) i j) (seq 0 m)) =
      vsum (map (fun i => (if Nat.eqb i r then (fun _ => if Nat.eqb c j then v * v else 0) i else 0) + cell ts i j * cell ts i j) (seq 0 m))).
    { apply vsum_map_ext. intros i _. rewrite Hc, (Nat.eqb_sym i r). destruct (Nat.eqb_spec r i); simpl; [|lra].
      destruct (Nat.eqb_spec c j); simpl; [|lra]. subst. rewrite (cell_none ts i j) by auto. lra. }
    rewrite E, vsum_map_plus. f_equal. apply (vsum_pick m r (fun _ => if Nat.eqb c j then v * v else 0)).
    apply (Hr (r, c, v)). left; auto.
Qed.

Lemma diag_is_gram (A : coo R) j : coo_ok A -> distinct A -> (j < snd (m_shape A))%nat ->
  nth j (ata_diagonals A (snd (m_shape A))) 0 = sumsq (mapply A (unitv (snd (m_shape A)) j)).
Proof.
  intros Hok Hd Hj.
  rewrite <- (vdot_unitv (snd (m_shape A)) j) by (auto; apply diag_length). rewrite diag_dot by (auto; apply unitv_length).
  rewrite sumsq_dot, (vdot_seq _ _ (fst (m_shape A))) by apply mapply_length.
  rewrite (vsum_map_ext _ (fun i => cell (triples A) i j * cell (triples A) i j)).
  2:{ intros i Hi. apply in_seq in Hi. rewrite mapply_unit by (auto; lia). auto. }
  rewrite column_squares.
  - apply vsum_map_ext. intros [[r c] v] Hin. simpl. destruct (triples_in A r c v Hok Hin) as [_ Hc].
    rewrite nth_unitv by auto. destruct (Nat.eqb c j); lra.
  - unfold distinct in Hd. rewrite <- triples_fst in Hd by auto. auto.
  - intros [[r c] v] Hin. apply (triples_in A r c v Hok Hin).
Qed.

(* ---- column scaling ---- *)
Definition scale_columns (d : list R) (A : coo R) : coo R :=
  mkCoo (zipw (fun v c => v * nth c d 0) (m_vals A) (c_cols (m_coords A))) (m_coords A) (m_shape A).

Lemma scale_ok d A : coo_ok A -> coo_ok (scale_columns d A).
Proof. intros (H1 & H2 & H3 & H4). unfold coo_ok, scale_columns; simpl. rewrite zipw_length. repeat split; auto; lia. Qed.
Lemma scale_triples d (A : coo R) : coo_ok A ->
  triples (scale_columns d A) = map (fun t => (fst t, snd t * nth (snd (fst t)) d 0)) (triples A).
Proof.
  intros (H1 & H2 & _). unfold triples, scale_columns; simpl. revert H1 H2.
  generalize (c_rows (m_coords A)) (c_cols (m_coords A)) (m_vals A).
  induction l as [|r l IH]; intros [|c cs] [|v vs]; simpl; intros; try discriminate; auto. f_equal. auto.
Qed.
Lemma mapply_scaled d (A : coo R) x : coo_ok A -> length d = snd (m_shape A) -> length x = snd (m_shape A) ->
  mapply (scale_columns d A) x = mapply A (vmul d x).
Proof.
  intros Hok Hd Hx. apply (vec_ext (fst (m_shape A))); [exact (mapply_length (scale_columns d A) x) | apply mapply_length|]. intros y Hy.
  rewrite mapply_dot by (try apply scale_ok; auto). rewrite mapply_dot by (auto; rewrite vmul_length; lia).
  rewrite scale_triples by auto. unfold bil. rewrite map_map. apply vsum_map_ext. intros t _. simpl.
  rewrite nth_vmul by lia. lra.
Qed.
Lemma diag_form_scaled d (A : coo R) y x : coo_ok A -> length d = snd (m_shape A) -> length x = snd (m_shape A) -> length y = snd (m_shape A) ->
  diag_form (scale_columns d A) y x = diag_form A (vmul d y) (vmul d x).
Proof.
  intros Hok Hd Hx Hy. unfold diag_form. rewrite scale_triples by auto. rewrite map_map. apply vsum_map_ext. intros t _. simpl.
  rewrite !nth_vmul by lia. lra.
Qed.

Lemma scale_invariance d A lambd b x : coo_ok A -> length d = snd (m_shape A) -> Forall (fun c => c <> 0) d ->
  length x = snd (m_shape A) -> length b = fst (m_shape A) ->
  (cg_op (scale_columns d A) lambd x = mapply (transpose (scale_columns d A)) b <->
   cg_op A lambd (vmul d x) = mapply (transpose A) b).
Proof.
  intros Hok Hd Hnz Hx Hb. set (n := snd (m_shape A)) in *. set (A' := scale_columns d A).
  assert (Hok' : coo_ok A') by (apply scale_ok; auto).
  assert (Hdx : length (vmul d x) = n) by (rewrite vmul_length; lia).
  assert (Hform : forall y, length y = n -> 
    (vdot y (cg_op A' lambd x) = vdot (vmul d y) (cg_op A lambd (vmul d x)) /\
     vdot y (mapply (transpose A') b) = vdot (vmul d y) (mapply (transpose A) b))).
  { intros y Hy. assert (Hdy : length (vmul d y) = n) by (rewrite vmul_length; lia). split.
    - rewrite !cg_form by auto. unfold A'. rewrite !mapply_scaled, diag_form_scaled by auto. auto.
    - rewrite <- !mapply_adjoint by auto. unfold A'. rewrite mapply_scaled by auto. auto. }
  split; intros H.
  - apply (vec_ext n); [apply cg_op_length; auto | apply mapply_length|]. intros z Hz.
    set (y := zipw Rdiv z d).
    assert (Hy : length y = n) by (unfold y; rewrite zipw_length; lia).
    assert (Ez : vmul d y = z).
    { apply (nth_ext' _ _ 0); [rewrite vmul_length; lia|]. intros i Hi. rewrite vmul_length in Hi by lia.
      rewrite nth_vmul by lia. unfold y. rewrite (nth_zipw _ _ _ _ 0 0) by lia. field.
      rewrite Forall_forall in Hnz. apply Hnz, nth_In. lia. }
    destruct (Hform y Hy) as [F1 F2]. rewrite Ez in *. rewrite <- F1, <- F2, H. auto.
  - apply (vec_ext n); [apply cg_op_length; auto | apply mapply_length|]. intros y Hy.
    destruct (Hform y Hy) as [F1 F2]. rewrite F1, F2, H. auto.
Qed.

(* ---- the iteration ---- *)
Section Loop.
Variables (n : nat) (op : list R -> result (list R)) (f M : list R -> list R).
Hypothesis Hop : forall x, length x = n -> op x = Ok (f x).
Hypothesis Hlen : forall x, length x = n -> length (f x) = n.
Hypothesis Hadd : forall x y, length x = n -> length y = n -> f (vadd x y) = vadd (f x) (f y).
Hypothesis Hscale : forall k x, length x = n -> f (vscale k x) = vscale k (f x).
Hypothesis HM : forall x, length x = n -> length (M x) = n.

Lemma cg_residual b atol2 : forall k x r gamma p, length b = n -> length x = n -> length p = n -> r = vsub b (f x) ->
  exists x' j, cg_loop k op M atol2 x r gamma p = Ok (x', j) /\ length x' = n /\ (j <= k)%nat /\
    (j = O \/ vdot (vsub b (f x')) (vsub b (f x')) <= atol2).
Proof.
  induction k as [|k IH]; intros x r gamma p Hb Hx Hp Hr; cbn [cg_loop].
  - exists x, O. repeat split; auto.
  - rn. unfold Rltb. destruct (Rlt_dec atol2 (vdot r r)) as [Hlt|Hge].
    + rewrite Hop by auto. cbn [bind].
      set (alpha := gamma / vdot p (f p)).
      assert (Hr' : vsub r (vscale alpha (f p)) = vsub b (f (vadd x (vscale alpha p)))).
      { apply (vec_ext n).
        - rewrite vsub_length; subst r; rewrite ?vsub_length; rewrite ?vscale_length, ?Hlen; auto; lia.
        - rewrite vsub_length; auto. rewrite Hlen; [auto|]. rewrite vadd_length; rewrite ?vscale_length; lia.
        - intros y Hy. subst r.
          rewrite !vdot_sub_r; rewrite ?vsub_length, ?vscale_length; rewrite ?Hlen; auto; try lia.
          2:{ rewrite vadd_length; rewrite ?vscale_length; lia. }
          rewrite Hadd, Hscale by (rewrite ?vscale_length; auto).
          rewrite vdot_add_r by (rewrite vscale_length, !Hlen; auto). lra. }
      destruct (IH (vadd x (vscale alpha p)) (vsub r (vscale alpha (f p)))
                  (vdot (vsub r (vscale alpha (f p))) (M (vsub r (vscale alpha (f p)))))
                  (vadd (M (vsub r (vscale alpha (f p))))
                        (vscale (vdot (vsub r (vscale alpha (f p))) (M (vsub r (vscale alpha (f p)))) / gamma) p)))
        as (x' & j & E & H1 & H2 & H3); auto.
      * rewrite vadd_length; rewrite ?vscale_length; lia.
      * assert (Hrl : length (vsub r (vscale alpha (f p))) = n).
        { rewrite Hr', vsub_length; auto. rewrite Hlen; [auto|]. rewrite vadd_length; rewrite ?vscale_length; lia. }
        rewrite vadd_length; rewrite ?vscale_length, HM; auto.
      * exists x', j. repeat split; auto.
    + exists x, (S k). repeat split; auto. right. subst r. lra.
Qed.
End Loop.

Lemma jacobi_length (A : coo R) n x : length x = n -> length (jacobi A n x) = n.
Proof. intros Hx. unfold jacobi. rewrite zipw_length, diag_length. lia. Qed.

Lemma cg_op_linear (A : coo R) lambd : coo_ok A ->
  (forall x y, length x = snd (m_shape A) -> length y = snd (m_shape A) -> cg_op A lambd (vadd x y) = vadd (cg_op A lambd x) (cg_op A lambd y)) /\
  (forall k x, length x = snd (m_shape A) -> cg_op A lambd (vscale k x) = vscale k (cg_op A lambd x)).
Proof.
  intros Hok. set (n := snd (m_shape A)). split.
  - intros x y Hx Hy. assert (Hxy : length (vadd x y) = n) by (rewrite vadd_length; lia).
    apply (vec_ext n); [apply cg_op_length; auto | rewrite vadd_length; rewrite !cg_op_length; auto|].
    intros z Hz. rewrite vdot_add_r by (rewrite !cg_op_length; auto). rewrite !cg_form by auto.
    rewrite mapply_add by auto. rewrite vdot_add_r by (rewrite !mapply_length; auto).
    assert (E : diag_form A z (vadd x y) = diag_form A z x + diag_form A z y).
    { unfold diag_form. rewrite <- vsum_map_plus. apply vsum_map_ext. intros t _. rewrite nth_vadd by lia. lra. }
    rewrite E. lra.
  - intros k x Hx. apply (vec_ext n); [apply cg_op_length; rewrite vscale_length; auto | rewrite vscale_length; apply cg_op_length; auto|].
    intros z Hz. rewrite vdot_scale_r, !cg_form by (rewrite ?vscale_length; auto). rewrite mapply_scale, vdot_scale_r by auto.
    assert (E : diag_form A z (vscale k x) = k * diag_form A z x).
    { unfold diag_form. rewrite <- vsum_map_scale. apply vsum_map_ext. intros t _. rewrite nth_vscale. lra. }
    rewrite E. lra.
Qed.

Lemma cg_solve_ok (A : coo R) b lambd it (tol : nat -> R) : coo_ok A -> length b = snd (m_shape A) ->
  exists x j, cg_run tol A b lambd it = Ok (x, j) /\ cg_solve tol A b lambd it = Ok x /\ length x = snd (m_shape A) /\ (j <= length b)%nat /\
    (j = O \/ sumsq (vsub b (cg_op A lambd x)) <= tol it * tol it * sumsq b).
Proof.
  intros Hok Hb. unfold cg_solve, cg_run, cg. rewrite Hb.
  assert (Hz : length (@vzero R NumR (snd (m_shape A))) = snd (m_shape A)) by apply vzero_length.
  rewrite ata_function_ok by auto. cbn [bind]. fold (cg_op A lambd (vzero (snd (m_shape A)))).
  destruct (cg_op_linear A lambd Hok) as [Ha Hs].
  assert (Hl0 : length (vsub b (cg_op A lambd (vzero (snd (m_shape A))))) = snd (m_shape A)).
  { rewrite vsub_length; auto. rewrite cg_op_length; auto. }
  destruct (cg_residual (snd (m_shape A)) (ata_function A lambd (snd (m_shape A))) (cg_op A lambd) (jacobi A (snd (m_shape A)))
              (fun x Hx => ata_function_ok A lambd x Hok Hx) (cg_op_length A lambd) Ha Hs
              (jacobi_length A (snd (m_shape A))) b
              (nmax (nmul (nmul (tol it) (tol it)) (vdot b b)) (nmul n0 n0)) (snd (m_shape A))
              (vzero (snd (m_shape A))) (vsub b (cg_op A lambd (vzero (snd (m_shape A)))))
              (vdot (vsub b (cg_op A lambd (vzero (snd (m_shape A))))) (jacobi A (snd (m_shape A)) (vsub b (cg_op A lambd (vzero (snd (m_shape A)))))))
              (jacobi A (snd (m_shape A)) (vsub b (cg_op A lambd (vzero (snd (m_shape A)))))))
    as (x & j & E & H1 & H2 & H3); auto.
  { apply jacobi_length. auto. }
  exists x, j. split; [exact E|]. split; [unfold cg_run in E; rewrite E; reflexivity|]. repeat split; auto.
  destruct H3 as [H3|H3]; [left; auto|]. right. rn. rewrite !sumsq_dot.
  assert (Hsq : 0 <= tol it * tol it * vdot b b).
  { apply Rmult_le_pos; [apply (Rle_0_sqr (tol it))|]. rewrite <- sumsq_dot. apply sumsq_nonneg. }
  rewrite Rmax_left in H3 by lra. auto.
Qed.

Lemma inexact_tol eta i : 0 < eta -> 0 < inexact_tolerance eta i /\ inexact_tolerance eta (S i) < inexact_tolerance eta i.
Proof.
  intros He. unfold inexact_tolerance. rn. unfold Rlit. unfold Rdiv at 2 4 6. rewrite Rinv_1, !Rmult_1_r.
  assert (H1 : 0 < IZR (Z.of_nat (i + 1))) by (apply IZR_lt; lia).
  assert (H2 : IZR (Z.of_nat (i + 1)) < IZR (Z.of_nat (S i + 1))) by (apply IZR_lt; lia).
  split; [apply Rdiv_lt_0_compat; auto|].
  apply Rmult_lt_compat_l; auto. apply Rinv_lt_contravar; auto. apply Rmult_lt_0_compat; lra.
Qed.
