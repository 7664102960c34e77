(* Bundles and concrete instances for C21-C25, C55-C57. *)
From Coq Require Import List Arith Bool Lia Reals Lra ZArith.
From Verif Require Import Num NumR NumF32 Py Arr MSparse MLinear SpecSparse PBase PVec PSparse PLinear PCg PFin PCgConv PCgNan.
Import ListNotations.
Local Open Scope R_scope.

Lemma entry_cell (A : coo R) i j : entry A i j = cell (triples A) i j.
Proof.
  unfold entry, cell. induction (triples A) as [|t ts IH]; auto. cbn [filter map]. rewrite vsum_cons, <- IH.
  destruct (_ && _); [cbn [map]; rewrite vsum_cons; auto | lra].
Qed.
Lemma cell_row (ts : list (nat * nat * R)) x n i : (forall t, In t ts -> (snd (fst t) < n)%nat) ->
  vsum (map (fun j => cell ts i j * nth j x 0) (seq 0 n)) =
  vsum (map (fun t => if Nat.eqb (fst (fst t)) i then snd t * nth (snd (fst t)) x 0 else 0) ts).
Proof.
  induction ts as [|[[r c] v] ts IH]; intros H.
  - apply vsum_map_zero. intros j _. unfold cell. cbn [map]. rewrite vsum_nil. lra.
  - cbn [map]. rewrite vsum_cons, <- IH by (intros; apply H; right; auto). cbn [fst snd].
    rewrite (vsum_map_ext _ (fun j => (if Nat.eqb j c then (if Nat.eqb r i then v * nth j x 0 else 0) else 0) + cell ts i j * nth j x 0)).
    + rewrite vsum_map_plus. f_equal.
      assert (Hc : (c < n)%nat) by (apply (H (r, c, v)); left; auto).
      rewrite (vsum_pick n c (fun j => if Nat.eqb r i then v * nth j x 0 else 0) Hc). auto.
    + intros j _. unfold cell. cbn [map]. rewrite vsum_cons. cbn [fst snd]. rewrite (Nat.eqb_sym j c).
      destruct (Nat.eqb r i), (Nat.eqb c j); cbn [andb]; lra.
Qed.
Lemma mapply_entries (A : coo R) x i : coo_ok A -> length x = snd (m_shape A) -> (i < fst (m_shape A))%nat ->
  nth i (mapply A x) 0 = mat_times (snd (m_shape A)) (entry A) x i.
Proof.
  intros Hok Hx Hi. rewrite nth_mapply by auto. unfold mat_times.
  rewrite (vsum_map_ext _ (fun j => cell (triples A) i j * nth j x 0)) by (intros; rewrite entry_cell; auto).
  symmetry. apply cell_row. intros [[r c] v] Hin. apply (triples_in A r c v Hok Hin).
Qed.
Lemma entry_transpose (A : coo R) i j : entry (transpose A) i j = entry A j i.
Proof.
  rewrite !entry_cell. unfold cell. rewrite transpose_triples, map_map. apply vsum_map_ext. intros t _. cbn [fst snd].
  rewrite andb_comm. auto.
Qed.
Lemma gram_apply (A : coo R) x i : coo_ok A -> length x = snd (m_shape A) -> (i < snd (m_shape A))%nat ->
  nth i (mapply (transpose A) (mapply A x)) 0 = mat_times (snd (m_shape A)) (gram A) x i.
Proof.
  intros Hok Hx Hi. rewrite mapply_entries; [| apply transpose_ok; auto | apply mapply_length | auto].
  unfold mat_times. cbn [transpose m_shape snd].
  rewrite (vsum_map_ext _ (fun k => vsum (map (fun j => entry A k i * entry A k j * nth j x 0) (seq 0 (snd (m_shape A)))))).
  2:{ intros k Hk. apply in_seq in Hk. rewrite entry_transpose, mapply_entries by (auto; lia). unfold mat_times.
      rewrite <- vsum_map_scale. apply vsum_map_ext. intros. lra. }
  rewrite vsum_swap. apply vsum_map_ext. intros j _. unfold gram. rewrite Rmult_comm, <- vsum_map_scale. apply vsum_map_ext. intros. lra.
Qed.
Lemma gram_diag (A : coo R) j : coo_ok A -> distinct A -> (j < snd (m_shape A))%nat ->
  nth j (ata_diagonals A (snd (m_shape A))) 0 = gram A j j.
Proof.
  intros Hok Hd Hj. rewrite diag_is_gram by auto. rewrite sumsq_dot, (vdot_seq _ _ (fst (m_shape A))) by apply mapply_length.
  unfold gram. apply vsum_map_ext. intros i Hi. apply in_seq in Hi. rewrite mapply_unit by (auto; lia). rewrite entry_cell. auto.
Qed.

(* ---- C21 ---- *)
Lemma transpose_adjoint (A : coo R) : coo_ok A ->
  coo_ok (transpose A) /\ transpose (transpose A) = A /\ (forall i j, entry (transpose A) i j = entry A j i) /\
  (forall x, length x = snd (m_shape A) -> exists y, matmul A x = Ok y /\ length y = fst (m_shape A) /\
     (forall i, (i < fst (m_shape A))%nat -> nth i y 0 = mat_times (snd (m_shape A)) (entry A) x i)) /\
  (forall x, length x <> snd (m_shape A) -> matmul A x = Err AssertionError) /\
  (forall x y Ax ATy, matmul A x = Ok Ax -> matmul (transpose A) y = Ok ATy -> vdot Ax y = vdot x ATy) /\
  (forall a b k Aa Ab, matmul A a = Ok Aa -> matmul A b = Ok Ab ->
     matmul A (vadd a b) = Ok (vadd Aa Ab) /\ matmul A (vscale k a) = Ok (vscale k Aa)) /\
  (forall x z Ax Az ATAx ATAz, matmul A x = Ok Ax -> matmul (transpose A) Ax = Ok ATAx ->
     matmul A z = Ok Az -> matmul (transpose A) Az = Ok ATAz ->
     vdot x ATAz = vdot z ATAx /\ 0 <= vdot x ATAx).
Proof.
  intros Hok. pose proof (transpose_ok A Hok) as HokT.
  assert (Hinv : forall (B : coo R) x y, coo_ok B -> matmul B x = Ok y -> length x = snd (m_shape B) /\ y = mapply B x).
  { intros B x y HB E. destruct (Nat.eq_dec (length x) (snd (m_shape B))) as [H|H].
    - rewrite matmul_mapply in E by auto. injection E as <-. auto.
    - rewrite matmul_err in E by auto. discriminate. }
  split; [auto|]. split; [apply transpose_involutive|]. split; [apply entry_transpose|]. split; [|split; [|split; [|split]]].
  - intros x Hx. exists (mapply A x). split; [apply matmul_mapply; auto|]. split; [apply mapply_length|].
    intros i Hi. apply mapply_entries; auto.
  - intros x Hx. apply matmul_err; auto.
  - intros x y Ax ATy E1 E2. apply Hinv in E1, E2; auto. destruct E1 as [Hx ->], E2 as [Hy ->]. apply mapply_adjoint; auto.
  - intros a b k Aa Ab E1 E2. apply Hinv in E1, E2; auto. destruct E1 as [Ha ->], E2 as [Hb ->].
    rewrite <- mapply_add, <- mapply_scale by auto. split; apply matmul_mapply; auto; rewrite ?vscale_length; auto.
    rewrite vadd_length; lia.
  - intros x z Ax Az ATAx ATAz E1 E2 E3 E4. apply Hinv in E1, E2, E3, E4; auto.
    destruct E1 as [Hx ->], E2 as [_ ->], E3 as [Hz ->], E4 as [_ ->]. rewrite !normal_dot by auto. split.
    + apply vdot_comm.
    + rewrite <- sumsq_dot. apply sumsq_nonneg.
Qed.

(* ---- C22 ---- *)
Lemma dense_same (A : coo R) : coo_ok A -> distinct A ->
  length (as_dense A) = fst (m_shape A) /\ Forall (fun row => length row = snd (m_shape A)) (as_dense A) /\
  (forall i j v, In (i, j, v) (triples A) -> nth j (nth i (as_dense A) []) 0 = v) /\
  (forall i j, (i < fst (m_shape A))%nat -> (j < snd (m_shape A))%nat -> ~ In (i, j) (map fst (triples A)) -> nth j (nth i (as_dense A) []) 0 = 0) /\
  (forall x, length x = snd (m_shape A) -> matmul A x = Ok (mvec (as_dense A) x)).
Proof.
  intros Hok Hd. destruct (as_dense_distinct (N := NumR) A Hok Hd) as [H1 H2]. destruct (as_dense_ok (N := NumR) A) as [H3 H4].
  repeat (split; [auto|]). intros x Hx. rewrite matmul_mapply by auto. f_equal. symmetry. apply as_dense_mapply; auto.
Qed.

Definition dup_coo : coo R := mkCoo [1; 1] (mkCoords [0; 0]%nat [0; 0]%nat) (1, 1)%nat.
Lemma dup_ok : coo_ok dup_coo.
Proof. unfold coo_ok, dup_coo; simpl. repeat split; repeat constructor. Qed.
Lemma dense_differs : coo_ok dup_coo /\ matmul dup_coo [1] = Ok [0 + 1 * 1 + 1 * 1] /\ mvec (as_dense dup_coo) [1] = [1 * 1 + 0] /\
  matmul dup_coo [1] <> Ok (mvec (as_dense dup_coo) [1]).
Proof.
  split; [apply dup_ok|]. assert (E1 : matmul dup_coo [1] = Ok [0 + 1 * 1 + 1 * 1]) by reflexivity.
  assert (E2 : mvec (as_dense dup_coo) [1] = [1 * 1 + 0]) by reflexivity.
  split; [auto|]. split; [auto|]. rewrite E1, E2. intros [= H]. lra.
Qed.
Lemma dense_differs_exists : exists (A : coo R) x, coo_ok A /\ length x = snd (m_shape A) /\ matmul A x <> Ok (mvec (as_dense A) x).
Proof. exists dup_coo, [1]. split; [apply dup_ok|]. split; [reflexivity | apply dense_differs]. Qed.

(* ---- C24 ---- *)
Lemma cg_operator (A : coo R) lambd : coo_ok A -> distinct A ->
  let n := snd (m_shape A) in
  (forall x, length x = n -> exists y, ata_function A lambd n x = Ok y /\ length y = n /\
     forall i, (i < n)%nat -> nth i y 0 = mat_times n (gram A) x i + lambd * gram A i i * nth i x 0) /\
  (forall x z fx fz, length x = n -> length z = n -> ata_function A lambd n x = Ok fx -> ata_function A lambd n z = Ok fz ->
     vdot x fz = vdot z fx /\ (0 <= lambd -> 0 <= vdot x fx)).
Proof.
  intros Hok Hd n. split.
  - intros x Hx. exists (cg_op A lambd x). split; [apply ata_function_ok; auto|]. split; [apply cg_op_length; auto|].
    intros i Hi. unfold cg_op. rewrite nth_vadd by (rewrite mapply_length, vmul_length; rewrite vscale_length, diag_length; auto).
    rewrite gram_apply by auto. f_equal. rewrite nth_vmul by (rewrite vscale_length, diag_length; auto). rewrite nth_vscale, gram_diag by auto. auto.
  - intros x z fx fz Hx Hz E1 E2. unfold n in E1, E2. rewrite ata_function_ok in E1, E2 by auto. injection E1 as <-. injection E2 as <-.
    destruct (cg_sym_psd A lambd Hok) as [Hs Hp]. split; [apply Hs; auto | intros; apply Hp; auto].
Qed.

Lemma cg_scale (A A' : coo R) lambd b d x : coo_ok A -> distinct A -> coo_ok A' -> distinct A' -> m_shape A' = m_shape A ->
  length d = snd (m_shape A) -> Forall (fun c => c <> 0) d -> (forall i j, entry A' i j = entry A i j * nth j d 0) ->
  length b = fst (m_shape A) -> length x = snd (m_shape A) ->
  (ata_function A' lambd (snd (m_shape A)) x = matmul (transpose A') b <->
   ata_function A lambd (snd (m_shape A)) (vmul d x) = matmul (transpose A) b).
Proof.
  intros Hok Hd Hok' Hd' Hsh Hld Hnz He Hb Hx. set (n := snd (m_shape A)) in *.
  assert (Hdx : length (vmul d x) = n) by (rewrite vmul_length; lia).
  assert (Hn : n = snd (m_shape A')) by (rewrite Hsh; auto).
  rewrite !matmul_mapply; try (apply transpose_ok; auto); try (cbn [transpose m_shape snd]; rewrite ?Hsh; auto).
  rewrite Hn at 1. rewrite (ata_function_ok A') by (auto; lia). fold (cg_op A' lambd x).
  replace (ata_function A lambd n (vmul d x)) with (@Ok (list R) (cg_op A lambd (vmul d x))) by (symmetry; apply ata_function_ok; auto).
  assert (Hg : forall i j, gram A' i j = nth i d 0 * (nth j d 0 * gram A i j)).
  { intros i j. unfold gram. rewrite Hsh, <- !vsum_map_scale. apply vsum_map_ext. intros k _. rewrite !He. lra. }
  assert (Hop : forall i, (i < n)%nat -> nth i (cg_op A' lambd x) 0 = nth i d 0 * nth i (cg_op A lambd (vmul d x)) 0).
  { intros i Hi. destruct (proj1 (cg_operator A' lambd Hok' Hd') x ltac:(lia)) as (y & E1 & _ & E2).
    rewrite ata_function_ok in E1 by (auto; lia). injection E1 as <-. fold (cg_op A' lambd x) in E2. rewrite E2 by lia.
    destruct (proj1 (cg_operator A lambd Hok Hd) (vmul d x) Hdx) as (y' & E1 & _ & E3).
    rewrite ata_function_ok in E1 by auto. injection E1 as <-. fold (cg_op A lambd (vmul d x)) in E3. rewrite E3 by auto.
    fold n. rewrite <- Hn. unfold mat_times. rewrite nth_vmul by lia. rewrite Rmult_plus_distr_l, <- vsum_map_scale. f_equal.
    - apply vsum_map_ext. intros j Hj. rewrite Hg, nth_vmul by lia. lra.
    - rewrite Hg. lra. }
  assert (Hrhs : forall i, (i < n)%nat -> nth i (mapply (transpose A') b) 0 = nth i d 0 * nth i (mapply (transpose A) b) 0).
  { intros i Hi. rewrite !mapply_entries; try (apply transpose_ok; auto); try (cbn [transpose m_shape fst snd]; rewrite ?Hsh; auto).
    unfold mat_times. rewrite <- vsum_map_scale. apply vsum_map_ext. intros k _. rewrite !entry_transpose, He. lra. }
  assert (L1 : length (cg_op A' lambd x) = n) by (rewrite cg_op_length; lia).
  assert (L2 : length (cg_op A lambd (vmul d x)) = n) by (rewrite cg_op_length; auto).
  assert (L3 : length (mapply (transpose A') b) = n) by (rewrite mapply_length; cbn [transpose m_shape fst]; lia).
  assert (L4 : length (mapply (transpose A) b) = n) by apply mapply_length.
  assert (Hne : forall i, (i < n)%nat -> nth i d 0 <> 0) by (intros; rewrite Forall_forall in Hnz; apply Hnz, nth_In; lia).
  split; intros [= E]; f_equal; apply (nth_ext' _ _ 0); rewrite ?L1, ?L2, ?L3, ?L4; auto; intros i Hi.
  - apply (Rmult_eq_reg_l (nth i d 0)); auto. rewrite <- Hop, <- Hrhs, E by auto. auto.
  - rewrite Hop, Hrhs, E by auto. auto.
Qed.

Lemma damping_differs : exists (A : coo R) (x : list R), coo_ok A /\ length x = snd (m_shape A) /\ forall lambd, 0 < lambd ->
  exists y, ata_function A lambd (snd (m_shape A)) x = Ok y /\
    nth 0 y 0 <> mat_times (snd (m_shape A)) (gram A) x 0 + lambd * gram A 0 0 * nth 0 x 0.
Proof.
  exists dup_coo, [1]. split; [apply dup_ok|]. split; [reflexivity|]. intros l Hl. eexists. split; [apply ata_function_ok; [apply dup_ok | reflexivity]|].
  rewrite nth_vadd by reflexivity. rewrite gram_apply by (try apply dup_ok; simpl; auto).
  assert (E1 : nth 0 (vmul (vscale l (ata_diagonals dup_coo (snd (m_shape dup_coo)))) [1]) 0 = l * (0 + 1 * 1 + 1 * 1) * 1) by reflexivity.
  assert (E2 : gram dup_coo 0 0 = (1 + (1 + 0)) * (1 + (1 + 0)) + 0) by reflexivity.
  rewrite E1, E2. simpl nth. intros H. lra.
Qed.

(* ---- C25 ---- *)
Lemma ridge_iff A beta c x : coo_ok A -> length c = snd (m_shape A) -> (ridge_solution A beta c x <-> normal_ok A beta c x).
Proof.
  intros Hok Hc. assert (Hl : length x = snd (m_shape A) -> length (vadd (mapply (transpose A) (mapply A x)) (vscale beta x)) = snd (m_shape A)).
  { intros Hx. rewrite vadd_length; rewrite mapply_length; auto. rewrite vscale_length; auto. }
  assert (He : length x = snd (m_shape A) -> forall i, (i < snd (m_shape A))%nat -> nth i (vadd (mapply (transpose A) (mapply A x)) (vscale beta x)) 0 =
    mat_times (snd (m_shape A)) (gram A) x i + beta * nth i x 0).
  { intros Hx i Hi. rewrite nth_vadd by (rewrite mapply_length, vscale_length; auto). rewrite gram_apply, nth_vscale by auto. auto. }
  split; intros (Hx & H); split; auto.
  - apply (nth_ext' _ _ 0); [rewrite Hl; auto|]. rewrite Hl by auto. intros i Hi. rewrite He by auto. auto.
  - intros i Hi. rewrite <- He, H by auto. auto.
Qed.
Lemma cholmod_subproblem (A : coo R) rhs lambd it : coo_ok A -> 0 <= lambd -> length rhs = fst (m_shape A) ->
  exists c x Ax, matmul (transpose A) rhs = Ok c /\ cholmod_solve A c lambd it = Ok x /\ matmul A x = Ok Ax /\
    ridge_solution A (lambd + 1 / 100000) c x /\ (forall x', ridge_solution A (lambd + 1 / 100000) c x' -> x' = x) /\
    (x = vzero (snd (m_shape A)) <-> c = vzero (snd (m_shape A))) /\
    (c <> vzero (snd (m_shape A)) -> 0 < vdot x c) /\ sumsq (vsub Ax rhs) <= sumsq rhs.
Proof.
  intros Hok Hl Hr. set (c := mapply (transpose A) rhs). assert (Hc : length c = snd (m_shape A)) by apply mapply_length.
  assert (Hbeta : 0 < lambd + 1 / 100000) by lra.
  destruct (cholmod_solve_ok A c lambd it Hok) as (x & E & Hn); [unfold Rlit; lra | auto|].
  change (Rlit 1 100000) with (1 / 100000) in Hn. exists c, x, (mapply A x).
  split; [apply matmul_mapply; [apply transpose_ok; auto | auto]|]. split; [auto|]. split; [apply matmul_mapply; auto; apply Hn|].
  split; [apply ridge_iff; auto|]. split.
  - intros x' Hx'. apply ridge_iff in Hx'; auto. eapply normal_unique; eauto.
  - apply (normal_descent A (lambd + 1 / 100000) rhs x); auto.
Qed.

(* ---- C55 ---- *)
Lemma cg_quality (A : coo R) c lambd it (tol : nat -> R) : coo_ok A -> length c = snd (m_shape A) ->
  exists x y unused, cg_run tol A c lambd it = Ok (x, unused) /\ cg_solve tol A c lambd it = Ok x /\
    length x = snd (m_shape A) /\ (unused <= snd (m_shape A))%nat /\ ata_function A lambd (snd (m_shape A)) x = Ok y /\
    ((0 < unused)%nat -> sumsq (vsub c y) <= tol it * tol it * sumsq c).
Proof.
  intros Hok Hc. destruct (cg_solve_ok A c lambd it tol Hok Hc) as (x & j & E1 & E2 & H1 & H2 & H3).
  exists x, (cg_op A lambd x), j. repeat split; auto; [lia | apply ata_function_ok; auto|]. intros Hj. destruct H3; [lia | auto].
Qed.

(* ---- C56 ---- *)
Lemma cg_finite (A : coo R) rhs lambd it (tol : nat -> R) : coo_ok A -> 0 <= lambd -> length rhs = fst (m_shape A) ->
  (forall j, (j < snd (m_shape A))%nat -> exists r v, In (r, j, v) (triples A) /\ v <> 0) ->
  exists c x y, matmul (transpose A) rhs = Ok c /\
    cg_solve (N := NumXR) (fun i => Fin (tol i)) (finite_coo A) (finite c) (Fin lambd) it = Ok (finite x) /\
    cg_solve tol A c lambd it = Ok x /\
    ata_function A lambd (snd (m_shape A)) x = Ok y /\ sumsq (vsub c y) <= tol it * tol it * sumsq c /\ (tol it = 0 -> y = c).
Proof.
  intros Hok Hl Hr Hcol. destruct (cg_converges A rhs lambd it tol Hok Hl Hr Hcol) as (x & E1 & E2 & Hx & Hs & _).
  set (c := mapply (transpose A) rhs) in *. assert (Hc : length c = snd (m_shape A)) by apply mapply_length.
  assert (Hy : length (cg_op A lambd x) = snd (m_shape A)) by (apply cg_op_length; auto).
  exists c, x, (cg_op A lambd x). split; [apply matmul_mapply; [apply transpose_ok; auto | auto]|].
  split; [exact E2|]. split; [auto|]. split; [apply ata_function_ok; auto|]. split; [auto|].
  intros Ht. rewrite Ht in Hs. pose proof (sumsq_nonneg (vsub c (cg_op A lambd x))) as H0.
  assert (Hz : sumsq (vsub c (cg_op A lambd x)) = 0) by lra. apply sumsq_zero in Hz.
  apply (nth_ext' _ _ 0); [lia|]. intros i Hi. assert (E : nth i (vsub c (cg_op A lambd x)) 0 = 0).
  { rewrite Hz. apply (nth_vzero (N := NumR)). }
  rewrite nth_vsub in E by lia. lra.
Qed.
(* ---- C57 ---- *)
Lemma cg_nan (A : coo R) rhs lambd it (tol : nat -> R) j : coo_ok A -> length rhs = fst (m_shape A) ->
  (j < snd (m_shape A))%nat -> (forall r v, In (r, j, v) (triples A) -> v = 0) ->
  exists c, matmul (transpose A) rhs = Ok c /\
   (c <> vzero (snd (m_shape A)) -> Rabs (tol it) < 1 ->
    cg_solve (N := NumXR) (fun i => Fin (tol i)) (finite_coo A) (finite c) (Fin lambd) it = Ok (repeat NaN (snd (m_shape A)))).
Proof.
  intros Hok Hr Hj Hc. exists (mapply (transpose A) rhs). split; [apply matmul_mapply; [apply transpose_ok; auto | auto]|].
  intros H1 H2. apply (cg_zero_column A rhs lambd it tol j); auto.
Qed.

(* ---- concrete instances ---- *)
(* [[1 2 0] [0 0 3]]; [[1 0] [0 0]] *)
Definition ex_A : coo R := mkCoo [1; 2; 3] (mkCoords [0; 0; 1]%nat [0; 1; 2]%nat) (2, 3)%nat.
Lemma ex_A_ok : coo_ok ex_A /\ distinct ex_A.
Proof.
  split; [unfold coo_ok, ex_A; simpl; repeat split; repeat constructor|].
  unfold distinct, ex_A; simpl. repeat constructor; simpl; intuition discriminate.
Qed.
Lemma ex_A_columns j : (j < snd (m_shape ex_A))%nat -> exists r v, In (r, j, v) (triples ex_A) /\ v <> 0.
Proof.
  simpl. intros H. destruct j as [|[|[|j]]]; [exists 0%nat, 1 | exists 0%nat, 2 | exists 1%nat, 3 | lia]; split; simpl; auto; lra.
Qed.
Definition ex_B : coo R := mkCoo [1] (mkCoords [0]%nat [0]%nat) (1, 2)%nat.
Lemma ex_B_ok : coo_ok ex_B /\ (forall r v, In (r, 1%nat, v) (triples ex_B) -> v = 0) /\ 
  exists c, matmul (transpose ex_B) [1] = Ok c /\ c <> vzero 2.
Proof.
  split; [unfold coo_ok, ex_B; simpl; repeat split; repeat constructor|]. split.
  - simpl. intros r v [H|[]]. discriminate.
  - exists [0 + 1 * 1; 0]. split; [reflexivity|]. intros [= H]. lra.
Qed.
(* the same in float32: the second unknown does not occur *)
Definition f32_B : coo f32 := mkCoo [f_of_Z 1] (mkCoords [0]%nat [0]%nat) (1, 2)%nat.
Lemma ex_B_float : conjugate_gradient_solver (N := NumF32) (nlit (Num := NumF32) 1 100000) f32_B [f_of_Z 1; f_of_Z 0] (f_of_Z 0) 0%nat = Ok [SpecFloat.S754_nan; SpecFloat.S754_nan].
Proof. vm_compute. reflexivity. Qed.
Definition ex_A2 : coo R := mkCoo [1 * 5; 2 * 7; 3 * (-1)] (mkCoords [0; 0; 1]%nat [0; 1; 2]%nat) (2, 3)%nat.
Lemma ex_A2_scaled : coo_ok ex_A2 /\ distinct ex_A2 /\ m_shape ex_A2 = m_shape ex_A /\
  Forall (fun c => c <> 0) [5; 7; -1] /\ (forall i j, entry ex_A2 i j = entry ex_A i j * nth j [5; 7; -1] 0).
Proof.
  split; [unfold coo_ok, ex_A2; simpl; repeat split; repeat constructor|].
  split; [exact (proj2 ex_A_ok)|]. split; [auto|]. split; [repeat constructor; lra|].
  intros i j. rewrite !entry_cell. unfold cell.
  change (triples ex_A2) with [(0%nat, 0%nat, 1 * 5); (0%nat, 1%nat, 2 * 7); (1%nat, 2%nat, 3 * (-1))].
  change (triples ex_A) with [(0%nat, 0%nat, 1); (0%nat, 1%nat, 2); (1%nat, 2%nat, 3)]. cbn [map fst snd]. rewrite !vsum_cons, !vsum_nil.
  destruct i as [|[|i]]; destruct j as [|[|[|j]]]; cbn; lra.
Qed.

(* the two public conjugate gradient classes with their tolerances *)
Lemma cg_classes :
  forall (A : coo R) rhs lambd it, coo_ok A -> 0 <= lambd -> length rhs = fst (m_shape A) ->
  (forall j, (j < snd (m_shape A))%nat -> exists r v, In (r, j, v) (triples A) /\ v <> 0) ->
  exists c, matmul (transpose A) rhs = Ok c /\
  (forall t, exists x y, conjugate_gradient_solver t A c lambd it = Ok x /\ ata_function A lambd (snd (m_shape A)) x = Ok y /\
     sumsq (vsub c y) <= t * t * sumsq c) /\
  (forall eta, exists x y, inexact_cg_solver eta A c lambd it = Ok x /\ ata_function A lambd (snd (m_shape A)) x = Ok y /\
     sumsq (vsub c y) <= (eta / (INR it + 1)) * (eta / (INR it + 1)) * sumsq c).
Proof.
  intros A rhs lambd it HA Hl Hr Hc.
  destruct (cg_finite A rhs lambd it (fun _ => 0) HA Hl Hr Hc) as (c & _ & _ & Ec & _). exists c. split; [exact Ec|]. split.
  - intros t. destruct (cg_finite A rhs lambd it (fun _ => t) HA Hl Hr Hc) as (c' & x & y & E' & _ & Ex & Ey & B & _).
    rewrite Ec in E'. injection E' as <-. exists x, y. auto.
  - intros eta. destruct (cg_finite A rhs lambd it (inexact_tolerance eta) HA Hl Hr Hc) as (c' & x & y & E' & _ & Ex & Ey & B & _).
    rewrite Ec in E'. injection E' as <-. exists x, y. split; [exact Ex|]. split; [exact Ey|].
    assert (Ht : inexact_tolerance eta it = eta / (INR it + 1)).
    { unfold inexact_tolerance. rn. unfold Rlit. rewrite <- INR_IZR_INZ, plus_INR. cbn. unfold Rdiv. rewrite Rinv_1, Rmult_1_r. reflexivity. }
    rewrite <- Ht. exact B.
Qed.
