(* The solvers at a stationary point, over extended reals. *)
From Coq Require Import List Arith Bool ZArith Lia Reals Lra.
From Verif Require Import Num NumR Py Arr MLayout MAssign MNoise MSparse MFactor MGraph MLinear MSolver SpecSparse SpecSolver.
From Verif Require Import PBase PVec PSparse PLinear PFin PSolver PSolver2 PSolverR.
Import ListNotations.
Local Open Scope R_scope.
#[local] Existing Instance NumXR.

Definition mfin (M : list (list R)) : list (list xr) := map fin M.

Lemma hd_fin row : hd (Fin 0) (fin row) = Fin (hd 0 row). Proof. destruct row; auto. Qed.
Lemma tl_fin row : tl (fin row) = fin (tl row). Proof. destruct row; auto. Qed.
Lemma xsub_fin a b : xsub (Fin a) (Fin b) = Fin (a - b). Proof. reflexivity. Qed.

Lemma elim_fin n : forall M b, msq n M -> msym n M -> mpd n M -> length b = n ->
  elim n (mfin M) (fin b) = fin (elim (N := NumR) n M b).
Proof.
  induction n as [|n IH]; intros M b Hsq Hsym Hpd Hb; [reflexivity|].
  pose proof Hsq as [HM HF]. destruct M as [|row M']; [discriminate|]. inversion HF; subst.
  destruct row as [|a v]; [discriminate|]. destruct b as [|b0 b']; [discriminate|]. simpl in Hb.
  assert (Ha : 0 < a) by (apply (st_a n a v M'); auto).
  cbn [mfin map fin elim]. rn. fold (schur a v M').
  set (b'' := zipw _ M' b').
  assert (Hb'' : length b'' = n).
  { unfold b''. rewrite zipw_length. simpl in HM. lia. }
  assert (E1 : map (fun r => vsub (tl r) (vscale (ndiv (hd n0 r) (Fin a)) (map Fin v))) (map fin M') = mfin (schur a v M')).
  { unfold mfin, schur. rewrite !map_map. apply map_ext. intros r.
    change (n0 (Num := NumXR)) with (Fin 0). change (ndiv (Num := NumXR)) with xdiv.
    rewrite hd_fin, xdiv_fin by lra. change (map Fin v) with (fin v). rewrite vscale_fin, tl_fin, vsub_fin. auto. }
  assert (E2 : zipw (fun r bi => nsub bi (nmul (ndiv (hd n0 r) (Fin a)) (Fin b0))) (map fin M') (map Fin b') = fin b'').
  { unfold b''. clear - Ha. revert b'. induction M' as [|r M' IH]; intros [|x b']; auto. cbn [map zipw fin].
    change (n0 (Num := NumXR)) with (Fin 0). change (ndiv (Num := NumXR)) with xdiv. change (nsub (Num := NumXR)) with xsub. change (nmul (Num := NumXR)) with xmul.
    rewrite hd_fin, xdiv_fin by lra. f_equal. apply IH. }
  unfold mfin in *. rewrite E1, E2. rewrite IH; auto.
  - change (map Fin v) with (fin v). rewrite vdot_fin. change (nsub (Num := NumXR)) with xsub. change (ndiv (Num := NumXR)) with xdiv.
    rewrite xsub_fin, xdiv_fin by lra. reflexivity.
  - apply (st_schur_sq n a v M'); auto.
  - apply (st_schur_sym n a v M'); auto.
  - apply (st_schur_pd n a v M'); auto.
Qed.

Lemma nupd_fin v c row : upd (fun x : xr => nadd x (Fin v)) c (fin row) = fin (upd (fun x => x + v) c row).
Proof. apply upd_fin. Qed.
Lemma dense_fold_fin (l : list (nat * nat * R)) M :
  fold_left (fun acc rcv => upd (upd (fun x : xr => nadd x (snd rcv)) (snd (fst rcv))) (fst (fst rcv)) acc)
    (map (fun t => (fst t, Fin (snd t))) l) (mfin M) =
  mfin (fold_left (fun acc rcv => upd (upd (fun x => x + snd rcv) (snd (fst rcv))) (fst (fst rcv)) acc) l M).
Proof.
  revert M. induction l as [|[[r c] v] l IH]; intros M; [reflexivity|]. cbn [map fold_left fst snd].
  rewrite <- IH. f_equal. clear. revert r. unfold mfin. induction M as [|row M IH]; intros [|r]; simpl; auto.
  - f_equal. apply nupd_fin.
  - f_equal. apply IH.
Qed.
Lemma combine_fin {A} (l : list A) v : combine l (fin v) = map (fun t => (fst t, Fin (snd t))) (combine l v).
Proof. revert v. induction l as [|x l IH]; intros [|y v]; simpl; auto. f_equal. apply IH. Qed.
Lemma scipy_dense_fin (A : coo R) : scipy_dense (as_scipy (coo_fin A)) = mfin (scipy_dense (N := NumR) (as_scipy A)).
Proof.
  unfold scipy_dense, as_scipy, coo_fin. cbn [sp_row sp_col sp_data sp_shape m_vals m_coords m_shape].
  rewrite combine_fin. rewrite vzero_fin.
  assert (Hr : repeat (fin (vzero (snd (m_shape A)))) (fst (m_shape A)) = mfin (repeat (vzero (snd (m_shape A))) (fst (m_shape A)))).
  { unfold mfin. induction (fst (m_shape A)); simpl; auto. f_equal; auto. }
  rewrite Hr. apply dense_fold_fin.
Qed.
Lemma enum_fin (k : list nat) (M : list (list R)) : combine k (mfin M) = map (fun t => (fst t, fin (snd t))) (combine k M).
Proof. revert M. induction k as [|x k IH]; intros [|y M]; simpl; auto. f_equal. apply IH. Qed.
Lemma gram_beta_fin M beta : gram_beta (mfin M) (Fin beta) = mfin (gram_beta (N := NumR) M beta).
Proof.
  unfold gram_beta. assert (Hl : length (mfin M) = length M) by apply map_length. rewrite Hl, !enum_fin.
  unfold mfin. rewrite !map_map.
  apply map_ext. intros [i ri]. cbn [fst snd]. match goal with |- _ = fin ?m => change (fin m) with (map Fin m) end. rewrite !map_map. apply map_ext. intros [j rj]. cbn [fst snd].
  rewrite vdot_fin. destruct (Nat.eqb i j); auto.
Qed.
Lemma cholmod_fin (A : coo R) b lambd it : coo_ok A -> 0 < lambd + Rlit 1 100000 -> length b = snd (m_shape A) ->
  cholmod_solve (coo_fin A) (fin b) (Fin lambd) it = (x <- cholmod_solve (N := NumR) A b lambd it ;; Ok (fin x)).
Proof.
  intros Hok Hl Hb. unfold cholmod_solve. rewrite transpose_fin, scipy_dense_fin.
  assert (Hml : forall M, length (mfin M) = length M) by (intros; apply map_length). rewrite Hml, fin_length.
  rewrite (ch_len A), Hb, Nat.eqb_refl. cbn [bind]. f_equal. rn. cbn [nlit nadd NumXR xadd]. rewrite gram_beta_fin.
  apply elim_fin; auto; [apply ch_sq | apply ch_sym | apply ch_pd]; auto.
Qed.

Lemma xdiv_0_0 : xdiv (Fin 0) (Fin 0) = NaN.
Proof. simpl. unfold is_zero. destruct (Req_EM_T 0 0); [auto | contradiction]. Qed.
Lemma xmin_fin a b : xmin (Fin a) (Fin b) = Fin (Rmin a b).
Proof. simpl. unfold Rltb. destruct (Rlt_dec b a); f_equal; [rewrite Rmin_right | rewrite Rmin_left]; lra. Qed.
Lemma vneg_zero n : vneg (vzero n) = @vzero R NumR n.
Proof. induction n; auto. change (vneg (vzero (S n))) with (- 0 :: vneg (@vzero R NumR n)). rewrite IHn, vzero_S. f_equal. lra. Qed.
Lemma vneg_scale (r : list R) : vneg r = vscale (-1) r.
Proof. induction r as [|x r IH]; auto. rewrite vneg_cons, vscale_cons, IH. f_equal. lra. Qed.
Lemma vscale_zero k n : vscale k (vzero n) = @vzero R NumR n.
Proof. induction n; auto. rewrite vzero_S, vscale_cons, IHn. f_equal. lra. Qed.
Lemma vadd_zero_l n (r : list R) : length r = n -> vadd (vzero n) r = r.
Proof. revert n; induction r as [|x r IH]; intros [|n] H; try discriminate; auto. rewrite vzero_S, vadd_cons, IH by (simpl in H; lia). f_equal. lra. Qed.
Lemma sumsq_vzero n : sumsq (@vzero R NumR n) = 0.
Proof. rewrite sumsq_dot. apply vdot_zero_l. Qed.
Lemma mapply_zero (A : coo R) : coo_ok A -> mapply A (vzero (snd (m_shape A))) = vzero (fst (m_shape A)).
Proof.
  intros Hok. apply (vec_ext (fst (m_shape A))); [apply mapply_length | apply vzero_length|]. intros y Hy.
  rewrite vdot_comm, mapply_adjoint by (auto; apply vzero_length). rewrite vdot_zero_l, vdot_zero_r. auto.
Qed.

Section Stationary.
Variables (E : env xr) (g : graph xr) (a : assign xr) (c : R) (r x : list R) (A : coo R).
Hypothesis St : stationary E g a c r x A.
Let n := snd (m_shape A).

Lemma sta_cost : c = sumsq r.
Proof.
  pose proof (st_cost _ _ _ _ _ _ _ St) as H. unfold compute_cost in H. apply bind_ok in H. destruct H as (r' & _ & H).
  injection H as H1 H2. rewrite H2 in H1. change (finite r) with (fin r) in H1. rewrite sumsq_fin in H1. congruence.
Qed.
Lemma sta_ATb : matmul (transpose (finite_coo A)) (vneg (finite r)) = Ok (finite (vzero n)).
Proof.
  change (finite_coo A) with (coo_fin A). change (finite r) with (fin r). rewrite transpose_fin, vneg_fin, matmul_fin.
  pose proof (st_coo _ _ _ _ _ _ _ St) as Hok. pose proof (st_len _ _ _ _ _ _ _ St) as Hl. pose proof (st_grad _ _ _ _ _ _ _ St) as Hg.
  rewrite matmul_mapply in Hg by (try apply transpose_ok; auto). injection Hg as Hg.
  rewrite matmul_mapply by (try apply transpose_ok; auto; rewrite vneg_length; auto).
  rewrite vneg_scale, mapply_scale by (try apply transpose_ok; auto). rewrite Hg, vscale_zero. reflexivity.
Qed.
Lemma sta_gn_ATb : (ATr <- matmul (transpose (finite_coo A)) (finite r) ;; Ok (vneg ATr)) = Ok (finite (vzero n)).
Proof.
  change (finite_coo A) with (coo_fin A). change (finite r) with (fin r). rewrite transpose_fin, matmul_fin.
  rewrite (st_grad _ _ _ _ _ _ _ St). cbn [bind]. rewrite vneg_fin, vneg_zero. reflexivity.
Qed.
Lemma sta_lin lambd it : 0 < lambd + Rlit 1 100000 -> cholmod_solve (finite_coo A) (finite (vzero n)) (Fin lambd) it = Ok (finite (vzero n)).
Proof.
  intros Hl. pose proof (st_coo _ _ _ _ _ _ _ St) as Hok.
  change (finite_coo A) with (coo_fin A). change (finite (vzero n)) with (fin (vzero n)).
  rewrite cholmod_fin by (auto; apply vzero_length).
  destruct (cholmod_solve_ok A (vzero n) lambd it Hok Hl) as (d & Ed & Hd); [apply vzero_length|]. rewrite Ed. cbn [bind]. do 2 f_equal.
  apply (normal_unique A (lambd + Rlit 1 100000) Hok Hl (vzero n)); auto. split; [apply vzero_length|].
  pose proof (mapply_zero A Hok) as Hm. fold n in Hm. rewrite Hm, vscale_zero.
  assert (Hz : mapply (transpose A) (vzero (fst (m_shape A))) = vzero n) by (apply (mapply_zero (transpose A)), transpose_ok; auto). rewrite Hz.
  apply vadd_zero_l. apply vzero_length.
Qed.
Lemma sta_Ax : matmul (finite_coo A) (finite (vzero n)) = Ok (finite (vzero (fst (m_shape A)))).
Proof.
  change (finite_coo A) with (coo_fin A). change (finite (vzero n)) with (fin (vzero n)). rewrite matmul_fin.
  pose proof (st_coo _ _ _ _ _ _ _ St) as Hok.
  rewrite matmul_mapply by (auto; apply vzero_length). cbn [bind]. unfold n. rewrite (mapply_zero A Hok). reflexivity.
Qed.
Lemma sta_quality it dn ex : step_quality (finite_coo A) (Fin c) (mkState it a (Fin c) (finite r) dn ex) (finite (vzero n)) = Ok NaN.
Proof.
  unfold step_quality. rewrite sta_Ax. cbn [bind s_cost s_res]. f_equal.
  change (finite r) with (fin r). change (finite (vzero (fst (m_shape A)))) with (fin (vzero (fst (m_shape A)))).
  rewrite vadd_fin, vadd_zero_l by apply (st_len _ _ _ _ _ _ _ St). rewrite sumsq_fin, <- sta_cost.
  change (nsub (Num := NumXR)) with xsub. change (ndiv (Num := NumXR)) with xdiv. rewrite xsub_fin, Rminus_eq_0. apply xdiv_0_0.
Qed.
Lemma sta_convergence cfg it dn ex c' :
  exists b, check_convergence E cfg (mkState it a (Fin c) (finite r) dn ex) c' (mkAssign (finite (vzero n)) (g_local_layout g)) (finite (vzero n)) = Ok b /\
    (forall p, parameter_tolerance cfg = Fin p -> 0 < p -> b = true).
Proof.
  unfold check_convergence, converged_gradient. cbn [s_assign as_layout]. unfold n. rewrite (st_zero _ _ _ _ _ _ _ St). cbn [bind].
  rewrite (st_storage _ _ _ _ _ _ _ St). change (finite x) with (fin x). rewrite vsub_fin.
  pose proof (st_nonempty _ _ _ _ _ _ _ St) as Hne. destruct (vsub x x) as [|y l] eqn:Ev.
  { destruct x; [congruence | discriminate]. }
  cbn [fin map bind]. eexists. split; [reflexivity|]. intros p Hp Hpos.
  apply orb_true_iff. right. unfold converged_parameters. cbn [s_assign as_storage].
  rewrite (st_storage _ _ _ _ _ _ _ St). change (finite x) with (fin x). rewrite Hp.
  assert (Ha : map nabs (finite (vzero (snd (m_shape A)))) = fin (vzero (snd (m_shape A)))).
  { generalize (snd (m_shape A)). intros m. induction m as [|m IH]; auto. cbn. rewrite Rabs_R0. f_equal. exact IH. }
  rewrite Ha, !vnorm_fin. cbn [nadd nmul nltb NumXR xadd xmul xltb]. apply Rltb_ok.
  assert (Hv : vnorm (@vzero R NumR (snd (m_shape A))) = 0) by (unfold vnorm; rewrite sumsq_vzero; apply sqrt_0).
  rewrite Hv. destruct (vnorm_sq x). apply Rmult_lt_0_compat; lra.
Qed.

(* the trust-region states met from here *)
Definition stuck (it : nat) (dn : bool) (ex : R) : sstate xr := mkState it a (Fin c) (finite r) dn (Fin ex).

Lemma sta_lm cfg lmin lmax f it ex : lambda_min cfg = Fin lmin -> lambda_max cfg = Fin lmax -> lambda_factor cfg = Fin f ->
  0 < lmin -> 0 < ex ->
  exists ex', 0 < ex' /\ lm_step E cfg cholmod_solve g (stuck it false ex) =
    Ok (stuck (S it) (Z.leb (max_iterations (lm_term cfg) - 1) (Z.of_nat it)) ex').
Proof.
  intros H1 H2 H3 Hl He. unfold lm_step, stuck. cbn [s_assign s_res s_extra s_iter s_cost].
  rewrite (st_jac _ _ _ _ _ _ _ St). cbn [bind]. rewrite sta_ATb. cbn [bind].
  rewrite sta_lin by (unfold Rlit; lra). cbn [bind]. unfold n. rewrite (st_zero _ _ _ _ _ _ _ St). cbn [bind].
  rewrite (st_cost _ _ _ _ _ _ _ St). cbn [bind fst snd]. fold n. rewrite sta_quality. cbn [bind].
  destruct (sta_convergence (lm_term cfg) it false (Fin ex) (Fin c)) as (b & Eb & _). rewrite Eb. cbn [bind].
  change (nleb (Num := NumXR) (lm_quality_min cfg) NaN) with (xleb (lm_quality_min cfg) NaN).
  assert (Hn : xleb (lm_quality_min cfg) NaN = false) by (destruct (lm_quality_min cfg); auto). rewrite Hn.
  exists (Rmax lmin (Rmin (ex * f) lmax)). split.
  - apply Rlt_le_trans with lmin; auto. apply Rmax_l.
  - unfold lm_lambda. rewrite H1, H2, H3. change (nmin (Num := NumXR)) with xmin. change (nmax (Num := NumXR)) with xmax.
    cbn [nmul NumXR xmul]. rewrite xmin_fin, xmax_fin. rewrite Nat.add_1_r, andb_false_l, orb_false_r. rewrite assign_eta. reflexivity.
Qed.
Lemma sta_dl cfg it ex : 0 < ex -> dl_step E cfg cholmod_solve g (stuck it false ex) =
    Ok (stuck (S it) (Z.leb (max_iterations (dl_term cfg) - 1) (Z.of_nat it)) ex).
Proof.
  intros He. unfold dl_step, stuck. cbn [s_assign s_res s_extra s_iter s_cost].
  rewrite (st_jac _ _ _ _ _ _ _ St). cbn [bind]. rewrite sta_ATb. cbn [bind].
  change (n0 (Num := NumXR)) with (Fin 0). rewrite sta_lin by (unfold Rlit; lra). cbn [bind]. rewrite sta_Ax. cbn [bind].
  assert (Hd : dogleg_step_of (finite (vzero n)) (finite (vzero (fst (m_shape A)))) (finite (vzero n)) (Fin ex) = finite (vzero n)).
  { unfold dogleg_step_of. change (finite (vzero n)) with (fin (vzero n)). rewrite vnorm_fin. cbn [nleb NumXR xleb].
    assert (Hv : vnorm (@vzero R NumR n) = 0) by (unfold vnorm; rewrite sumsq_vzero; apply sqrt_0).
    rewrite Hv, (proj2 (Rleb_ok 0 ex)) by lra. auto. }
  rewrite Hd. unfold n. rewrite (st_zero _ _ _ _ _ _ _ St). cbn [bind].
  rewrite (st_cost _ _ _ _ _ _ _ St). cbn [bind fst snd]. fold n. rewrite sta_quality. cbn [bind].
  destruct (sta_convergence (dl_term cfg) it false (Fin ex) (Fin c)) as (b & Eb & _). rewrite Eb. cbn [bind].
  change (nleb (Num := NumXR) (dl_quality_min cfg) NaN) with (xleb (dl_quality_min cfg) NaN).
  assert (Hn : xleb (dl_quality_min cfg) NaN = false) by (destruct (dl_quality_min cfg); auto). rewrite Hn.
  rewrite Nat.add_1_r, andb_false_l, orb_false_r, assign_eta. reflexivity.
Qed.
Lemma sta_gn cfg p it ex : parameter_tolerance cfg = Fin p -> 0 < p -> gn_step E cfg cholmod_solve g (stuck it false ex) = Ok (stuck (S it) true ex).
Proof.
  intros Hp Hpos. unfold gn_step, gn_update, stuck. cbn [s_assign s_res s_extra s_iter s_cost].
  rewrite (st_jac _ _ _ _ _ _ _ St). cbn [bind].
  pose proof sta_gn_ATb as Hb. destruct (matmul (transpose (finite_coo A)) (finite r)) as [ATr|]; cbn [bind] in Hb; [|discriminate].
  injection Hb as Hb. cbn [bind]. rewrite Hb. change (n0 (Num := NumXR)) with (Fin 0). rewrite sta_lin by (unfold Rlit; lra). cbn [bind].
  unfold n. rewrite (st_zero _ _ _ _ _ _ _ St). cbn [bind].
  rewrite (st_cost _ _ _ _ _ _ _ St). cbn [bind fst snd]. fold n.
  destruct (sta_convergence cfg it false (Fin ex) (Fin c)) as (b & Eb & Ht). rewrite Eb. cbn [bind].
  rewrite (Ht p Hp Hpos), orb_true_r, Nat.add_1_r. reflexivity.
Qed.

(* a loop whose body keeps the state stuck and stops only because of max_iterations *)
Lemma stuck_runs step mx : (forall it ex, 0 < ex -> exists ex', 0 < ex' /\
    step (stuck it false ex) = Ok (stuck (S it) (Z.leb (mx - 1) (Z.of_nat it)) ex')) ->
  forall k it ex, 0 < ex -> (S k + it = iteration_cap mx)%nat ->
  exists ex', 0 < ex' /\ runs step (S k) (stuck it false ex) (stuck (iteration_cap mx) true ex').
Proof.
  intros Hs. induction k as [|k IH]; intros it ex He Hk; destruct (Hs it ex He) as (ex1 & He1 & Es1).
  - exists ex1. split; auto. econstructor; [reflexivity | exact Es1|].
    replace (Z.leb (mx - 1) (Z.of_nat it)) with true by (symmetry; apply Z.leb_le; unfold iteration_cap in Hk; lia).
    replace (S it) with (iteration_cap mx) by lia. constructor.
  - replace (Z.leb (mx - 1) (Z.of_nat it)) with false in Es1 by (symmetry; apply Z.leb_gt; unfold iteration_cap in Hk; lia).
    destruct (IH (S it) ex1 He1) as (ex2 & He2 & Hr); [lia|]. exists ex2. split; auto. econstructor; [reflexivity | exact Es1 | exact Hr].
Qed.
Lemma runs_while (step : sstate xr -> result (sstate xr)) k s s' : runs step k s s' -> s_done s' = true ->
  forall fuel, (k <= fuel)%nat -> while_loop fuel (fun s => negb (s_done s)) step s = Some (Ok s').
Proof.
  intros Hr Hd. induction Hr as [s|k s s1 s2 Hd1 Hs Hr IH]; intros fuel Hf.
  - destruct fuel; simpl; rewrite Hd; auto.
  - destruct fuel as [|fuel]; [lia|]. simpl. rewrite Hd1. cbn [negb]. rewrite Hs. apply IH; auto. lia.
Qed.
Lemma stuck_solve step ex k ex' init fuel : update_storage_layout (e_cls E) init (g_layout g) = Ok a ->
  runs (step g) k (stuck 0 false ex) (stuck k true ex') -> (k <= fuel)%nat ->
  solve_with E fuel step (Fin ex) g init = Some (update_storage_layout (e_cls E) a (as_layout init)).
Proof.
  intros Hu Hr Hf. unfold solve_with. rewrite Hu. unfold init_state. rewrite (st_cost _ _ _ _ _ _ _ St). cbn [bind fst snd].
  fold (stuck 0 false ex). rewrite (runs_while _ _ _ _ Hr) by auto. reflexivity.
Qed.
End Stationary.

(* exactly k iterations: no run from s0 is done earlier *)
Lemma runs_det {T} (step : sstate T -> result (sstate T)) k s s' : runs step k s s' -> s_done s' = true ->
  forall j t, runs step j s t -> s_done t = true -> j = k /\ t = s'.
Proof.
  intros Hr Hd. induction Hr as [s|k s s1 s2 Hd1 Hs Hr IH]; intros j t Hj Ht.
  - inversion Hj; subst; auto. congruence.
  - inversion Hj; subst; [congruence|]. rewrite Hs in H0. injection H0 as <-. destruct (IH Hd _ _ H1 Ht). subst. auto.
Qed.

Lemma stationary_behaviour (E : env xr) g a c r x A init : stationary E g a c r x A ->
  update_storage_layout (e_cls E) init (g_layout g) = Ok a ->
  (forall cfg lmin lmax f l0 fuel, lambda_min cfg = Fin lmin -> lambda_max cfg = Fin lmax -> lambda_factor cfg = Fin f ->
     lambda_initial cfg = Fin l0 -> 0 < lmin -> 0 < l0 -> (iteration_cap (max_iterations (lm_term cfg)) <= fuel)%nat ->
     (exists l, runs (lm_step E cfg cholmod_solve g) (iteration_cap (max_iterations (lm_term cfg)))
        (mkState 0 a (Fin c) (finite r) false (Fin l0)) (mkState (iteration_cap (max_iterations (lm_term cfg))) a (Fin c) (finite r) true (Fin l))) /\
     lm_solve E fuel cfg cholmod_solve g init = Some (update_storage_layout (e_cls E) a (as_layout init))) /\
  (forall cfg r0 fuel, radius_initial cfg = Fin r0 -> 0 < r0 -> (iteration_cap (max_iterations (dl_term cfg)) <= fuel)%nat ->
     runs (dl_step E cfg cholmod_solve g) (iteration_cap (max_iterations (dl_term cfg)))
        (mkState 0 a (Fin c) (finite r) false (Fin r0)) (mkState (iteration_cap (max_iterations (dl_term cfg))) a (Fin c) (finite r) true (Fin r0)) /\
     dl_solve E fuel cfg cholmod_solve g init = Some (update_storage_layout (e_cls E) a (as_layout init))) /\
  (forall cfg p fuel, parameter_tolerance cfg = Fin p -> 0 < p -> (1 <= fuel)%nat ->
     runs (gn_step E cfg cholmod_solve g) 1
        (mkState 0 a (Fin c) (finite r) false (Fin 0)) (mkState 1 a (Fin c) (finite r) true (Fin 0)) /\
     gn_solve E fuel cfg cholmod_solve g init = Some (update_storage_layout (e_cls E) a (as_layout init))).
Proof.
  intros St Hu. split; [|split].
  - intros cfg lmin lmax f l0 fuel H1 H2 H3 H4 H5 H6 Hf.
    set (cap := iteration_cap (max_iterations (lm_term cfg))) in *.
    assert (Hcap : exists k, cap = S k) by (exists (pred cap); unfold cap, iteration_cap; lia). destruct Hcap as (k & Hk).
    destruct (stuck_runs a c r A (lm_step E cfg cholmod_solve g) (max_iterations (lm_term cfg))
      (fun it ex He => sta_lm E g a c r x A St cfg lmin lmax f it ex H1 H2 H3 H5 He) k 0%nat l0 H6) as (l & Hl & Hr); [unfold cap in Hk; lia|].
    fold cap in Hr. rewrite <- Hk in Hr. split; [exists l; exact Hr|].
    unfold lm_solve. rewrite H4. eapply (stuck_solve E g a c r x A St); eauto.
  - intros cfg r0 fuel H1 H2 Hf.
    set (cap := iteration_cap (max_iterations (dl_term cfg))) in *.
    assert (Hcap : exists k, cap = S k) by (exists (pred cap); unfold cap, iteration_cap; lia). destruct Hcap as (k & Hk).
    assert (Hr : runs (dl_step E cfg cholmod_solve g) cap (stuck a c r 0 false r0) (stuck a c r cap true r0)).
    { assert (G : forall k it, (S k + it = cap)%nat -> runs (dl_step E cfg cholmod_solve g) (S k) (stuck a c r it false r0) (stuck a c r cap true r0)).
      { clear k Hk. induction k as [|k IH]; intros it Hk; pose proof (sta_dl E g a c r x A St cfg it r0 H2) as Es.
        - replace (Z.leb (max_iterations (dl_term cfg) - 1) (Z.of_nat it)) with true in Es by (symmetry; apply Z.leb_le; unfold cap, iteration_cap in Hk; lia).
          econstructor; [reflexivity | exact Es|]. replace (S it) with cap by lia. constructor.
        - replace (Z.leb (max_iterations (dl_term cfg) - 1) (Z.of_nat it)) with false in Es by (symmetry; apply Z.leb_gt; unfold cap, iteration_cap in Hk; lia).
          econstructor; [reflexivity | exact Es|]. apply IH. lia. }
      rewrite Hk at 1. apply G. lia. }
    split; [exact Hr|]. unfold dl_solve. rewrite H1. eapply (stuck_solve E g a c r x A St); eauto.
  - intros cfg p fuel H1 H2 Hf.
    assert (Hr : runs (gn_step E cfg cholmod_solve g) 1 (stuck a c r 0 false 0) (stuck a c r 1 true 0)).
    { econstructor; [reflexivity | apply (sta_gn E g a c r x A St cfg p); auto | constructor]. }
    split; [exact Hr|]. unfold gn_solve. eapply (stuck_solve E g a c r x A St); eauto.
Qed.
