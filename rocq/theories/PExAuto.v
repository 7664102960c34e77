(* Bundled lemmas and a concrete instance for the default Jacobians. *)
From Coq Require Import List Arith Bool Lia Reals Lra.
From Verif Require Import Num NumR Py Arr MLayout MAssign MNoise MSparse MFactor MGraph MAuto SpecLayout SpecTree SpecAssign SpecGraph SpecDeriv SpecAuto.
From Verif Require Import PBase PLayout PTree PVec PAssign PAssign2 PAuto PAutoR PDeriv PGraph PGraph2 PExAssign PExGraph.
Import ListNotations.
Local Open Scope nat_scope.

Section Any.
Context {T : Type} {N : Num T}.
Variable E : env T.
Variable AD : autodiff T.

Lemma default_entries fd vals : auto_ok E AD fd vals ->
  exists Js, default_jacobians E AD fd vals = Ok Js /\ length Js = length (fd_types fd) /\
  forall i t x D J, nth_error (fd_types fd) i = Some t -> nth_error vals i = Some x ->
    nth_error (ad_residual AD fd vals) i = Some D -> nth_error Js i = Some J ->
    length J = noise_dim (fd_noise fd) /\ Forall (fun row => length row = local_dim (e_cls E t)) J /\
    forall r c, r < noise_dim (fd_noise fd) -> c < local_dim (e_cls E t) ->
      nth c (nth r J []) n0 = composed (length (ravel x)) D (local_dim (e_cls E t)) (ad_retract AD t x) r c.
Proof.
  intros H. destruct (default_value E AD fd vals H) as (Js & EJ & Hl & Hs). exists Js. split; auto. split; auto.
  intros i t x D J H1 H2 H3 H4. destruct (Hs i t x D J H1 H2 H3 H4) as (A1 & A2 & A3). split; auto. split; auto.
  intros r c Hr Hc. rewrite A3 by auto. rewrite (scalars_ravel E t); auto. destruct H as (_ & HV & _).
  apply Forall2_nth_error in HV. destruct HV as [_ HV]. destruct (HV i t x H1 H2) as [Hv _]. auto.
Qed.

Lemma fold_zip_first rest : forall (m : list (list T)), m <> [] -> Forall (fun b => length b = length m) rest ->
  exists row, In row (fold_left (zipw (@app T)) rest m) /\ length row = length (nth 0 m []) + list_sum (map (fun b => length (nth 0 b [])) rest).
Proof.
  intros m Hm HF. destruct (fold_zip_app rest m HF) as [H1 H2]. exists (nth 0 (fold_left (zipw (@app T)) rest m) []).
  assert (Hp : 0 < length m) by (destruct m; [congruence | simpl; lia]). split; [apply nth_In; lia|].
  rewrite H2 by auto. rewrite app_length. f_equal. clear. induction rest; simpl; auto. rewrite app_length. auto.
Qed.

Lemma residual_block_len rd L x (D : pytree T) A : residual_arrays L x D -> residual_block rd D = Ok A ->
  leaves x <> [] /\ exists row, In row A /\ rd * length row = L * scalars x.
Proof.
  intros [Hok Hsh] EB. unfold residual_block in EB. apply bind_ok in EB. destruct EB as (ms & Ht & Hh).
  assert (Hne : leaves x <> []).
  { intros H. rewrite H in Hsh. simpl in Hsh. destruct (leaves D); [|discriminate]. injection Ht as <-. discriminate. }
  split; auto. apply traverse_ok in Ht.
  assert (Hms : Forall2 (fun a m => length m = rd /\ (0 < rd) /\ rd * length (nth 0 m []) = length (a_data a)) (leaves D) ms).
  { clear - Ht. induction Ht as [|a m la ms Ha Ht IH]; constructor; auto. unfold reshape_rows in Ha.
    destruct (Nat.eqb_spec rd 0); [discriminate|]. unfold reshape2 in Ha.
    destruct (Nat.eqb_spec (length (a_data a)) (rd * (length (a_data a) / rd))) as [Hd|]; [|discriminate]. injection Ha as <-.
    split; [apply chunks_length|]. split; [lia|]. erewrite nth_error_nth; [|apply nth_error_chunks; lia].
    rewrite slice_length; [|lia|]; [lia|]. simpl. rewrite Hd at 2. nia. }
  assert (Hsz : rd * list_sum (map (fun m => length (nth 0 m [])) ms) = L * scalars x).
  { assert (H1 : rd * list_sum (map (fun m => length (nth 0 m [])) ms) = list_sum (map (fun a : arr T => length (a_data a)) (leaves D))).
    { clear - Hms. induction Hms as [|a m la ms (_ & _ & H) Hms IH]; simpl; lia. }
    rewrite H1. assert (H2 : map (fun a : arr T => length (a_data a)) (leaves D) = map (fun a => L * size (a_shape a)) (leaves x)).
    { transitivity (map size (map a_shape (leaves D))).
      - rewrite map_map. apply map_ext_in. intros a Ha. apply Nat.eqb_eq. apply (proj1 (Forall_forall _ _) Hok); auto.
      - rewrite Hsh, map_map. apply map_ext. intros; auto. }
    rewrite H2. unfold scalars. clear. induction (leaves x); simpl; [lia|]. unfold size in *. lia. }
  unfold hconcat in Hh. destruct ms as [|m rest]; [discriminate|].
  destruct (forallb _ rest) eqn:Hfb; [|discriminate]. injection Hh as <-.
  destruct (leaves D) as [|a la]; inversion Hms as [|? ? ? ? (Hm1 & Hm2 & _) Hrest]; subst.
  destruct (fold_zip_first rest m) as (row & Hin & Hlen).
  - intros ->. simpl in Hm2. lia.
  - apply Forall_forall. intros b Hb. apply Nat.eqb_eq. apply (proj1 (forallb_forall _ _) Hfb); auto.
  - exists row. split; auto. simpl in Hsz. rewrite Hlen. auto.
Qed.

Lemma default_guards fd vals Js : default_jacobians E AD fd vals = Ok Js ->
  forall i t x D L, nth_error (fd_types fd) i = Some t -> nth_error vals i = Some x -> nth_error (ad_residual AD fd vals) i = Some D ->
    residual_arrays L x D -> 0 < local_dim (e_cls E t) -> retract_arrays (local_dim (e_cls E t)) x (ad_retract AD t x) ->
    leaves x <> [] /\ (0 < scalars x -> L = noise_dim (fd_noise fd)).
Proof.
  unfold default_jacobians. intros H i t x D L H1 H2 H3 HD Hld HK.
  apply bind_ok in H. destruct H as (u & Ha & H). apply bind_ok in H. destruct H as (As & HA & H). apply bind_ok in H. destruct H as (Bs & HB & H).
  destruct (Nat.eqb (length As) (length Bs)) eqn:El; [|discriminate].
  apply traverse_ok in HA. apply traverse_ok in HB. apply traverse_ok in H.
  apply Forall2_nth_error in HA. destruct HA as [LA HA]. apply Forall2_nth_error in HB. destruct HB as [LB HB].
  destruct (nth_error As i) as [A|] eqn:EA; [|apply nth_error_None in EA; rewrite <- LA in EA; apply nth_error_None in EA; congruence].
  assert (Hc : nth_error (combine (fd_types fd) vals) i = Some (t, x)).
  { clear - H1 H2. revert vals i H1 H2. induction (fd_types fd) as [|t0 ts IH]; intros [|x0 xs] [|i]; simpl; intros; try discriminate; try congruence. auto. }
  destruct (nth_error Bs i) as [B|] eqn:EB; [|apply nth_error_None in EB; rewrite <- LB in EB; apply nth_error_None in EB; congruence].
  specialize (HA i D A H3 EA). specialize (HB i (t, x) B Hc EB). simpl in HB.
  destruct (residual_block_len _ L x D A HD HA) as (Hne & row & Hin & Hlen). split; auto. intros Hpos.
  destruct (retract_block_ok (local_dim (e_cls E t)) x _ Hld Hne HK) as (B' & EB' & LB' & _). rewrite EB' in HB. injection HB as ->.
  assert (Hc2 : nth_error (combine (fd_types fd) (combine As Bs)) i = Some (t, (A, B))).
  { clear - H1 EA EB. revert As Bs i H1 EA EB. induction (fd_types fd) as [|t0 ts IH]; intros [|x0 xs] [|y0 ys] [|i]; simpl; intros; try discriminate; try congruence. auto. }
  apply Forall2_nth_error in H. destruct H as [LJ HJ].
  destruct (nth_error Js i) as [J|] eqn:EJ; [|apply nth_error_None in EJ; rewrite <- LJ in EJ; apply nth_error_None in EJ; congruence].
  specialize (HJ i _ J Hc2 EJ). simpl in HJ. unfold dot in HJ. destruct (forallb _ A) eqn:Hfb; [|discriminate].
  pose proof (proj1 (forallb_forall _ _) Hfb row Hin) as Hr. apply Nat.eqb_eq in Hr. rewrite Hr, LB' in Hlen. nia.
Qed.
End Any.

Section Plain.
Local Open Scope R_scope.
Variable c : vclass R.
Hypothesis Hc : plain_class c.
Hypothesis Ht : tree_ok (vc_default c).
Lemma plain_dims : local_dim c = param_dim c.
Proof. unfold local_dim. destruct Hc as [-> _]. auto. Qed.
Lemma plain_retract x d : value_ok c x -> length d = local_dim c -> exists y, retract c x d = Ok y /\ value_ok c y /\ ravel y = vadd (ravel x) d.
Proof.
  intros Hx Hd. rewrite plain_dims in Hd. pose proof (flatten_length c Ht x Hx) as Hl. unfold flatten in Hl.
  assert (Hv : length (vadd (ravel x) d) = param_dim c) by (rewrite vadd_length; congruence).
  destruct (unflatten_ok c Ht _ Hv) as (y & Ey & Hy & Hf). exists y. split; auto.
  unfold retract. destruct Hc as [_ ->]. unfold flatten. rewrite Hl, Hd, Nat.eqb_refl. auto.
Qed.
Lemma line_deriv a b : derivable_pt_lim (fun t => a + t * b) 0 b.
Proof.
  intros eps He. exists (mkposreal 1 Rlt_0_1). intros h Hh _. rewrite Rplus_0_l.
  replace ((a + h * b - (a + 0 * b)) / h - b) with 0 by (field; auto). rewrite Rabs_R0. auto.
Qed.
Lemma plain_identity x K : value_ok c x ->
  (retract_derivative c x K <-> forall k j, (k < length (ravel x))%nat -> (j < length (ravel x))%nat ->
     along (length (ravel x)) K k j = if Nat.eqb k j then 1 else 0).
Proof.
  intros Hx. set (n := length (ravel x)). assert (Hn : local_dim c = n). { rewrite plain_dims. symmetry. apply (flatten_length c Ht x Hx). }
  assert (Hcurve : forall d xt, length d = n -> (forall t, retract c x (vscale t d) = Ok (xt t) /\ value_ok c (xt t)) -> forall t, ravel (xt t) = vadd (ravel x) (vscale t d)).
  { intros d xt Hd Hxt t. destruct (plain_retract x (vscale t d) Hx) as (y & Ey & _ & Hy); [rewrite vscale_length; congruence|].
    destruct (Hxt t) as [H1 _]. congruence. }
  assert (Hcd : forall d k, length d = n -> derivable_pt_lim (fun t => nth k (vadd (ravel x) (vscale t d)) 0) 0 (nth k d 0)).
  { intros d k Hd. eapply derivable_pt_lim_ext; [|apply (line_deriv (nth k (ravel x) 0) (nth k d 0))].
    intros t. rewrite nth_vadd by (rewrite vscale_length; auto). rewrite nth_vscale. auto. }
  split.
  - intros [_ H] k j Hk Hj. rewrite Hn in H.
    assert (Hex : forall t, exists y, retract c x (vscale t (unitv n j)) = Ok y /\ value_ok c y /\ ravel y = vadd (ravel x) (vscale t (unitv n j))).
    { intros t. apply plain_retract; auto. rewrite vscale_length, unitv_length. auto. }
    set (xt := fun t => match retract c x (vscale t (unitv n j)) with Ok y => y | Err _ => x end).
    assert (Hxt : forall t, retract c x (vscale t (unitv n j)) = Ok (xt t) /\ value_ok c (xt t)).
    { intros t. destruct (Hex t) as (y & Ey & Hy & _). unfold xt. rewrite Ey. auto. }
    destruct (H (unitv n j) xt (unitv_length n j) Hxt) as [_ Hd]. specialize (Hd k).
    assert (Hd2 : derivable_pt_lim (fun t => nth k (ravel (xt t)) 0) 0 (nth k (unitv n j) 0)).
    { eapply derivable_pt_lim_ext; [|apply (Hcd (unitv n j) k (unitv_length n j))]. intros t. rewrite (Hcurve _ xt (unitv_length n j) Hxt t). auto. }
    pose proof (uniqueness_limite _ _ _ _ Hd Hd2) as Hu. rewrite nth_unitv in Hu by auto.
    rewrite (nth_map' _ _ k 0 0%nat) in Hu by (rewrite seq_length; auto). rewrite seq_nth in Hu by auto. simpl plus in Hu.
    rewrite <- Hu. rewrite <- (vsum_pick n j (fun i => along n K k i)) by auto.
    apply vsum_map_ext. intros i Hi. apply in_seq in Hi. rewrite nth_unitv by lia. destruct (Nat.eqb i j); lra.
  - intros HK. split.
    + destruct (plain_retract x (vzero (local_dim c)) Hx (vzero_length _)) as (y & Ey & Hy & Hr). rewrite Ey. f_equal.
      apply ravel_inj.
      * destruct Hx as [_ [A B]], Hy as [_ [A' B']]. split; congruence.
      * apply Hy.
      * apply Hx.
      * rewrite Hr, Hn. apply (nth_ext' _ _ 0); [apply vadd_length; rewrite vzero_length; auto|]. intros i _.
        rewrite nth_vadd by (rewrite vzero_length; auto). change (vzero n) with (@vzero R NumR n). pose proof (@nth_vzero R NumR n i) as Hz. change (@n0 R NumR) with 0 in Hz. rewrite Hz. lra.
    + intros d xt Hd Hxt. rewrite Hn in *. split.
      * intros t. rewrite (Hcurve d xt Hd Hxt t), vadd_length, map_length, seq_length by (rewrite vscale_length; auto). auto.
      * intros k. destruct (Nat.lt_ge_cases k n) as [Hk|Hk].
        -- rewrite (nth_map' _ _ k 0 0%nat) by (rewrite seq_length; auto). rewrite seq_nth by auto. simpl plus.
           assert (Hs : vsum (map (fun c' => along n K k c' * nth c' d 0) (seq 0 n)) = nth k d 0).
           { rewrite <- (vsum_pick n k (fun i => nth i d 0)) by auto. apply vsum_map_ext. intros i Hi. apply in_seq in Hi.
             rewrite HK by lia. rewrite (Nat.eqb_sym k i). destruct (Nat.eqb i k); lra. }
           rewrite Hs. eapply derivable_pt_lim_ext; [|apply (Hcd d k Hd)]. intros t. rewrite (Hcurve d xt Hd Hxt t). auto.
        -- rewrite nth_overflow by (rewrite map_length, seq_length; auto).
           eapply derivable_pt_lim_ext; [|apply (derivable_pt_lim_const 0)]. intros t. unfold fct_cte.
           rewrite nth_overflow; auto. rewrite (Hcurve d xt Hd Hxt t), vadd_length by (rewrite vscale_length; auto). auto.
Qed.
End Plain.

Section Graph.
Local Open Scope R_scope.
Variable E : env R.
Variable AD : autodiff R.
Let C := e_cls E.

Lemma default_shapes val f : auto_ok E AD (anonymize f) (map val (f_vars f)) ->
  default_jacobians E AD (anonymize f) (map val (f_vars f)) = Ok (jacobians_at E val f) -> jacobian_shape_ok E val f.
Proof.
  intros Ha EJ. destruct (default_entries E AD _ _ Ha) as (Js & EJ' & Hl & Hs). rewrite EJ in EJ'. injection EJ' as HJ.
  unfold jacobian_shape_ok. rewrite HJ. apply Forall2_nth_error. simpl in Hl. rewrite map_length in Hl. split; auto.
  intros i v J Hv HJi. destruct Ha as (_ & _ & HD). pose proof (Forall2_len _ _ _ HD) as Hlen. rewrite map_length in Hlen.
  destruct (nth_error (ad_residual AD (anonymize f) (map val (f_vars f))) i) as [D|] eqn:ED.
  2:{ apply nth_error_None in ED. rewrite <- Hlen in ED. apply nth_error_None in ED. congruence. }
  destruct (Hs i (v_ty v) (val v) D J) as (H1 & H2 & _); auto.
  - simpl. apply map_nth_error; auto.
  - apply map_nth_error; auto.
Qed.

Lemma default_graph_derivative fs g a vs r val x (valt : R -> var -> pytree R) :
  classes_ok C -> (forall f, In f fs -> factor_ok f) -> graph_make E fs = Ok g ->
  wf_assign C vs false a -> (forall t, of_type t vs = of_type t (mentioned fs)) ->
  (forall v, In v vs -> get_value C a v = Ok (val v)) ->
  (forall f, In f fs -> linear_noise (f_noise f)) ->
  length r = total residual_dim fs -> length x = l_dim (g_local_layout g) -> total residual_dim fs <> 0%nat ->
  (forall f, In f fs -> auto_ok E AD (anonymize f) (map val (f_vars f)) /\
     default_jacobians E AD (anonymize f) (map val (f_vars f)) = Ok (jacobians_at E val f) /\
     residual_derivative (Forall2 (fun t x => value_ok (C t) x) (map v_ty (f_vars f))) (e_res E (anonymize f)) (residual_dim f)
       (map val (f_vars f)) (ad_residual AD (anonymize f) (map val (f_vars f)))) ->
  (forall v, In v vs -> retract_derivative (C (v_ty v)) (val v) (ad_retract AD (v_ty v) (val v))) ->
  (forall t v, In v vs -> retract (C (v_ty v)) (val v) (vscale t (block C (g_local_layout g) x v)) = Ok (valt t v) /\
     value_ok (C (v_ty v)) (valt t v)) ->
  exists A y rt, compute_whitened_residual_jacobian E g a r = Ok A /\ matmul A x = Ok y /\
    (forall t, exists a', manifold_retract C a (mkAssign (vscale t x) (g_local_layout g)) = Ok a' /\
       compute_whitened_residual_vector E g a' = Ok (rt t)) /\
    vderiv rt y.
Proof.
  intros CO Hok Hm Hwf Hty Hval Hlin Hr Hx Hpos Hauto Hret Hvt.
  apply (jacobian_is_derivative E fs g a vs r val x valt); auto.
  - intros f Hf. destruct (Hauto f Hf) as (H1 & H2 & _). apply default_shapes; auto.
  - intros f Hf. destruct (Hauto f Hf) as (H1 & H2 & H3).
    assert (Hin : forall v, In v (f_vars f) -> In v vs).
    { intros v Hv. assert (Hmen : In v (mentioned fs)). { apply mentioned_in. eauto. }
      specialize (Hty (v_ty v)). assert (Hft : In v (of_type (v_ty v) (mentioned fs))) by (apply filter_In; split; auto; apply Nat.eqb_refl).
      rewrite <- Hty in Hft. apply filter_In in Hft. tauto. }
    destruct (made E fs g Hok Hm) as (Hg & Hne).
    apply (factor_derivative E AD (anonymize f) (f_vars f) val valt (fun v => block C (g_local_layout g) x v)); auto.
    intros v Hv. rewrite (ig_local _ _ _ Hg) in *. apply block_length; auto. apply mentioned_in. eauto.
Qed.
End Graph.

(* programs that rely on the default method *)
Lemma auto_env_default {T} {N : Num T} (C : cenv (T := T)) res (AD : autodiff T) fd vals :
  auto_ok (auto_env C res AD) AD fd vals ->
  default_jacobians (auto_env C res AD) AD fd vals = Ok (e_jac (auto_env C res AD) fd vals).
Proof.
  intros H. destruct (default_entries (auto_env C res AD) AD fd vals H) as (Js & EJ & _).
  rewrite EJ. unfold auto_env. cbn [e_jac].
  change (default_jacobians (mkEnv C res (fun _ _ => [])) AD fd vals) with (default_jacobians (auto_env C res AD) AD fd vals).
  rewrite EJ. auto.
Qed.

Lemma not_overridden (C : cenv (T := R)) res (AD : autodiff R) fs g a vs r val x (valt : R -> var -> pytree R) :
  let E := auto_env C res AD in
  classes_ok C -> (forall f, In f fs -> factor_ok f) -> graph_make E fs = Ok g ->
  wf_assign C vs false a -> (forall t, of_type t vs = of_type t (mentioned fs)) ->
  (forall v, In v vs -> get_value C a v = Ok (val v)) ->
  (forall f, In f fs -> linear_noise (f_noise f)) ->
  length r = total residual_dim fs -> length x = l_dim (g_local_layout g) -> total residual_dim fs <> 0%nat ->
  (forall f, In f fs -> auto_ok E AD (anonymize f) (map val (f_vars f)) /\
     residual_derivative (Forall2 (fun t x => value_ok (C t) x) (map v_ty (f_vars f))) (res (anonymize f)) (residual_dim f)
       (map val (f_vars f)) (ad_residual AD (anonymize f) (map val (f_vars f)))) ->
  (forall v, In v vs -> retract_derivative (C (v_ty v)) (val v) (ad_retract AD (v_ty v) (val v))) ->
  (forall t v, In v vs -> retract (C (v_ty v)) (val v) (vscale t (block C (g_local_layout g) x v)) = Ok (valt t v) /\
     value_ok (C (v_ty v)) (valt t v)) ->
  (forall f i t y D J, In f fs -> nth_error (map v_ty (f_vars f)) i = Some t -> nth_error (map val (f_vars f)) i = Some y ->
     nth_error (ad_residual AD (anonymize f) (map val (f_vars f))) i = Some D -> nth_error (jacobians_at E val f) i = Some J ->
     forall k c, k < residual_dim f -> c < local_dim (C t) ->
       nth c (nth k J []) n0 = composed (length (ravel y)) D (local_dim (C t)) (ad_retract AD t y) k c) /\
  exists A y rt, compute_whitened_residual_jacobian E g a r = Ok A /\ matmul A x = Ok y /\
    (forall t, exists a', manifold_retract C a (mkAssign (vscale t x) (g_local_layout g)) = Ok a' /\
       compute_whitened_residual_vector E g a' = Ok (rt t)) /\
    vderiv rt y.
Proof.
  intros E0 CO Hok Hm Hwf Hty Hval Hlin Hr Hx Hpos Hauto Hret Hvt. split.
  - intros f i t y D J Hf H1 H2 H3 H4 k c Hk Hc. destruct (Hauto f Hf) as [Ha _].
    pose proof (auto_env_default C res AD _ _ Ha) as EJ.
    destruct (default_entries _ AD _ _ Ha) as (Js & EJ' & _ & Hs).
    assert (Js = jacobians_at E0 val f) as -> by (assert (H : Ok Js = Ok (jacobians_at E0 val f)) by (rewrite <- EJ'; exact EJ); injection H; auto).
    apply (Hs i t y D J); auto.
  - apply (default_graph_derivative E0 AD fs g a vs r val x valt); auto.
    intros f Hf. destruct (Hauto f Hf) as [Ha Hd]. split; auto. split; auto.
    exact (auto_env_default C res AD _ _ Ha).
Qed.

(* a pair (scalar, vector of length 1) that adds, and a scale that multiplies by 1 + delta *)
Section Ex.
Local Open Scope R_scope.
Definition pair_val (a b : R) : pytree R := Node 0 [Leaf (mkArr [] [a]); Leaf (mkArr [1%nat] [b])].
Definition scale_val (s : R) : pytree R := Leaf (mkArr [1%nat] [s]).
Definition auC : cenv (T := R) := fun t =>
  match t with
  | O => mkVclass (pair_val 0 0) None None
  | _ => mkVclass (scale_val 1) (Some 1%nat) (Some (fun x d => match ravel x, d with [s], [e] => Ok (scale_val (s * (1 + e))) | _, _ => Err TypeError end))
  end.
(* residual (a b, a + s) *)
Definition au_res (fd : fdata R) (vals : list (pytree R)) : list R :=
  match flat vals with [a; b; s] => [a * b; a + s] | _ => [] end.
Definition auAD : autodiff R := mkAuto
  (fun fd vals => match flat vals with
     | [a; b; s] => [Node 0 [Leaf (mkArr [2%nat] [b; 1]); Leaf (mkArr [2; 1]%nat [a; 0])]; Leaf (mkArr [2; 1]%nat [0; 1])]
     | _ => [] end)
  (fun t x => match t with O => [mkArr [2%nat] [1; 0]; mkArr [1; 2]%nat [0; 1]] | _ => [mkArr [1; 1]%nat (ravel x)] end).
Definition auE : env R := auto_env auC au_res auAD.
Definition vu := mkVar 0%nat 0%nat. Definition vw := mkVar 1%nat 1%nat.
Definition au_factor : factor R := mkFactor 0 [vu; vw] (DiagGaussian (mkArr [2%nat] [1; 2])) [].
Definition au_val (v : var) : pytree R := match v_ty v with O => pair_val 3 5 | _ => scale_val 2 end.
Definition au_assign : assign R := mkAssign [3; 5; 2] (make_layout auC [vu; vw] false).
Definition au_x : list R := [1; -1; 4].
Definition au_valt (t : R) (v : var) : pytree R := match v_ty v with O => pair_val (3 + t * 1) (5 + t * -1) | _ => scale_val (2 * (1 + t * 4)) end.

Lemma pair_value x : value_ok (auC 0%nat) x -> exists a b, x = pair_val a b.
Proof.
  intros [Hok [Hs Hsh]]. destruct x as [|g [|c1 [|c2 [|]]]]; try discriminate. injection Hs as -> H1 H2.
  destruct c1 as [[s1 d1]|]; [|discriminate]. destruct c2 as [[s2 d2]|]; [|discriminate]. simpl in Hsh. injection Hsh as -> ->.
  inversion Hok as [|? ? A1 A2]; subst. inversion A2 as [|? ? B1 _]; subst. apply Nat.eqb_eq in A1, B1. simpl in A1, B1.
  destruct d1 as [|a [|]]; try discriminate. destruct d2 as [|b [|]]; try discriminate. exists a, b. auto.
Qed.
Lemma scale_value x : value_ok (auC 1%nat) x -> exists s, x = scale_val s.
Proof.
  intros [Hok [Hs Hsh]]. destruct x as [[s1 d1]|]; [|discriminate]. simpl in Hsh. injection Hsh as ->.
  inversion Hok as [|? ? A1 _]; subst. apply Nat.eqb_eq in A1. simpl in A1. destruct d1 as [|s [|]]; try discriminate. exists s. auto.
Qed.
Lemma au_values vals : Forall2 (fun t x => value_ok (auC t) x) [0%nat; 1%nat] vals -> exists a b s, vals = [pair_val a b; scale_val s].
Proof.
  intros H. inversion H as [|? x ? l H1 H2]; subst. inversion H2 as [|? y ? l' H3 H4]; subst. inversion H4; subst.
  destruct (pair_value x H1) as (a & b & ->). destruct (scale_value y H3) as (s & ->). eauto.
Qed.
Lemma pair_ok a b : value_ok (auC 0%nat) (pair_val a b). Proof. repeat split; repeat constructor. Qed.
Lemma scale_ok s : value_ok (auC 1%nat) (scale_val s). Proof. repeat split; repeat constructor. Qed.

Lemma au_differentiable : residual_derivative (Forall2 (fun t x => value_ok (auC t) x) [0%nat; 1%nat]) (au_res (anonymize au_factor)) 2
  [pair_val 3 5; scale_val 2] (ad_residual auAD (anonymize au_factor) [pair_val 3 5; scale_val 2]).
Proof.
  split.
  - intros vals H. destruct (au_values vals H) as (a & b & s & ->). reflexivity.
  - intros eps He. exists eps. split; auto. intros vals H Hcl r Hr. destruct (au_values vals H) as (a & b & s & ->).
    pose proof (Hcl 0%nat) as H0. pose proof (Hcl 1%nat) as H1. cbn in H0, H1.
    assert (Hs : forall f : nat -> R, vsum (map f (seq 0 (length (flat [pair_val 3 5; scale_val 2])))) = f 0%nat + (f 1%nat + (f 2%nat + 0))) by (intros f; reflexivity).
    rewrite !Hs. cbn -[Rabs Rplus Rmult Rminus IZR]. change (IZR 0) with 0. change (@nth R) with (@nth R).
    pose proof (Rabs_pos (a - 3)). pose proof (Rabs_pos (b - 5)). pose proof (Rabs_pos (s - 2)).
    destruct r as [|[|r]]; [| |lia]; cbn -[Rabs Rplus Rmult Rminus IZR].
    + replace (a * b - 3 * 5 - (5 * (a - 3) + (3 * (b - 5) + (0 * (s - 2) + 0)))) with ((a - 3) * (b - 5)) by ring.
      rewrite Rabs_mult. nra.
    + replace (a + s - (3 + 2) - (1 * (a - 3) + (0 * (b - 5) + (1 * (s - 2) + 0)))) with 0 by ring. rewrite Rabs_R0. nra.
Qed.

Lemma au_scale_derivative s : retract_derivative (auC 1%nat) (scale_val s) [mkArr [1; 1]%nat [s]].
Proof.
  split.
  - cbn. f_equal. unfold scale_val. do 3 f_equal. cbn. ring.
  - intros d xt Hd Hxt. destruct d as [|e [|]]; try discriminate.
    assert (Hv : forall t, ravel (xt t) = [s + t * (s * e)]).
    { intros t. destruct (Hxt t) as [H _]. cbn in H. injection H as <-. cbn. f_equal. ring. }
    split.
    + intros t. rewrite Hv. reflexivity.
    + intros k. eapply derivable_pt_lim_ext; [intros t; rewrite Hv; reflexivity|]. destruct k as [|k].
      * cbn. rewrite vsum_cons, vsum_nil, Rplus_0_r. apply line_deriv.
      * eapply derivable_pt_lim_ext; [|destruct k; apply (derivable_pt_lim_const 0)]. intros t. destruct k; reflexivity.
Qed.
Lemma au_pair_derivative a b : retract_derivative (auC 0%nat) (pair_val a b) [mkArr [2%nat] [1; 0]; mkArr [1; 2]%nat [0; 1]].
Proof.
  apply plain_identity; [split; reflexivity | repeat constructor | apply pair_ok|].
  intros [|[|k]] [|[|j]] Hk Hj; cbn in Hk, Hj; try lia; reflexivity.
Qed.

Lemma au_example : exists g,
  classes_ok (e_cls auE) /\ (forall f, In f [au_factor] -> factor_ok f) /\ graph_make auE [au_factor] = Ok g /\
  wf_assign (e_cls auE) [vu; vw] false au_assign /\ (forall t, of_type t [vu; vw] = of_type t (mentioned [au_factor])) /\
  (forall v, In v [vu; vw] -> get_value (e_cls auE) au_assign v = Ok (au_val v)) /\
  (forall f, In f [au_factor] -> linear_noise (f_noise f)) /\
  total residual_dim [au_factor] = 2%nat /\ length au_x = l_dim (g_local_layout g) /\
  (forall f, In f [au_factor] -> auto_ok auE auAD (anonymize f) (map au_val (f_vars f)) /\
     default_jacobians auE auAD (anonymize f) (map au_val (f_vars f)) = Ok (jacobians_at auE au_val f) /\
     residual_derivative (Forall2 (fun t x => value_ok (e_cls auE t) x) (map v_ty (f_vars f))) (e_res auE (anonymize f)) (residual_dim f)
       (map au_val (f_vars f)) (ad_residual auAD (anonymize f) (map au_val (f_vars f)))) /\
  (forall v, In v [vu; vw] -> retract_derivative (e_cls auE (v_ty v)) (au_val v) (ad_retract auAD (v_ty v) (au_val v))) /\
  (forall t v, In v [vu; vw] -> retract (e_cls auE (v_ty v)) (au_val v) (vscale t (block (e_cls auE) (g_local_layout g) au_x v)) = Ok (au_valt t v) /\
     value_ok (e_cls auE (v_ty v)) (au_valt t v)).
Proof.
  eexists. split; [intros [|[|t]]; repeat constructor|].
  split. { intros f [<-|[]]. split; [split; [reflexivity | exists 2%nat; reflexivity] | constructor]. }
  split; [reflexivity|].
  split; [split; [repeat constructor; simpl; intuition discriminate | split; reflexivity]|].
  split; [intros t; reflexivity|].
  split; [intros v [<-|[<-|[]]]; reflexivity|].
  split; [intros f [<-|[]]; exact I|]. split; [reflexivity|]. split; [reflexivity|].
  split.
  { intros f [<-|[]]. split.
    - split; [apply Nat.ltb_lt; reflexivity|]. split.
      + constructor; [|constructor; [|constructor]].
        * split; [apply pair_ok|]. split; [discriminate|]. split; [apply Nat.ltb_lt; reflexivity|]. split; [repeat constructor | reflexivity].
        * split; [apply scale_ok|]. split; [discriminate|]. split; [apply Nat.ltb_lt; reflexivity|]. split; [repeat constructor | reflexivity].
      + constructor; [|constructor; [|constructor]]; (split; [repeat constructor | reflexivity]).
    - split; [reflexivity | exact au_differentiable]. }
  split. { intros v [<-|[<-|[]]]; [apply au_pair_derivative | apply au_scale_derivative]. }
  intros t v [<-|[<-|[]]]; (split; [reflexivity|]); [apply pair_ok | apply scale_ok].
Qed.
End Ex.

Lemma plain_jacobian (c : vclass R) x K : plain_class c -> tree_ok (vc_default c) -> value_ok c x ->
  (retract_derivative c x K <-> forall k j, k < length (ravel x) -> j < length (ravel x) ->
     along (length (ravel x)) K k j = if Nat.eqb k j then 1%R else 0%R) /\
  (retract_derivative c x K -> forall D r j, j < length (ravel x) ->
     composed (length (ravel x)) D (local_dim c) K r j = partial (leaves D) r j).
Proof.
  intros Hc Ht Hx. pose proof (plain_identity c Hc Ht x K Hx) as Hi. split; auto.
  intros HK D r j Hj. rewrite (plain_dims c Hc). rewrite <- (flatten_length c Ht x Hx). unfold flatten. pose proof (proj1 Hi HK) as HK'.
  unfold composed. rewrite <- (vsum_pick (length (ravel x)) j (fun k => partial (leaves D) r k)) by auto.
  apply vsum_map_ext. intros k Hk. apply in_seq in Hk. rewrite HK' by lia. change (@nmul R NumR) with Rmult. destruct (Nat.eqb k j); lra.
Qed.
