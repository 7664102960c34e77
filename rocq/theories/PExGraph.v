(* Bundled lemmas and concrete instances for the factor graph theorems. *)
From Coq Require Import List Arith Bool ZArith Lia Permutation Reals Lra.
From Verif Require Import Num NumR NumF32 Py Arr MLayout MAssign MNoise MSparse MFactor MGraph SpecLayout SpecTree SpecAssign SpecGraph SpecSparse SpecDeriv.
From Verif Require Import PBase PLayout PTree PAssign PAssign2 PAssign3 PStack PGraph PGraph2 PJac PVec PSparse PGraph3 PGraph4 PGraph5 PDeriv Ex ExG PExAssign.
Import ListNotations.

Section Bundles.
Context {T : Type} {N : Num T}.
Variable E : env T.
Let C := e_cls E.

Lemma made fs g : (forall f, In f fs -> factor_ok f) -> graph_make E fs = Ok g -> is_graph E fs g /\ fs <> [].
Proof.
  intros Hok Hg. destruct (graph_make_ok E fs Hok) as (H1 & H2).
  assert (Hd : (exists f, In f fs /\ f_vars f <> []) \/ (forall f, In f fs -> f_vars f = [])).
  { clear. induction fs as [|f fs IH]; [right; simpl; tauto|]. destruct (f_vars f) as [|v vs] eqn:Ef.
    - destruct IH as [(h & Hh & Hv)|IH]; [left; exists h; split; [right|]; auto|].
      right. intros h [<-|Hh]; auto.
    - left. exists f. split; [left; auto | congruence]. }
  destruct Hd as [Hd|Hd].
  - destruct (H1 Hd) as (g' & Eg & Hg'). rewrite Eg in Hg. injection Hg as <-. split; auto.
    destruct Hd as (f & Hf & _). intros ->. destruct Hf.
  - rewrite (H2 Hd) in Hg. discriminate.
Qed.

Lemma kgroups_share (fs : list (factor T)) f h : In f fs -> In h fs ->
  ((exists gfs, In gfs (kgroups fs) /\ In f gfs /\ In h gfs) <-> same_kind f h).
Proof.
  intros Hf Hh. rewrite <- group_key_kind. split.
  - intros (gfs & Hg & Hfg & Hhg). apply in_map_iff in Hg. destruct Hg as (k & <- & _).
    apply filter_In in Hfg, Hhg. destruct Hfg as [_ Hfg], Hhg as [_ Hhg]. apply eqb_ok in Hfg, Hhg. congruence.
  - intros Hk. exists (filter (fun x => eqb (group_key x) (group_key f)) fs). split; [|split].
    + apply in_map_iff. exists (group_key f). split; auto. apply firsts_in. apply in_map; auto.
    + apply filter_In. split; auto. apply eqb_ok; auto.
    + apply filter_In. split; auto. apply eqb_ok; auto.
Qed.

Lemma graph_partition fs g : (forall f, In f fs -> factor_ok f) -> graph_make E fs = Ok g ->
  exists gs, groups_of fs gs /\ Permutation (concat gs) fs /\
    (forall f h, In f fs -> In h fs -> ((exists gr, In gr gs /\ In f gr /\ In h gr) <-> same_kind f h)) /\
    Forall2 stack_holds gs (g_stacks g) /\ g_residual_dim g = total residual_dim fs.
Proof.
  intros Hok Hm. destruct (made fs g Hok Hm) as (Hg & _). exists (kgroups fs).
  split; [apply groups_of_kgroups|]. split; [apply kgroups_perm|]. split; [intros; apply kgroups_share; auto|].
  split; [|apply (ig_dim _ _ _ Hg)]. pose proof (ig_stacks _ _ _ Hg) as Hs. clear - Hs.
  induction Hs as [|gf s gfs ss H Hs IH]; constructor; auto. split; [apply (is_num _ _ _ _ H) | apply (is_fac _ _ _ _ H)].
Qed.

Lemma graph_construction fs : (forall f, In f fs -> factor_ok f) ->
  ((exists f, In f fs /\ f_vars f <> []) ->
     exists g, graph_make E fs = Ok g /\
       l_local (g_layout g) = false /\ l_local (g_local_layout g) = true /\
       (forall L, L = g_layout g \/ L = g_local_layout g ->
         NoDup (get_variables L) /\ (forall v, In v (get_variables L) <-> exists f, In f fs /\ In v (f_vars f)) /\
         forall t, of_type t (get_variables L) = of_type t (mentioned fs)) /\
       l_dim (g_layout g) = total (vpdim C) (mentioned fs) /\
       l_dim (g_local_layout g) = total (vldim C) (mentioned fs)) /\
  ((forall f, In f fs -> f_vars f = []) -> graph_make E fs = Err TypeError).
Proof.
  intros Hok. destruct (graph_make_ok E fs Hok) as (H1 & H2). split; auto. intros Hex.
  destruct (H1 Hex) as (g & Eg & Hg). exists g. split; auto.
  pose proof (mentioned_nodup fs) as ND. rewrite (ig_layout _ _ _ Hg), (ig_local _ _ _ Hg). unfold graph_layout. fold C.
  split; [apply lay_local; auto|]. split; [apply lay_local; auto|]. split; [|split; [exact (lay_dim C (mentioned fs) false ND) | exact (lay_dim C (mentioned fs) true ND)]].
  assert (Hgen : forall b, NoDup (get_variables (make_layout C (mentioned fs) b)) /\
    (forall v, In v (get_variables (make_layout C (mentioned fs) b)) <-> exists f, In f fs /\ In v (f_vars f)) /\
    forall t, of_type t (get_variables (make_layout C (mentioned fs) b)) = of_type t (mentioned fs)).
  { intros b. rewrite lay_vars by auto. split; [apply order_nodup; auto|]. split.
    - intros v. rewrite order_in. apply mentioned_in.
    - intros t. apply of_type_order. }
  intros L [-> | ->]; apply Hgen.
Qed.

Lemma residuals_per_factor fs g a val gs : (forall f, In f fs -> factor_ok f) -> graph_make E fs = Ok g -> groups_of fs gs ->
  assigns E fs a val -> (forall f, In f fs -> residual_shape_ok E val f) ->
  exists ws, Forall2 (fun f w => whitened_at E val f = Ok w /\ length w = residual_dim f) (concat gs) ws /\
    compute_whitened_residual_vector E g a = Ok (concat ws).
Proof.
  intros Hok Hm Hgs Ha Hsh. destruct (made fs g Hok Hm) as (Hg & Hne). apply groups_of_iff in Hgs. subst gs.
  destruct (residual_vector_ok E fs g a val Hok Hne Hg Ha Hsh) as (ws & Hw & Hv). exists ws. split; auto.
  apply traverse_forall2 in Hw.
  assert (Hin : forall f, In f (concat (kgroups fs)) -> In f fs) by (intros f; apply Permutation_in, kgroups_perm).
  clear - Hw Hin Hok Hsh. revert Hin Hw. generalize (concat (kgroups fs)). intros l Hin Hw.
  induction Hw as [|f w l ws Hf Hw IH]; constructor; auto.
  - split; auto. destruct (whitened_at_ok E val f (proj1 (Hok f (Hin f (or_introl eq_refl)))) (Hsh f (Hin f (or_introl eq_refl)))) as (w' & Hw' & Hl).
    congruence.
  - apply IH. intros; apply Hin; right; auto.
Qed.

Lemma evaluation_layout_independent fs g : classes_ok C -> (forall f, In f fs -> factor_ok f) -> graph_make E fs = Ok g ->
  (forall a1 a2 val r ln det, assigns E fs a1 val -> assigns E fs a2 val ->
    compute_whitened_residual_vector E g a1 = compute_whitened_residual_vector E g a2 /\
    compute_cost E g a1 = compute_cost E g a2 /\
    compute_joint_nll E ln det g a1 = compute_joint_nll E ln det g a2 /\
    compute_whitened_residual_jacobian E g a1 r = compute_whitened_residual_jacobian E g a2 r) /\
  (forall a vs local r ln det, wf_assign C vs local a -> ~ (forall v, In v vs <-> In v (mentioned fs)) ->
    compute_whitened_residual_vector E g a = Err AssertionError /\
    compute_cost E g a = Err AssertionError /\
    compute_joint_nll E ln det g a = Err AssertionError /\
    compute_whitened_residual_jacobian E g a r = Err AssertionError).
Proof.
  intros CO Hok Hm. destruct (made fs g Hok Hm) as (Hg & Hne). split.
  - intros. apply (layout_independent E fs g a1 a2 val); auto.
  - intros. apply (wrong_variables E fs g a vs local); auto.
Qed.

Lemma jacobian_coordinates fs g : (forall f, In f fs -> factor_ok f) -> graph_make E fs = Ok g ->
  length (c_rows (g_coords g)) = length (c_cols (g_coords g)) /\
  Forall (fun rc => fst rc < g_residual_dim g /\ snd rc < l_dim (g_local_layout g))
         (combine (c_rows (g_coords g)) (c_cols (g_coords g))) /\
  (forall a val r, assigns E fs a val -> (forall f, In f fs -> jacobian_shape_ok E val f) ->
     length r = total residual_dim fs -> total residual_dim fs <> 0 ->
     exists A, compute_whitened_residual_jacobian E g a r = Ok A /\ m_coords A = g_coords g /\ coo_ok A) /\
  ((forall f, In f fs -> NoDup (f_vars f)) -> NoDup (combine (c_rows (g_coords g)) (c_cols (g_coords g)))) /\
  (forall f v, In f fs -> 2 <= count_occ eqb_dec (f_vars f) v -> 0 < residual_dim f -> 0 < vldim C v ->
     ~ NoDup (combine (c_rows (g_coords g)) (c_cols (g_coords g)))).
Proof.
  intros Hok Hm. destruct (made fs g Hok Hm) as (Hg & Hne).
  split; [apply (coords_perm E fs g Hok Hg)|]. split; [apply (coords_range E fs g Hok Hg)|].
  split; [|split; [apply (coords_distinct E fs g Hok Hg) | intros f v; apply (coords_repeated E fs g f v Hok Hg)]].
  intros a val r Ha Hj Hr Hp. destruct (jacobian_coo_ok E fs g a r val Hok Hj Hg Ha Hr Hp) as (A & EA & HA & _ & Hc & _).
  exists A; auto.
Qed.
End Bundles.

Section Real.
Local Open Scope R_scope.
Variable E : env R.
Let C := e_cls E.

Lemma cost_per_factor fs g : (forall f, In f fs -> factor_ok f) -> graph_make E fs = Ok g ->
  (forall a val, assigns E fs a val -> (forall f, In f fs -> residual_shape_ok E val f) ->
    exists r ws, compute_whitened_residual_vector E g a = Ok r /\ compute_cost E g a = Ok (sumsq r, r) /\
      Forall2 (fun f w => whitened_at E val f = Ok w) fs ws /\ sumsq r = vsum (map sumsq ws)) /\
  (forall fs' g' a a' val, Permutation fs fs' -> graph_make E fs' = Ok g' ->
    assigns E fs a val -> assigns E fs' a' val -> (forall f, In f fs -> residual_shape_ok E val f) ->
    exists c r r', compute_cost E g a = Ok (c, r) /\ compute_cost E g' a' = Ok (c, r') /\ Permutation r r').
Proof.
  intros Hok Hm. destruct (made E fs g Hok Hm) as (Hg & Hne). split.
  - intros. apply cost_ok; auto.
  - intros fs' g' a a' val Hp Hm' Ha Ha' Hsh.
    destruct (made E fs' g') as (Hg' & _); auto.
    { intros f Hf. apply Hok. eapply Permutation_in; [symmetry; exact Hp | auto]. }
    apply (cost_permutation E fs fs' g g' a a' val); auto.
Qed.

Lemma jacobian_rows fs g a val r gs : (forall f, In f fs -> factor_ok f) -> graph_make E fs = Ok g -> groups_of fs gs ->
  assigns E fs a val -> (forall f, In f fs -> jacobian_shape_ok E val f) ->
  length r = total residual_dim fs -> total residual_dim fs <> 0%nat ->
  exists A, compute_whitened_residual_jacobian E g a r = Ok A /\
    forall x, length x = l_dim (g_local_layout g) ->
    exists ys, matmul A x = Ok (concat ys) /\
      Forall2 (fun fo y => length y = residual_dim (fst fo) /\ exists Ws,
          whitened_jacobians_at E val (fst fo) (slice r (snd fo) (snd fo + residual_dim (fst fo))) = Ok Ws /\
          y = slots_times C (g_local_layout g) x (residual_dim (fst fo)) (f_vars (fst fo)) Ws)
        (place residual_dim 0 (concat gs)) ys.
Proof.
  intros Hok Hm Hgs Ha Hj Hr Hp. destruct (made E fs g Hok Hm) as (Hg & Hne). apply groups_of_iff in Hgs. subst gs.
  destruct (jacobian_action E fs g a r val Hok Hj Hg Ha Hr Hp) as (A & EA & HA & _ & _ & Hact).
  exists A. split; auto. rewrite (ig_local _ _ _ Hg). intros x Hx. eexists. split; [apply Hact; auto|].
  assert (Hin : forall fo, In fo (place residual_dim 0 (concat (kgroups fs))) -> In (fst fo) fs /\ (snd fo + residual_dim (fst fo) <= length r)%nat).
  { intros [f o] H. apply placed in H. rewrite Hr. auto. }
  revert Hin. generalize (place residual_dim 0 (concat (kgroups fs))). induction l as [|fo l IH]; intros Hin; simpl; constructor.
  - destruct (Hin fo (or_introl eq_refl)) as (H1 & H2).
    destruct (wjacs_ok E val r fo) as (HW & HF); [split; [apply Hok; auto | apply Hj; auto] | auto|].
    split; [|exists (wjacs E val r fo); split; auto].
    apply apply_slots_length. clear - HF. induction HF; constructor; tauto.
  - apply IH. intros; apply Hin; right; auto.
Qed.

Lemma jacobian_is_derivative fs g a vs r val x (valt : R -> var -> pytree R) :
  classes_ok C -> (forall f, In f fs -> factor_ok f) -> graph_make E fs = Ok g ->
  wf_assign C vs false a -> (forall t, of_type t vs = of_type t (mentioned fs)) ->
  (forall v, In v vs -> get_value C a v = Ok (val v)) ->
  (forall f, In f fs -> jacobian_shape_ok E val f) -> (forall f, In f fs -> linear_noise (f_noise f)) ->
  length r = total residual_dim fs -> total residual_dim fs <> 0%nat ->
  length x = l_dim (g_local_layout g) ->
  (forall t v, In v vs -> retract (C (v_ty v)) (val v) (vscale t (block C (g_local_layout g) x v)) = Ok (valt t v) /\
     value_ok (C (v_ty v)) (valt t v)) ->
  (forall f, In f fs -> vderiv (fun t => residual_at E (valt t) f)
     (slots_times C (g_local_layout g) x (residual_dim f) (f_vars f) (jacobians_at E val f))) ->
  exists A y rt, compute_whitened_residual_jacobian E g a r = Ok A /\ matmul A x = Ok y /\
    (forall t, exists a', manifold_retract C a (mkAssign (vscale t x) (g_local_layout g)) = Ok a' /\
       compute_whitened_residual_vector E g a' = Ok (rt t)) /\
    vderiv rt y.
Proof.
  intros CO Hok Hm. destruct (made E fs g Hok Hm) as (Hg & Hne). rewrite (ig_local _ _ _ Hg).
  intros. apply (jacobian_derivative E fs g a vs r val x valt); auto.
Qed.
End Real.

(* ---- concrete instances ---- *)
Section ExAny.
Context {T : Type} {N : Num T}.
Lemma ex_factors_ok f : In f (ex_factors (T := T)) -> factor_ok f.
Proof.
  simpl. intros [<-|[<-|[<-|[<-|[<-|[]]]]]]; (split; [|repeat constructor]).
  1-3: split; [reflexivity | exists 2; reflexivity].
  1-2: split; [split; [reflexivity | exists 3; reflexivity] | split; reflexivity].
Qed.
Lemma ex_twice_ok : factor_ok (ex_twice (T := T)).
Proof. split; [split; [reflexivity | exists 2; reflexivity] | repeat constructor]. Qed.
End ExAny.

Section Ex32.
#[local] Existing Instance NumF32.
Definition ex_val (v : var) : pytree f32 := match get_value exC ex_assign v with Ok x => x | Err _ => Leaf (mkArr [] []) end.
Lemma ex_assigns : assigns exE ex_factors ex_assign ex_val.
Proof.
  exists ex_vars. split; [exact ex_assign_wf|]. split.
  - intros v. vm_compute. tauto.
  - intros v [<-|[<-|[<-|[<-|[]]]]]; vm_compute; reflexivity.
Qed.
Lemma ex_residual_shapes f : In f ex_factors -> residual_shape_ok exE ex_val f.
Proof. intros [<-|[<-|[<-|[<-|[<-|[]]]]]]; vm_compute; reflexivity. Qed.
Lemma ex_jacobian_shapes f : In f ex_factors -> jacobian_shape_ok exE ex_val f.
Proof. intros [<-|[<-|[<-|[<-|[<-|[]]]]]]; repeat constructor. Qed.
Lemma ex_graph : exists g, graph_make exE ex_factors = Ok g /\ length (g_stacks g) = 3 /\ g_residual_dim g = 12 /\
  length (c_rows (g_coords g)) = 42.
Proof. eexists. split; [vm_compute; reflexivity|]. vm_compute. auto. Qed.
Lemma ex_graph_values : exists g r A, graph_make exE ex_factors = Ok g /\
  compute_whitened_residual_vector exE g ex_assign = Ok r /\ length r = 12 /\ nth 0 r n0 <> n0 /\
  compute_whitened_residual_jacobian exE g ex_assign r = Ok A /\ length (m_vals A) = 42.
Proof.
  do 3 eexists. split; [vm_compute; reflexivity|]. split; [vm_compute; reflexivity|]. split; [vm_compute; reflexivity|].
  split; [vm_compute; discriminate|]. split; vm_compute; reflexivity.
Qed.
Definition ex_assign' : assign f32 :=
  match update_storage_layout exC ex_assign (make_layout exC [vd; vc; vb; va] false) with Ok a => a | Err _ => ex_assign end.
Lemma ex_two_layouts : classes_ok (exC (N := NumF32)) /\ assigns exE ex_factors ex_assign ex_val /\
  assigns exE ex_factors ex_assign' ex_val /\ as_storage ex_assign' <> as_storage ex_assign.
Proof.
  split; [exact ex_classes|]. split; [exact ex_assigns|]. split; [|vm_compute; discriminate].
  exists [vd; vc; vb; va]. split; [split; [repeat constructor; simpl; intuition discriminate | split; vm_compute; reflexivity]|]. split.
  - intros v. vm_compute. tauto.
  - intros v [<-|[<-|[<-|[<-|[]]]]]; vm_compute; reflexivity.
Qed.
Lemma ex_touches : exists f, In f (ex_factors (N := NumF32)) /\ f_vars f <> [].
Proof. eexists. split; [left; reflexivity | discriminate]. Qed.
Lemma ex_coords : (forall f, In f (ex_factors (N := NumF32)) -> factor_ok f) /\
  (forall f, In f (ex_factors (N := NumF32)) -> NoDup (f_vars f)) /\
  (forall f, In f ex_factors -> jacobian_shape_ok exE ex_val f) /\ assigns exE ex_factors ex_assign ex_val.
Proof.
  split; [exact ex_factors_ok|]. split; [|split; [exact ex_jacobian_shapes | exact ex_assigns]].
  intros f [<-|[<-|[<-|[<-|[<-|[]]]]]]; repeat constructor; simpl; intuition discriminate.
Qed.
Lemma repeated_coords : exists (E : env f32) fs g, (forall f, In f fs -> factor_ok f) /\ graph_make E fs = Ok g /\
  ~ NoDup (combine (c_rows (g_coords g)) (c_cols (g_coords g))).
Proof.
  exists exE, [ex_twice]. eexists. split; [intros f [<-|[]]; apply ex_twice_ok|]. split; [vm_compute; reflexivity|].
  vm_compute. intros H. inversion H as [|x l Hn _]; subst. apply Hn. simpl. tauto.
Qed.
Lemma ex_repeats : In ex_twice [ex_twice (T := f32)] /\ 2 <= count_occ eqb_dec (f_vars (ex_twice (T := f32))) va /\
  0 < residual_dim (ex_twice (T := f32)) /\ 0 < vldim (e_cls (exE (T := f32))) va /\ exists g, graph_make exE [ex_twice (T := f32)] = Ok g.
Proof. split; [left; auto|]. split; [vm_compute; auto|]. split; [vm_compute; auto|]. split; [vm_compute; auto|]. eexists; vm_compute; reflexivity. Qed.
End Ex32.

Section ExR.
Local Open Scope R_scope.
Definition ex_linvars : list var := [va; vc].
Definition ex_lina : assign R := mkAssign [1; 2; 3; 4] (make_layout exC ex_linvars false).
Definition ex_linval (v : var) : pytree R := if Nat.eqb (v_id v) 0 then leaf1 [1; 2] else leaf1 [3; 4].
Definition ex_linx : list R := [5; 6; 7; 8].
Definition ex_linvalt (t : R) (v : var) : pytree R :=
  if Nat.eqb (v_id v) 0 then leaf1 [1 + t * 5; 2 + t * 6] else leaf1 [3 + t * 7; 4 + t * 8].

Lemma deriv_affine a b f : (forall t, f t = a + t * b) -> derivable_pt_lim f 0 b.
Proof.
  intros Hf eps He. exists (mkposreal 1 Rlt_0_1). intros h Hh _. rewrite !Hf.
  replace ((a + (0 + h) * b - (a + 0 * b)) / h - b) with 0 by (field; auto). rewrite Rabs_R0. auto.
Qed.

Lemma deriv_affine0 b f : (forall t, f t = f 0 + t * b) -> derivable_pt_lim f 0 b.
Proof. apply deriv_affine. Qed.

Lemma ex_lin_derivative : exists g,
  classes_ok (exC (T := R)) /\ (forall f, In f (ex_lin (T := R)) -> factor_ok f) /\ graph_make exE ex_lin = Ok g /\
  wf_assign (exC (T := R)) ex_linvars false ex_lina /\ (forall t, of_type t ex_linvars = of_type t (mentioned (ex_lin (T := R)))) /\
  (forall v, In v ex_linvars -> get_value exC ex_lina v = Ok (ex_linval v)) /\
  (forall f, In f ex_lin -> jacobian_shape_ok exE ex_linval f) /\ (forall f, In f (ex_lin (T := R)) -> linear_noise (f_noise f)) /\
  total residual_dim (ex_lin (T := R)) = 6%nat /\ length ex_linx = l_dim (g_local_layout g) /\
  (forall t v, In v ex_linvars -> retract (exC (T := R) (v_ty v)) (ex_linval v) (vscale t (block exC (g_local_layout g) ex_linx v)) = Ok (ex_linvalt t v) /\
     value_ok (exC (v_ty v)) (ex_linvalt t v)) /\
  (forall f, In f ex_lin -> vderiv (fun t => residual_at exE (ex_linvalt t) f)
     (slots_times exC (g_local_layout g) ex_linx (residual_dim f) (f_vars f) (jacobians_at exE ex_linval f))).
Proof.
  assert (Hok : forall f, In f (ex_lin (T := R)) -> factor_ok f).
  { intros f Hf. apply ex_factors_ok. unfold ex_factors. apply in_or_app. auto. }
  destruct (graph_make_ok exE (ex_lin (T := R)) Hok) as (H1 & _).
  destruct H1 as (g & Eg & Hg); [eexists; split; [left; reflexivity | discriminate]|].
  exists g. rewrite (ig_local _ _ _ Hg).
  assert (HL : graph_layout exE (ex_lin (T := R)) true = make_layout exC ex_linvars true) by reflexivity. rewrite HL.
  split; [intros [|[|?]]; repeat constructor|]. split; auto. split; auto.
  split; [split; [repeat constructor; simpl; intuition discriminate | split; reflexivity]|].
  split; [intros [|[|?]]; reflexivity|].
  split; [intros v [<-|[<-|[]]]; reflexivity|].
  split; [intros f [<-|[<-|[<-|[]]]]; repeat constructor|].
  split; [intros f [<-|[<-|[<-|[]]]]; exact I|].
  split; [reflexivity|]. split; [reflexivity|]. split.
  - intros t v [<-|[<-|[]]]; (split; [reflexivity | repeat constructor]).
  - intros f [<-|[<-|[<-|[]]]]; (split; [reflexivity|]); intros [|[|[|k]]]; cbn -[Rlit IZR];
    rewrite ?vdot_cons, ?vdot_nil_l; apply deriv_affine0; intros t; lra.
Qed.

Lemma ex_lin_ok f : In f (ex_lin (T := R)) -> factor_ok f.
Proof. intros Hf. apply ex_factors_ok. unfold ex_factors. apply in_or_app. auto. Qed.
Lemma ex_lin_assigns fs : mentioned fs = [va; vc] \/ mentioned fs = [vc; va] -> assigns (exE (T := R)) fs ex_lina ex_linval.
Proof.
  intros H. exists ex_linvars. split; [split; [repeat constructor; simpl; intuition discriminate | split; reflexivity]|]. split.
  - intros v. destruct H as [-> | ->]; simpl; tauto.
  - intros v [<-|[<-|[]]]; reflexivity.
Qed.
Lemma ex_lin_cost : (forall f, In f (ex_lin (T := R)) -> factor_ok f) /\
  (exists g, graph_make exE (ex_lin (T := R)) = Ok g) /\ assigns exE (ex_lin (T := R)) ex_lina ex_linval /\
  (forall f, In f (ex_lin (T := R)) -> residual_shape_ok exE ex_linval f) /\
  assigns exE (rev (ex_lin (T := R))) ex_lina ex_linval.
Proof.
  split; [exact ex_lin_ok|]. split.
  - destruct (graph_make_ok exE (ex_lin (T := R)) ex_lin_ok) as (H & _).
    destruct H as (g & Eg & _); [eexists; split; [left; reflexivity | discriminate] | eauto].
  - split; [apply ex_lin_assigns; left; reflexivity|]. split; [|apply ex_lin_assigns; right; reflexivity].
    intros f [<-|[<-|[<-|[]]]]; reflexivity.
Qed.
Lemma ex_lin_rows : (forall f, In f (ex_lin (T := R) ++ [ex_twice]) -> factor_ok f) /\
  (exists g, graph_make exE (ex_lin (T := R) ++ [ex_twice]) = Ok g) /\
  assigns exE (ex_lin (T := R) ++ [ex_twice]) ex_lina ex_linval /\
  (forall f, In f (ex_lin (T := R) ++ [ex_twice]) -> jacobian_shape_ok exE ex_linval f) /\
  total residual_dim (ex_lin (T := R) ++ [ex_twice]) = 8%nat.
Proof.
  assert (Hok : forall f, In f (ex_lin (T := R) ++ [ex_twice]) -> factor_ok f).
  { intros f Hf. apply in_app_or in Hf. destruct Hf as [Hf|[<-|[]]]; [apply ex_lin_ok; auto | apply ex_twice_ok]. }
  split; [exact Hok|]. split.
  - destruct (graph_make_ok exE _ Hok) as (H & _).
    destruct H as (g & Eg & _); [eexists; split; [left; reflexivity | discriminate] | eauto].
  - split; [apply ex_lin_assigns; left; reflexivity|]. split; [|reflexivity].
    intros f [<-|[<-|[<-|[<-|[]]]]]; repeat constructor.
Qed.
End ExR.
