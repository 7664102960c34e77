(* Model of jaxfg/core/_stacked_factor_graph.py *)
From Coq Require Import List Arith Bool ZArith.
From Verif Require Import Num Py Arr MLayout MAssign MNoise MSparse MFactor.
Import ListNotations.

(* _stacked_factor_graph.py:58-69: the grouping key.  (1) the treedef of the anonymised
   factor: class and static data, variable types, container structure; (2) leaf shapes *)
Record gkey := mkKey {
  k_cls : nat; k_types : list vty; k_tree : treedef; k_shapes : list (list nat) }.

Definition gkey_eqb (a b : gkey) : bool :=
  Nat.eqb (k_cls a) (k_cls b) && list_eqb Nat.eqb (k_types a) (k_types b)
  && treedef_eqb (k_tree a) (k_tree b) && list_eqb shape_eqb (k_shapes a) (k_shapes b).

Lemma list_eqb_ok {A} (e : A -> A -> bool) :
  (forall x y, e x y = true <-> x = y) -> forall l1 l2, list_eqb e l1 l2 = true <-> l1 = l2.
Proof.
  intros He; induction l1 as [|x r IH]; intros [|y r2]; simpl; split; try congruence.
  - rewrite andb_true_iff, He, IH. intros [-> ->]; reflexivity.
  - intros [= -> ->]. rewrite andb_true_iff, He, IH; auto.
Qed.

Fixpoint treedef_ind' (P : treedef -> Prop) (HL : P TLeaf)
  (HN : forall g cs, Forall P cs -> P (TNode g cs)) (t : treedef) : P t :=
  match t with
  | TLeaf => HL
  | TNode g cs => HN g cs ((fix go (l : list treedef) : Forall P l :=
                     match l with [] => Forall_nil P | x :: r => Forall_cons x (treedef_ind' P HL HN x) (go r) end) cs)
  end.

Lemma treedef_eqb_ok : forall a b, treedef_eqb a b = true <-> a = b.
Proof.
  induction a as [|g cs IH] using treedef_ind'; intros [|g' cs']; cbn; split; try congruence; auto.
  - rewrite andb_true_iff, Nat.eqb_eq. intros [-> H].
    f_equal. revert cs' H. induction IH as [|x l Hx Hl IHl]; intros [|y r]; try congruence; auto.
    rewrite andb_true_iff, Hx. intros [-> H]. f_equal; auto.
  - intros [= -> ->]. rewrite Nat.eqb_refl; cbn.
    induction IH as [|x l Hx Hl IHl]; auto. rewrite IHl, andb_true_r. apply Hx; auto.
Qed.

Lemma gkey_eqb_ok a b : gkey_eqb a b = true <-> a = b.
Proof.
  destruct a as [a1 a2 a3 a4], b as [b1 b2 b3 b4]; unfold gkey_eqb; cbn [k_cls k_types k_tree k_shapes].
  rewrite !andb_true_iff, Nat.eqb_eq, treedef_eqb_ok.
  rewrite (list_eqb_ok Nat.eqb Nat.eqb_eq).
  rewrite (list_eqb_ok shape_eqb) by (intros; apply list_eqb_ok, Nat.eqb_eq).
  split; [intros [[[-> ->] ->] ->]; reflexivity | intros [= -> -> -> ->]; auto].
Qed.
#[export] Instance Eqb_gkey : Eqb gkey := {| eqb := gkey_eqb; eqb_ok := gkey_eqb_ok |}.

Section Model.
Context {T : Type} {N : Num T}.
Variable E : env T.
Let C := e_cls E.

(* :60-69 *)
Definition group_key (f : factor T) : gkey :=
  mkKey (f_cls f) (map v_ty (f_vars f))
        (TNode 0 (noise_structure (f_noise f) :: map structure (f_params f)))
        (map a_shape (noise_leaves (f_noise f) ++ flat_map leaves (f_params f))).

(* :55,71-72 *)
Definition group_factors (fs : list (factor T)) : dict gkey (list (factor T)) :=
  fold_left (fun d f => dict_append d (group_key f) f) fs [].

(* :56,73-75 : variables in order of first mention *)
Definition ordered_variables (fs : list (factor T)) : list var :=
  dict_keys (fold_left (fun d f => fold_left (fun d v => dict_set d v tt) (f_vars f) d) fs []).

(* :20-31 *)
Record graph := mkGraph {
  g_stacks : list (fstack T);
  g_coords : coords;
  g_layout : layout;
  g_local_layout : layout;
  g_residual_dim : nat }.

(* :88-109, loop body; the state is (stacks, coords, residual_offset) *)
Definition graph_step (L Lloc : layout) (s : list (fstack T) * list coords * nat)
    (kv : gkey * list (factor T)) : result (list (fstack T) * list coords * nat) :=
  let '(stacks, cs, off) := s in
  st <- stack_make E (snd kv) L ;;
  c <- jacobian_coords E (snd kv) Lloc off ;;
  Ok (stacks ++ [st], cs ++ c, off + stack_residual_dim st).

(* :47-121 make *)
Definition graph_make (fs : list (factor T)) : result graph :=
  let groups := group_factors fs in
  let vars := ordered_variables fs in
  let L := make_layout C vars false in
  let Lloc := make_layout C vars true in
  s <- foldM (graph_step L Lloc) groups ([], [], 0) ;;
  let '(stacks, cs, off) := s in
  match cs with
  | [] => Err TypeError                     (* jax.tree_map(f, *[]), :111-113 *)
  | _ => Ok (mkGraph stacks
               (mkCoords (concat (map c_rows cs)) (concat (map c_cols cs)))
               L Lloc off)
  end.

(* :140-153, the whitened and flattened residuals of one stack *)
Definition stack_whitened (s : fstack T) (a : assign T) : result (list T) :=
  rs <- stack_residuals E s a ;;
  ws <- traverse (fun nr => whiten_residual (noise_index (fst nr) (fd_noise (fs_factor s))) (snd nr))
                 (enumerate rs) ;;
  Ok (concat ws).

(* :123-155 compute_whitened_residual_vector *)
Definition compute_whitened_residual_vector (g : graph) (a : assign T) : result (list T) :=
  a' <- update_storage_layout C a (g_layout g) ;;
  parts <- traverse (fun s => stack_whitened s a') (g_stacks g) ;;
  r <- concatenate parts ;;
  _ <- assert_ (Nat.eqb (length r) (g_residual_dim g)) ;;
  Ok r.

(* :157-172 compute_cost *)
Definition compute_cost (g : graph) (a : assign T) : result (T * list T) :=
  r <- compute_whitened_residual_vector g a ;;
  Ok (sumsq r, r).

(* :198-221: log-determinant terms of one stack; ln and det are library functions *)
Definition stack_logdets (ln : T -> T) (det : list (list T) -> T) (s : fstack T) : result (list T) :=
  match fd_noise (fs_factor s) with
  | Gaussian W =>
      traverse (fun n => match arr_index n W with
                         | mkArr [m; k] d => Ok (nmul (nlit (-2) 1) (ln (nabs (det (chunks m k d)))))
                         | _ => Err ValueError
                         end) (seq 0 (fs_num s))
  | DiagGaussian d =>
      Ok (map (fun n => nmul (nlit (-2) 1) (ln (nabs (fold_right nmul n1 (a_data (arr_index n d))))))
              (seq 0 (fs_num s)))
  | Huber _ _ => Err AssertionError
  end.

(* :174-225 compute_joint_nll with include_constants=False *)
Definition compute_joint_nll (ln : T -> T) (det : list (list T) -> T) (g : graph) (a : assign T) : result T :=
  r <- compute_whitened_residual_vector g a ;;
  foldM (fun acc s => l <- stack_logdets ln det s ;; Ok (nadd acc (vsum l))) (g_stacks g) (sumsq r).

(* :256-264, one stack: whitened Jacobians slot by slot, flattened *)
Definition stack_jacobian_values (s : fstack T) (a : assign T) (r : list T) : result (list T) :=
  rs <- reshape2 (fs_num s) (noise_dim (fd_noise (fs_factor s))) r ;;
  jacs <- stack_jacobians E s a ;;
  parts <- traverse (fun slot =>
             ws <- traverse (fun nJr => whiten_jacobian (noise_index (fst nJr) (fd_noise (fs_factor s)))
                                          (fst (snd nJr)) (snd (snd nJr)))
                            (enumerate (combine slot rs)) ;;
             Ok (concat (concat ws))) jacs ;;
  Ok (concat parts).

(* :245-265, loop over the stacks; the state is (values, residual_start) *)
Definition jacobian_step (a : assign T) (r : list T) (s : list T * nat) (st : fstack T) : result (list T * nat) :=
  let '(vals, start) := s in
  let stop := start + stack_residual_dim st in
  v <- stack_jacobian_values st a (slice r start stop) ;;
  Ok (vals ++ v, stop).

(* :227-275 compute_whitened_residual_jacobian *)
Definition compute_whitened_residual_jacobian (g : graph) (a : assign T) (r : list T) : result (coo T) :=
  a' <- update_storage_layout C a (g_layout g) ;;
  s <- foldM (jacobian_step a' r) (g_stacks g) ([], 0) ;;
  let '(vals, stop) := s in
  _ <- assert_ (negb (Nat.eqb stop 0)) ;;
  _ <- assert_ (Nat.eqb stop (g_residual_dim g)) ;;
  Ok (mkCoo vals (g_coords g) (g_residual_dim g, l_dim (g_local_layout g))).
End Model.
Arguments graph : clear implicits.
