(* Theorems C46-C48, C59: the sparse covariance. *)
From Coq Require Import List Arith Bool ZArith Reals.
From Verif Require Import Num NumR NumF32 Py Arr MLayout MAssign MNoise MSparse MFactor MGraph MCov SpecLayout SpecSparse SpecNoise SpecTree SpecAssign SpecGraph SpecCov.
From Verif Require Import Ex ExG ExS PCov PCov2 PExCov.
Import ListNotations.
#[local] Existing Instance NumF32.

Theorem C46_cache_transparent :
  forall (T : Type) (N : Num T) (S : scov T), lower (sc_L S) ->
  exists v : nat -> nat -> T, (forall i j, v i j = v j i) /\
  forall ch fuel i j, history S ch -> i < length (sc_L S) -> j < length (sc_L S) ->
    (forall x ch', cov_get S fuel i j ch = Some (x, ch') -> x = v i j /\ history S ch') /\
    (2 * length (sc_L S) + 1 <= fuel -> exists ch', cov_get S fuel i j ch = Some (v i j, ch')).
Proof. exact @cache_transparent. Qed.
Print Assumptions C46_cache_transparent.

Theorem C46_inverse :
  forall S : scov R, factor_stored S -> let n := length (sc_L S) in
  (exists s, minverse n (llt (sc_L S)) s) /\
  forall s, minverse n (llt (sc_L S)) s ->
    (forall i j, i < n -> j < n -> s i j = s j i) /\
    forall ch fuel i j, history S ch -> i < n -> j < n -> 2 * n + 1 <= fuel ->
      exists ch', cov_get S fuel i j ch = Some (s i j, ch') /\ history S ch'.
Proof. exact covariance_inverse. Qed.
Print Assumptions C46_inverse.

Theorem C46_as_dense :
  forall S : scov R, factor_stored S -> let n := length (sc_L S) in
  forall inv ch fuel, history S ch -> l_dim (sc_layout S) = n -> 2 * n + 1 <= fuel ->
  is_inverse n (csc_dense n (sc_L S)) (inv (csc_dense n (sc_L S))) ->
  minverse n (llt (sc_L S)) (ent (cov_dense_inverse inv S)) /\
  exists ch', cov_dense_recursive S fuel ch = Some (cov_dense_inverse inv S, ch') /\ history S ch'.
Proof. exact dense_agree. Qed.
Print Assumptions C46_as_dense.

Example C46_example : factor_stored ex_S /\ l_dim (sc_layout ex_S) = length (sc_L ex_S) /\
  exists inv, is_inverse 3 (csc_dense 3 (sc_L ex_S)) (inv (csc_dense 3 (sc_L ex_S))).
Proof. exact ex_stored. Qed.

Theorem C47_marginal_blocks :
  forall (T : Type) (N : Num T) (C : cenv (T := T)) (S : scov T) lvs vs ch fuel,
  lower (sc_L S) -> NoDup lvs -> sc_layout S = make_layout C lvs true ->
  length (sc_L S) = l_dim (sc_layout S) -> history S ch -> 2 * length (sc_L S) + 1 <= fuel ->
  ((forall v, In v vs -> In v lvs) ->
    exists M ch', compute_marginal C S fuel vs ch = Ok (Some (M, ch')) /\ history S ch' /\
      length M = total (vldim C) vs /\ Forall (fun row => length row = total (vldim C) vs) M /\
      forall a b va vb oa ob p q ia ib,
        nth_error (place (vldim C) 0 vs) a = Some (va, oa) -> nth_error (place (vldim C) 0 vs) b = Some (vb, ob) ->
        p < vldim C va -> q < vldim C vb -> dict_get (l_index (sc_layout S)) va = Some ia -> dict_get (l_index (sc_layout S)) vb = Some ib ->
        exists row x, nth_error M (oa + p) = Some row /\ nth_error row (ob + q) = Some x /\
          forall ch0, history S ch0 -> exists ch1, cov_get S fuel (ia + p) (ib + q) ch0 = Some (x, ch1)) /\
  ((exists v, In v vs /\ ~ In v lvs) -> compute_marginal C S fuel vs ch = Err KeyError).
Proof. exact @marginal_blocks. Qed.
Print Assumptions C47_marginal_blocks.

Example C47_example : lower (sc_L ex_S32) /\ (exists x ch, cov_get (N := NumF32) ex_S32 7 0 0 [] = Some (x, ch) /\ x = lit (N := NumF32) 3) /\
  l_dim (sc_layout ex_S32) = length (sc_L ex_S32) /\
  (exists M ch, compute_marginal (N := NumF32) exC ex_S32 7 [vz; vx] [] = Ok (Some (M, ch)) /\
     M = [[lit (N := NumF32) 1; lit (N := NumF32) 1]; [lit (N := NumF32) 1; lit (N := NumF32) 3]]) /\
  compute_marginal (N := NumF32) exC ex_S32 7 [mkVar 9 2; vx] [] = Err KeyError /\
  cov_get (N := NumF32) ex_S32 4 0 0 [] = None /\ cov_get (N := NumF32) ex_S32 5 0 0 [] <> None.
Proof. exact ex_lower32. Qed.

Theorem C48_marginals_permuted :
  forall (E : env R) fs g a val chol,
  (forall f, In f fs -> factor_ok f) -> graph_make E fs = Ok g -> assigns E fs a val ->
  (forall f, In f fs -> residual_shape_ok E val f) -> (forall f, In f fs -> jacobian_shape_ok E val f) -> total residual_dim fs <> 0 ->
  exists r A S, compute_whitened_residual_vector E g a = Ok r /\ compute_whitened_residual_jacobian E g a r = Ok A /\ coo_ok A /\
    scov_make chol E g a = Ok S /\ sc_layout S = g_local_layout g /\ snd (m_shape A) = l_dim (g_local_layout g) /\
    let n := snd (m_shape A) in let M := scipy_dense (as_scipy (transpose A)) in
    (forall i j, i < n -> j < n -> aat M i j = gram A i j) /\
    forall p s, is_factor_of n (aat M) p (chol M) -> minverse n (gram A) s ->
      length (sc_L S) = n /\ lower (sc_L S) /\
      forall ch fuel i j, history S ch -> i < n -> j < n -> 2 * n + 1 <= fuel ->
        exists ch', cov_get S fuel i j ch = Some (s (p i) (p j), ch') /\ history S ch'.
Proof. exact make_covariance. Qed.
Print Assumptions C48_marginals_permuted.

Theorem C48_marginals_of_the_variables_refuted :
  exists (E : env R) fs g a val chol p r A S s v M ch',
  (forall f, In f fs -> factor_ok f) /\ graph_make E fs = Ok g /\ assigns E fs a val /\
  (forall f, In f fs -> residual_shape_ok E val f) /\ (forall f, In f fs -> jacobian_shape_ok E val f) /\ total residual_dim fs <> 0 /\
  compute_whitened_residual_vector E g a = Ok r /\ compute_whitened_residual_jacobian E g a r = Ok A /\
  is_factor_of (snd (m_shape A)) (aat (scipy_dense (as_scipy (transpose A)))) p (chol (scipy_dense (as_scipy (transpose A)))) /\
  minverse (snd (m_shape A)) (gram A) s /\ scov_make chol E g a = Ok S /\
  dict_get (l_index (sc_layout S)) v = Some 0 /\ compute_marginal (e_cls E) S 5 [v] [] = Ok (Some (M, ch')) /\ ent M 0 0 <> s 0 0.
Proof. exact permutation_wrong. Qed.
Print Assumptions C48_marginals_of_the_variables_refuted.

Example C48_example : exists g r A S, graph_make (exSE (N := NumR)) ex_two = Ok g /\
  compute_whitened_residual_vector exSE g ex_twoa = Ok r /\ compute_whitened_residual_jacobian exSE g ex_twoa r = Ok A /\
  scov_make (ex_chol2 (fun i => i)) exSE g ex_twoa = Ok S /\
  is_factor_of 2 (aat (scipy_dense (as_scipy (transpose A)))) (fun i => i) (ex_chol2 (fun i => i) (scipy_dense (as_scipy (transpose A)))) /\
  minverse 2 (gram A) ex_sigma /\ exists M ch', compute_marginal exC S 5 [vx] [] = Ok (Some (M, ch')) /\ ent M 0 0 = ex_sigma 0 0.
Proof. exact ex_identity_right. Qed.

Theorem C59_depth_bound :
  forall (T : Type) (N : Num T) (S : scov T) ch fuel i j, lower (sc_L S) -> history S ch ->
  i < length (sc_L S) -> j < length (sc_L S) -> 2 * length (sc_L S) + 1 <= fuel -> cov_get S fuel i j ch <> None.
Proof. exact @depth_bound. Qed.
Print Assumptions C59_depth_bound.

Theorem C59_constant_depth_refuted :
  forall (T : Type) (N : Num T) n d l fuel, 0 < n -> let S := mkScov (chain n) d l in
  lower (sc_L S) /\ length (sc_L S) = n /\ history S [] /\ (cov_get S fuel 0 0 [] = None <-> fuel < 2 * n - 1).
Proof. exact @depth_linear. Qed.
Print Assumptions C59_constant_depth_refuted.
