(* Concrete instances for the sparse covariance theorems. *)
From Coq Require Import List Arith Bool ZArith Reals Lra Lia.
From Verif Require Import Num NumR NumF32 Py Arr MLayout MAssign MNoise MSparse MFactor MGraph MCov SpecLayout SpecSparse SpecNoise SpecTree SpecAssign SpecGraph SpecCov Ex ExG ExS.
From Verif Require Import PBase PVec PSum PCov PCov2 PExGraph.
Import ListNotations.
Local Open Scope R_scope.

(* a 3 x 3 factor with fill below the diagonal *)
Definition ex_L : csc R := [[(0%nat, 2); (2%nat, 1)]; [(1%nat, 4); (2%nat, -1)]; [(2%nat, 3)]].
Definition vz : var := mkVar 5%nat 2%nat.
Definition ex_S : scov R := mkScov ex_L [1 / 2; 1 / 4; 1 / 3] (make_layout exC [vx; vy; vz] true).
Ltac cases3 i := destruct i as [|[|[|i]]]; try lia.
Lemma ex_stored : factor_stored ex_S /\ l_dim (sc_layout ex_S) = length (sc_L ex_S) /\
  exists inv, is_inverse 3 (csc_dense 3 (sc_L ex_S)) (inv (csc_dense 3 (sc_L ex_S))).
Proof.
  split; [split|].
  - intros j col Hj. cases3 j; cbn in Hj; try discriminate; try (injection Hj as <-; repeat constructor; cbn; lia). destruct j; discriminate.
  - intros i Hi. cbn in Hi. cases3 i; (split; unfold centry; cbn; unfold vsum; cbn; lra).
  - split; [reflexivity|]. exists (fun _ => [[1 / 2; 0; 0]; [0; 1 / 4; 0]; [- (1 / 6); 1 / 12; 1 / 3]]).
    split; [split; [reflexivity | repeat constructor]|]. intros i j Hi Hj. cases3 i; cases3 j; unfold sumn, ent; cbn; unfold vsum; cbn; lra.
Qed.
(* in binary32: the query returns after five nested calls, and not with fewer *)
#[local] Existing Instance NumF32.
Definition ex_S32 : scov f32 := mkScov (chain (N := NumF32) 3) [n1; n1; n1] (make_layout exC [vx; vy; vz] true).
Lemma ex_lower32 : lower (sc_L ex_S32) /\ (exists x ch, cov_get ex_S32 7 0 0 [] = Some (x, ch) /\ x = lit 3) /\
  l_dim (sc_layout ex_S32) = length (sc_L ex_S32) /\
  (exists M ch, compute_marginal exC ex_S32 7 [vz; vx] [] = Ok (Some (M, ch)) /\ M = [[n1; n1]; [n1; lit 3]]) /\
  compute_marginal exC ex_S32 7 [mkVar 9%nat 2%nat; vx] [] = Err KeyError /\
  cov_get ex_S32 4 0 0 [] = None /\ cov_get ex_S32 5 0 0 [] <> None.
Proof.
  split; [apply chain_lower|]. split; [eexists _, _; split; [vm_compute; reflexivity | vm_compute; reflexivity]|].
  split; [reflexivity|]. split; [eexists _, _; split; [vm_compute; reflexivity | vm_compute; reflexivity]|].
  split; [reflexivity|]. split; [reflexivity | vm_compute; discriminate].
Qed.

(* two scalar variables, the second measured with twice the precision *)
Definition weak (v : var) : factor R := mkFactor 21 [v] (DiagGaussian (mkArr [1%nat] [lit 2])) [leaf1 [lit 0]].
Definition ex_two : list (factor R) := [anchor (N := NumR) vx 0; weak vy].
Definition ex_twoa : assign R := scalars (N := NumR) [vx; vy] [3; 5].
Definition ex_twoval (v : var) : pytree R := leaf1 (if eqb v vx then [3] else [5]).
Definition ex_swap (i : nat) : nat := match i with O => 1%nat | S O => O | _ => i end.
Definition ex_chol2 (p : nat -> nat) (_ : list (list R)) : csc R := [[(0%nat, IZR (Z.of_nat (1 + p 0%nat)))]; [(1%nat, IZR (Z.of_nat (1 + p 1%nat)))]].
Definition ex_sigma (i j : nat) : R := if Nat.eqb i j then (if Nat.eqb i 0 then 1 else 1 / 4) else 0.

Lemma ex_two_ok : (forall f, In f ex_two -> factor_ok f) /\ (exists g, graph_make (exSE (N := NumR)) ex_two = Ok g) /\
  assigns exSE ex_two ex_twoa ex_twoval /\ (forall f, In f ex_two -> residual_shape_ok exSE ex_twoval f) /\
  (forall f, In f ex_two -> jacobian_shape_ok exSE ex_twoval f) /\ total residual_dim ex_two <> 0%nat.
Proof.
  assert (Hok : forall f, In f ex_two -> factor_ok f).
  { intros f [<-|[<-|[]]]; (split; [split; [reflexivity | exists 1%nat; reflexivity] | repeat constructor]). }
  split; [exact Hok|]. split.
  - destruct (PGraph.graph_make_ok exSE ex_two Hok) as (H & _).
    destruct H as (g & Eg & _); [eexists; split; [left; reflexivity | discriminate] | eauto].
  - split; [|split; [|split; [|discriminate]]].
    + exists [vx; vy]. split; [split; [repeat constructor; simpl; intuition discriminate | split; reflexivity]|]. split.
      * intros v. simpl. tauto.
      * intros v [<-|[<-|[]]]; reflexivity.
    + intros f [<-|[<-|[]]]; reflexivity.
    + intros f [<-|[<-|[]]]; repeat constructor.
Qed.
Lemma ex_perm p : (p = ex_swap \/ p = fun i => i) -> is_perm 2 p.
Proof. intros [-> | ->]; split; intros; destruct i as [|[|i]]; try destruct j as [|[|j]]; cbn in *; lia. Qed.
(* both the identity and the swap are permutations CHOLMOD may choose here *)
Lemma ex_two_make p : (p = ex_swap \/ p = fun i => i) -> exists g r A S, graph_make (exSE (N := NumR)) ex_two = Ok g /\
  compute_whitened_residual_vector exSE g ex_twoa = Ok r /\ compute_whitened_residual_jacobian exSE g ex_twoa r = Ok A /\
  scov_make (ex_chol2 p) exSE g ex_twoa = Ok S /\ snd (m_shape A) = 2%nat /\
  is_factor_of 2 (aat (scipy_dense (as_scipy (transpose A)))) p (ex_chol2 p (scipy_dense (as_scipy (transpose A)))) /\
  minverse 2 (gram A) ex_sigma /\ dict_get (l_index (sc_layout S)) vx = Some 0%nat /\
  forall ch, history S ch -> exists M ch', compute_marginal exC S 5 [vx] ch = Ok (Some (M, ch')) /\ ent M 0 0 = ex_sigma (p 0%nat) (p 0%nat).
Proof.
  intros Hp. destruct ex_two_ok as (H1 & (g & Eg) & H3 & H4 & H5 & H6).
  destruct (make_covariance exSE ex_two g ex_twoa ex_twoval (ex_chol2 p) H1 Eg H3 H4 H5 H6) as (r & A & S & Er & EA & HA & ES & Hlay & Hdim & Hgram & Hcov).
  assert (Eg' : exists g', graph_make (exSE (N := NumR)) ex_two = Ok g' /\ exists r', compute_whitened_residual_vector exSE g' ex_twoa = Ok r' /\
    exists v1 v2, compute_whitened_residual_jacobian exSE g' ex_twoa r' = Ok (mkCoo [v1; v2] (mkCoords [0%nat; 1%nat] [0%nat; 1%nat]) (2%nat, 2%nat)) /\ v1 = 1 /\ v2 = 2 /\
    g_local_layout g' = make_layout exC [vx; vy] true).
  { eexists. split; [lazy -[Rplus Rmult Ropp Rinv Rminus Rdiv IZR Rlit]; reflexivity|].
    eexists. split; [lazy -[Rplus Rmult Ropp Rinv Rminus Rdiv IZR Rlit]; reflexivity|].
    eexists _, _. split; [lazy -[Rplus Rmult Ropp Rinv Rminus Rdiv IZR Rlit]; reflexivity|].
    split; [lra|]. split; [unfold Rlit; lra | reflexivity]. }
  destruct Eg' as (g' & Eg' & r' & Er' & v1 & v2 & EA' & -> & -> & HLg).
  assert (g' = g) by congruence. subst g'. assert (r' = r) by congruence. subst r'.
  assert (HAe : A = mkCoo [1; 2] (mkCoords [0%nat; 1%nat] [0%nat; 1%nat]) (2%nat, 2%nat)) by congruence.
  exists g, r, A, S. split; auto. split; auto. split; auto. split; auto.
  assert (Hn : snd (m_shape A) = 2%nat) by (rewrite HAe; auto). rewrite Hn in *. split; auto.
  assert (Hg : forall i j, (i < 2)%nat -> (j < 2)%nat -> gram A i j = if Nat.eqb i j then (if Nat.eqb i 0 then 1 else 4) else 0).
  { intros i j Hi Hj. rewrite HAe. destruct i as [|[|i]]; try lia; destruct j as [|[|j]]; try lia; unfold gram, entry; cbn; unfold vsum; cbn; lra. }
  assert (Hf : is_factor_of 2 (aat (scipy_dense (as_scipy (transpose A)))) p (ex_chol2 p (scipy_dense (as_scipy (transpose A))))).
  { split; [reflexivity|]. split.
    - intros j col Hj. destruct j as [|[|j]]; cbn in Hj; try (injection Hj as <-; repeat constructor; cbn; lia). destruct j; discriminate.
    - split; [|split; [apply ex_perm; auto|]].
      + intros i Hi. destruct i as [|[|i]]; try lia; destruct Hp as [-> | ->]; unfold centry; cbn; unfold vsum; cbn; lra.
      + intros i j Hi Hj. rewrite Hgram by (apply (ex_perm p Hp); auto). rewrite Hg by (apply (ex_perm p Hp); auto).
        destruct i as [|[|i]]; try lia; destruct j as [|[|j]]; try lia; destruct Hp as [-> | ->]; unfold llt, mprod, mtr, sumn, centry; cbn; unfold vsum; cbn; lra. }
  split; auto.
  assert (Hs : minverse 2 (gram A) ex_sigma).
  { split; intros i j Hi Hj; unfold mprod, sumn; cbn [map seq]; rewrite !Hg by lia; unfold vsum, ex_sigma, meye;
    (destruct i as [|[|i]]; try lia; destruct j as [|[|j]]; try lia; cbn; lra). }
  split; auto. split; [rewrite Hlay, HLg; reflexivity|].
  intros ch Hh. destruct (Hcov p ex_sigma Hf Hs) as (HSL & Hlow & Hget).
  destruct (marginal_blocks exC S [vx; vy] [vx] ch 5 Hlow) as (Hm & _); auto.
  { repeat constructor; simpl; intuition discriminate. } { rewrite Hlay. auto. } { rewrite HSL, Hlay. auto. } { rewrite HSL. lia. }
  destruct Hm as (M & ch' & EM & _ & _ & _ & Hb). { intros v [<-|[]]. left; auto. }
  exists M, ch'. split; auto.
  destruct (Hb 0%nat 0%nat vx vx 0%nat 0%nat 0%nat 0%nat 0%nat 0%nat eq_refl eq_refl) as (row & x & Hrow & Hx & Hq); try (cbn; lia).
  { rewrite Hlay, HLg. reflexivity. } { rewrite Hlay, HLg. reflexivity. }
  cbn [plus] in *. destruct (Hq [] (h_new S)) as (c1 & Hq1). destruct (Hget [] 5%nat 0%nat 0%nat (h_new S)) as (c2 & Hq2 & _); try lia.
  assert (Hxe : x = ex_sigma (p 0%nat) (p 0%nat)) by congruence. rewrite <- Hxe. unfold ent.
  rewrite (nth_error_nth _ _ _ Hrow). apply (nth_error_nth _ _ _ Hx).
Qed.
Lemma permutation_wrong : exists (E : env R) fs g a val chol p r A S s v M ch',
  (forall f, In f fs -> factor_ok f) /\ graph_make E fs = Ok g /\ assigns E fs a val /\
  (forall f, In f fs -> residual_shape_ok E val f) /\ (forall f, In f fs -> jacobian_shape_ok E val f) /\ total residual_dim fs <> 0%nat /\
  compute_whitened_residual_vector E g a = Ok r /\ compute_whitened_residual_jacobian E g a r = Ok A /\
  is_factor_of (snd (m_shape A)) (aat (scipy_dense (as_scipy (transpose A)))) p (chol (scipy_dense (as_scipy (transpose A)))) /\
  minverse (snd (m_shape A)) (gram A) s /\ scov_make chol E g a = Ok S /\
  dict_get (l_index (sc_layout S)) v = Some 0%nat /\ compute_marginal (e_cls E) S 5 [v] [] = Ok (Some (M, ch')) /\ ent M 0 0 <> s 0%nat 0%nat.
Proof.
  destruct ex_two_ok as (H1 & _ & H3 & H4 & H5 & H6).
  destruct (ex_two_make ex_swap (or_introl eq_refl)) as (g & r & A & S & Eg & Er & EA & ES & Hn & Hf & Hs & Hix & Hm).
  destruct (Hm [] (h_new S)) as (M & ch' & EM & HM).
  exists exSE, ex_two, g, ex_twoa, ex_twoval, (ex_chol2 ex_swap), ex_swap, r, A, S, ex_sigma, vx, M, ch'. rewrite Hn.
  do 13 (split; [auto|]). rewrite HM. unfold ex_sigma. cbn. lra.
Qed.
Lemma ex_identity_right : exists g r A S, graph_make (exSE (N := NumR)) ex_two = Ok g /\
  compute_whitened_residual_vector exSE g ex_twoa = Ok r /\ compute_whitened_residual_jacobian exSE g ex_twoa r = Ok A /\
  scov_make (ex_chol2 (fun i => i)) exSE g ex_twoa = Ok S /\
  is_factor_of 2 (aat (scipy_dense (as_scipy (transpose A)))) (fun i => i) (ex_chol2 (fun i => i) (scipy_dense (as_scipy (transpose A)))) /\
  minverse 2 (gram A) ex_sigma /\ exists M ch', compute_marginal exC S 5 [vx] [] = Ok (Some (M, ch')) /\ ent M 0 0 = ex_sigma 0 0.
Proof.
  destruct (ex_two_make (fun i => i) (or_intror eq_refl)) as (g & r & A & S & Eg & Er & EA & ES & Hn & Hf & Hs & Hix & Hm).
  exists g, r, A, S. do 6 (split; [auto|]). apply (Hm [] (h_new S)).
Qed.
