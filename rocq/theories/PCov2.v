(* Marginals, the permutation and the recursion depth of the sparse covariance. *)
From Coq Require Import List Arith Bool Reals Lra Lia Permutation FinFun.
From Verif Require Import Num NumR Py Arr MLayout MAssign MNoise MSparse MFactor MGraph MCov SpecLayout SpecSparse SpecTree SpecAssign SpecGraph SpecNoise SpecCov.
From Verif Require Import PBase PLayout PVec PSum PTri PCov PSparse PGraph PGraph2 PGraph3 PGraph4 PExGraph PExSparse.
Import ListNotations.

(* ---- C47 ---- *)
Section Marg.
Context {T : Type} {N : Num T}.
Variable C : cenv (T := T).

Lemma indices_ok (L : layout) vs acc (ix : var -> nat) : (forall v, In v vs -> dict_get (l_index L) v = Some (ix v)) ->
  foldM (fun acc v => i <- dict_getE (l_index L) v ;; Ok (acc ++ arange i (vldim C v))) vs acc =
    Ok (acc ++ flat_map (fun v => seq (ix v) (vldim C v)) vs).
Proof.
  revert acc. induction vs as [|v vs IH]; intros acc H; cbn [foldM flat_map]; [rewrite app_nil_r; auto|].
  unfold dict_getE at 1. rewrite (H v (or_introl eq_refl)). cbn [bind]. rewrite IH by (intros; apply H; right; auto).
  rewrite <- app_assoc. auto.
Qed.
Lemma indices_missing (L : layout) vs acc v : In v vs -> dict_get (l_index L) v = None ->
  foldM (fun acc v => i <- dict_getE (l_index L) v ;; Ok (acc ++ arange i (vldim C v))) vs acc = Err KeyError.
Proof.
  revert acc. induction vs as [|w vs IH]; intros acc Hin Hn; [destruct Hin|]. cbn [foldM]. unfold dict_getE at 1.
  destruct Hin as [->|Hin]; [rewrite Hn; auto|]. destruct (dict_get (l_index L) w); cbn [bind]; auto.
Qed.
Lemma flat_seq_nth (dim ix : var -> nat) vs a v o p : nth_error (place dim 0 vs) a = Some (v, o) -> p < dim v ->
  nth_error (flat_map (fun v => seq (ix v) (dim v)) vs) (o + p) = Some (ix v + p).
Proof.
  assert (H : forall vs a o0, nth_error (place dim o0 vs) a = Some (v, o) -> p < dim v ->
    o0 <= o /\ nth_error (flat_map (fun v => seq (ix v) (dim v)) vs) (o - o0 + p) = Some (ix v + p)).
  { clear. induction vs as [|w vs IH]; intros a o0 Ha Hp; [destruct a; discriminate|]. cbn [place] in Ha. destruct a as [|a].
    - cbn in Ha. injection Ha as -> ->. split; auto. cbn [flat_map]. rewrite Nat.sub_diag, nth_error_app1 by (rewrite seq_length; auto).
      apply nth_error_seq. auto.
    - cbn [nth_error] in Ha. destruct (IH a (o0 + dim w) Ha Hp) as (Hle & Hn). split; [lia|]. cbn [flat_map].
      rewrite nth_error_app2 by (rewrite seq_length; lia). rewrite seq_length. rewrite <- Hn. f_equal. lia. }
  intros Ha Hp. destruct (H vs a 0 Ha Hp) as (_ & Hn). rewrite Nat.sub_0_r in Hn. auto.
Qed.
Lemma flat_seq_length (dim ix : var -> nat) vs : length (flat_map (fun v => seq (ix v) (dim v)) vs) = total dim vs.
Proof. induction vs as [|v vs IH]; cbn [flat_map]; auto. rewrite app_length, seq_length, IH. auto. Qed.

Lemma marginal_blocks S lvs vs ch fuel : lower (sc_L S) -> NoDup lvs -> sc_layout S = make_layout C lvs true ->
  length (sc_L S) = l_dim (sc_layout S) -> history S ch -> 2 * length (sc_L S) + 1 <= fuel ->
  ((forall v, In v vs -> In v lvs) ->
    exists M ch', compute_marginal C S fuel vs ch = Ok (Some (M, ch')) /\ history S ch' /\
      length M = total (vldim C) vs /\ Forall (fun row => length row = total (vldim C) vs) M /\
      forall a b va vb oa ob p q ia ib,
        nth_error (place (vldim C) 0 vs) a = Some (va, oa) -> nth_error (place (vldim C) 0 vs) b = Some (vb, ob) ->
        p < vldim C va -> q < vldim C vb -> dict_get (l_index (sc_layout S)) va = Some ia -> dict_get (l_index (sc_layout S)) vb = Some ib ->
        exists row x, nth_error M (oa + p) = Some row /\ nth_error row (ob + q) = Some x /\
          forall ch0, history S ch0 -> exists ch1, cov_get S fuel (ia + p) (ib + q) ch0 = Some (x, ch1)) /\
  ((exists v, In v vs /\ ~ In v lvs) -> compute_marginal C S fuel vs ch = Err KeyError).
Proof.
  intros Hlow Hnd HL Hdim Hh Hf. split.
  - intros Hin. set (ix := fun v => match dict_get (l_index (sc_layout S)) v with Some i => i | None => 0 end).
    assert (Hix : forall v, In v lvs -> dict_get (l_index (sc_layout S)) v = Some (ix v)).
    { intros v Hv. unfold ix. rewrite HL. apply (lay_index_mem C lvs true Hnd v) in Hv. destruct Hv as (i & ->). auto. }
    assert (Hbnd : forall v, In v lvs -> ix v + vldim C v <= length (sc_L S)).
    { intros v Hv. rewrite Hdim, HL. apply (lay_bound C lvs true Hnd v). rewrite <- HL. auto. }
    unfold compute_marginal, marginal_indices. rewrite (indices_ok _ vs [] ix) by auto. cbn [bind app].
    set (idx := flat_map (fun v => seq (ix v) (vldim C v)) vs).
    assert (Hidx : Forall (fun i => i < length (sc_L S)) idx).
    { apply Forall_forall. intros i Hi. apply in_flat_map in Hi. destruct Hi as (v & Hv & Hi). apply in_seq in Hi. specialize (Hbnd v (Hin v Hv)). lia. }
    unfold marginal_of_indices. destruct (history_rows S Hlow fuel idx idx ch Hh Hidx Hidx Hf) as (ch' & -> & Hh').
    exists (map (fun i => map (val S i) idx) idx), ch'. split; auto. split; auto.
    split; [rewrite map_length; apply flat_seq_length|].
    split; [apply Forall_forall; intros row Hr; apply in_map_iff in Hr; destruct Hr as (i & <- & _); rewrite map_length; apply flat_seq_length|].
    intros a b va vb oa ob p q ia ib Ha Hb Hp Hq Hia Hib.
    assert (Hva : ix va = ia) by (unfold ix; rewrite Hia; auto). assert (Hvb : ix vb = ib) by (unfold ix; rewrite Hib; auto).
    pose proof (flat_seq_nth (vldim C) ix vs a va oa p Ha Hp) as Na. pose proof (flat_seq_nth (vldim C) ix vs b vb ob q Hb Hq) as Nb. fold idx in Na, Nb.
    rewrite Hva in Na. rewrite Hvb in Nb.
    exists (map (val S (ia + p)) idx), (val S (ia + p) (ib + q)).
    split; [rewrite nth_error_map, Na; auto|]. split; [rewrite nth_error_map, Nb; auto|].
    intros ch0 H0. rewrite Forall_forall in Hidx.
    destruct (history_get S Hlow ch0 fuel (ia + p) (ib + q) H0) as (ch1 & E & _); auto.
    + apply Hidx. eapply nth_error_In; eauto.
    + apply Hidx. eapply nth_error_In; eauto.
    + eauto.
  - intros (v & Hv & Hn). unfold compute_marginal, marginal_indices. rewrite (indices_missing _ vs [] v Hv); auto.
    destruct (dict_get (l_index (sc_layout S)) v) as [i|] eqn:E; auto. exfalso. apply Hn. rewrite HL in E. apply (lay_index_mem C lvs true Hnd v). eauto.
Qed.

(* ---- C59: recursion depth ---- *)
Lemma chain_length n : length (chain n) = n.
Proof. unfold chain. rewrite map_length, seq_length. auto. Qed.
Lemma chain_col n j : j < n -> nth j (chain n) [] = if Nat.ltb (j + 1) n then [(j, n1); (j + 1, n1)] else [(j, n1)].
Proof. intros H. unfold chain. rewrite (nth_map' _ _ _ _ 0) by (rewrite seq_length; auto). rewrite seq_nth by auto. auto. Qed.
Lemma chain_lower n : lower (chain n).
Proof.
  intros j col Hj. rewrite chain_length. assert (Hjn : j < n) by (rewrite <- (chain_length n); apply nth_error_Some; congruence).
  apply (nth_error_nth _ _ []) in Hj. rewrite chain_col in Hj by auto. subst col. destruct (Nat.ltb_spec (j + 1) n); repeat constructor; cbn; lia.
Qed.
Lemma chain_step n d l fuel i : i + 1 < n -> let S := mkScov (chain n) d l in
  cov_get S (2 + fuel) i i [] = None <-> cov_get S fuel (i + 1) (i + 1) [] = None.
Proof.
  intros Hi S. cbn [plus cov_get]. rewrite !Nat.min_id, !Nat.max_id, Nat.eqb_refl. cbn [dict_get sc_L S].
  rewrite chain_col by lia. rewrite (proj2 (Nat.ltb_lt (i + 1) n)) by auto. cbn [sum_entries].
  rewrite Nat.eqb_refl. destruct (Nat.eqb_spec i (i + 1)); [lia|]. rewrite Nat.min_r, Nat.max_l by lia. cbn [dict_get].
  destruct (Nat.eqb_spec i (i + 1)); [lia|]. rewrite chain_col by lia. rewrite (proj2 (Nat.ltb_lt (i + 1) n)) by auto. cbn [sum_entries].
  rewrite Nat.eqb_refl. destruct (Nat.eqb_spec i (i + 1)); [lia|]. fold S.
  destruct (cov_get S fuel (i + 1) (i + 1) []) as [(x, ch)|]; split; congruence.
Qed.
Lemma chain_last n d l fuel : 0 < n -> cov_get (mkScov (chain n) d l) fuel (n - 1) (n - 1) [] = None <-> fuel = 0.
Proof.
  intros Hn. destruct fuel as [|f]; [split; auto|]. cbn [cov_get]. rewrite Nat.min_id, Nat.max_id, Nat.eqb_refl. cbn [dict_get sc_L].
  rewrite chain_col by lia. destruct (Nat.ltb_spec (n - 1 + 1) n); [lia|]. cbn [sum_entries]. rewrite Nat.eqb_refl. split; discriminate.
Qed.
Lemma chain_depth n d l : 0 < n -> forall k fuel, k < n ->
  cov_get (mkScov (chain n) d l) fuel (n - 1 - k) (n - 1 - k) [] = None <-> fuel < 2 * k + 1.
Proof.
  intros Hn. induction k as [|k IH]; intros fuel Hk.
  - rewrite Nat.sub_0_r, chain_last by auto. lia.
  - destruct fuel as [|[|f]].
    + split; [lia | auto].
    + split; [lia|]. intros _. cbn [cov_get]. rewrite Nat.min_id, Nat.max_id, Nat.eqb_refl. cbn [dict_get sc_L].
      rewrite chain_col by lia. rewrite (proj2 (Nat.ltb_lt (n - 1 - Datatypes.S k + 1) n)) by lia. cbn [sum_entries]. rewrite Nat.eqb_refl.
      destruct (Nat.eqb_spec (n - 1 - Datatypes.S k) (n - 1 - Datatypes.S k + 1)); [lia | auto].
    + change (Datatypes.S (Datatypes.S f)) with (2 + f). rewrite chain_step by lia. replace (n - 1 - Datatypes.S k + 1) with (n - 1 - k) by lia.
      rewrite IH by lia. lia.
Qed.
Lemma depth_linear n d l fuel : 0 < n -> let S := mkScov (chain n) d l in
  lower (sc_L S) /\ length (sc_L S) = n /\ history S [] /\ (cov_get S fuel 0 0 [] = None <-> fuel < 2 * n - 1).
Proof.
  intros Hn S. split; [apply chain_lower|]. split; [apply chain_length|]. split; [constructor|].
  pose proof (chain_depth n d l Hn (n - 1) fuel ltac:(lia)) as H. replace (n - 1 - (n - 1)) with 0 in H by lia. unfold S. rewrite H. lia.
Qed.
End Marg.

(* ---- C48 ---- *)
Local Open Scope R_scope.
Lemma sumn_perm n p f : is_perm n p -> sumn n (fun k => f (p k)) = sumn n f.
Proof.
  intros (Hr & Hi). unfold sumn. rewrite <- (map_map p f). apply vsum_perm. apply Permutation_map.
  apply NoDup_Permutation_bis.
  - assert (H : forall l, NoDup l -> (forall x, In x l -> (x < n)%nat) -> NoDup (map p l)).
    { clear -Hi. induction 1 as [|x l Hx Hl IH]; intros Hb; cbn; constructor.
      - intros Hin. apply in_map_iff in Hin. destruct Hin as (y & E & Hy). apply Hx. rewrite <- (Hi y x); auto; apply Hb; [right; auto | left; auto].
      - apply IH. intros; apply Hb; right; auto. }
    apply H; [apply seq_NoDup | intros x Hx; apply in_seq in Hx; lia].
  - rewrite map_length. auto.
  - intros y Hy. apply in_map_iff in Hy. destruct Hy as (x & <- & Hx). apply in_seq in Hx. apply in_seq. specialize (Hr x ltac:(lia)). lia.
Qed.
Lemma permuted_inverse n h p s L : is_factor_of n h p L -> minverse n h s -> minverse n (llt L) (fun i j => s (p i) (p j)).
Proof.
  intros (HL & _ & _ & Hp & Heq) (Hs & Hs').
  assert (Hinj : forall i j, (i < n)%nat -> (j < n)%nat -> meye (p i) (p j) = meye i j).
  { intros i j Hi Hj. unfold meye. destruct (Nat.eqb_spec i j) as [->|Hne]; [rewrite Nat.eqb_refl; auto|].
    destruct (Nat.eqb_spec (p i) (p j)); auto. exfalso. apply Hne. apply Hp; auto. }
  split; intros i j Hi Hj; rewrite <- Hinj by auto.
  - rewrite <- Hs by (apply Hp; auto). unfold mprod. rewrite <- (sumn_perm n p (fun k => h (p i) k * s k (p j)) Hp).
    apply sumn_ext. intros k Hk. rewrite Heq by auto. auto.
  - rewrite <- Hs' by (apply Hp; auto). unfold mprod. rewrite <- (sumn_perm n p (fun k => s (p i) k * h k (p j)) Hp).
    apply sumn_ext. intros k Hk. rewrite Heq by auto. auto.
Qed.
Lemma scipy_dense_ent (A : coo R) i j : coo_ok A -> (i < fst (m_shape A))%nat -> (j < snd (m_shape A))%nat ->
  ent (scipy_dense (as_scipy A)) i j = entry A i j.
Proof.
  intros Hok Hi Hj. destruct (scipy_dense_ok A) as (Hl & Hrow).
  pose proof (scipy_dense_mapply A (unitv (snd (m_shape A)) j) Hok (unitv_length _ _)) as H.
  assert (H1 : nth i (mvec (scipy_dense (as_scipy A)) (unitv (snd (m_shape A)) j)) 0 = ent (scipy_dense (as_scipy A)) i j).
  { unfold mvec. rewrite (nth_map' _ _ _ _ ([] : list R)) by lia. rewrite vdot_comm, vdot_unitv; auto.
    rewrite Forall_forall in Hrow. apply Hrow, nth_In. lia. }
  rewrite <- H1, H, mapply_entries by (auto; apply unitv_length). unfold mat_times.
  rewrite (vsum_map_ext _ (fun k => if Nat.eqb k j then entry A i k else 0)).
  - apply (vsum_pick (snd (m_shape A)) j (fun k => entry A i k)). auto.
  - intros k Hk. apply in_seq in Hk. rewrite nth_unitv by lia. destruct (Nat.eqb k j); lra.
Qed.
Lemma aat_gram (A : coo R) i j : coo_ok A -> (i < snd (m_shape A))%nat -> (j < snd (m_shape A))%nat ->
  aat (scipy_dense (as_scipy (transpose A))) i j = gram A i j.
Proof.
  intros Hok Hi Hj. pose proof (transpose_ok A Hok) as Ht. destruct (scipy_dense_ok (transpose A)) as (Hl & Hrow). cbn [transpose m_shape fst snd] in Hl, Hrow.
  unfold aat. assert (Hlen : length (nth i (scipy_dense (as_scipy (transpose A))) []) = fst (m_shape A)).
  { rewrite Forall_forall in Hrow. apply Hrow, nth_In. rewrite Hl. auto. }
  rewrite Hlen. unfold gram, sumn. apply vsum_map_ext. intros k Hk. apply in_seq in Hk.
  rewrite !scipy_dense_ent by (auto; cbn; lia). rewrite !entry_transpose. auto.
Qed.
Lemma diagonal_fold (col : list (nat * R)) i : fold_right (fun rv acc => if Nat.eqb (fst rv) i then nadd (snd rv) acc else acc) n0 col = eentry col i.
Proof. induction col as [|rv col IH]; [reflexivity|]. rewrite eentry_cons, <- IH. cbn [fold_right]. rn. destruct (Nat.eqb (fst rv) i); lra. Qed.

Lemma make_covariance (E : env R) fs g a val chol : (forall f, In f fs -> factor_ok f) -> graph_make E fs = Ok g -> assigns E fs a val ->
  (forall f, In f fs -> residual_shape_ok E val f) -> (forall f, In f fs -> jacobian_shape_ok E val f) -> total residual_dim fs <> 0%nat ->
  exists r A S, compute_whitened_residual_vector E g a = Ok r /\ compute_whitened_residual_jacobian E g a r = Ok A /\ coo_ok A /\
    scov_make chol E g a = Ok S /\ sc_layout S = g_local_layout g /\ snd (m_shape A) = l_dim (g_local_layout g) /\
    let n := snd (m_shape A) in let M := scipy_dense (as_scipy (transpose A)) in
    (forall i j, (i < n)%nat -> (j < n)%nat -> aat M i j = gram A i j) /\
    forall p s, is_factor_of n (aat M) p (chol M) -> minverse n (gram A) s ->
      length (sc_L S) = n /\ lower (sc_L S) /\
      forall ch fuel i j, history S ch -> (i < n)%nat -> (j < n)%nat -> (2 * n + 1 <= fuel)%nat ->
        exists ch', cov_get S fuel i j ch = Some (s (p i) (p j), ch') /\ history S ch'.
Proof.
  intros Hok Hm Ha Hr Hj Hpos. destruct (made E fs g Hok Hm) as (Hg & Hne).
  destruct (cost_ok E fs g a val Hok Hne Hg Ha Hr) as (r & ws & Er & Ec & _ & _).
  assert (Hlen : length r = total residual_dim fs).
  { destruct (residual_vector_ok E fs g a val Hok Hne Hg Ha Hr) as (ws' & Hws & Er'). rewrite Er' in Er. injection Er as <-.
    assert (Hall : forall f, In f (concat (kgroups fs)) -> forall w, whitened_at E val f = Ok w -> length w = residual_dim f).
    { intros f Hf w Hw. assert (Hin : In f fs) by (apply (Permutation_in _ (kgroups_perm fs)); auto).
      destruct (whitened_at_ok E val f (proj1 (Hok f Hin)) (Hr f Hin)) as (w' & Hw' & Hl). congruence. }
    rewrite <- (total_perm residual_dim _ _ (kgroups_perm fs)). clear -Hws Hall. revert ws' Hws.
    induction (concat (kgroups fs)) as [|f l IH]; intros ws' H; cbn [traverse] in H.
    - injection H as <-. auto.
    - destruct (whitened_at E val f) as [w|] eqn:Ew; [|discriminate]. cbn [bind] in H. destruct (traverse (whitened_at E val) l) as [ys|] eqn:Ey; [|discriminate].
      injection H as <-. cbn. rewrite app_length, (Hall f (or_introl eq_refl) w Ew). rewrite (IH (fun f' H' => Hall f' (or_intror H')) ys eq_refl). auto. }
  destruct (jacobian_coo_ok E fs g a r val Hok Hj Hg Ha Hlen Hpos) as (A & EA & HA & Hshape & _).
  pose (L := chol (scipy_dense (as_scipy (transpose A)))).
  eexists r, A, _. split; auto. split; auto. split; auto. split; [unfold scov_make; rewrite Er; cbn [bind]; rewrite EA; reflexivity|].
  cbn [sc_layout sc_L]. split; auto.
  assert (Hn : snd (m_shape A) = l_dim (g_local_layout g)) by (rewrite Hshape, (ig_local _ _ _ Hg); auto).
  split; auto. split; [intros; apply aat_gram; auto|].
  intros p s Hf Hs. set (n := snd (m_shape A)) in *. fold L in Hf |- *.
  pose proof Hf as (HL & Hlow & Hd & Hp & _). split; auto. split; auto. intros ch fuel i j Hh Hi Hj' Hfu.
  match type of Hh with history ?S0 _ => set (SS := S0) in * end.
  assert (Hst : factor_stored SS).
  { split; auto. intros k Hk. cbn [sc_L sc_diag_inv SS] in *. specialize (Hd k ltac:(lia)). split; [lra|].
    rewrite map_map. rewrite (nth_map' _ _ _ _ 0%nat) by (rewrite seq_length; auto). rewrite seq_nth by auto. cbn [plus]. rewrite diagonal_fold. reflexivity. }
  assert (Hh' : minverse n (aat (scipy_dense (as_scipy (transpose A)))) s).
  { destruct Hs as (H1 & H2). split; intros i' j' Hi' Hj''; [rewrite <- (H1 i' j') by auto | rewrite <- (H2 i' j') by auto]; unfold mprod; apply sumn_ext; intros k Hk; rewrite aat_gram by auto; auto. }
  destruct (covariance_inverse SS Hst) as (_ & Hc). cbn [sc_L SS] in Hc. rewrite HL in Hc.
  destruct (Hc _ (permuted_inverse n _ p s L Hf Hh')) as (_ & Hget). apply (Hget ch fuel i j); auto.
Qed.

Lemma depth_bound {T} {N : Num T} (S : scov T) ch fuel i j : lower (sc_L S) -> history S ch -> (i < length (sc_L S))%nat ->
  (j < length (sc_L S))%nat -> (2 * length (sc_L S) + 1 <= fuel)%nat -> cov_get S fuel i j ch <> None.
Proof. intros Hl Hh Hi Hj Hf. destruct (history_get S Hl ch fuel i j Hh Hi Hj Hf) as (ch' & -> & _). discriminate. Qed.
