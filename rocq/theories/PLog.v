(* What the solvers print.  For every arithmetic. *)
From Coq Require Import List Arith Bool ZArith Lia.
From Verif Require Import Num Py Arr MLayout MAssign MNoise MSparse MFactor MGraph MLinear MSolver MLog SpecLayout SpecTree SpecAssign SpecGraph SpecSolver SpecLog.
From Verif Require Import PBase PLayout PAssign PAssign2 PGraph PGraph2 PGraph4 PExGraph PSolver PSolver2.
Import ListNotations.

Section AnyNum.
Context {T : Type} {N : Num T}.
Variable E : env T.
Let C := e_cls E.

Lemma cost_update fs g ws vs a b : classes_ok C -> (forall f, In f fs -> factor_ok f) -> graph_make E fs = Ok g ->
  wf_assign C ws false a -> (forall v, In v ws <-> In v (mentioned fs)) -> NoDup vs -> (forall v, In v ws <-> In v vs) ->
  update_storage_layout C a (make_layout C vs false) = Ok b -> compute_cost E g b = compute_cost E g a.
Proof.
  intros CO Hok Hg Hwf Hm ND Hv Hu. destruct (made E fs g Hok Hg) as (Hgr & _).
  destruct (update_ok C ws vs false a Hwf ND Hv) as (b1 & E1 & _ & Hcase & Hlen & _). rewrite Hu in E1. injection E1 as <-.
  destruct (update_values C ws vs a CO Hwf ND Hv) as (b2 & E2 & _ & Hval). rewrite Hu in E2. injection E2 as <-.
  set (val := fun v => match get_value C a v with Ok x => x | Err _ => Node 0 [] end).
  assert (Ha : forall v, In v ws -> get_value C a v = Ok (val v)).
  { intros v Hi. destruct (get_value_ok C CO ws a v Hwf Hi) as (x & Ex & _). unfold val. rewrite Ex. auto. }
  symmetry. apply (layout_independent E fs g a b val [] (fun x => x) (fun _ => n0)); auto.
  - exists ws. auto.
  - destruct Hcase as [->|HL].
    + exists ws. auto.
    + exists vs. split; [split; [auto|]; split; [auto | rewrite Hlen, HL; auto]|]. split; [intros v; rewrite <- Hv; auto|].
      intros v Hi. fold C. rewrite Hval. apply Ha. apply Hv; auto.
Qed.

Section Loop.
Variable verbose : bool.
Variable show : sstate T -> message T.
Variable step : sstate T -> result (sstate T).
Let say : message T -> list (message T) := MLog.say verbose.

Lemma loop_log : forall fuel s ms,
  match while_loop fuel (fun s => negb (s_done s)) step s with
  | None => while_loop fuel (fun s => negb (s_done (fst s))) (logged verbose show step) (s, ms) = None
  | Some (Err e) => while_loop fuel (fun s => negb (s_done (fst s))) (logged verbose show step) (s, ms) = Some (Err e)
  | Some (Ok s') => exists k st, trail step k s st s' /\ (forall i, i < k -> s_done (st i) = false) /\ s_done s' = true /\
      while_loop fuel (fun s => negb (s_done (fst s))) (logged verbose show step) (s, ms) = Some (Ok (s', ms ++ flat_map (fun i => say (show (st i))) (seq 0 k)))
  end.
Proof.
  induction fuel as [|fuel IH]; intros s ms; cbn [while_loop fst]; destruct (s_done s) eqn:Ed; cbn [negb].
  - exists 0, (fun _ => s). split; [split; [auto|]; split; [auto | intros; lia]|]. split; [intros; lia|]. split; auto. cbn. rewrite app_nil_r. auto.
  - auto.
  - exists 0, (fun _ => s). split; [split; [auto|]; split; [auto | intros; lia]|]. split; [intros; lia|]. split; auto. cbn. rewrite app_nil_r. auto.
  - unfold logged at 1 3 5. cbn [fst snd]. destruct (step s) as [s1|] eqn:Es; cbn [bind]; auto.
    specialize (IH s1 (ms ++ say (show s))). fold say. destruct (while_loop fuel _ step s1) as [[s'|]|]; auto.
    destruct IH as (k & st & (H0 & Hk & Hst) & Hd & Hd' & Hl). exists (S k), (fun i => match i with O => s | S j => st j end).
    split; [split; [auto|]; split; [auto|]|split; [|split; auto]].
    + intros [|i] Hi; [rewrite H0; auto | apply Hst; lia].
    + intros [|i] Hi; auto. apply Hd; lia.
    + rewrite Hl. cbn [seq flat_map]. rewrite <- app_assoc, <- seq_shift, !flat_map_concat_map, map_map. auto.
Qed.
Lemma iterate_log : forall n s ms,
  match iterate n step s with
  | Err e => iterate n (logged verbose show step) (s, ms) = Err e
  | Ok s' => exists st, trail step n s st s' /\ iterate n (logged verbose show step) (s, ms) = Ok (s', ms ++ flat_map (fun i => say (show (st i))) (seq 0 n))
  end.
Proof.
  induction n as [|n IH]; intros s ms; cbn [iterate].
  - exists (fun _ => s). split; [split; [auto|]; split; [auto | intros; lia]|]. cbn. rewrite app_nil_r. auto.
  - unfold logged at 1 3. cbn [fst snd]. destruct (step s) as [s1|] eqn:Es; cbn [bind]; auto.
    specialize (IH s1 (ms ++ say (show s))). fold say. destruct (iterate n step s1) as [s'|]; auto.
    destruct IH as (st & (H0 & Hk & Hst) & Hl). exists (fun i => match i with O => s | S j => st j end).
    split; [split; [auto|]; split; [auto|]|].
    + intros [|i] Hi; [rewrite H0; auto | apply Hst; lia].
    + rewrite Hl. cbn [seq flat_map]. rewrite <- app_assoc, <- seq_shift, !flat_map_concat_map, map_map. auto.
Qed.
Hypothesis Hinc : forall s s', step s = Ok s' -> s_iter s' = S (s_iter s).
Lemma trail_iter k s st s' : trail step k s st s' -> forall i, i <= k -> s_iter (st i) = s_iter s + i.
Proof.
  intros (H0 & _ & Hst). induction i as [|i IH]; intros Hi; [rewrite H0; lia|]. rewrite (Hinc (st i)) by (apply Hst; lia). rewrite IH; lia.
Qed.
Lemma trail_runs k s st s' : trail step k s st s' -> (forall i, i < k -> s_done (st i) = false) -> forall i, i <= k -> runs step i s (st i).
Proof.
  intros (H0 & _ & Hst) Hd. induction i as [|i IH]; intros Hi; [rewrite H0; constructor|].
  apply runs_snoc. exists (st i). split; [apply IH; lia|]. split; [apply Hd; lia | apply Hst; lia].
Qed.
End Loop.
End AnyNum.

Section Props.
Context {T : Type} {N : Num T}.
Variable E : env T.
Let C := e_cls E.

Lemma say_all (f : nat -> message T) l : flat_map (fun i => say true (f i)) l = map f l.
Proof. induction l as [|a l IH]; [reflexivity|]. cbn [flat_map map say app]. rewrite <- IH. reflexivity. Qed.
Lemma say_none (f : nat -> message T) l : flat_map (fun i => say false (f i)) l = [].
Proof. induction l as [|a l IH]; [reflexivity|]. exact IH. Qed.

(* any solver of the convergence-controlled form *)
Lemma solve_log verbose fuel show step extra g init :
  match solve_with E fuel step extra g init with
  | None => solve_logged E verbose fuel show step extra g init = None
  | Some (Err e) => solve_logged E verbose fuel show step extra g init = Some (Err e, [])
  | Some (Ok a') => exists a c res k st, update_storage_layout C init (g_layout g) = Ok a /\ compute_cost E g a = Ok (c, res) /\
      trail (step g) k (mkState 0 a c res false extra) st (st k) /\ (forall i, i < k -> s_done (st i) = false) /\ s_done (st k) = true /\
      update_storage_layout C (s_assign (st k)) (as_layout init) = Ok a' /\
      solve_logged E verbose fuel show step extra g init =
        Some (Ok a', flat_map (fun i => say verbose (show (st i))) (seq 0 k) ++ say verbose (Terminated (s_iter (st k)) (s_cost (st k))))
  end.
Proof.
  unfold solve_with, solve_logged. fold C. destruct (update_storage_layout C init (g_layout g)) as [a|]; auto.
  unfold init_state. destruct (compute_cost E g a) as [[c res]|] eqn:Ec; cbn [bind fst snd]; auto.
  pose proof (loop_log verbose show (step g) fuel (mkState 0 a c res false extra) []) as H.
  destruct (while_loop fuel (fun s => negb (s_done s)) (step g) _) as [[s'|e]|]; cbn [finish].
  - destruct H as (k & st & Ht & Hd & Hd' & H). rewrite H. cbn [finish app]. pose proof Ht as (_ & Hk & _). subst s'.
    destruct (update_storage_layout C (s_assign (st k)) (as_layout init)) as [a'|] eqn:Eu; auto.
    exists a, c, res, k, st. split; [auto|]. split; [auto|]. split; [exact Ht|]. auto 6.
  - rewrite H. auto.
  - rewrite H. auto.
Qed.
Lemma fixed_inc it lin g s s' : fixed_step E it lin g s = Ok s' -> s_iter s' = S (s_iter s) /\ current E g s' /\ s_done s' = Z.leb (it - 1) (Z.of_nat (s_iter s)).
Proof.
  intros H. unfold fixed_step in H. apply bind_ok in H. destruct H as (((ATb & delta) & a') & _ & H). apply bind_ok in H. destruct H as ((c & r) & Ec & H).
  injection H as <-. cbn [s_iter s_done]. split; [lia|]. split; auto.
Qed.
Lemma fixed_log verbose fuel unroll it lin g init :
  match fixed_solve E fuel unroll it lin g init with
  | None => fixed_logged E verbose fuel unroll it lin g init = None
  | Some (Err e) => fixed_logged E verbose fuel unroll it lin g init = Some (Err e, [])
  | Some (Ok a') => exists c res k st, compute_cost E g init = Ok (c, res) /\
      trail (fixed_step E it lin g) k (mkState 0 init c res false n0) st (st k) /\ (if unroll then k = Z.to_nat it else k = Nat.max 1 (Z.to_nat it)) /\
      s_assign (st k) = a' /\
      fixed_logged E verbose fuel unroll it lin g init =
        Some (Ok a', flat_map (fun i => say verbose (fixed_show (st i))) (seq 0 k) ++ say verbose (Terminated (s_iter (st k)) (s_cost (st k))))
  end.
Proof.
  unfold fixed_solve, fixed_logged. unfold init_state. destruct (compute_cost E g init) as [[c res]|] eqn:Ec; cbn [bind fst snd]; auto.
  destruct unroll.
  - pose proof (iterate_log verbose fixed_show (fixed_step E it lin g) (Z.to_nat it) (mkState 0 init c res false n0) []) as H.
    destruct (iterate (Z.to_nat it) (fixed_step E it lin g) _) as [s'|]; cbn [finish].
    + destruct H as (st & Ht & H). rewrite H. cbn [finish app]. pose proof Ht as (_ & Hk & _). subst s'. exists c, res, (Z.to_nat it), st. split; [auto|]. split; [exact Ht|]. auto.
    + rewrite H. auto.
  - pose proof (loop_log verbose fixed_show (fixed_step E it lin g) fuel (mkState 0 init c res false n0) []) as H.
    destruct (while_loop fuel (fun s => negb (s_done s)) (fixed_step E it lin g) _) as [[s'|e]|]; cbn [finish].
    + destruct H as (k & st & Ht & Hd & Hd' & H). rewrite H. cbn [finish app]. pose proof Ht as (H0 & Hk & Hst). subst s'. exists c, res, k, st. split; [auto|]. split; [exact Ht|].
      split; [|auto]. assert (Hi := trail_iter _ (fun s s' Hs => proj1 (fixed_inc it lin g s s' Hs)) _ _ _ _ Ht). cbn [s_iter] in Hi.
      destruct k as [|k]; [rewrite H0 in Hd'; discriminate|].
      destruct (fixed_inc it lin g _ _ (Hst k ltac:(lia))) as (_ & _ & Hdk). rewrite Hd' in Hdk. symmetry in Hdk. apply Z.leb_le in Hdk. rewrite Hi in Hdk by lia.
      destruct k as [|k]; [lia|]. destruct (fixed_inc it lin g _ _ (Hst k ltac:(lia))) as (_ & _ & Hdj). rewrite (Hd (S k)) in Hdj by lia. symmetry in Hdj. apply Z.leb_gt in Hdj. rewrite Hi in Hdj by lia. lia.
    + rewrite H. auto.
    + rewrite H. auto.
Qed.
Lemma report_of show max_i extra (step : sstate T -> result (sstate T)) k s st : (forall s s', step s = Ok s' -> s_iter s' = S (s_iter s)) -> trail step k s st (st k) -> s_iter s = 0 ->
  (forall s, show s = Iteration (s_iter s) max_i (s_cost s) (if extra : bool then Some (s_extra s) else None)) ->
  flat_map (fun i => say true (show (st i))) (seq 0 k) ++ say true (Terminated (s_iter (st k)) (s_cost (st k))) = report max_i extra k st.
Proof.
  intros Hinc Ht Hs Hsh. pose proof (trail_iter step Hinc k s st (st k) Ht) as Hi. rewrite say_all. unfold report. rewrite (Hi k), Hs by lia. cbn [say Nat.add]. f_equal.
  apply map_ext_in. intros i Hin. apply in_seq in Hin. rewrite Hsh, Hi, Hs by lia. auto.
Qed.
End Props.

Section Returned.
Context {T : Type} {N : Num T}.
Variable E : env T.
Let C := e_cls E.

(* converting back to the caller's layout keeps the cost *)
Lemma returned_cost fs g init vs a st a' : classes_ok C -> (forall f, In f fs -> factor_ok f) -> graph_make E fs = Ok g -> wf_assign C vs false init ->
  update_storage_layout C init (g_layout g) = Ok a ->
  as_layout st = as_layout a -> length (as_storage st) = length (as_storage a) ->
  update_storage_layout C st (as_layout init) = Ok a' -> compute_cost E g a' = compute_cost E g st.
Proof.
  intros CO Hok Hg Hwf Eu HL1 Hlen1 H. destruct (made E fs g Hok Hg) as (Hgr & _). pose proof Hwf as (ND & HL & Hs).
  pose proof (ig_layout _ _ _ Hgr) as HG. unfold graph_layout in HG. fold C in HG. pose proof (mentioned_nodup fs) as NDm.
  assert (Hvs : forall v, In v vs <-> In v (mentioned fs)).
  { destruct (set_eqb (get_variables (as_layout init)) (get_variables (g_layout g))) eqn:Es.
    - assert (Hiff : forall v, In v (get_variables (as_layout init)) <-> In v (get_variables (g_layout g))) by (apply set_eqb_ok; auto).
      intros v. specialize (Hiff v). rewrite HL, HG, !lay_vars, !order_in in Hiff by auto. exact Hiff.
    - exfalso. rewrite update_err in Eu; [discriminate|]. right; right. rewrite HL, HG.
      split; [apply make_layout_nodup; auto|]. split; [apply make_layout_nodup; auto|]. intros Hiff.
      rewrite <- HL, <- HG in Hiff. assert (set_eqb (get_variables (as_layout init)) (get_variables (g_layout g)) = true).
      { apply set_eqb_ok. exact Hiff. } congruence. }
  destruct (update_ok C vs (mentioned fs) false init Hwf NDm Hvs) as (b & Eb & HLb & Hcase & Hlb & _).
  rewrite <- HG in Eb. rewrite Eu in Eb. injection Eb as <-.
  assert (Hst : exists ws, wf_assign C ws false st /\ forall v, In v ws <-> In v vs).
  { destruct Hcase as [->|HLa].
    - exists vs. split; [|tauto]. split; [auto|]. rewrite HL1, Hlen1, HL. split; auto. rewrite Hs, HL; auto.
    - exists (mentioned fs). split; [|intros v; symmetry; apply Hvs]. split; [auto|]. rewrite HL1, Hlen1, HLa. split; auto. }
  destruct Hst as (ws & Hws & Hwv). rewrite HL in H. apply (cost_update E fs g ws vs); auto. intros v. rewrite Hwv. apply Hvs.
Qed.

(* the three solvers that stop on convergence: what is printed and what is returned *)
Lemma solve_report fuel show step extra max_i more g init : keeps (step g) -> (forall s s', step g s = Ok s' -> s_iter s' = S (s_iter s) /\ ((max_i - 1 <= Z.of_nat (s_iter s))%Z -> s_done s' = true)) ->
  (forall s k s', cost_current E g s -> current E g s -> runs (step g) k s s' -> cost_current E g s') ->
  (forall s, show s = Iteration (s_iter s) (Some max_i) (s_cost s) (if more : bool then Some (s_extra s) else None)) ->
  forall a' ms, solve_logged E true fuel show step extra g init = Some (Ok a', ms) ->
  exists a c res k st, update_storage_layout C init (g_layout g) = Ok a /\ compute_cost E g a = Ok (c, res) /\
    trail (step g) k (mkState 0 a c res false extra) st (st k) /\ 1 <= k <= iteration_cap max_i /\
    (forall i, i <= k -> s_done (st i) = (k <=? i) /\ cost_current E g (st i)) /\
    update_storage_layout C (s_assign (st k)) (as_layout init) = Ok a' /\
    ms = report (Some max_i) more k st /\
    (forall fs vs, classes_ok C -> (forall f, In f fs -> factor_ok f) -> graph_make E fs = Ok g -> wf_assign C vs false init ->
       exists r, compute_cost E g a' = Ok (s_cost (st k), r)).
Proof.
  intros Hkeep Hinc Hcost Hshow a' ms H. pose proof (solve_log E true fuel show step extra g init) as Hl.
  destruct (solve_with E fuel step extra g init) as [[a1|e]|]; try (rewrite Hl in H; discriminate).
  destruct Hl as (a & c & res & k & st & Ha & Hc & Ht & Hd & Hdk & Hu & Hm). rewrite Hm in H. injection H as <- <-.
  assert (Hr : forall i, i <= k -> runs (step g) i (mkState 0 a c res false extra) (st i)) by (intros i Hi; apply (trail_runs (step g) k _ st (st k) Ht Hd i Hi)).
  assert (Hcc : forall i, i <= k -> cost_current E g (st i)).
  { intros i Hi. apply (Hcost (mkState 0 a c res false extra) i (st i)); [exists res; exact Hc | exact Hc | exact (Hr i Hi)]. }
  assert (Hi : forall i, i <= k -> s_iter (st i) = i).
  { intros i Hi. rewrite (trail_iter (step g) (fun s s' Hs => proj1 (Hinc s s' Hs)) k _ st (st k) Ht i Hi). auto. }
  exists a, c, res, k, st. split; auto. split; auto. split; [exact Ht|]. split.
  { destruct Ht as (H0 & _ & Hst). assert (Hk1 : 1 <= k) by (destruct k; [rewrite H0 in Hdk; discriminate | lia]). split; auto.
    destruct (le_lt_dec k (iteration_cap max_i)) as [|Hlt]; auto. exfalso. unfold iteration_cap in Hlt.
    destruct (Hinc (st (k - 2)) (st (S (k - 2)))) as (_ & Hfin); [apply Hst; lia|]. rewrite Hi in Hfin by lia.
    assert (Hf : s_done (st (S (k - 2))) = true) by (apply Hfin; lia). rewrite Hd in Hf by lia. discriminate. }
  split. { intros i Hik. split; auto. destruct (Nat.leb_spec k i). - replace i with k by lia. auto. - auto. }
  split; auto. split; [apply (report_of show (Some max_i) more (step g) k (mkState 0 a c res false extra)); auto; intros; apply Hinc; auto|].
  intros fs vs CO Hok Hg Hwf. destruct (Hcc k (le_n k)) as (r & Er). exists r. rewrite <- Er.
  destruct (keeps_runs _ _ _ _ Hkeep (Hr k (le_n k))) as (HL1 & Hlen1). eapply returned_cost; eauto.
Qed.
End Returned.

(* C33: from the initial state up to the first rejection the residual is current *)
Lemma until_rejection (T : Type) (N : Num T) (E : env T) lin step qmin g a extra s : trust_body E lin step qmin -> init_state E g a extra = Ok s ->
  s_assign s = a /\ current E g s /\
  forall k st s', trail (step g) k s st s' -> (forall i A d prop c r q, i < k -> trust_step E g qmin (st i) (st (S i)) A d prop c r q -> nleb qmin q = true) ->
    forall i, i <= k -> current E g (st i).
Proof.
  intros Hb Hs. unfold init_state in Hs. apply bind_ok in Hs. destruct Hs as ((c0 & r0) & Hc & Hs). injection Hs as <-. split; auto. split; [exact Hc|].
  intros k st s' (H0 & _ & Hst) Hacc [|i] Hi; [rewrite H0; exact Hc|].
  destruct (residual_of_last_proposal E lin step qmin g (st i) (st (S i)) Hb (Hst i ltac:(lia))) as (A & d & prop & c & r & q & Ht & Hcur & _).
  apply Hcur. eapply (Hacc i); eauto.
Qed.
