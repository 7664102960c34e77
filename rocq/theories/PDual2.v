(* Forward mode and the default Jacobians: arrays, residuals, retractions. *)
From Coq Require Import List Arith Bool Lia ZArith Reals Lra.
From Verif Require Import Num NumR Py Arr MLayout MAssign MNoise MFactor MGraph MAuto MDual SpecLayout SpecTree SpecAssign SpecGraph SpecDeriv SpecAuto SpecDual.
From Verif Require Import PBase PTree PVec PSolverR PAuto PDeriv PAutoR PDual.
Import ListNotations.

Section Arrays.
Context {T : Type} {N : Num T}.
Variable D : nat -> nat -> T.
Definition total_size (ls : list (arr T)) : nat := list_sum (map (fun a => size (a_shape a)) ls).
Lemma total_cons a ls : total_size (a :: ls) = size (a_shape a) + total_size ls. Proof. reflexivity. Qed.
Lemma total_nil : total_size [] = 0. Proof. reflexivity. Qed.
Fixpoint in_leaves (rd off : nat) (ls : list (arr T)) : list (arr T) :=
  match ls with [] => [] | a :: rest => in_leaf D rd off a :: in_leaves rd (off + size (a_shape a)) rest end.
Lemma in_leaves_app rd l1 : forall off l2, in_leaves rd off (l1 ++ l2) = in_leaves rd off l1 ++ in_leaves rd (off + total_size l1) l2.
Proof.
  induction l1 as [|a l1 IH]; intros off l2; cbn [app in_leaves]; [unfold total_size; cbn; rewrite Nat.add_0_r; auto|]. rewrite IH. unfold total_size. cbn [map list_sum fold_right]. rewrite Nat.add_assoc. auto.
Qed.
Lemma ravel_size (t : pytree T) : tree_ok t -> length (ravel t) = total_size (leaves t).
Proof.
  unfold tree_ok, ravel. intros H. induction H as [|a l Ha H IH]; auto. cbn [map concat]. rewrite total_cons, app_length, IH. unfold arr_ok in Ha. apply Nat.eqb_eq in Ha. lia.
Qed.
Lemma tree_ok_node tag cs : tree_ok (Node tag cs : pytree T) <-> Forall tree_ok cs.
Proof.
  unfold tree_ok. cbn [leaves]. split.
  - induction cs as [|c cs IH]; cbn; intros H; constructor; apply Forall_app in H; [tauto | apply IH; tauto].
  - induction 1; cbn; auto. apply Forall_app. auto.
Qed.
Lemma leaves_spread rd t : forall off, tree_ok t -> leaves (spread D rd off t) = in_leaves rd off (leaves t).
Proof.
  induction t as [a|tag cs IH] using pytree_ind'; intros off Ht; cbn [spread leaves in_leaves]; auto.
  apply tree_ok_node in Ht. revert off Ht. induction IH as [|c cs Hc IH IHcs]; intros off Ht; auto. inversion Ht; subst. cbn [flat_map]. rewrite in_leaves_app, Hc, IHcs by auto.
  rewrite ravel_size by auto. auto.
Qed.
Lemma leaves_spreads rd ts : forall off, Forall tree_ok ts -> flat_map leaves (spreads D rd off ts) = in_leaves rd off (flat_map leaves ts).
Proof.
  induction ts as [|t ts IH]; intros off H; auto. inversion H; subst. cbn [spreads flat_map]. rewrite in_leaves_app, leaves_spread, IH, ravel_size by auto. auto.
Qed.
Lemma in_leaves_shapes rd ls : forall off, map a_shape (in_leaves rd off ls) = map (fun a => rd :: a_shape a) ls.
Proof. induction ls as [|a ls IH]; intros off; auto. cbn. rewrite IH. auto. Qed.
Lemma rows_length (g : nat -> list T) m l : (forall r, length (g r) = m) -> length (flat_map g l) = length l * m.
Proof. intros H. induction l as [|r l IH]; auto. cbn. rewrite app_length, IH, H. lia. Qed.
Lemma rows_entry (g : nat -> list T) m l : (forall r, length (g r) = m) -> forall r k, r < length l -> k < m -> nth (r * m + k) (flat_map g l) n0 = nth k (g (nth r l 0)) n0.
Proof.
  intros H. induction l as [|a l IH]; intros r k Hr Hk; [cbn in Hr; lia|]. cbn [flat_map]. destruct r as [|r].
  - rewrite app_nth1 by (rewrite H; lia). auto.
  - rewrite app_nth2 by (rewrite H; nia). rewrite H. replace (S r * m + k - m) with (r * m + k) by nia. cbn in Hr. rewrite IH by lia. auto.
Qed.
Lemma in_leaves_ok rd ls : forall off, Forall (fun a => arr_ok a = true) (in_leaves rd off ls).
Proof.
  induction ls as [|a ls IH]; intros off; constructor; auto. unfold arr_ok, in_leaf. cbn [a_data a_shape]. rewrite (rows_length _ (size (a_shape a))) by (intros; rewrite map_length, seq_length; auto).
  rewrite seq_length. cbn. apply Nat.eqb_refl.
Qed.
Lemma spread_arrays rd off t : tree_ok t -> residual_arrays rd t (spread D rd off t).
Proof. intros H. split; [unfold tree_ok; rewrite leaves_spread by auto; apply in_leaves_ok | rewrite leaves_spread by auto; apply in_leaves_shapes]. Qed.
Lemma partial_in rd ls r : r < rd -> forall off k, k < total_size ls -> partial (in_leaves rd off ls) r k = D r (off + k).
Proof.
  intros Hr. induction ls as [|a ls IH]; intros off k Hk; [rewrite total_nil in Hk; lia|]. cbn [in_leaves partial in_leaf a_shape a_data tl]. cbv zeta. destruct (Nat.ltb_spec k (size (a_shape a))) as [H|H].
  - rewrite (rows_entry _ (size (a_shape a))) by (intros; rewrite ?map_length, ?seq_length; auto).
    rewrite seq_nth by auto. rewrite (nth_map' _ _ k n0 0) by (rewrite seq_length; auto). rewrite seq_nth by auto. auto.
  - rewrite IH; [f_equal; lia|]. rewrite total_cons in Hk. lia.
Qed.
Lemma out_leaves_shapes ld ls : forall off, map a_shape (out_leaves D ld off ls) = map (fun a => a_shape a ++ [ld]) ls.
Proof. induction ls as [|a ls IH]; intros off; auto. cbn. rewrite IH. auto. Qed.
Lemma out_leaves_data ld ls : forall off, concat (map a_data (out_leaves D ld off ls)) = flat_map (fun k => map (D k) (seq 0 ld)) (seq off (total_size ls)).
Proof.
  induction ls as [|a ls IH]; intros off; auto. cbn [out_leaves map concat a_data]. rewrite IH, total_cons.
  rewrite seq_app, flat_map_app. f_equal. rewrite (seq_shift_map off). rewrite !flat_map_concat_map, map_map. auto.
Qed.
Lemma out_leaves_arrays ld off (x : pytree T) : retract_arrays ld x (out_leaves D ld off (leaves x)).
Proof.
  split; [|apply out_leaves_shapes]. generalize (leaves x). intros ls. revert off. induction ls as [|a ls IH]; intros off; constructor; auto. unfold arr_ok. cbn [a_data a_shape].
  rewrite (rows_length _ ld) by (intros; rewrite map_length, seq_length; auto). rewrite seq_length, size_snoc. apply Nat.eqb_refl.
Qed.
Lemma along_out ld ls k c : k < total_size ls -> c < ld -> along ld (out_leaves D ld 0 ls) k c = D k c.
Proof.
  intros Hk Hc. unfold along. rewrite out_leaves_data. rewrite (rows_entry _ ld) by (intros; rewrite ?map_length, ?seq_length; auto).
  rewrite seq_nth by auto. rewrite (nth_map' _ _ c n0 0) by (rewrite seq_length; auto). rewrite seq_nth by auto. auto.
Qed.
End Arrays.

Local Open Scope R_scope.

Lemma legal_length (C : cenv (T := R)) ts vals : Forall2 (fun t x => value_ok (C t) x) ts vals -> length (flat vals) = list_sum (map (fun t => total_size (leaves (vc_default (C t)))) ts).
Proof.
  unfold flat. induction 1 as [|t x ts vals (Hx & _ & Hs) H IH]; auto. cbn. rewrite app_length, IH, ravel_size by auto. f_equal. unfold total_size.
  rewrite <- (map_map a_shape size), <- (map_map a_shape size). rewrite Hs. auto.
Qed.
Lemma legal_ok (C : cenv (T := R)) ts vals : Forall2 (fun t x => value_ok (C t) x) ts vals -> Forall tree_ok vals.
Proof. induction 1 as [|t x ts vals (Hx & _) H IH]; constructor; auto. Qed.

(* one neighbourhood for finitely many programs *)
Lemma all_diffable n x par es : (forall e, In e es -> smooth x par e) -> forall eps, 0 < eps -> exists d, 0 < d /\ forall y, near n x d y -> forall e, In e es ->
  Rabs (denote y par e - denote x par e - vsum (map (fun k => jac_entry real_funs x par e k * (y k - x k)) (seq 0 n))) <= eps * vsum (map (fun k => Rabs (y k - x k)) (seq 0 n)).
Proof.
  intros Hs eps He. induction es as [|e es IH].
  - exists 1. split; [lra|]. intros y _ e [].
  - destruct IH as (d1 & P1 & H1). { intros; apply Hs; right; auto. } destruct (entry_diffable n x par e (Hs e (or_introl eq_refl)) eps He) as (d2 & P2 & H2).
    exists (Rmin d1 d2). split; [apply Rmin_pos; auto|]. intros y Hy e' [<-|Hi].
    + apply H2. eapply near_le; [apply Rmin_r | exact Hy].
    + apply H1; auto. eapply near_le; [apply Rmin_l | exact Hy].
Qed.

Section Factor.
Variable C : cenv (T := R).
Variable prog : nat -> list expr.
Variable fd : fdata R.
Variable vals : list (pytree R).
Let legal := Forall2 (fun t x => value_ok (C t) x) (fd_types fd).
Hypothesis Hv : legal vals.
Let es := prog (fd_cls fd).
Let par := scalar (concat (map ravel (fd_params fd))).
Hypothesis Hs : forall e, In e es -> smooth (scalar (flat vals)) par e.
Lemma prog_derivative : residual_derivative legal (prog_residual real_funs prog fd) (length es) vals (prog_jacfwd real_funs prog fd vals).
Proof.
  split. { intros vals' _. unfold prog_residual. rewrite map_length. auto. }
  intros eps He. destruct (all_diffable (length (flat vals)) (scalar (flat vals)) par es Hs eps He) as (d & Hd & Hy). exists d. split; auto.
  intros vals' Hl Hclose r Hr. assert (Hlen : length (flat vals') = length (flat vals)) by (rewrite (legal_length C _ _ Hl), (legal_length C _ _ Hv); auto).
  assert (Hn : near (length (flat vals)) (scalar (flat vals)) d (scalar (flat vals'))).
  { split; [exact Hclose|]. intros k Hk. unfold scalar. rewrite !nth_overflow by lia. auto. }
  specialize (Hy _ Hn (nth r es (Lit 0 1)) (nth_In es (Lit 0 1) Hr)).
  assert (Hres : forall w, nth r (prog_residual real_funs prog fd w) 0 = denote (scalar (flat w)) par (nth r es (Lit 0 1))).
  { intros w. unfold prog_residual. fold es. rewrite (nth_map' _ _ r 0 (Lit 0 1)) by auto. rewrite eval_denote. auto. }
  rewrite !Hres. unfold prog_jacfwd. fold es. rewrite leaves_spreads by (apply (legal_ok C (fd_types fd)); auto).
  assert (Ht : total_size (flat_map leaves vals) = length (flat vals)).
  { unfold flat. pose proof (legal_ok C _ _ Hv) as Hok. clear -Hok. induction Hok as [|x l Hx H IH]; auto. cbn [flat_map map concat]. rewrite app_length, ravel_size, <- IH by auto. unfold total_size.
    rewrite map_app, list_sum_app. auto. }
  erewrite (vsum_map_ext (fun k => partial _ r k * _)); [exact Hy|]. intros k Hk. apply in_seq in Hk. rewrite partial_in; [reflexivity | exact Hr | rewrite Ht; lia].
Qed.
End Factor.

Section Variable_.
Variable C : cenv (T := R).
Variable rprog : vty -> list expr.
Variable t : vty.
Variable x : pytree R.
Hypothesis Hc : tree_ok (vc_default (C t)).
Hypothesis Hx : value_ok (C t) x.
Hypothesis Hr : retracts_by (C t) (rprog t).
Hypothesis H0 : map (denote (fun _ => 0) (fun k => nth k (ravel x) 0)) (rprog t) = ravel x.
Hypothesis Hs : forall e, In e (rprog t) -> smooth (fun _ => 0) (fun k => nth k (ravel x) 0) e.
Lemma prog_retract : retract_derivative (C t) x (retract_jacfwd real_funs C rprog t x).
Proof.
  destruct Hr as (Hl & Hy). pose proof (flatten_length (C t) Hc x Hx) as Hlx. unfold flatten in Hlx. split.
  - destruct (Hy x (vzero (local_dim (C t))) Hx (vzero_length _)) as (y & Ey & Hoy & Hry). rewrite Ey. f_equal. apply ravel_inj.
    + destruct Hx as [_ [A B]], Hoy as [_ [A' B']]. split; congruence.
    + apply Hoy.
    + apply Hx.
    + rewrite Hry, <- H0 at 1. apply map_ext_in. intros e _. clear. assert (Hz : forall k, nth k (vzero (local_dim (C t))) 0 = 0) by (intros k; pose proof (@nth_vzero R NumR (local_dim (C t)) k) as Hz; exact Hz).
      induction e; cbn; rewrite ?Hz, ?IHe, ?IHe1, ?IHe2; auto.
  - intros d xt Hd Hxt. set (ld := local_dim (C t)) in *.
    assert (Hcurve : forall s, ravel (xt s) = map (denote (fun k => 0 + s * nth k d 0) (fun k => nth k (ravel x) 0)) (rprog t)).
    { intros s. destruct (Hy x (vscale s d) Hx) as (y & Ey & _ & Hry); [rewrite vscale_length; auto|]. destruct (Hxt s) as (E1 & _). rewrite E1 in Ey. injection Ey as <-.
      rewrite Hry. apply map_ext_in. intros e _. assert (Hk : forall k, nth k (vscale s d) 0 = 0 + s * nth k d 0) by (intros k; rewrite nth_vscale; ring).
      induction e; cbn; rewrite ?Hk, ?IHe, ?IHe1, ?IHe2; auto. }
    split. { intros s. rewrite Hcurve, !map_length, seq_length. congruence. }
    intros k. destruct (Nat.lt_ge_cases k (length (ravel x))) as [Hk|Hk].
    + rewrite (nth_map' _ _ k 0 0%nat) by (rewrite seq_length; auto). rewrite seq_nth by auto. simpl plus. set (e := nth k (rprog t) (Lit 0 1)).
      assert (He : In e (rprog t)) by (apply nth_In; congruence).
      pose proof (d_line ld (fun _ => 0) _ _ d (entry_diffable ld (fun _ => 0) (fun k => nth k (ravel x) 0) e (Hs e He)) Hd ltac:(auto)) as HL.
      assert (Hsz : length (ravel x) = total_size (leaves x)) by (apply ravel_size, Hx).
      erewrite (vsum_map_ext (fun c' => along ld _ k c' * _)).
      2:{ intros c' Hc'. apply in_seq in Hc'. unfold retract_jacfwd. fold ld. rewrite along_out; [reflexivity | rewrite <- Hsz; auto | lia]. }
      eapply derivable_pt_lim_ext; [|exact HL]. intros s. rewrite Hcurve. rewrite (nth_map' _ _ k 0 (Lit 0 1)) by congruence. reflexivity.
    + rewrite nth_overflow by (rewrite map_length, seq_length; auto). eapply derivable_pt_lim_ext; [|apply (derivable_pt_lim_const 0)].
      intros s. rewrite Hcurve, nth_overflow by (rewrite map_length; rewrite Hl, <- Hlx; auto). reflexivity.
Qed.
End Variable_.
