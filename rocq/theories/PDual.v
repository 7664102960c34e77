(* Forward mode computes derivatives. *)
From Coq Require Import List Arith Bool Lia ZArith Reals Lra.
From Verif Require Import Num NumR Py Arr MLayout MAssign MNoise MFactor MGraph MAuto MDual SpecLayout SpecTree SpecAssign SpecGraph SpecDeriv SpecAuto SpecDual.
From Verif Require Import PBase PTree PVec PSolverR PAuto PDeriv PAutoR.
Import ListNotations.
Local Open Scope R_scope.

(* ---- differentiability of functions of n real numbers ---- *)
Section Frechet.
Variable n : nat.
Variable x : nat -> R.
Notation tot f := (vsum (map f (seq 0 n))).
Definition near (d : R) (y : nat -> R) : Prop := (forall k, Rabs (y k - x k) < d) /\ forall k, (n <= k)%nat -> y k = x k.
Definition diffable (f : (nat -> R) -> R) (g : nat -> R) : Prop :=
  forall eps, 0 < eps -> exists d, 0 < d /\ forall y, near d y ->
    Rabs (f y - f x - tot (fun k => g k * (y k - x k))) <= eps * tot (fun k => Rabs (y k - x k)).
Lemma near_le d d' y : d <= d' -> near d y -> near d' y.
Proof. intros H (H1 & H2). split; auto. intros k. pose proof (H1 k). lra. Qed.
Lemma tot_pos (y : nat -> R) : 0 <= tot (fun k => Rabs (y k - x k)).
Proof. apply vsum_nonneg. intros z Hz. apply in_map_iff in Hz. destruct Hz as (k & <- & _). apply Rabs_pos. Qed.
Lemma vsum_const {A} (c : R) (l : list A) : vsum (map (fun _ => c) l) = INR (length l) * c.
Proof. induction l as [|a l IH]; [cbn; rewrite vsum_nil; ring|]. cbn [map length]. rewrite vsum_cons, IH, S_INR. ring. Qed.
Lemma tot_near d y : near d y -> tot (fun k => Rabs (y k - x k)) <= INR n * d.
Proof.
  intros (H & _). replace (INR n * d) with (tot (fun _ : nat => d)) by (rewrite vsum_const, seq_length; auto). apply vsum_le. intros k _. left. apply H.
Qed.
Lemma lin_bound g y : Rabs (tot (fun k => g k * (y k - x k))) <= tot (fun k => Rabs (g k)) * tot (fun k => Rabs (y k - x k)).
Proof.
  eapply Rle_trans; [apply vsum_abs|]. rewrite Rmult_comm, <- vsum_map_scale. apply vsum_le. intros k Hk. rewrite Rabs_mult, Rmult_comm.
  apply Rmult_le_compat_r; [apply Rabs_pos|]. clear - Hk. induction (seq 0 n) as [|j l IH]; [destruct Hk|]. cbn [map]. rewrite vsum_cons.
  assert (0 <= vsum (map (fun k => Rabs (y k - x k)) l)) by (apply vsum_nonneg; intros z Hz; apply in_map_iff in Hz; destruct Hz as (i & <- & _); apply Rabs_pos).
  destruct Hk as [->|Hk]; [lra|]. specialize (IH Hk). pose proof (Rabs_pos (y j - x j)). lra.
Qed.
Lemma d_ext f f' g g' : (forall y, f y = f' y) -> (forall k, (k < n)%nat -> g k = g' k) -> diffable f g -> diffable f' g'.
Proof.
  intros Hf Hg H eps He. destruct (H eps He) as (d & Hd & Hy). exists d. split; auto. intros y Hn. rewrite <- !Hf.
  erewrite (vsum_map_ext (fun k => g' k * _) (fun k => g k * _)); [apply Hy; auto|]. intros k Hk. apply in_seq in Hk. cbv beta. rewrite Hg by lia. reflexivity.
Qed.
Lemma d_const c : diffable (fun _ => c) (fun _ => 0).
Proof.
  intros eps He. exists 1. split; [lra|]. intros y _. rewrite vsum_map_scale.
  replace (c - c - 0 * tot (fun k => y k - x k)) with 0 by ring. rewrite Rabs_R0. pose proof (tot_pos y). nra.
Qed.
Lemma d_inp j : diffable (fun y => y j) (onehot j).
Proof.
  intros eps He. exists 1. split; [lra|]. intros y (_ & Hn). assert (Hs : tot (fun k => @onehot R NumR j k * (y k - x k)) = y j - x j).
  { unfold onehot. cbn [n0 n1 NumR]. destruct (Nat.lt_ge_cases j n) as [Hj|Hj].
    - rewrite <- (vsum_pick n j (fun k => y k - x k)) by auto. apply vsum_map_ext. intros k _. destruct (Nat.eqb k j); lra.
    - rewrite (Hn j Hj), Rminus_eq_0. rewrite (vsum_map_ext _ (fun k => 0 * (y k - x k))); [rewrite vsum_map_scale; ring|].
      intros k Hk. apply in_seq in Hk. destruct (Nat.eqb_spec k j); [lia | ring]. }
  rewrite Hs, Rminus_eq_0, Rabs_R0. pose proof (tot_pos y). nra.
Qed.
Lemma d_add f g f' g' : diffable f g -> diffable f' g' -> diffable (fun y => f y + f' y) (fun k => g k + g' k).
Proof.
  intros H H' eps He. destruct (H (eps / 2)) as (d1 & P1 & H1); [lra|]. destruct (H' (eps / 2)) as (d2 & P2 & H2); [lra|].
  exists (Rmin d1 d2). split; [apply Rmin_pos; auto|]. intros y Hy.
  specialize (H1 y (near_le _ _ y (Rmin_l _ _) Hy)). specialize (H2 y (near_le _ _ y (Rmin_r _ _) Hy)).
  rewrite (vsum_map_ext (fun k => (g k + g' k) * (y k - x k)) (fun k => g k * (y k - x k) + g' k * (y k - x k))) by (intros; ring). rewrite vsum_map_plus.
  set (s := tot (fun k => g k * (y k - x k))) in *. set (s' := tot (fun k => g' k * (y k - x k))) in *.
  replace (f y + f' y - (f x + f' x) - (s + s')) with ((f y - f x - s) + (f' y - f' x - s')) by ring. eapply Rle_trans; [apply Rabs_triang|]. lra.
Qed.
Lemma d_comp phi c f g : derivable_pt_lim phi (f x) c -> diffable f g -> diffable (fun y => phi (f y)) (fun k => c * g k).
Proof.
  intros Hphi H eps He. set (G := tot (fun k => Rabs (g k))).
  assert (HG : 0 <= G) by (apply vsum_nonneg; intros z Hz; apply in_map_iff in Hz; destruct Hz as (k & <- & _); apply Rabs_pos).
  set (e1 := eps / 2 / (G + 1)). assert (He1 : 0 < e1) by (unfold e1; repeat apply Rdiv_lt_0_compat; lra).
  set (e2 := Rmin 1 (eps / 2 / (Rabs c + 1))). pose proof (Rabs_pos c) as Hc0.
  assert (He2 : 0 < e2) by (unfold e2; apply Rmin_pos; [lra | repeat apply Rdiv_lt_0_compat; lra]).
  destruct (Hphi e1 He1) as ((d1 & P1) & H1). cbn in H1. destruct (H e2 He2) as (d2 & P2 & H2).
  set (d3 := d1 / ((G + 1) * (INR n + 1))). pose proof (pos_INR n) as Hn0.
  assert (P3 : 0 < d3) by (unfold d3; apply Rdiv_lt_0_compat; auto; apply Rmult_lt_0_compat; lra).
  exists (Rmin d2 d3). split; [apply Rmin_pos; auto|]. intros y Hy. specialize (H2 y (near_le _ _ y (Rmin_l _ _) Hy)).
   pose proof (tot_pos y) as Hs0. set (S := tot (fun k => Rabs (y k - x k))) in *.
  set (s := tot (fun k => g k * (y k - x k))) in *.
  assert (Hs : Rabs s <= G * S) by apply lin_bound.
  assert (HS : S <= INR n * d3) by (apply tot_near; apply (near_le _ _ y (Rmin_r _ _) Hy)).
  assert (E2a : e2 <= 1) by apply Rmin_l. assert (E2b : e2 <= eps / 2 / (Rabs c + 1)) by apply Rmin_r.
  set (h := f y - f x) in *. assert (Hh : Rabs h <= (G + 1) * S).
  { replace h with ((h - s) + s) by ring. eapply Rle_trans; [apply Rabs_triang|]. nra. }
  assert (Hhd : Rabs h < d1).
  { eapply Rle_lt_trans; [exact Hh|]. apply Rle_lt_trans with ((G + 1) * (INR n * d3)); [apply Rmult_le_compat_l; lra|].
    replace d1 with ((G + 1) * (INR n + 1) * d3) by (unfold d3; field; lra). assert (0 < (G + 1) * d3) by (apply Rmult_lt_0_compat; lra). nra. }
  assert (Hp : Rabs (phi (f y) - phi (f x) - c * h) <= e1 * Rabs h).
  { destruct (Req_dec h 0) as [Hz|Hz].
    - assert (f y = f x) by (unfold h in Hz; lra). rewrite H0, Hz, Rmult_0_r, !Rminus_eq_0, Rminus_0_r || rewrite H0, Hz, Rmult_0_r. rewrite ?Rminus_eq_0, ?Rminus_0_r, ?Rabs_R0. lra.
    - specialize (H1 h Hz Hhd). replace (f x + h) with (f y) in H1 by (unfold h; ring).
      replace (phi (f y) - phi (f x) - c * h) with (((phi (f y) - phi (f x)) / h - c) * h) by (field; auto).
      rewrite Rabs_mult. apply Rmult_le_compat_r; [apply Rabs_pos|]. lra. }
  rewrite (vsum_map_ext (fun k => c * g k * (y k - x k)) (fun k => c * (g k * (y k - x k)))) by (intros; ring). rewrite vsum_map_scale. fold s.
  replace (phi (f y) - phi (f x) - c * s) with ((phi (f y) - phi (f x) - c * h) + c * (h - s)) by ring.
  eapply Rle_trans; [apply Rabs_triang|]. rewrite (Rabs_mult c).
  assert (A1 : e1 * Rabs h <= eps / 2 * S).
  { apply Rle_trans with (e1 * ((G + 1) * S)); [apply Rmult_le_compat_l; lra|]. unfold e1. right. field. lra. }
  assert (A2 : Rabs c * Rabs (h - s) <= eps / 2 * S).
  { apply Rle_trans with ((Rabs c + 1) * (eps / 2 / (Rabs c + 1) * S)); [|right; field; lra].
    apply Rmult_le_compat; try apply Rabs_pos; [lra|]. eapply Rle_trans; [exact H2|]. apply Rmult_le_compat_r; lra. }
  lra.
Qed.
Lemma lim_scale c a : derivable_pt_lim (fun z => c * z) a c.
Proof. intros eps He. exists (mkposreal 1 Rlt_0_1). intros h Hh _. replace ((c * (a + h) - c * a) / h - c) with 0 by (field; auto). rewrite Rabs_R0. auto. Qed.
Lemma d_scale c f g : diffable f g -> diffable (fun y => c * f y) (fun k => c * g k).
Proof. intros H. apply (d_comp (fun z => c * z) c f g); auto. apply lim_scale. Qed.
Lemma d_sub f g f' g' : diffable f g -> diffable f' g' -> diffable (fun y => f y - f' y) (fun k => g k - g' k).
Proof. intros H H'. apply (d_ext (fun y => f y + (-1) * f' y) _ (fun k => g k + (-1) * g' k)); [intros; ring | intros; ring|]. apply d_add; auto. apply d_scale; auto. Qed.
Lemma d_sqr f g : diffable f g -> diffable (fun y => f y * f y) (fun k => 2 * f x * g k).
Proof.
  intros H. apply (d_comp (fun z => z * z) (2 * f x) f g); auto. replace (2 * f x) with (1 * f x + f x * 1) by ring.
  apply (derivable_pt_lim_mult id id (f x) 1 1); apply derivable_pt_lim_id.
Qed.
Lemma d_mul f g f' g' : diffable f g -> diffable f' g' -> diffable (fun y => f y * f' y) (fun k => g k * f' x + f x * g' k).
Proof.
  intros H H'. pose proof (d_sqr _ _ (d_add _ _ _ _ H H')) as H1. pose proof (d_sqr _ _ (d_sub _ _ _ _ H H')) as H2.
  pose proof (d_scale (1 / 4) _ _ (d_sub _ _ _ _ H1 H2)) as H3. eapply d_ext; [| |exact H3]; cbv beta; intros; field.
Qed.
Lemma d_inv f g : f x <> 0 -> diffable f g -> diffable (fun y => / f y) (fun k => - / (f x * f x) * g k).
Proof.
  intros Hz H. apply (d_comp Rinv (- / (f x * f x)) f g); auto.
  pose proof (derivable_pt_lim_div (fct_cte 1) id (f x) 0 1 (derivable_pt_lim_const 1 (f x)) (derivable_pt_lim_id (f x)) Hz) as Hi.
  eapply derivable_pt_lim_ext; [|replace (- / (f x * f x)) with ((0 * id (f x) - 1 * fct_cte 1 (f x)) / Rsqr (id (f x))); [exact Hi|]].
  - intros z. unfold div_fct, fct_cte, id, Rdiv. ring.
  - unfold fct_cte, id, Rsqr. field. auto.
Qed.
(* two functions that agree near x have the same derivative *)
Lemma d_local f f' g : (exists d, 0 < d /\ forall y, near d y -> f y = f' y) -> diffable f g -> diffable f' g.
Proof.
  intros (d0 & P0 & Heq) H eps He. destruct (H eps He) as (d & Hd & Hy). exists (Rmin d0 d). split; [apply Rmin_pos; auto|]. intros y Hn.
  assert (Hx : near d0 x) by (split; [intros k; rewrite Rminus_eq_0, Rabs_R0; auto | auto]).
  rewrite <- (Heq x Hx), <- (Heq y (near_le _ _ y (Rmin_l _ _) Hn)). apply Hy. apply (near_le _ _ y (Rmin_r _ _) Hn).
Qed.
Lemma d_continuous f g e : diffable f g -> 0 < e -> exists d, 0 < d /\ forall y, near d y -> Rabs (f y - f x) < e.
Proof.
  intros H He. set (G := tot (fun k => Rabs (g k))).
  assert (HG : 0 <= G) by (apply vsum_nonneg; intros z Hz; apply in_map_iff in Hz; destruct Hz as (k & <- & _); apply Rabs_pos).
  destruct (H 1 Rlt_0_1) as (d1 & P1 & H1). pose proof (pos_INR n) as Hn0. set (d2 := e / ((G + 1) * (INR n + 1))).
  assert (P2 : 0 < d2) by (unfold d2; apply Rdiv_lt_0_compat; auto; apply Rmult_lt_0_compat; lra).
  exists (Rmin d1 d2). split; [apply Rmin_pos; auto|]. intros y Hy. specialize (H1 y (near_le _ _ y (Rmin_l _ _) Hy)). 
  pose proof (tot_pos y) as Hs0. set (S := tot (fun k => Rabs (y k - x k))) in *. set (s := tot (fun k => g k * (y k - x k))) in *.
  assert (Hs : Rabs s <= G * S) by apply lin_bound.
  assert (HS : S <= INR n * d2) by (apply tot_near; apply (near_le _ _ y (Rmin_r _ _) Hy)).
  replace (f y - f x) with ((f y - f x - s) + s) by ring. eapply Rle_lt_trans; [apply Rabs_triang|].
  apply Rle_lt_trans with ((G + 1) * S); [lra|]. apply Rle_lt_trans with ((G + 1) * (INR n * d2)); [apply Rmult_le_compat_l; lra|].
  replace e with ((G + 1) * (INR n + 1) * d2) by (unfold d2; field; lra). assert (0 < (G + 1) * d2) by (apply Rmult_lt_0_compat; lra). nra.
Qed.
Lemma d_abs f g : f x <> 0 -> diffable f g -> diffable (fun y => Rabs (f y)) (fun k => g k * (if Rltb 0 (f x) then 1 else -1)).
Proof.
  intros Hz H. destruct (d_continuous f g (Rabs (f x)) H) as (d & Hd & Hc); [apply Rabs_pos_lt; auto|].
  destruct (Rdichotomy _ _ Hz) as [Hneg|Hpos].
  - rewrite (proj2 (Rltb_no _ _)) by lra. apply (d_local (fun y => (-1) * f y)).
    + exists d. split; auto. intros y Hy. specialize (Hc y Hy). rewrite (Rabs_left (f x)) in Hc by lra. apply Rabs_def2 in Hc. rewrite Rabs_left by lra. ring.
    + eapply d_ext; [| |apply (d_scale (-1)); exact H]; cbv beta; intros; ring.
  - rewrite (proj2 (Rltb_ok _ _)) by lra. apply (d_local f).
    + exists d. split; auto. intros y Hy. specialize (Hc y Hy). rewrite (Rabs_right (f x)) in Hc by lra. apply Rabs_def2 in Hc. rewrite Rabs_right by lra. ring.
    + eapply d_ext; [| |exact H]; cbv beta; intros; ring.
Qed.
Lemma d_max f g f' g' : f x <> f' x -> diffable f g -> diffable f' g' -> diffable (fun y => Rmax (f y) (f' y)) (fun k => if Rltb (f' x) (f x) then g k else g' k).
Proof.
  intros Hz H H'. pose proof (d_sub _ _ _ _ H H') as Hs. destruct (d_continuous _ _ (Rabs (f x - f' x)) Hs) as (d & Hd & Hc); [apply Rabs_pos_lt; lra|]. cbv beta in Hc.
  destruct (Rdichotomy _ _ Hz) as [Hlt|Hgt].
  - rewrite (proj2 (Rltb_no _ _)) by lra. apply (d_local f'); auto. exists d. split; auto. intros y Hy. specialize (Hc y Hy). rewrite (Rabs_left (f x - _)) in Hc by lra.
    apply Rabs_def2 in Hc. rewrite Rmax_right; lra.
  - rewrite (proj2 (Rltb_ok _ _)) by lra. apply (d_local f); auto. exists d. split; auto. intros y Hy. specialize (Hc y Hy). rewrite (Rabs_right (f x - _)) in Hc by lra.
    apply Rabs_def2 in Hc. rewrite Rmax_left; lra.
Qed.
Lemma d_min f g f' g' : f x <> f' x -> diffable f g -> diffable f' g' -> diffable (fun y => Rmin (f y) (f' y)) (fun k => if Rltb (f x) (f' x) then g k else g' k).
Proof.
  intros Hz H H'. pose proof (d_sub _ _ _ _ H H') as Hs. destruct (d_continuous _ _ (Rabs (f x - f' x)) Hs) as (d & Hd & Hc); [apply Rabs_pos_lt; lra|]. cbv beta in Hc.
  destruct (Rdichotomy _ _ Hz) as [Hlt|Hgt].
  - rewrite (proj2 (Rltb_ok _ _)) by lra. apply (d_local f); auto. exists d. split; auto. intros y Hy. specialize (Hc y Hy). rewrite (Rabs_left (f x - _)) in Hc by lra.
    apply Rabs_def2 in Hc. rewrite Rmin_left; lra.
  - rewrite (proj2 (Rltb_no _ _)) by lra. apply (d_local f'); auto. exists d. split; auto. intros y Hy. specialize (Hc y Hy). rewrite (Rabs_right (f x - _)) in Hc by lra.
    apply Rabs_def2 in Hc. rewrite Rmin_right; lra.
Qed.
End Frechet.

(* ---- evaluation ---- *)
Lemma eval_denote inp par e : eval real_funs inp par e = denote inp par e.
Proof. induction e; cbn; rewrite ?IHe, ?IHe1, ?IHe2; auto. Qed.
Definition tan (t : option R) : R := match t with Some g => g | None => 0 end.
Lemma tan_add s t : tan (tadd s t) = tan s + tan t.
Proof. destruct s, t; cbn; ring. Qed.
Lemma tan_map f t : f 0 = 0 -> tan (tmap f t) = f (tan t).
Proof. intros H. destruct t; cbn; auto. Qed.

Section Program.
Variable n : nat.
Variables (x par : nat -> R).
Notation ev i e := (eval (N := NumDual) (dual_funs real_funs) (fun k => (x k, Some (onehot i k))) (fun k => (par k, None)) e).
Notation grad e := (fun i => tan (snd (ev i e))).
Lemma ev_primal i e : fst (ev i e) = denote x par e.
Proof. induction e; cbn; rewrite ?IHe, ?IHe1, ?IHe2; auto. Qed.
Lemma same_refl z : @nsame R NumR z z = true.
Proof. unfold nsame. cbn. rewrite (proj2 (Rleb_ok z z)) by lra. auto. Qed.
Lemma same_ne a b : a <> b -> @nsame R NumR a b = false.
Proof.
  intros H. unfold nsame. cbn. destruct (Rdichotomy _ _ H).
  - rewrite (proj2 (Rleb_no b a)) by lra. apply andb_false_r.
  - rewrite (proj2 (Rleb_no a b)) by lra. auto.
Qed.
Lemma jvp_diffable e : smooth x par e -> diffable n x (fun y => denote y par e) (grad e).
Proof.
  induction e as [k|k|p q|a IHa b IHb|a IHa b IHb|a IHa b IHb|a IHa b IHb|a IHa|a IHa|a IHa|a IHa b IHb|a IHa b IHb|a IHa|a IHa|a IHa];
    cbn [smooth denote]; intros Hs.
  - eapply d_ext; [| |apply (d_inp n x k)]; [auto|]. intros i _. cbn [eval snd tan]. unfold onehot. rewrite Nat.eqb_sym. auto.
  - apply (d_const n x (par k)).
  - apply (d_const n x (IZR p / IZR (Z.pos q))).
  - destruct Hs as (Ha & Hb). eapply d_ext; [| |apply (d_add n x _ _ _ _ (IHa Ha) (IHb Hb))]; [auto|]. intros i _. cbn [eval nadd NumDual snd]. rewrite tan_add. auto.
  - destruct Hs as (Ha & Hb). eapply d_ext; [| |apply (d_sub n x _ _ _ _ (IHa Ha) (IHb Hb))]; [auto|]. intros i _. cbn [eval nsub NumDual snd].
    rewrite tan_add, tan_map by (cbn; ring). cbn. ring.
  - destruct Hs as (Ha & Hb). eapply d_ext; [| |apply (d_mul n x _ _ _ _ (IHa Ha) (IHb Hb))]; [auto|]. intros i _. cbn [eval nmul NumDual snd].
    rewrite tan_add, !tan_map by (cbn; ring). rewrite !ev_primal. cbn. ring.
  - destruct Hs as (Ha & Hb & Hz). pose proof (d_inv n x _ _ Hz (IHb Hb)) as Hi. eapply d_ext; [| |apply (d_mul n x _ _ _ _ (IHa Ha) Hi)]; [auto|]. intros i _. cbn [eval ndiv NumDual snd].
    rewrite tan_add, !tan_map by (cbn; unfold Rdiv; ring). rewrite !ev_primal. cbn. field. auto.
  - eapply d_ext; [| |apply (d_scale n x (-1) _ _ (IHa Hs))]; [intros; cbv beta; ring|]. intros i _. cbn [eval nneg NumDual snd]. rewrite tan_map by (cbn; ring). cbn. ring.
  - destruct Hs as (Ha & Hp). assert (Hsq : sqrt (denote x par a) <> 0) by (apply Rgt_not_eq, sqrt_lt_R0; auto).
    eapply d_ext; [| |apply (d_comp n x sqrt _ _ _ (derivable_pt_lim_sqrt _ Hp) (IHa Ha))]; [auto|]. intros i _. cbn [eval nsqrt NumDual snd].
    rewrite tan_map by (cbn; ring). rewrite ev_primal. cbn. unfold Rlit. field. auto.
  - destruct Hs as (Ha & Hz). eapply d_ext; [| |apply (d_abs n x _ _ Hz (IHa Ha))]; [auto|]. intros i _. cbn [eval nabs NumDual snd].
    rewrite tan_map by (cbn; ring). rewrite ev_primal. unfold nsign. cbn [nltb n0 n1 nneg nmul NumR]. destruct (Rltb 0 (denote x par a)) eqn:E1; auto.
    rewrite (proj2 (Rltb_ok _ _)); [ring|]. apply Rltb_no in E1. lra.
  - destruct Hs as (Ha & Hb & Hz). eapply d_ext; [| |apply (d_max n x _ _ _ _ Hz (IHa Ha) (IHb Hb))]; [auto|]. intros i _. cbn [eval nmax NumDual snd].
    rewrite tan_add, !tan_map by (cbn; ring). rewrite !ev_primal. cbn [nmax nmul NumR]. unfold balanced. destruct (Rdichotomy _ _ Hz) as [Hl|Hl].
    + rewrite (proj2 (Rltb_no _ _)) by lra. rewrite Rmax_right by lra. rewrite same_refl, same_ne by lra. cbn. unfold Rlit. field.
    + rewrite (proj2 (Rltb_ok _ _)) by lra. rewrite Rmax_left by lra. rewrite same_refl, same_ne by lra. cbn. unfold Rlit. field.
  - destruct Hs as (Ha & Hb & Hz). eapply d_ext; [| |apply (d_min n x _ _ _ _ Hz (IHa Ha) (IHb Hb))]; [auto|]. intros i _. cbn [eval nmin NumDual snd].
    rewrite tan_add, !tan_map by (cbn; ring). rewrite !ev_primal. cbn [nmin nmul NumR]. unfold balanced. destruct (Rdichotomy _ _ Hz) as [Hl|Hl].
    + rewrite (proj2 (Rltb_ok _ _)) by lra. rewrite Rmin_left by lra. rewrite same_refl, same_ne by lra. cbn. unfold Rlit. field.
    + rewrite (proj2 (Rltb_no _ _)) by lra. rewrite Rmin_right by lra. rewrite same_refl, same_ne by lra. cbn. unfold Rlit. field.
  - eapply d_ext; [| |apply (d_comp n x sin _ _ _ (derivable_pt_lim_sin _) (IHa Hs))]; [auto|]. intros i _. cbn [eval f_sin dual_funs snd real_funs].
    rewrite tan_map by (cbn; ring). rewrite ev_primal. cbn. ring.
  - eapply d_ext; [| |apply (d_comp n x cos _ _ _ (derivable_pt_lim_cos _) (IHa Hs))]; [auto|]. intros i _. cbn [eval f_cos dual_funs snd real_funs].
    rewrite tan_map by (cbn; ring). rewrite ev_primal. cbn. ring.
  - eapply d_ext; [| |apply (d_comp n x exp _ _ _ (derivable_pt_lim_exp _) (IHa Hs))]; [auto|]. intros i _. cbn [eval f_exp dual_funs snd real_funs].
    rewrite tan_map by (cbn; ring). rewrite ev_primal. cbn. ring.
Qed.
Lemma jac_entry_grad e i : jac_entry real_funs x par e i = tan (snd (ev i e)).
Proof. unfold jac_entry, jvp. cbn [snd]. destruct (snd (ev i e)); auto. Qed.
Lemma entry_diffable e : smooth x par e -> diffable n x (fun y => denote y par e) (jac_entry real_funs x par e).
Proof. intros H. eapply d_ext; [| |apply jvp_diffable; exact H]; auto. Qed.
End Program.

(* along a line *)
Lemma d_line n x f g d : diffable n x f g -> length d = n -> (forall k, (n <= k)%nat -> x k = 0) ->
  derivable_pt_lim (fun t => f (fun k => x k + t * nth k d 0)) 0 (vsum (map (fun k => g k * nth k d 0) (seq 0 n))).
Proof.
  intros H Hd Hx eps He. set (M := vsum (map (fun k => Rabs (nth k d 0)) (seq 0 n))).
  assert (HM : 0 <= M) by (apply vsum_nonneg; intros z Hz; apply in_map_iff in Hz; destruct Hz as (k & <- & _); apply Rabs_pos).
  destruct (H (eps / 2 / (M + 1))) as (dd & Pd & Hf); [repeat apply Rdiv_lt_0_compat; lra|].
  assert (P : 0 < dd / (M + 1)) by (apply Rdiv_lt_0_compat; lra). exists (mkposreal _ P). cbn. intros h Hh Hhd. rewrite Rplus_0_l.
  set (y := fun k => x k + h * nth k d 0). assert (Hy : near n x dd y).
  { split.
    - intros k. unfold y. replace (x k + h * nth k d 0 - x k) with (h * nth k d 0) by ring. rewrite Rabs_mult.
      assert (Hk : Rabs (nth k d 0) <= M).
      { destruct (Nat.lt_ge_cases k n) as [Hk|Hk]; [|rewrite nth_overflow, Rabs_R0 by lia; auto]. unfold M. assert (Hin : In k (seq 0 n)) by (apply in_seq; lia). clear - Hin.
        induction (seq 0 n) as [|j l IH]; [destruct Hin|]. cbn [map]. rewrite vsum_cons.
        assert (0 <= vsum (map (fun k => Rabs (nth k d 0)) l)) by (apply vsum_nonneg; intros z Hz; apply in_map_iff in Hz; destruct Hz as (i & <- & _); apply Rabs_pos).
        destruct Hin as [->|Hin]; [lra|]. specialize (IH Hin). pose proof (Rabs_pos (nth j d 0)). lra. }
      apply Rle_lt_trans with (Rabs h * (M + 1)); [apply Rmult_le_compat_l; [apply Rabs_pos | lra]|].
      apply Rmult_lt_reg_r with (/ (M + 1)); [apply Rinv_0_lt_compat; lra|]. rewrite Rmult_assoc, Rinv_r, Rmult_1_r by lra. exact Hhd.
    - intros k Hk. unfold y. rewrite (nth_overflow d) by lia. ring. }
  specialize (Hf y Hy). set (l := vsum (map (fun k => g k * nth k d 0) (seq 0 n))) in *.
  rewrite (vsum_map_ext (fun k => g k * (y k - x k)) (fun k => h * (g k * nth k d 0))) in Hf by (intros; unfold y; ring). rewrite vsum_map_scale in Hf. fold l in Hf.
  rewrite (vsum_map_ext (fun k => Rabs (y k - x k)) (fun k => Rabs h * Rabs (nth k d 0))) in Hf.
  2:{ intros k _. rewrite <- Rabs_mult. f_equal. unfold y. ring. }
  rewrite vsum_map_scale in Hf. fold M in Hf. assert (Hx0 : f (fun k => x k + 0 * nth k d 0) = f x).
  { assert (Hn0 : near n x dd (fun k => x k + 0 * nth k d 0)) by (split; [intros k; replace (x k + 0 * nth k d 0 - x k) with 0 by ring; rewrite Rabs_R0; auto | intros; ring]).
    destruct (d_continuous n x f g 1 H Rlt_0_1) as (d0 & P0 & _).
    assert (Hall : forall e, 0 < e -> Rabs (f (fun k => x k + 0 * nth k d 0) - f x) <= e).
    { intros e Hee. destruct (d_continuous n x f g e H Hee) as (d1 & P1 & Hc). left. apply Hc. split; [intros k; replace (x k + 0 * nth k d 0 - x k) with 0 by ring; rewrite Rabs_R0; auto | intros; ring]. }
    destruct (Req_dec (f (fun k => x k + 0 * nth k d 0)) (f x)) as [|Hne]; auto. pose proof (Hall (Rabs (f (fun k => x k + 0 * nth k d 0) - f x) / 2)).
    assert (0 < Rabs (f (fun k => x k + 0 * nth k d 0) - f x)) by (apply Rabs_pos_lt; lra). lra. }
  rewrite Hx0. fold y. replace ((f y - f x) / h - l) with ((f y - f x - h * l) / h) by (field; auto). unfold Rdiv. rewrite Rabs_mult, Rabs_inv.
  pose proof (Rabs_pos_lt h Hh) as Hp. apply Rmult_lt_reg_r with (Rabs h); auto. rewrite Rmult_assoc, Rinv_l, Rmult_1_r by lra.
  eapply Rle_lt_trans; [exact Hf|]. apply Rle_lt_trans with (eps / 2 * Rabs h); [|nra].
  replace (eps / 2 / (M + 1) * (Rabs h * M)) with (eps / 2 * Rabs h * (M / (M + 1))) by (field; lra).
  assert (M / (M + 1) <= 1) by (apply Rmult_le_reg_r with (M + 1); [lra|]; unfold Rdiv; rewrite Rmult_assoc, Rinv_l by lra; lra).
  rewrite <- (Rmult_1_r (eps / 2 * Rabs h)) at 2. apply Rmult_le_compat_l; auto. apply Rmult_le_pos; lra.
Qed.
