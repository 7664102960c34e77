(* Caches and variable-value tuples. *)
From Coq Require Import List Arith Bool ZArith Lia.
From Verif Require Import Num Py Arr MLayout MMisc SpecMisc PBase.
Import ListNotations.

Lemma nth_error_Some_lt {A} (l : list A) i x : nth_error l i = Some x -> i < length l.
Proof. intros H. apply nth_error_Some. congruence. Qed.

(* ---- C26 ---- *)
Lemma crun_gen os c i a p : nth_error os i = Some (CSolve a p) ->
  exists q, nth_error (fst (crun os c)) i = Some (Some q) /\
    (dict_get c a = Some q \/ dict_get c a = None /\ exists j, j <= i /\ first_solve os a j q).
Proof.
  revert c i. induction os as [|o os IH]; intros c i H; [destruct i; discriminate|].
  cbn [crun]. destruct (cstep o c) as [x c'] eqn:Eo. destruct (crun os c') as [xs c''] eqn:Er. cbn [fst].
  destruct i as [|i]; cbn [nth_error] in *.
  - injection H as ->. cbn [cstep] in Eo. destruct (dict_get c a) as [q|] eqn:Ea; injection Eo as <- <-.
    + exists q. auto.
    + exists p. split; auto. right. split; auto. exists 0. split; auto. split; auto. intros; lia.
  - destruct (IH c' i H) as (q & Hq & Hd). rewrite Er in Hq. cbn [fst] in Hq. exists q. split; auto.
    assert (Hcase : dict_get c' a = dict_get c a /\ (forall p', o <> CSolve a p') \/
                    (exists p', o = CSolve a p' /\ (dict_get c a = None /\ dict_get c' a = Some p' \/ c' = c /\ dict_get c a <> None))).
    { destruct o as [b p'|b]; cbn [cstep] in Eo.
      - destruct (Nat.eq_dec b a) as [->|Hb].
        + right. exists p'. split; auto. destruct (dict_get c a) eqn:Ea; injection Eo as <- <-.
          * right. split; auto. congruence.
          * left. split; auto. apply dict_get_set_same.
        + left. split; [|congruence]. destruct (dict_get c b); injection Eo as <- <-; auto. apply dict_get_set_other; auto.
      - injection Eo as <- <-. left. split; auto. discriminate. }
    destruct Hcase as [[Hg Hne] | (p' & -> & [[Hn Hs] | [-> Hs]])].
    + rewrite Hg in Hd. destruct Hd as [Hd|[Hd (j & Hj & Hf & Hfirst)]]; auto. right. split; auto. exists (S j).
      split; [lia|]. split; auto. intros [|k] p0 Hk; cbn [nth_error]; [congruence | apply Hfirst; lia].
    + right. split; auto. destruct Hd as [Hd|[Hd _]]; [|congruence]. replace q with p' by congruence. exists 0. split; [lia|]. split; auto. intros; lia.
    + left. destruct Hd as [Hd|[Hd _]]; auto. congruence.
Qed.

Lemma analysis_cache os i a p : nth_error os i = Some (CSolve a p) ->
  exists q j, nth_error (fst (crun os [])) i = Some (Some q) /\ j <= i /\ first_solve os a j q /\
    (q = p <-> forall k p', k <= i -> first_solve os a k p' -> p' = p) /\
    ((forall k p', k < i -> nth_error os k = Some (CSolve a p') -> p' = p) -> q = p).
Proof.
  intros H. destruct (crun_gen os [] i a p H) as (q & Hq & [Hd|[_ (j & Hj & Hf)]]); [discriminate|].
  exists q, j. split; auto. split; auto. split; auto. split.
  - split.
    + intros -> k p' Hk (H1 & H2). destruct Hf as (F1 & F2). destruct (lt_eq_lt_dec k j) as [[L| ->]|L]; try congruence.
      * exfalso. exact (F2 _ _ L H1).
      * exfalso. exact (H2 _ _ L F1).
    + intros Hall. apply (Hall j); auto.
  - intros Hall. destruct Hf as (F1 & F2). destruct (Nat.eq_dec j i) as [->|]; [congruence|]. apply (Hall j); auto. lia.
Qed.

Lemma analysis_stale a p q : p <> q ->
  nth_error (fst (crun [CSolve a p; CSolve a q] [])) 1 = Some (Some p) /\
  nth_error (fst (crun [CSolve a p; CFree a; CSolve a q] [])) 2 = Some (Some p).
Proof.
  intros H. cbn [crun cstep fst nth_error dict_get dict_set]. cbn. rewrite Nat.eqb_refl. cbn. auto.
Qed.

(* ---- C51 ---- *)
Section Tuple.
Context {V : Type}.
Variable isinstance : V -> nat -> bool.
Notation fits := (fits isinstance). Notation matches := (matches isinstance).

Lemma check_elts_ok vs ts : length vs = length ts -> (check_elts isinstance vs ts = Ok tt <-> Forall2 fits vs ts).
Proof.
  revert ts. induction vs as [|v vs IH]; intros [|t ts] Hl; try discriminate.
  - split; auto.
  - cbn [check_elts]. injection Hl as Hl. destruct t as [t|]; cbn [isinstance_elt bind].
    + destruct (isinstance v t) eqn:Ei; cbn [assert_ bind].
      * rewrite (IH _ Hl). split; intros H; [constructor; auto | inversion H; auto].
      * split; [discriminate|]. intros H. inversion H; subst. cbn in *. congruence.
    + split; [discriminate|]. intros H. inversion H; subst. cbn in *. tauto.
Qed.
Lemma check_elts_err vs ts : ~ In TyEllipsis ts -> check_elts isinstance vs ts = Ok tt \/ check_elts isinstance vs ts = Err AssertionError.
Proof.
  revert ts. induction vs as [|v vs IH]; intros [|[t|] ts] H; cbn; auto.
  - destruct (isinstance v t); cbn; auto. apply IH. intros Hi. apply H. right; auto.
  - exfalso. apply H. left; auto.
Qed.
Lemma check_elts_any vs ts : check_elts isinstance vs ts = Ok tt \/ exists e, check_elts isinstance vs ts = Err e.
Proof. destruct (check_elts isinstance vs ts) as [[]|e]; eauto. Qed.
Lemma expand_variadic e n : expand_ellipsis [e; TyEllipsis] n = repeat e n.
Proof. reflexivity. Qed.
Lemma expand_plain ts n : (forall e, ~ variadic ts e) -> expand_ellipsis ts n = ts.
Proof.
  intros H. destruct ts as [|e [|[t|] [|x r]]]; try reflexivity. exfalso. exact (H e eq_refl).
Qed.
Lemma variadic_dec ts : (exists e, variadic ts e) \/ forall e, ~ variadic ts e.
Proof.
  unfold variadic. destruct ts as [|e [|[t|] [|x r]]]; try (right; intros e' H; discriminate). left. eauto.
Qed.
Lemma forall2_repeat vs e : Forall2 fits vs (repeat e (length vs)) <-> Forall (fun v => fits v e) vs.
Proof.
  induction vs as [|v vs IH]; cbn; split; intros H; constructor; try (inversion H; subst; auto; fail).
  - inversion H; subst. apply IH; auto.
  - inversion H; subst. apply IH; auto.
Qed.

Definition body (ts : list elt) (vs : list V) {X} (k : result X) : result X :=
  _ <- assert_ (Nat.eqb (length vs) (length (expand_ellipsis ts (length vs)))) ;;
  _ <- check_elts isinstance vs (expand_ellipsis ts (length vs)) ;; k.
Lemma body_ok ts vs X (x : X) : (matches ts vs -> body ts vs (Ok x) = Ok x) /\
  (~ matches ts vs -> exists e, body ts vs (Ok x) = Err e /\ (sane ts -> e = AssertionError)).
Proof.
  unfold body. destruct (Nat.eqb (length vs) (length (expand_ellipsis ts (length vs)))) eqn:El; cbn [assert_ bind].
  - apply Nat.eqb_eq in El. pose proof (check_elts_ok vs _ El) as Hc.
    assert (Hm : matches ts vs <-> Forall2 fits vs (expand_ellipsis ts (length vs))).
    { destruct (variadic_dec ts) as [(e & ->)|Hn].
      - rewrite expand_variadic, forall2_repeat. split.
        + intros [(e' & He & H)|[Hn _]]; [injection He as <-; auto | exfalso; exact (Hn e eq_refl)].
        + intros H. left. exists e. split; [reflexivity | auto].
      - rewrite expand_plain by auto. split; [intros [(e & He & _)|[_ H]]; [exfalso; exact (Hn e He) | auto] | intros H; right; auto]. }
    split.
    + intros H. apply Hm, Hc in H. rewrite H. reflexivity.
    + intros H. destruct (check_elts_any vs (expand_ellipsis ts (length vs))) as [Ho|(e & He)]; [exfalso; apply H, Hm, Hc; auto|].
      exists e. rewrite He. split; auto. intros Hs.
      destruct (check_elts_err vs (expand_ellipsis ts (length vs))) as [H1|H1]; try congruence.
      destruct Hs as [(t & ->)|Hs].
      * rewrite expand_variadic. intros Hi. apply repeat_spec in Hi. discriminate.
      * rewrite expand_plain; auto. intros e0 ->. apply Hs. right. left. auto.
  - apply Nat.eqb_neq in El. split; [|intros _; exists AssertionError; auto].
    intros [(e & -> & _)|[Hn H]]; exfalso; apply El.
    + rewrite expand_variadic, repeat_length; auto.
    + rewrite expand_plain by auto. clear -H. induction H; cbn; auto.
Qed.

Lemma value_tuple vs : build_variable_value_tuple isinstance NoHint vs = Err NotImplementedError /\
  (forall ts, (matches ts vs -> build_variable_value_tuple isinstance (HTuple ts) vs = Ok (Plain vs)) /\
     (~ matches ts vs -> exists e, build_variable_value_tuple isinstance (HTuple ts) vs = Err e /\ (sane ts -> e = AssertionError))) /\
  (forall tag ts, length ts = length vs -> (matches ts vs -> build_variable_value_tuple isinstance (HNamed tag ts) vs = Ok (Named tag vs)) /\
     (~ matches ts vs -> exists e, build_variable_value_tuple isinstance (HNamed tag ts) vs = Err e /\ (sane ts -> e = AssertionError))) /\
  (forall tag ts, length ts <> length vs -> build_variable_value_tuple isinstance (HNamed tag ts) vs = Err TypeError).
Proof.
  split; [reflexivity|]. split; [intros ts; apply (body_ok ts vs _ (Plain vs))|]. split.
  - intros tag ts Hl. cbn [build_variable_value_tuple]. rewrite Hl, Nat.eqb_refl. apply (body_ok ts vs _ (Named tag vs)).
  - intros tag ts Hl. cbn [build_variable_value_tuple]. apply Nat.eqb_neq in Hl. rewrite Hl. reflexivity.
Qed.
End Tuple.

(* ---- C52 ---- *)
Record inv (h : heap) : Prop := {
  inv_canon : forall t v, dict_get (h_canon h) t = Some v -> v_ty v = t /\ v_id v < h_next_obj h;
  inv_inj : forall t t' v v', dict_get (h_canon h) t = Some v -> dict_get (h_canon h) t' = Some v' -> v_id v = v_id v' -> t = t';
  inv_real : forall z c, dict_get (h_real h) z = Some c -> c < h_next_cls h;
  inv_rinj : forall z z' c, dict_get (h_real h) z = Some c -> dict_get (h_real h) z' = Some c -> z = z';
  inv_pos : forall z c, dict_get (h_real h) z = Some c -> (0 <= z)%Z }.
(* h' is later than h *)
Record later (h h' : heap) : Prop := {
  la_obj : h_next_obj h <= h_next_obj h';
  la_cls : h_next_cls h <= h_next_cls h';
  la_canon : forall t v, dict_get (h_canon h) t = Some v -> dict_get (h_canon h') t = Some v;
  la_real : forall z c, dict_get (h_real h) z = Some c -> dict_get (h_real h') z = Some c;
  la_newc : forall t v, dict_get (h_canon h') t = Some v -> dict_get (h_canon h) t = Some v \/ h_next_obj h <= v_id v;
  la_newr : forall z c, dict_get (h_real h') z = Some c -> dict_get (h_real h) z = Some c \/ h_next_cls h <= c }.
Lemma later_refl h : later h h.
Proof. constructor; auto. Qed.
Lemma later_trans h1 h2 h3 : later h1 h2 -> later h2 h3 -> later h1 h3.
Proof.
  intros A B. constructor; eauto using la_canon, la_real.
  - pose proof (la_obj _ _ A). pose proof (la_obj _ _ B). lia.
  - pose proof (la_cls _ _ A). pose proof (la_cls _ _ B). lia.
  - intros t v H. destruct (la_newc _ _ B _ _ H) as [H1|H1]; [eapply la_newc; eauto|]. right. pose proof (la_obj _ _ A). lia.
  - intros t v H. destruct (la_newr _ _ B _ _ H) as [H1|H1]; [eapply la_newr; eauto|]. right. pose proof (la_cls _ _ A). lia.
Qed.
Lemma inv0 : inv heap0.
Proof. constructor; cbn; intros; discriminate. Qed.

(* what an operation outputs, seen from a later heap h' *)
Definition said (h0 h h' : heap) (o : hop) (x : hout) : Prop :=
  match o with
  | HNewVar t => exists v, x = OVar v /\ v_ty v = t /\ v_id v = h_next_obj h /\ h_next_obj h0 = S (h_next_obj h) /\
                  forall t' w, dict_get (h_canon h') t' = Some w -> v_id w <> v_id v
  | HNewClass => x = OCls (Ok (h_next_cls h)) /\ h_next_cls h0 = S (h_next_cls h) /\
                  forall z c, dict_get (h_real h') z = Some c -> c <> h_next_cls h
  | HCanonical t => exists v, x = OVar v /\ dict_get (h_canon h') t = Some v
  | HReal k =>
      (exists c, x = OCls (Ok c) /\ dict_get (h_real h') (key_num k) = Some c /\ (0 <= key_num k)%Z /\
         (key_is_int k = true \/ dict_get (h_real h) (key_num k) <> None)) \/
      (dict_get (h_real h) (key_num k) = None /\ h0 = h /\
        (key_is_int k = true /\ (key_num k < 0)%Z /\ x = OCls (Err ValueError) \/
         key_is_int k = false /\ x = OCls (Err AssertionError)))
  end.
Ltac dget := repeat match goal with
  | H : context [dict_get (dict_set ?d ?k ?v) ?k'] |- _ =>
      first [ rewrite (dict_get_set_same d k v) in H
            | let E := fresh "E" in destruct (eqb k k') eqn:E;
                [ apply eqb_ok in E; subst; rewrite dict_get_set_same in H
                | rewrite dict_get_set_other in H by (intros ->; rewrite (proj2 (eqb_ok _ _) eq_refl) in E; discriminate)] ]
  end.
Lemma hstep_ok o h x h' : inv h -> hstep o h = (x, h') -> inv h' /\ later h h' /\ said h' h h' o x.
Proof.
  intros I H. destruct o as [t| |t|k]; cbn [hstep] in H.
  - injection H as <- <-. split; [|split].
    + constructor; cbn; intros; eauto using inv_inj, inv_rinj, inv_pos, inv_real. destruct (inv_canon _ I _ _ H). split; auto.
    + constructor; cbn; auto.
    + cbn. eexists. split; [reflexivity|]. cbn. repeat split; auto. intros t' w Hw. destruct (inv_canon _ I _ _ Hw). lia.
  - injection H as <- <-. split; [|split].
    + constructor; cbn; intros; eauto using inv_inj, inv_rinj, inv_pos, inv_canon. pose proof (inv_real _ I _ _ H). lia.
    + constructor; cbn; auto.
    + cbn. repeat split; auto. intros z c Hc. pose proof (inv_real _ I _ _ Hc). lia.
  - unfold canonical_instance in H. destruct (dict_get (h_canon h) t) as [v|] eqn:Et.
    + injection H as <- <-. split; auto. split; [apply later_refl|]. cbn. eauto.
    + cbn [new_var] in H. injection H as <- <-. split; [|split].
      * constructor; cbn; intros; eauto using inv_rinj, inv_pos, inv_real.
        -- dget; [injection H as <-; cbn; auto|]. destruct (inv_canon _ I _ _ H). split; auto.
        -- destruct (Nat.eq_dec t t0) as [<-|Ht]; destruct (Nat.eq_dec t t') as [<-|Ht']; auto.
           ++ rewrite dict_get_set_same in H. rewrite dict_get_set_other in H0 by auto. injection H as <-. cbn in H1.
              destruct (inv_canon _ I _ _ H0). lia.
           ++ rewrite dict_get_set_same in H0. rewrite dict_get_set_other in H by auto. injection H0 as <-. cbn in H1.
              destruct (inv_canon _ I _ _ H). lia.
           ++ rewrite dict_get_set_other in H, H0 by auto. eapply inv_inj; eauto.
      * constructor; cbn; auto.
        -- intros t0 v Hv. destruct (Nat.eq_dec t t0) as [<-|Ht]; [congruence|]. rewrite dict_get_set_other; auto.
        -- intros t0 v Hv. destruct (Nat.eq_dec t t0) as [<-|Ht].
           ++ rewrite dict_get_set_same in Hv. injection Hv as <-. cbn. auto.
           ++ rewrite dict_get_set_other in Hv; auto.
      * cbn. eexists. split; [reflexivity|]. apply dict_get_set_same.
  - unfold real_vector in H. destruct (dict_get (h_real h) (key_num k)) as [c|] eqn:Ek.
    + injection H as <- <-. split; auto. split; [apply later_refl|]. cbn. left. exists c. repeat split; auto.
      * eapply inv_pos; eauto.
      * right. congruence.
    + destruct (key_is_int k) eqn:Ei; [destruct (Z.ltb_spec (key_num k) 0) as [L|L]|].
      * injection H as <- <-. split; auto. split; [apply later_refl|]. cbn. right. repeat split; auto.
      * cbn [new_class] in H. injection H as <- <-. split; [|split].
        -- constructor; cbn; intros; eauto using inv_inj, inv_canon.
           ++ destruct (Z.eq_dec (key_num k) z) as [<-|Hz].
              ** rewrite dict_get_set_same in H. injection H as <-. lia.
              ** rewrite dict_get_set_other in H by auto. pose proof (inv_real _ I _ _ H). lia.
           ++ destruct (Z.eq_dec (key_num k) z) as [<-|Hz]; destruct (Z.eq_dec (key_num k) z') as [<-|Hz']; auto.
              ** rewrite dict_get_set_same in H. rewrite dict_get_set_other in H0 by auto. injection H as <-.
                 pose proof (inv_real _ I _ _ H0). lia.
              ** rewrite dict_get_set_same in H0. rewrite dict_get_set_other in H by auto. injection H0 as <-.
                 pose proof (inv_real _ I _ _ H). lia.
              ** rewrite dict_get_set_other in H, H0 by auto. eapply inv_rinj; eauto.
           ++ destruct (Z.eq_dec (key_num k) z) as [<-|Hz]; auto. rewrite dict_get_set_other in H by auto. eapply inv_pos; eauto.
        -- constructor; cbn; auto.
           ++ intros z c Hc. destruct (Z.eq_dec (key_num k) z) as [<-|Hz]; [congruence|]. rewrite dict_get_set_other; auto.
           ++ intros z c Hc. destruct (Z.eq_dec (key_num k) z) as [<-|Hz].
              ** rewrite dict_get_set_same in Hc. injection Hc as <-. auto.
              ** rewrite dict_get_set_other in Hc; auto.
        -- cbn. left. eexists. split; [reflexivity|]. split; [apply dict_get_set_same|]. auto.
      * injection H as <- <-. split; auto. split; [apply later_refl|]. cbn. right. repeat split; auto.
Qed.
Lemma said_later h0 h h1 h2 o x : inv h1 -> later h0 h1 -> later h1 h2 -> said h0 h h1 o x -> said h0 h h2 o x.
Proof.
  intros I L0 L H. destruct o as [t| |t|k]; cbn in *.
  - destruct H as (v & -> & Ht & Hv & Hn & Hw). exists v. repeat split; auto. intros t' w H.
    destruct (la_newc _ _ L _ _ H) as [H1|H1]; [eauto|]. pose proof (la_obj _ _ L0). lia.
  - destruct H as (-> & Hn & Hw). repeat split; auto. intros z c H. destruct (la_newr _ _ L _ _ H) as [H1|H1]; [eauto|]. pose proof (la_cls _ _ L0). lia.
  - destruct H as (v & -> & Hv). exists v. split; auto. eapply la_canon; eauto.
  - destruct H as [(c & -> & Hc & Hr)|H]; [left|right; auto]. exists c. split; auto. split; auto. eapply la_real; eauto.
Qed.

(* every operation of a history, with the heaps before and after it *)
Lemma hrun_ok os h xs h' : inv h -> hrun os h = (xs, h') -> inv h' /\ later h h' /\ length xs = length os /\
  forall i o, nth_error os i = Some o -> exists x hi hj, nth_error xs i = Some x /\ hrun (firstn i os) h = (firstn i xs, hi) /\
    hstep o hi = (x, hj) /\ hrun (firstn (S i) os) h = (firstn (S i) xs, hj) /\ inv hi /\ later h hi /\ later hi hj /\ later hj h' /\ said hj hi h' o x.
Proof.
  revert h xs. induction os as [|o os IH]; intros h xs I H.
  - injection H as <- <-. split; auto. split; [apply later_refl|]. split; auto. intros [|i] o Hi; discriminate.
  - cbn [hrun] in H. destruct (hstep o h) as [x h1] eqn:Eo. destruct (hrun os h1) as [ys h2] eqn:Er. injection H as <- <-.
    destruct (hstep_ok _ _ _ _ I Eo) as (I1 & L1 & S1). destruct (IH _ _ I1 Er) as (I2 & L2 & Hl & Hall).
    split; auto. split; [eapply later_trans; eauto|]. split; [cbn; auto|].
    intros [|i] o0 Hi; cbn [nth_error] in Hi.
    + injection Hi as <-. exists x, h, h1. split; auto. split; auto. split; auto.
      split; [cbn; rewrite Eo; reflexivity|]. split; auto. split; [apply later_refl|]. split; auto. split; auto.
      eapply said_later with (h1 := h1); eauto using later_refl.
    + destruct (Hall _ _ Hi) as (y & hi & hj & H1 & H2 & H3 & H4 & H5 & H6 & H7 & H8 & H9). exists y, hi, hj. split; auto.
      split; [cbn [firstn hrun]; rewrite Eo, H2; reflexivity|]. split; auto.
      split; [change (firstn (S (S i)) (o :: os)) with (o :: firstn (S i) os); cbn [hrun]; rewrite Eo, H4; reflexivity|].
      split; auto. split; [eapply later_trans; eauto|]. auto.
Qed.
(* the heap before a later operation is later than the heap after an earlier one *)
Lemma hrun_later os h i j xi xj hi hj : inv h -> i <= j -> hrun (firstn i os) h = (xi, hi) -> hrun (firstn j os) h = (xj, hj) -> later hi hj.
Proof.
  revert h i j xi xj. induction os as [|o os IH]; intros h i j xi xj I Hij Hi Hj.
  - rewrite firstn_nil in Hi, Hj. cbn in *. replace hj with hi by congruence. apply later_refl.
  - destruct i as [|i].
    + cbn in Hi. injection Hi as <- <-. destruct (hrun_ok _ _ _ _ I Hj) as (_ & L & _). auto.
    + destruct j as [|j]; [lia|]. cbn [firstn hrun] in Hi, Hj. destruct (hstep o h) as [x h1] eqn:Eo.
      destruct (hrun (firstn i os) h1) eqn:E1, (hrun (firstn j os) h1) eqn:E2. injection Hi as _ <-. injection Hj as _ <-.
      destruct (hstep_ok _ _ _ _ I Eo) as (I1 & _). eapply IH; [apply I1 | | eauto | eauto]. lia.
Qed.

Lemma stable_identities os xs h : hrun os heap0 = (xs, h) ->
  length xs = length os /\
  (forall i t, nth_error os i = Some (HCanonical t) -> exists v, nth_error xs i = Some (OVar v) /\ v_ty v = t) /\
  (forall i j t t' v v', nth_error os i = Some (HCanonical t) -> nth_error os j = Some (HCanonical t') ->
     nth_error xs i = Some (OVar v) -> nth_error xs j = Some (OVar v') -> (v = v' <-> t = t') /\ (v_id v = v_id v' <-> t = t')) /\
  (forall i j k k' c c', nth_error os i = Some (HReal k) -> nth_error os j = Some (HReal k') ->
     nth_error xs i = Some (OCls (Ok c)) -> nth_error xs j = Some (OCls (Ok c')) -> (c = c' <-> key_num k = key_num k')) /\
  (forall i j t v, nth_error os i = Some (HNewVar t) -> i <> j -> nth_error xs i = Some (OVar v) ->
     v_ty v = t /\ forall w, nth_error xs j = Some (OVar w) -> v_id w <> v_id v) /\
  (forall i j c, nth_error os i = Some HNewClass -> i <> j -> nth_error xs i = Some (OCls (Ok c)) ->
     forall c', nth_error xs j = Some (OCls (Ok c')) -> c' <> c).
Proof.
  intros H. destruct (hrun_ok _ _ _ _ inv0 H) as (I & _ & Hl & Hall). split; auto.
  assert (Hop : forall j x, nth_error xs j = Some x -> exists o, nth_error os j = Some o).
  { intros j x Hj. destruct (nth_error os j) eqn:E; eauto. apply nth_error_None in E. apply nth_error_Some_lt in Hj. lia. }
  repeat apply conj.
  - intros i t Hi. destruct (Hall _ _ Hi) as (x & hi & hj & Hx & _ & _ & _ & _ & _ & _ & _ & v & -> & Hv).
    exists v. split; auto. apply (inv_canon _ I _ _ Hv).
  - intros i j t t' v v' Hi Hj Hx Hy.
    destruct (Hall _ _ Hi) as (x1 & ? & ? & Hx1 & _ & _ & _ & _ & _ & _ & _ & w & -> & Hw).
    destruct (Hall _ _ Hj) as (x2 & ? & ? & Hx2 & _ & _ & _ & _ & _ & _ & _ & w' & -> & Hw').
    replace w with v in * by congruence. replace w' with v' in * by congruence.
    assert (t = t' -> v = v') by (intros ->; congruence).
    pose proof (inv_inj _ I _ _ _ _ Hw Hw') as Hinj. split; split; auto; intros He; try (apply Hinj; congruence). f_equal; auto.
  - intros i j k k' c c' Hi Hj Hx Hy.
    destruct (Hall _ _ Hi) as (x1 & ? & ? & Hx1 & _ & _ & _ & _ & _ & _ & _ & [(w & -> & Hw & _)|(_ & _ & [(_ & _ & ->)|(_ & ->)])]); try congruence.
    destruct (Hall _ _ Hj) as (x2 & ? & ? & Hx2 & _ & _ & _ & _ & _ & _ & _ & [(w' & -> & Hw' & _)|(_ & _ & [(_ & _ & ->)|(_ & ->)])]); try congruence.
    replace w with c in * by congruence. replace w' with c' in * by congruence. split.
    + intros ->. eapply inv_rinj; eauto.
    + intros He. rewrite He in Hw. congruence.
  - intros i j t v Hi Hij Hx.
    destruct (Hall _ _ Hi) as (x1 & hi & hi' & Hx1 & Hri & Hsi & Hri' & _ & _ & _ & _ & w & -> & Ht & Hid & Hnext & Hw).
    replace w with v in * by congruence. split; auto. intros u Hu. destruct (Hop _ _ Hu) as (o & Ho).
    destruct (Hall _ _ Ho) as (x2 & hj & hj' & Hx2 & Hrj & Hsj & Hrj' & Ij & _ & _ & _ & Hsaid).
    rewrite Hu in Hx2. injection Hx2 as <-. destruct o as [t'| |t'|k]; cbn in Hsaid.
    + destruct Hsaid as (u' & Hu' & _ & Hid' & Hnext' & _). injection Hu' as <-.
      destruct (Nat.lt_total i j) as [L|[L|L]]; [|lia|].
      * pose proof (la_obj _ _ (hrun_later os heap0 (S i) j _ _ _ _ inv0 L Hri' Hrj)). lia.
      * pose proof (la_obj _ _ (hrun_later os heap0 (S j) i _ _ _ _ inv0 L Hrj' Hri)). lia.
    + destruct Hsaid as (He & _). discriminate.
    + destruct Hsaid as (u' & Hu' & Hg). injection Hu' as <-. eauto.
    + destruct Hsaid as [(c & He & _)|(_ & _ & [(_ & _ & He)|(_ & He)])]; discriminate.
  - intros i j c Hi Hij Hx c' Hy.
    destruct (Hall _ _ Hi) as (x1 & hi & hi' & Hx1 & Hri & Hsi & Hri' & _ & _ & _ & _ & -> & Hnext & Hw).
    destruct (Hop _ _ Hy) as (o & Ho).
    destruct (Hall _ _ Ho) as (x2 & hj & hj' & Hx2 & Hrj & Hsj & Hrj' & Ij & _ & _ & _ & Hsaid).
    rewrite Hy in Hx2. injection Hx2 as <-. replace c with (h_next_cls hi) in * by congruence. destruct o as [t'| |t'|k]; cbn in Hsaid.
    + destruct Hsaid as (u' & Hu' & _). discriminate.
    + destruct Hsaid as (Hc & Hnext' & _). injection Hc as ->.
      destruct (Nat.lt_total i j) as [L|[L|L]]; [|lia|].
      * pose proof (la_cls _ _ (hrun_later os heap0 (S i) j _ _ _ _ inv0 L Hri' Hrj)). lia.
      * pose proof (la_cls _ _ (hrun_later os heap0 (S j) i _ _ _ _ inv0 L Hrj' Hri)). lia.
    + destruct Hsaid as (u' & Hu' & _). discriminate.
    + destruct Hsaid as [(c0 & He & Hg & _)|(_ & _ & [(_ & _ & He)|(_ & He)])]; try discriminate. injection He as <-. eauto.
Qed.

(* RealVectorVariable[k]: when it raises *)
Lemma real_subscript os xs h i k : hrun os heap0 = (xs, h) -> nth_error os i = Some (HReal k) ->
  let cached := exists j k' c, j < i /\ nth_error os j = Some (HReal k') /\ key_num k' = key_num k /\ nth_error xs j = Some (OCls (Ok c)) in
  (key_is_int k = true -> (0 <= key_num k)%Z -> exists c, nth_error xs i = Some (OCls (Ok c))) /\
  ((key_num k < 0)%Z -> exists e, nth_error xs i = Some (OCls (Err e))) /\
  (key_is_int k = false -> cached -> exists c, nth_error xs i = Some (OCls (Ok c))) /\
  (key_is_int k = false -> ~ cached -> nth_error xs i = Some (OCls (Err AssertionError))).
Proof.
  intros H Hi cached. destruct (hrun_ok _ _ _ _ inv0 H) as (I & _ & Hl & Hall).
  destruct (Hall _ _ Hi) as (x & hi & hj & Hx & Hr & Hs & Hr' & Ii & L0 & Lij & Lj & Hsaid).
  assert (Hc : dict_get (h_real hi) (key_num k) <> None <-> cached).
  { split.
    - intros Hn. destruct (dict_get (h_real hi) (key_num k)) as [c|] eqn:Ec; [|congruence]. clear Hn.
      assert (Hgen : forall os xs h i0, hrun os heap0 = (xs, h) -> i0 <= length os -> forall xi hi, hrun (firstn i0 os) heap0 = (xi, hi) ->
        forall z c, dict_get (h_real hi) z = Some c -> exists j k', j < i0 /\ nth_error os j = Some (HReal k') /\ key_num k' = z /\ nth_error xs j = Some (OCls (Ok c))).
      { clear. intros os xs h i H. destruct (hrun_ok _ _ _ _ inv0 H) as (I & _ & Hl & Hall). induction i as [|i IH]; intros Hle xi hi Hr z c Hz.
        - cbn in Hr. injection Hr as <- <-. discriminate.
        - destruct (nth_error os i) as [o|] eqn:Ho; [|apply nth_error_None in Ho; lia].
          destruct (Hall _ _ Ho) as (x & h1 & h2 & Hx & H1 & Hst & H2 & I1 & _ & L12 & _ & _). 
          rewrite H2 in Hr. injection Hr as <- <-.
          destruct (dict_get (h_real h1) z) as [c1|] eqn:E1.
          + pose proof (la_real _ _ L12 _ _ E1). replace c1 with c in * by congruence.
            destruct (IH ltac:(lia) _ _ H1 _ _ E1) as (j & k' & Hj & Hrest). exists j, k'. split; [lia | auto].
          + destruct o as [t| |t|k].
            * cbn [hstep] in Hst. injection Hst as <- <-. cbn in Hz. congruence.
            * cbn [hstep] in Hst. injection Hst as <- <-. cbn in Hz. congruence.
            * cbn [hstep] in Hst. unfold canonical_instance in Hst. destruct (dict_get (h_canon h1) t); injection Hst as <- <-; cbn in Hz; congruence.
            * cbn [hstep] in Hst. unfold real_vector in Hst. destruct (dict_get (h_real h1) (key_num k)) as [c2|] eqn:E2; [injection Hst as <- <-; congruence|].
              destruct (key_is_int k); [destruct (Z.ltb (key_num k) 0)|]; injection Hst as <- <-; try congruence. cbn in Hz.
              destruct (Z.eq_dec (key_num k) z) as [<-|Hne].
              -- rewrite dict_get_set_same in Hz. injection Hz as <-. exists i, k. repeat split; auto.
              -- rewrite dict_get_set_other in Hz by auto. congruence. }
      assert (Hlt : i < length os) by (eapply nth_error_Some_lt; eauto).
      destruct (Hgen _ _ _ i H ltac:(lia) _ _ Hr _ _ Ec) as (j & k' & Hj & Hrest). exists j, k', c. intuition.
    - intros (j & k' & c & Hj & Hk & He & Hxj). destruct (Hall _ _ Hk) as (y & h1 & h2 & Hy & H1 & Hst & H2 & I1 & _ & _ & _ & Hs').
      assert (Hg : dict_get (h_real h2) (key_num k') = Some c).
      { cbn [hstep] in Hst. unfold real_vector in Hst. rewrite Hxj in Hy. injection Hy as <-.
        destruct (dict_get (h_real h1) (key_num k')) eqn:E1; [injection Hst as <- <-; auto|].
        destruct (key_is_int k'); [destruct (Z.ltb (key_num k') 0)|]; try discriminate. cbn in Hst. injection Hst as <- <-. cbn. apply dict_get_set_same. }
      pose proof (la_real _ _ (hrun_later os heap0 (S j) i _ _ _ _ inv0 Hj H2 Hr) _ _ Hg). congruence. }
  assert (Hfacts : (exists c, x = OCls (Ok c) /\ (0 <= key_num k)%Z /\ (key_is_int k = true \/ cached)) \/
    (~ cached /\ (key_is_int k = true /\ (key_num k < 0)%Z /\ x = OCls (Err ValueError) \/ key_is_int k = false /\ x = OCls (Err AssertionError)))).
  { destruct Hsaid as [(c & -> & _ & Hp & Hor)|(Hn & _ & Hor)].
    - left. exists c. repeat split; auto. destruct Hor as [Hor|Hor]; auto. right. apply Hc; auto.
    - right. split; auto. intros Hca. apply Hc in Hca. congruence. }
  clear Hsaid. rewrite Hx. repeat apply conj.
  - intros Hint Hpos. destruct Hfacts as [(c & -> & _)|(_ & [(_ & Hn & _)|(Hn & _)])]; [eauto | lia | congruence].
  - intros Hneg. destruct Hfacts as [(c & -> & Hp & _)|(_ & [(_ & Hn & ->)|(Hn & ->)])]; [lia | eauto | eauto].
  - intros Hni Hca. destruct Hfacts as [(c & -> & _)|(Hn & _)]; [eauto | tauto].
  - intros Hni Hca. destruct Hfacts as [(c & -> & _ & [Hor|Hor])|(Hn & [(Ho & _)|(_ & ->)])]; [congruence | tauto | congruence | auto].
Qed.

(* ---- the same, in terms of what subscripts stand for ---- *)

Lemma stands_key k n : stands_for k n <-> key_num k = n.
Proof. split; [intros []; reflexivity | destruct k as [z|[|]|z]; cbn; intros <-; constructor]. Qed.

Lemma int_object_key k : int_object k <-> key_is_int k = true.
Proof. split; [intros []; reflexivity | destruct k; cbn; intros H; try discriminate; constructor]. Qed.

Lemma stable_identities_spec :
  forall os xs h, hrun os heap0 = (xs, h) ->
  length xs = length os /\
  (forall i t, nth_error os i = Some (HCanonical t) -> exists v, nth_error xs i = Some (OVar v) /\ v_ty v = t) /\
  (forall i j t t' v v', nth_error os i = Some (HCanonical t) -> nth_error os j = Some (HCanonical t') ->
     nth_error xs i = Some (OVar v) -> nth_error xs j = Some (OVar v') -> (v = v' <-> t = t') /\ (v_id v = v_id v' <-> t = t')) /\
  (forall i j k k' n n' c c', nth_error os i = Some (HReal k) -> nth_error os j = Some (HReal k') -> stands_for k n -> stands_for k' n' ->
     nth_error xs i = Some (OCls (Ok c)) -> nth_error xs j = Some (OCls (Ok c')) -> (c = c' <-> n = n')) /\
  (forall i j t v, nth_error os i = Some (HNewVar t) -> i <> j -> nth_error xs i = Some (OVar v) ->
     v_ty v = t /\ forall w, nth_error xs j = Some (OVar w) -> v_id w <> v_id v) /\
  (forall i j c, nth_error os i = Some HNewClass -> i <> j -> nth_error xs i = Some (OCls (Ok c)) ->
     forall c', nth_error xs j = Some (OCls (Ok c')) -> c' <> c).
Proof.
  intros os xs h H. destruct (stable_identities os xs h H) as (A & B & C & D & F & G). split; [exact A|split; [exact B|split; [exact C|split; [|exact (conj F G)]]]].
  intros i j k k' n n' c c' Hi Hj Hn Hn' Hc Hc'. apply stands_key in Hn. apply stands_key in Hn'. subst. eapply D; eauto.
Qed.

Lemma real_subscript_spec :
  forall os xs h i k n, hrun os heap0 = (xs, h) -> nth_error os i = Some (HReal k) -> stands_for k n ->
  let cached := exists j k' c, j < i /\ nth_error os j = Some (HReal k') /\ stands_for k' n /\ nth_error xs j = Some (OCls (Ok c)) in
  (int_object k -> (0 <= n)%Z -> exists c, nth_error xs i = Some (OCls (Ok c))) /\
  ((n < 0)%Z -> exists e, nth_error xs i = Some (OCls (Err e))) /\
  (~ int_object k -> cached -> exists c, nth_error xs i = Some (OCls (Ok c))) /\
  (~ int_object k -> ~ cached -> nth_error xs i = Some (OCls (Err AssertionError))).
Proof.
  intros os xs h i k n H Hk Hn cached. pose proof (real_subscript os xs h i k H Hk) as (A & B & C & D).
  assert (Hc : cached <-> exists j k' c, j < i /\ nth_error os j = Some (HReal k') /\ key_num k' = key_num k /\ nth_error xs j = Some (OCls (Ok c))).
  { apply stands_key in Hn. subst n. unfold cached. split; intros (j & k' & c & E1 & E2 & E3 & E4); exists j, k', c; apply stands_key in E3; repeat split; auto; apply stands_key; auto. }
  apply stands_key in Hn. subst n.
  assert (Hi : ~ int_object k <-> key_is_int k = false) by (rewrite int_object_key; destruct (key_is_int k); intuition congruence).
  split; [|split; [exact B|split]].
  - intros Ho. apply int_object_key in Ho. auto.
  - intros Ho Hca. apply C; [apply Hi; auto | apply Hc; auto].
  - intros Ho Hca. apply D; [apply Hi; auto |]. intros X. apply Hca, Hc, X.
Qed.
