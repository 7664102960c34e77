(* Bundles and concrete instances for the g2o theorems. *)
From Coq Require Import Arith Bool ZArith String List Lia Reals Lra Ascii.
From Verif Require Import Num NumR NumF32 Py Arr MNoise MFactor MG2o SpecSparse SpecNoise SpecG2o PBase PVec PSum PNoise PG2o.
Import ListNotations.
Local Open Scope list_scope.

Lemma symmetric_read (T : Type) (N : Num T) n (comps : list T) : 2 * length comps = n * (n + 1) ->
  exists M, read_precision n comps = Ok M /\ is_symmetric_of n comps M.
Proof. intros H. apply read_precision_ok. pose proof (row_start_tri n). lia. Qed.

Lemma wrong_count (T : Type) (N : Num T) n (comps : list T) : 2 * length comps <> n * (n + 1) ->
  read_precision n comps =
    match comps with
    | [x] => Ok (repeat (repeat x n) n)
    | _ => Err ValueError
    end.
Proof.
  intros H. pose proof (row_start_tri n) as Ht.
  assert (Hne : length comps <> row_start n n) by lia.
  destruct comps as [|x [|y l]]; try (apply read_precision_bad; cbn [length] in *; lia).
  rewrite read_precision_one.
  destruct (read_precision_ok n (repeat x (row_start n n))) as (M & E & S & HM); [apply repeat_length|].
  rewrite E. f_equal. apply (gshaped_ext n n); auto.
  - split; [apply repeat_length|]. apply Forall_forall. intros r Hr. apply repeat_spec in Hr. subst. apply repeat_length.
  - intros i j Hi Hj. rewrite HM by auto. unfold gent.
    assert (Hrep : forall {A} (a d : A) m k, k < m -> nth k (repeat a m) d = a).
    { intros A a d m. induction m; intros k Hk; [lia|]. destruct k; simpl; auto. apply IHm. lia. }
    rewrite (Hrep _ (repeat x n)) by auto. rewrite (Hrep _ x _ n j) by auto. apply Hrep.
    unfold upper_pos.
    assert (Hlt : row_start n (min i j) + (n - min i j) <= row_start n n).
    { rewrite <- row_start_S. assert (Hmono : forall a b, a <= b -> row_start n a <= row_start n b).
      { intros a b Hab. induction Hab; auto. rewrite row_start_S. lia. }
      apply Hmono. lia. }
    lia.
Qed.

Lemma whitened_quadratic (cholesky : list (list R) -> result (list (list R))) n comps M c r :
  2 * length comps = n * (n + 1) -> is_symmetric_of n comps M -> cholesky M = Ok c -> is_cholesky n M c -> length r = n ->
  exists W w, sqrt_precision cholesky n comps = Ok W /\ shaped n n W /\
    whiten_residual (Gaussian (mkArr [n; n] (concat W))) r = Ok w /\
    sumsq w = sumn n (fun i => sumn n (fun j => nth i r 0 * nth (upper_pos n i j) comps 0 * nth j r 0))%R.
Proof.
  intros Hc HM Ec (Sc & Hch) Hr. destruct (symmetric_read R NumR n comps Hc) as (M' & E & HM').
  rewrite (symmetric_unique n comps M' M HM' HM) in E.
  unfold sqrt_precision. rewrite E. cbn [bind]. rewrite Ec. cbn [bind].
  pose proof (transpose_shaped n c) as (Sl & SF). set (W := transpose_sq n c) in *.
  assert (Hchk : chunks n n (concat W) = W) by (rewrite <- Sl at 1; apply chunks_concat; auto).
  assert (Hok : arr_ok (mkArr [n; n] (concat W)) = true).
  { apply Nat.eqb_eq. cbn. rewrite <- Sl at 1. clear -SF. induction SF; cbn; auto. rewrite app_length. lia. }
  destruct (gaussian_norm (mkArr [n; n] (concat W)) n r Hok eq_refl Hr) as (w & Hw & _ & _ & Hn).
  exists W, w. split; auto. split; [split; auto|]. split; auto. rewrite Hn. cbn [a_data]. rewrite Hchk.
  apply sumn_ext. intros i Hi. apply sumn_ext. intros j Hj. f_equal. f_equal.
  destruct HM as (_ & HM). transitivity (ent M i j); [|exact (HM i j Hi Hj)]. rewrite <- (Hch i j Hi Hj).
  apply sumn_ext. intros l Hl. change (gent W l i * gent W l j = gent c i l * gent c j l)%R.
  unfold W. rewrite !transpose_ent by auto. reflexivity.
Qed.

Lemma ex_quadratic : 2 * length [4; 2; 5]%R = 2 * (2 + 1) /\ is_symmetric_of 2 [4; 2; 5]%R [[4; 2]; [2; 5]]%R /\
  is_cholesky 2 [[4; 2]; [2; 5]]%R [[2; 0]; [1; 2]]%R.
Proof.
  split; [reflexivity|]. split; [split|split].
  - split; [reflexivity | repeat constructor].
  - intros [|[|i]] [|[|j]] Hi Hj; try lia; reflexivity.
  - split; [reflexivity | repeat constructor].
  - intros [|[|i]] [|[|j]] Hi Hj; try lia; unfold sumn, ent, vsum; cbn; ring.
Qed.

(* ----- a concrete reader: one-digit integers, optionally negative, as floats and indices ----- *)
#[local] Existing Instance NumF32.
Local Open Scope string_scope.
Definition digit (c : ascii) : option Z :=
  let n := nat_of_ascii c in if Nat.leb 48 n && Nat.leb n 57 then Some (Z.of_nat (n - 48)) else None.
Definition ex_int (s : string) : result Z :=
  match s with
  | String c EmptyString => match digit c with Some z => Ok z | None => Err ValueError end
  | String "-" (String c EmptyString) => match digit c with Some z => Ok (- z)%Z | None => Err ValueError end
  | _ => Err ValueError
  end.
Definition ex_float (s : string) : result f32 := z <- ex_int s ;; Ok (f_of_Z z).
Definition ex_chol (m : list (list f32)) : result (list (list f32)) := Ok m.
Definition ex_parse := parse_text (P := list f32) ex_int ex_float (fun x y t => [x; y; t]) (fun l => l) (fun q t => (q ++ t)%list) ex_chol.
Definition nl := String newline EmptyString.
Definition ex_file : string :=
  "VERTEX_SE2 0 0 0 0" ++ nl ++ " VERTEX_SE2 1  2 0 0" ++ nl ++ "EDGE_SE2 0 1 2 0 0 1 0 0 1 0 1" ++ nl ++
  "VERTEX_SE2 2 4 0 0" ++ nl ++ "EDGE_SE2 1 2 2 0 0 1 0 0 1 0 1" ++ nl.
Definition eye3 : list (list f32) := map (fun i => map (fun j => if Nat.eqb i j then n1 else n0) (seq 0 3)) (seq 0 3).
Definition f (z : Z) : f32 := f_of_Z z.

Lemma ex_read_all : ex_parse 5 ex_file = Ok
  ([GBetween (mkPvar 0 SE2) (mkPvar 1 SE2) [f 2; f 0; f 0] eye3;
    GBetween (mkPvar 1 SE2) (mkPvar 2 SE2) [f 2; f 0; f 0] eye3;
    GPrior (mkPvar 0 SE2) [f 0; f 0; f 0] [f 100; f 100; f 100]],
   [(mkPvar 0 SE2, [f 0; f 0; f 0]); (mkPvar 1 SE2, [f 2; f 0; f 0]); (mkPvar 2 SE2, [f 4; f 0; f 0])]).
Proof. vm_compute. reflexivity. Qed.
Lemma ex_read_limited : ex_parse 1 ex_file = Ok
  ([GBetween (mkPvar 0 SE2) (mkPvar 1 SE2) [f 2; f 0; f 0] eye3;
    GPrior (mkPvar 0 SE2) [f 0; f 0; f 0] [f 100; f 100; f 100]],
   [(mkPvar 0 SE2, [f 0; f 0; f 0]); (mkPvar 1 SE2, [f 2; f 0; f 0])]).
Proof. vm_compute. reflexivity. Qed.
Lemma ex_rejects : ex_parse 5 (ex_file ++ nl) = Err IndexError /\ ex_parse 5 (ex_file ++ "FIX 0") = Err AssertionError /\
  ex_parse 5 (ex_file ++ "VERTEX_SE2 4 0 0 0") = Err AssertionError /\ ex_parse 5 (ex_file ++ "EDGE_SE2 2 3 2 0 0 1 0 0 1 0 1") = Err IndexError.
Proof. vm_compute. auto. Qed.

(* a vertex number before the first: read as counted from the end *)
Lemma negative_index : exists text fs ps a b t w, ex_parse 5 text = Ok (fs, ps) /\
  text = (ex_file ++ "EDGE_SE2 -1 0 2 0 0 1 0 0 1 0 1") /\ In (GBetween a b t w) fs /\ pv_id a = 2 /\ pv_id b = 0.
Proof.
  eexists _, _, _, (mkPvar 2 SE2), (mkPvar 0 SE2), [f 2; f 0; f 0], eye3. split; [|split; [reflexivity|]].
  - vm_compute. reflexivity.
  - split; [|auto]. vm_compute. auto.
Qed.

Lemma text_parsed (T P : Type) (N : Num T) parse_int parse_float se2 se3 se3q cholesky limit ls wss : Forall2 shows ls wss ->
  parse_text (T := T) (P := P) parse_int parse_float se2 se3 se3q cholesky limit (unlines ls) =
    parse_g2o parse_int parse_float se2 se3 se3q cholesky limit wss /\
  forall l ws, shows l ws -> l <> EmptyString ->
    parse_text parse_int parse_float se2 se3 se3q cholesky limit (unlines ls ++ l) =
      parse_g2o parse_int parse_float se2 se3 se3q cholesky limit (wss ++ [ws])%list.
Proof.
  intros H. split.
  - unfold parse_text. rewrite (text_words ls wss H). reflexivity.
  - intros l ws Hl Hne. unfold parse_text. rewrite (text_words_last ls wss l ws H Hl Hne). reflexivity.
Qed.

Lemma tab_parsed (T P : Type) (N : Num T) parse_int parse_float se2 se3 se3q cholesky limit w v : is_word w -> is_word v ->
  parse_text (T := T) (P := P) parse_int parse_float se2 se3 se3q cholesky limit (unlines [w ++ String tab v]) =
    parse_g2o parse_int parse_float se2 se3 se3q cholesky limit [[w ++ String tab v]].
Proof. intros Hw Hv. unfold parse_text. rewrite (words_tab w v Hw Hv). reflexivity. Qed.

Ltac solid := split; [discriminate|]; repeat constructor; unfold white; vm_compute; intuition discriminate.
Ltac whites := repeat constructor; try discriminate; vm_compute; tauto.
Lemma ex_shows : Forall2 shows [(String tab " EDGE_SE2 0   1 "); "FIX"] [["EDGE_SE2"; "0"; "1"]; ["FIX"]].
Proof.
  constructor; [|constructor; [|constructor]].
  - exists (String tab " "), " ", [0; 2; 0]. split; [whites|]. split; [whites|].
    split; [repeat (constructor; [solid|]); constructor|]. split; reflexivity.
  - exists "", "", [0]. split; [constructor|]. split; [constructor|].
    split; [repeat (constructor; [solid|]); constructor|]. split; reflexivity.
Qed.
Lemma ex_tab : is_word "FIX" /\ is_word "0".
Proof. split; solid. Qed.
