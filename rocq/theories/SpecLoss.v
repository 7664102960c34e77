(* Specification vocabulary: the loss whose gradient the solvers follow when factors carry a
   Huber wrapper. *)
From Coq Require Import List Reals.
From Verif Require Import Num NumR Py Arr MLayout MAssign MNoise MFactor SpecGraph SpecDeriv SpecNoise.
Import ListNotations.
Local Open Scope R_scope.

(* as a function of the norm n of the whitened residual: quadratic up to delta, then growing
   like n^(5/4), (n / delta)^(1/4) being written with square roots *)
Definition quarter_loss (delta n : R) : R :=
  if Rlt_dec n delta then n * n / 2 else 4 / 5 * delta * n * sqrt (sqrt (n / delta)) - 3 / 10 * delta * delta.

(* Gaussian noise, or one Huber wrapper with positive delta around Gaussian noise *)
Definition robust_noise (n : noise R) : Prop :=
  linear_noise n \/ exists w delta, n = Huber w (scal delta) /\ linear_noise w /\ 0 < delta.

(* loss of one residual vector: half the squared norm without a wrapper *)
Definition followed_loss (n : noise R) (r : list R) : R :=
  match n with
  | Huber w d => match whiten_residual w r, a_data d with Ok r', [delta] => quarter_loss delta (vnorm r') | _, _ => 0 end
  | _ => match whiten_residual n r with Ok r' => sumsq r' / 2 | Err _ => 0 end
  end.

Definition total_loss (E : env R) (fs : list (factor R)) (val : var -> pytree R) : R :=
  vsum (map (fun f => followed_loss (f_noise f) (residual_at E val f)) fs).
