(* Number instances: exact reals, and reals extended with infinities and NaN. *)
From Coq Require Import Reals ZArith Bool.
From Verif Require Import Num.
Local Open Scope R_scope.

Definition Rltb (x y : R) : bool := if Rlt_dec x y then true else false.
Definition Rleb (x y : R) : bool := if Rle_dec x y then true else false.
Definition Rlit (p : Z) (q : positive) : R := IZR p / IZR (Zpos q).

(* Exact real arithmetic.  Division by zero is Coq's (an unspecified real; 0/0 = 0*/0):
   theorems over R that meet a division carry a hypothesis excluding a zero divisor. *)
#[export] Instance NumR : Num R := {|
  n0 := 0; n1 := 1; nadd := Rplus; nsub := Rminus; nmul := Rmult; ndiv := Rdiv;
  nneg := Ropp; nsqrt := sqrt; nabs := Rabs; nmax := Rmax; nmin := Rmin;
  nltb := Rltb; nleb := Rleb; nlit := Rlit |}.

(* Reals with IEEE-style special values (one zero only, no rounding). *)
Inductive xr := Fin (r : R) | Inf (neg : bool) | NaN.

Definition is_neg (r : R) : bool := Rltb r 0.
Definition is_zero (r : R) : bool := if Req_EM_T r 0 then true else false.

Definition xneg (a : xr) : xr :=
  match a with Fin r => Fin (- r) | Inf s => Inf (negb s) | NaN => NaN end.
Definition xadd (a b : xr) : xr :=
  match a, b with
  | Fin x, Fin y => Fin (x + y)
  | NaN, _ | _, NaN => NaN
  | Inf s, Inf t => if Bool.eqb s t then Inf s else NaN
  | Inf s, Fin _ | Fin _, Inf s => Inf s
  end.
Definition xsub (a b : xr) : xr := xadd a (xneg b).
Definition xmul (a b : xr) : xr :=
  match a, b with
  | Fin x, Fin y => Fin (x * y)
  | NaN, _ | _, NaN => NaN
  | Inf s, Inf t => Inf (xorb s t)
  | Inf s, Fin y | Fin y, Inf s => if is_zero y then NaN else Inf (xorb s (is_neg y))
  end.
Definition xdiv (a b : xr) : xr :=
  match a, b with
  | NaN, _ | _, NaN => NaN
  | Fin x, Fin y => if is_zero y then (if is_zero x then NaN else Inf (is_neg x)) else Fin (x / y)
  | Fin _, Inf _ => Fin 0
  | Inf s, Fin y => Inf (xorb s (is_neg y))
  | Inf _, Inf _ => NaN
  end.
Definition xsqrt (a : xr) : xr :=
  match a with
  | Fin x => if is_neg x then NaN else Fin (sqrt x)
  | Inf true => NaN
  | Inf false => Inf false
  | NaN => NaN
  end.
Definition xabs (a : xr) : xr :=
  match a with Fin x => Fin (Rabs x) | Inf _ => Inf false | NaN => NaN end.
Definition xltb (a b : xr) : bool :=
  match a, b with
  | Fin x, Fin y => Rltb x y
  | NaN, _ | _, NaN => false
  | Inf s, Inf t => s && negb t
  | Inf s, Fin _ => s
  | Fin _, Inf t => negb t
  end.
Definition xleb (a b : xr) : bool :=
  match a, b with
  | Fin x, Fin y => Rleb x y
  | NaN, _ | _, NaN => false
  | Inf s, Inf t => s || negb t
  | Inf s, Fin _ => s
  | Fin _, Inf t => negb t
  end.
Definition xmax (a b : xr) : xr :=
  match a, b with
  | NaN, _ | _, NaN => NaN
  | _, _ => if xltb a b then b else a
  end.
Definition xmin (a b : xr) : xr :=
  match a, b with
  | NaN, _ | _, NaN => NaN
  | _, _ => if xltb b a then b else a
  end.

Definition NumXR : Num xr := {|
  n0 := Fin 0; n1 := Fin 1; nadd := xadd; nsub := xsub; nmul := xmul; ndiv := xdiv;
  nneg := xneg; nsqrt := xsqrt; nabs := xabs; nmax := xmax; nmin := xmin;
  nltb := xltb; nleb := xleb; nlit := fun p q => Fin (Rlit p q) |}.
