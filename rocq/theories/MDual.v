(* jax.jacfwd on straight-line numeric programs, as used by the default Jacobians
   (jaxfg/core/_factor_base.py:75, jaxfg/core/_variables.py:55-69): forward mode runs the
   program on pairs of a value and a tangent, once per standard basis vector.
   The tangent rules are those of jax._src.lax (part of the trusted base); a missing
   tangent is JAX's symbolic zero.  Simplification: programs are scalar expressions over the
   flattened inputs; control flow, gathers and linear algebra have to be unrolled. *)
From Coq Require Import List Arith Bool ZArith.
From Verif Require Import Num Py Arr MLayout MAssign MNoise MSparse MFactor MAuto.
Import ListNotations.

(* elementary functions beyond Num *)
Record funs (T : Type) := mkFuns { f_sin : T -> T; f_cos : T -> T; f_exp : T -> T }.
Arguments mkFuns {T}. Arguments f_sin {T}. Arguments f_cos {T}. Arguments f_exp {T}.

(* Inp k: scalar k of what is differentiated; Par k: scalar k of what is held constant *)
Inductive expr :=
| Inp (k : nat) | Par (k : nat) | Lit (p : Z) (q : positive)
| Add (a b : expr) | Sub (a b : expr) | Mul (a b : expr) | Div (a b : expr) | Neg (a : expr)
| Sqrt (a : expr) | Abs (a : expr) | Max (a b : expr) | Min (a b : expr)
| Sin (a : expr) | Cos (a : expr) | Exp (a : expr).

Fixpoint eval {T} {N : Num T} (F : funs T) (inp par : nat -> T) (e : expr) : T :=
  match e with
  | Inp k => inp k
  | Par k => par k
  | Lit p q => nlit p q
  | Add a b => nadd (eval F inp par a) (eval F inp par b)
  | Sub a b => nsub (eval F inp par a) (eval F inp par b)
  | Mul a b => nmul (eval F inp par a) (eval F inp par b)
  | Div a b => ndiv (eval F inp par a) (eval F inp par b)
  | Neg a => nneg (eval F inp par a)
  | Sqrt a => nsqrt (eval F inp par a)
  | Abs a => nabs (eval F inp par a)
  | Max a b => nmax (eval F inp par a) (eval F inp par b)
  | Min a b => nmin (eval F inp par a) (eval F inp par b)
  | Sin a => f_sin F (eval F inp par a)
  | Cos a => f_cos F (eval F inp par a)
  | Exp a => f_exp F (eval F inp par a)
  end.

Section Forward.
Context {T : Type} {N : Num T}.

(* a JVPTracer: primal and tangent *)
Definition dual : Type := (T * option T)%type.
(* add_jaxvals on possibly symbolic zeros *)
Definition tadd (s t : option T) : option T :=
  match s, t with None, _ => t | _, None => s | Some x, Some y => Some (nadd x y) end.
Definition tmap (f : T -> T) (t : option T) : option T := match t with None => None | Some x => Some (f x) end.

(* sign(x): 1, -1, and x itself for zeros and NaN *)
Definition nsign (x : T) : T := if nltb n0 x then n1 else if nltb x n0 then nneg n1 else x.
Definition nsame (x y : T) : bool := nleb x y && nleb y x.                (* x == y *)
(* _balanced_eq(x, z, y) of the jvp of max and min *)
Definition balanced (x z y : T) : T := ndiv (if nsame x z then n1 else n0) (if nsame y z then nlit 2 1 else n1).

(* the jvp rules of the primitives *)
Definition NumDual : Num dual := {|
  n0 := (n0, None);
  n1 := (n1, None);
  nadd := fun x y => (nadd (fst x) (fst y), tadd (snd x) (snd y));
  nsub := fun x y => (nsub (fst x) (fst y), tadd (snd x) (tmap nneg (snd y)));
  nmul := fun x y => (nmul (fst x) (fst y), tadd (tmap (fun g => nmul g (fst y)) (snd x)) (tmap (fun g => nmul (fst x) g) (snd y)));
  ndiv := fun x y => (ndiv (fst x) (fst y), tadd (tmap (fun g => ndiv g (fst y)) (snd x))
            (tmap (fun g => nmul (nmul (nneg g) (fst x)) (ndiv n1 (nmul (fst y) (fst y)))) (snd y)));
  nneg := fun x => (nneg (fst x), tmap nneg (snd x));
  nsqrt := fun x => (nsqrt (fst x), tmap (fun g => nmul g (ndiv (nlit 1 2) (nsqrt (fst x)))) (snd x));
  nabs := fun x => (nabs (fst x), tmap (fun g => nmul g (nsign (fst x))) (snd x));
  nmax := fun x y => let z := nmax (fst x) (fst y) in
            (z, tadd (tmap (fun g => nmul g (balanced (fst x) z (fst y))) (snd x)) (tmap (fun g => nmul g (balanced (fst y) z (fst x))) (snd y)));
  nmin := fun x y => let z := nmin (fst x) (fst y) in
            (z, tadd (tmap (fun g => nmul g (balanced (fst x) z (fst y))) (snd x)) (tmap (fun g => nmul g (balanced (fst y) z (fst x))) (snd y)));
  nltb := fun x y => nltb (fst x) (fst y);
  nleb := fun x y => nleb (fst x) (fst y);
  nlit := fun p q => (nlit p q, None) |}.
Definition dual_funs (F : funs T) : funs dual := {|
  f_sin := fun x => (f_sin F (fst x), tmap (fun g => nmul g (f_cos F (fst x))) (snd x));
  f_cos := fun x => (f_cos F (fst x), tmap (fun g => nneg (nmul g (f_sin F (fst x)))) (snd x));
  f_exp := fun x => (f_exp F (fst x), tmap (fun g => nmul g (f_exp F (fst x))) (snd x)) |}.

(* jax.jvp of the program e: value and tangent, symbolic zeros instantiated *)
Definition jvp (F : funs T) (inp dinp par : nat -> T) (e : expr) : T * T :=
  let y := eval (N := NumDual) (dual_funs F) (fun k => (inp k, Some (dinp k))) (fun k => (par k, None)) e in
  (fst y, match snd y with Some t => t | None => n0 end).

(* jnp.eye of jacfwd: one tangent per input scalar *)
Definition onehot (i k : nat) : T := if Nat.eqb k i then n1 else n0.
Definition jac_entry (F : funs T) (inp par : nat -> T) (e : expr) (i : nat) : T := snd (jvp F inp (onehot i) par e).

(* the outputs D r k of jacfwd, unravelled to arrays of shape (rd, *leaf shape); the scalars
   of the leaf are numbered from off *)
Definition in_leaf (D : nat -> nat -> T) (rd off : nat) (a : arr T) : arr T :=
  mkArr (rd :: a_shape a) (flat_map (fun r => map (fun k => D r (off + k)) (seq 0 (size (a_shape a)))) (seq 0 rd)).
Fixpoint spread (D : nat -> nat -> T) (rd off : nat) (t : pytree T) : pytree T :=
  match t with
  | Leaf a => Leaf (in_leaf D rd off a)
  | Node tag cs => Node tag ((fix go off cs := match cs with
                                               | [] => []
                                               | c :: rest => spread D rd off c :: go (off + length (ravel c)) rest
                                               end) off cs)
  end.
Fixpoint spreads (D : nat -> nat -> T) (rd off : nat) (ts : list (pytree T)) : list (pytree T) :=
  match ts with
  | [] => []
  | t :: rest => spread D rd off t :: spreads D rd (off + length (ravel t)) rest
  end.
(* outputs with the shapes of the leaves, one more axis for the ld input scalars *)
Fixpoint out_leaves (D : nat -> nat -> T) (ld off : nat) (ls : list (arr T)) : list (arr T) :=
  match ls with
  | [] => []
  | a :: rest => mkArr (a_shape a ++ [ld]) (flat_map (fun k => map (D (off + k)) (seq 0 ld)) (seq 0 (size (a_shape a))))
                 :: out_leaves D ld (off + size (a_shape a)) rest
  end.
End Forward.
Arguments dual : clear implicits.

Section Programs.
Context {T : Type} {N : Num T}.
Variable F : funs T.
Definition scalar (l : list T) (k : nat) : T := nth k l n0.

(* compute_residual_vector of factor class c is the list of expressions prog c of the
   scalars of the values (Inp) and of the factor's own fields (Par) *)
Definition prog_residual (prog : nat -> list expr) (fd : fdata T) (vals : list (pytree T)) : list T :=
  map (eval F (scalar (concat (map ravel vals))) (scalar (concat (map ravel (fd_params fd))))) (prog (fd_cls fd)).
(* _factor_base.py:75 jax.jacfwd(self.compute_residual_vector)(variable_values) *)
Definition prog_jacfwd (prog : nat -> list expr) (fd : fdata T) (vals : list (pytree T)) : list (pytree T) :=
  let es := prog (fd_cls fd) in
  spreads (fun r i => jac_entry F (scalar (concat (map ravel vals))) (scalar (concat (map ravel (fd_params fd)))) (nth r es (Lit 0 1)) i)
          (length es) 0 vals.
(* _variables.py:55-69: jacfwd of manifold_retract(x, local_delta) at zeros; the retraction
   of class t is the list of expressions rprog t of the delta (Inp) and of x (Par) *)
Definition retract_jacfwd (C : cenv (T := T)) (rprog : vty -> list expr) (t : vty) (x : pytree T) : list (arr T) :=
  let es := rprog t in
  out_leaves (fun k i => jac_entry F (fun _ => n0) (scalar (ravel x)) (nth k es (Lit 0 1)) i) (local_dim (C t)) 0 (leaves x).
Definition forward (C : cenv (T := T)) (prog : nat -> list expr) (rprog : vty -> list expr) : autodiff T :=
  mkAuto (prog_jacfwd prog) (retract_jacfwd C rprog).
(* a program whose factors rely on the default Jacobians *)
Definition prog_env (C : cenv (T := T)) (prog : nat -> list expr) (rprog : vty -> list expr) : env T :=
  auto_env C (prog_residual prog) (forward C prog rprog).
End Programs.
(* the default retraction x + local_delta on the flattened value (_variables.py:35-52) *)
Definition add_prog (n : nat) : list expr := map (fun k => Add (Par k) (Inp k)) (seq 0 n).
