(* Specification vocabulary for polynomials and derivatives: independent of the
   model, only the standard library reals. *)
From Coq Require Import Reals List Lra.
Import ListNotations.
Local Open Scope R_scope.

(* c[k]*x^k + c[k+1]*x^(k+1) + ... *)
Fixpoint psum (k : nat) (c : list R) (x : R) : R :=
  match c with [] => 0 | a :: r => a * x ^ k + psum (S k) r x end.
(* the polynomial with coefficient list c *)
Definition peval (c : list R) (x : R) : R := psum 0 c x.

(* g is the k-th derivative of f (everywhere) *)
Fixpoint nderiv (k : nat) (f g : R -> R) : Prop :=
  match k with
  | O => forall x, g x = f x
  | S k' => exists h, nderiv k' f h /\ forall x, derivable_pt_lim h x (g x)
  end.

(* v is the k-th derivative at x of the everywhere differentiable f *)
Definition nderiv_at (k : nat) (f : R -> R) (x v : R) : Prop :=
  exists g, nderiv k f g /\ g x = v.

(* v is the k-th derivative at x of f, which is smooth around x: f agrees with a
   smooth function F in a neighbourhood of x and v is the k-th derivative of F *)
Definition local_nderiv (k : nat) (f : R -> R) (x v : R) : Prop :=
  exists eps F, 0 < eps /\ (forall t, Rabs (t - x) < eps -> f t = F t) /\ nderiv_at k F x v.

(* strictly increasing list *)
Definition incr (l : list R) : Prop :=
  forall i, (S i < length l)%nat -> nth i l 0 < nth (S i) l 0.

(* x lies in the i-th of the (length xk)+1 pieces cut by the knots xk, a knot
   belonging to the piece on its left *)
Definition in_piece (xk : list R) (i : nat) (x : R) : Prop :=
  (i <= length xk)%nat /\
  (forall j, (j < i)%nat -> nth j xk 0 < x) /\
  (forall j, (i <= j < length xk)%nat -> x <= nth j xk 0).

Definition is_knot (xk : list R) (x : R) : Prop :=
  exists j, (j < length xk)%nat /\ x = nth j xk 0.

(* origin of the powers on piece i: the knot on its left; the first knot for
   the piece before the first knot *)
Definition left_knot (xk : list R) (i : nat) : R :=
  match i with O => nth 0 xk 0 | S j => nth j xk 0 end.
