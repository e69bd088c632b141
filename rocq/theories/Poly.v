(* Model of the polynomial work functions of npplus/pwpoly.py:1460-1547.
   Coefficient lists are in increasing powers; numpy evaluates all trailing
   dimensions elementwise, the model is one such element. *)
From Coq Require Import List Arith ZArith.
From Verif Require Import Num PyBase.
Import ListNotations.
Local Open Scope num_scope.

Section Poly.
  Context {K : Type} {NK : Num K}.

  (* _polysetup, pwpoly.py:1541-1547, applied to rev c = c[-1] :: c[-2] :: ...
     First value of p and the coefficients left for the loop (c[-3::-1]). *)
  Definition polysetup (rc : list K) (x : K) : K * list K :=
    match rc with
    | [] => (n0, [])                   (* excluded by the callers below *)
    | [a] => (a + n0, [])              (* c[-1] + zeros_like(x) *)
    | a :: b :: r => (b + a * x, r)    (* c[-2] + c[-1]*x *)
    end.

  (* body of polyfun, pwpoly.py:1477-1481, for a non-empty coefficient list *)
  Definition horner (c : list K) (x : K) : K :=
    let '(p, r) := polysetup (rev c) x in
    fold_left (fun p cn => p * x + cn) r p.

  (* polyfun, pwpoly.py:1460-1481; c[-1] on an empty axis is an IndexError *)
  Definition polyfun (c : list K) (x : K) : res K :=
    match c with [] => Err IndexError | _ => Ok (horner c x) end.

  (* one pass of the loop of polyddx, pwpoly.py:1532-1535:
     cns = [cn] + p[0:nd];  p = p*x + cns *)
  Definition ddx_step (x : K) (p : list K) (cn : K) : list K :=
    zipw (fun pi ci => pi * x + ci) p (cn :: p).

  (* body of polyddx with norm=False, pwpoly.py:1522-1535, for a non-empty
     coefficient list; result has nd+1 entries *)
  Definition taylor (c : list K) (x : K) (nd : nat) : list K :=
    let '(p, r) := polysetup (rev c) x in
    let p1 := match nd with
              | O => []
              | S m => last c n0 :: repeat n0 m   (* if nd: p[1] = c[-1] *)
              end in
    fold_left (ddx_step x) r (p :: p1).

  (* k! as a number (arange(1,nd+1).cumprod() with a float dtype, pwpoly.py:211) *)
  Fixpoint zfact (k : nat) : Z :=
    match k with O => 1%Z | S m => (Z.of_nat (S m) * zfact m)%Z end.
  Definition nfact (k : nat) : K := nofZ (zfact k).

  (* norm=True: p[1:] *= arange(1, nd+1).cumprod(), pwpoly.py:1536-1537.  The product is one of
     numpy's default integers, 64 bits wide, which wrap around: from 21! on it is not k!. *)
  Definition wrap64 (z : Z) : Z := ((z + 2 ^ 63) mod 2 ^ 64 - 2 ^ 63)%Z.
  Definition cfact (k : nat) : K := nofZ (wrap64 (zfact k)).
  Definition denorm (p : list K) : list K :=
    match p with
    | [] => []
    | a :: r => a :: zipw (fun v k => v * cfact k) r (seq 1 (length r))
    end.

  (* polyddx, pwpoly.py:1484-1538; nd=None means c.shape[0]-1 *)
  Definition polyddx (c : list K) (x : K) (nd : option nat) (norm : bool)
    : res (list K) :=
    match c with
    | [] => Err IndexError
    | _ =>
      let nd := match nd with Some m => m | None => (length c - 1)%nat end in
      Ok (let p := taylor c x nd in if norm then denorm p else p)
    end.
  (* polyddx(c, x): all Taylor coefficients at x *)
  Definition pshift (c : list K) (x : K) : list K := taylor c x (length c - 1)%nat.
End Poly.
