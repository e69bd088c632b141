(* Model of PwPoly.roots, npplus/pwpoly.py:412-523.

   Simplifications: numpy.linalg.eigvals followed by isreal/real (lines 499-500)
   is the parameter [eigreal n m], the list of the real eigenvalues of the n by n
   matrix m; inf/nan in the matrix (a zero divisor at line 498) is LinAlgError,
   which is what eigvals raises for it. *)
From Coq Require Import String List Arith ZArith Bool.
From Verif Require Import Num PyBase NdArray Poly PwPoly.
Import ListNotations.
Local Open Scope num_scope.
Local Open Scope res_scope.

Section Roots.
  Context {K : Type} {NK : Num K}.
  Variable eigreal : nat -> (nat -> nat -> K) -> list K.

  (* ((c[1:] < 0) != (c[:-1] < 0)).sum(axis=0) > 0 for one column, lines 462, 465 *)
  Fixpoint sgnchg (l : list K) : bool :=
    match l with
    | a :: ((b :: _) as r) => xorb (b <? n0) (a <? n0) || sgnchg r
    | _ => false
    end.
  (* cup[1::2] = -cup[1::2] for one column, line 464 *)
  Fixpoint altern (l : list K) : list K :=
    match l with
    | a :: b :: r => a :: - b :: altern r
    | _ => l
    end.
  (* c *= dxn for one column, lines 456-460 *)
  Definition scalec (d : K) (l : list K) : list K :=
    zipw (fun a k => a * npow d k) l (seq 0 (length l)).

  (* c[0] -= value, lines 441-442 *)
  Definition rt_col (p : pwpoly K) (value : K) (i : nat) : list K :=
    match ccol (pc p) [] i with [] => [] | a :: r => a - value :: r end.
  (* dx, lines 444 and 451-455 *)
  Definition rt_dx (p : pwpoly K) (i : nat) : K :=
    let xk := pxk p in
    let nk := length xk in
    if (nk <=? 1)%nat then n1
    else let j := if (i =? 0)%nat then 1%nat else if (i <? nk)%nat then i else (nk - 1)%nat in
         nth j xk n0 - nth (j - 1) xk n0.
  (* cup = polyddx(c[:, :-1], dx), line 445 *)
  Definition rt_up (p : pwpoly K) (value : K) (i : nat) : list K :=
    pshift (rt_col p value i) (nth i (pxk p) n0 - nth i (pxk0 p) n0).
  (* x = xk[yhi*ylo <= 0.], lines 446-448 *)
  Definition rt_knots (p : pwpoly K) (value : K) : list K :=
    map (fun i => nth i (pxk p) n0)
      (filter (fun i => nth 0 (rt_up p value i) n0 * nth 0 (rt_col p value (S i)) n0 <=? n0)
              (seq 0 (length (pxk p)))).
  (* scaled columns, lines 459-460 *)
  Definition rt_c (p : pwpoly K) (value : K) (i : nat) : list K :=
    scalec (rt_dx p i) (rt_col p value i).
  (* maybe, lines 462-465 *)
  Definition rt_maybe (p : pwpoly K) (value : K) (i : nat) : bool :=
    ((i =? 0)%nat || sgnchg (rt_c p value i)) &&
    ((i =? length (pxk p))%nat || sgnchg (altern (scalec (rt_dx p i) (rt_up p value i)))).
  (* deg, lines 467-469, for one column *)
  Definition rt_deg (tol : K) (c : list K) : nat :=
    let m := fold_left nmax (map nabs c) n0 in
    fold_left Nat.max (zipw (fun a k => if tol * m <? nabs a then k else O) c (seq 0 (length c))) O.

  (* companion matrix, lines 494-498 *)
  Definition companion (n : nat) (c : list K) (i j : nat) : K :=
    if (j =? n - 1)%nat then - nth i c n0 / nth n c n0
    else if (i =? S j)%nat then n1 else n0.

  (* lines 471-484; idx = the intervals kept by [maybe], dg = their degree *)
  Definition rt_linear (p : pwpoly K) (value : K) (idx : list nat) (dg : nat -> nat) : list K :=
    let nk := length (pxk p) in
    let lin := filter (fun i => (dg i =? 1)%nat) idx in
    let islin i := existsb (Nat.eqb i) lin in
    let xi i := - nth 0 (rt_c p value i) n0 / nth 1 (rt_c p value i) n0 in
    let mask i :=
      if islin 0%nat then (if (i =? 0)%nat then xi i <=? n0 else n0 <=? xi i)
      else if islin nk then n0 <=? xi i
      else (n0 <=? xi i) && (xi i <=? n1) in
    map (fun i => xi i * rt_dx p i + nth i (pxk0 p) n0) (filter mask lin).

  (* lines 485-509: pos counts the nonlinear intervals, the degree is taken from
     the pos-th of all kept intervals *)
  Definition rt_nonlinear (p : pwpoly K) (value : K) (idx : list nat) (dg : nat -> nat)
    : res (list K) :=
    let nk := length (pxk p) in
    let nl := filter (fun i => (1 <? dg i)%nat) idx in
    let isnl i := existsb (Nat.eqb i) nl in
    let! xs := mapM (fun pos =>
        let i := nth pos nl O in
        let n := dg (nth pos idx O) in
        let ci := rt_c p value i in
        if (n =? 0)%nat then Err IndexError else
        if nth n ci n0 =? n0 then Err LinAlgError else
        let xi := eigreal n (companion n ci) in
        let ok x :=
          if ((pos =? 0)%nat && isnl O)%bool then x <=? n0
          else if ((pos <? nk)%nat || negb (isnl nk))%bool then (n0 <=? x) && (x <=? n1)
          else n0 <=? x in
        Ok (map (fun x => x * rt_dx p i + nth i (pxk0 p) n0) (filter ok xi)))
      (seq 0 (length nl)) in
    Ok (concat xs).

  (* x.sort() *)
  Fixpoint ninsert (x : K) (l : list K) : list K :=
    match l with [] => [x] | a :: r => if x <=? a then x :: l else a :: ninsert x r end.
  Definition nsort (l : list K) : list K := fold_right ninsert [] l.

  (* lines 513-522; a is the element before the list *)
  Fixpoint dedup (tol : K) (dx : K -> K) (a : K) (l : list K) : list K :=
    match l with
    | [] => []
    | b :: r =>
      if tol * (nofZ 1 / nofZ 2 * (dx b + dx a)) <? b - a
      then b :: dedup tol dx b r else dedup tol dx b r
    end.

  (* PwPoly.roots, lines 412-523 *)
  Definition roots (p : pwpoly K) (value tol : K) : res (list K) :=
    match csh (pc p) with
    | _ :: _ => Err TypeError
    | [] =>
      let nk := length (pxk p) in
      if (cn (pc p) <=? 1)%nat then Ok (rt_knots p value) else
      let idx := filter (rt_maybe p value) (seq 0 (S nk)) in
      let dg i := rt_deg tol (rt_c p value i) in
      let! xn := rt_nonlinear p value idx dg in
      match nsort (rt_knots p value ++ rt_linear p value idx dg ++ xn) with
      | [] => Err ValueError
      | a :: r => Ok (a :: dedup tol (fun x => rt_dx p (ssearch (pxk p) x)) a r)
      end
    end.
End Roots.
