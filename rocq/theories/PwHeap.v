(* The operators of PwPoly and its constructor with the arrays they share.  /repo/npplus/pwpoly.py:181-277, 593-624,
   710-786, 804-811.

   The coefficient arrays live in a memory; an object holds the place of its array and the view of it that it uses.
   Only PerPwPoly._rawinit writes into an array that it is given ("potentially modify input c array", pwpoly.py:809).
   Simplifications: the knots, which are never written, stay values; of the views only those made by reshape with new
   axes of length 1 occur (numpy makes them without a copy, whatever the strides), not those of p[i]. *)
From Coq Require Import List Arith Bool.
From Verif Require Import Num PyBase NdArray Poly PwPoly.
Import ListNotations.
Local Open Scope res_scope.

Section Heap.
  Context {K : Type} {NK : Num K}.
  Notation carr := (@carr K).
  Notation pwpoly := (@pwpoly K).

  (* cells: the arrays; top: the first place not in use *)
  Record mem := Mem { cells : nat -> carr; top : nat }.
  Definition write (m : mem) (l : nat) (c : carr) : mem := Mem (fun k => if (k =? l)%nat then c else cells m k) (top m).
  Definition alloc (m : mem) (c : carr) : mem := Mem (fun k => if (k =? top m)%nat then c else cells m k) (S (top m)).
  (* an array seen with new axes of length 1 *)
  Definition view (ds : list nat) (c : carr) : carr := fold_right cdims c ds.
  Record obj := Obj { ocl : cls; oxk0 : list K; oloc : nat; odims : list nat; oper : option K }.
  Definition arr (m : mem) (o : obj) : carr := view (odims o) (cells m (oloc o)).
  (* the object as a value *)
  Definition deref (m : mem) (o : obj) : pwpoly := PwP (ocl o) (oxk0 o) (arr m o) (oper o).

  (* cls.new(xk, c) for c the view ds of place l: _rawinit, pwpoly.py:242-251 and 804-811 *)
  Definition hnew (cl : cls) (xk : list K) (l : nat) (ds : list nat) (m : mem) : res obj * mem :=
    let xk0 := if (length xk =? ck (cells m l))%nat then xk else firstn 1 xk ++ xk in
    match cl with
    | Pw => (Ok (Obj Pw xk0 l ds None), m)
    | Per =>
      let xk' := tl xk0 in
      if (length xk' <? 2)%nat then (Err TypeError, m)
      else if (cn (cells m l) =? 0)%nat then (Err IndexError, m)
      else (Ok (Obj Per xk0 l ds (Some (nsub (nth (length xk' - 1) xk' n0) (nth 0 xk' n0)))), write m l (per_fix xk' (cells m l)))
    end.
  (* the same for an array just made *)
  Definition hnew_fresh (cl : cls) (xk : list K) (c : carr) (m : mem) : res obj * mem := hnew cl xk (top m) [] (alloc m c).

  (* a computation that may raise; what has been written stays written *)
  Definition hbind {A B} (x : res A * mem) (f : A -> mem -> res B * mem) : res B * mem :=
    match x with (Ok a, m) => f a m | (Err e, m) => (Err e, m) end.
  (* addknots(xk, True), pwpoly.py:618-624: polyddx makes a new array *)
  Definition haddknots (o : obj) (xk : list K) (m : mem) : res obj * mem :=
    let p := deref m o in
    if (cn (pc p) =? 0)%nat then (Err IndexError, m) else
    let xk0 := firstn 1 xk ++ xk in
    hnew_fresh (ocl o) xk (CArr (cn (pc p)) (csh (pc p)) (length xk + 1)
      (fun comp i => let j := ak_index (pxk p) xk i in pshift (ccol (pc p) comp j) (nsub (nth i xk0 n0) (nth j (pxk0 p) n0)))) m.
  (* _binary, pwpoly.py:710-742 *)
  Definition hbinary (p q : obj) (skip : bool) (m : mem) : res (obj * obj) * mem :=
    let cl := ocl p in
    let nd := Nat.max (cn (arr m p)) (cn (arr m q)) in
    hbind (if negb skip && negb (cn (arr m p) =? nd)%nat then hnew_fresh cl (oxk0 p) (cpad nd (arr m p)) m else (Ok p, m)) (fun p1 m1 =>
    hbind (if negb skip && negb (cn (arr m1 q) =? nd)%nat then hnew_fresh cl (oxk0 q) (cpad nd (arr m1 q)) m1 else (Ok q, m1)) (fun q1 m2 =>
    let la := length (csh (arr m2 p1)) in
    let lb := length (csh (arr m2 q1)) in
    hbind (if (la <? lb)%nat then hnew cl (oxk0 p1) (oloc p1) ((lb - la)%nat :: odims p1) m2 else (Ok p1, m2)) (fun p2 m3 =>
    hbind (if (lb <? la)%nat then hnew cl (oxk0 q1) (oloc q1) ((la - lb)%nat :: odims q1) m3 else (Ok q1, m3)) (fun q2 m4 =>
    match allknots tol6 (deref m4 p2) [pxk (deref m4 q2)] with
    | Err e => (Err e, m4)
    | Ok (same, xk) =>
      if (same : bool) then (Ok (p2, q2), m4)
      else hbind (haddknots p2 xk m4) (fun p3 m5 => hbind (haddknots q2 xk m5) (fun q3 m6 => (Ok (p3, q3), m6)))
    end)))).
  (* an operator: comb makes the new array *)
  Definition hop (skip : bool) (comb : carr -> carr -> res carr) (p q : obj) (m : mem) : res obj * mem :=
    hbind (hbinary p q skip m) (fun pq m' =>
    match comb (arr m' (fst pq)) (arr m' (snd pq)) with
    | Err e => (Err e, m')
    | Ok c => hnew_fresh (ocl p) (oxk0 (fst pq)) c m'
    end).
  (* __add__, __sub__, __rsub__, __mul__, pwpoly.py:744-775 *)
  Definition add_comb (a b : carr) := cmap2 (cn a) (zipw nadd) a b.
  Definition sub_comb (a b : carr) := cmap2 (cn a) (zipw nsub) a b.
  Definition mul_comb (c other : carr) :=
    let '(a, b) := if (cn c <? cn other)%nat then (other, c) else (c, other) in cmap2 (cn a + cn b - 1)%nat pmul_col a b.
  Definition hadd := hop false add_comb.
  Definition hsub := hop false sub_comb.
  Definition hmul := hop true mul_comb.

  (* PwPoly(xk, *args), pwpoly.py:181-240: the caller's arrays after the call, for float arrays (asarray makes no copy
     of them).  Only argz *= ... in line 215 writes into one of them. *)
  Definition ctor_after (xk : list K) (args : list (@yarr K)) : list (@yarr K) :=
    let nk := length xk in
    let decr := (1 <? nk)%nat && nltb (nth (nk - 1) xk n0) (nth 0 xk n0) in
    match rev args with
    | argz :: (a :: _) as rargs =>
      let ar := removelast args in
      if (yn argz + 1 =? nk)%nat && negb decr && uniform ar && negb (size (ysh a ++ [yn a]) =? 0)%nat && (yn a =? nk)%nat && (2 <=? nk)%nat
      then let h := (length ar - 1)%nat in
           ar ++ [YArr (ysh argz) (yn argz) (fun comp i => nmul (yval argz comp i) (ndiv n1 (nmul n1 (nofZ (zprod (h + 1) h)))))]
      else args
    | _ => args
    end.
End Heap.
