(* Model of plfit, splfit and their helpers, npplus/pwpoly.py:1051-1457.

   Simplifications: xk is a 1-d array; lo and hi are tuples of arrays (a value that is not a
   tuple is the case of one entry; None entries, which asfarray turns into nan, are not
   modelled); dtype and overwrite_* are not modelled; solver= is always _plfitter.
   scipy.linalg.solveh_banded (lower form), solve_banded, solve and numpy.linalg.inv (inside
   pline) are parameters. *)
From Coq Require Import List Arith ZArith Bool.
From Verif Require Import Num PyBase NdArray Poly PwPoly SolvePer Spline.
Import ListNotations.
Local Open Scope res_scope.

Section Fit.
  Context {K : Type} {NK : Num K}.
  Local Open Scope num_scope.

  (* a.ravel() *)
  Definition flat (a : nd K) : list K := map (fun k => get a (unravel (shp a) k)) (seq 0 (size (shp a))).
  (* a.min(), a.max() *)
  Definition lmin (l : list K) : res K := match l with [] => Err ValueError | a :: r => Ok (fold_left nmin r a) end.
  Definition lmax (l : list K) : res K := match l with [] => Err ValueError | a :: r => Ok (fold_left nmax r a) end.
  (* extrap[::-1]; an int or None is left as it is *)
  Definition ex_rev (ex : exarg) : exarg := match ex with ExPair e f => ExPair f e | _ => ex end.
  Definition ex_given (ex : exarg) : bool := match ex with ExNone => false | _ => true end.
  Definition nonempty {A} (l : list A) : bool := match l with [] => false | _ => true end.

  (* _splfit_setup, pwpoly.py:1391-1426; returns xk, x, lo, hi, extrap (xkorig is not used) *)
  Definition fit_setup (xk : list K) (x : nd K) (lo hi : list (nd K)) (per : bool) (ex : exarg)
    : res (list K * nd K * list (nd K) * list (nd K) * exarg) :=
    if per && (nonempty lo || nonempty hi || ex_given ex) then Err TypeError else
    if (length xk <? 2)%nat then Err TypeError else
    let decr := nth (length xk - 1) xk n0 <? nth 0 xk n0 in
    let '(xk, lo, hi, ex) := if decr then (rev xk, hi, lo, ex_rev ex) else (xk, lo, hi, ex) in
    let x0 := nth 0 xk n0 in
    let xl := nth (length xk - 1) xk n0 in
    if per then Ok (xk, nd_map (fun v => nmod (v - x0) (xl - x0) + x0) x, lo, hi, ex)
    else
      let! xmin := lmin (flat x) in
      let! xmax := lmax (flat x) in
      if (xmin <? x0) && nonempty lo then Err ValueError else
      if (xl <? xmax) && nonempty hi then Err ValueError else
      Ok ((if xmin <? x0 then [xmin] else []) ++ xk ++ (if xl <? xmax then [xmax] else []), x, lo, hi, ex)%list.

  (* the flattened data: fN points fx with interval index fix_, fm rows fy, fs of y and sigy *)
  Record fdata := FData { fN : nat; fx : nat -> K; fm : nat; fy : nat -> nat -> K; fs : nat -> nat -> K;
                          fix_ : nat -> nat; fysh : list nat; flo : list (list K); fhi : list (list K) }.
  (* _splfit_args, pwpoly.py:1429-1457.  y and sigy have shape yshape+(x.size,) or (1, x.size);
     the callers need two dimensions: with more (two or more leading dimensions of y)
     bincount raises ValueError, with fewer (y of rank 0) some reshape or bincount does, except
     for a single point in plfit; no rows end in IndexError. *)
  Definition fit_args (xk : list K) (x y : nd K) (sigy : option (nd K)) (lo hi : list (nd K)) : res fdata :=
    let ndimy := (Z.of_nat (ndim y) - Z.of_nat (ndim x))%Z in
    let! y := nd_map2 nadd y (full (shp x) n0) in
    let cut := if (ndimy <? 0)%Z then Z.to_nat (Z.of_nat (ndim y) + ndimy) else Nat.min (Z.to_nat ndimy) (ndim y) in
    let! x := nd_map2 nadd x (full (skipn cut (shp y)) n0) in
    let yshape := firstn cut (shp y) in
    let! sigy := match sigy with
                 | None => Ok (full (shp y) n1)
                 | Some s => nd_map2 nadd s (full (shp y) n0)
                 end in
    let xs := flat x in
    let N := length xs in
    let shape := ((if (ndimy =? 0)%Z then [1%nat] else yshape) ++ [N])%list in
    let! y := reshape shape y in
    let! sigy := reshape shape sigy in
    let ix t := (Nat.min (Nat.max (ssearch xk (nth t xs n0)) 1) (length xk - 1) - 1)%nat in
    let bc l := mapM (fun b => let! b := nd_map2 nadd b (full yshape n0) in Ok (flat b)) l in
    let! lo := bc lo in
    let! hi := bc hi in
    match shape with
    | [m; _] => if (m =? 0)%nat then Err IndexError else
      Ok (FData N (fun t => nth t xs n0) m (fun i t => get y [i; t]) (fun i t => get sigy [i; t]) ix yshape lo hi)
    | m :: _ :: _ => if (m =? 0)%nat then Err IndexError else Err ValueError
    | _ => Err ValueError
    end.

  (* numpy.bincount(ix, w, n)[k]; ix < n always holds here *)
  Definition bincount (N : nat) (ix : nat -> nat) (w : nat -> K) (k : nat) : K :=
    ksum N (fun t => if (ix t =? k)%nat then w t else n0).

  Variable inv : nat -> mat K -> mat K.
  Variable solveh_banded : arr2 K -> arr2 K -> res (arr2 K).
  Variable solve_banded : nat -> nat -> arr2 K -> arr2 K -> res (arr2 K).
  Variable solve : arr2 K -> arr2 K -> res (arr2 K).

  (* _plfitter, pwpoly.py:1051-1080 *)
  Definition plfitter (nun : nat) (adiag asup b : nat -> K) (lo hi : option K) (per : bool) : res (nat -> K) :=
    if per then
      let a := Arr2 2 (nun - 1) (fun r j => if (r =? 0)%nat then (if (j =? 0)%nat then adiag j + adiag (nun - 1)%nat else adiag j)
                                            else asup j) in
      let b := Arr2 (nun - 1) 1 (fun j _ => if (j =? 0)%nat then b j + b (nun - 1)%nat else b j) in
      let! y := solves_periodic solve_banded solve a b true in
      Ok (fun j => if (j =? nun - 1)%nat then at2 y 0 0 else at2 y j 0)
    else
      let c0 := (if is_some lo then 1 else 0)%nat in
      let c1 := (if is_some hi then 1 else 0)%nat in
      let n := (nun - c0 - c1)%nat in
      let b1 := match lo with Some v => fun j => if (j =? 1)%nat then b j - v * asup 0%nat else b j | None => b end in
      (* b[-1] of an empty array *)
      if (is_some hi && (n =? 0)%nat) then Err IndexError else
      let b2 := match hi with Some v => fun j => if (j =? nun - 2)%nat then b1 j - v * asup (nun - 2)%nat else b1 j | None => b1 end in
      let! y := solveh_banded (Arr2 2 n (fun r j => if (r =? 0)%nat then adiag (j + c0)%nat else asup (j + c0)%nat))
                              (Arr2 n 1 (fun j _ => b2 (j + c0)%nat)) in
      Ok (fun j => match lo, hi with
                   | Some v, _ => if (j =? 0)%nat then v else
                                  match hi with Some u => if (j =? nun - 1)%nat then u else at2 y (j - 1) 0 | None => at2 y (j - 1) 0 end
                   | None, Some u => if (j =? nun - 1)%nat then u else at2 y j 0
                   | None, None => at2 y j 0
                   end).

  (* entry i of the boundary values of order m *)
  Definition bc_at (l : list (list K)) (m i : nat) : res (option K) :=
    match nth_error l m with
    | None => Ok None
    | Some b => match nth_error b i with None => Err IndexError | Some v => Ok (Some v) end
    end.
  (* the body of the loop of plfit for row i, pwpoly.py:1109-1127 *)
  Definition plfit_row (xk : list K) (d : fdata) (per : bool) (i : nat) : res (nat -> K) :=
    let nun := length xk in
    let w t := n1 / (fs d i t * fs d i t) in
    let p t := (fx d t - nth (fix_ d t) xk n0) * (n1 / dxs xk (fix_ d t)) in
    let q t := n1 - p t in
    let cnt := bincount (fN d) (fix_ d) in
    let cnt1 := bincount (fN d) (fun t => 1 + fix_ d t)%nat in
    let wp t := w t * p t in
    let wq t := w t * q t in
    let adiag k := cnt (fun t => wq t * q t) k + cnt1 (fun t => wp t * p t) k in
    let asup := cnt (fun t => wp t * q t) in
    let b k := cnt (fun t => wq t * fy d i t) k + cnt1 (fun t => wp t * fy d i t) k in
    let! lo := bc_at (flo d) 0 i in
    let! hi := bc_at (fhi d) 0 i in
    plfitter nun adiag asup b lo hi per.
  (* plfit, pwpoly.py:1083-1129 *)
  Definition plfit (xk : list K) (x y : nd K) (sigy : option (nd K)) (lo hi : list (nd K)) (per : bool) (ex : exarg)
    : res (pwpoly K) :=
    let! (xk, x, lo, hi, ex) := fit_setup xk x lo hi per ex in
    if (1 <? length lo)%nat || (1 <? length hi)%nat then Err ValueError else
    let! d := fit_args xk x y sigy lo hi in
    let! yk := mapM (plfit_row xk d per) (seq 0 (fm d)) in
    if (fm d * length xk =? size (fysh d ++ [length xk]))%nat then
      pline inv solve_banded solve xk
            (YArr (fysh d) (length xk) (fun comp j => nth (ravel (fysh d) comp) yk (fun _ => n0) j)) ex per
    else Err ValueError.

  (* 1, dx, dx**2, ...: dxscl, pwpoly.py:1256-1258 *)
  Definition dxscl (xk : list K) (k p : nat) : K := match p with O => n1 | S p' => dxpow (dxs xk k) p' end.
  (* rat, pwpoly.py:1259 *)
  Definition sf_rat (xk : list K) (k m : nat) : K := dxscl xk k m / dxscl xk ((k + 1) mod (length xk - 1))%nat m.
  (* sums of w x**p over interval k, pwpoly.py:1274-1285 *)
  Fixpoint wpow (w x : nat -> K) (p : nat) (t : nat) : K := match p with O => w t | S p' => wpow w x p' t * x t end.

  (* the array a[r, k, c] of shape (n2, nk1, n2+nc), pwpoly.py:1286-1294; the two sides of
     each slice assignment have equal lengths *)
  Definition sf_a (n nc : nat) (xp : nat -> nat -> K) (rat : nat -> nat -> K) (r k c : nat) : K :=
    let n1_ := (n + 1)%nat in
    let nc1 := (nc + 1)%nat in
    let cco := concat (bico n nc) in
    let cc := map (fun j => nth j cco n0)
                  (slice_indices (length cco) (Some (Z.of_nat (n1_ - r))) (Some (Z.of_nat (n1_ * r))) (Z.of_nat (n + 2))) in
    if ((r =? nc1) && (n1_ <=? c))%nat then - rat k (c - n1_)%nat
    else if (r =? n1_)%nat then (if (c <? nc1)%nat then n1 else n0)
    else if (c <? n1_ - r)%nat then
      nth c (map (xp k) (slice_indices (n1_ + n) (Some (Z.of_nat r)) (Some (Z.of_nat (n1_ + n - r))) 2)) n0
    else if ((1 <=? r) && (c <? n1_ - r + length cc))%nat then nth (c - (n1_ - r))%nat cc n0
    else n0.

  (* the system for row i and its solution, pwpoly.py:1267-1325 *)
  Definition splfit_row (xk : list K) (d : fdata) (n nc : nat) (per : bool) (i : nat) : res (nat -> K) :=
    let nk1 := (length xk - 1)%nat in
    let bs := (n + 2 + nc)%nat in
    let w t := n1 / (fs d i t * fs d i t) in
    let x t := (fx d t - nth (fix_ d t) xk n0) * (n1 / dxs xk (fix_ d t)) in
    let cnt := bincount (fN d) (fix_ d) in
    let xp k p := cnt (wpow w x p) k in
    let bp k p := if (p <? n + 1)%nat then cnt (fun t => wpow w x p t * fy d i t) k else n0 in
    let a r j := sf_a n nc xp (sf_rat xk) r (j / bs)%nat (j mod bs)%nat in
    let b j := bp (j / bs)%nat (j mod bs)%nat in
    let! s :=
      if per then solves_periodic solve_banded solve (Arr2 (n + 2) (bs * nk1) a) (Arr2 (bs * nk1) 1 (fun j _ => b j)) true
      else
        let nlo := length (flo d) in
        let nhi := length (fhi d) in
        let len := (bs * nk1 - (nc + 1 - nhi))%nat in
        let! hv := mapM (fun l => of_opt IndexError (nth_error l i)) (fhi d) in
        let! lv := mapM (fun l => of_opt IndexError (nth_error l i)) (flo d) in
        let b1 j := if (len - nhi <=? j)%nat then nth (j - (len - nhi)) hv n0 * dxscl xk (nk1 - 1) (j - (len - nhi)) else b j in
        solves_banded solve_banded
          (Arr2 (n + 2) (nlo + len) (fun r j => if (j <? nlo)%nat then (if (r =? nlo)%nat then - n1 else n0) else a r (j - nlo)%nat))
          (Arr2 (nlo + len) 1 (fun j _ => if (j <? nlo)%nat then nth j lv n0 * - dxscl xk 0 j else b1 (j - nlo)%nat)) true in
    Ok (fun j => at2 s j 0).
  Record sfit := SFit { sk : list K; sd : fdata; snc : nat; sex : Z * Z; ssol : list (nat -> K) }.
  (* splfit up to the end of the loop, pwpoly.py:1227-1326; n = 0 fails in _bico *)
  Definition splfit_solve (xk : list K) (x y : nd K) (sigy : option (nd K)) (n : nat) (nc : option Z)
             (lo hi : list (nd K)) (per : bool) (ex : exarg) : res sfit :=
    let! (xk, x, lo, hi, ex) := fit_setup xk x lo hi per ex in
    let! d := fit_args xk x y sigy lo hi in
    let! nc := match nc with
               | None => Ok (Z.of_nat n - 1)%Z
               | Some c => if (c <? 0)%Z || (Z.of_nat n <=? c)%Z then Err ValueError else Ok c
               end in
    if (1 + nc <? Z.of_nat (Nat.max (length lo) (length hi)))%Z then Err ValueError else
    if (nc <? 0)%Z then Err IndexError else
    let ex := match ex with ExNone => (nc, nc) | ExInt e => (e, e) | ExPair e f => (e, f) end in
    let! c := mapM (splfit_row xk d n (Z.to_nat nc) per) (seq 0 (fm d)) in
    Ok (SFit xk d (Z.to_nat nc) ex c).
  (* the coefficients, pwpoly.py:1328-1349; s is the position of the first block *)
  Definition sf_col (xk : list K) (n nc s : nat) (sol : nat -> K) (k : nat) : list K :=
    map (fun p => sol (s + k * (n + 2 + nc) + p)%nat / dxscl xk k p) (seq 0 (n + 1)).
  Definition splfit_pw (n : nat) (per : bool) (f : sfit) : res (pwpoly K) :=
    let xk := sk f in
    let d := sd f in
    let nk := length xk in
    let s := if per then 0%nat else length (flo d) in
    let bcol comp j := sf_col xk n (snc f) s (nth (ravel (fysh d) comp) (ssol f) (fun _ => n0)) j in
    let col comp i :=
      if (i =? 0)%nat then bcol comp 0%nat
      else if (i =? nk)%nat then pshift (bcol comp (nk - 2)%nat) (dxs xk (nk - 2))
      else bcol comp (i - 1)%nat in
    let '(e, g) := sex f in
    if negb ((n + 1) * fm d * (nk + 1) =? size ((n + 1)%nat :: fysh d ++ [nk + 1]))%nat then Err ValueError else
    if per then new Per xk (CArr (n + 1) (fysh d) (nk + 1) col)
    else new Pw xk (CArr (n + 1) (fysh d) (nk + 1) (fun comp i =>
           let c := if (i =? 0)%nat then zero_tail e (col comp i) else col comp i in
           if (i =? nk)%nat then zero_tail g c else c)).
  (* splfit, pwpoly.py:1132-1375 *)
  Definition splfit (xk : list K) (x y : nd K) (sigy : option (nd K)) (n : nat) (nc : option Z)
             (lo hi : list (nd K)) (per : bool) (ex : exarg) : res (pwpoly K) :=
    let! f := splfit_solve xk x y sigy n nc lo hi per ex in splfit_pw n per f.
  (* the cost values, pwpoly.py:1336, 1350-1373: interior m row k (the knot after interval k;
     all knots when periodic), boundary lo m row, hi m row *)
  Inductive costs := Costs (inner : nat -> nat -> nat -> K) (clo chi : nat -> nat -> K).
  Definition splfit_costs (n : nat) (per : bool) (f : sfit) : costs :=
    let xk := sk f in
    let nk1 := (length xk - 1)%nat in
    let nlo := if per then 0%nat else length (flo (sd f)) in
    let bs := (n + 2 + snc f)%nat in
    let cc i j := - (n1 + n1) * nth i (ssol f) (fun _ => n0) j in
    Costs (fun m i k => cc i (nlo + k * bs + (n + 1) + m)%nat *
             (if per then dxscl xk ((k + 1) mod nk1)%nat m else dxscl xk k m))
          (fun m i => cc i m * dxscl xk 0 m)
          (fun m i => cc i (nlo + (nk1 - 1) * bs + (n + 1) + m)%nat * dxscl xk (nk1 - 1) m).
  (* splfit(..., cost=True) *)
  Definition splfit_cost (xk : list K) (x y : nd K) (sigy : option (nd K)) (n : nat) (nc : option Z)
             (lo hi : list (nd K)) (per : bool) (ex : exarg) : res (pwpoly K * costs) :=
    let! f := splfit_solve xk x y sigy n nc lo hi per ex in
    let! p := splfit_pw n per f in
    Ok (p, splfit_costs n per f).
End Fit.
