(* Model of spline, pline and _bico, npplus/pwpoly.py:817-1048, 1378-1388.

   Simplifications: x is a 1-d array (the ndim test is not modelled), n a natural
   number, extrap None, an int or a pair; overwrite_* and dtype are not modelled.
   numpy.linalg.inv (inside PwPoly.__init__, n=1), scipy.linalg.solve_banded and
   solve are parameters. *)
From Coq Require Import List Arith ZArith Bool.
From Verif Require Import Num PyBase NdArray Poly PwPoly SolvePer.
Import ListNotations.
Local Open Scope res_scope.

Section Spline.
  Context {K : Type} {NK : Num K}.
  Local Open Scope num_scope.

  (* numpy cumsum of a 1-d array *)
  Fixpoint cumsum_from (a : K) (l : list K) : list K :=
    match l with [] => [] | b :: r => (a + b) :: cumsum_from (a + b) r end.
  Definition cumsum (l : list K) : list K :=
    match l with [] => [] | b :: r => b :: cumsum_from b r end.
  (* rows 1.. of _bico: cj[i+1:] = ci[i:-1].cumsum(), pwpoly.py:1384-1387 *)
  Fixpoint bico_rows (i m : nat) (ci : list K) : list (list K) :=
    match m with
    | O => []
    | S m' =>
      let cj := repeat n0 (Nat.min (i + 1) (length ci)) ++ cumsum (skipn i (removelast ci)) in
      cj :: bico_rows (S i) m' cj
    end.
  (* _bico(deg, nc), pwpoly.py:1378-1388; nc=None means deg-1 *)
  Definition bico (deg nc : nat) : list (list K) :=
    let c0 := repeat n1 (deg + 1) in c0 :: bico_rows 0 nc c0.

  (* boundary values: lo, hi are tuples, other values are wrapped, pwpoly.py:909-912 *)
  Definition bnds := list (option (nd K)).
  Inductive bcarg := BcOne (b : option (nd K)) | BcTuple (l : bnds).
  Definition bc_tuple (a : bcarg) : bnds := match a with BcOne b => [b] | BcTuple l => l end.
  Inductive exarg := ExNone | ExInt (e : Z) | ExPair (e f : Z).
  (* pwpoly.py:915-918 *)
  Definition ex_pair (n : nat) (a : exarg) : Z * Z :=
    match a with
    | ExNone => (Z.of_nat n - 1, Z.of_nat n - 1)%Z
    | ExInt e => (e, e)
    | ExPair e f => (e, f)
    end.
  Definition is_some {A} (o : option A) : bool := match o with Some _ => true | None => false end.
  (* len(l) - l.count(None) *)
  Definition count_some {A} (l : list (option A)) : nat := length (filter is_some l).

  (* the loop filling in default boundary conditions, pwpoly.py:947-959; i1 is i+1 *)
  Fixpoint fill (i1 : nat) (lo hi : bnds) (missing : Z) (nlo nhi : nat) : res (bnds * bnds * nat * nat) :=
    if (missing =? 0)%Z then Ok (lo, hi, nlo, nhi) else
    match i1 with
    | O => Err IndexError
    | S i =>
      let zero := Some (scalar n0) in
      let '(lo, missing, nlo) :=
        match nth i lo None with
        | None => (upd i zero lo, (missing - 1)%Z, S nlo)
        | Some _ => (lo, missing, nlo)
        end in
      let '(hi, missing, nhi) :=
        if (missing =? 0)%Z then (hi, missing, nhi) else
        match nth i hi None with
        | None => (upd i zero hi, (missing - 1)%Z, S nhi)
        | Some _ => (hi, missing, nhi)
        end in
      fill i lo hi missing nlo nhi
    end.
  (* pwpoly.py:938-961 *)
  Definition spl_bcs (n : nat) (per : bool) (lo hi : bnds) : res (bnds * bnds * nat * nat) :=
    let nm1 := (n - 1)%nat in
    let lo := (lo ++ repeat None (nm1 - length lo))%list in
    let nlo := count_some lo in
    let nhi := count_some hi in
    let missing := (Z.of_nat nm1 - Z.of_nat (nlo + nhi))%Z in
    if negb (missing =? 0)%Z && negb per then
      fill nm1 lo (hi ++ repeat None (nm1 - length hi))%list missing nlo nhi
    else Ok (lo, hi, nlo, nhi).

  (* row m of bc = _bico(n)[:, 1:], before bc[0, -1] = 0; pwpoly.py:962 *)
  Definition bc_row (n m : nat) : list K := tl (nth m (bico n (n - 1)) []).
  (* after bc[0, -1] = 0, pwpoly.py:968 *)
  Definition bc_row0 (n m : nat) : list K := if (m =? 0)%nat then upd (n - 1) n0 (bc_row n m) else bc_row n m.
  (* dx[j]/dx[j+1], cyclic; pwpoly.py:972-973 *)
  Definition dx_ratio (x : list K) (j : nat) : K := dxs x j / dxs x ((j + 1) mod (length x - 1))%nat.
  (* -1, -R, -R**2, ... *)
  Fixpoint mcum (r : K) (m : nat) : K := match m with O => - n1 | S m' => mcum r m' * r end.
  (* 1, -R, -R**2, ...; pwpoly.py:974-977 *)
  Definition dxr_at (x : list K) (j m : nat) : K := if (m =? 0)%nat then n1 else mcum (dx_ratio x j) m.
  (* the (n+1) x nun array ab in diagonal ordered form, pwpoly.py:969-978 *)
  Definition spl_ab (n : nat) (x : list K) : arr2 K :=
    let nun := ((length x - 1) * n)%nat in
    Arr2 (n + 1) nun (fun r j =>
      match r with
      | O => let q := ((j + nun - (n - 1)) mod nun)%nat in dxr_at x (q / n)%nat (q mod n)%nat
      | S r' => nth (j mod n)%nat (bc_row0 n (n - 1 - r')) n0
      end).
  (* the right-hand side, pwpoly.py:979-981; yf t j is y.reshape(nshape, nk)[t, j] *)
  Definition spl_b (n nk nshape : nat) (yf : nat -> nat -> K) : arr2 K :=
    Arr2 ((nk - 1) * n) nshape (fun i t =>
      if (i mod n =? 0)%nat then yf t (i / n + 1)%nat - yf t (i / n)%nat else n0).
  (* dx, dx**2, ..., dx**n: entry p is dx**(p+1); pwpoly.py:983 *)
  Fixpoint dxpow (d : K) (p : nat) : K := match p with O => d | S p' => dxpow d p' * d end.

  (* b[r] = bnd * scale for a row of length nc b *)
  Definition set_row (r : nat) (bnd : nd K) (scale : K) (b : arr2 K) : res (arr2 K) :=
    if bto (shp bnd) [nc b] then
      Ok (Arr2 (nr b) (nc b) (fun i t => if (i =? r)%nat then bget bnd [t] * scale else at2 b i t))
    else Err ValueError.
  (* the loop over hi, pwpoly.py:989-996 *)
  Fixpoint hi_loop (n nun : nat) (dxl : K) (i k : nat) (hi : bnds) (b : arr2 K) (ab : nat -> K)
    : res (arr2 K * (nat -> K)) :=
    match hi with
    | [] => Ok (b, ab)
    | None :: hi => hi_loop n nun dxl (S i) k hi b ab
    | Some bnd :: hi =>
      if (n - 1 <=? k)%nat then Err IndexError else
      let! b := set_row (nun - (n - 1) + k) bnd (dxpow dxl i) b in
      let kmn := (Z.of_nat k - Z.of_nat n)%Z in
      let! ab := fset ((n + 1) * nun) ab (Some kmn) (Some (kmn * Z.of_nat nun)%Z) (1 - Z.of_nat nun)%Z
                      (skipn k (bc_row n (i + 1))) in
      hi_loop n nun dxl (S i) (S k) hi b ab
    end.
  (* the loop over reversed(lo), pwpoly.py:1000-1009; i counts, k1 is k+1 *)
  Fixpoint lo_loop (n nun : nat) (dx0 : K) (i k1 : nat) (j : Z) (rlo : bnds) (b : arr2 K) (ab : nat -> K)
    : res (arr2 K * (nat -> K)) :=
    match rlo with
    | [] => Ok (b, ab)
    | None :: rlo => lo_loop n nun dx0 (S i) k1 j rlo b ab
    | Some bnd :: rlo =>
      let mi := (n - 2 - i)%nat in
      let k := (k1 - 1)%nat in
      let! b := set_row k bnd (dxpow dx0 mi) b in
      let j := (j - Z.of_nat nun)%Z in
      match nth_error (slice_indices ((n + 1) * nun) (Some j) None (1 - Z.of_nat nun)%Z) mi with
      | None => Err IndexError
      | Some p => lo_loop n nun dx0 (S i) k j rlo b (fun q => if (q =? p)%nat then n1 else ab q)
      end
    end.
  (* roll(b, m, axis=0) *)
  Definition roll2 (m : nat) (b : arr2 K) : arr2 K :=
    Arr2 (nr b) (nc b) (fun i t => at2 b ((i + (nr b - m mod nr b)) mod nr b)%nat t).

  (* c[e+1:, ..., i] = 0 on one column *)
  Definition zero_tail (e : Z) (c : list K) : list K :=
    let s := Z.to_nat (slice_adjust (Z.of_nat (length c)) 1 (Some (e + 1)%Z) true) in
    (firstn s c ++ repeat n0 (length c - s))%list.

  Variable inv : nat -> mat K -> mat K.
  Variable solve_banded : nat -> nat -> arr2 K -> arr2 K -> res (arr2 K).
  Variable solve : arr2 K -> arr2 K -> res (arr2 K).

  (* the case n = 1, pwpoly.py:928-937 *)
  Definition spl_linear (x : list K) (y : yarr K) (per : bool) (e f : Z) : res (pwpoly K) :=
    let! p := ctor inv (if per then Per else Pw) x [y] in
    let c := pc p in
    let col1 comp i := if (i =? 0)%nat then zero_tail e (ccol c comp 1%nat) else ccol c comp i in
    let xk := pxk p in
    let dx := nth (length xk - 1) xk n0 - nth (length xk - 2) xk n0 in
    let col2 comp i := if ((1 <? length xk) && (i =? ck c - 1))%nat
                       then zero_tail f (pshift (col1 comp (ck c - 2)%nat) dx) else col1 comp i in
    Ok (PwP (pcl p) (pxk0 p) (CArr (cn c) (csh c) (ck c) col2) (pper p)).

  (* the linear system, pwpoly.py:962-1011: the unknowns times dx**p *)
  Definition spl_solve (n : nat) (x : list K) (nshape : nat) (yf : nat -> nat -> K) (per : bool)
             (lo hi : bnds) (nlo : nat) : res (arr2 K) :=
    let nk := length x in
    let nun := ((nk - 1) * n)%nat in
    let ab := spl_ab n x in
    let b := spl_b n nk nshape yf in
    if per then solve_periodic solve_banded solve 1 (n - 1) ab b
    else
      let ab := flat2 (Arr2 (n + 1) nun (fun r j => if ((r =? 0) && (j <? n - 1))%nat then n0 else at2 ab r j)) in
      let! (b, ab) := hi_loop n nun (dxs x (nk - 2)) 0 0 hi b ab in
      let b := if (nlo =? 0)%nat then b else roll2 nlo b in
      let! (b, ab) := lo_loop n nun (dxs x 0) 0 nlo (Z.of_nat (n - 1) * Z.of_nat nun)%Z (rev lo) b ab in
      solve_banded (1 + nlo) (n - 1 - nlo) (unflat2 (n + 1) nun ab) b.
  (* column i of c for one component t, pwpoly.py:1012-1016 *)
  Definition spl_col (n : nat) (x : list K) (yf : nat -> nat -> K) (b : arr2 K) (t j : nat) : list K :=
    yf t j :: map (fun p => at2 b (j * n + p)%nat t * (n1 / dxpow (dxs x j) p)) (seq 0 n).

  (* spline, pwpoly.py:817-1024 *)
  Definition spline (x : list K) (y : yarr K) (n : nat) (lo hi : bcarg) (per : bool) (extrap : exarg)
    : res (pwpoly K) :=
    let nk := length x in
    if (nk =? 0)%nat || (size (ysh y ++ [yn y]) =? 0)%nat then Err IndexError else
    if (nk <? 2)%nat then Err TypeError else
    if negb (yn y =? nk)%nat then Err TypeError else
    let lo := bc_tuple lo in
    let hi := bc_tuple hi in
    if per && ((0 <? length lo)%nat || (0 <? length hi)%nat ||
               match extrap with ExNone => false | _ => true end) then Err TypeError else
    let '(e, f) := ex_pair n extrap in
    let decr := nth (nk - 1) x n0 <? nth 0 x n0 in
    let '(x, y, lo, hi, e, f) := if decr then (rev x, yrev y, hi, lo, f, e) else (x, y, lo, hi, e, f) in
    if (n <=? length lo)%nat || (n <=? length hi)%nat then Err TypeError else
    let y := if per then YArr (ysh y) (yn y) (fun comp i => yval y comp (if (i =? nk - 1)%nat then 0%nat else i))
             else y in
    if (n <? 2)%nat then spl_linear x y per e f else
    let! (lo, hi, nlo, nhi) := spl_bcs n per lo hi in
    let yf := fun t j => yval y (unravel (ysh y) t) j in
    let! b := spl_solve n x (size (ysh y)) yf per lo hi nlo in
    let bcol comp j := spl_col n x yf b (ravel (ysh y) comp) j in
    let col comp i :=
      if (i =? 0)%nat then bcol comp 0%nat
      else if (i =? nk)%nat then pshift (bcol comp (nk - 2)%nat) (dxs x (nk - 2)%nat)
      else bcol comp (i - 1)%nat in
    if per then new Per x (CArr (n + 1) (ysh y) (nk + 1) col)
    else new Pw x (CArr (n + 1) (ysh y) (nk + 1) (fun comp i =>
           let c := if (i =? 0)%nat then zero_tail e (col comp i) else col comp i in
           if (i =? nk)%nat then zero_tail f c else c)).

  (* pline, pwpoly.py:1027-1048 *)
  Definition pline (x : list K) (y : yarr K) (extrap : exarg) (per : bool) : res (pwpoly K) :=
    spline x y 1 (BcTuple []) (BcTuple []) per extrap.
End Spline.
