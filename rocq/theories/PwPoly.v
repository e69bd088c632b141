(* Model of the classes PwPoly and PerPwPoly, npplus/pwpoly.py:68-811.

   Simplifications (all of them also in DESIGN.md):
   - xk0 is a list; the coefficient array c of shape (cn,)+csh+(ck,) is kept as
     one coefficient list (increasing powers) per component index and interval;
   - __call__ is modelled at one scalar x and one component; PwArray.v models
     the calls with arrays, which give the same values (C119);
   - arrays are values: aliasing of xk0/c between objects is not modelled (the
     code comments "treat xk0, c as if immutable", pwpoly.py:250). *)
From Coq Require Import String List Arith ZArith Bool.
From Verif Require Import Num PyBase NdArray Poly.
Import ListNotations.
Local Open Scope num_scope.
Local Open Scope res_scope.

Section PwPoly.
  Context {K : Type} {NK : Num K}.

  Inductive cls := Pw | Per.

  Record carr := CArr {
    cn : nat;                               (* c.shape[0] *)
    csh : list nat;                         (* c.shape[1:-1] *)
    ck : nat;                               (* c.shape[-1] *)
    ccol : list nat -> nat -> list K        (* component, interval -> c[:,..,i] *)
  }.
  Record pwpoly := PwP {
    pcl : cls;                              (* self.__class__ *)
    pxk0 : list K;                          (* self.xk0 *)
    pc : carr;                              (* self.c *)
    pper : option K                         (* self.period, if the attribute exists *)
  }.
  (* self.xk = self.xk0[1:], pwpoly.py:248 *)
  Definition pxk (p : pwpoly) : list K := tl (pxk0 p).
  (* degree/deg, pwpoly.py:323-331; ndim, shape, pwpoly.py:333-341 *)
  Definition pdeg (p : pwpoly) : nat := (cn (pc p) - 1)%nat.
  Definition pndim (p : pwpoly) : nat := length (csh (pc p)).
  Definition pshape (p : pwpoly) : list nat := csh (pc p).

  (* numpy.searchsorted(l, x), side='left': for sorted l the number of elements
     < x, i.e. the index of the first element not < x *)
  Fixpoint ssearch (l : list K) (x : K) : nat :=
    match l with
    | [] => O
    | a :: r => if a <? x then S (ssearch r x) else O
    end.

  (* PerPwPoly._rawinit column updates, pwpoly.py:809-810 *)
  Definition per_fix (xk : list K) (c : carr) : carr :=
    let col1 comp i := if (i =? 0)%nat then ccol c comp 1%nat else ccol c comp i in
    let dx := nth (length xk - 1) xk n0 - nth (length xk - 2) xk n0 in
    CArr (cn c) (csh c) (ck c)
         (fun comp i => if (i =? ck c - 1)%nat then pshift (col1 comp (ck c - 2)%nat) dx
                        else col1 comp i).

  (* _rawinit, pwpoly.py:242-251 and 804-811; new, pwpoly.py:253-277 *)
  Definition rawinit (cl : cls) (xk : list K) (c : carr) : res pwpoly :=
    let xk0 := if (length xk =? ck c)%nat then xk else firstn 1 xk ++ xk in
    match cl with
    | Pw => Ok (PwP Pw xk0 c None)
    | Per =>
      let xk' := tl xk0 in
      if (length xk' <? 2)%nat then Err TypeError
      else if (cn c =? 0)%nat then Err IndexError
      else Ok (PwP Per xk0 (per_fix xk' c)
                   (Some (nth (length xk' - 1) xk' n0 - nth 0 xk' n0)))
    end.
  Definition new := rawinit.

  (* what __call__ needs: c not empty, one interval per xk0 entry, and for
     PerPwPoly the attribute period (pwpoly.py:801) *)
  Definition pw_ok (p : pwpoly) : res unit :=
    if (cn (pc p) =? 0)%nat || negb (length (pxk0 p) =? ck (pc p))%nat
       || (ck (pc p) =? 0)%nat
    then Err IndexError
    else match pcl p, pper p with
         | Per, None => Err AttributeError
         | _, _ => Ok tt
         end.
  (* PerPwPoly.__call__, pwpoly.py:799-802 *)
  Definition pw_reduce (p : pwpoly) (x : K) : K :=
    match pcl p, pper p with
    | Per, Some T => let x0 := nth 0 (pxk p) n0 in x0 + nmod (x - x0) T
    | _, _ => x
    end.
  (* PwPoly.__call__ with nd=0, pwpoly.py:317-321 *)
  Definition pw_val (p : pwpoly) (comp : list nat) (x : K) : K :=
    let x := pw_reduce p x in
    let ix := ssearch (pxk p) x in
    horner (ccol (pc p) comp ix) (x - nth ix (pxk0 p) n0).
  (* PwPoly.__call__ with nd>0: polyddx(c, x, nd, True), pwpoly.py:321 *)
  Definition pw_vals (p : pwpoly) (comp : list nat) (x : K) (nd : nat) : list K :=
    let x := pw_reduce p x in
    let ix := ssearch (pxk p) x in
    let dx := x - nth ix (pxk0 p) n0 in
    match nd with
    | O => [horner (ccol (pc p) comp ix) dx]
    | _ => denorm (taylor (ccol (pc p) comp ix) dx nd)
    end.
  Definition pw_call (p : pwpoly) (comp : list nat) (x : K) : res K :=
    let! _ := pw_ok p in Ok (pw_val p comp x).
  Definition pw_calln (p : pwpoly) (comp : list nat) (x : K) (nd : nat) : res (list K) :=
    let! _ := pw_ok p in Ok (pw_vals p comp x nd).

  (* c[1:] * arange(1, n), pwpoly.py:363 *)
  Definition dcol (c : list K) : list K :=
    zipw (fun a k => a * nofnat k) (tl c) (seq 1 (length c - 1)).
  (* loop of deriv, pwpoly.py:358-363 *)
  Fixpoint deriv_c (m : nat) (c : carr) : carr :=
    match m with
    | O => c
    | S m' =>
      if (cn c <? 2)%nat then
        CArr (cn c) (csh c) (ck c) (fun comp i => map (fun _ => n0) (ccol c comp i))
      else deriv_c m' (CArr (cn c - 1) (csh c) (ck c) (fun comp i => dcol (ccol c comp i)))
    end.
  (* deriv, pwpoly.py:343-364 *)
  Definition deriv (p : pwpoly) (m : nat) : res pwpoly :=
    new (pcl p) (pxk0 p) (deriv_c m (pc p)).

  (* one column of concatenate((c0, c*n)), pwpoly.py:404-406 *)
  Definition icol (c : list K) : list K :=
    n0 :: zipw (fun a k => a * (n1 / nofnat k)) c (seq 1 (length c)).
  Definition add0 (v : K) (c : list K) : list K :=
    match c with [] => [] | a :: r => (a + v) :: r end.
  (* knot spacing dx = xk[1:] - xk[:-1] *)
  Definition dxs (xk : list K) (j : nat) : K := nth (S j) xk n0 - nth j xk n0.
  (* one pass of the loop of integ, pwpoly.py:403-409; kt has shape kt_shape *)
  Definition integ1 (xk : list K) (ibnd : nat) (lbnd : K) (kt : list nat -> K) (c : carr)
    : carr :=
    let c1 comp i := icol (ccol c comp i) in
    let c2 comp i :=
        if (1 <? length xk)%nat && (2 <=? i)%nat
        then add0 (cums (fun j => horner (c1 comp (S j)) (dxs xk j)) (i - 2)%nat) (c1 comp i)
        else c1 comp i in
    let c3 comp i := add0 (kt comp - horner (c2 comp ibnd) lbnd) (c2 comp i) in
    CArr (S (cn c)) (csh c) (ck c) c3.
  Fixpoint integ_loop (xk : list K) (ibnd : nat) (lbnd : K) (ks : list (nd K)) (c : carr)
    : res carr :=
    match ks with
    | [] => Ok c
    | kt :: ks' =>
      (* c[0] += (k - polyfun(c[..., ibnd], lbnd))[..., newaxis] *)
      match bshape (shp kt) (csh c) with
      | None => Err ValueError
      | Some s =>
        if bto s (csh c)
        then integ_loop xk ibnd lbnd ks' (integ1 xk ibnd lbnd (bget kt) c)
        else Err ValueError
      end
    end.
  (* consts, pwpoly.py:395-400: the sequence of constants, one array per pass *)
  Definition integ_consts (s : list nat) (m : nat) (k : nd K) : res (list (nd K)) :=
    let k1 := if (ndim k =? length s)%nat
              then Nd (1%nat :: shp k) (fun idx => get k (tl idx)) else k in
    match shp k1 with
    | [] => Err IndexError
    | d :: rest =>
      let k2 := if (d <? m)%nat
                then Nd (m :: rest) (fun idx => if (hd 0 idx <? d)%nat then get k1 idx else n0)
                else k1 in
      let! consts := nd_map2 nadd (full (m :: s) n0) k2 in
      Ok (map (fun t => nd_take 0 t consts) (seq 0 (hd O (shp consts))))
    end.
  (* integ, pwpoly.py:366-410; lbnd a scalar *)
  Definition integ (p : pwpoly) (m : nat) (k : nd K) (lbnd : K) : res pwpoly :=
    if (cn (pc p) =? 0)%nat then Err IndexError else
    let ibnd := ssearch (pxk p) lbnd in
    let lb := lbnd - nth ibnd (pxk0 p) n0 in
    let! consts := integ_consts (csh (pc p)) m k in
    let! c := integ_loop (pxk p) ibnd lb consts (pc p) in
    new (pcl p) (pxk0 p) c.

  (* ---- constructor, pwpoly.py:181-240 ---- *)
  (* an argument array of shape ysh+(yn,) *)
  Record yarr := YArr { ysh : list nat; yn : nat; yval : list nat -> nat -> K }.
  Definition yrev (a : yarr) : yarr :=
    YArr (ysh a) (yn a) (fun comp i => yval a comp (yn a - 1 - i)%nat).
  Definition yshape_eqb (a b : yarr) : bool :=
    (yn a =? yn b)%nat && (if list_eq_dec Nat.eq_dec (ysh a) (ysh b) then true else false).
  (* array(args) needs arguments of equal shape *)
  Definition uniform (args : list yarr) : bool :=
    match args with [] => true | a :: r => forallb (yshape_eqb a) r end.

  (* matrices *)
  Definition mat := nat -> nat -> K.
  (* sum(f(0) .. f(n-1)) *)
  Fixpoint ksum (n : nat) (f : nat -> K) : K :=
    match n with O => n0 | S m => ksum m f + f m end.
  (* _two_sided_inverse, pwpoly.py:279-296:
     polyddx(eye(2*h+2, h+1, -h-1), 1., h), entry [k][j]; column j of the eye
     is the coefficient list of x**(h+1+j) *)
  Definition eye_col (h j : nat) : list K :=
    map (fun i => if (i =? h + 1 + j)%nat then n1 else n0) (seq 0 (2*h+2)).
  Definition two_sided (h : nat) : mat :=
    fun k j => nth k (taylor (eye_col h j) n1 h) n0.

  (* prod of a..a+len-1, as in arange(h+1, 2*h+1).prod() *)
  Fixpoint zprod (a len : nat) : Z :=
    match len with O => 1%Z | S l => (Z.of_nat a * zprod (S a) l)%Z end.

  (* coefficients of the nk-1 finite intervals from the Taylor coefficients at
     their ends, pwpoly.py:217-233.  a k comp i: k-th coefficient at knot i;
     z: top coefficients in the even case; minv: the two-sided inverse *)
  Definition ctor_col (h : nat) (minv : mat) (xk : list K)
             (a : nat -> nat -> K) (z : option (nat -> K)) (i : nat) : list K :=
    let dx := dxs xk i in
    let left := map (fun k => a k i) (seq 0 (S h)) in
    let zl := match z with None => [] | Some f => [f i] end in
    let c := left ++ repeat n0 (S h) ++ zl in
    let t := taylor c dx h in
    let r := map (fun k => (a k (S i) - nth k t n0) * npow dx k) (seq 0 (S h)) in
    let q := map (fun k => ksum (S h) (fun j => minv k j * nth j r n0)
                           * (n1 / (npow dx k * (dx * npow dx h)))) (seq 0 (S h)) in
    left ++ q ++ zl.

  (* __init__; inv n m stands for numpy.linalg.inv of the n x n matrix m, used in
     _two_sided_inverse *)
  Definition ctor (inv : nat -> mat -> mat) (cl : cls) (xk : list K) (args : list yarr)
    : res pwpoly :=
    let nk := length xk in
    let decr := (1 <? nk)%nat && (nth (nk - 1) xk n0 <? nth 0 xk n0) in
    if decr && negb (uniform args) then Err ValueError else
    let xk := if decr then rev xk else xk in
    let args := if decr then map yrev args else args in
    match rev args with
    | [] => Err IndexError
    | argz :: rargs =>
      let even := (yn argz + 1 =? nk)%nat in
      if decr && even && negb (length rargs =? 0)%nat then Err ValueError else
      let '(args, ev) :=
          if even then
            match rargs with
            (* zeros_like(argz[..., 0:1]) is empty when argz is *)
            | [] => ([YArr (ysh argz) (if (yn argz =? 0)%nat then 0 else yn argz + 2)%nat
                           (fun comp i => if (i =? 0)%nat || (i =? yn argz + 1)%nat then n0
                                          else yval argz comp (i - 1)%nat)], false)
            | _ => (rev rargs, true)
            end
          else (args, false) in
      if negb (uniform args) then Err ValueError else
      match args with
      | [] => Err IndexError
      | a0 :: _ =>
        let s := ysh a0 in
        let ny := yn a0 in
        if (nk =? 0)%nat || (size (s ++ [ny]) =? 0)%nat then Err IndexError else
        if (ny =? nk + 1)%nat then
          rawinit cl xk (CArr (length args) s ny
                              (fun comp i => map (fun a => yval a comp i) args))
        else if negb (ny =? nk)%nat then Err TypeError
        else if (nk <? 2)%nat then Err TypeError
        else
          let h := (length args - 1)%nat in
          if ev && negb (if list_eq_dec Nat.eq_dec (ysh argz) s then true else false)
          then Err ValueError else
          (* convert derivatives to coefficients, pwpoly.py:210-215 *)
          let a comp k i := yval (nth k args a0) comp i * (n1 / nfact k) in
          let z comp := if ev
                        then Some (fun i => yval argz comp i * (n1 / (n1 * nofZ (zprod (h+1) h))))
                        else None in
          let ncoef := ((h+1) + (h+1) + (if ev then 1 else 0))%nat in
          (* extrapolation intervals, pwpoly.py:234-237 *)
          let ext comp i := map (fun k => a comp k i) (seq 0 (S h))
                            ++ repeat n0 (ncoef - S h) in
          rawinit cl xk
            (CArr ncoef s (nk + 1)
               (fun comp i =>
                  if (i =? 0)%nat then ext comp O
                  else if (i =? nk)%nat then ext comp (nk - 1)%nat
                  else ctor_col h (inv (S h) (two_sided h)) xk (a comp) (z comp) (i - 1)%nat))
      end
    end.

  (* ---- jumps, pwpoly.py:525-546: entry [k][i] ---- *)
  Definition jumps (p : pwpoly) (n : option nat) : res (nat * (list nat -> nat -> nat -> K)) :=
    let n := match n with Some m => m | None => (cn (pc p) - 1)%nat end in
    if (cn (pc p) =? 0)%nat then Err IndexError else
    let rows := Nat.min (S n) (cn (pc p)) in
    (* c[0:1+n] - cminus broadcasts only if the degree axes agree or one is 1 *)
    if (rows =? S n)%nat || (rows =? 1)%nat then
      Ok (S n, fun comp k i =>
            nth (if (rows =? 1)%nat then 0 else k)%nat (ccol (pc p) comp (S i)) n0
            - nth k (taylor (ccol (pc p) comp i) (dxs (pxk0 p) i) n) n0)
    else Err ValueError.

  (* ---- allknots, pwpoly.py:626-666 ---- *)
  Fixpoint insert (x : K) (l : list K) : list K :=
    match l with
    | [] => [x]
    | a :: r => if x <=? a then x :: l else a :: insert x r
    end.
  (* numpy.sort *)
  Definition sort (l : list K) : list K := fold_right insert [] l.
  Fixpoint eqlist (l m : list K) : bool :=
    match l, m with
    | [], [] => true
    | a :: l', b :: m' => (a =? b) && eqlist l' m'
    | _, _ => false
    end.
  (* should y be merged into xk (not within tol*dx of its neighbours)?
     pwpoly.py:655-662, len(xk) > 1 *)
  Definition keep_knot (tol : K) (xk : list K) (y : K) : bool :=
    let iy := ssearch xk y in
    let n := length xk in
    let dx := dxs xk (Nat.min (iy - 1) (n - 2)) * tol in
    let i := (iy - 1)%nat in
    let j := Nat.min iy (n - 1) in
    (dx <? nabs (y - nth i xk n0)) && (dx <? nabs (y - nth j xk n0)).
  (* one argument; the boolean says whether the result is still the object
     self.xk *)
  Definition allknots1 (tol : K) (st : bool * list K) (yk : list K) : res (bool * list K) :=
    let '(same, xk) := st in
    if eqlist xk yk then Ok (same, xk) else
    let '(xk, yk) := if (length xk <? length yk)%nat then (yk, xk) else (xk, yk) in
    if (1 <? length xk)%nat then
      Ok (false, sort (xk ++ filter (keep_knot tol xk) yk))
    else match xk, yk with
         | x :: _, y :: _ =>
           if nabs (x - y) <=? tol + tol * nabs y then Ok (same, xk)
           else Ok (false, sort (xk ++ yk))
         | _, _ => Err IndexError
         end.
  Fixpoint allknots_loop (tol : K) (st : bool * list K) (args : list (list K))
    : res (bool * list K) :=
    match args with
    | [] => Ok st
    | yk :: r => let! st' := allknots1 tol st yk in allknots_loop tol st' r
    end.
  Definition allknots (tol : K) (p : pwpoly) (args : list (list K)) : res (bool * list K) :=
    allknots_loop tol (true, pxk p) args.
  (* default tol=1.e-6 *)
  Definition tol6 : K := n1 / nofZ 1000000.

  (* ---- addknots, pwpoly.py:593-624 ---- *)
  Definition mid (xk : list K) (i : nat) : K :=
    (n1 / nofZ 2) * (nth (S i) xk n0 + nth i xk n0).
  (* interval of self.xk for interval i of the new knots *)
  Definition ak_index (old xk : list K) (i : nat) : nat :=
    if (i =? 0)%nat then O
    else if (i =? length xk)%nat then length old
    else ssearch old (mid xk (i - 1)%nat).
  Definition addknots_raw (p : pwpoly) (xk : list K) : res pwpoly :=
    if (cn (pc p) =? 0)%nat then Err IndexError else
    let xk0 := firstn 1 xk ++ xk in
    let c := CArr (cn (pc p)) (csh (pc p)) (length xk + 1)
                  (fun comp i =>
                     let j := ak_index (pxk p) xk i in
                     pshift (ccol (pc p) comp j) (nth i xk0 n0 - nth j (pxk0 p) n0)) in
    new (pcl p) xk c.
  Definition addknots (p : pwpoly) (xk : list K) : res pwpoly :=
    let! (same, xk') := allknots tol6 p [xk] in
    if same then Ok p
    else if (length xk' =? length (pxk p))%nat then Ok p
    else addknots_raw p xk'.

  (* ---- binary operations, pwpoly.py:710-786 ---- *)
  (* concatenate((c, zeros)) to nd+1 coefficients, pwpoly.py:714-724 *)
  Definition cpad (n : nat) (c : carr) : carr :=
    CArr n (csh c) (ck c) (fun comp i => ccol c comp i ++ repeat n0 (n - cn c)).
  (* c.reshape(sa[0:1] + (1,)*d + sa[1:]), pwpoly.py:727-732 *)
  Definition cdims (d : nat) (c : carr) : carr :=
    CArr (cn c) (repeat 1%nat d ++ csh c) (ck c) (fun comp i => ccol c (skipn d comp) i).
  Definition binary (p q : pwpoly) (skip : bool) : res (pwpoly * carr) :=
    let cl := pcl p in
    let nd := Nat.max (cn (pc p)) (cn (pc q)) in
    let! p1 := if negb skip && negb (cn (pc p) =? nd)%nat
               then new cl (pxk0 p) (cpad nd (pc p)) else Ok p in
    let! q1 := if negb skip && negb (cn (pc q) =? nd)%nat
               then new cl (pxk0 q) (cpad nd (pc q)) else Ok q in
    let la := length (csh (pc p1)) in
    let lb := length (csh (pc q1)) in
    let! p2 := if (la <? lb)%nat then new cl (pxk0 p1) (cdims (lb - la) (pc p1)) else Ok p1 in
    let! q2 := if (lb <? la)%nat then new cl (pxk0 q1) (cdims (la - lb) (pc q1)) else Ok q1 in
    let! (same, xk) := allknots tol6 p2 [pxk q2] in
    if same then Ok (p2, pc q2)
    else
      let! p3 := addknots_raw p2 xk in
      let! q3 := addknots_raw q2 xk in
      Ok (p3, pc q3).
  (* elementwise combination of two coefficient arrays, broadcasting *)
  Definition cmap2 (n : nat) (f : list K -> list K -> list K) (a b : carr) : res carr :=
    match bshape (csh a) (csh b) with
    | None => Err ValueError
    | Some s =>
      if (ck a =? ck b)%nat then
        Ok (CArr n s (ck a)
                 (fun comp i => f (ccol a (bidx (csh a) comp) i) (ccol b (bidx (csh b) comp) i)))
      else Err ValueError
    end.
  Definition padd (p q : pwpoly) : res pwpoly :=
    let! (this, other) := binary p q false in
    let! c := cmap2 (cn (pc this)) (zipw nadd) (pc this) other in
    new (pcl p) (pxk0 this) c.
  Definition psub (p q : pwpoly) : res pwpoly :=
    let! (this, other) := binary p q false in
    let! c := cmap2 (cn (pc this)) (zipw nsub) (pc this) other in
    new (pcl p) (pxk0 this) c.
  (* product of coefficient lists, pwpoly.py:765-774: c the longer one *)
  Fixpoint addto (i : nat) (c prod : list K) : list K :=   (* prod[i:i+n] += c *)
    match i, prod with
    | O, _ => match c, prod with
              | a :: c', b :: p' => (b + a) :: addto O c' p'
              | _, _ => prod
              end
    | S i', b :: p' => b :: addto i' c p'
    | S _, [] => []
    end.
  Fixpoint pmul_loop (i : nat) (c other prod : list K) : list K :=
    match other with
    | [] => prod
    | d :: r => pmul_loop (S i) c r (addto i (map (fun a => a * d) c) prod)
    end.
  Definition pmul_col (c other : list K) : list K :=
    pmul_loop O c other (repeat n0 (length c + length other - 1)).
  Definition pmul (p q : pwpoly) : res pwpoly :=
    let! (this, other) := binary p q true in
    let c := pc this in
    let '(a, b) := if (cn c <? cn other)%nat then (other, c) else (c, other) in
    let! r := cmap2 (cn a + cn b - 1)%nat pmul_col a b in
    new (pcl p) (pxk0 this) r.
  (* Binding of a call with npos positional and the given keyword arguments to
     a Python function whose parameters, none with a default, are params. *)
  Definition py_bind (params : list string) (npos : nat) (kws : list string) : res unit :=
    let named := firstn npos params in
    let free := skipn npos params in
    if (length params <? npos)%nat then Err TypeError
    else if forallb (fun k => existsb (String.eqb k) free) kws
            && forallb (fun k => existsb (String.eqb k) kws) free
    then Ok tt else Err TypeError.
  (* def asfarray(a), pwpoly.py:64-65 *)
  Definition asfarray_params : list string := ["a"%string].
  (* other operand not a PwPoly, here a number: the call
     asfarray(other, dtype=...)[..., newaxis] of pwpoly.py:740, for an asfarray with
     the given parameters *)
  Definition binary_num (params : list string) (p : pwpoly) (s : K) : res (pwpoly * K) :=
    let! _ := py_bind params 1 ["dtype"%string] in Ok (p, s).
  (* c combined with an array of shape (1,): every coefficient of every interval *)
  Definition cmap_num (f : K -> K) (c : carr) : carr :=
    CArr (cn c) (csh c) (ck c) (fun comp i => map f (ccol c comp i)).
  (* the rest of the methods, pwpoly.py:746, 753, 757, 763, 786 *)
  Definition num_body (f : K -> K) (p : pwpoly) : res pwpoly :=
    new (pcl p) (pxk0 p) (cmap_num f (pc p)).
  Definition padd_num_at (params : list string) (p : pwpoly) (s : K) : res pwpoly :=
    let! (this, o) := binary_num params p s in num_body (fun a => a + o) this.
  Definition psub_num_at (params : list string) (p : pwpoly) (s : K) : res pwpoly :=
    let! (this, o) := binary_num params p s in num_body (fun a => a - o) this.
  Definition prsub_num_at (params : list string) (p : pwpoly) (s : K) : res pwpoly :=
    let! (this, o) := binary_num params p s in num_body (fun a => o - a) this.
  Definition pmul_num_at (params : list string) (p : pwpoly) (s : K) : res pwpoly :=
    let! (this, o) := binary_num params p s in num_body (fun a => a * o) this.
  Definition pdiv_num_at (params : list string) (p : pwpoly) (s : K) : res pwpoly :=
    let! (this, o) := binary_num params p s in num_body (fun a => a / o) this.
  (* the same with the asfarray of the module *)
  Definition padd_num := padd_num_at asfarray_params.
  Definition psub_num := psub_num_at asfarray_params.
  Definition prsub_num := prsub_num_at asfarray_params.
  Definition pmul_num := pmul_num_at asfarray_params.
  Definition pdiv_num := pdiv_num_at asfarray_params.
  (* p / q, pwpoly.py:782-785 *)
  Definition pdiv (p q : pwpoly) : res pwpoly :=
    let! _ := binary p q false in Err TypeError.
  (* __rsub__ with another PwPoly, pwpoly.py:755-757 *)
  Definition prsub (p q : pwpoly) : res pwpoly :=
    let! (this, other) := binary p q false in
    let! c := cmap2 (cn (pc this)) (zipw (fun a b => b - a)) (pc this) other in
    new (pcl p) (pxk0 this) c.

  (* __neg__, pwpoly.py:700-701 *)
  Definition pneg (p : pwpoly) : res pwpoly :=
    let c := pc p in
    new (pcl p) (pxk0 p) (CArr (cn c) (csh c) (ck c) (fun comp i => map nopp (ccol c comp i))).
  (* __len__, pwpoly.py:688-692 *)
  Definition plen (p : pwpoly) : res nat :=
    match csh (pc p) with [] => Err TypeError | d :: _ => Ok d end.
  (* __getitem__ with an integer or a tuple of integers, pwpoly.py:694-698 *)
  Fixpoint norm_key (s : list nat) (key : list Z) : res (list nat) :=
    match key, s with
    | [], _ => Ok []
    | _ :: _, [] => Err IndexError
    | k :: key', d :: s' =>
      let! i := of_opt IndexError (py_index d k) in
      let! r := norm_key s' key' in Ok (i :: r)
    end.
  Definition pgetitem (p : pwpoly) (key : list Z) : res pwpoly :=
    let c := pc p in
    let! k := norm_key (csh c) key in
    new (pcl p) (pxk0 p)
        (CArr (cn c) (skipn (length key) (csh c)) (ck c) (fun comp i => ccol c (k ++ comp) i)).

  (* __getstate__ then __setstate__, pwpoly.py:669-675: period is not saved *)
  Definition getstate (p : pwpoly) : list K * carr := (pxk0 p, pc p).
  Definition setstate (cl : cls) (d : list K * carr) : pwpoly := PwP cl (fst d) (snd d) None.
  Definition pcopy (p : pwpoly) : pwpoly := setstate (pcl p) (getstate p).

  (* ---- reknot, pwpoly.py:548-591 ---- *)
  Definition reknot (inv : nat -> mat -> mat) (p : pwpoly) (xk : list K) (n : option nat)
    : res pwpoly :=
    let n := match n with Some m => m | None => (cn (pc p) - 1)%nat end in
    match xk with
    | [] => Err IndexError
    | x0 :: _ =>
      let xl := last xk n0 in
      let xk := if xl <? x0 then rev xk else xk in
      let L := nth (length xk - 1) xk n0 - nth 0 xk n0 in
      let! _ := match pcl p, pper p with
                | Pw, _ => Ok tt
                | Per, None => Err AttributeError
                | Per, Some T =>
                  if (tol6 * T) <? nabs (L - T) then Err ValueError else Ok tt
                end in
      let h := ((n - 1) / 2)%nat in
      let! _ := pw_ok p in
      let rows := map (fun k => YArr (csh (pc p)) (length xk)
                                     (fun comp i => nth k (pw_vals p comp (nth i xk n0) h) n0))
                      (seq 0 (S h)) in
      if Nat.odd n then ctor inv (pcl p) xk rows
      else
        let! d := deriv p n in
        let! _ := pw_ok d in
        let z := YArr (csh (pc d)) (length xk - 1) (fun comp i => pw_val d comp (mid xk i)) in
        ctor inv (pcl p) xk (rows ++ [z])
    end.
End PwPoly.
Arguments carr : clear implicits.
Arguments pwpoly : clear implicits.
Arguments yarr : clear implicits.
Arguments mat : clear implicits.
