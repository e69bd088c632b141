(* Model of the ModelFit class (npplus/lsqfit.py:397-527) and of regress
   (npplus/lsqfit.py:44-156).

   scipy.linalg.svd is a parameter.  User functions are total functions into
   [res] (an exception raised by the user function is a value).  Data are real
   (complex models are not modelled); division by zero follows the number type
   (Num.v), the theorems assume non-zero errs. *)
From Coq Require Import List Arith ZArith Bool.
From Verif Require Import Num PyBase NdArray PwPoly SolvePer.
Import ListNotations.
Local Open Scope res_scope.

Section ModelFit.
  Context {K : Type} {NK : Num K}.
  (* P: parameter arrays, A: the remaining arguments, V: function values *)
  Context {P A V : Type}.
  Local Open Scope num_scope.

  (* a python function, or a generator function given by the list of the values
     it yields (a generator may stop early or raise after some yields: only the
     yields asked for are computed, so each is a [res]) *)
  Inductive ufun :=
  | Plain (f : P -> A -> res V)
  | Gen (f : P -> A -> list (res V)).
  (* inspect.isgeneratorfunction *)
  Definition isgenf (f : ufun) : bool := match f with Plain _ => false | Gen _ => true end.
  (* next() on a fresh generator; StopIteration surfaces as an error.  next() of
     something that is not an iterator is a TypeError. *)
  Definition unext (f : ufun) (p : P) (a : A) : res V :=
    match f with
    | Gen g => match g p a with y :: _ => y | [] => Err ValueError end
    | Plain g => let! _ := g p a in Err TypeError
    end.
  (* calling f(p, *args) and using the result as an array *)
  Definition ucall (f : ufun) (p : P) (a : A) : res V :=
    match f with
    | Plain g => g p a
    | Gen _ => Err TypeError
    end.

  (* attributes of a ModelFit instance; u and s are the extra keywords of regress *)
  Record modelfit := ModelFit {
    mf_f : ufun; mf_p : P; mf_pcov : option (arr2 K); mf_chi2 : option K;
    mf_ndof : option Z; mf_isgenf : bool; mf_u : option (arr2 K); mf_s : option (list K) }.
  (* __init__, lsqfit.py:433-452: isgenf=None asks isgeneratorfunction(f) *)
  Definition mf_init (f : ufun) (p : P) (pcov : option (arr2 K)) (chi2 : option K) (ndof : option Z)
             (isg : option bool) (u : option (arr2 K)) (s : option (list K)) : modelfit :=
    ModelFit f p pcov chi2 ndof (match isg with None => isgenf f | Some b => b end) u s.
  (* __call__, lsqfit.py:439-445 and 454-470 *)
  Definition mf_call (m : modelfit) (a : A) : res V :=
    if mf_isgenf m then unext (mf_f m) (mf_p m) a else ucall (mf_f m) (mf_p m) a.
  (* diag(a) of a 2-d array *)
  Definition diag2 (a : arr2 K) : list K := map (fun i => at2 a i i) (seq 0 (Nat.min (nr a) (SolvePer.nc a))).
  Definition nd2_map (f : K -> K) (a : arr2 K) : arr2 K := Arr2 (nr a) (SolvePer.nc a) (fun i j => f (at2 a i j)).
  (* perr, chi2pcov, chiperr: lsqfit.py:472-498; a product with None raises TypeError, diag(None) ValueError (diag sees
     a 0-d array of objects) *)
  Variable nsqrt : K -> K.
  Definition mf_perr (m : modelfit) : res (list K) :=
    let! c := of_opt ValueError (mf_pcov m) in Ok (map nsqrt (diag2 c)).
  Definition mf_chi2pcov (m : modelfit) : res (arr2 K) :=
    let! x := of_opt TypeError (mf_chi2 m) in
    let! c := of_opt TypeError (mf_pcov m) in
    Ok (nd2_map (fun y => x * y) c).
  Definition mf_chiperr (m : modelfit) : res (list K) :=
    let! c := mf_chi2pcov m in Ok (map nsqrt (diag2 c)).
  (* chi2prob, lsqfit.py:500-527; scipy.special.gammaincc is a parameter *)
  Variable gammaincc : K -> K -> K.
  Definition mf_chi2prob (m : modelfit) (chi2 : option K) : res K :=
    let! x := of_opt TypeError (match chi2 with None => mf_chi2 m | Some _ => chi2 end) in
    let! n := of_opt TypeError (mf_ndof m) in
    let h := nofZ n / (n1 + n1) in
    Ok (gammaincc h (h * x)).
End ModelFit.
Arguments ufun P A V : clear implicits.
Arguments modelfit K P A V : clear implicits.

Section Regress.
  Context {K : Type} {NK : Num K}.
  Local Open Scope num_scope.
  (* u, s, v = svd(m, full_matrices=False) *)
  Variable svd : arr2 K -> res (arr2 K * list K * arr2 K).

  (* a.dot(b) for 2-d a and b of rank >= 1: the last axis of a against the second
     to last axis of b (its only axis when b is 1-d) *)
  Definition dot_mn (a : arr2 K) (b : nd K) : res (nd K) :=
    let ax := (ndim b - 2)%nat in
    if ((1 <=? ndim b) && (nth ax (shp b) 0 =? SolvePer.nc a))%nat then
      Ok (Nd (nr a :: remove_at ax (shp b))
             (fun idx => ksum (SolvePer.nc a)
                (fun q => at2 a (hd 0%nat idx) q * get b (insert_at ax q (tl idx)))))
    else Err ValueError.
  (* a.dot(b) for a of rank >= 1 and 2-d b *)
  Definition dot_nm (a : nd K) (b : arr2 K) : res (nd K) :=
    if ((1 <=? ndim a) && (last (shp a) 0 =? nr b))%nat then
      Ok (Nd (removelast (shp a) ++ [SolvePer.nc b])
             (fun idx => ksum (nr b)
                (fun q => get a (removelast idx ++ [q]) * at2 b q (last idx 0%nat))))
    else Err ValueError.
  (* a.sum() *)
  Definition asum (a : nd K) : K := ksum (size (shp a)) (fun t => get a (unravel (shp a) t)).
  (* a.ravel() *)
  Definition nravel (a : nd K) : nd K := Nd [size (shp a)] (fun idx => get a (unravel (shp a) (hd 0%nat idx))).

  (* lsqfit.py:118-124: the model matrix, one raveled row per model component.
     (0-d data with a component of shape (1,), accepted by numpy, is rejected here.) *)
  Definition rg_matrix (data : nd K) (mdl : list (nd K)) : res (arr2 K) :=
    if forallb (fun mi => bto (shp mi) (shp data)) mdl then
      Ok (Arr2 (length mdl) (size (shp data))
               (fun i t => n0 + bget (nth i mdl (scalar n0)) (unravel (shp data) t)))
    else Err ValueError.
  (* lsqfit.py:126-127: rcond clipped to [1e-13, 0.5] *)
  Definition rg_rcond (rcond : option K) : K :=
    let ten9 := nofZ 1000000000%Z in
    let r := match rcond with None => n1 / ten9 | Some r => r end in
    nmin (nmax r (n1 / nofZ 10000000000000%Z)) (n1 / nofZ 2%Z).

  Record rgcore := RgCore {
    rg_rstdev : nd K; rg_b : nd K; rg_m : arr2 K;
    rg_u : arr2 K; rg_s : list K; rg_mask : list bool; rg_pc : arr2 K; rg_p : nd K }.
  (* lsqfit.py:118-139 *)
  Definition rg_core (data : nd K) (mdl : list (nd K)) (errs : option (nd K)) (rcond : option K) : res rgcore :=
    let! m0 := rg_matrix data mdl in
    let rstdev := nd_map (fun e => n1 / e) (match errs with None => scalar n1 | Some e => e end) in
    let rc := rg_rcond rcond in
    let! b := nd_map2 nmul (nravel data) rstdev in
    if bto (shp rstdev) [nr m0; SolvePer.nc m0] then
      let m := Arr2 (nr m0) (SolvePer.nc m0) (fun i t => at2 m0 i t * bget rstdev [i; t]) in
      let! usv := svd m in
      let u := fst (fst usv) in let s := snd (fst usv) in let v := snd usv in
      let! v1 := dot_mn v b in
      let! s0 := of_opt IndexError (hd_error s) in
      let mask := map (fun x => rc * s0 <? x) s in
      let rs k := if nth k mask false then n1 / nth k s n0 else n0 in
      let pc := Arr2 (nr u) (SolvePer.nc u) (fun i k => at2 u i k * rs k) in
      let! p := dot_mn pc v1 in
      Ok (RgCore rstdev b m u s mask pc p)
    else Err ValueError.
  (* lsqfit.py:140-141: without model=1 the coefficients are returned *)
  Definition regress (data : nd K) (mdl : list (nd K)) (errs : option (nd K)) (rcond : option K) : res (nd K) :=
    let! c := rg_core data mdl errs rcond in Ok (rg_p c).
  (* lsqfit.py:143-156 *)
  Definition regress_model (data : nd K) (mdl : list (nd K)) (errs : option (nd K)) (rcond : option K)
    : res (modelfit K (nd K) unit (nd K)) :=
    let! c := rg_core data mdl errs rcond in
    let s := map (fun ms => if (fst ms : bool) then snd ms else n0) (combine (rg_mask c) (rg_s c)) in
    let ndof := (Z.of_nat (size (shp (rg_b c))) - Z.of_nat (length (filter (fun x => x) (rg_mask c))))%Z in
    let! fit := dot_nm (rg_p c) (rg_m c) in
    let! d := nd_map2 nsub fit (rg_b c) in
    let chi2 := asum (nd_map (fun x => x * x) d) / nmax (nofZ ndof) n1 in
    if bto (shp (rg_rstdev c)) (shp fit) then
      let fit' := Nd (shp fit) (fun idx => get fit idx / bget (rg_rstdev c) idx) in
      let pcov := Arr2 (nr (rg_pc c)) (nr (rg_pc c))
                       (fun i j => ksum (SolvePer.nc (rg_pc c)) (fun k => at2 (rg_pc c) i k * at2 (rg_pc c) j k)) in
      Ok (mf_init (Plain (fun (_ : nd K) (_ : unit) => Ok fit')) (rg_p c) (Some pcov) (Some chi2) (Some ndof) None
                  (Some (rg_u c)) (Some s))
    else Err ValueError.
End Regress.
