(* Model of levmar and numerical_partials (npplus/lsqfit.py:159-394, 530-562).

   - The user function may depend on the number of calls made so far, so a stateful or
     random function is covered; it must not modify its argument.  The model runs in a
     state that records the parameter array of every call of f, in order.
   - numpy.linalg.solve and inv are parameters.
   - p0, pmin, pmax, prel, pabs are flat lists (the code ravels them, lsqfit.py:293-297).
   - Printing the iteration limit warning (lsqfit.py:375-376) has no effect here.
   - A matrix alpha that is not 2-d (possible only when data has a single point and f
     returns an array of rank 2 or more) is rejected.
   - Both loops are given fuel; [Ok None] means that the fuel ran out. *)
From Coq Require Import List Arith ZArith Bool.
From Verif Require Import Num PyBase NdArray PwPoly SolvePer LsqModel.
Import ListNotations.
Local Open Scope res_scope.

Section State.
  Context {K : Type}.
  (* the calls of f so far *)
  Definition trace := list (list K).
  Definition St (A : Type) := trace -> res A * trace.
  Definition sret {A} (a : A) : St A := fun tr => (Ok a, tr).
  Definition slift {A} (r : res A) : St A := fun tr => (r, tr).
  Definition sbind {A B} (m : St A) (k : A -> St B) : St B :=
    fun tr => match m tr with (Ok a, tr') => k a tr' | (Err e, tr') => (Err e, tr') end.
End State.
Arguments St K A : clear implicits.
Arguments trace K : clear implicits.
Declare Scope st_scope.
Delimit Scope st_scope with st.
Notation "'do' x := e 'in' f" := (sbind e (fun x => f))
  (at level 61, x pattern, e at next level, right associativity) : st_scope.

Section Levmar.
  Context {K : Type} {NK : Num K}.
  Local Open Scope num_scope.
  Local Open Scope st_scope.

  (* a plain function, or a generator function with its two yields *)
  Inductive lfun :=
  | LPlain (f : nat -> list K -> res (nd K))
  | LGen (f : nat -> list K -> res (nd K) * res (nd K)).
  Variable f : lfun.
  Definition lisgenf : bool := match f with LPlain _ => false | LGen _ => true end.
  Definition call_plain (g : nat -> list K -> res (nd K)) (p : list K) : St K (nd K) :=
    fun tr => (g (length tr) p, tr ++ [p]).
  Definition call_gen (g : nat -> list K -> res (nd K) * res (nd K)) (p : list K) : St K (res (nd K) * res (nd K)) :=
    fun tr => (Ok (g (length tr) p), tr ++ [p]).

  (* p[mask] and pfull[mask] = p *)
  Fixpoint sel {A} (mask : list bool) (l : list A) : list A :=
    match mask, l with
    | m :: mask', x :: l' => if m then x :: sel mask' l' else sel mask' l'
    | _, _ => []
    end.
  Fixpoint put (mask : list bool) (full p : list K) : list K :=
    match mask, full with
    | true :: mask', _ :: full' =>
      match p with x :: p' => x :: put mask' full' p' | [] => full end
    | false :: mask', y :: full' => y :: put mask' full' p
    | _, _ => full
    end.

  (* nd helpers: dot and inner for arrays of any rank >= 1 *)
  Definition dot_nn (a b : nd K) : res (nd K) :=
    let ax := (ndim b - 2)%nat in
    let ra := (ndim a - 1)%nat in
    if ((1 <=? ndim a) && (1 <=? ndim b) && (last (shp a) 0 =? nth ax (shp b) 0))%nat then
      Ok (Nd (removelast (shp a) ++ remove_at ax (shp b))
             (fun idx => ksum (last (shp a) 0%nat)
                (fun q => get a (firstn ra idx ++ [q]) * get b (insert_at ax q (skipn ra idx)))))
    else Err ValueError.
  Definition inner_nn (a b : nd K) : res (nd K) :=
    let ra := (ndim a - 1)%nat in
    if ((1 <=? ndim a) && (1 <=? ndim b) && (last (shp a) 0 =? last (shp b) 0))%nat then
      Ok (Nd (removelast (shp a) ++ removelast (shp b))
             (fun idx => ksum (last (shp a) 0%nat)
                (fun q => get a (firstn ra idx ++ [q]) * get b (skipn ra idx ++ [q]))))
    else Err ValueError.
  (* Simplified: partial derivatives of a rank other than 2 give an alpha that is no matrix,
     rejected here with ValueError as by fill_diagonal, lsqfit.py:351; when chi2 is 0 the code
     gets as far as inv(alpha), lsqfit.py:383, which raises LinAlgError *)
  Definition to_arr2 (a : nd K) : res (arr2 K) :=
    match shp a with
    | [r; c] => Ok (Arr2 r c (fun i j => get a [i; j]))
    | _ => Err ValueError
    end.
  Definition to_list1 (a : nd K) : res (list K) :=
    match shp a with
    | [n] => Ok (map (fun i => get a [i]) (seq 0 n))
    | _ => Err ValueError
    end.

  (* ---- numerical_partials, lsqfit.py:530-557, for given f0 and pmask ---- *)
  Section Partials.
    Variable g : nat -> list K -> res (nd K).
    Variables (pmin pmax : option (list K)) (prel pabs : list K) (pmask : list bool).
    (* lsqfit.py:536-541: step sizes of the free parameters *)
    Definition np_steps (p : list K) : list K :=
      sel pmask (zipw (fun rx a => nmax (fst rx * nabs (snd rx)) a) (combine prel p) pabs).
    (* lsqfit.py:544-550: downwards where the upper bound would be exceeded.  pmin and
       pmax are those of the free parameters. *)
    Definition np_flip (fp dp : list K) : res (list K) :=
      match pmax with
      | None => Ok dp
      | Some hi =>
        let mask := zipw (fun xd h => h <? fst xd + snd xd) (combine fp dp) hi in
        let dp' := zipw (fun (m : bool) d => if m then d * - n1 else d) mask dp in
        if existsb (fun m => m) mask then
          match pmin with
          | Some lo =>
            if existsb (fun b => b) (zipw (fun xd l => fst xd + snd xd <? l) (combine fp dp') lo)
            then Err ValueError else Ok dp'
          | None => Ok dp'
          end
        else Ok dp'
      end.
    (* lsqfit.py:551-556: one call per free parameter, only that parameter displaced *)
    Fixpoint np_loop (pfull fp : list K) (f0 : nd K) (i : nat) (dps : list K) : St K (list (nd K)) :=
      match dps with
      | [] => sret []
      | d :: rest =>
        if d =? n0 then slift (Err ValueError) else
        do v := call_plain g (put pmask pfull (upd i (nth i fp n0 + d) fp)) in
        do df := slift (nd_map2 nsub v f0) in
        do more := np_loop pfull fp f0 (S i) rest in
        sret (nd_map (fun x => x / d) df :: more)
      end.
    (* array(dfdp): all rows must have one shape *)
    Definition np_stack (rows : list (nd K)) : res (nd K) :=
      match rows with
      | [] => Ok (Nd [0%nat] (fun _ => n0))
      | r :: _ =>
        if forallb (fun q => if list_eq_dec Nat.eq_dec (shp q) (shp r) then true else false) rows then
          Ok (Nd (length rows :: shp r) (fun idx => get (nth (hd 0%nat idx) rows r) (tl idx)))
        else Err ValueError
      end.
    Definition numerical_partials (pfull : list K) (f0 : nd K) : St K (nd K) :=
      let fp := sel pmask pfull in
      do dp := slift (np_flip fp (np_steps pfull)) in
      do rows := np_loop pfull fp f0 0 dp in
      slift (np_stack rows).
  End Partials.

  (* the configuration, lsqfit.py:393-394 *)
  Record lmcfg := LmCfg { c_itmax : Z; c_tol : K; c_lambda0 : K; c_lambdax : K; c_gain : K; c_prel : K; c_pabs : K }.
  Definition lm_default : lmcfg :=
    let e k := n1 / nofZ (10 ^ k)%Z in
    LmCfg 100 (e 7%Z) (e 3%Z) (nofZ (10 ^ 12)%Z) (nofZ 10%Z) (e 6%Z) (e 9%Z).

  Variable solve : arr2 K -> list K -> res (list K).
  Variable inv : arr2 K -> res (arr2 K).

  Section Problem.
    (* data and weights are 1-d (raveled); pmin, pmax of the free parameters; prel, pabs
       of all parameters *)
    Variables (data wgt : nd K) (p0 : list K) (pmask : list bool)
              (pmin pmax : option (list K)) (prel pabs : list K) (cfg : lmcfg).

    (* a[pmask] along the first axis *)
    Definition sel_rows (a : nd K) : res (nd K) :=
      match shp a with
      | n :: r => if (n =? length pmask)%nat then
                    let ks := sel pmask (seq 0 n) in
                    Ok (Nd (length ks :: r) (fun idx => get a (nth (hd 0%nat idx) ks 0%nat :: tl idx)))
                  else Err IndexError
      | [] => Err IndexError
      end.
    (* both values of g(p), lsqfit.py:312-324 *)
    Definition g_both (p : list K) : St K (nd K * nd K) :=
      let pfull := put pmask p0 p in
      match f with
      | LPlain h =>
        do f0 := call_plain h pfull in
        do d := numerical_partials h pmin pmax prel pabs pmask pfull f0 in
        sret (f0, d)
      | LGen h =>
        do y := call_gen h pfull in
        do f0 := slift (fst y) in
        do d := slift (snd y) in
        do d' := slift (sel_rows d) in
        sret (f0, d')
      end.
    (* next(g(p)) *)
    Definition g_next (p : list K) : St K (nd K) :=
      let pfull := put pmask p0 p in
      match f with
      | LPlain h => call_plain h pfull
      | LGen h => do y := call_gen h pfull in slift (fst y)
      end.

    (* lsqfit.py:353-356 *)
    Definition clip (p : list K) : list K :=
      let p := match pmin with Some lo => zipw nmax p lo | None => p end in
      match pmax with Some hi => zipw nmin p hi | None => p end.
    Fixpoint list_eqb (a b : list K) : bool :=
      match a, b with
      | x :: a', y :: b' => (x =? y) && list_eqb a' b'
      | [], [] => true
      | _, _ => false
      end.
    (* (wgt * dm*dm).sum() *)
    Definition chisq (v : nd K) : res K :=
      let! dm := nd_map2 nsub data v in
      let! b := nd_map2 nmul wgt dm in
      let! c := nd_map2 nmul b dm in
      Ok (asum c).
    (* alpha*amult, lsqfit.py:351-352 *)
    Definition damped (alpha : arr2 K) (lam : K) : arr2 K :=
      Arr2 (nr alpha) (SolvePer.nc alpha)
           (fun i j => at2 alpha i j * (if (i =? j)%nat then n1 + lam else n1)).
    Definition c1000001 : K := nofZ 1000001%Z / nofZ 1000000%Z.

    (* the inner loop, lsqfit.py:350-366: p, chi2, lamda and neval on leaving it *)
    Fixpoint lm_inner (fuel : nat) (p1 : list K) (chi2p : K) (alpha : arr2 K) (beta : list K) (lam : K) (neval : nat)
      : St K (option (list K * K * K * nat)) :=
      match fuel with
      | O => sret None
      | S fuel' =>
        do step := slift (solve (damped alpha lam) beta) in
        let p := clip (zipw nadd p1 step) in
        do v := g_next p in
        do chi2 := slift (chisq v) in
        if (chi2 <? c1000001 * chi2p) || list_eqb p p1 then sret (Some (p, chi2, lam, S neval))
        else
          let lam' := lam * c_gain cfg in
          if c_lambdax cfg <? lam' then slift (Err LevmarError)
          else lm_inner fuel' p1 chi2p alpha beta lam' (S neval)
      end.

    (* what the outer loop hands to lsqfit.py:379-388 *)
    Record lmout := LmOut { o_p : list K; o_chi2 : K; o_chi20 : K; o_alpha : arr2 K; o_niter : Z; o_neval : nat; o_lam : K }.
    (* the outer loop, lsqfit.py:332-377; chi = None before the first evaluation *)
    Fixpoint lm_outer (fuel fi : nat) (p : list K) (chi : option (K * K)) (lam : K) (niter : Z) (neval : nat)
      : St K (option lmout) :=
      match fuel with
      | O => sret None
      | S fuel' =>
        do fd := g_both p in
        let neval := S neval in
        do dm := slift (nd_map2 nsub data (fst fd)) in
        do wd := slift (nd_map2 nmul wgt dm) in
        do cc := match chi with
                 | None => do c := slift (nd_map2 nmul wd dm) in sret (asum c, asum c)
                 | Some c => sret c
                 end in
        let chi2 := fst cc in let chi20 := snd cc in
        do beta := slift (dot_nn (snd fd) wd) in
        do wdd := slift (nd_map2 nmul wgt (snd fd)) in
        do alpha := slift (inner_nn wdd (snd fd)) in
        do al := slift (to_arr2 alpha) in
        if chi2 =? n0 then sret (Some (LmOut p chi2 chi20 al niter neval lam)) else
        do be := slift (to_list1 beta) in
        do r := lm_inner fi p chi2 al be lam neval in
        match r with
        | None => sret None
        | Some (p', chi2', lam', neval') =>
          let conv := (chi2 - chi2') / (chi2 + chi2') in
          if conv + conv <=? c_tol cfg then sret (Some (LmOut p' chi2' chi20 al niter neval' lam'))
          else
            let lam'' := lam' / c_gain cfg in
            let niter := (niter + 1)%Z in
            if (c_itmax cfg <=? niter)%Z then sret (Some (LmOut p' chi2' chi20 al niter neval' lam''))
            else lm_outer fuel' fi p' (Some (chi2', chi20)) lam'' niter neval'
        end
      end.
  End Problem.

  (* the returned model with the information about the fit, lsqfit.py:379-388 *)
  Record lmfit := LmFit { l_p : list K; l_pcov : arr2 K; l_chi2 : K; l_ndof : Z; l_isgenf : bool;
                          l_chi20 : K; l_niter : Z; l_neval : nat; l_lam : K; l_p0 : list K }.
  (* position of parameter i among the free ones *)
  Definition rank_of (mask : list bool) (i : nat) : nat := length (filter (fun b => b) (firstn i mask)).
  (* lsqfit.py:382-385: the covariances of the free parameters, zero elsewhere *)
  Definition spread (mask : list bool) (c : arr2 K) : res (arr2 K) :=
    let nf := length (filter (fun b => b) mask) in
    if ((nr c =? nf) && (SolvePer.nc c =? nf))%nat then
      Ok (Arr2 (length mask) (length mask)
            (fun i j => if nth i mask false && nth j mask false then at2 c (rank_of mask i) (rank_of mask j) else n0))
    else Err ValueError.

  (* pmask, lsqfit.py:300-302; an empty pfix is an array of floats, not a valid index *)
  Fixpoint clear_idx (n : nat) (idx : list Z) (mask : list bool) : res (list bool) :=
    match idx with
    | [] => Ok mask
    | i :: r => match py_index n i with
                | Some k => clear_idx n r (upd k false mask)
                | None => Err IndexError
                end
    end.
  Definition mask_of (n : nat) (pfix : option (list Z)) : res (list bool) :=
    match pfix with
    | None => Ok (repeat true n)
    | Some [] => Err IndexError
    | Some idx => clear_idx n idx (repeat true n)
    end.
  (* z+p for a scalar (a list of one number) or a list, lsqfit.py:293-297; with a single
     parameter and a longer list z+p succeeds and the boolean index fails later.  Simplified: for
     prel and pabs that is after the first call of f, and never if f is a generator function *)
  Definition bc_list (n : nat) (l : list K) : res (list K) :=
    if (length l =? n)%nat then Ok l
    else match l with [x] => Ok (repeat x n) | _ => Err (if (n =? 1)%nat then IndexError else ValueError) end.
  Definition bc_opt (n : nat) (o : option (list K)) : res (option (list K)) :=
    match o with None => Ok None | Some l => let! l' := bc_list n l in Ok (Some l') end.

  (* the keywords of levmar *)
  Record lmkw := LmKw { k_errs : option (nd K); k_pfix : option (list Z);
                        k_pmin : option (list K); k_pmax : option (list K);
                        k_prel : option (list K); k_pabs : option (list K) }.

  (* levmar, lsqfit.py:277-388, for a configuration [cfg] (see LmConfig below for how it
     is obtained); fo and fi are the fuel of the two loops *)
  Definition levmar_run (fo fi : nat) (cfg : lmcfg) (data : nd K) (p0 : list K) (kw : lmkw) : St K (option lmfit) :=
    let n := length p0 in
    (* errs + zeros_like(data), raveled; wgt = 1/(errs*errs) *)
    do errs := slift (match k_errs kw with
                      | None => Ok (full (shp data) n1)
                      | Some e => nd_map2 (fun a b => a + b) e (full (shp data) n0)
                      end) in
    let d1 := nravel data in
    let wgt := nd_map (fun e => n1 / (e * e)) (nravel errs) in
    do pmin := slift (bc_opt n (k_pmin kw)) in
    do pmax := slift (bc_opt n (k_pmax kw)) in
    do prel := slift (bc_list n (match k_prel kw with Some l => l | None => [c_prel cfg] end)) in
    do pabs := slift (bc_list n (match k_pabs kw with Some l => l | None => [c_pabs cfg] end)) in
    do mask := slift (mask_of n (k_pfix kw)) in
    let nfree := length (filter (fun b => b) mask) in
    let ndof := (Z.of_nat (size (shp data)) - Z.of_nat nfree)%Z in
    (* lsqfit.py:309-310 builds a ValueError when ndof <= 0 but does not raise it *)
    let p := sel mask p0 in
    do o := lm_outer d1 wgt p0 mask (option_map (sel mask) pmin) (option_map (sel mask) pmax) prel pabs cfg
                     fo fi p None (c_lambda0 cfg) 0%Z 0%nat in
    match o with
    | None => sret None
    | Some o =>
      do ai := slift (inv (o_alpha o)) in
      do pcov := slift (spread mask ai) in
      sret (Some (LmFit (put mask p0 (o_p o)) pcov (o_chi2 o / nofZ ndof) ndof lisgenf (o_chi20 o / nofZ ndof)
                        (o_niter o) (o_neval o) (o_lam o) p0))
    end.
End Levmar.
