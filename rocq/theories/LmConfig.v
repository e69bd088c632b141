(* Where levmar takes its options from (npplus/lsqfit.py:277-297, 326-327, 386-394): dict
   objects live in a heap, levmar.config is one of them, and every call works on a fresh
   copy of it.

   Simplification: a missing option is reported before errors in the other arguments; it
   is a KeyError in any case.  Options other than numbers (prel and pabs may be arrays)
   raise TypeError here. *)
From Coq Require Import String List Arith ZArith Bool.
From Verif Require Import Num PyBase NdArray PwPoly SolvePer LsqModel Levmar ItemAttr.
Import ListNotations.
Local Open Scope res_scope.
Local Open Scope string_scope.

Section Config.
  Context {K : Type} {NK : Num K}.
  (* values of options and of the info dict *)
  Inductive cval := CInt (z : Z) | CNum (x : K) | CArr (l : list K) | CStr (s : string).
  Definition cdict := dict cval.
  (* the dict objects; a reference is a position *)
  Definition cheap := list cdict.

  (* d.update(e) *)
  Definition dupdate (d e : cdict) : cdict := fold_left (fun d kv => dset d (fst kv) (snd kv)) e d.
  Definition hupd (h : cheap) (i : nat) (d : cdict) : cheap := upd i d h.
  (* levmar.config, lsqfit.py:393-394 *)
  Definition config_default : cdict :=
    [("itmax", CInt 100); ("tol", CNum (c_tol lm_default)); ("lambda0", CNum (c_lambda0 lm_default));
     ("lambdax", CNum (c_lambdax lm_default)); ("gain", CNum (c_gain lm_default));
     ("prel", CNum (c_prel lm_default)); ("pabs", CNum (c_pabs lm_default))].

  (* reading options; niter >= itmax with a float itmax is niter >= ceil(itmax) *)
  Definition cnum (v : cval) : res K :=
    match v with CInt z => Ok (nofZ z) | CNum x => Ok x | _ => Err TypeError end.
  Definition cint (v : cval) : res Z :=
    match v with CInt z => Ok z | CNum x => Ok (- nfloor (nopp x))%Z | _ => Err TypeError end.
  Definition clist (v : cval) : res (list K) :=
    match v with CArr l => Ok l | _ => let! x := cnum v in Ok [x] end.
  (* lsqfit.py:288-292: the keyword, or the option for a plain function *)
  Definition step_opt (isgen : bool) (kwv : option (list K)) (d : cdict) (key : string) : res (option (list K)) :=
    if isgen then Ok kwv else
    match kwv with
    | Some l => Ok (Some l)
    | None => let! v := dget d key in let! l := clist v in Ok (Some l)
    end.
  (* what the numerical part gets; c_prel and c_pabs are not used any more *)
  Definition lm_options (isgen : bool) (d : cdict) (kw : @lmkw K) : res (@lmcfg K * @lmkw K) :=
    let! prel := step_opt isgen (k_prel kw) d "prel" in
    let! pabs := step_opt isgen (k_pabs kw) d "pabs" in
    let! itmax := bind (dget d "itmax") cint in
    let! tol := bind (dget d "tol") cnum in
    let! lam0 := bind (dget d "lambda0") cnum in
    let! lamx := bind (dget d "lambdax") cnum in
    let! gain := bind (dget d "gain") cnum in
    Ok (LmCfg itmax tol lam0 lamx gain n1 n1,
        LmKw (k_errs kw) (k_pfix kw) (k_pmin kw) (k_pmax kw) prel pabs).

  Variable solve : arr2 K -> list K -> res (list K).
  Variable inv : arr2 K -> res (arr2 K).
  (* the entries added to the copy, lsqfit.py:386-387 *)
  Definition lm_info (m : lmfit) : cdict :=
    [("src", CStr "levmar"); ("niter", CInt (l_niter m)); ("neval", CInt (Z.of_nat (l_neval m)));
     ("p0", CArr (l_p0 m)); ("chi20", CNum (l_chi20 m)); ("lamda", CNum (l_lam m))].

  (* levmar(data, f, p0, ..., cfg=user) with levmar.config the object [config]; the info
     attribute of the result is the new object *)
  Record lmcall := LmCall { a_f : @lfun K; a_data : nd K; a_p0 : list K; a_kw : @lmkw K; a_cfg : option nat }.
  Definition levmar_heap (fo fi : nat) (config : nat) (a : lmcall) (h : cheap) (tr : trace K)
    : res (option (lmfit * nat)) * cheap * trace K :=
    let loc := List.length h in
    match nth_error h config, match a_cfg a with None => Some [] | Some u => nth_error h u end with
    | Some c0, Some ud =>
      let h1 := (h ++ [c0])%list in                             (* cfg = levmar.config.copy() *)
      let h2 := match a_cfg a with None => h1 | Some _ => hupd h1 loc (dupdate c0 ud) end in   (* cfg.update(user) *)
      let d := nth loc h2 [] in
      match lm_options (lisgenf (a_f a)) d (a_kw a) with
      | Err e => (Err e, h2, tr)
      | Ok (cfg, kw) =>
        match levmar_run (a_f a) solve inv fo fi cfg (a_data a) (a_p0 a) kw tr with
        | (Err e, tr') => (Err e, h2, tr')
        | (Ok None, tr') => (Ok None, h2, tr')
        | (Ok (Some m), tr') => (Ok (Some (m, loc)), hupd h2 loc (dupdate d (lm_info m)), tr')
        end
      end
    | _, _ => (Err TypeError, h, tr)                              (* no such object *)
    end.
  (* a sequence of calls *)
  Fixpoint levmar_calls (fo fi config : nat) (l : list lmcall) (h : cheap) (tr : trace K)
    : list (res (option (lmfit * nat))) * cheap * trace K :=
    match l with
    | [] => ([], h, tr)
    | a :: r =>
      let '(y, h1, tr1) := levmar_heap fo fi config a h tr in
      let '(ys, h2, tr2) := levmar_calls fo fi config r h1 tr1 in
      (y :: ys, h2, tr2)
    end.
End Config.
