(* Model of npplus/pcwise.py.

   A piece function is called by the decorator with a 0-d array (scalar x) or
   with the 1-d array of the selected points; the two calls are two fields.
   NaN is treated in PropsFloatPcwise.v.  The result array is float (zeros(s)); casts of other
   dtypes are not modelled. *)
From Coq Require Import String List Arith Bool.
From Verif Require Import Num PyBase NdArray PwPoly.
Import ListNotations.
Local Open Scope res_scope.

Section PcWise.
  Context {K : Type} {NK : Num K}.
  Record pcfun := PcFun { fsc : K -> res K; fvec : list K -> res (list K) }.
  (* what the decorated function may put into its tuple *)
  Inductive item := IFun (f : pcfun) | IStr (s : string) | INum (x : K).
  (* pcwise.py:62-68 and 88-93: strings become raising functions; a number in a
     function position survives decoration and is not callable *)
  Definition piece_of (it : item) : pcfun :=
    match it with
    | IFun f => f
    | IStr s => PcFun (fun _ => Err (ValueErrorMsg s)) (fun _ => Err (ValueErrorMsg s))
    | INum _ => PcFun (fun _ => Err TypeError) (fun _ => Err TypeError)
    end.
  (* t[0::2] and t[1::2] *)
  Fixpoint evens {A} (l : list A) : list A :=
    match l with
    | a :: r => a :: match r with _ :: r' => evens r' | [] => [] end
    | [] => []
    end.
  Definition odds {A} (l : list A) : list A := evens (tl l).
  (* a function or string among the breakpoints: given as TypeError (numpy raises
     it from diff; with a single such breakpoint only at the first call) *)
  Definition as_num (it : item) : res K := match it with INum x => Ok x | _ => Err TypeError end.
  Definition bad_diff (xv : list K) : bool :=
    existsb (fun d => nleb d n0) (zipw nsub (tl xv) xv).
  (* pcwise, pcwise.py:53-69 *)
  Definition decorate (t : list item) : res (list pcfun * list K) :=
    let funcs := evens t in
    let! xvals := mapM as_num (odds t) in
    if negb (length funcs =? length xvals + 1) then Err TypeError else
    if (1 <? length xvals) && bad_diff xvals then Err TypeError else
    Ok (map piece_of funcs, xvals).

  (* x[mask] and result[mask] = vals for mask = (ialg == i), flattened *)
  Fixpoint sel (ialg : list nat) (i : nat) (xs : list K) : list K :=
    match ialg, xs with
    | j :: ia, x :: r => if j =? i then x :: sel ia i r else sel ia i r
    | _, _ => []
    end.
  Fixpoint put (ialg : list nat) (i : nat) (vals rs : list K) : list K :=
    match ialg, rs with
    | j :: ia, x :: r =>
      if j =? i then hd n0 vals :: put ia i (tl vals) r else x :: put ia i vals r
    | _, _ => rs
    end.
  Definition set_mask (ialg : list nat) (i : nat) (vals rs : list K) : res (list K) :=
    let n := length (filter (fun j => j =? i) ialg) in
    if length vals =? n then Ok (put ialg i vals rs)
    else if length vals =? 1 then Ok (put ialg i (repeat (hd n0 vals) n) rs)
    else Err ValueError.
  (* the loop, pcwise.py:79-82 *)
  Fixpoint mloop (ialg : list nat) (xs : list K) (i : nat) (fs : list pcfun) (rs : list K) : res (list K) :=
    match fs with
    | [] => Ok rs
    | f :: fs' =>
      match sel ialg i xs with
      | [] => mloop ialg xs (S i) fs' rs
      | xm => let! v := fvec f xm in
              let! rs := set_mask ialg i v rs in
              mloop ialg xs (S i) fs' rs
      end
    end.
  Definition flat (x : nd K) : list K := map (fun k => get x (unravel (shp x) k)) (seq 0 (size (shp x))).
  (* multif, pcwise.py:72-83; the scalar result is given as a 0-d array *)
  Definition multif (funcs : list pcfun) (xvals : list K) (x : nd K) : res (nd K) :=
    match shp x with
    | [] =>
      match nth_error funcs (ssearch xvals (get x [])) with
      | None => Err IndexError
      | Some f => rmap scalar (fsc f (get x []))
      end
    | s =>
      let xs := flat x in
      let ialg := map (ssearch xvals) xs in
      let! rs := mloop ialg xs 0 funcs (repeat n0 (size s)) in
      Ok (Nd s (fun idx => nth (ravel s idx) rs n0))
    end.
End PcWise.
Arguments pcfun : clear implicits.
Arguments item : clear implicits.
