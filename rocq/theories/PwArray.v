(* Calls with arrays: polyfun, polyddx and __call__ of PwPoly and PerPwPoly as numpy runs them, operation by
   operation on whole arrays with broadcasting (npplus/pwpoly.py:299-321, 799-802, 1460-1547).

   Simplifications: in-place operations return the new array (nobody else holds p or cns); the factorials of
   pwpoly.py:1537 do not overflow; searchsorted gives the number of leading knots below x ([ssearch]). *)
From Coq Require Import List Arith ZArith Bool Lia.
From Verif Require Import Num PyBase NdArray Poly PwPoly.
Import ListNotations.
Local Open Scope num_scope.
Local Open Scope res_scope.

Section PwArray.
  Context {K : Type} {NK : Num K}.

  (* a op= v: v must broadcast to the shape of a *)
  Definition nd_iop (f : K -> K -> K) (a v : nd K) : res (nd K) :=
    if bto (shp v) (shp a) then Ok (Nd (shp a) (fun idx => f (get a idx) (bget v idx))) else Err ValueError.

  (* _polysetup, pwpoly.py:1541-1547; c[-1] and c[-2] are rows along the first axis, and c[-1] of an array without
     axes or with an empty first axis is an IndexError *)
  Definition polysetup_nd (c x : nd K) : res (nd K) :=
    match shp c with
    | [] | O :: _ => Err IndexError
    | 1%nat :: _ => nd_map2 nadd (nd_take 0 0 c) (nd_map (fun _ => n0) x)
    | S (S m) :: _ => let! t := nd_map2 nmul (nd_take 0 (S m) c) x in nd_map2 nadd (nd_take 0 m c) t
    end.
  (* the rows of c[-3::-1] *)
  Definition rows3 (c : nd K) : list (nd K) := map (fun i => nd_take 0 i c) (rev (seq 0 (hd 0%nat (shp c) - 2))).

  (* polyfun, pwpoly.py:1477-1481 *)
  Fixpoint polyfun_loop (rows : list (nd K)) (x p : nd K) : res (nd K) :=
    match rows with
    | [] => Ok p
    | cn :: r => let! p := nd_iop nmul p x in let! p := nd_iop nadd p cn in polyfun_loop r x p
    end.
  Definition polyfun_nd (c x : nd K) : res (nd K) :=
    let! p := polysetup_nd c x in polyfun_loop (rows3 c) x p.

  (* one pass of the loop of polyddx, pwpoly.py:1532-1535; q = p[0:nd] is a view of p *)
  Definition ddx_pass (n : nat) (cn x p cns : nd K) : res (nd K * nd K) :=
    let q := nd_slice 0 0 n p in
    let! cns := nd_setitem 0 0 cn cns in
    let! cns := nd_setslice 0 1 n q cns in
    let! p := nd_iop nmul p x in
    let! p := nd_iop nadd p cns in
    Ok (p, cns).
  Fixpoint polyddx_loop (n : nat) (rows : list (nd K)) (x p cns : nd K) : res (nd K) :=
    match rows with
    | [] => Ok p
    | cn :: r => let! (p, cns) := ddx_pass n cn x p cns in polyddx_loop n r x p cns
    end.
  (* polyddx, pwpoly.py:1522-1538 *)
  Definition polyddx_nd (c x : nd K) (nd_ : option nat) (norm : bool) : res (nd K) :=
    let! p0 := polysetup_nd c x in
    let m := (hd 0%nat (shp c) - 1)%nat in
    let n := match nd_ with Some k => k | None => m end in
    let p := Nd (S n :: shp p0) (fun idx => match idx with O :: r => get p0 r | _ => n0 end) in
    let! p := match n with O => Ok p | S _ => nd_setitem 0 1 (nd_take 0 m c) p end in
    let! p := polyddx_loop n (rows3 c) x p (full (shp p) n0) in
    Ok (if norm then Nd (shp p) (fun idx => match hd 0%nat idx with O => get p idx | k => get p idx * cfact k end) else p).

  (* the coefficient array as numpy holds it: shape (cn,)+csh+(ck,) *)
  Definition c_nd (c : @carr K) : nd K :=
    Nd (cn c :: csh c ++ [ck c]) (fun idx => nth (hd 0%nat idx) (ccol c (removelast (tl idx)) (last idx 0%nat)) n0).
  (* a[..., ix] for an integer array ix: the last axis of a is replaced by the axes of ix; an index that is out of
     range is an IndexError *)
  Definition all_below (ix : nd nat) (n : nat) : bool :=
    forallb (fun k => (get ix (unravel (shp ix) k) <? n)%nat) (seq 0 (size (shp ix))).
  Definition take_last (a : nd K) (ix : nd nat) : res (nd K) :=
    let m := (length (shp a) - 1)%nat in
    if all_below ix (last (shp a) 0%nat) then
      Ok (Nd (removelast (shp a) ++ shp ix) (fun idx => get a (firstn m idx ++ [get ix (skipn m idx)])))
    else Err IndexError.

  (* PwPoly.__call__, pwpoly.py:317-321 *)
  Definition pw_eval_arr (p : @pwpoly K) (x : nd K) (n : nat) : res (nd K) :=
    let ix := nd_map (ssearch (pxk p)) x in
    let! x0 := take_last (vec n0 (pxk0 p)) ix in
    let! x := nd_iop nsub x x0 in
    let! c := take_last (c_nd (pc p)) ix in
    match n with O => polyfun_nd c x | S _ => polyddx_nd c x (Some n) true end.
  (* and PerPwPoly.__call__, pwpoly.py:799-802; xk[0] of no knots is an IndexError, no period an AttributeError *)
  Definition pw_call_arr (p : @pwpoly K) (x : nd K) (n : nat) : res (nd K) :=
    match pcl p with
    | Pw => pw_eval_arr p x n
    | Per =>
      match pxk p, pper p with
      | [], _ => Err IndexError
      | _, None => Err AttributeError
      | x0 :: _, Some T => pw_eval_arr p (nd_map (fun x => x0 + nmod (x - x0) T) x) n
      end
    end.
End PwArray.
