(* abs_ and atan of npplus/basic.py over any arithmetic, with the numpy functions they call as parameters, and numpy's remainder of
   doubles. *)
From Coq Require Import List Arith ZArith Bool Lia Reals.
From Flocq Require Import Core BinarySingleNaN.
From Verif Require Import Num PyBase NdArray Basic Float64.
Import ListNotations.
Local Open Scope res_scope.

Section Gen.
  Context {K : Type} {NK : Num K}.
  (* abs_, basic.py:267-281, for real arrays (conj is the identity): absf, sqrtf stand for numpy.absolute and numpy.sqrt, sumf for the sum of
     the elements along axis 0, whose order of additions numpy does not specify *)
  Definition abs_gen (absf sqrtf : K -> K) (sumf : list K -> K) (a : arg K) (args : list (arg K)) : res (nd K) :=
    match args with
    | [] => Ok (nd_map absf (aarr a))
    | _ =>
      let! st := a_ (a :: args) [] in
      let! sq := nd_map2 nmul st st in
      Ok (nd_map sqrtf (Nd (tl (shp sq)) (fun idx => sumf (map (fun i => get sq (i :: idx)) (seq 0 (hd 0%nat (shp sq)))))))
    end.
  (* atan, basic.py:284-325, at one element: at1, at2, md and twopi stand for numpy.arctan, numpy.arctan2, % and 2.*pi *)
  Definition atan_gen (at1 : K -> K) (at2 md : K -> K -> K) (twopi : K) (a : K) (b : option K) (out : bool) (branch : option K) : K * option K :=
    let keep (v : K) := if out then Some v else None in
    match b with
    | None => (at1 a, keep (at1 a))
    | Some b =>
      let t := at2 a b in
      match branch with
      | None => (t, keep t)
      | Some br => let t := (md (t - br) twopi + br)%K in (t, keep t)
      end
    end.
End Gen.
(* over R these are the functions of Basic.v *)
Lemma abs_gen_R a args : abs_gen Rabs sqrt (fun l => fold_left Rplus l 0%R) a args = abs_ a args.
Proof. reflexivity. Qed.
Lemma atan_gen_R a b out br : atan_gen Ratan.atan arctan2 nmod (2 * PI)%R a b out br = atan a b out br.
Proof. reflexivity. Qed.

(* fmod of the C library: x - y*n, n the quotient x/y cut off to an integer, without rounding *)
Definition ffmod (x y : f64) : f64 :=
  match x, y with
  | B754_finite sx mx ex _, B754_finite sy my ey _ =>
    let e := Z.min ex ey in
    let a := Z.shiftl (SpecFloat.cond_Zopp sx (Zpos mx)) (ex - e) in
    let b := Z.shiftl (SpecFloat.cond_Zopp sy (Zpos my)) (ey - e) in
    binary_normalize 53 1024 prec_pos prec_emax mode_NE (Z.rem a b) e sx
  | B754_finite _ _ _ _, B754_infinity _ => x
  | B754_zero _, B754_finite _ _ _ _ => x
  | B754_zero _, B754_infinity _ => x
  | _, _ => B754_nan
  end.
(* x % y of numpy: npy_divmod (numpy/core/src/npymath), which adds y to fmod(x, y) if the signs differ *)
Definition fmodulo (x y : f64) : f64 :=
  let m := ffmod x y in
  if (m =? n0)%K then (if (y <? n0)%K then B754_zero true else B754_zero false)
  else if Bool.eqb (y <? n0)%K (m <? n0)%K then m else (m + y)%K.
(* 2.*pi *)
Definition fpi : f64 := (nofZ 884279719003555 / nofZ (2 ^ 48))%K.
Definition f2pi : f64 := (nofZ 2 * fpi)%K.
