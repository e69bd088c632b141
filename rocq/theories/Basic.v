(* Model of npplus/basic.py.

   Arrays are [nd] values (NdArray.v).  dtypes are not modelled except for the
   test dtype.kind in 'biufc' of cat_/a_ ([anum]).  num is a natural number. *)
From Coq Require Import String List Arith ZArith Bool Reals.
From Verif Require Import Num PyBase NdArray.
Import ListNotations.
Local Open Scope res_scope.

(* python l[:z] and l[z:] *)
Definition zclip (n : nat) (z : Z) : nat :=
  if (z <? 0)%Z then Z.to_nat (Z.of_nat n + z) else Z.to_nat z.
Definition py_take {A} (z : Z) (l : list A) : list A := firstn (zclip (length l) z) l.
Definition py_drop {A} (z : Z) (l : list A) : list A := skipn (zclip (length l) z) l.

(* numpy.ndarray.any / all over a predicate *)
Definition nd_any {A} (f : A -> bool) (a : nd A) : bool :=
  existsb (fun k => f (get a (unravel (shp a) k))) (seq 0 (size (shp a))).
(* numpy.concatenate((a, b), axis=k) of arrays of equal rank *)
Definition nd_cat2 {A} (k : nat) (a b : nd A) : res (nd A) :=
  if (length (shp a) =? length (shp b)) && (k <? length (shp a)) &&
     forallb (fun m => (m =? k) || (nth m (shp a) 0 =? nth m (shp b) 0)) (seq 0 (length (shp a)))
  then let la := nth k (shp a) 0 in
       Ok (Nd (upd k (la + nth k (shp b) 0) (shp a))
              (fun idx => let i := nth k idx 0 in
                 if i <? la then get a idx else get b (upd k (i - la) idx)))
  else Err ValueError.

Section Basic.
  Context {K : Type} {NK : Num K}.

  (* span, basic.py:55-96 (dtype=None).  An axis outside -(n+1)..n, n the rank of
     start+stop, is given as ValueError (AxisError for axis > n; below -(n+1) the
     code is not followed further). *)
  Definition span (start stop : nd K) (num : nat) (axis : Z) : res (nd K) :=
    let! sum := nd_map2 nadd start stop in
    let zero := full (shp sum) n0 in
    let! start := nd_map2 nadd start zero in
    let! stop := nd_map2 nadd stop zero in
    let! k := of_opt ValueError (py_index (S (length (shp sum))) axis) in
    let shape := firstn k (shp sum) ++ [1] ++ skipn k (shp sum) in
    let! start := reshape shape start in
    let! stop := reshape shape stop in
    match num with
    | O => Err ValueError            (* repeat(num-1) with a negative count *)
    | S m =>
      let s := nd_repeat num k start in
      let! d := nd_map2 (fun a b => ndiv (nsub a b) (nofnat m)) stop start in
      let ds := nd_repeat m k d in
      let! s1 := nd_map2 nadd (nd_slice k 1 m s) (nd_cumsum k ds) in
      let! s := nd_setslice k 1 m s1 s in
      nd_setslice k m 1 stop s
    end.

  (* an argument of cat_/a_: a.dtype.kind in 'biufc', and the array *)
  Record arg := Arg { anum : bool; aarr : nd K }.
  (* kwargs.pop('axis', 0); anything left is an error; basic.py:164-167, 222-225 *)
  Fixpoint pop_axis (kw : list (string * Z)) : option Z * list (string * Z) :=
    match kw with
    | [] => (None, [])
    | (s, z) :: r =>
      if String.eqb s "axis" then (Some z, r)
      else let '(o, r') := pop_axis r in (o, (s, z) :: r')
    end.
  Definition get_axis (kw : list (string * Z)) : res Z :=
    match pop_axis kw with
    | (o, []) => Ok (match o with Some z => z | None => 0%Z end)
    | (_, _ :: _) => Err TypeError
    end.
  (* first pass, basic.py:168-180, 226-238: the arrays and the maximum rank *)
  Definition first_pass (args : list arg) : res nat :=
    if forallb anum args then
      match args with
      | [] => Err AttributeError           (* None.dtype *)
      | _ => Ok (fold_left Nat.max (map (fun a => ndim (aarr a)) args) 0)
      end
    else Err ValueError.
  Definition pad1 (n : nat) (s : list nat) : list nat := repeat 1 (n - length s) ++ s.
  Definition sumn (l : list nat) : nat := fold_right Nat.add 0 l.
  Definition maxn (l : list nat) : nat := fold_right Nat.max 0 l.
  (* shape.max(axis=0) of the padded shapes *)
  Definition max_shape (n : nat) (shapes : list (list nat)) : list nat :=
    map (fun m => maxn (map (fun s => nth m s 0) shapes)) (seq 0 n).

  (* second pass of cat_, basic.py:189-192 *)
  Fixpoint cat_fill (k i : nat) (l : list (nat * nd K)) (result : nd K) : res (nd K) :=
    match l with
    | [] => Ok result
    | (di, a) :: r =>
      let! result := nd_setslice k i di a result in
      cat_fill k (i + di) r result
    end.
  (* cat_, basic.py:142-193 *)
  Definition cat_ (args : list arg) (kw : list (string * Z)) : res (nd K) :=
    let! axis := get_axis kw in
    let! n := first_pass args in
    let n := Nat.max 1 n in
    match py_index n axis with
    | None => Err ValueError
    | Some k =>
      let shapes := map (fun a => pad1 n (shp (aarr a))) args in
      let lens := map (fun s => nth k s 0) shapes in
      let shapes := map (upd k (sumn lens)) shapes in
      cat_fill k 0 (combine lens (map aarr args)) (full (max_shape n shapes) n0)
    end.

  (* second pass of a_, basic.py:247-249 *)
  Fixpoint stack_fill (k i : nat) (l : list (nd K)) (result : nd K) : res (nd K) :=
    match l with
    | [] => Ok result
    | a :: r => let! result := nd_setitem k i a result in stack_fill k (S i) r result
    end.
  (* a_, basic.py:196-250 *)
  Definition a_ (args : list arg) (kw : list (string * Z)) : res (nd K) :=
    let! axis := get_axis kw in
    let! n := first_pass args in
    if ((axis <? - Z.of_nat n - 1) || ((Z.of_nat n <? axis) && (0 <? n)%nat))%Z then Err ValueError else
    let shape := max_shape n (map (fun a => pad1 n (shp (aarr a))) args) in
    let axis := if (axis <? 0)%Z then (Z.of_nat n + 1 + axis)%Z else axis in
    let k := Nat.min (Z.to_nat axis) n in     (* shape[:axis] and slices[:axis] stop at rank n *)
    stack_fill k 0 (map aarr args)
      (full (firstn k shape ++ [length args] ++ skipn k shape) n0).

  (* max_, min_, basic.py:253-264 *)
  Fixpoint max_ (a : nd K) (args : list (nd K)) : res (nd K) :=
    match args with
    | [] => Ok a
    | b :: r => let! a := nd_map2 nmax a b in max_ a r
    end.
  Fixpoint min_ (a : nd K) (args : list (nd K)) : res (nd K) :=
    match args with
    | [] => Ok a
    | b :: r => let! a := nd_map2 nmin a b in min_ a r
    end.

  (* cum, basic.py:330-378; axis=None is None *)
  Definition cum (a : nd K) (axis : option Z) : res (nd K) :=
    match shp a with
    | [] => Err TypeError
    | _ =>
      match axis with
      | None =>
        let! f := reshape [size (shp a)] a in
        nd_cat2 0 (full [1] n0) (nd_cumsum 0 f)
      | Some z =>
        let! k := of_opt IndexError (py_index (length (shp a)) z) in
        nd_cat2 k (full (upd k 1 (shp a)) n0) (nd_cumsum k a)
      end
    end.
  (* zcen, basic.py:381-430 *)
  Definition zcen (a : nd K) (axis : Z) : res (nd K) :=
    match shp a with
    | [] => Err TypeError
    | _ =>
      let! k := of_opt IndexError (py_index (length (shp a)) axis) in
      let n := nth k (shp a) 0 in
      if n <? 2 then Err TypeError else
      nd_map2 (fun x y => nmul (nadd x y) (ndiv n1 (nofZ 2)))
              (nd_slice k 1 (n - 1) a) (nd_slice k 0 (n - 1) a)
    end.
  (* pcen, basic.py:433-479 *)
  Definition pcen (a : nd K) (axis : Z) : res (nd K) :=
    match shp a with
    | [] => Err TypeError
    | _ =>
      let! k := of_opt IndexError (py_index (length (shp a)) axis) in
      let n := nth k (shp a) 0 in
      let first := nd_slice k 0 (Nat.min 1 n) a in
      let last := nd_slice k (n - 1) (Nat.min 1 n) a in
      if n <? 2 then nd_cat2 k first last else
      let! mid := nd_map2 (fun x y => nmul (nadd x y) (ndiv n1 (nofZ 2)))
                          (nd_slice k 1 (n - 1) a) (nd_slice k 0 (n - 1) a) in
      let! fm := nd_cat2 k first mid in
      nd_cat2 k fm last
    end.
  (* numpy.diff(a, axis=k) *)
  Definition nd_diff (k : nat) (a : nd K) : res (nd K) :=
    let n := nth k (shp a) 0 in
    nd_map2 nsub (nd_slice k 1 (n - 1) a) (nd_slice k 0 (n - 1) a).
End Basic.
Arguments arg : clear implicits.

Local Open Scope R_scope.
(* numpy.sign *)
Definition Rsgn (x : R) : R := if Rltb x 0 then -1 else if Rltb 0 x then 1 else 0.
(* spanl, basic.py:99-139 (dtype=None) *)
Definition spanl (start stop : nd R) (num : nat) (axis : Z) : res (nd R) :=
  let s := nd_map Rsgn start in
  let start := nd_map Rabs start in
  let! stop := nd_map2 Rmult s stop in
  if nd_any (fun x => Rleb x 0) stop then Err ValueError else
  let! (s, axis) :=
    if (axis =? 0)%Z then Ok (s, axis) else
    let shape := shp s in
    let axis := if (axis <? 0)%Z then (axis + Z.of_nat (length shape) + 1)%Z else axis in
    let! s := reshape (py_take axis shape ++ [1%nat] ++ py_drop axis shape) s in
    Ok (s, axis) in
  let! e := span (nd_map ln start) (nd_map ln stop) num axis in
  nd_map2 Rmult s (nd_map exp e).

(* abs_, basic.py:267-281, for real arrays (conj is the identity) *)
Definition nd_sum0 (a : nd R) : nd R :=
  Nd (tl (shp a)) (fun idx => fold_left Rplus (map (fun i => get a (i :: idx)) (seq 0 (hd 0%nat (shp a)))) 0).
Definition abs_ (a : arg R) (args : list (arg R)) : res (nd R) :=
  match args with
  | [] => Ok (nd_map Rabs (aarr a))
  | _ =>
    let! st := a_ (a :: args) [] in
    let! sq := nd_map2 Rmult st st in
    Ok (nd_map sqrt (nd_sum0 sq))
  end.

(* numpy.arctan2 of finite values; signed zeros are not modelled *)
Definition arctan2 (y x : R) : R :=
  if Rltb 0 x then Ratan.atan (y / x)
  else if Rltb x 0 then (if Rltb y 0 then Ratan.atan (y / x) - PI else Ratan.atan (y / x) + PI)
  else if Rltb 0 y then PI / 2 else if Rltb y 0 then - (PI / 2) else 0.
(* atan, basic.py:284-325, at one element; [out] tells whether an out array was
   passed, the second component is what that array holds afterwards *)
Definition atan (a : R) (b : option R) (out : bool) (branch : option R) : R * option R :=
  let keep (v : R) := if out then Some v else None in
  match b with
  | None => (Ratan.atan a, keep (Ratan.atan a))
  | Some b =>
    let t := arctan2 a b in
    match branch with
    | None => (t, keep t)
    | Some br => let t := nmod (t - br) (2 * PI) + br in (t, keep t)
    end
  end.
