(* PwPoly.__repr__ and __str__ and ADict.__repr__.  /repo/npplus/pwpoly.py:677-686, /repo/npplus/itemattr.py:202-203. *)
From Coq Require Import String List Arith Bool DecimalString.
From Verif Require Import PyBase NdArray PwPoly.
Import ListNotations.
Local Open Scope string_scope.

(* str(n) of an int n >= 0 *)
Definition dec (n : nat) : string := NilEmpty.string_of_uint (Nat.to_uint n).
(* str(s) of a tuple of ints *)
Definition tuple_str (s : list nat) : string :=
  match s with
  | [d] => "(" ++ dec d ++ ",)"
  | _ => "(" ++ String.concat ", " (map dec s) ++ ")"
  end.
(* self.__class__.__name__ *)
Definition cls_name (cl : cls) : string := match cl with Pw => "PwPoly" | Per => "PerPwPoly" end.
(* __str__, pwpoly.py:682-686 *)
Definition pw_str {K} (p : @pwpoly K) : string :=
  cls_name (pcl p) ++ "(" ++ dec (List.length (pxk p)) ++ " knots, degree " ++ dec (pdeg p) ++
  match pshape p with [] => "" | s => ", shape=" ++ tuple_str s end ++ ")".
(* s[6:-1] *)
Definition strip (s : string) : string := substring 6 (String.length s - 7) s.
(* __repr__, pwpoly.py:677-680; rx, rc: repr of the arrays xk and c *)
Definition pw_repr {K} (rx : list K -> string) (rc : @carr K -> string) (p : @pwpoly K) : string :=
  cls_name (pcl p) ++ "(" ++ strip (rx (pxk p)) ++ ", " ++ strip (rc (pc p)) ++ ")".
(* the call that this text denotes: the class with the two arguments xk and c, c an array of shape (n,)+shape+(k,) *)
Definition repr_eval {K} `{Num.Num K} (inv : nat -> (nat -> nat -> K) -> nat -> nat -> K) (p : @pwpoly K) : res (@pwpoly K) :=
  ctor inv (pcl p) (pxk p)
    [YArr (cn (pc p) :: csh (pc p)) (ck (pc p)) (fun comp i => nth (hd O comp) (ccol (pc p) (tl comp) i) Num.n0)].
(* the call that would give p back: one argument for each coefficient *)
Definition repr_star {K} `{Num.Num K} (inv : nat -> (nat -> nat -> K) -> nat -> nat -> K) (p : @pwpoly K) : res (@pwpoly K) :=
  ctor inv (pcl p) (pxk p)
    (map (fun n => YArr (csh (pc p)) (ck (pc p)) (fun comp i => nth n (ccol (pc p) comp i) Num.n0)) (seq 0 (cn (pc p)))).
(* ADict.__repr__, itemattr.py:202-203; s: the repr of the dict *)
Definition adict_repr (s : string) : string := "ADict(" ++ s ++ ")".
