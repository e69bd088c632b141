(* Model of npplus/solveper.py.

   2-d arrays are given by their shape and entries; b of shape (n,) is the case
   of one column.  scipy.linalg.solve_banded and solve are parameters.  For l+u > n
   (where the code's negative slice bounds overlap) the model is not faithful; the
   theorems assume l+u <= n. *)
From Coq Require Import List Arith ZArith Bool.
From Verif Require Import Num PyBase PwPoly.
Import ListNotations.
Local Open Scope res_scope.

Record arr2 (K : Type) := Arr2 { nr : nat; nc : nat; at2 : nat -> nat -> K }.
Arguments Arr2 {K}. Arguments nr {K}. Arguments nc {K}. Arguments at2 {K}.

Section SolvePer.
  Context {K : Type} {NK : Num K}.
  Local Open Scope num_scope.

  (* a.ravel() of a C-contiguous array as a writable view: entries by flat index *)
  Definition flat2 (a : arr2 K) : nat -> K := fun p => at2 a (p / nc a)%nat (p mod nc a)%nat.
  Definition unflat2 (r c : nat) (f : nat -> K) : arr2 K := Arr2 r c (fun i j => f (i * c + j)%nat).
  (* f[idx] = vals for distinct indices *)
  Fixpoint wr (f : nat -> K) (idx : list nat) (vals : list K) (p : nat) : K :=
    match idx, vals with
    | i :: idx', v :: vals' => if (p =? i)%nat then v else wr f idx' vals' p
    | _, _ => f p
    end.
  (* f[start:stop:step] = vals for a flat array of length len *)
  Definition fset (len : nat) (f : nat -> K) (start stop : option Z) (step : Z) (vals : list K) : res (nat -> K) :=
    let idx := slice_indices len start stop step in
    if (length idx =? length vals)%nat then Ok (wr f idx vals)
    else if (length vals =? 1)%nat then Ok (wr f idx (repeat (hd n0 vals) (length idx)))
    else Err ValueError.

  (* a[r0:r1, c0:c1] for nonnegative bounds *)
  Definition sub2 (r0 r1 c0 c1 : nat) (a : arr2 K) : arr2 K :=
    Arr2 (Nat.min r1 (nr a) - r0) (Nat.min c1 (nc a) - c0) (fun i j => at2 a (r0 + i)%nat (c0 + j)%nat).
  (* a[r0:r0+nr v, c0:c0+nc v] = v for a block of shape (r, c) *)
  Definition put2 (r0 c0 r c : nat) (v a : arr2 K) : res (arr2 K) :=
    if ((nr v =? r) && (nc v =? c))%nat then
      Ok (Arr2 (nr a) (nc a) (fun i j =>
        if ((r0 <=? i) && (i <? r0 + r) && (c0 <=? j) && (j <? c0 + c))%nat
        then at2 v (i - r0)%nat (j - c0)%nat else at2 a i j))
    else Err ValueError.
  Definition zeros2 (r c : nat) : arr2 K := Arr2 r c (fun _ _ => n0).
  Definition eye2 (n : nat) : arr2 K := Arr2 n n (fun i j => if (i =? j)%nat then n1 else n0).
  (* a.dot(b) *)
  Definition dot2 (a b : arr2 K) : res (arr2 K) :=
    if (nc a =? nr b)%nat then
      Ok (Arr2 (nr a) (nc b) (fun i j => ksum (nc a) (fun k => at2 a i k * at2 b k j)))
    else Err ValueError.
  (* a[idx, :] *)
  Definition rows2 (idx : list nat) (a : arr2 K) : arr2 K :=
    Arr2 (length idx) (nc a) (fun i j => at2 a (nth i idx 0%nat) j).
  Definition row2 (a : arr2 K) (i : nat) : list K := map (at2 a i) (seq 0 (nc a)).

  (* one strided write per diagonal, solveper.py:119-122 *)
  Fixpoint dn_upper (n : nat) (i : nat) (ds : list (list K)) (f : nat -> K) : res (nat -> K) :=
    match ds with
    | [] => Ok f
    | d :: ds =>
      let! f := fset (n * n) f (Some (Z.of_nat (i + 1)))
                  (Some (Z.of_nat n + Z.of_nat n * (Z.of_nat n - Z.of_nat i - 1))%Z) (Z.of_nat (n + 1)) (skipn (i + 1) d) in
      dn_upper n (S i) ds f
    end.
  Fixpoint dn_lower (n : nat) (i : nat) (ds : list (list K)) (f : nat -> K) : res (nat -> K) :=
    match ds with
    | [] => Ok f
    | d :: ds =>
      (* d[:-1-i] *)
      let! f := fset (n * n) f (Some (Z.of_nat ((i + 1) * n))) None (Z.of_nat (n + 1)) (firstn (length d - 1 - i) d) in
      dn_lower n (S i) ds f
    end.
  (* _diag_to_norm, solveper.py:111-123 *)
  Definition diag_to_norm (l u : nat) (ab : arr2 K) : res (arr2 K) :=
    let n := nc ab in
    if negb (nr ab =? u + 1 + l)%nat then Err ValueError else
    let a := Arr2 n n (fun i j => if (i =? j)%nat then at2 ab u j else n0) in
    let! f := dn_upper n 0 (rev (map (row2 ab) (seq 0 u))) (flat2 a) in
    let! f := dn_lower n 0 (map (row2 ab) (seq (u + 1) l)) f in
    Ok (unflat2 n n f).

  Variable solve_banded : nat -> nat -> arr2 K -> arr2 K -> res (arr2 K).
  Variable solve : arr2 K -> arr2 K -> res (arr2 K).

  Definition sub_arr (a b : arr2 K) : res (arr2 K) :=
    if ((nr a =? nr b) && (nc a =? nc b))%nat
    then Ok (Arr2 (nr a) (nc a) (fun i j => at2 a i j - at2 b i j)) else Err ValueError.
  Definition add_arr (a b : arr2 K) : res (arr2 K) :=
    if ((nr a =? nr b) && (nc a =? nc b))%nat
    then Ok (Arr2 (nr a) (nc a) (fun i j => at2 a i j + at2 b i j)) else Err ValueError.
  (* mask = roll(arange(n) < lpu, -l), the selected indices in order; solveper.py:98 *)
  Definition per_mask (n l lpu : nat) : list nat :=
    filter (fun i => ((i + l) mod n <? lpu)%nat) (seq 0 n).
  (* solve_periodic, solveper.py:66-108 *)
  Definition solve_periodic (l u : nat) (ab b : arr2 K) : res (arr2 K) :=
    let n := nc ab in
    let lpu := (l + u)%nat in
    let corn := zeros2 lpu lpu in
    let! corn := if (u =? 0)%nat then Ok corn
                 else let! d := diag_to_norm (u - 1) 0 (sub2 0 u 0 u ab) in put2 l 0 u u d corn in
    let! corn := if (l =? 0)%nat then Ok corn
                 else let! d := diag_to_norm 0 (l - 1) (sub2 (nr ab - l) (nr ab) (n - l) n ab) in put2 0 u l l d corn in
    let! xx := solve_banded l u ab b in
    let! bb := if (u =? 0)%nat then Ok (zeros2 n lpu) else put2 (n - u) l u u (eye2 u) (zeros2 n lpu) in
    let! bb := put2 0 0 (Nat.min l n) l (eye2 l) bb in
    let! xy := solve_banded l u ab bb in
    let mask := per_mask n l lpu in
    let! acx := dot2 corn (rows2 mask xx) in
    let! acy := dot2 corn (rows2 mask xy) in
    let! corn := add_arr (eye2 lpu) acy in
    let! p := solve corn acx in
    let! xp := dot2 xy p in
    sub_arr xx xp.

  (* _solves_symgen, solveper.py:185-196; roll is cyclic in the columns *)
  Definition symgen (ab : arr2 K) (u : nat) (lower : bool) : arr2 K :=
    let n := nc ab in
    if lower then
      Arr2 (u + nr ab) n (fun r j =>
        if (r <? u)%nat then at2 ab (u - r)%nat ((j + (n - (u - r) mod n)) mod n)%nat
        else at2 ab (r - u)%nat j)
    else
      Arr2 (nr ab + u) n (fun r j =>
        if (r <? nr ab)%nat then at2 ab r j
        else at2 ab (u - 1 - (r - nr ab))%nat ((j + 1 + (r - nr ab)) mod n)%nat).
  (* solves_periodic, solveper.py:147-151 *)
  Definition solves_periodic (ab b : arr2 K) (lower : bool) : res (arr2 K) :=
    let u := (nr ab - 1)%nat in solve_periodic u u (symgen ab u lower) b.
  (* solves_banded, solveper.py:178-182 *)
  Definition solves_banded (ab b : arr2 K) (lower : bool) : res (arr2 K) :=
    let u := (nr ab - 1)%nat in solve_banded u u (symgen ab u lower) b.
End SolvePer.
