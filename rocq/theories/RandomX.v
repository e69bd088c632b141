(* /repo/npplus/randomx.py: points in and on circles and spheres, rotation
   matrices.  Modelled over the real numbers (sqrt, sin, cos and pi are those of
   the standard library).

   numpy.random.random is an arbitrary source: [rnd k s] is the array returned
   by its k-th call, made with shape s.  The only thing assumed about it, in the
   theorems that need it, is [unit_src]: the array has the requested shape and
   its elements are in [0, 1). *)
From Coq Require Import List Arith ZArith Bool Lia Reals.
From Verif Require Import Num PyBase NdArray NdLemmas.
Import ListNotations.
Open Scope R_scope.
Open Scope res_scope.

Definition src := nat -> list nat -> nd R.
Definition unit_src (rnd : src) : Prop :=
  forall k s, shp (rnd k s) = s /\ forall idx, inb idx s -> 0 <= get (rnd k s) idx < 1.

(* the argument size: omitted or None, an integer, or an iterable of integers *)
Inductive sizearg := SNone | SInt (n : Z) | SSeq (l : list Z).
(* randomx.py:52-58, 98-104, 124-130, 207-213:
     if size is None: size = ()
     else:
         try: size = tuple(size)
         except TypeError: size = (size,) *)
Definition size_tuple (sz : sizearg) : list Z :=
  match sz with SNone => [] | SInt n => [n] | SSeq l => l end.
(* int(prod(size)); the product of an empty tuple is 1. *)
Definition zprod (l : list Z) : Z := fold_right Z.mul 1%Z l.
Definition neg_dim (l : list Z) : bool := existsb (fun z => (z <? 0)%Z) l.
Definition dims (l : list Z) : list nat := map Z.to_nat l.

(* numpy.random.random(shape): ValueError (negative dimensions are not allowed)
   for a negative length *)
Definition random (rnd : src) (k : nat) (s : list Z) : res (nd R) :=
  if neg_dim s then Err ValueError else Ok (rnd k (dims s)).

(* numpy concatenate((a, b), axis=-1) and concatenate((a, b), axis=0) *)
Definition shape_eqb (s t : list nat) : bool :=
  if list_eq_dec Nat.eq_dec s t then true else false.
Definition cat_last (a b : nd R) : res (nd R) :=
  match rev (shp a), rev (shp b) with
  | la :: ra, lb :: rb =>
    if shape_eqb ra rb then
      Ok (Nd (rev ra ++ [la + lb]%nat)
             (fun idx => let j := last idx 0%nat in
                if (j <? la)%nat then get a idx
                else get b (removelast idx ++ [j - la]%nat)))
    else Err ValueError
  | _, _ => Err ValueError
  end.
Definition cat_first (a b : nd R) : res (nd R) :=
  match shp a, shp b with
  | la :: ra, lb :: rb =>
    if shape_eqb ra rb then
      Ok (Nd ((la + lb)%nat :: ra)
             (fun idx => let j := hd 0%nat idx in
                if (j <? la)%nat then get a idx else get b ((j - la)%nat :: tl idx)))
    else Err ValueError
  | _, _ => Err ValueError
  end.

(* The rejection loop of incircle and insphere, randomx.py:73-82 and 147-156:
     while nmore > 0:
         m = int((nmore + 5.*sqrt(nmore))*fac)
         q = 2.*random((m, d)) - 1.
         q = q[(q * q).sum(axis=-1) < 1., :]
         p.append(q)
         nmore -= len(q)
   Points are kept as the list of their coordinate lists; [concatenate(p)] is
   the concatenation of these lists.  The loop need not stop (the source may
   never give an accepted point), so it runs on fuel: [None] when [fuel] passes
   were not enough. *)
Definition passm (fac : R) (nmore : Z) : nat :=
  Z.to_nat (Int_part ((IZR nmore + 5 * sqrt (IZR nmore)) * fac)).
Definition row_of (d : nat) (q : nd R) (i : nat) : list R :=
  map (fun j => 2 * get q [i; j] - 1) (seq 0 d).
Definition norm2 (p : list R) : R := fold_right (fun x a => x * x + a) 0 p.
Definition accepted (d m : nat) (q : nd R) : list (list R) :=
  filter (fun p => Rltb (norm2 p) 1) (map (row_of d q) (seq 0 m)).
Fixpoint reject (rnd : src) (fac : R) (d : nat) (fuel k : nat) (nmore : Z)
    (p : list (list R)) : option (list (list R)) :=
  if (nmore >? 0)%Z then
    match fuel with
    | O => None
    | S fuel' =>
      let m := passm fac nmore in
      let q := accepted d m (rnd k [m; d]) in
      reject rnd fac d fuel' (S k) (nmore - Z.of_nat (length q))%Z (p ++ q)
    end
  else Some p.
(* concatenate(p)[:n].reshape(size + (d,)).  With an even number of negative
   entries in size the product is positive; reshape then refuses more than one
   unknown dimension (ValueError). *)
Definition rows_nd (d : nat) (p : list (list R)) : nd R :=
  Nd [length p; d] (fun idx => nth (nth 1 idx 0%nat) (nth (nth 0 idx 0%nat) p []) 0).
Definition finish (d : nat) (s : list Z) (p : list (list R)) : res (nd R) :=
  let a := rows_nd d (firstn (Z.to_nat (zprod s)) p) in
  if neg_dim s then Err ValueError else reshape (dims s ++ [d]) a.

(* the direct branch of incircle, randomx.py:64-66:
     t, z = random((2,) + size + (1,))
     t *= 2. * pi
     return sqrt(z) * concatenate((cos(t), sin(t)), axis=-1) *)
Definition incircle_direct (rnd : src) (s : list Z) : res (nd R) :=
  let! tz := random rnd 0 ([2%Z] ++ s ++ [1%Z]) in
  let t := nd_map (fun x => x * (2 * PI)) (nd_take 0 0 tz) in
  let z := nd_take 0 1 tz in
  let! cs := cat_last (nd_map cos t) (nd_map sin t) in
  nd_map2 Rmult (nd_map sqrt z) cs.
(* randomx.py:39-82 incircle *)
Definition incircle (rnd : src) (fuel : nat) (sz : sizearg) : option (res (nd R)) :=
  let s := size_tuple sz in
  let n := zprod s in
  if (n <? 330)%Z then Some (incircle_direct rnd s)
  else option_map (finish 2 s) (reject rnd (4 / PI) 2 fuel 0 n []).

(* randomx.py:85-108 oncircle; [k] is the number of earlier calls of random
     theta = 2.*pi * random(size + (1,))
     return concatenate((cos(theta), sin(theta)), axis=-1) *)
Definition oncircle_k (rnd : src) (k : nat) (sz : sizearg) : res (nd R) :=
  let s := size_tuple sz in
  let! u := random rnd k (s ++ [1%Z]) in
  let theta := nd_map (fun x => 2 * PI * x) u in
  cat_last (nd_map cos theta) (nd_map sin theta).
Definition oncircle (rnd : src) (sz : sizearg) : res (nd R) := oncircle_k rnd 0 sz.

(* z**(1./3.) for z >= 0 *)
Definition cbrt (z : R) : R := if Reqb z 0 then 0 else Rpower z (1 / 3).
(* the direct branch of insphere, randomx.py:136-140:
     mu, phi, z = random((3,) + size + (1,))
     mu = 2.*mu - 1.
     phi *= 2. * pi
     s = sqrt(1. - mu)
     return z**(1./3.) * concatenate((s*cos(phi), s*sin(phi), mu), axis=-1) *)
Definition insphere_direct (rnd : src) (s : list Z) : res (nd R) :=
  let! a := random rnd 0 ([3%Z] ++ s ++ [1%Z]) in
  let mu := nd_map (fun x => 2 * x - 1) (nd_take 0 0 a) in
  let phi := nd_map (fun x => x * (2 * PI)) (nd_take 0 1 a) in
  let z := nd_take 0 2 a in
  let r := nd_map (fun x => sqrt (1 - x)) mu in
  let! x := nd_map2 Rmult r (nd_map cos phi) in
  let! y := nd_map2 Rmult r (nd_map sin phi) in
  let! xy := cat_last x y in
  let! xyz := cat_last xy mu in
  nd_map2 Rmult (nd_map cbrt z) xyz.
(* randomx.py:111-156 insphere *)
Definition insphere (rnd : src) (fuel : nat) (sz : sizearg) : option (res (nd R)) :=
  let s := size_tuple sz in
  let n := zprod s in
  if (n <? 70)%Z then Some (insphere_direct rnd s)
  else option_map (finish 3 s) (reject rnd (6 / PI) 3 fuel 0 n []).

(* randomx.py:159-175 onsphere
     xy = oncircle(size)
     z = 2.*random(xy.shape[:-1] + (1,)) - 1.
     xy *= sqrt(1. - z*z)
     return concatenate((xy, z), axis=-1) *)
Definition onsphere (rnd : src) (sz : sizearg) : res (nd R) :=
  let! xy := oncircle_k rnd 0 sz in
  let! u := random rnd 1 (map Z.of_nat (removelast (shp xy)) ++ [1%Z]) in
  let z := nd_map (fun x => 2 * x - 1) u in
  let! xy' := nd_map2 Rmult xy (nd_map (fun x => sqrt (1 - x * x)) z) in
  cat_last xy' z.

(* v[:, newaxis] *)
Definition newaxis1 (v : nd R) : nd R :=
  Nd (insert_at 1 1%nat (shp v)) (fun idx => get v (remove_at 1 idx)).
(* numpy transpose(m, axes): axis k of the result is axis axes[k] of m *)
Fixpoint index_of (d : nat) (l : list nat) : nat :=
  match l with [] => O | a :: r => if (a =? d)%nat then O else S (index_of d r) end.
Definition transpose {A} (m : nd A) (axes : list nat) : nd A :=
  Nd (map (fun a => nth a (shp m) O) axes)
     (fun idx => get m (map (fun d => nth (index_of d axes) idx O) (seq 0 (length axes)))).
(* numpy roll(l, -k) for k <= len(l) *)
Definition roll_left {A} (k : nat) (l : list A) : list A := skipn k l ++ firstn k l.

(* randomx.py:178-230 rotation3
     theta, phi, z = 2. * random((3, 1) + size)
     theta *= pi
     phi *= pi
     r = sqrt(z)
     v = concatenate((r*sin(phi), r*cos(phi), sqrt(2.-z)))
     st, ct = sin(theta), cos(theta)
     s = concatenate((v[0]*ct - v[1]*st, v[0]*st + v[1]*ct))
     m = v[:, newaxis].repeat(3, axis=1)
     m[:, :2] *= s
     m[0, :2] -= concatenate((ct, st))
     m[1, :2] += concatenate((st, -ct))
     m[:2, 2] *= v[2]
     m[2, 2] = 1. - z
     if m.ndim > 2:
         m = transpose(m, roll(range(m.ndim), -2)).copy()
     return m
   In m[2, 2] = 1. - z the value has shape (1,) + size and the region has shape
   size: numpy drops the extra leading axis of length 1. *)
Definition rotation3 (rnd : src) (sz : sizearg) : res (nd R) :=
  let s := size_tuple sz in
  let! u := random rnd 0 ([3%Z; 1%Z] ++ s) in
  let a := nd_map (fun x => 2 * x) u in
  let theta := nd_map (fun x => x * PI) (nd_take 0 0 a) in
  let phi := nd_map (fun x => x * PI) (nd_take 0 1 a) in
  let z := nd_take 0 2 a in
  let r := nd_map sqrt z in
  let! v0 := nd_map2 Rmult r (nd_map sin phi) in
  let! v1 := nd_map2 Rmult r (nd_map cos phi) in
  let! v01 := cat_first v0 v1 in
  let! v := cat_first v01 (nd_map (fun x => sqrt (2 - x)) z) in
  let st := nd_map sin theta in
  let ct := nd_map cos theta in
  let! a1 := nd_map2 Rmult (nd_take 0 0 v) ct in
  let! a2 := nd_map2 Rmult (nd_take 0 1 v) st in
  let! a3 := nd_map2 Rmult (nd_take 0 0 v) st in
  let! a4 := nd_map2 Rmult (nd_take 0 1 v) ct in
  let! s0 := nd_map2 Rminus a1 a2 in
  let! s1 := nd_map2 Rplus a3 a4 in
  let! ss := cat_first s0 s1 in
  let m := nd_repeat 3 1 (newaxis1 v) in
  (* m[:, :2] *= s *)
  let! w := nd_map2 Rmult (nd_slice 1 0 2 m) ss in
  let! m := nd_setslice 1 0 2 w m in
  (* m[0, :2] -= concatenate((ct, st)) *)
  let! c := cat_first ct st in
  let! w := nd_map2 Rminus (nd_slice 0 0 2 (nd_take 0 0 m)) c in
  let! w := nd_setslice 0 0 2 w (nd_take 0 0 m) in
  let! m := nd_setitem 0 0 w m in
  (* m[1, :2] += concatenate((st, -ct)) *)
  let! c := cat_first st (nd_map Ropp ct) in
  let! w := nd_map2 Rplus (nd_slice 0 0 2 (nd_take 0 1 m)) c in
  let! w := nd_setslice 0 0 2 w (nd_take 0 1 m) in
  let! m := nd_setitem 0 1 w m in
  (* m[:2, 2] *= v[2] *)
  let! w := nd_map2 Rmult (nd_slice 0 0 2 (nd_take 1 2 m)) (nd_take 0 2 v) in
  let! w := nd_setslice 0 0 2 w (nd_take 1 2 m) in
  let! m := nd_setitem 1 2 w m in
  (* m[2, 2] = 1. - z *)
  let! w := nd_setitem 0 2 (nd_take 0 0 (nd_map (fun x => 1 - x) z)) (nd_take 0 2 m) in
  let! m := nd_setitem 0 2 w m in
  if (2 <? ndim m)%nat then
    Ok (transpose m (roll_left 2 (seq 0 (ndim m))))
  else Ok m.
