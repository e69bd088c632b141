(* Python values and exceptions used throughout the model. *)
From Coq Require Import String ZArith Lia Bool List.
Import ListNotations.

(* The exception classes that appear in /repo/npplus (raise statements) or are
   raised by the numpy/python primitives it calls. *)
Inductive exn :=
| TypeError | ValueError | IndexError | KeyError | AttributeError
| LinAlgError | LevmarError | ValueErrorMsg (msg : string).

Inductive res (A : Type) :=
| Ok (a : A)
| Err (e : exn).
Arguments Ok {A} a.
Arguments Err {A} e.

Definition bind {A B} (x : res A) (f : A -> res B) : res B :=
  match x with Ok a => f a | Err e => Err e end.
Declare Scope res_scope.
Delimit Scope res_scope with res.
Notation "'let!' x := e 'in' f" := (bind e (fun x => f))
  (at level 61, x pattern, e at next level, right associativity) : res_scope.
Definition rmap {A B} (f : A -> B) (x : res A) : res B :=
  match x with Ok a => Ok (f a) | Err e => Err e end.
Definition isOk {A} (x : res A) : bool := match x with Ok _ => true | Err _ => false end.

Fixpoint mapM {A B} (f : A -> res B) (l : list A) : res (list B) :=
  match l with
  | [] => Ok []
  | a :: r => match f a with
              | Err e => Err e
              | Ok b => match mapM f r with Err e => Err e | Ok bs => Ok (b :: bs) end
              end
  end.

Definition of_opt {A} (e : exn) (o : option A) : res A :=
  match o with Some a => Ok a | None => Err e end.

(* python index i into a sequence of length n: negative counts from the end *)
Definition py_index (n : nat) (i : Z) : option nat :=
  if (i <? 0)%Z then
    (if (Z.of_nat n + i <? 0)%Z then None else Some (Z.to_nat (Z.of_nat n + i)))
  else if (i <? Z.of_nat n)%Z then Some (Z.to_nat i) else None.

(* indices selected by a python slice start:stop:step on length n, step <> 0
   (CPython PySlice_AdjustIndices / PySlice_Unpack); None = omitted *)
Definition slice_adjust (n : Z) (step : Z) (v : option Z) (is_start : bool) : Z :=
  let lower := if (step <? 0)%Z then (-1)%Z else 0%Z in
  let upper := if (step <? 0)%Z then (n - 1)%Z else n in
  match v with
  | None => if is_start then (if (step <? 0)%Z then upper else lower)
            else (if (step <? 0)%Z then lower else upper)
  | Some s =>
    if (s <? 0)%Z then (let s' := (s + n)%Z in if (s' <? lower)%Z then lower else s')
    else if (upper <? s)%Z then upper else s
  end.
Definition slice_len (start stop step : Z) : Z :=
  if (step <? 0)%Z then
    (if (stop <? start)%Z then ((start - stop - 1) / (- step) + 1)%Z else 0%Z)
  else (if (start <? stop)%Z then ((stop - start - 1) / step + 1)%Z else 0%Z).
Definition slice_indices (n : nat) (start stop : option Z) (step : Z) : list nat :=
  let n' := Z.of_nat n in
  let a := slice_adjust n' step start true in
  let b := slice_adjust n' step stop false in
  map (fun t => Z.to_nat (a + Z.of_nat t * step)%Z)
      (seq 0 (Z.to_nat (slice_len a b step))).

(* list helpers *)
Fixpoint upd {A} (i : nat) (v : A) (l : list A) : list A :=
  match l, i with
  | [], _ => []
  | _ :: r, O => v :: r
  | a :: r, S j => a :: upd j v r
  end.

(* zip with a function, to the shorter length *)
Fixpoint zipw {A B C} (f : A -> B -> C) (l : list A) (m : list B) : list C :=
  match l, m with
  | a :: l', b :: m' => f a b :: zipw f l' m'
  | _, _ => []
  end.

Lemma upd_length {A} i (v : A) l : length (upd i v l) = length l.
Proof. revert i; induction l as [|a l IH]; intros [|i]; cbn; auto. Qed.
Lemma nth_upd_eq {A} i (v d : A) l : i < length l -> nth i (upd i v l) d = v.
Proof. revert i; induction l as [|a l IH]; intros [|i]; cbn; intros; try lia; auto. apply IH; lia. Qed.
Lemma nth_upd_neq {A} i j (v d : A) l : i <> j -> nth j (upd i v l) d = nth j l d.
Proof.
  revert i j; induction l as [|a l IH]; intros [|i] [|j]; cbn; intros; try lia; auto.
Qed.
Lemma zipw_length {A B C} (f : A -> B -> C) l m :
  length (zipw f l m) = Nat.min (length l) (length m).
Proof. revert m; induction l as [|a l IH]; intros [|b m]; cbn; auto. Qed.
Lemma nth_zipw {A B C} (f : A -> B -> C) l m i da db dc :
  i < length l -> i < length m -> nth i (zipw f l m) dc = f (nth i l da) (nth i m db).
Proof.
  revert m i; induction l as [|a l IH]; intros [|b m] [|i]; cbn; intros; try lia; auto.
  apply IH; lia.
Qed.
Lemma mapM_length {A B} (f : A -> res B) l r : mapM f l = Ok r -> length r = length l.
Proof.
  revert r; induction l as [|a l IH]; cbn; intros r H.
  - inversion H; reflexivity.
  - destruct (f a); [|discriminate]. destruct (mapM f l) eqn:E; [|discriminate].
    inversion H; subst; cbn. rewrite (IH a1); auto.
Qed.
Lemma mapM_nth {A B} (f : A -> res B) l r i da db :
  mapM f l = Ok r -> i < length l -> f (nth i l da) = Ok (nth i r db).
Proof.
  revert r i; induction l as [|a l IH]; cbn; intros r i H Hi; [lia|].
  destruct (f a) eqn:Ef; [|discriminate].
  destruct (mapM f l) eqn:E; [|discriminate].
  inversion H; subst. destruct i; cbn; auto. apply IH; auto. lia.
Qed.
Lemma mapM_ok {A B} (f : A -> res B) (g : A -> B) l :
  (forall a, In a l -> f a = Ok (g a)) -> mapM f l = Ok (map g l).
Proof.
  induction l as [|a l IH]; cbn; intros H; [reflexivity|].
  rewrite H by auto. rewrite IH by auto. reflexivity.
Qed.
