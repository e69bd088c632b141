(* Numbers used by the model.  The code under /repo computes with IEEE doubles
   (asfarray, e.g. npplus/basic.py:51-52, npplus/pwpoly.py:64-65).  The model is
   written over a class of operations so that the same definitions can be run on
   rationals (NumQ, for vm_compute) and reasoned about over the reals (NumR).
   Rounding, overflow, inf and nan are not modelled by NumQ/NumR. *)
From Coq Require Import ZArith QArith Qround Reals Lra List Bool.

Class Num (K : Type) := {
  n0 : K;
  n1 : K;
  nadd : K -> K -> K;
  nsub : K -> K -> K;
  nmul : K -> K -> K;
  ndiv : K -> K -> K;
  nopp : K -> K;
  nltb : K -> K -> bool;
  nleb : K -> K -> bool;
  neqb : K -> K -> bool;
  nofZ : Z -> K;
  nfloor : K -> Z
}.

Declare Scope num_scope.
Delimit Scope num_scope with K.
Notation "x + y" := (nadd x y) : num_scope.
Notation "x - y" := (nsub x y) : num_scope.
Notation "x * y" := (nmul x y) : num_scope.
Notation "x / y" := (ndiv x y) : num_scope.
Notation "- x" := (nopp x) : num_scope.
Notation "x <? y" := (nltb x y) : num_scope.
Notation "x <=? y" := (nleb x y) : num_scope.
Notation "x =? y" := (neqb x y) : num_scope.

Section Derived.
  Context {K : Type} {NK : Num K}.
  Local Open Scope num_scope.
  Definition nofnat (n : nat) : K := nofZ (Z.of_nat n).
  (* numpy.absolute / abs *)
  Definition nabs (x : K) : K := if x <? n0 then - x else x.
  (* numpy.maximum / minimum of two scalars *)
  Definition nmax (x y : K) : K := if x <? y then y else x.
  Definition nmin (x y : K) : K := if y <? x then y else x.
  (* python/numpy % : the result has the sign of the divisor *)
  Definition nmod (x y : K) : K := x - y * nofZ (nfloor (x / y)).
  Fixpoint npow (x : K) (n : nat) : K :=
    match n with O => n1 | S m => x * npow x m end.
  (* sum over a list, left to right, starting from 0 *)
  Definition nsum (l : list K) : K := fold_left nadd l n0.
End Derived.

(* Rationals, kept in lowest terms so that equality of results can be checked
   by computation. *)
Definition Qltb (x y : Q) : bool := negb (Qle_bool y x).
#[global] Instance NumQ : Num Q := {
  n0 := 0%Q; n1 := 1%Q;
  nadd x y := Qred (x + y);
  nsub x y := Qred (x - y);
  nmul x y := Qred (x * y);
  ndiv x y := Qred (x / y);
  nopp x := Qred (- x);
  nltb := Qltb;
  nleb := Qle_bool;
  neqb := Qeq_bool;
  nofZ z := inject_Z z;
  nfloor := Qfloor
}.

(* Reals. *)
Definition Rltb (x y : R) : bool := if Rlt_dec x y then true else false.
Definition Rleb (x y : R) : bool := if Rle_dec x y then true else false.
Definition Reqb (x y : R) : bool := if Req_EM_T x y then true else false.
#[global] Instance NumR : Num R := {
  n0 := 0%R; n1 := 1%R;
  nadd := Rplus; nsub := Rminus; nmul := Rmult; ndiv := Rdiv; nopp := Ropp;
  nltb := Rltb; nleb := Rleb; neqb := Reqb;
  nofZ := IZR;
  nfloor := Int_part
}.

Lemma Rltb_spec x y : reflect (x < y)%R (Rltb x y).
Proof. unfold Rltb; destruct (Rlt_dec x y); constructor; assumption. Qed.
Lemma Rleb_spec x y : reflect (x <= y)%R (Rleb x y).
Proof. unfold Rleb; destruct (Rle_dec x y); constructor; assumption. Qed.
Lemma Reqb_spec x y : reflect (x = y)%R (Reqb x y).
Proof. unfold Reqb; destruct (Req_EM_T x y); constructor; assumption. Qed.

(* Turn class operations at R into the standard library ones. *)
Ltac numR :=
  change (@n0 R NumR) with 0%R in *; change (@n1 R NumR) with 1%R in *;
  change (@nadd R NumR) with Rplus in *; change (@nsub R NumR) with Rminus in *;
  change (@nmul R NumR) with Rmult in *; change (@ndiv R NumR) with Rdiv in *;
  change (@nopp R NumR) with Ropp in *; change (@nltb R NumR) with Rltb in *;
  change (@nleb R NumR) with Rleb in *; change (@neqb R NumR) with Reqb in *;
  change (@nofZ R NumR) with IZR in *; change (@nfloor R NumR) with Int_part in *.

Lemma nabs_R x : @nabs R NumR x = Rabs x.
Proof.
  unfold nabs; numR. destruct (Rltb_spec x 0).
  - rewrite Rabs_left; lra.
  - rewrite Rabs_right; lra.
Qed.
Lemma nmax_R x y : @nmax R NumR x y = Rmax x y.
Proof.
  unfold nmax; numR. destruct (Rltb_spec x y).
  - rewrite Rmax_right; lra.
  - rewrite Rmax_left; lra.
Qed.
Lemma nmin_R x y : @nmin R NumR x y = Rmin x y.
Proof.
  unfold nmin; numR. destruct (Rltb_spec y x).
  - rewrite Rmin_right; lra.
  - rewrite Rmin_left; lra.
Qed.
Lemma npow_R x n : @npow R NumR x n = pow x n.
Proof. induction n as [|n IH]; cbn; [reflexivity|]. rewrite IH. reflexivity. Qed.
Lemma nofnat_R n : @nofnat R NumR n = INR n.
Proof. unfold nofnat. numR. symmetry. apply INR_IZR_INZ. Qed.
Lemma Int_part_bounds x : (IZR (Int_part x) <= x < IZR (Int_part x) + 1)%R.
Proof. pose proof (base_Int_part x). lra. Qed.
