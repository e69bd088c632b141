(* C70: the values of the default options of levmar (lsqfit.py:393-394), as numbers and as doubles. *)
From Coq Require Import String List ZArith Reals Lra.
From Flocq Require Import Core BinarySingleNaN.
From Verif Require Import Num PyBase Float64 Levmar LmConfig.
Import ListNotations.
Local Open Scope R_scope.
Local Open Scope string_scope.

Definition defaults_R : list (string * @cval R) :=
  [("itmax", CInt 100); ("tol", CNum 1e-7%R); ("lambda0", CNum 0.001%R); ("lambdax", CNum 1000000000000%R); ("gain", CNum 10%R);
   ("prel", CNum 1e-6%R); ("pabs", CNum 1e-9%R)].
Theorem C70_defaults : @config_default R NumR = defaults_R /\ @lm_default R NumR = LmCfg 100 1e-7 0.001 1000000000000 10 1e-6 1e-9.
Proof.
  assert (E : @lm_default R NumR = LmCfg 100 1e-7 0.001 1000000000000 10 1e-6 1e-9).
  { unfold lm_default. cbn [n1 ndiv nofZ NumR]. f_equal; simpl; lra. }
  split; [|exact E]. unfold config_default. now rewrite E.
Qed.
(* the doubles m 2^e that the literals stand for *)
Definition dbl (v : @cval f64) : Z * option (Z * Z) :=
  match v with
  | CInt z => (z, None)
  | CNum x => (0%Z, match B2SF x with SpecFloat.S754_finite false m e => Some (Zpos m, e) | _ => None end)
  | _ => (0%Z, None)
  end.
Theorem C70_default_doubles : map (fun kv => (fst kv, dbl (snd kv))) (@config_default f64 NumF) =
  [("itmax", (100, None)); ("tol", (0, Some (7555786372591432, -76))); ("lambda0", (0, Some (4611686018427388, -62)));
   ("lambdax", (0, Some (8192000000000000, -13))); ("gain", (0, Some (5629499534213120, -49)));
   ("prel", (0, Some (4722366482869645, -72))); ("pabs", (0, Some (4835703278458517, -82)))]%Z.
Proof. vm_compute. reflexivity. Qed.
Print Assumptions C70_defaults.
Print Assumptions C70_default_doubles.
