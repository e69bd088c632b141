(* Runs of the levmar model over Q, with exact elimination as the linear solver. *)
From Coq Require Import String List Arith ZArith QArith Qround Bool.
From Verif Require Import Num PyBase NdArray PwPoly SolvePer Gauss LsqModel Levmar ItemAttr LmConfig.
Import ListNotations.
Local Open Scope Q_scope.

Definition q_inv (a : arr2 Q) : res (arr2 Q) :=
  let n := nr a in
  match gsolve n (at2 a) (Arr2 n n (fun i j => if (i =? j)%nat then 1 else 0)) with Ok x => Ok x | Err _ => Err LinAlgError end.
Definition q_solve (a : arr2 Q) (b : list Q) : res (list Q) :=
  let n := nr a in
  match gsolve n (at2 a) (Arr2 n 1 (fun i _ => nth i b 0)) with
  | Ok x => Ok (map (fun i => at2 x i 0%nat) (seq 0 n)) | Err _ => Err LinAlgError end.

(* the line p0 + p1 x through three points x = 0, 1, 2 *)
Definition line_f (p : list Q) : nd Q := vec 0 (map (fun x => Qred (nth 0 p 0 + nth 1 p 0 * x)) [0; 1; 2]).
Definition line_d (_ : list Q) : nd Q := Nd [2; 3]%nat (fun idx => match idx with [0%nat; _] => 1 | [_; k] => inject_Z (Z.of_nat k) | _ => 0 end).
Definition plain_line : @lfun Q := LPlain (fun _ p => Ok (line_f p)).
Definition gen_line : @lfun Q := LGen (fun _ p => (Ok (line_f p), Ok (line_d p))).
Definition q_kw : @lmkw Q := LmKw None None None None None None.
Definition pts (r : res (option (@lmfit Q)) * trace Q) : res (list Q * (Z * nat * Z)) :=
  match fst r with Ok (Some m) => Ok (l_p m, (l_niter m, l_neval m, l_ndof m)) | Ok None => Err ValueError | Err e => Err e end.
Definition rough (x : Q) : Z := Qfloor (x * 1000000 + (1#2)).
Definition run f kw p0 := levmar_run f q_solve q_inv 100 100 lm_default (vec 0 [1; 2; 5]) p0 kw [].
Definition res_of r := match pts r with Ok (p, n) => Ok (map rough p, n) | Err e => Err e end.
Example run_gen : res_of (run gen_line q_kw [0; 0]) = Ok ([666667%Z; 2000000%Z], (2%Z, 6%nat, 1%Z)).
Proof. vm_compute. reflexivity. Qed.
Example run_plain : res_of (run plain_line q_kw [0; 0]) = Ok ([666667%Z; 2000000%Z], (2%Z, 6%nat, 1%Z)).
Proof. vm_compute. reflexivity. Qed.
(* a fixed parameter and an upper bound: every call has p[0] = 0 and p[1] <= 1 *)
Definition fixed_run := run plain_line (LmKw None (Some [0%Z]) (Some [-1]) (Some [1]) None None) [0; 1#2].
Example run_fixed : res_of fixed_run = Ok ([0%Z; 1000000%Z], (1%Z, 4%nat, 2%Z)).
Proof. vm_compute. reflexivity. Qed.
Example run_fixed_calls : map (map rough) (snd fixed_run) =
  [[0; 500000]; [0; 500001]; [0; 1000000]; [0; 1000000]; [0; 999999]; [0; 1000000]]%Z.
Proof. vm_compute. reflexivity. Qed.
(* negative numbers in pfix count from the end *)
Example run_fixed_last : res_of (run gen_line (LmKw None (Some [(-1)%Z]) None None None None) [0; 2]) = Ok ([666667%Z; 2000000%Z], (2%Z, 6%nat, 2%Z)).
Proof. vm_compute. reflexivity. Qed.
Example run_bad_pfix : fst (run gen_line (LmKw None (Some [2%Z]) None None None None) [0; 0]) = Err IndexError.
Proof. vm_compute. reflexivity. Qed.
Example run_empty_pfix : fst (run gen_line (LmKw None (Some []) None None None None) [0; 0]) = Err IndexError.
Proof. vm_compute. reflexivity. Qed.
(* all parameters fixed: the array of partial derivatives has no second axis *)
Example run_all_fixed : fst (run plain_line (LmKw None (Some [0%Z; 1%Z]) None None None None) [0; 0]) = Err ValueError.
Proof. vm_compute. reflexivity. Qed.
(* errors of the data *)
Example run_errs : res_of (run gen_line (LmKw (Some (vec 0 [1; 1; 1000000])) None None None None None) [0; 0]) = Ok ([1000000%Z; 1000000%Z], (3%Z, 8%nat, 1%Z)).
Proof. vm_compute. reflexivity. Qed.
(* the bounds are too close for any finite difference *)
Example run_close : fst (run plain_line (LmKw None None (Some [0]) (Some [1 # 10000000000]) None None) [0; 0]) = Err ValueError.
Proof. vm_compute. reflexivity. Qed.
Example run_zero_step : fst (run plain_line (LmKw None None None None None (Some [0])) [0; 0]) = Err ValueError.
Proof. vm_compute. reflexivity. Qed.
(* numerical_partials of p0*p1: steps of opposite sign because of the upper bound of p0 *)
Definition prod_np := numerical_partials (fun _ p => Ok (vec 0 [Qred (nth 0 p 0 * nth 1 p 0)])) (Some [0; 0]) (Some [2; 9])
                        [1#10; 1#10] [1#100; 1#100] [true; true] [2; 3] (vec 0 [6]) [].
Example run_partials : (rmap (fun d => (shp d, map (fun k => get d [k; 0%nat]) [0; 1]%nat)) (fst prod_np), snd prod_np)
  = (Ok ([2; 1]%nat, [3; 2]), [[9#5; 3]; [2; 33#10]]).
Proof. vm_compute. reflexivity. Qed.

(* two calls, the first with cfg={'itmax': 1}: it stops after one pass, the second does not *)
Local Open Scope string_scope.
Definition a_call (c : option nat) : @lmcall Q := LmCall gen_line (vec 0 [1; 2; 5]) [0; 0] q_kw c.
Definition two_calls := levmar_calls q_solve q_inv 100 100 0 [a_call (Some 1%nat); a_call None] [config_default; [("itmax", CInt 1)]] [].
Example run_config :
  (map (rmap (option_map (fun mi => l_niter (fst mi)))) (fst (fst two_calls)), firstn 2 (snd (fst two_calls)),
   map (fun d => dget d "itmax") (skipn 2 (snd (fst two_calls))), map (fun d => dget d "niter") (skipn 2 (snd (fst two_calls)))) =
  ([Ok (Some 1%Z); Ok (Some 2%Z)], [config_default; [("itmax", CInt 1)]], [Ok (CInt 1); Ok (CInt 100)], [Ok (CInt 1); Ok (CInt 2)]).
Proof. vm_compute. reflexivity. Qed.
