(* The models run on the repository's unit test data (npplus/tests), over the rationals.
   This checks the models against the results the tests expect; it proves nothing about
   other inputs. *)
From Coq Require Import List Arith ZArith QArith Bool.
From Verif Require Import Num PyBase NdArray Poly PwPoly SolvePer Gauss Spline.
Import ListNotations.
Local Open Scope Q_scope.

(* numpy.linalg.inv *)
Definition qinv (n : nat) (m : nat -> nat -> Q) : nat -> nat -> Q :=
  match gsolve n m (eye2 n) with Ok x => at2 x | Err _ => fun _ _ => 0 end.
Definition qspline := @spline Q _ qinv gbanded gdense.
Definition qpline := @pline Q _ qinv gbanded gdense.
Definition cols (p : res (pwpoly Q)) : res (list Q * list (list Q)) :=
  rmap (fun p => (pxk p, map (ccol (pc p) (map (fun _ => O) (csh (pc p)))) (seq 0 (ck (pc p))))) p.
Definition y1 (l : list Q) : yarr Q := YArr [] (length l) (fun _ i => nth i l 0).

(* test_pw.py:61-90 *)
Definition txk : list Q := [-1; 0; 2; 3].
Definition tyk : list Q := [1; 1; -3; 5].
Definition tc : list (list Q) := [[1; 1; 0; 0]; [1; 1; 0; -1]; [1; -2; -3; 3#2]; [-3; 4; 6; -2]; [5; 10; 0; 0]].
Definition none2 : bcarg (K:=Q) := BcTuple [None; Some (scalar 0)].
(* test_spline, test_pw.py:173-216.  In the periodic case the expected array cp is the one
   setUp passed to PerPwPoly.new, which overwrites its last column in place. *)
Example run_spline : cols (qspline txk (y1 tyk) 3 (BcTuple []) (BcTuple []) false ExNone) = Ok (txk, tc).
Proof. vm_compute. reflexivity. Qed.
Example run_spline_hilo : cols (qspline txk (y1 tyk) 3 none2 none2 false ExNone) = Ok (txk, tc).
Proof. vm_compute. reflexivity. Qed.
Example run_spline_rev : cols (qspline (rev txk) (y1 (rev tyk)) 3 none2 none2 false (ExPair 1 1)) = Ok (txk, tc).
Proof. vm_compute. reflexivity. Qed.
Example run_spline_lo : cols (qspline txk (y1 tyk) 3 (BcTuple [Some (scalar 1); Some (scalar 0)]) (BcTuple []) false ExNone) = Ok (txk, tc).
Proof. vm_compute. reflexivity. Qed.
Example run_spline_hi : cols (qspline txk (y1 tyk) 3 (BcTuple []) (BcTuple [Some (scalar 10); Some (scalar 0)]) false ExNone) = Ok (txk, tc).
Proof. vm_compute. reflexivity. Qed.
Example run_spline_slopes : rmap (fun r => (map (fun c => nth 0 c 0) (snd r), nth 1 (nth 1 (snd r) []) 0, nth 1 (nth 4 (snd r) []) 0))
  (cols (qspline txk (y1 tyk) 3 (BcOne (Some (scalar 1))) (BcOne (Some (scalar 2))) false ExNone)) = Ok ([1; 1; 1; -3; 5], 1, 2).
Proof. vm_compute. reflexivity. Qed.
Example run_spline_extrap : cols (qspline txk (y1 tyk) 3 (BcTuple []) (BcTuple []) false (ExInt 1)) = Ok (txk, tc).
Proof. vm_compute. reflexivity. Qed.
Example run_spline_per : cols (qspline txk (y1 tyk) 3 (BcTuple []) (BcTuple []) true ExNone) =
  Ok (txk, [[1; 3; -18#5; 3#5]; [1; 3; -18#5; 3#5]; [1; -12#5; -9#5; 1]; [-3; 12#5; 21#5; -13#5]; [1; 3; -18#5; -13#5]]).
Proof. vm_compute. reflexivity. Qed.
Example run_pline : cols (qpline txk (y1 tyk) ExNone false) = Ok (txk, [[1; 0]; [1; 0]; [1; -2]; [-3; 8]; [5; 0]]).
Proof. vm_compute. reflexivity. Qed.
Example run_pline_extrap : cols (qpline txk (y1 tyk) (ExInt 1) false) = Ok (txk, [[1; 0]; [1; 0]; [1; -2]; [-3; 8]; [5; 8]]).
Proof. vm_compute. reflexivity. Qed.
Example run_pline_per : cols (qpline txk (y1 tyk) ExNone true) = Ok (txk, [[1; 0]; [1; 0]; [1; -2]; [-3; 4]; [1; 0]]).
Proof. vm_compute. reflexivity. Qed.
