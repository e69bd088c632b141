(* The fit models run on small versions of the repository's tests (test_pw.py:218-285), over
   the rationals: data taken from the curve are fitted by that curve. *)
From Coq Require Import List Arith ZArith QArith Bool.
From Verif Require Import Num PyBase NdArray Poly PwPoly SolvePer Gauss Spline Fit RunTests.
Import ListNotations.
Local Open Scope Q_scope.

(* scipy.linalg.solveh_banded, lower form *)
Definition gsolveh {K} {NK : Num K} (ab b : arr2 K) : res (arr2 K) :=
  if (nr b =? nc ab)%nat then
    gsolve (nc ab) (fun i j => let d := (Nat.max i j - Nat.min i j)%nat in
                      if (d <? nr ab)%nat then at2 ab d (Nat.min i j) else n0) b
  else Err ValueError.
Definition qplfit := @plfit Q _ qinv gsolveh gbanded gdense.
Definition qsplfit := @splfit Q _ gbanded gdense.
Definition qcost := @splfit_cost Q _ gbanded gdense.
Definition ar (l : list Q) : nd Q := vec 0 l.
Definition tx : list Q := [-1; -3#4; -1#4; 0; 1#2; 1; 3#2; 7#4; 9#4; 5#2; 3].
Definition tab (p : res (pwpoly Q)) (x : list Q) : nd Q :=
  match p with Ok p => ar (map (fun t => match pw_call p [] t with Ok v => v | _ => 0 end) x) | _ => ar [] end.
Definition pl := qpline txk (y1 tyk) ExNone false.
Definition plp := qpline txk (y1 tyk) ExNone true.
Definition cu := qspline txk (y1 tyk) 3 (BcTuple []) (BcTuple []) false ExNone.
Definition cup := qspline txk (y1 tyk) 3 (BcTuple []) (BcTuple []) true ExNone.
Example run_plfit : cols (qplfit txk (ar tx) (tab pl tx) None [] [] false ExNone) = cols pl.
Proof. vm_compute. reflexivity. Qed.
Example run_plfit_sig : cols (qplfit (rev txk) (ar tx) (tab pl tx) (Some (ar [1;2;1;3;1;4;1;1;1;2;1])) [] [] false ExNone) = cols pl.
Proof. vm_compute. reflexivity. Qed.
Example run_plfit_hilo : cols (qplfit txk (ar tx) (tab pl tx) None [scalar 1] [scalar 5] false ExNone) = cols pl.
Proof. vm_compute. reflexivity. Qed.
Example run_plfit_per : cols (qplfit txk (ar tx) (tab plp tx) None [] [] true ExNone) = cols plp.
Proof. vm_compute. reflexivity. Qed.
Example run_plfit_beyond : rmap (fun r => fst r) (cols (qplfit txk (ar (-2 :: 7#2 :: tx)) (tab pl (-2 :: 7#2 :: tx)) None [] [] false ExNone))
  = Ok [-2; -1; 0; 2; 3; 7#2].
Proof. vm_compute. reflexivity. Qed.
Example run_splfit : cols (qsplfit txk (ar tx) (tab cu tx) None 3 None [] [] false ExNone) = cols cu.
Proof. vm_compute. reflexivity. Qed.
Example run_splfit_rev : cols (qsplfit (rev txk) (ar tx) (tab cu tx) None 3 (Some 1%Z) [] [] false (ExInt 2)) = cols cu.
Proof. vm_compute. reflexivity. Qed.
Example run_splfit_hilo : cols (qsplfit txk (ar tx) (tab cu tx) None 3 None [scalar 1; scalar 1] [scalar 5; scalar 10] false ExNone) = cols cu.
Proof. vm_compute. reflexivity. Qed.
Example run_splfit_hilo2 : rmap (fun r => (firstn 2 (nth 1 (snd r) []), firstn 2 (nth 4 (snd r) [])))
  (cols (qsplfit txk (ar tx) (tab cu tx) None 3 None [scalar 2; scalar 0] [scalar 4; scalar 1] false ExNone)) = Ok ([2; 0], [4; 1]).
Proof. vm_compute. reflexivity. Qed.
Example run_splfit_per : cols (qsplfit txk (ar tx) (tab cup tx) None 3 None [] [] true ExNone) = cols cup.
Proof. vm_compute. reflexivity. Qed.
