(* C27-C29: polyfun and polyddx (npplus/pwpoly.py:1460-1547). *)
From Coq Require Import Reals List Arith Lia Lra.
From Verif Require Import Num PyBase Poly SpecPoly PolyProofs.
Import ListNotations.
Local Open Scope R_scope.

(* polyfun(c, x) is c[0] + c[1]*x + ... for every non-empty c; an empty
   coefficient axis is an IndexError. *)
Theorem C27_polyfun_evaluates : forall (c : list R) (x : R),
  (c <> [] -> polyfun c x = Ok (peval c x)) /\ (c = [] -> polyfun c x = Err IndexError).
Proof.
  intros c x; split; intros H; [|subst; reflexivity].
  destruct c; [congruence|]. cbn [polyfun]. rewrite horner_peval. reflexivity.
Qed.
Example C27_case : polyfun [1; 2; 3] 2 = Ok 17.
Proof. rewrite (proj1 (C27_polyfun_evaluates _ _)) by discriminate. unfold peval; cbn. f_equal; ring. Qed.
Print Assumptions C27_polyfun_evaluates.

(* The k-th entry of polyddx is the k-th derivative (over k! unless norm), for
   all c with at least two coefficients, or any c when no derivative is asked; with norm for
   k <= 20 (and above the degree), where the integers counting up k! do not overflow. *)
Theorem C28_polyddx_partial : forall (c : list R) (x : R) (nd : option nat) (norm : bool),
  let N := match nd with Some m => m | None => (length c - 1)%nat end in
  c <> [] -> (2 <= length c)%nat \/ N = 0%nat ->
  exists r, polyddx c x nd norm = Ok r /\ length r = S N /\
    forall k, (k <= N)%nat -> (norm = true -> (k <= 20 \/ length c <= k)%nat) ->
      nderiv_at k (peval c) x (if norm then nth k r 0 else INR (fact k) * nth k r 0).
Proof.
  intros c x nd norm N Hc H. unfold polyddx. destruct c as [|a c]; [congruence|].
  eexists. split; [reflexivity|]. fold N. rewrite taylor_tlist by (cbn [length] in *; lia).
  split.
  - destruct norm; rewrite ?denorm_length; apply tlist_length.
  - intros k Hk Hf. exists (fun t => INR (fact k) * tay k (a :: c) t). split; [apply nderiv_tay|].
    destruct norm.
    + rewrite denorm_nth; [|destruct (Hf eq_refl); [auto|right; rewrite tlist_nth by lia; apply tay_big; auto]|rewrite tlist_length; lia].
      rewrite tlist_nth by lia. ring.
    + rewrite tlist_nth by lia. reflexivity.
Qed.
Example C28_case : exists r, polyddx [1; 2; 3] 2 (Some 4%nat) true = Ok r /\ r = [17; 14; 6; 0; 0].
Proof. eexists. split; [reflexivity|]. cbn. numR. repeat (f_equal; try ring). Qed.
Print Assumptions C28_polyddx_partial.

(* For a constant polynomial (one coefficient) the code returns the constant
   itself as the first derivative: the property is false of the code. *)
Theorem C28_polyddx_refuted : exists (c : list R) (x : R) (nd : nat) (r : list R),
  polyddx c x (Some nd) true = Ok r /\ (1 <= nd)%nat /\ ~ nderiv_at 1 (peval c) x (nth 1 r 0).
Proof.
  exists [1], 0, 1%nat, [1; 1]. split; [|split].
  - cbn. numR. repeat f_equal; ring.
  - lia.
  - intros (g & Hg & E). cbn [nth] in E.
    pose proof (nderiv_unique 1 (peval [1]) _ _ Hg (nderiv_tay 1 [1]) 0) as U. cbn in U. lra.
Qed.
Print Assumptions C28_polyddx_refuted.
(* 21! does not fit into 64 bits: the 21st derivative that polyddx reports with norm is that of
   another polynomial, with the sign reversed, unless it is 0 *)
Lemma factorial_gen k (c : list R) (x : R) (nd : nat) : k = 21%nat -> (k < length c)%nat -> (k <= nd)%nat ->
  exists r t, polyddx c x (Some nd) true = Ok r /\ nderiv_at k (peval c) x t /\
    nth k r 0 = t * (-4249290049419214848 / 51090942171709440000) /\ (t <> 0 -> nth k r 0 * t < 0).
Proof.
  intros K Hc Hn. unfold polyddx. destruct c as [|a c]; [cbn in Hc; lia|]. eexists. exists (INR (fact k) * tay k (a :: c) x).
  split; [reflexivity|]. split; [eexists; split; [apply nderiv_tay|reflexivity]|]. rewrite taylor_tlist by (left; lia).
  rewrite denorm_wrapped by (auto; rewrite tlist_length; lia). rewrite tlist_nth by lia. split; [reflexivity|].
  set (t := _ * tay _ _ _). clearbody t. intros T. replace (t * (-4249290049419214848 / 51090942171709440000) * t) with (- (t * t * (4249290049419214848 / 51090942171709440000))) by field.
  assert (0 < t * t) by nra. lra.
Qed.
Theorem C28_factorial_refuted : forall (c : list R) (x : R) (nd : nat), (21 < length c)%nat -> (21 <= nd)%nat ->
  exists r t, polyddx c x (Some nd) true = Ok r /\ nderiv_at 21 (peval c) x t /\
    nth 21 r 0 = t * (-4249290049419214848 / 51090942171709440000) /\ (t <> 0 -> nth 21 r 0 * t < 0).
Proof. intros c x nd. exact (factorial_gen 21 c x nd eq_refl). Qed.
Example C28_factorial_case : exists c : list R, (21 < length c)%nat /\ tay 21 c 0 = 1.
Proof. exists (repeat 0 21 ++ [1]). split; [rewrite app_length, repeat_length; cbn; lia|]. exact (tay_top (repeat 0 21) 1 0). Qed.
Print Assumptions C28_factorial_refuted.

(* polyddx(c, x) are the coefficients of the translated polynomial *)
Theorem C29_polyddx_translates : forall (c : list R) (x y : R), c <> [] ->
  exists cx, polyddx c x None false = Ok cx /\ length cx = length c /\
    (forall z, polyfun cx z = polyfun c (x + z)) /\
    polyddx cx (y - x) None false = polyddx c y None false.
Proof.
  intros c x y H. exists (pshift c x).
  assert (Hn : pshift c x <> []).
  { intros E. apply (f_equal (@length R)) in E. rewrite pshift_length in E by auto. destruct c; cbn in E; congruence. }
  assert (P : forall d z, d <> [] -> polyddx d z None false = Ok (pshift d z)) by (intros [|]; [congruence|reflexivity]).
  rewrite !P by auto. split; [reflexivity|]. split; [apply pshift_length; auto|]. split.
  - intros z. rewrite !(proj1 (C27_polyfun_evaluates _ _)) by auto. rewrite pshift_peval by auto. reflexivity.
  - rewrite pshift_pshift by auto. do 2 f_equal. ring.
Qed.
Example C29_case : polyddx [1; 2; 3] 2 None false = Ok [17; 14; 3].
Proof. cbn. numR. repeat (f_equal; try ring). Qed.
Print Assumptions C29_polyddx_translates.
