(* Derivatives in double precision: polyddx and p(x, nd).  /repo/npplus/pwpoly.py:299-321, 1484-1538. *)
From Coq Require Import List Arith ZArith Bool Lia Reals Lra.
From Flocq Require Import BinarySingleNaN.
From Verif Require Import Num PyBase NdArray Poly SpecPoly PolyProofs PwPoly PwBase Float64 PropsFloat PropsFloatPw.
Import ListNotations.
Local Open Scope R_scope.

(* ---- Taylor coefficients with absolute values ---- *)
Lemma tay_abs_pos c x : forall k, 0 <= tay k (map Rabs c) (Rabs x).
Proof.
  induction c as [|a c IH]; intros k; cbn [map tay]; [lra|]. pose proof (Rabs_pos a). pose proof (Rabs_pos x).
  destruct k as [|k]; [pose proof (Rmult_le_pos _ _ (Rabs_pos x) (IH 0%nat)); lra|].
  pose proof (Rmult_le_pos _ _ (Rabs_pos x) (IH (S k))). pose proof (IH k). lra.
Qed.
Lemma tay_abs_le c x : forall k, Rabs (tay k c x) <= tay k (map Rabs c) (Rabs x).
Proof.
  induction c as [|a c IH]; intros k; cbn [map tay]; [rewrite Rabs_R0; lra|].
  destruct k as [|k]; (eapply Rle_trans; [apply Rabs_triang|]; rewrite Rabs_mult).
  - apply Rplus_le_compat_l. apply Rmult_le_compat_l; auto using Rabs_pos.
  - apply Rplus_le_compat; auto. apply Rmult_le_compat_l; auto using Rabs_pos.
Qed.
(* room for the underflows: 1 + (1+|x|) + ... + (1+|x|)^(n-1) *)
Definition under (n : nat) (x : R) : R := peval (repeat 1 n) (1 + Rabs x).
Lemma under_S n x : under (S n) x = 1 + Rabs x * under n x + under n x.
Proof. unfold under. cbn [repeat]. rewrite peval_cons. ring. Qed.
Lemma under_pos n x : 0 <= under n x.
Proof.
  induction n as [|n IH]; [unfold under; cbn [repeat]; rewrite peval_nil; lra|]. rewrite under_S. pose proof (Rmult_le_pos _ _ (Rabs_pos x) IH). lra.
Qed.
Lemma tri5 a b c d e : Rabs (a + b + c + d + e) <= Rabs a + Rabs b + Rabs c + Rabs d + Rabs e.
Proof.
  pose proof (Rabs_triang a b). pose proof (Rabs_triang (a + b) c). pose proof (Rabs_triang (a + b + c) d). pose proof (Rabs_triang (a + b + c + d) e). lra.
Qed.
(* one multiply-add with errors in both terms *)
Lemma madd_err X q P A s S B H d e h w : Rabs d <= uro -> Rabs e <= uro -> Rabs h <= uflow -> 1 <= w -> 0 <= H ->
  Rabs P <= A -> Rabs S <= B -> Rabs (q - P) <= (w - 1) * A + w * (uflow * H) -> Rabs (s - S) <= (w - 1) * B + w * (uflow * H) ->
  Rabs ((q * X * (1 + d) + h + s) * (1 + e) - (X * P + S)) <=
    ((1 + uro) ^ 2 * w - 1) * (Rabs X * A + B) + (1 + uro) ^ 2 * w * (uflow * (1 + Rabs X * H + H)).
Proof.
  intros Hd He Hh W H0 PA SB E1 E2. pose proof uro_pos as U. pose proof uflow_pos as UF. pose proof (Rabs_pos X) as X0.
  assert (A0 : 0 <= A) by (pose proof (Rabs_pos P); lra). assert (B0 : 0 <= B) by (pose proof (Rabs_pos S); lra).
  assert (Q2 : Rabs ((1 + d) * (1 + e)) <= (1 + uro) ^ 2).
  { rewrite Rabs_mult. replace ((1 + uro) ^ 2) with ((1 + uro) * (1 + uro)) by ring. apply Rmult_le_compat; auto using Rabs_pos, abs_1e. }
  assert (Q3 : Rabs ((1 + d) * (1 + e) - 1) <= (1 + uro) ^ 2 - 1).
  { replace ((1 + d) * (1 + e) - 1) with (d + e * (1 + d)) by ring. eapply Rle_trans; [apply Rabs_triang|]. rewrite Rabs_mult.
    assert (Rabs e * Rabs (1 + d) <= uro * (1 + uro)) by (apply Rmult_le_compat; auto using Rabs_pos, abs_1e). replace ((1 + uro) ^ 2 - 1) with (uro + uro * (1 + uro)) by ring. lra. }
  replace ((q * X * (1 + d) + h + s) * (1 + e) - (X * P + S))
    with ((q - P) * X * ((1 + d) * (1 + e)) + P * X * ((1 + d) * (1 + e) - 1) + h * (1 + e) + (s - S) * (1 + e) + S * e) by ring.
  assert (B1 : Rabs ((q - P) * X * ((1 + d) * (1 + e))) <= ((w - 1) * A + w * (uflow * H)) * Rabs X * (1 + uro) ^ 2).
  { rewrite !(Rabs_mult (_ * X)), (Rabs_mult _ X). apply Rmult_le_compat; auto using Rabs_pos; [apply Rmult_le_pos; apply Rabs_pos|]. apply Rmult_le_compat_r; auto. }
  assert (B2 : Rabs (P * X * ((1 + d) * (1 + e) - 1)) <= A * Rabs X * ((1 + uro) ^ 2 - 1)).
  { rewrite !(Rabs_mult (_ * X)), (Rabs_mult _ X). apply Rmult_le_compat; auto using Rabs_pos; [apply Rmult_le_pos; apply Rabs_pos|]. apply Rmult_le_compat_r; auto. }
  assert (B3 : Rabs (h * (1 + e)) <= uflow * (1 + uro)) by (rewrite Rabs_mult; apply Rmult_le_compat; auto using Rabs_pos, abs_1e).
  assert (B4 : Rabs ((s - S) * (1 + e)) <= ((w - 1) * B + w * (uflow * H)) * (1 + uro)) by (rewrite Rabs_mult; apply Rmult_le_compat; auto using Rabs_pos, abs_1e).
  assert (B5 : Rabs (S * e) <= B * uro) by (rewrite Rabs_mult; apply Rmult_le_compat; auto using Rabs_pos).
  set (v := 1 + uro) in *. assert (V1 : 1 <= v) by (unfold v; lra). assert (VW : 1 <= v * w) by (rewrite <- (Rmult_1_r 1); apply Rmult_le_compat; lra).
  assert (C1 : v <= v ^ 2 * w). { replace (v ^ 2 * w) with (v * (v * w)) by ring. rewrite <- (Rmult_1_r v) at 1. apply Rmult_le_compat_l; lra. }
  assert (C2 : v * w <= v ^ 2 * w). { replace (v ^ 2 * w) with (v * (v * w)) by ring. rewrite <- (Rmult_1_l (v * w)) at 1. apply Rmult_le_compat_r; lra. }
  assert (V3 : uflow * v <= uflow * (v ^ 2 * w)) by (apply Rmult_le_compat_l; lra).
  assert (V4 : B * (v * w) <= B * (v ^ 2 * w)) by (apply Rmult_le_compat_l; lra).
  assert (UH : 0 <= uflow * H) by (apply Rmult_le_pos; lra).
  assert (V5 : uflow * H * (v * w) <= uflow * H * (v ^ 2 * w)) by (apply Rmult_le_compat_l; lra).
  assert (V6 : ((w - 1) * B + w * (uflow * H)) * v + B * uro = B * (v * w) - B + uflow * H * (v * w)) by (unfold v; ring).
  eapply Rle_trans; [apply tri5|].
  replace ((v ^ 2 * w - 1) * (Rabs X * A + B) + v ^ 2 * w * (uflow * (1 + Rabs X * H + H)))
    with (((w - 1) * A + w * (uflow * H)) * Rabs X * v ^ 2 + A * Rabs X * (v ^ 2 - 1) + uflow * (v ^ 2 * w) + (B * (v ^ 2 * w) - B + uflow * H * (v ^ 2 * w))) by ring.
  lra.
Qed.

(* the error allowed for the k-th coefficient after n steps *)
Definition ddx_err (k : nat) (c : list R) (x : R) (n : nat) : R :=
  ((1 + uro) ^ (2 * n) - 1) * tay k (map Rabs c) (Rabs x) + (1 + uro) ^ (2 * n) * (uflow * under n x).
Lemma ddx_one (x q s : f64) a C k n : fin (q * x + s)%K ->
  (fin q -> Rabs (val q - tay k C (val x)) <= ddx_err k C (val x) n) ->
  (fin s -> match k with O => val s = a | S j => Rabs (val s - tay j C (val x)) <= ddx_err j C (val x) n end) ->
  Rabs (val (q * x + s)%K - tay k (a :: C) (val x)) <= ddx_err k (a :: C) (val x) (S n).
Proof.
  intros F Hq Hs. destruct (fadd_fin _ _ F) as [Fm Fs]. destruct (fmul_fin _ _ Fm) as [Fq Fx]. specialize (Hq Fq). specialize (Hs Fs).
  rewrite (fadd_val _ _ F). destruct (rnd_plus_err (q * x)%K s) as (e & He & ->). rewrite (fmul_val _ _ Fm).
  destruct (rnd_err (val q * val x)) as (d & h & Hd & Hh & ->). unfold ddx_err in *. rewrite under_S.
  replace (2 * S n)%nat with (2 + 2 * n)%nat by lia. rewrite pow_add. pose proof (upow_ge (2 * n)) as W. set (w := (1 + uro) ^ (2 * n)) in *. clearbody w.
  pose proof (under_pos n (val x)) as H0. pose proof uflow_pos as UF. set (X := val x) in *.
  destruct k as [|k].
  - cbn [map tay]. rewrite (Rplus_comm a), (Rplus_comm (Rabs a)). apply madd_err; auto using tay_abs_le; [lra|]. rewrite Hs. replace (a - a) with 0 by ring. rewrite Rabs_R0.
    pose proof (Rabs_pos a). assert (0 <= (w - 1) * Rabs a) by (apply Rmult_le_pos; lra). assert (0 <= w * (uflow * under n X)) by (apply Rmult_le_pos; [lra|]; apply Rmult_le_pos; lra). lra.
  - cbn [map tay]. apply madd_err; auto using tay_abs_le.
Qed.
Lemma ddx_step_len (x : f64) p a : length (ddx_step x p a) = length p.
Proof. unfold ddx_step. rewrite zipw_length. cbn [length]. lia. Qed.
Lemma ddx_step_nth (x : f64) p a k : (k < length p)%nat -> nth k (ddx_step x p a) n0 = (nth k p n0 * x + nth k (a :: p) n0)%K.
Proof. intros H. unfold ddx_step. rewrite (nth_zipw _ _ _ _ n0 n0) by (cbn [length]; lia). reflexivity. Qed.
Lemma fold_ddx (x : f64) r : forall p s n, (forall k, (k < length p)%nat -> fin (nth k p n0) -> Rabs (val (nth k p n0) - tay k (map val s) (val x)) <= ddx_err k (map val s) (val x) n) ->
  length (fold_left (ddx_step x) r p) = length p /\
  forall k, (k < length p)%nat -> fin (nth k (fold_left (ddx_step x) r p) n0) ->
    Rabs (val (nth k (fold_left (ddx_step x) r p) n0) - tay k (map val (rev r ++ s)) (val x)) <= ddx_err k (map val (rev r ++ s)) (val x) (length r + n).
Proof.
  induction r as [|a r IH]; intros p s n H; [split; [reflexivity|exact H]|]. cbn [fold_left rev]. rewrite <- app_assoc. cbn [app].
  replace (length (a :: r) + n)%nat with (length r + S n)%nat by (cbn; lia). rewrite <- (ddx_step_len x p a). apply IH. rewrite ddx_step_len.
  intros k Hk F. rewrite ddx_step_nth in * by auto. cbn [map]. apply ddx_one; [exact F|intros Fq; apply H; auto|].
  intros Fs. destruct k as [|j]; cbn [nth] in *; [reflexivity|]. apply H; [lia|exact Fs].
Qed.
(* the loop, for at least two coefficients *)
Lemma taylor_err (c : list f64) (x : f64) nd : (2 <= length c)%nat -> length (taylor c x nd) = S nd /\
  forall k, (k <= nd)%nat -> fin (nth k (taylor c x nd) n0) ->
    Rabs (val (nth k (taylor c x nd) n0) - tay k (map val c) (val x)) <= ddx_err k (map val c) (val x) (length c - 1).
Proof.
  intros L. unfold taylor. destruct (rev c) as [|a [|b t]] eqn:E; [apply (f_equal (@length _)) in E; rewrite rev_length in E; cbn in E; lia| |].
  { apply (f_equal (@length _)) in E; rewrite rev_length in E; cbn in E; lia. }
  assert (Ec : c = rev t ++ [b; a]) by (rewrite <- (rev_involutive c), E; cbn [rev]; rewrite <- app_assoc; reflexivity).
  assert (El : last c n0 = a) by (rewrite Ec; replace (rev t ++ [b; a]) with ((rev t ++ [b]) ++ [a]) by (rewrite <- app_assoc; reflexivity); apply last_last).
  cbn [polysetup]. rewrite El. set (p := (b + a * x)%K :: match nd with O => [] | S m => a :: repeat n0 m end).
  assert (Lp : length p = S nd) by (unfold p; destruct nd; cbn [length]; rewrite ?repeat_length; reflexivity).
  assert (Z0 : forall k, Rabs 0 <= ddx_err k [val b; val a] (val x) 1).
  { intros k. rewrite Rabs_R0. unfold ddx_err. pose proof (upow_ge (2 * 1)). pose proof (tay_abs_pos [val b; val a] (val x) k). pose proof (under_pos 1 (val x)). pose proof uflow_pos.
    assert (0 <= ((1 + uro) ^ (2 * 1) - 1) * tay k (map Rabs [val b; val a]) (Rabs (val x))) by (apply Rmult_le_pos; lra).
    assert (0 <= (1 + uro) ^ (2 * 1) * (uflow * under 1 (val x))) by (apply Rmult_le_pos; [lra|]; apply Rmult_le_pos; lra). lra. }
  destruct (fold_ddx x t p [b; a] 1) as [Q1 Q2].
  { intros k Hk F. destruct k as [|k].
    - cbn [p nth] in *. destruct (fadd_fin _ _ F) as [Fb Fm]. pose proof (fadd_val _ _ F) as V.
      assert (I0 : Rabs (val a - peval [val a] (val x)) <= poly_err [val a] (val x) 0).
      { unfold poly_err. cbn [Nat.mul Nat.add pow repeat map]. rewrite !peval_cons, !peval_nil. replace (val a - (val a + val x * 0)) with 0 by ring. rewrite Rabs_R0. lra. }
      destruct (poly_step b x a [val a] 0 (or_introl F) I0) as (_ & _ & _ & Q). rewrite V, (fmul_val _ _ Fm), (Rplus_comm (val b)). cbn [map]. rewrite tay_0.
      eapply Rle_trans; [exact Q|]. unfold poly_err, ddx_err. rewrite tay_0. apply Rplus_le_compat_l. apply Rmult_le_compat_l; [pose proof (upow_ge (2 * 1)); lra|].
      apply Rmult_le_compat_l; [pose proof uflow_pos; lra|]. unfold under. cbn [repeat]. rewrite !peval_cons, !peval_nil. lra.
    - rewrite Lp in Hk. destruct nd as [|m]; [lia|]. destruct k as [|k].
      + cbn [p nth map tay]. replace (val a - _) with 0 by ring. apply Z0.
      + unfold p. cbn [nth]. rewrite nth_repeat, val_n0. rewrite tay_big by (cbn; lia). replace (0 - 0) with 0 by ring. cbn [map]. apply Z0. }
  rewrite Lp in *. split; [exact Q1|]. intros k Hk F. replace (length c - 1)%nat with (length t + 1)%nat by (rewrite Ec, app_length, rev_length; cbn; lia). rewrite Ec. apply Q2; auto; lia.
Qed.

(** ** C125 *)
(* Every finite entry of polyddx(c, x, nd) is the Taylor coefficient T up to two roundings per degree, relative to the same
   coefficient A of the polynomial with all signs positive, and an allowance for underflow. *)
Theorem C125_polyddx_error (c : list f64) (x : f64) nd r : (2 <= length c)%nat -> polyddx c x nd false = Ok r ->
  let C := map val c in let X := val x in let n := (length c - 1)%nat in
  length r = S (match nd with Some m => m | None => n end) /\
  forall k, (k < length r)%nat -> fin (nth k r n0) ->
    exists T A, nderiv_at k (peval C) X (INR (fact k) * T) /\ nderiv_at k (peval (map Rabs C)) (Rabs X) (INR (fact k) * A) /\
      Rabs (val (nth k r n0) - T) <= ((1 + uro) ^ (2 * n) - 1) * A + (1 + uro) ^ (2 * n) * (uflow * peval (repeat 1 n) (1 + Rabs X)).
Proof.
  intros L E C X n. set (N := match nd with Some m => m | None => n end).
  assert (Er : r = taylor c x N) by (unfold polyddx in E; destruct c; [cbn in L; lia|]; injection E as <-; reflexivity). subst r. destruct (taylor_err c x N L) as [Q1 Q2]. split; [exact Q1|]. rewrite Q1. intros k Hk F.
  exists (tay k C X), (tay k (map Rabs C) (Rabs X)). split; [eexists; split; [apply nderiv_tay|reflexivity]|]. split; [eexists; split; [apply nderiv_tay|reflexivity]|].
  apply Q2; auto; lia.
Qed.
Print Assumptions C125_polyddx_error.

(* ---- norm=True: the integers k! ---- *)
Lemma fx_int (x : f64) m e z : B2SF x = SpecFloat.S754_finite false m e -> (0 <= e)%Z -> z = (Zpos m * 2 ^ e)%Z -> fin x /\ val x = IZR z.
Proof.
  intros H He ->. destruct (fx_val x false m e H) as [F V]. split; [exact F|]. rewrite V. unfold SF2R, Defs.F2R. cbn [Defs.Fnum Defs.Fexp SpecFloat.cond_Zopp].
  rewrite mult_IZR. f_equal. rewrite <- (Raux.IZR_Zpower Zaux.radix2) by exact He. reflexivity.
Qed.
Lemma cfact_val k : (k <= 20)%nat -> fin (cfact k : f64) /\ val (cfact k : f64) = INR (fact k).
Proof.
  intros H. rewrite <- IZR_zfact. unfold cfact. rewrite wrap_fact by auto. destruct (Nat.le_gt_cases k 18) as [L|L].
  - apply fofZ_val. do 19 (destruct k as [|k]; [vm_compute; discriminate|]). lia.
  - assert (K : k = 19%nat \/ k = 20%nat) by lia. destruct K as [->| ->].
    + replace (zfact 19) with 121645100408832000%Z by (vm_compute; reflexivity).
      apply (fx_int _ 7602818775552000 4); [vm_compute; reflexivity|lia|vm_compute; reflexivity].
    + replace (zfact 20) with 2432902008176640000%Z by (vm_compute; reflexivity).
      apply (fx_int _ 4751761734720000 9); [vm_compute; reflexivity|lia|vm_compute; reflexivity].
Qed.
Lemma denorm_at {K} {NK : Num K} (p : list K) k d : (k < length p)%nat -> nth k (denorm p) d = match k with O => nth k p d | S _ => nmul (nth k p d) (cfact k) end.
Proof.
  intros H. destruct p as [|a r]; [cbn in H; lia|]. destruct k as [|k]; [reflexivity|]. cbn [denorm nth length] in *.
  rewrite (nth_zipw _ _ _ _ d 0%nat) by (rewrite ?seq_length; lia). rewrite seq_nth by lia. reflexivity.
Qed.
Lemma fact_ge k : 1 <= INR (fact k).
Proof. change 1 with (INR 1). apply le_INR. pose proof (lt_O_fact k). lia. Qed.
(* the error allowed for the k-th derivative: one more rounding *)
Lemma norm_err (t : f64) k T A M w : (k <= 20)%nat -> Rabs T <= A -> 0 <= M -> 1 <= w -> Rabs (val t - T) <= (w - 1) * A + w * (uflow * M) ->
  fin (t * cfact k)%K -> Rabs (val (t * cfact k)%K - INR (fact k) * T) <= ((1 + uro) * w - 1) * (INR (fact k) * A) + (1 + uro) * w * (INR (fact k) * (uflow * M)) + uflow.
Proof.
  intros Hk TA M0 W E F. destruct (cfact_val k Hk) as [_ V]. rewrite (fmul_val _ _ F), V. destruct (rnd_err (val t * INR (fact k))) as (e & h & He & Hh & ->).
  pose proof (fact_ge k) as F1. set (f := INR (fact k)) in *. pose proof uro_pos as U. pose proof uflow_pos as UF.
  replace (val t * f * (1 + e) + h - f * T) with (f * ((val t - T) * (1 + e)) + f * (T * e) + h) by ring.
  assert (B1 : Rabs ((val t - T) * (1 + e)) <= ((w - 1) * A + w * (uflow * M)) * (1 + uro)) by (rewrite Rabs_mult; apply Rmult_le_compat; auto using Rabs_pos, abs_1e).
  assert (B2 : Rabs (T * e) <= A * uro) by (rewrite Rabs_mult; apply Rmult_le_compat; auto using Rabs_pos).
  eapply Rle_trans; [eapply Rle_trans; [apply Rabs_triang|apply Rplus_le_compat_r, Rabs_triang]|].
  rewrite (Rabs_mult f (_ * (1 + e))), (Rabs_mult f (T * e)), (Rabs_right f) by lra.
  assert (f * Rabs ((val t - T) * (1 + e)) <= f * (((w - 1) * A + w * (uflow * M)) * (1 + uro))) by (apply Rmult_le_compat_l; lra).
  assert (f * Rabs (T * e) <= f * (A * uro)) by (apply Rmult_le_compat_l; lra).
  replace (((1 + uro) * w - 1) * (f * A) + (1 + uro) * w * (f * (uflow * M)) + uflow) with (f * (((w - 1) * A + w * (uflow * M)) * (1 + uro)) + f * (A * uro) + uflow) by ring. lra.
Qed.
Lemma denorm_err (c : list f64) (x : f64) nd k : (2 <= length c)%nat -> (k <= nd)%nat -> (k <= 20)%nat -> let n := (length c - 1)%nat in
  fin (nth k (denorm (taylor c x nd)) n0) ->
  Rabs (val (nth k (denorm (taylor c x nd)) n0) - INR (fact k) * tay k (map val c) (val x)) <=
    ((1 + uro) ^ (2 * n + 1) - 1) * (INR (fact k) * tay k (map Rabs (map val c)) (Rabs (val x))) +
    (1 + uro) ^ (2 * n + 1) * (INR (fact k) * (uflow * under n (val x))) + uflow.
Proof.
  intros L Hk H20 n F. destruct (taylor_err c x nd L) as [Q1 Q2]. specialize (Q2 k Hk). rewrite denorm_at in * by lia. fold n in Q2. unfold ddx_err in Q2.
  rewrite pow_add, pow_1, (Rmult_comm _ (1 + uro)). pose proof (upow_ge (2 * n)) as W. set (w := (1 + uro) ^ (2 * n)) in *. clearbody w.
  destruct k as [|k].
  - specialize (Q2 F). change (INR (fact 0)) with 1. rewrite !Rmult_1_l. pose proof (tay_abs_pos (map val c) (val x) 0) as A0. pose proof (under_pos n (val x)) as M0. pose proof uro_pos. pose proof uflow_pos.
    eapply Rle_trans; [exact Q2|]. assert (w <= (1 + uro) * w) by (rewrite <- (Rmult_1_l w) at 1; apply Rmult_le_compat_r; lra).
    assert ((w - 1) * tay 0 (map Rabs (map val c)) (Rabs (val x)) <= ((1 + uro) * w - 1) * tay 0 (map Rabs (map val c)) (Rabs (val x))) by (apply Rmult_le_compat_r; lra).
    assert (w * (uflow * under n (val x)) <= (1 + uro) * w * (uflow * under n (val x))) by (apply Rmult_le_compat_r; [apply Rmult_le_pos|]; lra). lra.
  - apply norm_err; auto using tay_abs_le, under_pos. apply Q2. apply (fmul_fin _ _ F).
Qed.
(* With norm the entries are the derivatives D themselves, with one rounding more; up to the 20th the factor k! is exact. *)
Theorem C125_polyddx_norm_error (c : list f64) (x : f64) nd r : (2 <= length c)%nat -> polyddx c x nd true = Ok r ->
  let C := map val c in let X := val x in let n := (length c - 1)%nat in
  length r = S (match nd with Some m => m | None => n end) /\
  forall k, (k < length r)%nat -> (k <= 20)%nat -> fin (nth k r n0) ->
    exists D A, nderiv_at k (peval C) X D /\ nderiv_at k (peval (map Rabs C)) (Rabs X) A /\
      Rabs (val (nth k r n0) - D) <= ((1 + uro) ^ (2 * n + 1) - 1) * A + (1 + uro) ^ (2 * n + 1) * (INR (fact k) * (uflow * peval (repeat 1 n) (1 + Rabs X))) + uflow.
Proof.
  intros L E C X n. set (N := match nd with Some m => m | None => n end).
  assert (Er : r = denorm (taylor c x N)) by (unfold polyddx in E; destruct c; [cbn in L; lia|]; injection E as <-; reflexivity). subst r.
  destruct (taylor_err c x N L) as [Q1 _]. rewrite denorm_length, Q1. split; [reflexivity|]. intros k Hk H20 F.
  exists (INR (fact k) * tay k C X), (INR (fact k) * tay k (map Rabs C) (Rabs X)). split; [eexists; split; [apply nderiv_tay|reflexivity]|]. split; [eexists; split; [apply nderiv_tay|reflexivity]|].
  apply denorm_err; auto; lia.
Qed.
Print Assumptions C125_polyddx_norm_error.

(* ---- the argument itself is rounded: x - xk ---- *)
Lemma scale_step x e w q r A s t B : Rabs e <= uro -> 1 <= w -> Rabs r <= A -> Rabs (q - r) <= (w - 1) * A -> Rabs (s - t) <= (w - 1) * B -> 0 <= B ->
  Rabs (x * (1 + e) * q + s - (x * r + t)) <= ((1 + uro) * w - 1) * (Rabs x * A + B).
Proof.
  intros He W RA E1 E2 B0. pose proof uro_pos as U. assert (A0 : 0 <= A) by (pose proof (Rabs_pos r); lra).
  replace (x * (1 + e) * q + s - (x * r + t)) with (x * ((q - r) * (1 + e) + r * e) + (s - t)) by ring. eapply Rle_trans; [apply Rabs_triang|]. rewrite Rabs_mult.
  assert (G : Rabs ((q - r) * (1 + e) + r * e) <= ((1 + uro) * w - 1) * A).
  { eapply Rle_trans; [apply Rabs_triang|]. rewrite !Rabs_mult. assert (Rabs (q - r) * Rabs (1 + e) <= (w - 1) * A * (1 + uro)) by (apply Rmult_le_compat; auto using Rabs_pos, abs_1e).
    assert (Rabs r * Rabs e <= A * uro) by (apply Rmult_le_compat; auto using Rabs_pos). replace (((1 + uro) * w - 1) * A) with ((w - 1) * A * (1 + uro) + A * uro) by ring. lra. }
  assert (Rabs x * Rabs ((q - r) * (1 + e) + r * e) <= Rabs x * (((1 + uro) * w - 1) * A)) by (apply Rmult_le_compat_l; auto using Rabs_pos).
  assert (w <= (1 + uro) * w) by (rewrite <- (Rmult_1_l w) at 1; apply Rmult_le_compat_r; lra).
  assert ((w - 1) * B <= ((1 + uro) * w - 1) * B) by (apply Rmult_le_compat_r; lra).
  replace (((1 + uro) * w - 1) * (Rabs x * A + B)) with (Rabs x * (((1 + uro) * w - 1) * A) + ((1 + uro) * w - 1) * B) by ring. lra.
Qed.
Lemma scale_abs x e w A' A B' B : Rabs e <= uro -> 1 <= w -> 0 <= A' <= w * A -> 0 <= B -> B' <= w * B -> Rabs (x * (1 + e)) * A' + B' <= (1 + uro) * w * (Rabs x * A + B).
Proof.
  intros He W HA B0 HB. rewrite Rabs_mult. pose proof (Rabs_pos x) as X0. pose proof uro_pos.
  assert (Rabs (1 + e) * A' <= (1 + uro) * (w * A)) by (apply Rmult_le_compat; auto using Rabs_pos, abs_1e; lra).
  assert (Rabs x * (Rabs (1 + e) * A') <= Rabs x * ((1 + uro) * (w * A))) by (apply Rmult_le_compat_l; auto).
  assert (w <= (1 + uro) * w) by (rewrite <- (Rmult_1_l w) at 1; apply Rmult_le_compat_r; lra).
  assert (w * B <= (1 + uro) * w * B) by (apply Rmult_le_compat_r; lra).
  replace ((1 + uro) * w * (Rabs x * A + B)) with (Rabs x * ((1 + uro) * (w * A)) + (1 + uro) * w * B) by ring.
  replace (Rabs x * Rabs (1 + e) * A') with (Rabs x * (Rabs (1 + e) * A')) by ring. lra.
Qed.
Lemma tay_scale c x e : Rabs e <= uro -> forall n k, (length c <= S n)%nat ->
  Rabs (tay k c (x * (1 + e)) - tay k c x) <= ((1 + uro) ^ n - 1) * tay k (map Rabs c) (Rabs x) /\
  tay k (map Rabs c) (Rabs (x * (1 + e))) <= (1 + uro) ^ n * tay k (map Rabs c) (Rabs x).
Proof.
  intros He. pose proof uro_pos as U. induction c as [|a c IH]; intros n k Hn.
  { cbn [map tay]. replace (0 - 0) with 0 by ring. rewrite Rabs_R0. lra. }
  pose proof (upow_ge n) as W0. destruct n as [|n].
  { destruct c; [|cbn in Hn; lia]. cbn [map tay]. destruct k; [replace (a + _ - _) with 0 by ring|replace (_ + 0 - _) with 0 by ring]; rewrite Rabs_R0; cbn [pow]; lra. }
  assert (Hc : (length c <= S n)%nat) by (cbn in Hn; lia). pose proof (upow_ge n) as W. cbn [pow]. set (w := (1 + uro) ^ n) in *.
  destruct k as [|k]; cbn [map tay].
  - destruct (IH n 0%nat Hc) as [I1 I2]. fold w in I1, I2. rewrite !(Rplus_comm a), !(Rplus_comm (Rabs a)). pose proof (Rabs_pos a) as Ra. split.
    + apply scale_step; auto using tay_abs_le. replace (a - a) with 0 by ring. rewrite Rabs_R0. apply Rmult_le_pos; lra.
    + apply scale_abs; auto; [split; [apply tay_abs_pos|auto]|]. rewrite <- (Rmult_1_l (Rabs a)) at 1. apply Rmult_le_compat_r; lra.
  - destruct (IH n (S k) Hc) as [I1 I2]. destruct (IH n k Hc) as [J1 J2]. fold w in I1, I2, J1, J2. split.
    + apply scale_step; auto using tay_abs_le, tay_abs_pos.
    + apply scale_abs; auto using tay_abs_pos.
Qed.
Lemma under_scale n x e : Rabs e <= uro -> under n (x * (1 + e)) <= (1 + uro) ^ n * under n x.
Proof.
  intros He. pose proof uro_pos as U. induction n as [|n IH]; [unfold under; cbn [repeat]; rewrite !peval_nil; lra|]. rewrite !under_S. cbn [pow].
  pose proof (upow_ge n) as W. pose proof (under_pos n x) as M0. pose proof (under_pos n (x * (1 + e))) as M1. set (w := (1 + uro) ^ n) in *.
  replace (1 + Rabs (x * (1 + e)) * under n (x * (1 + e)) + under n (x * (1 + e))) with (Rabs (x * (1 + e)) * under n (x * (1 + e)) + (1 + under n (x * (1 + e)))) by ring.
  replace (1 + Rabs x * under n x + under n x) with (Rabs x * under n x + (1 + under n x)) by ring. apply scale_abs; auto; try lra.
Qed.
(* a finite value needs a finite argument *)
Lemma fold_head (x : f64) r : forall p, p <> [] -> nth 0 (fold_left (ddx_step x) r p) n0 = fold_left (fun p cn => p * x + cn)%K r (nth 0 p n0).
Proof.
  induction r as [|a r IH]; intros p Hp; [reflexivity|]. cbn [fold_left]. destruct p as [|b p]; [congruence|].
  rewrite IH by (intros Q; apply (f_equal (@length _)) in Q; rewrite ddx_step_len in Q; discriminate). rewrite ddx_step_nth by (cbn; lia). reflexivity.
Qed.
Lemma taylor_fin (c : list f64) (x : f64) nd : (2 <= length c)%nat -> fin (nth 0 (taylor c x nd) n0) -> fin x.
Proof.
  intros L. unfold taylor. assert (L' : (2 <= length (rev c))%nat) by (rewrite rev_length; lia). destruct (rev c) as [|a [|b t]]; [cbn in L'; lia|cbn in L'; lia|]. cbn [polysetup].
  rewrite fold_head by discriminate. cbn [nth]. intros F. apply fold_fin in F. apply fadd_fin in F. destruct F as [_ F]. apply (fmul_fin _ _ F).
Qed.
(** The call p(x, nd) *)
(* For every double x the derivatives are taken from the piece containing x; if the value is finite, a finite k-th entry, k <= 20, is the k-th derivative D of that
   piece up to three roundings per degree and one more, relative to the same derivative A of the polynomial with all signs positive. *)
Theorem C125_call_error (p : pwpoly f64) comp (x : f64) nd : fpw p -> inb comp (csh (pc p)) -> fin x -> (2 <= cn (pc p))%nat -> (1 <= nd)%nat ->
  exists r i, pw_calln p comp x nd = Ok r /\ length r = S nd /\ in_piece (map val (pxk p)) i (val x) /\ (forall j, in_piece (map val (pxk p)) j (val x) -> j = i) /\
    let C := map val (ccol (pc p) comp i) in let X := val x - left_knot (map val (pxk p)) i in let n := (cn (pc p) - 1)%nat in
    fin (nth 0 r n0) -> forall k, (k <= nd)%nat -> (k <= 20)%nat -> fin (nth k r n0) ->
    exists D A, nderiv_at k (peval C) X D /\ nderiv_at k (peval (map Rabs C)) (Rabs X) A /\
      Rabs (val (nth k r n0) - D) <= ((1 + uro) ^ (3 * n + 1) - 1) * A + (1 + uro) ^ (3 * n + 1) * (INR (fact k) * (uflow * peval (repeat 1 n) (1 + Rabs X))) + uflow.
Proof.
  intros W Hb Fx Hc Hnd. destruct W as [W1 W2 W3 W4 W5 W6 W7 W8]. set (i := ssearch (map val (pxk p)) (val x)).
  pose proof (ssearch_piece (map val (pxk p)) (val x) W8) as Hi. fold i in Hi.
  assert (L0 : length (pxk0 p) = S (length (pxk p))) by (unfold pxk in *; destruct (pxk0 p); cbn in *; lia).
  assert (Li : (i <= length (pxk p))%nat) by (destruct Hi as [Q _]; rewrite map_length in Q; exact Q).
  pose proof (W3 comp i Hb ltac:(lia)) as LC.
  exists (pw_vals p comp x nd), i. split.
  { unfold pw_calln, pw_ok. rewrite W4, Nat.eqb_refl. destruct (Nat.eqb_spec (cn (pc p)) 0); [lia|]. destruct (Nat.eqb_spec (ck (pc p)) 0); [lia|]. rewrite W1. reflexivity. }
  unfold pw_vals, pw_reduce. rewrite W1. cbv zeta. rewrite (ssearch_val _ _ W7 Fx). fold i. destruct nd as [|m]; [lia|]. set (nd := S m) in *.
  set (c := ccol (pc p) comp i) in *. set (kn := nth i (pxk0 p) n0) in *.
  destruct (taylor_err c (nsub x kn) nd ltac:(lia)) as [Q1 Q2]. split; [rewrite denorm_length; exact Q1|].
  split; [exact Hi|]. split; [intros j Hj; apply (in_piece_unique _ _ _ _ Hj Hi)|]. intros F0 k Hk H20 F.
  assert (Hkn : fin kn /\ val kn = left_knot (map val (pxk p)) i).
  { unfold kn. assert (NF : forall j, (j < length (pxk p))%nat -> fin (nth j (pxk p) n0)) by (intros j Hj; rewrite Forall_forall in W7; apply W7, nth_In; auto).
    destruct i as [|j]; cbn [left_knot].
    - rewrite W6, map_val_nth by lia. split; [apply NF; lia|reflexivity].
    - assert (E : nth (S j) (pxk0 p) n0 = nth j (pxk p) n0) by (unfold pxk; destruct (pxk0 p); [destruct j|]; reflexivity). rewrite E, map_val_nth by lia. split; [apply NF; lia|reflexivity]. }
  destruct Hkn as [Fk Vk]. rewrite <- Vk. set (X := val x - val kn). set (C := map val c). set (n := (cn (pc p) - 1)%nat).
  exists (INR (fact k) * tay k C X), (INR (fact k) * tay k (map Rabs C) (Rabs X)). split; [eexists; split; [apply nderiv_tay|reflexivity]|]. split; [eexists; split; [apply nderiv_tay|reflexivity]|].
  rewrite denorm_at in F0 by lia. pose proof (taylor_fin c (nsub x kn) nd ltac:(lia) F0) as Fd.
  destruct (rnd_plus_err x (nopp kn)) as (e & He & Q). rewrite val_opp in Q. fold (val x - val kn) in Q. rewrite <- (fsub_val _ _ Fd) in Q. fold X in Q.
  pose proof (denorm_err c (nsub x kn) nd k ltac:(lia) Hk H20 F) as E. cbv zeta in E. rewrite LC in E. fold n C in E. rewrite Q in E.
  assert (LC' : (length C <= S n)%nat) by (unfold C, n; rewrite map_length; lia).
  destruct (tay_scale C X e He n k LC') as [P1 P2]. pose proof (under_scale n X e He) as P3. fold (under n X).
  pose proof (tay_abs_pos C X k) as A0. pose proof (under_pos n X) as M0. pose proof (fact_ge k) as F1. set (f := INR (fact k)) in *. pose proof uflow_pos as UF.
  replace (3 * n + 1)%nat with (2 * n + 1 + n)%nat by lia. rewrite (pow_add _ _ n). pose proof (upow_ge (2 * n + 1)) as V2. pose proof (upow_ge n) as V1.
  set (v := (1 + uro) ^ (2 * n + 1)) in *. set (w := (1 + uro) ^ n) in *. set (A := tay k (map Rabs C) (Rabs X)) in *. set (A' := tay k (map Rabs C) (Rabs (X * (1 + e)))) in *.
  set (M := under n X) in *. set (M' := under n (X * (1 + e))) in *. set (T := tay k C X) in *. set (T' := tay k C (X * (1 + e))) in *. set (y := val (nth k _ n0)) in *. clearbody v w A A' M M' T T' y f.
  replace (y - f * T) with ((y - f * T') + f * (T' - T)) by ring. eapply Rle_trans; [apply Rabs_triang|]. rewrite (Rabs_mult f), (Rabs_right f) by lra.
  assert (T1 : (v - 1) * (f * A') <= (v - 1) * (f * (w * A))) by (apply Rmult_le_compat_l; [lra|]; apply Rmult_le_compat_l; lra).
  assert (T2 : v * (f * (uflow * M')) <= v * (f * (uflow * (w * M)))) by (apply Rmult_le_compat_l; [lra|]; apply Rmult_le_compat_l; [lra|]; apply Rmult_le_compat_l; lra).
  assert (T3 : f * Rabs (T' - T) <= f * ((w - 1) * A)) by (apply Rmult_le_compat_l; lra).
  replace ((v * w - 1) * (f * A) + v * w * (f * (uflow * M)) + uflow) with ((v - 1) * (f * (w * A)) + v * (f * (uflow * (w * M))) + uflow + f * ((w - 1) * A)) by ring. lra.
Qed.
Print Assumptions C125_call_error.

(* 1/10 + 3 x + 2 x^2 at 1/10 in doubles, and the polyline of C104 *)
Example ex_C125 : let c := [nofZ 1 / nofZ 10; nofZ 3; nofZ 2]%K : list f64 in let x := (nofZ 1 / nofZ 10)%K : f64 in
  (2 <= length c)%nat /\ res_is (fun r => (length r =? 5)%nat && forallb (fun v => is_finite v) r) (polyddx c x (Some 4%nat) true) = true.
Proof. cbv zeta. split; [cbn [length]; lia|]. vm_compute. reflexivity. Qed.
Example ex_C125_call : fpw fx_p /\ (2 <= cn (pc fx_p))%nat /\
  res_is (fun r => (length r =? 3)%nat && forallb (fun v => is_finite v) r) (pw_calln fx_p [] (nofZ 2 / nofZ 10)%K 2) = true.
Proof. split; [apply ex_C104|]. split; [change (2 <= 2)%nat; lia|]. vm_compute. reflexivity. Qed.
