(* IEEE 754 double precision numbers as an instance of the class Num, so that the models run in
   the arithmetic of the code: numpy float64, round to nearest even (asfarray, npplus/basic.py:51-52,
   npplus/pwpoly.py:64-65).  Flocq's binary64 with a single nan.
   nfloor is numpy.floor of a finite number (0 for inf and nan, which the code converts to an
   unspecified integer). *)
From Coq Require Import ZArith Reals Lra Lia Bool.
From Flocq Require Import Core Relative Plus_error BinarySingleNaN.
From Verif Require Import Num.

Notation f64 := (binary_float 53 1024).
Lemma prec_pos : Prec_gt_0 53. Proof. reflexivity. Qed.
Lemma prec_emax : Prec_lt_emax 53 1024. Proof. reflexivity. Qed.
#[global] Existing Instance prec_pos.
#[global] Existing Instance prec_emax.

Definition fofZ (z : Z) : f64 := binary_normalize 53 1024 prec_pos prec_emax mode_NE z 0 false.
#[global] Instance NumF : Num f64 := {
  n0 := B754_zero false;
  n1 := fofZ 1;
  nadd := Bplus mode_NE; nsub := Bminus mode_NE; nmul := Bmult mode_NE; ndiv := Bdiv mode_NE;
  nopp := Bopp;
  nltb := Bltb; nleb := Bleb; neqb := Beqb;
  nofZ := fofZ;
  nfloor x := Btrunc (Bnearbyint mode_DN x)
}.

(** ** Values *)
(* the number a double stands for (0 for inf and nan) *)
Definition val (x : f64) : R := B2R x.
Definition fin (x : f64) : Prop := is_finite x = true.
Definition rnd (x : R) : R := round radix2 (SpecFloat.fexp 53 1024) ZnearestE x.
(* half a unit in the last place of 1, and half of the smallest positive number *)
Definition uro : R := (/ 2 ^ 53)%R.
Definition uflow : R := (/ 2 ^ 1075)%R.

Local Open Scope R_scope.
Lemma fexp_FLT : forall e, SpecFloat.fexp 53 1024 e = FLT_exp (-1074) 53 e.
Proof. intros e. unfold SpecFloat.fexp, SpecFloat.emin, FLT_exp. f_equal. Qed.
Lemma rnd_FLT x : rnd x = round radix2 (FLT_exp (-1074) 53) ZnearestE x.
Proof. reflexivity. Qed.
#[global] Instance valid_FLT : Valid_exp (FLT_exp (-1074) 53).
Proof. apply FLT_exp_valid. reflexivity. Qed.
Lemma bpow_inv e : (0 <= e)%Z -> bpow radix2 (- e) = / 2 ^ Z.to_nat e.
Proof.
  intros H. rewrite bpow_opp. f_equal. rewrite <- (Z2Nat.id e H) at 1. rewrite bpow_powerRZ, <- pow_powerRZ. reflexivity.
Qed.
Lemma uro_bpow : uro = bpow radix2 (-53).
Proof. symmetry. apply (bpow_inv 53). lia. Qed.
Lemma uflow_bpow : uflow = bpow radix2 (-1075).
Proof. symmetry. unfold uflow. replace 1075%nat with (Z.to_nat 1075) by reflexivity. apply (bpow_inv 1075). lia. Qed.
Lemma uro_pos : 0 < uro. Proof. rewrite uro_bpow. apply bpow_gt_0. Qed.
Lemma uflow_pos : 0 < uflow. Proof. rewrite uflow_bpow. apply bpow_gt_0. Qed.
Lemma rnd_le x y : x <= y -> rnd x <= rnd y.
Proof. intros H. rewrite !rnd_FLT. apply round_le; auto with typeclass_instances. Qed.
Lemma rnd_val x : rnd (val x) = val x.
Proof. rewrite rnd_FLT. apply round_generic; auto with typeclass_instances. apply generic_format_B2R. Qed.
Lemma rnd_0 : rnd 0 = 0.
Proof. rewrite rnd_FLT. apply round_0. auto with typeclass_instances. Qed.
(* rounding: relative error, and an absolute one below the normal range *)
Lemma uro_u_ro : u_ro radix2 53 = uro.
Proof. unfold u_ro. rewrite uro_bpow. rewrite bpow_plus_1. change (IZR radix2) with 2. change (- (53))%Z with (-53)%Z. lra. Qed.
Lemma rnd_err x : exists e h, Rabs e <= uro /\ Rabs h <= uflow /\ rnd x = x * (1 + e) + h.
Proof.
  destruct (relative_error_N_FLT'_ex radix2 (-1074) 53 prec_pos (fun x => negb (Z.even x)) x) as (e & h & He & Hh & _ & E).
  exists e, h. rewrite rnd_FLT. split; [|split; [|exact E]].
  - eapply Rle_trans; [exact He|]. eapply Rle_trans; [apply u_rod1pu_ro_le_u_ro|]. rewrite uro_u_ro. lra.
  - eapply Rle_trans; [exact Hh|]. rewrite uflow_bpow. right. replace (-1074)%Z with (-1075 + 1)%Z by reflexivity. rewrite bpow_plus_1. change (IZR radix2) with 2. lra.
Qed.
(* a sum or difference of two doubles has only the relative error *)
Lemma rnd_plus_err x y : exists e, Rabs e <= uro /\ rnd (val x + val y) = (val x + val y) * (1 + e).
Proof.
  destruct (FLT_plus_error_N_ex radix2 (-1074) 53 (fun x => negb (Z.even x)) (val x) (val y)) as (e & He & E).
  - apply generic_format_B2R.
  - apply generic_format_B2R.
  - exists e. split; [|exact E]. eapply Rle_trans; [exact He|]. eapply Rle_trans; [apply u_rod1pu_ro_le_u_ro|]. rewrite uro_u_ro. lra.
Qed.

(* halving the rounded sum of two doubles gives their rounded mean *)
Lemma rndX_2 x : round radix2 (FLX_exp 53) ZnearestE (2 * x) = 2 * round radix2 (FLX_exp 53) ZnearestE x.
Proof.
  destruct (Req_dec x 0) as [->|N]. { rewrite Rmult_0_r, !round_0 by auto with typeclass_instances. lra. }
  assert (M : (mag radix2 (2 * x) = mag radix2 x + 1 :> Z)%Z).
  { rewrite <- (mag_mult_bpow radix2 x 1 N). replace (x * bpow radix2 1) with (2 * x) by (change (bpow radix2 1) with 2; ring). reflexivity. }
  unfold round, scaled_mantissa, cexp, FLX_exp. rewrite M. set (e := (mag radix2 x : Z)).
  replace (2 * x * bpow radix2 (- (e + 1 - 53))) with (x * bpow radix2 (- (e - 53))).
  2: { replace (- (e - 53))%Z with (- (e + 1 - 53) + 1)%Z by lia. rewrite bpow_plus_1. change (IZR radix2) with 2. ring. }
  unfold F2R. cbn [Fnum Fexp]. replace (e + 1 - 53)%Z with (e - 53 + 1)%Z by lia. rewrite bpow_plus_1. change (IZR radix2) with 2. ring.
Qed.
Lemma rnd_mean (x y : f64) : rnd (rnd (val x + val y) / 2) = rnd ((val x + val y) / 2).
Proof.
  set (s := val x + val y). destruct (Rle_or_lt (Rabs s) (bpow radix2 (-1021))) as [H|H].
  - f_equal. f_equal. rewrite rnd_FLT. apply round_generic; auto with typeclass_instances.
    apply FLT_format_plus_small; auto with typeclass_instances; apply generic_format_B2R.
  - assert (A : bpow radix2 (-1022) <= Rabs (s / 2)).
    { unfold Rdiv. rewrite Rabs_mult, (Rabs_pos_eq (/ 2)) by lra. replace (-1021)%Z with (-1022 + 1)%Z in H by reflexivity. rewrite bpow_plus_1 in H. change (IZR radix2) with 2 in H. lra. }
    assert (B : rnd s = 2 * rnd (s / 2)).
    { rewrite (rnd_FLT s), (rnd_FLT (s / 2)). rewrite (round_FLT_FLX radix2 (-1074) 53 ZnearestE s), (round_FLT_FLX radix2 (-1074) 53 ZnearestE (s / 2)).
      - rewrite <- rndX_2. f_equal. field.
      - exact A.
      - eapply Rle_trans; [exact A|]. unfold Rdiv. rewrite Rabs_mult, (Rabs_pos_eq (/ 2)) by lra. pose proof (Rabs_pos s). lra. }
    rewrite B. replace (2 * rnd (s / 2) / 2) with (rnd (s / 2)) by field. rewrite !rnd_FLT. apply round_generic; auto with typeclass_instances.
    apply generic_format_round; auto with typeclass_instances.
Qed.

(** ** The operations *)
Local Open Scope num_scope.
Lemma val_opp (x : f64) : val (- x) = (- val x)%R.
Proof. apply B2R_Bopp. Qed.
Lemma fin_opp (x : f64) : fin (- x) <-> fin x.
Proof. unfold fin. cbn [nopp NumF]. rewrite is_finite_Bopp. reflexivity. Qed.
Lemma val_n0 : val n0 = 0%R.
Proof. reflexivity. Qed.
(* a finite result: the operands were finite and the result is the rounded exact one *)
Lemma fadd_fin (x y : f64) : fin (x + y) -> fin x /\ fin y.
Proof.
  unfold fin. cbn [nadd NumF]. destruct x as [sx|sx| |sx mx ex Hx], y as [sy|sy| |sy my ey Hy]; cbn [is_finite]; auto; cbn; try destruct (Bool.eqb sx sy); cbn; discriminate.
Qed.
Lemma fadd_val (x y : f64) : fin (x + y) -> val (x + y) = rnd (val x + val y).
Proof.
  intros H. destruct (fadd_fin x y H) as [Hx Hy]. pose proof (Bplus_correct 53 1024 _ _ mode_NE x y Hx Hy) as C.
  destruct (Rlt_bool _ _); [apply C|]. destruct C as [C _]. exfalso. unfold fin in H. cbn [nadd NumF] in H.
  rewrite <- is_finite_SF_B2SF, C in H. discriminate.
Qed.
Lemma fsub_fin (x y : f64) : fin (x - y) -> fin x /\ fin y.
Proof.
  unfold fin. cbn [nsub NumF]. destruct x as [sx|sx| |sx mx ex Hx], y as [sy|sy| |sy my ey Hy]; cbn [is_finite]; auto; cbn; try destruct (Bool.eqb sx (negb sy)); cbn; discriminate.
Qed.
Lemma fsub_val (x y : f64) : fin (x - y) -> val (x - y) = rnd (val x - val y).
Proof.
  intros H. destruct (fsub_fin x y H) as [Hx Hy]. pose proof (Bminus_correct 53 1024 _ _ mode_NE x y Hx Hy) as C.
  destruct (Rlt_bool _ _); [apply C|]. destruct C as [C _]. exfalso. unfold fin in H. cbn [nsub NumF] in H.
  rewrite <- is_finite_SF_B2SF, C in H. discriminate.
Qed.
Lemma fmul_fin (x y : f64) : fin (x * y) -> fin x /\ fin y.
Proof.
  unfold fin. cbn [nmul NumF]. destruct x as [sx|sx| |sx mx ex Hx], y as [sy|sy| |sy my ey Hy]; cbn [is_finite]; auto; cbn; discriminate.
Qed.
Lemma fmul_val (x y : f64) : fin (x * y) -> val (x * y) = rnd (val x * val y).
Proof.
  intros H. pose proof (Bmult_correct 53 1024 _ _ mode_NE x y) as C.
  destruct (Rlt_bool _ _); [apply C|]. exfalso. unfold fin in H. cbn [nmul NumF] in H.
  rewrite <- is_finite_SF_B2SF, C in H. discriminate.
Qed.
Lemma fdiv_fin (x y : f64) : fin (x / y) -> fin y -> fin x /\ val y <> 0%R.
Proof.
  unfold fin. cbn [ndiv NumF]. destruct x as [sx|sx| |sx mx ex Hx], y as [sy|sy| |sy my ey Hy]; cbn [is_finite]; auto; cbn; try discriminate;
  (split; [reflexivity|]); unfold val; cbn [B2R]; apply F2R_neq_0; destruct sy; cbn; discriminate.
Qed.
Lemma fdiv_val (x y : f64) : fin (x / y) -> fin y -> val (x / y) = rnd (val x / val y).
Proof.
  intros H Hy. destruct (fdiv_fin x y H Hy) as [Hx N]. pose proof (Bdiv_correct 53 1024 _ _ mode_NE x y N) as C.
  destruct (Rlt_bool _ _); [apply C|]. exfalso. unfold fin in H. cbn [ndiv NumF] in H.
  rewrite <- is_finite_SF_B2SF, C in H. discriminate.
Qed.
(* comparisons of finite numbers are those of the values *)
Lemma flt_val (x y : f64) : fin x -> fin y -> (x <? y) = Rltb (val x) (val y).
Proof. intros Hx Hy. cbn [nltb NumF]. rewrite Bltb_correct by auto. unfold Rltb, val. destruct (Rlt_bool_spec (B2R x) (B2R y)), (Rlt_dec (B2R x) (B2R y)); auto; lra. Qed.
Lemma fle_val (x y : f64) : fin x -> fin y -> (x <=? y) = Rleb (val x) (val y).
Proof. intros Hx Hy. cbn [nleb NumF]. rewrite Bleb_correct by auto. unfold Rleb, val. destruct (Rle_bool_spec (B2R x) (B2R y)), (Rle_dec (B2R x) (B2R y)); auto; lra. Qed.
Lemma feq_val (x y : f64) : fin x -> fin y -> (x =? y) = Reqb (val x) (val y).
Proof. intros Hx Hy. cbn [neqb NumF]. rewrite Beqb_correct by auto. unfold Reqb, val. destruct (Req_bool_spec (B2R x) (B2R y)), (Req_EM_T (B2R x) (B2R y)); auto; lra. Qed.
(* the sum with 0 is the number itself, up to the sign of a zero *)
Lemma fadd_0 (x : f64) : x <> B754_nan -> (x + n0 =? x) = true.
Proof.
  intros N. destruct x as [sx|sx| |sx mx ex Hx]; [destruct sx; reflexivity|destruct sx; reflexivity|congruence|].
  change (B754_finite sx mx ex Hx + n0) with (B754_finite sx mx ex Hx). rewrite feq_val by reflexivity. unfold Reqb. destruct (Req_EM_T _ _); auto; congruence.
Qed.
(* integers up to 2^53 are doubles *)
Lemma fofZ_val z : (Z.abs z <= 2 ^ 53)%Z -> fin (nofZ z) /\ val (nofZ z) = IZR z.
Proof.
  intros H. pose proof (binary_normalize_correct 53 1024 prec_pos prec_emax mode_NE z 0 false) as C. cbv zeta in C.
  assert (F : F2R (Float radix2 z 0) = IZR z) by (unfold F2R; cbn; ring).
  assert (E : round radix2 (SpecFloat.fexp 53 1024) (round_mode mode_NE) (F2R (Float radix2 z 0)) = IZR z).
  { rewrite F. apply (round_generic radix2 (FLT_exp (-1074) 53)); auto with typeclass_instances.
    apply generic_format_FLT. destruct (Z.eq_dec (Z.abs z) (2 ^ 53)) as [Q|Q].
    - assert (z = 2 ^ 53 \/ z = - 2 ^ 53)%Z as [->| ->] by lia.
      + exists (Float radix2 1 53); [unfold F2R; cbn; lra|cbn; lia|cbn; lia].
      + exists (Float radix2 (-1) 53); [unfold F2R; cbn; lra|cbn; lia|cbn; lia].
    - exists (Float radix2 z 0); [now rewrite F|cbn [Fnum]; change (radix2 ^ 53)%Z with (2 ^ 53)%Z; lia|cbn; lia]. }
  rewrite E in C. rewrite Rlt_bool_true in C; [unfold fin, val; cbn [nofZ NumF]; unfold fofZ; tauto|].
  rewrite <- abs_IZR. apply (Rle_lt_trans _ (IZR (2 ^ 53))); [now apply IZR_le|].
  change (IZR (2 ^ 53)) with (bpow radix2 53). apply bpow_lt. lia.
Qed.
(* sums and products of integers stay exact up to 2^53 *)
Lemma rnd_int z : (Z.abs z <= 2 ^ 53)%Z -> rnd (IZR z) = IZR z.
Proof. intros H. destruct (fofZ_val z H) as [_ <-]. apply rnd_val. Qed.
Lemma int_lt z : (Z.abs z <= 2 ^ 53)%Z -> (Rabs (IZR z) < bpow radix2 1024)%R.
Proof.
  intros H. rewrite <- abs_IZR. apply (Rle_lt_trans _ (IZR (2 ^ 53))); [now apply IZR_le|]. change (IZR (2 ^ 53)) with (bpow radix2 53). apply bpow_lt. lia.
Qed.
Lemma fadd_int (x y : f64) z : fin x -> fin y -> (val x + val y = IZR z)%R -> (Z.abs z <= 2 ^ 53)%Z -> fin (x + y) /\ val (x + y) = IZR z.
Proof.
  intros Hx Hy E H. pose proof (Bplus_correct 53 1024 _ _ mode_NE x y Hx Hy) as C. fold (val x) (val y) in C. rewrite E in C.
  change (round radix2 (SpecFloat.fexp 53 1024) (round_mode mode_NE) (IZR z)) with (rnd (IZR z)) in C. rewrite rnd_int, Rlt_bool_true in C by auto using int_lt.
  destruct C as (C1 & C2 & _). split; [exact C2|exact C1].
Qed.
Lemma fmul_int (x y : f64) z : fin x -> fin y -> (val x * val y = IZR z)%R -> (Z.abs z <= 2 ^ 53)%Z -> fin (x * y) /\ val (x * y) = IZR z.
Proof.
  intros Hx Hy E H. pose proof (Bmult_correct 53 1024 _ _ mode_NE x y) as C. fold (val x) (val y) in C. rewrite E in C.
  change (round radix2 (SpecFloat.fexp 53 1024) (round_mode mode_NE) (IZR z)) with (rnd (IZR z)) in C. rewrite rnd_int, Rlt_bool_true in C by auto using int_lt.
  destruct C as (C1 & C2 & _). unfold fin in *. cbn [nmul NumF]. rewrite C2, Hx, Hy. split; [reflexivity|exact C1].
Qed.
(* powers of two *)
Lemma rnd_pow2 e : (-1074 <= e)%Z -> rnd (bpow radix2 e) = bpow radix2 e.
Proof. intros H. rewrite rnd_FLT. apply round_generic; auto with typeclass_instances. apply generic_format_FLT_bpow; auto with typeclass_instances. Qed.
Lemma val_lt_emax (x : f64) : (Rabs (val x) < bpow radix2 1024)%R.
Proof. apply abs_B2R_lt_emax. Qed.
