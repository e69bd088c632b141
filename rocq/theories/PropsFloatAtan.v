(* atan with a branch cut in double precision.  /repo/npplus/basic.py:284-325. *)
From Coq Require Import List Arith ZArith QArith Qreals Bool Lia Reals Lra.
From Flocq Require Import Core BinarySingleNaN.
From Verif Require Import Num PyBase NdArray Basic PropsElem PolyDer Poly SpecPoly Float64 PropsFloat FloatErr PropsFloatPw FloatElem PropsFloatPline.
Import ListNotations.
Local Open Scope R_scope.

(** ** fmod is exact *)
Lemma fmt_F2R m e : (Z.abs m < 2 ^ 53)%Z -> (-1074 <= e)%Z -> generic_format radix2 (FLT_exp (-1074) 53) (F2R (Float radix2 m e)).
Proof. intros Hm He. apply generic_format_FLT. exists (Float radix2 m e); [reflexivity|exact Hm|exact He]. Qed.
Lemma bounded_lt s m e : SpecFloat.bounded 53 1024 m e = true -> (Z.abs (SpecFloat.cond_Zopp s (Zpos m)) < 2 ^ 53)%Z /\ (-1074 <= e)%Z.
Proof.
  intros H. pose proof (canonical_bounded 53 1024 s m e H) as C. unfold canonical in C. cbn [Fexp] in C. unfold cexp in C.
  change (SpecFloat.fexp 53 1024) with (FLT_exp (-1074) 53) in C. unfold FLT_exp in C. split; [|lia].
  set (z := SpecFloat.cond_Zopp s (Zpos m)) in *. pose proof (bpow_mag_gt radix2 (F2R (Float radix2 z e))) as M.
  assert (L : Rabs (F2R (Float radix2 z e)) < bpow radix2 (53 + e)) by (eapply Rlt_le_trans; [exact M|]; apply bpow_le; lia).
  rewrite <- F2R_Zabs in L. unfold F2R in L. cbn [Fnum Fexp] in L. rewrite bpow_plus in L. apply Rmult_lt_reg_r in L; [|apply bpow_gt_0]. apply lt_IZR. exact L.
Qed.
Lemma shift_F2R m e d : (d <= e)%Z -> F2R (Float radix2 (Z.shiftl m (e - d)) d) = F2R (Float radix2 m e).
Proof.
  intros H. rewrite Z.shiftl_mul_pow2 by lia. unfold F2R. cbn [Fnum Fexp]. rewrite mult_IZR, (IZR_Zpower radix2) by lia.
  rewrite Rmult_assoc, <- bpow_plus. replace (e - d + d)%Z with e by lia. reflexivity.
Qed.
Lemma rem_abs_le a b : (Z.abs (Z.rem a b) <= Z.abs a)%Z.
Proof. destruct (Z.eq_dec b 0) as [->|N]; [destruct a; cbn; lia|]. rewrite <- Z.rem_abs by exact N. apply Z.rem_le; lia. Qed.
Lemma F2R_le1 a b e : (a <= b)%Z -> F2R (Float radix2 a e) <= F2R (Float radix2 b e).
Proof. intros H. apply F2R_le. exact H. Qed.
Lemma ffmod_ok (x y : f64) : fin x -> fin y -> val y <> 0 ->
  fin (ffmod x y) /\ Rabs (val (ffmod x y)) < Rabs (val y) /\ (0 <= val x -> 0 <= val (ffmod x y)) /\ (val x <= 0 -> val (ffmod x y) <= 0) /\
  exists k, val (ffmod x y) = val x - val y * IZR k /\ Rabs (val y * IZR k) <= Rabs (val x).
Proof.
  intros Fx Fy Ny. destruct y as [sy|sy| |sy my ey By]; try discriminate; [exfalso; apply Ny; reflexivity|].
  destruct x as [sx|sx| |sx mx ex Bx]; try discriminate.
  { cbn [ffmod]. split; [reflexivity|]. change (val (B754_zero sx)) with 0. split; [rewrite Rabs_R0; apply Rabs_pos_lt; exact Ny|]. split; [intros _; lra|]. split; [intros _; lra|].
    exists 0%Z. rewrite Rmult_0_r, Rabs_R0. split; lra. }
  cbn [ffmod]. cbv zeta. set (e := Z.min ex ey). set (zx := SpecFloat.cond_Zopp sx (Zpos mx)). set (zy := SpecFloat.cond_Zopp sy (Zpos my)).
  set (a := Z.shiftl zx (ex - e)). set (b := Z.shiftl zy (ey - e)).
  destruct (bounded_lt sx mx ex Bx) as [Mx Ex], (bounded_lt sy my ey By) as [My Ey]. fold zx in Mx. fold zy in My.
  assert (Va : val (B754_finite sx mx ex Bx) = F2R (Float radix2 a e)) by (unfold a; rewrite shift_F2R by (unfold e; lia); reflexivity).
  assert (Vb : val (B754_finite sy my ey By) = F2R (Float radix2 b e)) by (unfold b; rewrite shift_F2R by (unfold e; lia); reflexivity).
  assert (Nb : b <> 0%Z) by (intros Q; apply Ny; rewrite Vb, Q; apply F2R_0).
  set (r := Z.rem a b). pose proof (Z.quot_rem' a b) as QR. fold r in QR. pose proof (Z.rem_bound_abs a b Nb) as RB. fold r in RB. pose proof (rem_abs_le a b) as RA. fold r in RA.
  assert (Mr : (Z.abs r < 2 ^ 53)%Z).
  { destruct (Z.le_ge_cases ex ey) as [C|C].
    - assert (a = zx) by (unfold a, e; rewrite Z.min_l, Z.sub_diag by exact C; apply Z.shiftl_0_r). lia.
    - assert (b = zy) by (unfold b, e; rewrite Z.min_r, Z.sub_diag by exact C; apply Z.shiftl_0_r). lia. }
  assert (FM : generic_format radix2 (FLT_exp (-1074) 53) (F2R (Float radix2 r e))) by (apply fmt_F2R; [exact Mr|unfold e; lia]).
  pose proof (binary_normalize_correct 53 1024 prec_pos prec_emax mode_NE r e sx) as C. cbv zeta in C.
  assert (RR : round radix2 (SpecFloat.fexp 53 1024) (round_mode mode_NE) (F2R (Float radix2 r e)) = F2R (Float radix2 r e)) by (apply round_generic; [auto with typeclass_instances|exact FM]).
  rewrite RR in C. assert (AR : Rabs (F2R (Float radix2 r e)) < Rabs (F2R (Float radix2 b e))) by (rewrite <- !F2R_Zabs; apply F2R_lt; exact RB).
  rewrite Rlt_bool_true in C.
  2:{ eapply Rlt_trans; [exact AR|]. rewrite <- Vb. apply val_lt_emax. }
  destruct C as (C1 & C2 & _). unfold fin. fold r. set (w := binary_normalize 53 1024 prec_pos prec_emax mode_NE r e sx) in *.
  assert (Vw : val w = F2R (Float radix2 r e)) by exact C1. clearbody w. rewrite Vw, Va, Vb. split; [exact C2|]. split; [exact AR|]. split; [|split].
  - intros H. apply F2R_ge_0. cbn [Fnum]. apply ge_0_F2R in H. apply Z.rem_nonneg; auto.
  - intros H. apply F2R_le_0. cbn [Fnum]. apply le_0_F2R in H. apply Z.rem_nonpos; auto.
  - exists (Z.quot a b). unfold F2R. cbn [Fnum Fexp]. split.
    + assert (Q : IZR r = IZR a - IZR b * IZR (a ÷ b)) by (rewrite <- mult_IZR, <- minus_IZR; f_equal; lia). rewrite Q. ring.
    + replace (IZR b * bpow radix2 e * IZR (a ÷ b)) with (IZR (b * (a ÷ b)) * bpow radix2 e) by (rewrite mult_IZR; ring). rewrite !Rabs_mult. apply Rmult_le_compat_r; [apply Rabs_pos|].
      rewrite <- !abs_IZR. apply IZR_le. destruct (Z.le_ge_cases 0 a) as [Pa|Pa]; [pose proof (Z.rem_nonneg a b Nb Pa) as PP|pose proof (Z.rem_nonpos a b Nb Pa) as PP]; fold r in PP; lia.
Qed.

(* x % y for y > 0 *)
Lemma fmodulo_ok (x y : f64) : fin x -> fin y -> 0 < val y <= 10 ^ 300 ->
  fin (fmodulo x y) /\ 0 <= val (fmodulo x y) <= val y /\
  exists k, Rabs (val (fmodulo x y) - (val x - val y * IZR k)) <= uro * val y /\ val y * Rabs (IZR k) <= Rabs (val x) + val y.
Proof.
  intros Fx Fy Py. destruct (ffmod_ok x y Fx Fy ltac:(lra)) as (Fm & Bm & Pm & Nm & k & Ek & Bk). rewrite (Rabs_pos_eq (val y)) in Bm by lra. unfold fmodulo. set (m := ffmod x y) in *. clearbody m.
  rewrite Rabs_mult, (Rabs_pos_eq (val y)) in Bk by lra. pose proof uro_pos as U.
  assert (Uy : 0 <= uro * val y) by (apply Rmult_le_pos; lra).
  rewrite feq_val, val_n0 by (auto; reflexivity). destruct (Reqb_spec (val m) 0) as [Z|Z].
  { assert (Y : (y <? n0)%K = false) by (rewrite flt_val, val_n0 by (auto; reflexivity); destruct (Rltb_spec (val y) 0); [lra|reflexivity]). rewrite Y.
    change (val (B754_zero false)) with 0. split; [reflexivity|]. split; [lra|]. exists k. rewrite <- Ek, Z, Rminus_0_r, Rabs_R0. split; lra. }
  rewrite !flt_val, val_n0 by (auto; reflexivity). destruct (Rltb_spec (val y) 0); [lra|]. destruct (Rltb_spec (val m) 0) as [M|M]; cbn [Bool.eqb].
  - assert (A : -val y < val m) by (apply Raux.Rabs_lt_inv in Bm; lra). assert (T : 10 ^ 300 <= 10 ^ 301) by (apply Rle_pow; [lra|lia]).
    destruct (fadd_ok m y Fm Fy) as [F V]; [rewrite Rabs_pos_eq by lra; lra|]. split; [exact F|]. rewrite V. split.
    + split; [rewrite <- rnd_0; apply rnd_le; lra|]. rewrite <- (rnd_val y). rewrite rnd_val at 1. apply rnd_le. lra.
    + exists (k - 1)%Z. rewrite minus_IZR. replace (val x - val y * (IZR k - 1)) with (val m + val y) by lra. destruct (rnd_plus_err m y) as (e & He & ->).
      replace ((val m + val y) * (1 + e) - (val m + val y)) with (e * (val m + val y)) by ring. rewrite Rabs_mult, (Rabs_pos_eq (val m + val y)) by lra. split.
      * apply Rmult_le_compat; try apply Rabs_pos; try lra.
      * assert (Q : Rabs (IZR k - 1) <= Rabs (IZR k) + 1) by (unfold Rminus; eapply Rle_trans; [apply Rabs_triang|]; rewrite Rabs_Ropp, Rabs_R1; lra).
        pose proof (Rmult_le_compat_l (val y) _ _ ltac:(lra) Q). lra.
  - split; [exact Fm|]. split; [apply Raux.Rabs_lt_inv in Bm; lra|]. exists k. rewrite <- Ek. replace (val m - val m) with 0 by ring. rewrite Rabs_R0. split; lra.
Qed.

(** ** 2 pi *)
Lemma PI_range2 : 3141592653589793238 / 10 ^ 18 <= PI <= 3141592653589793239 / 10 ^ 18.
Proof.
  pose proof (PI_2_3_7_ineq 10) as [L U]. rewrite <- piQ_ok in L, U.
  assert (H1 : (3141592653589793238 # 4000000000000000000 <= piQ 21)%Q) by (apply Qle_bool_iff; vm_compute; reflexivity).
  assert (H2 : (piQ 20 <= 3141592653589793239 # 4000000000000000000)%Q) by (apply Qle_bool_iff; vm_compute; reflexivity).
  apply Qle_Rle in H1. apply Qle_Rle in H2. change (S (2 * 10)) with 21%nat in L. change (2 * 10)%nat with 20%nat in U.
  unfold Q2R at 1 in H1. unfold Q2R at 2 in H2. cbn [Qnum Qden] in H1, H2. lra.
Qed.
Lemma f2pi_val : fin f2pi /\ val f2pi = 7074237752028440 / 2 ^ 50.
Proof.
  split; [vm_compute; reflexivity|]. unfold val. rewrite <- SF2R_B2SF. assert (E : B2SF f2pi = SpecFloat.S754_finite false 7074237752028440 (-50)) by (vm_compute; reflexivity).
  rewrite E. unfold SF2R, F2R. cbn [Fnum Fexp SpecFloat.cond_Zopp]. change (-50)%Z with (- (50))%Z. rewrite (bpow_inv 50) by lia. reflexivity.
Qed.
Lemma f2pi_err : Rabs (val f2pi - 2 * PI) <= 2.5 / 10 ^ 16.
Proof. pose proof PI_range2. rewrite (proj2 f2pi_val). apply Rabs_le. lra. Qed.

(** ** atan *)
(* the point (b, a) lies in the direction th *)
Definition polar (a b th : R) : Prop := b = sqrt (a * a + b * b) * cos th /\ a = sqrt (a * a + b * b) * sin th.
Section Atan.
  Variable at1 : f64 -> f64.
  Variable at2 : f64 -> f64 -> f64.
  Lemma branch_err (t br : f64) : fin t -> Rabs (val t) <= 4 -> fin br -> Rabs (val br) <= 10 ^ 299 ->
    let r := nadd (fmodulo (nsub t br) f2pi) br in
    fin r /\ val br <= val r <= rnd (val br + val f2pi) /\ exists k, Rabs (val r - (val t - 2 * PI * IZR k)) <= (3 * Rabs (val br) + 21) * uro.
  Proof.
    intros Ft Bt Fb Bb r. destruct f2pi_val as [FP VP]. pose proof uro_lt as U. pose proof f2pi_err as EP. set (P := val f2pi) in *. assert (RP : 6.28 < P < 6.2832) by (rewrite VP; lra).
    assert (T0 : 1000 <= 10 ^ 299) by (apply Rle_trans with (10 ^ 3); [lra|apply Rle_pow; [lra|lia]]).
    assert (T : 10 ^ 301 = 10 ^ 299 * 100) by (replace 100 with (10 ^ 2) by lra; rewrite <- pow_add; reflexivity). assert (T3 : 10 ^ 300 = 10 ^ 299 * 10) by (replace 10 with (10 ^ 1) at 3 by lra; rewrite <- pow_add; reflexivity).
    set (B := 10 ^ 299) in *. set (ab := Rabs (val br)) in *.
    assert (TB : Rabs (val t - val br) <= 4 + ab) by (unfold Rminus; eapply Rle_trans; [apply Rabs_triang|]; rewrite Rabs_Ropp; fold ab; lra).
    destruct (fsub_ok t br Ft Fb) as [Fd Vd]; [rewrite T; lra|]. destruct (rnd_minus_err t br) as (e & He & Ed). rewrite Ed in Vd.
    destruct (fmodulo_ok (nsub t br) f2pi Fd FP) as (Fm & Bm & k & Ek & Bk); [fold P; rewrite T3; lra|]. fold P in Bm, Ek, Bk. set (m := fmodulo (nsub t br) f2pi) in *. set (d := nsub t br) in *. clearbody m d.
    assert (AB : val br <= ab) by apply Rle_abs. assert (AB2 : - ab <= val br) by (pose proof (Rle_abs (- val br)) as Q; rewrite Rabs_Ropp in Q; fold ab in Q; lra).
    assert (P0 : 0 <= ab) by apply Rabs_pos.
    destruct (fadd_ok m br Fm Fb) as [Fr Vr]; [rewrite T; apply Rabs_le; lra|]. split; [exact Fr|]. unfold r. rewrite Vr. split.
    { split; [rewrite <- (rnd_val br) at 1; apply rnd_le; lra|apply rnd_le; lra]. }
    exists k. destruct (rnd_plus_err m br) as (e' & He' & ->).
    replace ((val m + val br) * (1 + e') - (val t - 2 * PI * IZR k)) with ((val m - (val d - P * IZR k)) + (e * (val t - val br) + (e' * (val m + val br) - IZR k * (P - 2 * PI)))) by (rewrite Vd; ring).
    assert (A1 : Rabs (e * (val t - val br)) <= uro * (4 + ab)) by (rewrite Rabs_mult; apply Rmult_le_compat; auto; apply Rabs_pos).
    assert (A2 : Rabs (e' * (val m + val br)) <= uro * (P + ab)) by (rewrite Rabs_mult; apply Rmult_le_compat; try apply Rabs_pos; auto; apply Rabs_le; lra).
    assert (Dd : Rabs (val d) <= 1.001 * (4 + ab)).
    { rewrite Vd, Rmult_comm, Rabs_mult. apply Rmult_le_compat; try apply Rabs_pos; auto. eapply Rle_trans; [apply Rabs_triang|]. rewrite Rabs_R1. lra. }
    assert (Kb : Rabs (IZR k) <= (1.001 * (4 + ab) + P) / 6.28).
    { pose proof (Rabs_pos (IZR k)) as Q. apply (Rmult_le_reg_l 6.28); [lra|]. replace (6.28 * ((1.001 * (4 + ab) + P) / 6.28)) with (1.001 * (4 + ab) + P) by lra.
      pose proof (Rmult_le_compat_r (Rabs (IZR k)) 6.28 P Q ltac:(lra)). lra. }
    assert (U2 : 2.5 / 10 ^ 16 <= 2.26 * uro) by (unfold uro; lra).
    assert (A3 : Rabs (IZR k * (P - 2 * PI)) <= (1.001 * (4 + ab) + P) / 6.28 * (2.26 * uro)) by (rewrite Rabs_mult; apply Rmult_le_compat; try apply Rabs_pos; lra).
    eapply Rle_trans; [apply Rabs_triang|]. eapply Rle_trans; [apply Rplus_le_compat_l, Rabs_triang|]. unfold Rminus at 4. eapply Rle_trans; [apply Rplus_le_compat_l, Rplus_le_compat_l, Rabs_triang|]. rewrite Rabs_Ropp.
    assert (F : uro * P + (uro * (4 + ab) + (uro * (P + ab) + (1.001 * (4 + ab) + P) / 6.28 * (2.26 * uro))) <= (3 * ab + 21) * uro).
    { assert (G : (3 * ab + 21) * uro - (uro * P + (uro * (4 + ab) + (uro * (P + ab) + (1.001 * (4 + ab) + P) / 6.28 * (2.26 * uro)))) = uro * (3 * ab + 21 - P - 4 - ab - P - ab - (1.001 * (4 + ab) + P) / 6.28 * 2.26)) by lra.
      assert (0 <= 3 * ab + 21 - P - 4 - ab - P - ab - (1.001 * (4 + ab) + P) / 6.28 * 2.26) by lra. pose proof (Rmult_le_pos uro _ (Rlt_le _ _ (proj1 U)) H). lra. }
    lra.
  Qed.

  (* arctan2 is accurate to two units in the last place of pi; -pi as well as pi may be returned on the negative x axis *)
  Definition at2_good : Prop := forall a b, fin a -> fin b -> fin (at2 a b) /\
    exists th, - PI <= th <= PI /\ polar (val a) (val b) th /\ Rabs (val (at2 a b) - th) <= 4 * uro.
  Hypothesis Hat2 : at2_good.
  Theorem C107_branch (a b br : f64) (out : bool) : fin a -> fin b -> fin br -> Rabs (val br) <= 10 ^ 299 ->
    let (r, o) := atan_gen at1 at2 fmodulo f2pi a (Some b) out (Some br) in
    fin r /\ val br <= val r <= rnd (val br + val f2pi) /\
    (exists th, polar (val a) (val b) th /\ Rabs (val r - th) <= (3 * Rabs (val br) + 25) * uro) /\
    o = (if out then Some r else None).
  Proof.
    intros Fa Fb Fbr Bbr. cbn [atan_gen]. destruct (Hat2 a b Fa Fb) as (Ft & th & Rth & Pol & Et). pose proof PI_range2 as PR. pose proof uro_lt as U.
    destruct (branch_err (at2 a b) br Ft) as (Fr & Br & k & Ek); auto.
    { replace (val (at2 a b)) with (th + (val (at2 a b) - th)) by ring. eapply Rle_trans; [apply Rabs_triang|]. assert (Rabs th <= PI) by (apply Rabs_le; lra). lra. }
    split; [exact Fr|]. split; [exact Br|]. split; [|reflexivity]. exists (th - 2 * PI * IZR k). split.
    - unfold polar in *. destruct (cos_period_Z th k) as [-> ->]. exact Pol.
    - set (r := nadd _ br) in *. replace (val r - (th - 2 * PI * IZR k)) with ((val r - (val (at2 a b) - 2 * PI * IZR k)) + (val (at2 a b) - th)) by ring.
      eapply Rle_trans; [apply Rabs_triang|]. lra.
  Qed.
  (* the bound on the range: at most the rounded branch + 2.*pi *)
  Theorem C107_upper (a b br : f64) (out : bool) : fin a -> fin b -> fin br -> Rabs (val br) <= 10 ^ 299 ->
    let r := fst (atan_gen at1 at2 fmodulo f2pi a (Some b) out (Some br)) in
    (br <=? r)%K = true /\ (r <=? br + f2pi)%K = true.
  Proof.
    intros Fa Fb Fbr Bbr. pose proof (C107_branch a b br out Fa Fb Fbr Bbr) as H. destruct (atan_gen at1 at2 fmodulo f2pi a (Some b) out (Some br)) as [r o]. destruct H as (Fr & [L U] & _ & _). cbn [fst].
    destruct f2pi_val as [FP VP]. assert (PB : 0 <= val f2pi <= 7) by (rewrite VP; lra).
    destruct (fadd_ok br f2pi Fbr FP) as [Fs Vs].
    { eapply Rle_trans; [apply Rabs_triang|]. rewrite (Rabs_pos_eq (val f2pi)) by lra. assert (T : 10 ^ 301 = 10 ^ 299 * 100) by (replace 100 with (10 ^ 2) by lra; rewrite <- pow_add; reflexivity).
      assert (1 <= 10 ^ 299) by (apply pow_R1_Rle; lra). rewrite T. lra. }
    rewrite !fle_val, Vs by auto. destruct (Rleb_spec (val br) (val r)); [|lra]. destruct (Rleb_spec (val r) (rnd (val br + val f2pi))); [auto|lra].
  Qed.
End Atan.
Print Assumptions C107_branch.
Print Assumptions C107_upper.

(** ** an arctan2 within the bound: the rounded angle *)
Definition fround (x : R) : f64 := binary_normalize 53 1024 prec_pos prec_emax mode_NE (Ztrunc (scaled_mantissa radix2 (FLT_exp (-1074) 53) (rnd x))) (cexp radix2 (FLT_exp (-1074) 53) (rnd x)) false.
Lemma fround_ok x : Rabs x <= 10 ^ 301 -> fin (fround x) /\ val (fround x) = rnd x.
Proof.
  intros B. assert (G : generic_format radix2 (FLT_exp (-1074) 53) (rnd x)) by (apply generic_format_round; [apply FLT_exp_valid; reflexivity|apply valid_rnd_N]).
  pose proof (binary_normalize_correct 53 1024 prec_pos prec_emax mode_NE (Ztrunc (scaled_mantissa radix2 (FLT_exp (-1074) 53) (rnd x))) (cexp radix2 (FLT_exp (-1074) 53) (rnd x)) false) as C. cbv zeta in C.
  fold (fround x) in C. unfold generic_format in G. rewrite <- G in C. change (round radix2 (SpecFloat.fexp 53 1024) (round_mode mode_NE) (rnd x)) with (rnd (rnd x)) in C. rewrite rnd_idem in C. rewrite Rlt_bool_true in C by (apply rnd_big; exact B). destruct C as (C1 & C2 & _). split; [exact C2|exact C1].
Qed.
Definition at2_ex (a b : f64) : f64 := fround (arctan2 (val a) (val b)).
Lemma at2_ex_good : at2_good at2_ex.
Proof.
  intros a b Fa Fb. destruct (C10_atan_plain (val a) (val b) false) as (R & Pol1 & Pol2 & _). cbn [atan] in R, Pol1, Pol2. unfold at2_ex. set (t := arctan2 (val a) (val b)) in *. pose proof PI_range2 as PR. assert (A : Rabs t <= 3.5) by (apply Rabs_le; lra).
  destruct (fround_ok t) as [F V]; [apply Rle_trans with (10 ^ 1); [lra|apply Rle_pow; [lra|lia]]|]. split; [exact F|]. exists t. split; [exact R|]. split; [split; assumption|].
  rewrite V. pose proof (rnd_abs t) as E. pose proof uro_pos as U. assert (UF : uflow <= uro * / 2).
  { unfold uflow, uro. rewrite <- Rinv_mult. apply Rinv_le_contravar; [lra|]. replace (2 ^ 53 * 2) with (2 ^ 54) by lra. apply Rle_pow; [lra|lia]. }
  assert (uro * Rabs t <= uro * 3.5) by (apply Rmult_le_compat_l; lra). lra.
Qed.
Print Assumptions at2_ex_good.

(** ** the documented branch <= angle < branch+2*pi *)
(* in double precision the angle can be branch+2*pi: a point just below the positive x axis, branch=0 (the case called most important) *)
Definition tiny : f64 := flit (-1 # 10 ^ 20).
Definition b23 : f64 := flit (23 # 10).
Definition t23 : f64 := flit (22999999999999994 # 10 ^ 16).
Theorem C107_upper_refuted (at1 : f64 -> f64) (at2 : f64 -> f64 -> f64) :
  (* atan(-1e-20, 1, branch=0) < 2*pi is false *)
  (at2 tiny n1 = tiny -> (fst (atan_gen at1 at2 fmodulo f2pi tiny (Some n1) false (Some n0)) <? n0 + f2pi)%K = false) /\
  (* and with branch=2.3 the angle can be larger than branch plus the true 2 pi *)
  (forall a b, at2 a b = t23 -> val b23 + 2 * PI < val (fst (atan_gen at1 at2 fmodulo f2pi a (Some b) false (Some b23)))).
Proof.
  split.
  - intros E. cbn [atan_gen fst]. rewrite E. vm_compute. reflexivity.
  - intros a b E. cbn [atan_gen fst]. rewrite E. pose proof PI_range2 as PR.
    destruct (fx_val b23 false 5179139571476070 (-51)) as [_ ->]; [vm_compute; reflexivity|].
    destruct (fx_val (nadd (fmodulo (nsub t23 b23) f2pi) b23) false 4831903768883238 (-49)) as [_ ->]; [vm_compute; reflexivity|].
    unfold SF2R, F2R. cbn [Fnum Fexp SpecFloat.cond_Zopp]. change (-51)%Z with (- (51))%Z. change (-49)%Z with (- (49))%Z. rewrite (bpow_inv 51), (bpow_inv 49) by lia.
    change (Z.to_nat 51) with 51%nat. change (Z.to_nat 49) with 49%nat. lra.
Qed.
Print Assumptions C107_upper_refuted.
(* the documented atan(0, -1, branch=-pi) = -pi holds: the case of a branch that is not 0 *)
Definition fmpi : f64 := (- fpi)%K.
Example ex_C107 : at2_good at2_ex /\ fin fmpi /\ Rabs (val fmpi) <= 10 ^ 299 /\
  (forall (at1 : f64 -> f64) (at2 : f64 -> f64 -> f64), at2 n0 (- n1)%K = fpi ->
    atan_gen at1 at2 fmodulo f2pi n0 (Some (- n1)%K) true (Some fmpi) = (fmpi, Some fmpi)).
Proof.
  split; [exact at2_ex_good|]. destruct (fx_val fmpi true 7074237752028440 (-51)) as [F V]; [vm_compute; reflexivity|]. split; [exact F|]. split.
  - rewrite V. unfold SF2R, F2R. cbn [Fnum Fexp SpecFloat.cond_Zopp]. change (-51)%Z with (- (51))%Z. rewrite (bpow_inv 51) by lia. change (Z.to_nat 51) with 51%nat.
    apply Rle_trans with (10 ^ 1); [|apply Rle_pow; [lra|lia]]. apply Rabs_le. rewrite opp_IZR. split; lra.
  - intros at1 at2 E. cbn [atan_gen]. rewrite E. assert (Q : nadd (fmodulo (nsub fpi fmpi) f2pi) fmpi = fmpi) by (apply B2SF_inj; vm_compute; reflexivity). rewrite Q. reflexivity.
Qed.
