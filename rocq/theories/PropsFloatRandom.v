(* C130: random points in and on circles and spheres in double precision.  npplus/randomx.py:41-175.
   The coordinates are modelled point by point; shapes, loops and sizes are those of RandomX.v. *)
From Coq Require Import List Arith ZArith Bool Lia Reals Lra.
From Flocq Require Import Core BinarySingleNaN.
From Verif Require Import Num PyBase NdArray Float64 PropsFloat FloatErr PropsFloatPw PropsFloatPline PropsFloatElem PropsFloatAtan PropsFloatSpanl.
Import ListNotations.
Local Open Scope R_scope.

(* q = 2.*random((m, d)) - 1., randomx.py:78 and 152; z of onsphere, line 173 *)
Definition fcoord (u : f64) : f64 := (nofZ 2 * u - n1)%K.
(* (q * q).sum(axis=-1) for one point, lines 79 and 153 *)
Definition fnorm2 (q : list f64) : f64 :=
  match map (fun x => x * x)%K q with [] => n0 | a :: r => fold_left nadd r a end.
(* (q * q).sum(axis=-1) < 1. *)
Definition faccept (q : list f64) : bool := (fnorm2 q <? n1)%K.

Section Trig.
  (* numpy.cos and numpy.sin of doubles, those of the C library *)
  Variable fcos fsin : f64 -> f64.
  (* one point of oncircle, lines 107-108 *)
  Definition foncircle (theta : f64) : list f64 := [fcos theta; fsin theta].
  (* one point of incircle for less than 330 points, lines 64-66:
       t, z = random((2,) + size + (1,)); t *= 2. * pi
       return sqrt(z) * concatenate((cos(t), sin(t)), axis=-1) *)
  Definition fincircle_few (t z : f64) : list f64 := map (fun x => fsqrt z * x)%K (foncircle t).
  (* one point of onsphere, lines 172-175 *)
  Definition fonsphere (theta u : f64) : list f64 :=
    let z := fcoord u in
    map (fun x => x * fsqrt (n1 - z * z))%K (foncircle theta) ++ [z].
End Trig.
(* accurate to one unit in the last place (2^-53 for results from 1/2 to 1), and not beyond 1 *)
Definition trig_good (g : f64 -> f64) (f : R -> R) : Prop := forall t, fin t -> fin (g t) /\ Rabs (val (g t)) <= 1 /\ Rabs (val (g t) - f (val t)) <= uro.
Definition rsq (q : list f64) : R := fold_right (fun x a => val x * val x + a) 0 q.

(** ** Products and sums of numbers up to 1 *)
Lemma int1 : fin n1 /\ val n1 = 1.
Proof. destruct (fofZ_val 1 ltac:(lia)) as [F V]. split; [exact F|exact V]. Qed.
Lemma rnd_1 : rnd 1 = 1.
Proof. rewrite <- (proj2 int1). apply rnd_val. Qed.
Lemma rnd_m1 : rnd (-1) = -1.
Proof. replace (-1) with (val (nopp (n1 : f64))) by (rewrite val_opp, (proj2 int1); lra). apply rnd_val. Qed.
Lemma rnd_le1 x : x <= 1 -> rnd x <= 1.
Proof. intros H. rewrite <- rnd_1. now apply rnd_le. Qed.
Lemma rnd_ge0 x : 0 <= x -> 0 <= rnd x.
Proof. intros H. rewrite <- rnd_0. now apply rnd_le. Qed.
Lemma rnd_gem1 x : -1 <= x -> -1 <= rnd x.
Proof. intros H. rewrite <- rnd_m1. now apply rnd_le. Qed.
Lemma p301 : 10 <= 10 ^ 301.
Proof. rewrite <- (pow_1 10) at 1. apply Rle_pow; [lra|lia]. Qed.
Lemma mul1 (x y : f64) : fin x -> fin y -> Rabs (val x) <= 1 -> Rabs (val y) <= 1 ->
  fin (nmul x y) /\ val (nmul x y) = rnd (val x * val y) /\ Rabs (val (nmul x y)) <= 1 /\ Rabs (val (nmul x y) - val x * val y) <= uro + uflow.
Proof.
  intros Fx Fy Bx By. pose proof p301. assert (B : Rabs (val x * val y) <= 1) by (rewrite Rabs_mult; replace 1 with (1 * 1) by ring; apply Rmult_le_compat; auto using Rabs_pos).
  destruct (fmul_ok x y Fx Fy ltac:(lra)) as [F V]. split; [exact F|]. split; [exact V|]. rewrite V. apply Rabs_le_inv in B as B'. split.
  - apply Rabs_le. split; [|rewrite <- rnd_1; apply rnd_le; lra].
    apply Rle_trans with (rnd (-1)); [rewrite rnd_m1; lra|apply rnd_le; lra].
  - eapply Rle_trans; [apply rnd_abs|]. pose proof uro_pos. assert (uro * Rabs (val x * val y) <= uro * 1) by (apply Rmult_le_compat_l; lra). lra.
Qed.
Lemma sqr1 (x : f64) : fin x -> Rabs (val x) <= 1 -> fin (nmul x x) /\ val (nmul x x) = rnd (val x * val x) /\ 0 <= val (nmul x x) <= 1 /\
  Rabs (val (nmul x x) - val x * val x) <= uro * (val x * val x) + uflow.
Proof.
  intros F B. destruct (mul1 x x F F B B) as (Fm & V & Bm & _). split; [exact Fm|]. split; [exact V|]. assert (S : 0 <= val x * val x) by nra. split.
  - split; [rewrite V, <- rnd_0; now apply rnd_le|apply Rabs_le_inv in Bm; lra].
  - rewrite V. rewrite <- (Rabs_pos_eq (val x * val x)) at 3 by exact S. apply rnd_abs.
Qed.

(** ** On the circle and the sphere *)
Lemma sq_near a b d : Rabs a <= 1 -> Rabs b <= 1 -> Rabs (a - b) <= d -> Rabs (a * a - b * b) <= 2 * d.
Proof.
  intros Ha Hb Hd. replace (a * a - b * b) with ((a - b) * (a + b)) by ring. rewrite Rabs_mult. rewrite Rmult_comm. apply Rmult_le_compat; auto using Rabs_pos.
  eapply Rle_trans; [apply Rabs_triang|]. lra.
Qed.
Theorem C130_oncircle fcos fsin t : trig_good fcos cos -> trig_good fsin sin -> fin t ->
  Forall fin (foncircle fcos fsin t) /\ length (foncircle fcos fsin t) = 2%nat /\ Rabs (rsq (foncircle fcos fsin t) - 1) <= 4 * uro.
Proof.
  intros GC GS Ft. destruct (GC t Ft) as (Fc & Bc & Ec). destruct (GS t Ft) as (Fs & Bs & Es). unfold foncircle. split; [repeat constructor; assumption|]. split; [reflexivity|].
  cbn [rsq fold_right]. set (c := val (fcos t)) in *. set (s := val (fsin t)) in *. pose proof (sin2_cos2 (val t)) as T. unfold Rsqr in T.
  assert (C1 : Rabs (cos (val t)) <= 1) by (apply Rabs_le; apply COS_bound). assert (S1 : Rabs (sin (val t)) <= 1) by (apply Rabs_le; apply SIN_bound).
  pose proof (sq_near _ _ _ Bc C1 Ec) as X. pose proof (sq_near _ _ _ Bs S1 Es) as Y. apply Rabs_le_inv in X. apply Rabs_le_inv in Y. apply Rabs_le. lra.
Qed.
Print Assumptions C130_oncircle.
Lemma fcoord_ok u : fin u -> 0 <= val u < 1 -> fin (fcoord u) /\ -1 <= val (fcoord u) <= 1.
Proof.
  intros Fu Hu. destruct (fofZ_val 2 ltac:(lia)) as [F2 V2]. destruct int1 as [F1 V1]. pose proof p301. unfold fcoord.
  destruct (fmul_ok (nofZ 2) u F2 Fu) as [Fm Vm]; [rewrite V2, Rabs_pos_eq; lra|]. rewrite V2 in Vm.
  assert (B : 0 <= val (nmul (nofZ 2) u) <= 2). { rewrite Vm. split; [rewrite <- rnd_0; apply rnd_le; lra|]. apply Rle_trans with (rnd (val (nofZ 2 : f64))); [apply rnd_le; lra|rewrite rnd_val; lra]. }
  destruct (fsub_ok _ _ Fm F1) as [Fs Vs]; [rewrite V1; apply Rabs_le; lra|]. rewrite V1 in Vs. split; [exact Fs|]. rewrite Vs. split.
  - apply rnd_gem1. lra.
  - apply rnd_le1. lra.
Qed.
Theorem C130_onsphere fcos fsin t u : trig_good fcos cos -> trig_good fsin sin -> fin t -> fin u -> 0 <= val u < 1 ->
  Forall fin (fonsphere fcos fsin t u) /\ length (fonsphere fcos fsin t u) = 3%nat /\ Rabs (rsq (fonsphere fcos fsin t u) - 1) <= 13 * uro.
Proof.
  intros GC GS Ft Fu Hu. destruct (GC t Ft) as (Fc & Bc & _). destruct (GS t Ft) as (Fs & Bs & _).
  destruct (C130_oncircle fcos fsin t GC GS Ft) as (_ & _ & N). unfold foncircle in N. cbn [rsq fold_right] in N.
  destruct (fcoord_ok u Fu Hu) as [Fz Bz]. unfold fonsphere. set (z := fcoord u) in *. destruct int1 as [F1 V1]. pose proof p301. pose proof uro_lt as U. pose proof FloatErr.tiny as TI. pose proof uflow_pos as UF.
  assert (Az : Rabs (val z) <= 1) by (apply Rabs_le; lra). destruct (sqr1 z Fz Az) as (Fq & Vq & Bq & Eq). set (q := nmul z z) in *.
  destruct (fsub_ok n1 q F1 Fq) as [Fd Vd]; [rewrite V1; apply Rabs_le; lra|]. rewrite V1 in Vd. set (d := nsub n1 q) in *.
  assert (Bd : 0 <= val d <= 1) by (rewrite Vd; split; [apply rnd_ge0|apply rnd_le1]; lra).
  assert (Ed : Rabs (val d - (1 - val q)) <= uro + uflow).
  { rewrite Vd. eapply Rle_trans; [apply rnd_abs|]. assert (uro * Rabs (1 - val q) <= uro * 1) by (apply Rmult_le_compat_l; [lra|apply Rabs_le; lra]). lra. }
  destruct (fsqrt_ok d Fd (proj1 Bd)) as [Fw Vw]. set (w := fsqrt d) in *. assert (S0 : 0 <= sqrt (val d)) by apply sqrt_pos. assert (S1 : sqrt (val d) <= 1) by (rewrite <- sqrt_1; apply sqrt_le_1; lra).
  assert (Bw : 0 <= val w <= 1) by (rewrite Vw; split; [apply rnd_ge0|apply rnd_le1]; lra).
  assert (Ew : Rabs (val w * val w - val d) <= 2 * (uro + uflow)).
  { rewrite <- (sqrt_sqrt (val d)) by lra. apply sq_near; [apply Rabs_le; lra|apply Rabs_le; lra|]. rewrite Vw. eapply Rle_trans; [apply rnd_abs|]. rewrite (Rabs_pos_eq (sqrt _)) by lra. assert (uro * sqrt (val d) <= uro * 1) by (apply Rmult_le_compat_l; lra). lra. }
  assert (Aw : Rabs (val w) <= 1) by (apply Rabs_le; lra).
  destruct (mul1 _ w Fc Fw Bc Aw) as (Fx & _ & Bx & Ex). destruct (mul1 _ w Fs Fw Bs Aw) as (Fy & _ & By & Ey).
  unfold foncircle. cbn [map List.app]. split; [repeat constructor; assumption|]. split; [reflexivity|]. cbn [rsq fold_right].
  set (c := val (fcos t)) in *. set (s := val (fsin t)) in *. set (X := val (nmul (fcos t) w)) in *. set (Y := val (nmul (fsin t) w)) in *. set (W := val w) in *. set (Z := val z) in *.
  assert (M : forall a, Rabs a <= 1 -> Rabs (a * W) <= 1) by (intros a Ha; rewrite Rabs_mult; replace 1 with (1 * 1) by ring; apply Rmult_le_compat; auto using Rabs_pos).
  pose proof (sq_near _ _ _ Bx (M c Bc) Ex) as X2. pose proof (sq_near _ _ _ By (M s Bs) Ey) as Y2.
  assert (C2 : Rabs ((c * W) * (c * W) + (s * W) * (s * W) - W * W) <= 4 * uro).
  { replace (c * W * (c * W) + s * W * (s * W) - W * W) with ((W * W) * (c * c + (s * s + 0) - 1)) by ring. rewrite Rabs_mult, (Rabs_pos_eq (W * W)) by nra.
    replace (4 * uro) with (1 * (4 * uro)) by ring. apply Rmult_le_compat; auto using Rabs_pos; nra. }
  assert (Z2 : 0 <= Z * Z <= 1) by nra. assert (uro * (Z * Z) <= uro * 1) by (apply Rmult_le_compat_l; lra).
  apply Rabs_le_inv in X2, Y2, C2, Ew, Ed, Eq. apply Rabs_le. lra.
Qed.
Print Assumptions C130_onsphere.
(* the squared norm is the second draw up to 11 units of 2^-53 *)
Theorem C130_incircle_few fcos fsin t z : trig_good fcos cos -> trig_good fsin sin -> fin t -> fin z -> 0 <= val z < 1 ->
  Forall fin (fincircle_few fcos fsin t z) /\ length (fincircle_few fcos fsin t z) = 2%nat /\ Rabs (rsq (fincircle_few fcos fsin t z) - val z) <= 11 * uro.
Proof.
  intros GC GS Ft Fz Hz. destruct (GC t Ft) as (Fc & Bc & _). destruct (GS t Ft) as (Fs & Bs & _).
  destruct (C130_oncircle fcos fsin t GC GS Ft) as (_ & _ & N). unfold foncircle in N. cbn [rsq fold_right] in N.
  pose proof p301. pose proof uro_lt as U. pose proof FloatErr.tiny as TI. pose proof uflow_pos as UF.
  destruct (fsqrt_ok z Fz (proj1 Hz)) as [Fw Vw]. unfold fincircle_few. set (w := fsqrt z) in *. assert (S0 : 0 <= sqrt (val z)) by apply sqrt_pos. assert (S1 : sqrt (val z) <= 1) by (rewrite <- sqrt_1; apply sqrt_le_1; lra).
  assert (Bw : 0 <= val w <= 1) by (rewrite Vw; split; [apply rnd_ge0|apply rnd_le1]; lra).
  assert (Ew : Rabs (val w * val w - val z) <= 2 * (uro + uflow)).
  { rewrite <- (sqrt_sqrt (val z)) by lra. apply sq_near; [apply Rabs_le; lra|apply Rabs_le; lra|]. rewrite Vw. eapply Rle_trans; [apply rnd_abs|]. rewrite (Rabs_pos_eq (sqrt _)) by lra. assert (uro * sqrt (val z) <= uro * 1) by (apply Rmult_le_compat_l; lra). lra. }
  assert (Aw : Rabs (val w) <= 1) by (apply Rabs_le; lra).
  destruct (mul1 w _ Fw Fc Aw Bc) as (Fx & _ & Bx & Ex). destruct (mul1 w _ Fw Fs Aw Bs) as (Fy & _ & By & Ey).
  unfold foncircle. cbn [map]. split; [repeat constructor; assumption|]. split; [reflexivity|]. cbn [rsq fold_right].
  set (c := val (fcos t)) in *. set (s := val (fsin t)) in *. set (X := val (nmul w (fcos t))) in *. set (Y := val (nmul w (fsin t))) in *. set (W := val w) in *.
  assert (M : forall a, Rabs a <= 1 -> Rabs (W * a) <= 1) by (intros a Ha; rewrite Rabs_mult; replace 1 with (1 * 1) by ring; apply Rmult_le_compat; auto using Rabs_pos).
  pose proof (sq_near _ _ _ Bx (M c Bc) Ex) as X2. pose proof (sq_near _ _ _ By (M s Bs) Ey) as Y2.
  assert (C2 : Rabs ((W * c) * (W * c) + (W * s) * (W * s) - W * W) <= 4 * uro).
  { replace (W * c * (W * c) + W * s * (W * s) - W * W) with ((W * W) * (c * c + (s * s + 0) - 1)) by ring. rewrite Rabs_mult, (Rabs_pos_eq (W * W)) by nra.
    replace (4 * uro) with (1 * (4 * uro)) by ring. apply Rmult_le_compat; auto using Rabs_pos; nra. }
  apply Rabs_le_inv in X2, Y2, C2, Ew. apply Rabs_le. lra.
Qed.
Print Assumptions C130_incircle_few.

(** ** The rejection test *)
Lemma half_ulp x e : (-1000 <= e)%Z -> bpow radix2 (e - 1) <= Rabs x < bpow radix2 e -> Rabs (rnd x - x) <= bpow radix2 (e - 54).
Proof.
  intros He H. rewrite rnd_FLT. eapply Rle_trans; [apply error_le_half_ulp; auto with typeclass_instances|].
  assert (N : x <> 0) by (intros ->; rewrite Rabs_R0 in H; pose proof (bpow_gt_0 radix2 (e - 1)); lra).
  rewrite ulp_neq_0 by exact N. unfold cexp, FLT_exp. rewrite (mag_unique radix2 x e H). rewrite Z.max_l by lia.
  right. replace (e - 53)%Z with (e - 54 + 1)%Z by lia. rewrite bpow_plus_1. change (IZR radix2) with 2. lra.
Qed.
(* the number halfway between the largest double below 1 and 1 is rounded to 1 *)
Lemma rnd_half : rnd (1 - / 2 ^ 54) = 1.
Proof.
  destruct int1 as [F1 V1]. set (t := fdy (-1) (-54)). assert (B : B2SF t = SpecFloat.S754_finite true (2 ^ 52) (-106)) by (vm_compute; reflexivity).
  apply fx_val in B. destruct B as [Ft Vt]. assert (V : val t = - / 2 ^ 54) by (rewrite Vt; unfold SF2R, F2R; cbn [Fnum Fexp SpecFloat.cond_Zopp]; cbn; lra).
  destruct (fadd_ok n1 t F1 Ft) as [_ Vs]; [rewrite V1, V; pose proof p301; apply Rabs_le; lra|]. rewrite V1, V in Vs. fold (1 - / 2 ^ 54) in Vs. rewrite <- Vs.
  assert (E : B2SF (nadd n1 t) = SpecFloat.S754_finite false (2 ^ 52) (-52)) by (vm_compute; reflexivity). apply fx_val in E. destruct E as [_ ->]. unfold SF2R, F2R. cbn [Fnum Fexp SpecFloat.cond_Zopp]. cbn. lra.
Qed.
(* integer multiples of a power of two are at least one power apart *)
Lemma mult_gap a b e : IZR a * bpow radix2 e < IZR b * bpow radix2 e -> IZR a * bpow radix2 e <= IZR b * bpow radix2 e - bpow radix2 e.
Proof.
  intros H. pose proof (bpow_gt_0 radix2 e) as P. apply Rmult_lt_reg_r in H; [|exact P]. apply lt_IZR in H. assert (L : IZR a <= IZR (b - 1)) by (apply IZR_le; lia). rewrite minus_IZR in L.
  replace (IZR b * bpow radix2 e - bpow radix2 e) with ((IZR b - 1) * bpow radix2 e) by ring. apply Rmult_le_compat_r; lra.
Qed.
Lemma mult_down n e f : (f <= e)%Z -> exists m : Z, IZR n * bpow radix2 e = IZR m * bpow radix2 f.
Proof.
  intros H. exists (n * 2 ^ (e - f))%Z. rewrite mult_IZR. replace (IZR (2 ^ (e - f))) with (bpow radix2 (e - f)) by (rewrite <- IZR_Zpower by lia; reflexivity).
  rewrite Rmult_assoc, <- bpow_plus. f_equal. f_equal. lia.
Qed.
Lemma accept2_le (x y : f64) : fin x -> fin y -> Rabs (val x) <= 1 -> Rabs (val y) <= 1 -> val y * val y <= val x * val x ->
  rnd (val (nmul x x) + val (nmul y y)) < 1 -> val x * val x + val y * val y < 1.
Proof.
  intros Fx Fy Bx By O H. destruct (sqr1 x Fx Bx) as (_ & Vx & Rx & _). destruct (sqr1 y Fy By) as (_ & Vy & Ry & _).
  set (a := val x * val x) in *. set (b := val y * val y) in *. assert (B0 : 0 <= b) by (unfold b; nra).
  destruct (Rlt_le_dec a (/ 2)) as [S|S]; [lra|].
  assert (HS : val (nmul x x) + val (nmul y y) < 1 - / 2 ^ 54).
  { destruct (Rlt_le_dec (val (nmul x x) + val (nmul y y)) (1 - / 2 ^ 54)) as [Q|Q]; [exact Q|]. apply rnd_le in Q. rewrite rnd_half in Q. lra. }
  assert (A1 : a < 1). { destruct (Rlt_le_dec a 1) as [Q|Q]; [exact Q|]. apply rnd_le in Q. rewrite rnd_1, <- Vx in Q. lra. }
  assert (Ea : Rabs (rnd a - a) <= / 2 ^ 54).
  { replace (/ 2 ^ 54) with (bpow radix2 (0 - 54)) by (cbn; lra). apply half_ulp; [lia|]. rewrite Rabs_pos_eq by lra. cbn. lra. }
  rewrite <- Vx in Ea. apply Rabs_le_inv in Ea.
  assert (Ga : / 2 <= val (nmul x x)). { replace (/ 2) with (val (fdy 1 (-1))). - rewrite Vx, <- (rnd_val (fdy 1 (-1))). apply rnd_le. replace (val (fdy 1 (-1))) with (/ 2); [exact S|].
      assert (E : B2SF (fdy 1 (-1)) = SpecFloat.S754_finite false (2 ^ 52) (-53)) by (vm_compute; reflexivity). apply fx_val in E. destruct E as [_ ->]. unfold SF2R, F2R. cbn [Fnum Fexp SpecFloat.cond_Zopp]. cbn. lra.
    - assert (E : B2SF (fdy 1 (-1)) = SpecFloat.S754_finite false (2 ^ 52) (-53)) by (vm_compute; reflexivity). apply fx_val in E. destruct E as [_ ->]. unfold SF2R, F2R. cbn [Fnum Fexp SpecFloat.cond_Zopp]. cbn. lra. }
  destruct (grid (nmul x x) 0) as [k Hk]; [rewrite Rabs_pos_eq by lra; replace (bpow radix2 (0 - 1)) with (/ 2) by (cbn; lra); exact Ga|]. change (0 - 53)%Z with (-53)%Z in Hk.
  destruct (Rlt_le_dec b (/ 2 ^ 60)) as [T|T].
  - (* y is tiny *)
    assert (X1 : IZR k * bpow radix2 (-53) <= IZR (2 ^ 53) * bpow radix2 (-53) - bpow radix2 (-53)).
    { apply mult_gap. rewrite <- Hk. replace (IZR (2 ^ 53) * bpow radix2 (-53)) with 1 by (cbn; lra). lra. }
    rewrite <- Hk in X1. replace (IZR (2 ^ 53) * bpow radix2 (-53) - bpow radix2 (-53)) with (1 - / 2 ^ 53) in X1 by (cbn; lra). lra.
  - destruct (mag radix2 b) as [e He]. assert (Nb : b <> 0) by lra. specialize (He Nb).
    assert (E1 : (-60 <= e)%Z).
    { destruct (Z_le_gt_dec (-60) e) as [Q|Q]; [exact Q|exfalso]. rewrite Rabs_pos_eq in He by lra. assert (L : bpow radix2 e <= bpow radix2 (-61)) by (apply bpow_le; lia). replace (bpow radix2 (-61)) with (/ 2 ^ 61) in L by (cbn; lra). lra. }
    assert (Eb : Rabs (rnd b - b) <= bpow radix2 (e - 54)) by (apply half_ulp; [lia|exact He]). rewrite <- Vy in Eb. apply Rabs_le_inv in Eb.
    rewrite Rabs_pos_eq in He by lra.
    assert (E2 : (e <= -1)%Z).
    { destruct (Z_le_gt_dec e (-1)) as [Q|Q]; [exact Q|exfalso]. assert (L : bpow radix2 (-1) <= bpow radix2 (e - 1)) by (apply bpow_le; lia). replace (bpow radix2 (-1)) with (/ 2) in L by (cbn; lra).
      assert (M : bpow radix2 (e - 54) <= b * / 2 ^ 53). { replace (e - 54)%Z with (e - 1 + -53)%Z by lia. rewrite bpow_plus. replace (bpow radix2 (-53)) with (/ 2 ^ 53) by (cbn; lra). apply Rmult_le_compat_r; lra. }
      lra. }
    destruct (Rle_lt_dec (bpow radix2 (e - 1)) (val (nmul y y))) as [G|G].
    2:{ (* not below the power of two: it is a double *)
        exfalso. destruct He as [He _]. apply rnd_le in He. rewrite <- Vy in He. rewrite rnd_FLT in He. rewrite round_generic in He; [lra|auto with typeclass_instances|]. apply generic_format_bpow. unfold FLT_exp. lia. }
    destruct (grid (nmul y y) e) as [l Hl]; [rewrite Rabs_pos_eq by lra; exact G|].
    destruct (mult_down k (-53) (e - 53) ltac:(lia)) as [k' Hk']. destruct (mult_down (2 ^ 54 - 1) (-54) (e - 53) ltac:(lia)) as [c Hc].
    assert (X1 : IZR (k' + l) * bpow radix2 (e - 53) <= IZR c * bpow radix2 (e - 53) - bpow radix2 (e - 53)).
    { apply mult_gap. rewrite <- Hc, plus_IZR, Rmult_plus_distr_r, <- Hk', <- Hk, <- Hl. replace (IZR (2 ^ 54 - 1) * bpow radix2 (-54)) with (1 - / 2 ^ 54) by (cbn; lra). exact HS. }
    rewrite <- Hc, plus_IZR, Rmult_plus_distr_r, <- Hk', <- Hk, <- Hl in X1. replace (IZR (2 ^ 54 - 1) * bpow radix2 (-54)) with (1 - / 2 ^ 54) in X1 by (cbn; lra).
    replace (bpow radix2 (e - 53)) with (2 * bpow radix2 (e - 54)) in X1 by (replace (e - 53)%Z with (e - 54 + 1)%Z by lia; rewrite bpow_plus_1; change (IZR radix2) with 2; ring).
    pose proof (bpow_gt_0 radix2 (e - 54)). lra.
Qed.

(* Points accepted by incircle lie inside the unit circle, exactly: the rounding errors of the squares are never large enough
   to let in a point outside. *)
Theorem C130_incircle u v : fin u -> fin v -> 0 <= val u < 1 -> 0 <= val v < 1 -> faccept [fcoord u; fcoord v] = true ->
  rsq [fcoord u; fcoord v] < 1.
Proof.
  intros Fu Fv Hu Hv A. destruct (fcoord_ok u Fu Hu) as [Fx Bx]. destruct (fcoord_ok v Fv Hv) as [Fy By]. set (x := fcoord u) in *. set (y := fcoord v) in *. clearbody x y.
  assert (Ax : Rabs (val x) <= 1) by (apply Rabs_le; lra). assert (Ay : Rabs (val y) <= 1) by (apply Rabs_le; lra). destruct int1 as [F1 V1]. pose proof p301.
  destruct (sqr1 x Fx Ax) as (Fp & _ & Bp & _). destruct (sqr1 y Fy Ay) as (Fq & _ & Bq & _).
  unfold faccept, fnorm2 in A. cbn [map fold_left] in A. destruct (fadd_ok _ _ Fp Fq) as [Fs Vs]; [apply Rabs_le; lra|]. rewrite flt_val in A by auto. rewrite Vs, V1 in A.
  destruct (Rltb_spec (rnd (val (nmul x x) + val (nmul y y))) 1) as [L|L]; [|discriminate]. cbn [rsq fold_right].
  destruct (Rle_lt_dec (val y * val y) (val x * val x)) as [O|O].
  - pose proof (accept2_le x y Fx Fy Ax Ay O L). lra.
  - rewrite Rplus_comm in L. pose proof (accept2_le y x Fy Fx Ay Ax ltac:(lra) L). lra.
Qed.
Print Assumptions C130_incircle.
(* and the test keeps all points clearly inside *)
Theorem C130_incircle_keeps u v : fin u -> fin v -> 0 <= val u < 1 -> 0 <= val v < 1 -> rsq [fcoord u; fcoord v] < 1 - 3 * uro -> faccept [fcoord u; fcoord v] = true.
Proof.
  intros Fu Fv Hu Hv A. destruct (fcoord_ok u Fu Hu) as [Fx Bx]. destruct (fcoord_ok v Fv Hv) as [Fy By]. set (x := fcoord u) in *. set (y := fcoord v) in *. clearbody x y. cbn [rsq fold_right] in A.
  assert (Ax : Rabs (val x) <= 1) by (apply Rabs_le; lra). assert (Ay : Rabs (val y) <= 1) by (apply Rabs_le; lra). destruct int1 as [F1 V1]. pose proof p301.
  destruct (sqr1 x Fx Ax) as (Fp & _ & Bp & Ep). destruct (sqr1 y Fy Ay) as (Fq & _ & Bq & Eq). pose proof uro_lt as U. pose proof FloatErr.tiny as TI. pose proof uflow_pos as UF.
  apply Rabs_le_inv in Ep, Eq. assert (X0 : 0 <= val x * val x) by nra. assert (Y0 : 0 <= val y * val y) by nra.
  assert (M : uro * (val x * val x) + uro * (val y * val y) <= uro) by (rewrite <- Rmult_plus_distr_l; apply Rle_trans with (uro * 1); [apply Rmult_le_compat_l; lra|lra]).
  unfold faccept, fnorm2. cbn [map fold_left]. destruct (fadd_ok _ _ Fp Fq) as [Fs Vs]; [apply Rabs_le; lra|]. rewrite flt_val by auto. rewrite Vs, V1.
  set (s := val (nmul x x) + val (nmul y y)) in *. assert (S : s <= 1 - 3 * uro + uro + 2 * uflow) by (unfold s; lra). assert (S0 : 0 <= s) by (unfold s; lra).
  pose proof (rnd_abs s) as E. rewrite (Rabs_pos_eq s) in E by exact S0. assert (uro * s <= uro * 1) by (apply Rmult_le_compat_l; lra). apply Rabs_le_inv in E.
  destruct (Rltb_spec (rnd s) 1) as [L|L]; [reflexivity|exfalso; lra].
Qed.
Print Assumptions C130_incircle_keeps.

(* In three dimensions the points are inside up to rounding. *)
Theorem C130_insphere_partial u v w : fin u -> fin v -> fin w -> 0 <= val u < 1 -> 0 <= val v < 1 -> 0 <= val w < 1 ->
  faccept [fcoord u; fcoord v; fcoord w] = true -> rsq [fcoord u; fcoord v; fcoord w] <= 1 + 3 * uro.
Proof.
  intros Fu Fv Fw Hu Hv Hw A. destruct (fcoord_ok u Fu Hu) as [Fx Bx]. destruct (fcoord_ok v Fv Hv) as [Fy By]. destruct (fcoord_ok w Fw Hw) as [Fz Bz].
  set (x := fcoord u) in *. set (y := fcoord v) in *. set (z := fcoord w) in *. clearbody x y z.
  assert (Ax : Rabs (val x) <= 1) by (apply Rabs_le; lra). assert (Ay : Rabs (val y) <= 1) by (apply Rabs_le; lra). assert (Az : Rabs (val z) <= 1) by (apply Rabs_le; lra). destruct int1 as [F1 V1]. pose proof p301.
  destruct (sqr1 x Fx Ax) as (Fp & _ & Bp & Ep). destruct (sqr1 y Fy Ay) as (Fq & _ & Bq & Eq). destruct (sqr1 z Fz Az) as (Fr & _ & Br & Er).
  unfold faccept, fnorm2 in A. cbn [map fold_left] in A. destruct (fadd_ok _ _ Fp Fq) as [Fs Vs]; [apply Rabs_le; lra|].
  assert (Bs : 0 <= val (nadd (nmul x x) (nmul y y)) <= 3).
  { rewrite Vs. split; [apply rnd_ge0; lra|]. destruct (fofZ_val 3 ltac:(lia)) as [_ V3]. apply Rle_trans with (rnd (val (nofZ 3 : f64))); [apply rnd_le; rewrite V3; lra|rewrite rnd_val, V3; lra]. }
  destruct (fadd_ok _ _ Fs Fr) as [Ft Vt]; [apply Rabs_le; lra|]. rewrite flt_val in A by auto. rewrite Vt, V1 in A.
  destruct (Rltb_spec (rnd (val (nadd (nmul x x) (nmul y y)) + val (nmul z z))) 1) as [L|L]; [|discriminate].
  assert (L1 : val (nadd (nmul x x) (nmul y y)) + val (nmul z z) < 1).
  { destruct (Rlt_le_dec (val (nadd (nmul x x) (nmul y y)) + val (nmul z z)) 1) as [Q|Q]; [exact Q|]. apply rnd_le in Q. rewrite rnd_1 in Q. lra. }
  destruct (rnd_plus_err (nmul x x) (nmul y y)) as (e & He & Ee). rewrite Vs, Ee in L1.
  cbn [rsq fold_right]. pose proof uro_lt as U. pose proof FloatErr.tiny as TI. pose proof uflow_pos as UF. apply Rabs_le_inv in Ep, Eq, Er, He.
  set (p := val (nmul x x)) in *. set (q := val (nmul y y)) in *. set (r := val (nmul z z)) in *. set (a := val x * val x) in *. set (b := val y * val y) in *. set (c := val z * val z) in *.
  assert (P1 : (p + q) * (1 - uro) <= (p + q) * (1 + e)) by (apply Rmult_le_compat_l; lra).
  assert (P2 : p + q <= 1 + 2 * uro) by nra. assert (P3 : uro * (p + q) <= uro * (1 + 2 * uro)) by (apply Rmult_le_compat_l; lra).
  assert (Q : p + q + r <= 1 + uro * (p + q)) by lra.
  assert (T : a + b + c <= p + q + r + uro * (a + b + c) + 3 * uflow) by lra.
  assert (N : 0 <= a + b + c <= 3) by (unfold a, b, c; nra).
  assert (UU : uro * uro <= uro * / 10 ^ 15) by (apply Rmult_le_compat_l; lra).
  assert (T1 : uro * (a + b + c) <= uro * 3) by (apply Rmult_le_compat_l; lra). assert (T2 : a + b + c <= 1 + 5 * uro) by lra.
  assert (T3 : uro * (a + b + c) <= uro * (1 + 5 * uro)) by (apply Rmult_le_compat_l; lra). lra.
Qed.
Print Assumptions C130_insphere_partial.
(* A point that insphere accepts outside the unit sphere. *)
Definition wit (k : Z) : f64 := fdy (k + 2 ^ 52) (-53).
Theorem C130_insphere_refuted : exists u v w, fin u /\ fin v /\ fin w /\ 0 <= val u < 1 /\ 0 <= val v < 1 /\ 0 <= val w < 1 /\
  faccept [fcoord u; fcoord v; fcoord w] = true /\ 1 < rsq [fcoord u; fcoord v; fcoord w].
Proof.
  exists (wit 2765582603518722), (wit 2462258453431292), (wit 2563444123688367).
  assert (B1 : B2SF (wit 2765582603518722) = SpecFloat.S754_finite false 7269182230889218 (-53)) by (vm_compute; reflexivity).
  assert (B2 : B2SF (wit 2462258453431292) = SpecFloat.S754_finite false 6965858080801788 (-53)) by (vm_compute; reflexivity).
  assert (B3 : B2SF (wit 2563444123688367) = SpecFloat.S754_finite false 7067043751058863 (-53)) by (vm_compute; reflexivity).
  apply fx_val in B1, B2, B3. destruct B1 as [F1 V1]. destruct B2 as [F2 V2]. destruct B3 as [F3 V3].
  unfold SF2R, F2R in V1, V2, V3. cbn [Fnum Fexp SpecFloat.cond_Zopp] in V1, V2, V3. replace (bpow radix2 (-53)) with (/ 2 ^ 53) in V1, V2, V3 by (cbn; lra).
  assert (C1 : B2SF (fcoord (wit 2765582603518722)) = SpecFloat.S754_finite false 5531165207037444 (-53)) by (vm_compute; reflexivity).
  assert (C2 : B2SF (fcoord (wit 2462258453431292)) = SpecFloat.S754_finite false 4924516906862584 (-53)) by (vm_compute; reflexivity).
  assert (C3 : B2SF (fcoord (wit 2563444123688367)) = SpecFloat.S754_finite false 5126888247376734 (-53)) by (vm_compute; reflexivity).
  apply fx_val in C1, C2, C3. destruct C1 as [_ W1]. destruct C2 as [_ W2]. destruct C3 as [_ W3].
  unfold SF2R, F2R in W1, W2, W3. cbn [Fnum Fexp SpecFloat.cond_Zopp] in W1, W2, W3. replace (bpow radix2 (-53)) with (/ 2 ^ 53) in W1, W2, W3 by (cbn; lra).
  split; [exact F1|]. split; [exact F2|]. split; [exact F3|]. split; [rewrite V1; lra|]. split; [rewrite V2; lra|]. split; [rewrite V3; lra|].
  split; [vm_compute; reflexivity|]. cbn [rsq fold_right]. rewrite W1, W2, W3. lra.
Qed.
Print Assumptions C130_insphere_refuted.

(* the correctly rounded cos and sin meet the hypotheses; the point (1/2, 3/4) is accepted *)
Lemma trig_round f : (forall t, -1 <= f t <= 1) -> trig_good (fun t => fround (f (val t))) f.
Proof.
  intros B t _. specialize (B (val t)). pose proof p301. destruct (fround_ok (f (val t))) as [F V]; [apply Rabs_le; lra|]. split; [exact F|]. rewrite V. split.
  - apply Rabs_le. split; [apply Ropp_le_cancel; rewrite Ropp_involutive; pose proof (rnd_gem1 (f (val t)) ltac:(lra)); lra|apply rnd_le1; lra].
  - destruct (Req_dec (Rabs (f (val t))) 1) as [E|N].
    + assert (C : f (val t) = 1 \/ f (val t) = -1) by (unfold Rabs in E; destruct (Rcase_abs _); lra). pose proof uro_pos. destruct C as [-> | ->]; [rewrite rnd_1|rewrite rnd_m1]; rewrite Rminus_eq_0, Rabs_R0; lra.
    + destruct (Rlt_le_dec (Rabs (f (val t))) (/ 2)) as [S|S].
      * eapply Rle_trans; [apply rnd_abs|]. pose proof uro_pos. pose proof FloatErr.tiny. pose proof uflow_pos. assert (uro * Rabs (f (val t)) <= uro * / 2) by (apply Rmult_le_compat_l; lra). lra.
      * assert (L : Rabs (f (val t)) <= 1) by (apply Rabs_le; lra). eapply Rle_trans; [apply (half_ulp _ 0); [lia|]|].
        -- replace (bpow radix2 (0 - 1)) with (/ 2) by (cbn; lra). replace (bpow radix2 0) with 1 by reflexivity. lra.
        -- replace (bpow radix2 (0 - 54)) with (/ 2 ^ 54) by (cbn; lra). unfold uro. lra.
Qed.
Example C130_case : trig_good (fun t => fround (cos (val t))) cos /\ trig_good (fun t => fround (sin (val t))) sin /\
  let u := fdy 3 (-2) in let v := fdy 7 (-3) in fin u /\ fin v /\ 0 <= val u < 1 /\ 0 <= val v < 1 /\ faccept [fcoord u; fcoord v] = true /\ faccept [fcoord v; fcoord v] = false /\
  rsq [fcoord u; fcoord v] = 13 / 16.
Proof.
  split; [apply trig_round; intros t; apply COS_bound|]. split; [apply trig_round; intros t; apply SIN_bound|]. intros u v.
  assert (B1 : B2SF u = SpecFloat.S754_finite false 6755399441055744 (-53)) by (vm_compute; reflexivity). assert (B2 : B2SF v = SpecFloat.S754_finite false 7881299347898368 (-53)) by (vm_compute; reflexivity).
  assert (C1 : B2SF (fcoord u) = SpecFloat.S754_finite false 4503599627370496 (-53)) by (vm_compute; reflexivity). assert (C2 : B2SF (fcoord v) = SpecFloat.S754_finite false 6755399441055744 (-53)) by (vm_compute; reflexivity).
  apply fx_val in B1, B2, C1, C2. destruct B1 as [F1 V1]. destruct B2 as [F2 V2]. destruct C1 as [_ W1]. destruct C2 as [_ W2].
  unfold SF2R, F2R in V1, V2, W1, W2. cbn [Fnum Fexp SpecFloat.cond_Zopp] in V1, V2, W1, W2. replace (bpow radix2 (-53)) with (/ 2 ^ 53) in V1, V2, W1, W2 by (cbn; lra).
  split; [exact F1|]. split; [exact F2|]. split; [rewrite V1; lra|]. split; [rewrite V2; lra|]. split; [vm_compute; reflexivity|]. split; [vm_compute; reflexivity|]. cbn [rsq fold_right]. rewrite W1, W2. lra.
Qed.
