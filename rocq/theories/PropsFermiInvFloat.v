(* C102: the inverse Fermi-Dirac functions in double precision. *)
From Coq Require Import List Arith ZArith QArith Qreals Bool Lia Reals Lra.
From Flocq Require Import Core BinarySingleNaN.
From Verif Require Import Num PyBase NdArray PolySign PolyDer Fermi FermiProofs FermiInt PropsFermi PropsFermiDer PropsFermiJoin PropsFermiAcc PropsFermiTail PropsFermiInv FermiSens Float64 FermiFloat FloatErr PropsFermiFloat.
Import ListNotations.
Local Open Scope R_scope.

(** ** The functions in double precision *)
Section Double.
Variable lf : f64 -> f64.          (* numpy.log *)
Variable pf : f64 -> f64 -> f64.   (* numpy.power *)
Definition ifd_double := ifd_generic flit ndiv lf (n0 : f64) (B754_nan : f64).
Local Open Scope num_scope.
(* the double -2./m *)
Definition m2 (m : Z) : f64 := - nofZ 2 / nofZ m.
(* fermi.py:205-228 *)
Definition ifdm12_double := ifd_double ifdm12_anum ifdm12_aden ifdm12_bnum ifdm12_bden (fun x => n1 / (x * x)).
(* fermi.py:231-252 *)
Definition ifd12_double := ifd_double ifd12_anum ifd12_aden ifd12_bnum ifd12_bden (fun x => pf x (m2 3)).
(* fermi.py:255-275 *)
Definition ifd32_double := ifd_double ifd32_anum ifd32_aden ifd32_bnum ifd32_bden (fun x => pf x (m2 5)).
(* fermi.py:278-299 *)
Definition ifd52_double := ifd_double ifd52_anum ifd52_aden ifd52_bnum ifd52_bden (fun x => pf x (m2 7)).
End Double.

(** ** Spec *)
(* log is accurate to 2^-50, relative to the larger of 1 and the logarithm *)
Definition log_ok (lf : f64 -> f64) : Prop := forall x, fin x -> / 10 ^ 300 <= val x <= 10 ^ 300 ->
  fin (lf x) /\ Rabs (val (lf x) - ln (val x)) <= / 2 ^ 50 * (1 + Rabs (ln (val x))).
(* x ** e is accurate to four units in the last place for x from 4 to 10^60 and e between -1 and 0 *)
Definition pow_ok (pf : f64 -> f64 -> f64) : Prop := forall x e, fin x -> fin e -> 4 <= val x <= 10 ^ 60 -> -1 <= val e <= 0 ->
  fin (pf x e) /\ Rabs (val (pf x e) - Rpower (val x) (val e)) <= / 2 ^ 50 * Rpower (val x) (val e).
(* F maps an array of doubles between 10^-200 and 10^60 to one of the same shape; at its elements the integral of order j is the
   given number, to the relative error eps *)
Definition inverts (F : nd f64 -> res (nd f64)) (j eps : R) : Prop :=
  forall x, (forall idx, inb idx (shp x) -> fin (get x idx) /\ / 10 ^ 200 <= val (get x idx) <= 10 ^ 60) ->
  exists y, F x = Ok y /\ shp y = shp x /\
    forall idx, inb idx (shp x) -> fin (get y idx) /\
      exists l, FD_integral j (val (get y idx)) l /\ Rabs (l - val (get x idx)) <= eps * val (get x idx).

(** ** The error of one element *)
Definition itabs_double (k1 k2 k3 k4 : Z) (s1 s3 : bool) (an ad bn bd : list Q) (B : Q) : bool :=
  cond_ok k1 s1 18 an 4 && cond_ok k2 s1 18 ad 4 && cond_ok k3 s3 18 bn B && cond_ok k4 s3 18 bd B &&
  (length an <=? 7)%nat && (length ad <=? 7)%nat && (length bn <=? 7)%nat && (length bd <=? 7)%nat &&
  (2 <=? length an)%nat && (2 <=? length ad)%nat && (2 <=? length bn)%nat && (2 <=? length bd)%nat &&
  (k1 + k2 <=? 20300)%Z && (k3 + k4 <=? 260)%Z.
Lemma im12 : itabs_double 230 20000 24 24 true false ifdm12_anum ifdm12_aden ifdm12_bnum ifdm12_bden (1 # 16) = true.
Proof. vm_cast_no_check (eq_refl true). Qed.
Lemma i12 : itabs_double 3 6 8 8 false true ifd12_anum ifd12_aden ifd12_bnum ifd12_bden (2 # 5) = true.
Proof. vm_cast_no_check (eq_refl true). Qed.
Lemma i32 : itabs_double 3 3 4 3 false true ifd32_anum ifd32_aden ifd32_bnum ifd32_bden (23 # 40) = true.
Proof. vm_cast_no_check (eq_refl true). Qed.
Lemma i52 : itabs_double 3 3 220 24 false true ifd52_anum ifd52_aden ifd52_bnum ifd52_bden (27 # 40) = true.
Proof. vm_cast_no_check (eq_refl true). Qed.
Lemma ln_near d : Rabs d <= / 2 -> Rabs (ln (1 + d)) <= 2 * Rabs d.
Proof.
  intros H. apply Rabs_le_inv in H as H'. assert (U : forall t, 0 < t -> ln t <= t - 1).
  { intros t Ht. pose proof (exp_ineq1_le (ln t)) as X. rewrite exp_ln in X by auto. lra. }
  pose proof (U (1 + d) ltac:(lra)) as A. pose proof (U (/ (1 + d)) ltac:(apply Rinv_0_lt_compat; lra)) as B. rewrite ln_Rinv in B by lra.
  assert (C : / (1 + d) - 1 <= 2 * Rabs d).
  { apply Rmult_le_reg_r with (1 + d); [lra|]. replace ((/ (1 + d) - 1) * (1 + d)) with (- d) by (field; lra).
    destruct (Rle_lt_dec 0 d); [rewrite Rabs_pos_eq by lra; nra|rewrite Rabs_left by lra; nra]. }
  apply Rabs_le. pose proof (Rle_abs d). pose proof (Rabs_pos d). split; lra.
Qed.
Lemma ln10 : 0 < ln 10 <= 2.4.
Proof.
  split; [rewrite <- ln_1; apply ln_increasing; lra|].
  assert (E : IZR 11 / IZR 1 <= exp (IZR 12 / IZR 5) <= IZR 12 / IZR 1) by (apply (exp_range 12 5 11 12 1); try lia; vm_compute; reflexivity).
  rewrite <- (ln_exp 2.4). apply Rlt_le, ln_increasing; [lra|]. replace 2.4 with (IZR 12 / IZR 5) by lra. lra.
Qed.
Lemma Raux_ln_le x y : 0 < x -> x <= y -> ln x <= ln y.
Proof. intros H [L|L]; [apply Rlt_le, ln_increasing; auto|rewrite L; lra]. Qed.
Lemma ln_sz k x : 0 < x -> sz k x -> Rabs (ln x) <= INR k * 2.4.
Proof.
  intros P [A B]. rewrite Rabs_pos_eq in * by lra. pose proof ln10 as L. pose proof (pos_INR k) as K.
  assert (E : ln (10 ^ k) = INR k * ln 10) by (apply ln_pow; lra).
  assert (INR k * ln 10 <= INR k * 2.4) by (apply Rmult_le_compat_l; lra). apply Rabs_le. split.
  - apply Rle_trans with (ln (/ 10 ^ k)); [rewrite ln_Rinv by apply p10; lra|]. apply Raux_ln_le; [apply Rinv_0_lt_compat, p10|exact A].
  - apply Rle_trans with (ln (10 ^ k)); [|lra]. apply Raux_ln_le; [exact P|exact B].
Qed.
Lemma itabs_facts k1 k2 k3 k4 s1 s3 an ad bn bd B : itabs_double k1 k2 k3 k4 s1 s3 an ad bn bd B = true ->
  (cond_ok k1 s1 18 an 4 = true /\ cond_ok k2 s1 18 ad 4 = true /\ cond_ok k3 s3 18 bn B = true /\ cond_ok k4 s3 18 bd B = true) /\
  (0 <= INR (length an) <= 7 /\ 0 <= INR (length ad) <= 7 /\ 0 <= INR (length bn) <= 7 /\ 0 <= INR (length bd) <= 7) /\
  ((2 <= length an)%nat /\ (2 <= length ad)%nat /\ (2 <= length bn)%nat /\ (2 <= length bd)%nat) /\
  (IZR k1 + IZR k2 <= 20300 /\ IZR k3 + IZR k4 <= 260) /\ (0 < IZR k1 /\ 0 < IZR k2 /\ 0 < IZR k3 /\ 0 < IZR k4).
Proof.
  unfold itabs_double. rewrite !andb_true_iff, !Nat.leb_le, !Z.leb_le.
  intros (((((((((((((C1 & C2) & C3) & C4) & L1) & L2) & L3) & L4) & M1) & M2) & M3) & M4) & K1) & K2).
  assert (P : forall k s f c b, cond_ok k s f c b = true -> 0 < IZR k).
  { intros k s f c b H. unfold cond_ok in H. rewrite !andb_true_iff in H. apply IZR_lt, Z.ltb_lt. tauto. }
  apply len_INR in L1, L2, L3, L4. replace (INR 7) with 7 in * by (cbn; lra). apply IZR_le in K1, K2. rewrite plus_IZR in K1, K2.
  repeat split; auto; try lra; eauto.
Qed.
Lemma horner_n k L n M : 0 < k <= M -> 0 <= L <= 7 -> 0 <= n -> 0 <= k / 2 * (1.01 * (L * (n + 2.01))) + 0.001 <= k * (3.535 * (n + 2.01)) + 0.001.
Proof.
  intros Hk HL Hn. assert (0 <= L * (n + 2.01) <= 7 * (n + 2.01)) by (split; [apply Rmult_le_pos; lra|apply Rmult_le_compat_r; lra]). set (t := L * (n + 2.01)) in *. clearbody t.
  assert (0 <= k * t <= k * (7 * (n + 2.01))) by (split; [apply Rmult_le_pos; lra|apply Rmult_le_compat_l; lra]). lra.
Qed.
Lemma ifd_low lf k1 k2 k3 k4 s1 s3 an ad bn bd B (x : f64) : log_ok lf -> itabs_double k1 k2 k3 k4 s1 s3 an ad bn bd B = true -> fin x -> / 10 ^ 200 <= val x < 4 ->
  let y := lf (ndiv (nmul x (khorner (map flit an) x)) (khorner (map flit ad) x)) in
  fin y /\ Rabs (val y - ilo an ad (val x)) <= 3.4 / 10 ^ 11.
Proof.
  intros HL T Fx Hx. destruct (itabs_facts _ _ _ _ _ _ _ _ _ _ _ T) as ((C1 & C2 & _) & (L1 & L2 & _) & _ & (K & _) & K1 & K2 & _).
  pose proof (app_refl x 0 Fx ltac:(lra)) as AX. set (X := val x) in *.
  assert (SX : sz 200 X).
  { assert (0 < / 10 ^ 200) by (apply Rinv_0_lt_compat, p10). unfold sz. rewrite Rabs_pos_eq by lra. split; [lra|]. apply Rle_trans with (10 ^ 1); [lra|]. apply Rle_pow; [lra|lia]. }
  assert (X0 : 0 < X) by (assert (0 < / 10 ^ 200) by (apply Rinv_0_lt_compat, p10); lra).
  assert (B4 : Q2R 4 = 4) by (unfold Q2R; cbn; lra). assert (HX : 0 <= X <= Q2R 4) by lra.
  destruct (fhorner_app k1 s1 18 an _ X x 0 C1 HX ltac:(lra) ltac:(lra) AX) as (A1 & S1 & G1).
  destruct (fhorner_app k2 s1 18 ad _ X x 0 C2 HX ltac:(lra) ltac:(lra) AX) as (A2 & S2 & G2).
  pose proof (horner_n (IZR k1) _ 0 20300 ltac:(lra) L1 ltac:(lra)) as N1. pose proof (horner_n (IZR k2) _ 0 20300 ltac:(lra) L2 ltac:(lra)) as N2.
  set (n1 := IZR k1 / 2 * _ + 0.001) in *. set (n2 := IZR k2 / 2 * _ + 0.001) in *. clearbody n1 n2.
  pose proof (sz_mul _ _ _ _ SX S1) as S3. pose proof (sz_div _ _ _ _ S3 S2) as S4. cbn [Nat.add] in S3, S4.
  assert (AR : app 145000 (ndiv (nmul x (khorner (map flit an) x)) (khorner (map flit ad) x)) (X * hornerQ an X / hornerQ ad X)).
  { eapply app_le; [|apply app_div; [apply app_mul; [exact AX|exact A1|lra|lra|]|exact A2|lra|lra|]]; [lra| |].
    + eapply sz_le; [|exact S3]; lia.
    + eapply sz_le; [|exact S4]; lia. }
  unfold ilo. set (r := X * hornerQ an X / hornerQ ad X) in *. set (rf := ndiv (nmul x (khorner (map flit an) x)) (khorner (map flit ad) x)) in *.
  assert (R0 : 0 < r).
  { unfold r. destruct s1.
    - replace (X * hornerQ an X / hornerQ ad X) with (X * - hornerQ an X / - hornerQ ad X) by (field; lra). apply Rdiv_lt_0_compat; [apply Rmult_lt_0_compat|]; lra.
    - apply Rdiv_lt_0_compat; [apply Rmult_lt_0_compat|]; lra. }
  destruct (app_val _ _ _ (Rgt_not_eq _ _ R0) AR) as (d & E & D). destruct AR as [Fr _]. clearbody r rf. clear - HL Fr S4 R0 E D.
  assert (D1 : 145000 * uro <= 1.62 / 10 ^ 11) by (unfold uro; lra).
  assert (D2 : - / 2 <= d <= / 2) by (apply Rabs_le_inv; lra).
  assert (Sr : sz 253 (val rf)).
  { rewrite E. replace 253%nat with (252 + 1)%nat by reflexivity. apply sz_mul; [exact S4|]. unfold sz. rewrite Rabs_pos_eq by lra. lra. }
  assert (V0 : 0 < val rf) by (rewrite E; apply Rmult_lt_0_compat; lra).
  destruct (HL rf Fr) as [Fy Ey].
  { apply (sz_le _ 300) in Sr; [|lia]. destruct Sr as [Sa Sb]. rewrite Rabs_pos_eq in Sa, Sb by lra. split; assumption. }
  cbv zeta. split; [exact Fy|]. pose proof (ln_sz 253 _ V0 Sr) as Ln. replace (INR 253) with 253 in Ln by (rewrite INR_IZR_INZ; reflexivity).
  replace (val (lf rf) - ln r) with (val (lf rf) - ln (val rf) + ln (1 + d)) by (rewrite E, ln_mult by lra; ring).
  eapply Rle_trans; [apply Rabs_triang|]. pose proof (ln_near d ltac:(lra)) as N.
  assert (/ 2 ^ 50 * (1 + Rabs (ln (val rf))) <= / 2 ^ 50 * 700) by (apply Rmult_le_compat_l; lra). lra.
Qed.
Lemma ifd_high k1 k2 k3 k4 s1 s3 an ad bn bd B (zf : f64) z : itabs_double k1 k2 k3 k4 s1 s3 an ad bn bd B = true -> Q2R B <= 8 ->
  app 117 zf z -> 0 < z <= Q2R B -> sz 120 z ->
  let y := ndiv (khorner (map flit bn) zf) (nmul zf (khorner (map flit bd) zf)) in
  0 < hornerQ bn z / (z * hornerQ bd z) /\ fin y /\ Rabs (val y - hornerQ bn z / (z * hornerQ bd z)) <= 1.23 / 10 ^ 11 * (hornerQ bn z / (z * hornerQ bd z)).
Proof.
  intros T B8 AZ HZ SZ. destruct (itabs_facts _ _ _ _ _ _ _ _ _ _ _ T) as ((_ & _ & C3 & C4) & (_ & _ & L3 & L4) & _ & (_ & K) & _ & _ & K3 & K4).
  destruct (fhorner_app k3 s3 18 bn _ z zf 117 C3 ltac:(lra) B8 ltac:(lra) AZ) as (A1 & S1 & G1).
  destruct (fhorner_app k4 s3 18 bd _ z zf 117 C4 ltac:(lra) B8 ltac:(lra) AZ) as (A2 & S2 & G2).
  pose proof (horner_n (IZR k3) _ 117 260 ltac:(lra) L3 ltac:(lra)) as N1. pose proof (horner_n (IZR k4) _ 117 260 ltac:(lra) L4 ltac:(lra)) as N2.
  set (a1 := IZR k3 / 2 * _ + 0.001) in *. set (a2 := IZR k4 / 2 * _ + 0.001) in *. clearbody a1 a2.
  pose proof (sz_mul _ _ _ _ SZ S2) as S3. pose proof (sz_div _ _ _ _ S1 S3) as S4. cbn [Nat.add] in S3, S4.
  assert (AR : app 110000 (ndiv (khorner (map flit bn) zf) (nmul zf (khorner (map flit bd) zf))) (hornerQ bn z / (z * hornerQ bd z))).
  { eapply app_le; [|apply app_div; [exact A1|apply app_mul; [exact AZ|exact A2|lra|lra|]|lra|lra|]]; [lra| |].
    + eapply sz_le; [|exact S3]; lia.
    + eapply sz_le; [|exact S4]; lia. }
  assert (R0 : 0 < hornerQ bn z / (z * hornerQ bd z)).
  { destruct s3.
    - replace (hornerQ bn z / (z * hornerQ bd z)) with (- hornerQ bn z / (z * - hornerQ bd z)) by (field; lra). apply Rdiv_lt_0_compat; [|apply Rmult_lt_0_compat]; lra.
    - apply Rdiv_lt_0_compat; [|apply Rmult_lt_0_compat]; lra. }
  set (r := hornerQ bn z / (z * hornerQ bd z)) in *. cbv zeta. destruct AR as [Fy Ey]. split; [exact R0|]. split; [exact Fy|].
  rewrite (Rabs_pos_eq r) in Ey by lra. eapply Rle_trans; [exact Ey|]. apply Rmult_le_compat_r; [lra|]. unfold uro. lra.
Qed.
(* the scaled arguments *)
Lemma exp_near t : Rabs t <= / 1000 -> Rabs (exp t - 1) <= 1.01 * Rabs t.
Proof.
  intros H. apply Rabs_le_inv in H as H'. pose proof (exp_ineq1_le t) as A. pose proof (exp_ineq1_le (- t)) as B. rewrite exp_Ropp in B. pose proof (exp_pos t) as E.
  assert (C : exp t * (1 - t) <= 1). { apply Rle_trans with (exp t * / exp t); [apply Rmult_le_compat_l; lra|rewrite Rinv_r; lra]. }
  assert (D : exp t - 1 <= 1.01 * Rabs t).
  { destruct (Rle_lt_dec 0 t) as [L|L]; [rewrite Rabs_pos_eq by lra; apply Rmult_le_reg_r with (1 - t); [lra|]; nra|].
    rewrite Rabs_left by lra. assert (exp t < 1) by (rewrite <- exp_0; apply exp_increasing; lra). lra. }
  apply Rabs_le. split; [|exact D]. pose proof (Rle_abs (- t)). rewrite Rabs_Ropp in *. pose proof (Rabs_pos t). lra.
Qed.
Lemma m2_ok m : (3 <= m <= 7)%Z -> fin (m2 m) /\ Rabs (val (m2 m) - - 2 / IZR m) <= 0.74 * uro /\ -1 <= val (m2 m) <= 0.
Proof.
  intros H. destruct (fofZ_val 2 ltac:(lia)) as [F2 V2]. destruct (fofZ_val m ltac:(lia)) as [Fm Vm].
  assert (Hm : 3 <= IZR m <= 7) by (split; apply IZR_le; lia).
  assert (A2 : app 0 (nopp (nofZ 2)) (- 2)).
  { split; [now apply fin_opp|]. rewrite val_opp, V2. unfold Rminus. rewrite Rplus_opp_r, Rabs_R0. lra. }
  assert (Am : app 0 (nofZ m : f64) (IZR m)) by (rewrite <- Vm; apply app_refl; [exact Fm|lra]).
  assert (R : 2 / 7 <= 2 / IZR m <= 2 / 3).
  { split; apply Rmult_le_reg_r with (IZR m); try lra; unfold Rdiv at 2 + unfold Rdiv at 1; rewrite ?Rmult_assoc, ?Rinv_l by lra; lra. }
  assert (N : Rabs (- 2 / IZR m) = 2 / IZR m) by (replace (- 2 / IZR m) with (- (2 / IZR m)) by (field; lra); rewrite Rabs_Ropp, Rabs_pos_eq; lra).
  assert (S : sz 1 (- 2 / IZR m)) by (unfold sz; rewrite N; lra).
  destruct (app_div 0 0 _ _ _ _ A2 Am ltac:(lra) ltac:(lra) ltac:(eapply sz_le; [|exact S]; lia)) as [F E]. fold (m2 m) in F, E.
  split; [exact F|]. rewrite N in E. pose proof uro_lt as U.
  assert ((0 + 0 + 1.1) * uro * (2 / IZR m) <= 1.1 * uro * (2 / 3)) by (replace (0 + 0 + 1.1) with 1.1 by ring; apply Rmult_le_compat_l; lra).
  assert (E' : Rabs (val (m2 m) - - 2 / IZR m) <= 0.74 * uro) by lra. split; [exact E'|].
  apply Rabs_le_inv in E'. replace (- 2 / IZR m) with (- (2 / IZR m)) in E' by (field; lra). lra.
Qed.
Lemma pow_app pf m (x : f64) : pow_ok pf -> (3 <= m <= 7)%Z -> fin x -> 4 <= val x <= 10 ^ 60 -> app 117 (pf x (m2 m)) (Rpower (val x) (- 2 / IZR m)).
Proof.
  intros HP Hm Fx Hx. destruct (m2_ok m Hm) as (Fe & Ee & Be). destruct (HP x (m2 m) Fx Fe Hx Be) as [Fy Ey]. split; [exact Fy|].
  set (X := val x) in *. set (e := val (m2 m)) in *. set (e0 := - 2 / IZR m) in *. pose proof uro_lt as U.
  assert (SX : sz 60 X) by (apply sz_up; lra). pose proof (ln_sz 60 X ltac:(lra) SX) as Ln. replace (INR 60) with 60 in Ln by (rewrite INR_IZR_INZ; reflexivity).
  assert (Q : Rpower X e = Rpower X e0 * exp ((e - e0) * ln X)).
  { unfold Rpower. rewrite <- exp_plus. f_equal. ring. }
  assert (T : Rabs ((e - e0) * ln X) <= 0.74 * uro * 144).
  { rewrite Rabs_mult. apply Rmult_le_compat; try apply Rabs_pos; [exact Ee|lra]. }
  pose proof (exp_near _ ltac:(eapply Rle_trans; [exact T|]; lra)) as N. set (t := exp ((e - e0) * ln X)) in *.
  set (p := Rpower X e0) in *. assert (P0 : 0 < p) by apply exp_pos. rewrite (Rabs_pos_eq p) by lra. rewrite Q in Ey.
  assert (T2 : Rabs (t - 1) <= 108 * uro) by lra. apply Rabs_le_inv in T2 as T3.
  assert (E1 : / 2 ^ 50 * (p * t) <= 8.1 * uro * p).
  { replace (/ 2 ^ 50) with (8 * uro) by (unfold uro; lra). replace (8 * uro * (p * t)) with (p * (8 * uro * t)) by ring. rewrite (Rmult_comm _ p).
    apply Rmult_le_compat_l; [lra|]. apply Rle_trans with (8 * uro * 1.01); [apply Rmult_le_compat_l; lra|lra]. }
  replace (val (pf x (m2 m)) - p) with (val (pf x (m2 m)) - p * t + p * (t - 1)) by ring. eapply Rle_trans; [apply Rabs_triang|].
  rewrite (Rabs_mult p), (Rabs_pos_eq p) by lra. assert (p * Rabs (t - 1) <= p * (108 * uro)) by (apply Rmult_le_compat_l; lra).
  assert (0 <= p * uro) by (apply Rmult_le_pos; lra). lra.
Qed.
Lemma pow_sz m X : (3 <= m <= 7)%Z -> 4 <= X <= 10 ^ 60 -> sz 120 (Rpower X (- 2 / IZR m)).
Proof.
  intros Hm HX. assert (H : 3 <= IZR m <= 7) by (split; apply IZR_le; lia).
  assert (R : 0 < 2 / IZR m <= 1).
  { split; [apply Rdiv_lt_0_compat; lra|]. apply Rmult_le_reg_r with (IZR m); [lra|]. unfold Rdiv. rewrite Rmult_assoc, Rinv_l by lra. lra. }
  assert (L : 0 < ln X) by (rewrite <- ln_1; apply ln_increasing; lra).
  replace (- 2 / IZR m) with (- (2 / IZR m)) by (field; lra). rewrite Rpower_Ropp. apply sz_inv. unfold Rpower. set (a := 2 / IZR m * ln X).
  assert (A : 0 < a <= ln X).
  { unfold a. split; [apply Rmult_lt_0_compat; lra|]. rewrite <- (Rmult_1_l (ln X)) at 2. apply Rmult_le_compat_r; lra. }
  apply (sz_le 60); [lia|]. unfold sz. rewrite Rabs_pos_eq by apply Rlt_le, exp_pos. split.
  - apply Rle_trans with 1; [|rewrite <- exp_0; apply Rlt_le, exp_increasing; lra]. rewrite <- Rinv_1. apply Rinv_le_contravar; [lra|]. apply pow_R1_Rle. lra.
  - apply Rle_trans with X; [|lra]. rewrite <- (exp_ln X) at 1 by lra. destruct (Rle_lt_or_eq_dec _ _ (proj2 A)) as [Q|Q]; [apply Rlt_le, exp_increasing; exact Q|rewrite Q; lra].
Qed.

(** ** The theorem *)
Lemma ifd_inverts lf k m k1 k2 k3 k4 s1 s3 an ad bn bd B f j e eps : log_ok lf -> itabs_double k1 k2 k3 k4 s1 s3 an ad bn bd B = true -> (k <= 3)%nat -> Q2R B <= 8 ->
  j = INR k - 1 / 2 ->
  (forall a, fin a -> 4 <= val a <= 10 ^ 60 -> app 117 (f a) (Rpower (val a) (- 2 / INR m)) /\ 0 < Rpower (val a) (- 2 / INR m) <= Q2R B /\ sz 120 (Rpower (val a) (- 2 / INR m))) ->
  solves j (ifd_fun m an ad bn bd) e -> 0 <= e <= / 100 -> e + 2.6 / 10 ^ 10 <= eps ->
  inverts (ifd_double lf an ad bn bd f) j eps.
Proof.
  intros HL T Hk HB -> Hf HS He Eps x Hx. pose proof (itabs_facts _ _ _ _ _ _ _ _ _ _ _ T) as (_ & _ & (L1 & L2 & L3 & L4) & _).
  destruct (ifd_generic_ok flit ndiv lf (n0 : f64) (B754_nan : f64) an ad bn bd f x L1 L2 L3 L4) as (y & Ey & Sy & Gy).
  exists y. split; [exact Ey|]. split; [exact Sy|]. intros idx Hi. destruct (Hx idx Hi) as [Fx Bx]. rewrite (Gy idx Hi). clear Gy Ey Sy y Hx.
  set (a := get x idx) in *. clearbody a. clear x Hi idx.
  assert (X0 : 0 < val a) by (assert (0 < / 10 ^ 200) by (apply Rinv_0_lt_compat, p10); lra).
  destruct (HS (val a) X0) as (l & Il & El).
  assert (Lb : e * val a <= / 100 * val a) by (apply Rmult_le_compat_r; lra).
  assert (Pl : 0 < l <= 1.01 * val a) by (apply Rabs_le_inv in El; lra).
  enough (G : fin (ifd_gelem flit ndiv lf an ad bn bd f a) /\ exists l', FD_integral (INR k - 1 / 2) (val (ifd_gelem flit ndiv lf an ad bn bd f a)) l' /\ Rabs (l' - l) <= 2.5 / 10 ^ 10 * l).
  { destruct G as [Fy (l' & Il' & El')]. split; [exact Fy|]. exists l'. split; [exact Il'|].
    replace (l' - val a) with (l' - l + (l - val a)) by ring. eapply Rle_trans; [apply Rabs_triang|].
    assert ((e + 2.6 / 10 ^ 10) * val a <= eps * val a) by (apply Rmult_le_compat_r; lra). lra. }
  unfold ifd_gelem, ifd_fun in *. destruct (fofZ_val 4 ltac:(lia)) as [F4 V4]. rewrite flt_val by auto. rewrite V4. unfold Rltb. destruct (Rlt_dec (val a) 4) as [L|L].
  - destruct (ifd_low lf _ _ _ _ _ _ _ _ _ _ _ a HL T Fx ltac:(lra)) as [Fy Ay]. split; [exact Fy|].
    destruct (FD_near_shift k _ _ _ l Il (proj1 Pl) Ay ltac:(lra)) as (l' & I' & E'). exists l'. split; [exact I'|]. eapply Rle_trans; [exact E'|]. apply Rmult_le_compat_r; lra.
  - destruct (Hf a Fx ltac:(lra)) as (AZ & BZ & SZ). unfold ihi in Il. cbv zeta in Il |- *. set (z := Rpower (val a) (- 2 / INR m)) in *.
    destruct (ifd_high _ _ _ _ _ _ _ _ _ _ _ (f a) z T HB AZ BZ SZ) as (R0 & Fy & Ay). split; [exact Fy|].
    destruct (FD_near_scale k _ _ _ l Hk Il (proj1 Pl) R0 Ay ltac:(lra)) as (l' & I' & E'). exists l'. split; [exact I'|]. eapply Rle_trans; [exact E'|]. apply Rmult_le_compat_r; lra.
Qed.
Lemma solves_all : solves (- (1 / 2)) hm12 (3 / 10 ^ 9) /\ solves (1 / 2) h12 (1 / 10 ^ 8) /\ solves (3 / 2) h32 (9 / 10 ^ 9) /\ solves (5 / 2) h52 (2.5 / 10 ^ 8).
Proof.
  split; [eapply (solves_of _ _ _ _ (3 / 10 ^ 12) _ rt_m12 (is_FD_join _ _ _ _ _ below_m12 above_m12 _ _)); lra|].
  split; [eapply (solves_of _ _ _ _ (1 / 10 ^ 12) _ rt_12 (is_FD_join _ _ _ _ _ below_12 above_12 _ _)); lra|].
  split; [eapply (solves_of _ _ _ _ (1 / 10 ^ 12) _ rt_32 (is_FD_join _ _ _ _ _ below_32 above_32 _ _)); lra|].
  eapply (solves_of _ _ _ _ (1 / 10 ^ 12) _ rt_52 (is_FD_join _ _ _ _ _ below_52 above_52 _ _)); lra.
  Unshelve. all: lra.
Qed.
Theorem C102_inverse lf pf : log_ok lf -> pow_ok pf ->
  inverts (ifdm12_double lf) (- (1 / 2)) (3.3 / 10 ^ 9) /\ inverts (ifd12_double lf pf) (1 / 2) (1.03 / 10 ^ 8) /\
  inverts (ifd32_double lf pf) (3 / 2) (9.3 / 10 ^ 9) /\ inverts (ifd52_double lf pf) (5 / 2) (2.53 / 10 ^ 8).
Proof.
  intros HL HP. pose proof solves_all as (S1 & S2 & S3 & S4). split; [|split; [|split]].
  - apply (ifd_inverts lf 0 1 _ _ _ _ _ _ _ _ _ _ _ _ _ (3 / 10 ^ 9) _ HL im12); [lia|unfold Q2R; cbn; lra|cbn; lra| |exact S1|lra|lra].
    intros a F H. replace (- 2 / INR 1) with (- 2) by (cbn; field). rewrite <- inv_sq by lra. set (X := val a) in *.
      pose proof (sz_up X ltac:(lra)) as SX. pose proof (sz_mul _ _ _ _ SX SX) as SXX. pose proof (sz_div 0 _ 1 _ (sz_1 0) SXX) as SZ. cbn [Nat.add] in SZ.
      assert (XX : 16 <= X * X) by nra. split; [|split; [|exact SZ]].
    + eapply app_le; [|apply app_div; [exact app_one|apply pow_app_2; [exact F|fold X; lra]|lra|lra|eapply sz_le; [|exact SZ]; lia]]; lra.
    + replace (Q2R (1 # 16)) with (/ 16) by (unfold Q2R; cbn; lra). unfold Rdiv. rewrite Rmult_1_l. split; [apply Rinv_0_lt_compat; lra|apply Rinv_le_contravar; lra].
  - apply (ifd_inverts lf 1 3 _ _ _ _ _ _ _ _ _ _ _ _ _ (1 / 10 ^ 8) _ HL i12); [lia|unfold Q2R; cbn; lra|cbn; lra| |exact S2|lra|lra].
    intros a F H. assert (RB : 0 < Rpower (val a) (- 2 / INR 3) <= Q2R (2 # 5)) by (apply root_bound; [lia| | |lra]; unfold Q2R; cbn [Qnum Qden pow]; lra).
    rewrite INR_IZR_INZ in *. split; [apply (pow_app pf 3); auto; lia|]. split; [exact RB|apply (pow_sz 3); [lia|exact H]].
  - apply (ifd_inverts lf 2 5 _ _ _ _ _ _ _ _ _ _ _ _ _ (9 / 10 ^ 9) _ HL i32); [lia|unfold Q2R; cbn; lra|cbn; lra| |exact S3|lra|lra].
    intros a F H. assert (RB : 0 < Rpower (val a) (- 2 / INR 5) <= Q2R (23 # 40)) by (apply root_bound; [lia| | |lra]; unfold Q2R; cbn [Qnum Qden pow]; lra).
    rewrite INR_IZR_INZ in *. split; [apply (pow_app pf 5); auto; lia|]. split; [exact RB|apply (pow_sz 5); [lia|exact H]].
  - apply (ifd_inverts lf 3 7 _ _ _ _ _ _ _ _ _ _ _ _ _ (2.5 / 10 ^ 8) _ HL i52); [lia|unfold Q2R; cbn; lra|cbn; lra| |exact S4|lra|lra].
    intros a F H. assert (RB : 0 < Rpower (val a) (- 2 / INR 7) <= Q2R (27 # 40)) by (apply root_bound; [lia| | |lra]; unfold Q2R; cbn [Qnum Qden pow]; lra).
    rewrite INR_IZR_INZ in *. split; [apply (pow_app pf 7); auto; lia|]. split; [exact RB|apply (pow_sz 7); [lia|exact H]].
Qed.
Print Assumptions C102_inverse.
(* over the reals the same code is that of Fermi.v *)
Theorem C102_same_code x :
  ifdm12 x = ifd_generic Q2R odiv olog (Some 0) None ifdm12_anum ifdm12_aden ifdm12_bnum ifdm12_bden (fun x => 1 / (x * x)) x /\
  ifd12 x = ifd_generic Q2R odiv olog (Some 0) None ifd12_anum ifd12_aden ifd12_bnum ifd12_bden (fun x => Rpower x (- 2 / 3)) x /\
  ifd32 x = ifd_generic Q2R odiv olog (Some 0) None ifd32_anum ifd32_aden ifd32_bnum ifd32_bden (fun x => Rpower x (- 2 / 5)) x /\
  ifd52 x = ifd_generic Q2R odiv olog (Some 0) None ifd52_anum ifd52_aden ifd52_bnum ifd52_bden (fun x => Rpower x (- 2 / 7)) x.
Proof. repeat split; reflexivity. Qed.
(* The hypotheses are met by the correctly rounded functions; the doubles ifdm12 returns at 8 and 20 (neither log nor power
   is used there) are 16.0521... and 100.0082... *)
Lemma ln_big x : / 10 ^ 300 <= x <= 10 ^ 300 -> Rabs (ln x) <= 720.
Proof.
  intros H. assert (0 < / 10 ^ 300) by (apply Rinv_0_lt_compat, p10). eapply Rle_trans; [apply (ln_sz 300); [lra|]|].
  - unfold sz. rewrite Rabs_pos_eq by lra. exact H.
  - replace (INR 300) with 300 by (rewrite INR_IZR_INZ; reflexivity). lra.
Qed.
Lemma log_ok_round : log_ok (fun x => fround (ln (val x))).
Proof.
  intros x _ H. pose proof (ln_big _ H) as L. destruct (fround_ok (ln (val x))) as [F V].
  { apply Rle_trans with (10 ^ 3); [lra|apply Rle_pow; [lra|lia]]. }
  split; [exact F|]. rewrite V. eapply Rle_trans; [apply rnd_abs|]. pose proof tiny as T. pose proof (Rabs_pos (ln (val x))) as P. pose proof uro_lt as U. pose proof uflow_pos.
  assert (uro * Rabs (ln (val x)) <= / 2 ^ 50 * Rabs (ln (val x))) by (apply Rmult_le_compat_r; [exact P|]; unfold uro; lra).
  assert (uflow <= / 2 ^ 50) by lra. lra.
Qed.
Lemma pow_ok_round : pow_ok (fun x e => fround (Rpower (val x) (val e))).
Proof.
  intros x e _ _ Hx He. assert (S : sz 60 (Rpower (val x) (val e))).
  { replace (val e) with (- - val e) by ring. rewrite Rpower_Ropp. apply sz_inv. unfold Rpower. set (a := - val e * ln (val x)).
    assert (L : 0 < ln (val x)) by (rewrite <- ln_1; apply ln_increasing; lra).
    assert (A : 0 <= a <= ln (val x)).
    { unfold a. split; [apply Rmult_le_pos; lra|]. rewrite <- (Rmult_1_l (ln (val x))) at 2. apply Rmult_le_compat_r; lra. }
    unfold sz. rewrite Rabs_pos_eq by apply Rlt_le, exp_pos. split.
    - apply Rle_trans with 1.
      + rewrite <- Rinv_1. apply Rinv_le_contravar; [lra|]. apply pow_R1_Rle. lra.
      + rewrite <- exp_0. destruct (Rle_lt_or_eq_dec _ _ (proj1 A)) as [Q|<-]; [apply Rlt_le, exp_increasing; exact Q|lra].
    - apply Rle_trans with (val x); [|lra]. rewrite <- (exp_ln (val x)) at 1 by lra. destruct (Rle_lt_or_eq_dec _ _ (proj2 A)) as [Q|Q]; [apply Rlt_le, exp_increasing; exact Q|rewrite Q; lra]. }
  destruct (fround_app _ (sz_le 60 300 _ ltac:(lia) S)) as [F E]. split; [exact F|].
  assert (P : 0 < Rpower (val x) (val e)) by apply exp_pos. rewrite (Rabs_pos_eq (Rpower _ _)) in E by lra. eapply Rle_trans; [exact E|]. apply Rmult_le_compat_r; [lra|]. unfold uro. lra.
Qed.
Example ex_C102 : log_ok (fun x => fround (ln (val x))) /\ pow_ok (fun x e => fround (Rpower (val x) (val e))) /\
  at_list (ifdm12_double (fun x => x)) [fofZ 8; fofZ 20] =
    [SpecFloat.S754_finite false 4518269858944871 (-48); SpecFloat.S754_finite false 7037453355824004 (-46)].
Proof. split; [exact log_ok_round|]. split; [exact pow_ok_round|]. vm_compute. reflexivity. Qed.
