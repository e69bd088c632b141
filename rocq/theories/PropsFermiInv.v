(* C93: the inverse functions undo the Fermi-Dirac functions, /repo/npplus/fermi.py:205-299. *)
From Coq Require Import List Arith ZArith QArith Qreals Bool Lia Reals Lra.
From Verif Require Import Num PyBase NdArray RSum Fermi PropsFermi PolySign PolyDer PropsFermiDer PropsFermiJoin GaussInt FermiInt PropsFermiAcc PropsFermiTail FermiInv PolyApprox FermiInvReg FermiInvData.
Import ListNotations.
Open Scope R_scope.

(** ** The specification *)
(* g undoes h, up to a relative error eps, for every positive y *)
Definition undoes (g h : R -> R) (eps : R) : Prop := forall y, 0 < y -> Rabs (g (h y) - y) <= eps * y.
(* the improper integral of order j at h(y) is y, up to a relative error eps *)
Definition solves (j : R) (h : R -> R) (eps : R) : Prop :=
  forall y, 0 < y -> exists l, FD_integral j (h y) l /\ Rabs (l - y) <= eps * y.

(** ** The four inverses *)
Definition hm12 : R -> R := ifd_fun 1 ifdm12_anum ifdm12_aden ifdm12_bnum ifdm12_bden.
Definition h12 : R -> R := ifd_fun 3 ifd12_anum ifd12_aden ifd12_bnum ifd12_bden.
Definition h32 : R -> R := ifd_fun 5 ifd32_anum ifd32_aden ifd32_bnum ifd32_bden.
Definition h52 : R -> R := ifd_fun 7 ifd52_anum ifd52_aden ifd52_bnum ifd52_bden.

Lemma c_a_m12 : chk_aQ 12 2 (10 ^ 9) (-1) ifdm12_anum ifdm12_aden fdm12_anum fdm12_aden (26 # 10) = true.
Proof. vm_cast_no_check (eq_refl true). Qed.
Lemma c_a_12 : chk_aQ 12 8 (10 ^ 9) 1 ifd12_anum ifd12_aden fd12_anum fd12_aden (26 # 10) = true.
Proof. vm_cast_no_check (eq_refl true). Qed.
Lemma c_a_32 : chk_aQ 12 8 (10 ^ 9) 1 ifd32_anum ifd32_aden fd32_anum fd32_aden 4 = true.
Proof. vm_cast_no_check (eq_refl true). Qed.
Lemma c_a_52 : chk_aQ 12 23 (10 ^ 9) 1 ifd52_anum ifd52_aden fd52_anum fd52_aden 4 = true.
Proof. vm_cast_no_check (eq_refl true). Qed.
Lemma c_b_m12 : chk_b (2 ^ 80) (2 ^ 128) 32 40 8 0 1 (10 ^ 9) 1 (10 ^ 10) 1 (10 ^ 10) (-1) (-1) iexpb0 iexpb ifdm12_anum ifdm12_aden fdm12_bnum fdm12_bden (41 # 10) ibm12 = true.
Proof. vm_cast_no_check (eq_refl true). Qed.
Lemma c_b_12 : chk_b (2 ^ 60) (2 ^ 128) 24 40 8 1 2 (10 ^ 9) 1 (10 ^ 10) 1 (10 ^ 10) 1 1 iexpb0 iexpb ifd12_anum ifd12_aden fd12_bnum fd12_bden (41 # 10) ib12 = true.
Proof. vm_cast_no_check (eq_refl true). Qed.
Lemma c_c_32 : chk_c (2 ^ 56) 24 8 2 1 (10 ^ 9) 1 (10 ^ 10) 14 (10 ^ 9) (-1) iexp0 iexp ifd32_bnum ifd32_bden fd32_anum fd32_aden (6 # 10) ic32 = true.
Proof. vm_cast_no_check (eq_refl true). Qed.
Lemma c_c_52 : chk_c (2 ^ 56) 34 8 3 1 (10 ^ 9) 1 (10 ^ 10) 20 (10 ^ 9) (-1) iexp0 iexp ifd52_bnum ifd52_bden fd52_anum fd52_aden (7 # 10) ic52 = true.
Proof. vm_cast_no_check (eq_refl true). Qed.
Lemma c_d_m12l : chk_d (2 ^ 72) (2 ^ 128) 34 40 8 0 3 (10 ^ 10) 4 (10 ^ 9) 2 (10 ^ 10) 1 (-1) ifdm12_bnum ifdm12_bden fdm12_bnum fdm12_bden (63 # 1000) idm12_lo = true.
Proof. vm_cast_no_check (eq_refl true). Qed.
Lemma c_d_m12h : chk_d (2 ^ 72) (2 ^ 128) 24 40 8 0 3 (10 ^ 10) 4 (10 ^ 9) 2 (10 ^ 10) 1 (-1) ifdm12_bnum ifdm12_bden fdm12_bnum fdm12_bden (63 # 1000) idm12_hi = true.
Proof. vm_cast_no_check (eq_refl true). Qed.
Lemma c_d_12l : chk_d (2 ^ 56) (2 ^ 128) 34 40 8 1 3 (10 ^ 10) 18 (10 ^ 9) 2 (10 ^ 10) (-1) 1 ifd12_bnum ifd12_bden fd12_bnum fd12_bden (4 # 10) id12_lo = true.
Proof. vm_cast_no_check (eq_refl true). Qed.
Lemma c_d_12h : chk_d (2 ^ 56) (2 ^ 128) 24 40 8 1 3 (10 ^ 10) 18 (10 ^ 9) 2 (10 ^ 10) (-1) 1 ifd12_bnum ifd12_bden fd12_bnum fd12_bden (4 # 10) id12_hi = true.
Proof. vm_cast_no_check (eq_refl true). Qed.
Lemma c_d_32l : chk_d (2 ^ 56) (2 ^ 128) 34 40 8 2 3 (10 ^ 10) 14 (10 ^ 9) 2 (10 ^ 10) (-1) 1 ifd32_bnum ifd32_bden fd32_bnum fd32_bden (6 # 10) id32_lo = true.
Proof. vm_cast_no_check (eq_refl true). Qed.
Lemma c_d_32h : chk_d (2 ^ 56) (2 ^ 128) 24 40 8 2 3 (10 ^ 10) 14 (10 ^ 9) 2 (10 ^ 10) (-1) 1 ifd32_bnum ifd32_bden fd32_bnum fd32_bden (6 # 10) id32_hi = true.
Proof. vm_cast_no_check (eq_refl true). Qed.
Lemma c_d_52l : chk_d (2 ^ 56) (2 ^ 128) 34 40 8 3 3 (10 ^ 10) 46 (10 ^ 9) 2 (10 ^ 10) (-1) 1 ifd52_bnum ifd52_bden fd52_bnum fd52_bden (7 # 10) id52_lo = true.
Proof. vm_cast_no_check (eq_refl true). Qed.
Lemma c_d_52h : chk_d (2 ^ 56) (2 ^ 128) 24 40 8 3 3 (10 ^ 10) 46 (10 ^ 9) 2 (10 ^ 10) (-1) 1 ifd52_bnum ifd52_bden fd52_bnum fd52_bden (7 # 10) id52_hi = true.
Proof. vm_cast_no_check (eq_refl true). Qed.

(** ** The round trips *)
Ltac num := unfold Q2R; change (10 ^ 9)%Z with 1000000000%Z; change (10 ^ 10)%Z with 10000000000%Z; change (10 ^ 11)%Z with 100000000000%Z;
  cbn [Qnum Qden INR pow Nat.mul Nat.add]; try split; lra.
Lemma exp_4_25 : Q2R 70 <= exp (Q2R (17 # 4)).
Proof.
  assert (E : IZR 70 / IZR 1 <= exp (IZR 17 / IZR 4) <= IZR 71 / IZR 1) by (apply (exp_range 17 4 70 71 1); try lia; vm_compute; reflexivity).
  replace (Q2R (17 # 4)) with (IZR 17 / IZR 4) by (unfold Q2R; cbn; lra). replace (Q2R 70) with (IZR 70 / IZR 1) by (unfold Q2R; cbn; lra). apply E.
Qed.
Lemma exp_3_06 : Q2R 21 <= exp (Q2R (49 # 16)).
Proof.
  assert (E : IZR 21 / IZR 1 <= exp (IZR 49 / IZR 16) <= IZR 22 / IZR 1) by (apply (exp_range 49 16 21 22 1); try lia; vm_compute; reflexivity).
  replace (Q2R (49 # 16)) with (IZR 49 / IZR 16) by (unfold Q2R; cbn; lra). replace (Q2R 21) with (IZR 21 / IZR 1) by (unfold Q2R; cbn; lra). apply E.
Qed.
Lemma c_expb : between 8 1 (10 ^ 10) (pder (Zpos iexpb0 :: iexpb)) (Zpos iexpb0 :: iexpb) 0 (17 # 4) = true.
Proof. vm_cast_no_check (eq_refl true). Qed.
Lemma c_exp : between 8 1 (10 ^ 11) (pder (Zpos iexp0 :: iexp)) (Zpos iexp0 :: iexp) 0 2 = true.
Proof. vm_cast_no_check (eq_refl true). Qed.
Lemma rt_m12 y : 0 < y -> lnear (25 / 10 ^ 10) (gm12 (hm12 y)) y.
Proof.
  revert y. apply (type1 0 ifdm12_anum ifdm12_aden ifdm12_bnum ifdm12_bden fdm12_anum fdm12_aden fdm12_bnum fdm12_bden (-1) 1 (-1) false 2 1 4 8
    (26 # 10) (41 # 10) 70 (17 # 4) (1 # 16) (63 # 1000) (121 # 512) (2 ^ 72) (2 ^ 128) 34 24 40 (2 ^ 80) 32 iexpb0 iexpb ibm12 idm12_lo idm12_hi);
  [exact tabs_m12|vm_compute; reflexivity|vm_compute; reflexivity|vm_compute; reflexivity|exact c_a_m12|vm_compute; reflexivity|vm_compute; reflexivity|exact c_b_m12|exact c_expb
  |vm_compute; reflexivity|vm_compute; reflexivity|exact c_d_m12l|exact c_d_m12h|vm_compute; reflexivity|exact exp_4_25|..]; try lia; num.
Qed.
Lemma rt_12 y : 0 < y -> lnear (98 / 10 ^ 10) (g12 (h12 y)) y.
Proof.
  revert y. apply (type1 1 ifd12_anum ifd12_aden ifd12_bnum ifd12_bden fd12_anum fd12_aden fd12_bnum fd12_bden 1 (-1) 1 true 8 2 18 9
    (26 # 10) (41 # 10) 21 (49 # 16) (398 # 1000) (4 # 10) (1 # 3) (2 ^ 56) (2 ^ 128) 34 24 40 (2 ^ 60) 24 iexpb0 iexpb ib12 id12_lo id12_hi);
  [exact tabs_12|vm_compute; reflexivity|vm_compute; reflexivity|vm_compute; reflexivity|exact c_a_12|vm_compute; reflexivity|vm_compute; reflexivity|exact c_b_12|exact c_expb
  |vm_compute; reflexivity|vm_compute; reflexivity|exact c_d_12l|exact c_d_12h|vm_compute; reflexivity|exact exp_3_06|..]; try lia; num.
Qed.
Lemma rt_32 y : 0 < y -> lnear (87 / 10 ^ 10) (g32 (h32 y)) y.
Proof.
  revert y. apply (type2 2 ifd32_anum ifd32_aden ifd32_bnum ifd32_bden fd32_anum fd32_aden fd32_bnum fd32_bden 1 (-1) 1 true 8 1 1 14 14 9
    (3 # 2) (58 # 100) (6 # 10) (2 ^ 56) (2 ^ 128) 34 24 40 24 iexp0 iexp ic32 id32_lo id32_hi);
  [exact tabs_32|vm_compute; reflexivity|vm_compute; reflexivity|vm_compute; reflexivity|exact c_a_32|vm_compute; reflexivity|exact c_c_32|exact c_exp|vm_compute; reflexivity
  |vm_compute; reflexivity|reflexivity|reflexivity|exact c_d_32l|exact c_d_32h|vm_compute; reflexivity|reflexivity|..]; try lia; cbn [length fd32_anum fd32_aden]; num.
Qed.
Lemma rt_52 y : 0 < y -> lnear (247 / 10 ^ 10) (g52 (h52 y)) y.
Proof.
  revert y. apply (type2 3 ifd52_anum ifd52_aden ifd52_bnum ifd52_bden fd52_anum fd52_aden fd52_bnum fd52_bden 1 (-1) 1 true 23 1 1 20 46 9
    (1 # 4) (674 # 1000) (7 # 10) (2 ^ 56) (2 ^ 128) 34 24 40 34 iexp0 iexp ic52 id52_lo id52_hi);
  [exact tabs_52|vm_compute; reflexivity|vm_compute; reflexivity|vm_compute; reflexivity|exact c_a_52|vm_compute; reflexivity|exact c_c_52|exact c_exp|vm_compute; reflexivity
  |vm_compute; reflexivity|reflexivity|reflexivity|exact c_d_52l|exact c_d_52h|vm_compute; reflexivity|reflexivity|..]; try lia; cbn [length fd52_anum fd52_aden]; num.
Qed.
Lemma undoes_of g h d eps : (forall y, 0 < y -> lnear d (g (h y)) y) -> d <= 1 / 101 -> 101 / 100 * d <= eps -> undoes g h eps.
Proof.
  intros H D E y Hy. eapply Rle_trans; [apply (near_of d); auto|]. apply Rmult_le_compat_r; lra.
Qed.
Lemma solves_of g h j d e0 eps : (forall y, 0 < y -> lnear d (g (h y)) y) -> is_FD g j e0 -> 0 < d <= 1 / 101 -> 0 < e0 -> 2 * e0 <= 1 -> 101 / 100 * d + 4 * e0 <= eps -> solves j h eps.
Proof.
  intros H F D E0 E1 E y Hy. destruct (F (h y)) as (l & I & Pl & B). exists l. split; [exact I|].
  pose proof (near_of d _ _ (H y Hy) (proj2 D)) as A. set (w := g (h y)) in *. clearbody w. clear I F H.
  assert (A1 : Rabs (w - y) <= 1 / 100 * y) by (eapply Rle_trans; [exact A|]; apply Rmult_le_compat_r; lra).
  assert (L2 : l <= 4 * y).
  { pose proof (Rle_abs (w - y)). pose proof (Rle_abs (- (w - l))). rewrite Rabs_Ropp in H0. assert (e0 * l <= 1 / 2 * l) by (apply Rmult_le_compat_r; lra). lra. }
  assert (B2 : e0 * l <= e0 * (4 * y)) by (apply Rmult_le_compat_l; lra).
  replace (l - y) with (- (w - l) + (w - y)) by ring. eapply Rle_trans; [apply Rabs_triang|]. rewrite Rabs_Ropp.
  assert (101 / 100 * d * y + 4 * e0 * y <= eps * y); [|lra]. rewrite <- Rmult_plus_distr_r. apply Rmult_le_compat_r; lra.
Qed.
Lemma ielt_m12 : elementwise_pos ifdm12 hm12.
Proof.
  apply (ifd_fun_elementwise false true (1 # 16)); [vm_compute; reflexivity|].
  intros x Hx. rewrite inv_sq by lra. replace (- 2 / INR 1) with (- 2) by (cbn; field). split; [reflexivity|].
  rewrite <- inv_sq by lra. assert (0 < x * x) by nra. split; [apply Rdiv_lt_0_compat; lra|].
  replace (Q2R (1 # 16)) with (/ 16) by (unfold Q2R; cbn; lra). unfold Rdiv. rewrite Rmult_1_l. apply Rinv_le_contravar; nra.
Qed.
Lemma ielt_12 : elementwise_pos ifd12 h12.
Proof.
  apply (ifd_fun_elementwise true false (2 # 5)); [vm_compute; reflexivity|].
  intros x Hx. replace (- 2 / 3) with (- 2 / INR 3) by (cbn; lra). split; [reflexivity|].
  apply root_bound; [lia| | |exact Hx]; unfold Q2R; cbn [Qnum Qden pow]; lra.
Qed.
Lemma ielt_32 : elementwise_pos ifd32 h32.
Proof.
  apply (ifd_fun_elementwise true false (23 # 40)); [vm_compute; reflexivity|].
  intros x Hx. replace (- 2 / 5) with (- 2 / INR 5) by (cbn; lra). split; [reflexivity|].
  apply root_bound; [lia| | |exact Hx]; unfold Q2R; cbn [Qnum Qden pow]; lra.
Qed.
Lemma ielt_52 : elementwise_pos ifd52 h52.
Proof.
  apply (ifd_fun_elementwise true false (27 # 40)); [vm_compute; reflexivity|].
  intros x Hx. replace (- 2 / 7) with (- 2 / INR 7) by (cbn; lra). split; [reflexivity|].
  apply root_bound; [lia| | |exact Hx]; unfold Q2R; cbn [Qnum Qden pow]; lra.
Qed.

(** ** C93 *)
(* each inverse followed by its function gives the argument back, for every positive argument *)
Theorem C93_round_trip : exists gm12 g12 g32 g52 hm12 h12 h32 h52 : R -> R,
  (elementwise fdm12 (fun x => Some (gm12 x)) /\ elementwise fd12 (fun x => Some (g12 x)) /\
   elementwise fd32 (fun x => Some (g32 x)) /\ elementwise fd52 (fun x => Some (g52 x))) /\
  (elementwise_pos ifdm12 hm12 /\ elementwise_pos ifd12 h12 /\ elementwise_pos ifd32 h32 /\ elementwise_pos ifd52 h52) /\
  undoes gm12 hm12 (3 / 10 ^ 9) /\ undoes g12 h12 (1 / 10 ^ 8) /\ undoes g32 h32 (9 / 10 ^ 9) /\ undoes g52 h52 (2.5 / 10 ^ 8) /\
  solves (- (1 / 2)) hm12 (3 / 10 ^ 9) /\ solves (1 / 2) h12 (1 / 10 ^ 8) /\ solves (3 / 2) h32 (9 / 10 ^ 9) /\ solves (5 / 2) h52 (2.5 / 10 ^ 8).
Proof.
  exists gm12, g12, g32, g52, hm12, h12, h32, h52.
  split; [repeat split; first [exact elt_m12|exact elt_12|exact elt_32|exact elt_52]|].
  split; [split; [exact ielt_m12|split; [exact ielt_12|split; [exact ielt_32|exact ielt_52]]]|].
  split; [apply (undoes_of _ _ _ _ rt_m12); lra|]. split; [apply (undoes_of _ _ _ _ rt_12); lra|].
  split; [apply (undoes_of _ _ _ _ rt_32); lra|]. split; [apply (undoes_of _ _ _ _ rt_52); lra|].
  split; [eapply (solves_of _ _ _ _ (3 / 10 ^ 12) _ rt_m12 (is_FD_join _ _ _ _ _ below_m12 above_m12 _ _)); lra|].
  split; [eapply (solves_of _ _ _ _ (1 / 10 ^ 12) _ rt_12 (is_FD_join _ _ _ _ _ below_12 above_12 _ _)); lra|].
  split; [eapply (solves_of _ _ _ _ (1 / 10 ^ 12) _ rt_32 (is_FD_join _ _ _ _ _ below_32 above_32 _ _)); lra|].
  eapply (solves_of _ _ _ _ (1 / 10 ^ 12) _ rt_52 (is_FD_join _ _ _ _ _ below_52 above_52 _ _)); lra.
  Unshelve. all: lra.
Qed.
Print Assumptions C93_round_trip.

(* the bound for the order 5/2 cannot be replaced by the documented 1e-8: the relative error
   at y = (11/1000)^(-7/2), that is x = 130, is more than 2.1e-8 *)
Definition qh (c : list Q) (z : Q) : Q := fold_left (fun p q => Qred (p * z + q)) c 0%Q.
Lemma qh_ok c z : hornerQ c (Q2R z) = Q2R (qh c z).
Proof.
  unfold hornerQ, qh. replace 0 with (Q2R 0) at 1 by (unfold Q2R; cbn; lra). generalize 0%Q. induction c as [|a c IH]; intros p; [reflexivity|].
  cbn [fold_left]. rewrite <- IH. f_equal. rewrite <- Q2R_mult, <- Q2R_plus. apply Qeq_eqR. symmetry. apply Qred_correct.
Qed.
Fixpoint qpow (a : Q) (m : nat) : Q := match m with O => 1%Q | S m => (a * qpow a m)%Q end.
Definition sharp (m : nat) (bn bd fbn fbd : list Q) (z e : Q) : bool :=
  let a := qh bd z in let x := Qred (qh bn z / (z * a)) in let u := Qred (1 / (x * x)) in
  let d := qh fbd u in let r := Qred (qh fbn u / d) in
  negb (Qle_bool z 0) && negb (Qeq_bool a 0) && Qle_bool 2 x && negb (Qeq_bool d 0) && negb (Qle_bool r 0) && Qle_bool 0 e &&
  negb (Qle_bool (qpow x m * (r * r) * qpow z m) ((1 + e) * (1 + e))).
Lemma Qle_not a b : negb (Qle_bool a b) = true -> Q2R b < Q2R a.
Proof.
  intros H. apply negb_true_iff in H. apply Qlt_Rlt. apply Qnot_le_lt. intros L. apply Qle_bool_iff in L. congruence.
Qed.
Lemma Qeq_not a : negb (Qeq_bool a 0) = true -> ~ (a == 0)%Q /\ Q2R a <> 0.
Proof.
  intros H. apply negb_true_iff in H. assert (N : ~ (a == 0)%Q) by (intros E; apply Qeq_bool_iff in E; congruence).
  split; [exact N|]. intros E. apply N. apply eqR_Qeq. rewrite E. unfold Q2R. cbn. lra.
Qed.
Lemma Q2R_pow a m : Q2R (qpow a m) = Q2R a ^ m.
Proof. induction m as [|m IH]; [unfold Q2R; cbn; lra|]. cbn [pow qpow]. now rewrite <- IH, Q2R_mult. Qed.
Lemma sharp_ok k an ad bn bd fan fad fbn fbd z e : sharp (2 * k + 1) bn bd fbn fbd z e = true ->
  let y := Rpower (Q2R z) (- INR (2 * k + 1) / 2) in 4 <= y ->
  Q2R e * y < fd_fun k fan fad fbn fbd (ifd_fun (2 * k + 1) an ad bn bd y) - y.
Proof.
  set (m := (2 * k + 1)%nat). unfold sharp. set (a := qh bd z). set (x := Qred (qh bn z / (z * a))). set (u := Qred (1 / (x * x))).
  set (d := qh fbd u). set (r := Qred (qh fbn u / d)). cbv zeta. intros H. do 6 (apply andb_true_iff in H; destruct H as [H ?]).
  apply Qle_not in H, H0, H2. apply Qeq_not in H3, H5. apply Qle_R in H1, H4. set (y := Rpower (Q2R z) (- INR m / 2)). intros Hy.
  assert (Z0 : Q2R 0 = 0) by (unfold Q2R; cbn; lra). assert (T2 : Q2R 2 = 2) by (unfold Q2R; cbn; lra). rewrite Z0 in *. rewrite T2 in *.
  assert (Zn : ~ (z == 0)%Q) by (intros E; apply Qeq_eqR in E; lra).
  assert (M0 : INR m <> 0) by (apply not_0_INR; unfold m; lia).
  assert (Ez : Rpower y (- 2 / INR m) = Q2R z).
  { unfold y. rewrite Rpower_mult. replace (- INR m / 2 * (- 2 / INR m)) with 1 by (field; exact M0). now apply Rpower_1. }
  assert (Ey : y ^ 2 * Q2R z ^ m = 1).
  { unfold y. rewrite <- (Rpower_pow m) by auto. rewrite <- Rpower_pow by apply exp_pos. rewrite Rpower_mult, <- Rpower_plus.
    replace (- INR m / 2 * INR 2 + INR m) with 0 by (cbn [INR]; field). now apply Rpower_O. }
  assert (Eh : ifd_fun m an ad bn bd y = Q2R x).
  { unfold ifd_fun. destruct (Rlt_dec y 4); [lra|]. unfold ihi. cbv zeta. rewrite Ez, !qh_ok. fold a.
    rewrite <- Q2R_mult, <- Q2R_div. { apply Qeq_eqR. symmetry. apply Qred_correct. }
    intros E. apply Qmult_integral in E. destruct E; tauto. }
  rewrite Eh. clearbody y. clear Eh. unfold fd_fun. destruct (Rlt_dec (Q2R x) 2); [lra|].
  assert (Eu : 1 / (Q2R x * Q2R x) = Q2R u).
  { replace 1 with (Q2R 1) by (unfold Q2R; cbn; lra). rewrite <- Q2R_mult, <- Q2R_div; [apply Qeq_eqR; symmetry; apply Qred_correct|].
    intros E. apply Qeq_eqR in E. rewrite Q2R_mult, Z0 in E. nra. }
  assert (Er : hornerQ fbn (Q2R u) / hornerQ fbd (Q2R u) = Q2R r).
  { rewrite !qh_ok. fold d. rewrite <- Q2R_div by tauto. apply Qeq_eqR. symmetry. apply Qred_correct. }
  pose proof (hi_fun_sq k fbn fbd (Q2R x) ltac:(lra)) as S. rewrite Eu, Er in S. fold m in S.
  assert (D0 : hornerQ fbd (Q2R u) <> 0) by (rewrite qh_ok; tauto). specialize (S D0).
  assert (F0 : 0 < hi_fun k fbn fbd (Q2R x)) by (apply hi_fun_pos; [lra|]; now rewrite Eu, Er).
  set (F := hi_fun k fbn fbd (Q2R x)) in *. clearbody F. rewrite !Q2R_mult, Q2R_plus, !Q2R_pow in H0. replace (Q2R 1) with 1 in H0 by (unfold Q2R; cbn; lra).
  clear - H0 S Ey F0 Hy H H1. assert (Zm : 0 < Q2R z ^ m) by now apply pow_lt.
  assert (Q : ((1 + Q2R e) * y) ^ 2 < F ^ 2).
  { apply (Rmult_lt_reg_r (Q2R z ^ m)); auto. replace (((1 + Q2R e) * y) ^ 2 * Q2R z ^ m) with ((1 + Q2R e) * (1 + Q2R e) * (y ^ 2 * Q2R z ^ m)) by ring.
    rewrite Ey, S. lra. }
  assert (0 <= (1 + Q2R e) * y) by (apply Rmult_le_pos; lra). set (w := (1 + Q2R e) * y) in *. assert (Ew : w = (1 + Q2R e) * y) by reflexivity. clearbody w.
  assert (w < F) by nra. lra.
Qed.
Lemma c_sharp : sharp 7 ifd52_bnum ifd52_bden fd52_bnum fd52_bden (11 # 1000) (21 # 1000000000) = true.
Proof. vm_cast_no_check (eq_refl true). Qed.
Theorem C93_52_sharp : exists y, 0 < y /\ 2.1 / 10 ^ 8 * y < Rabs (g52 (h52 y) - y).
Proof.
  pose proof (sharp_ok 3 ifd52_anum ifd52_aden ifd52_bnum ifd52_bden fd52_anum fd52_aden fd52_bnum fd52_bden _ _ c_sharp) as H. cbv zeta in H.
  set (y := Rpower (Q2R (11 # 1000)) (- INR (2 * 3 + 1) / 2)) in *. exists y.
  assert (Y : 4 <= y).
  { assert (y0 : 0 < y) by apply exp_pos. assert (E : y ^ 2 * Q2R (11 # 1000) ^ 7 = 1).
    { assert (0 < Q2R (11 # 1000)) by (unfold Q2R; cbn; lra). unfold y. rewrite <- (Rpower_pow 7) by auto. rewrite <- Rpower_pow by apply exp_pos.
      rewrite Rpower_mult, <- Rpower_plus. replace (- INR (2 * 3 + 1) / 2 * INR 2 + INR 7) with 0 by (cbn [INR Nat.mul Nat.add]; field). now apply Rpower_O. }
    assert (L : 16 * Q2R (11 # 1000) ^ 7 <= 1) by (unfold Q2R; cbn [Qnum Qden pow]; lra).
    assert (P : 0 < Q2R (11 # 1000) ^ 7) by (unfold Q2R; cbn [Qnum Qden pow]; lra). set (q := Q2R (11 # 1000) ^ 7) in *. clearbody q y.
    assert (16 * q <= y ^ 2 * q) by lra. apply Rmult_le_reg_r in H0; [|exact P]. nra. }
  split; [lra|]. specialize (H Y). replace (Q2R (21 # 1000000000)) with (2.1 / 10 ^ 8) in H by (unfold Q2R; cbn [Qnum Qden pow]; lra).
  eapply Rlt_le_trans; [exact H|]. apply Rle_abs.
Qed.
Print Assumptions C93_52_sharp.
Print Assumptions C93_round_trip.
(* a case: the array of 1 and 100 *)
Example ex_C93 : exists u b w c, ifd12 (Nd [2%nat] (fun i => match i with [1%nat] => 100 | _ => 1 end)) = Ok u /\ shp u = [2%nat] /\
  get u [1%nat] = Some b /\ fd12 (Nd [] (fun _ => b)) = Ok w /\ get w [] = Some c /\ Rabs (c - 100) <= 1 / 10 ^ 6.
Proof.
  destruct C93_round_trip as (_ & g & _ & _ & _ & h & _ & _ & (_ & G & _) & (_ & H & _) & _ & U & _).
  destruct (H (Nd [2%nat] (fun i => match i with [1%nat] => 100 | _ => 1 end))) as (u & E1 & E2 & E3). exists u, (h 100).
  destruct (G (Nd [] (fun _ => h 100))) as (w & F1 & F2 & F3). exists w, (g (h 100)).
  split; [exact E1|]. split; [exact E2|]. split; [|split; [exact F1|]].
  - specialize (E3 [1%nat]). cbn in E3. apply E3; [|lra]. repeat constructor.
  - split; [exact (F3 [] ltac:(constructor))|]. eapply Rle_trans; [apply U; lra|]. lra.
Qed.
