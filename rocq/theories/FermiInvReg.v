(* Round trips of the inverses of the Fermi-Dirac functions, region by region: a rational
   function W of the value or of a power z of it, and polynomials close to its inverse. *)
From Coq Require Import List Arith ZArith QArith Qreals Bool Lia Reals Lra.
From Verif Require Import PolySign PolyDer PropsFermiDer PropsFermiJoin FermiInv PolyApprox.
Import ListNotations.
Open Scope R_scope.

(** ** Pairs of tables as integer polynomials with a common factor *)
Definition clcm (an ad : list Q) : Z := Z.lcm (common an) (common ad).
Definition qn (s : Z) (an ad : list Q) : list Z := pscale (s * (clcm an ad / common an)) (intable an).
Definition qd (s : Z) (an ad : list Q) : list Z := pscale (s * (clcm an ad / common ad)) (intable ad).
Lemma common_pos c : (0 < common c)%Z.
Proof. unfold common. lia. Qed.
Lemma clcm_pos an ad : (0 < clcm an ad)%Z.
Proof.
  unfold clcm. pose proof (common_pos an). pose proof (common_pos ad). pose proof (Z.lcm_nonneg (common an) (common ad)).
  destruct (Z.eq_dec (Z.lcm (common an) (common ad)) 0) as [E|E]; [|lia]. apply Z.lcm_eq_0 in E. lia.
Qed.
Lemma div_IZR a b : (0 < b)%Z -> (b | a)%Z -> IZR (a / b) * IZR b = IZR a.
Proof. intros H [k ->]. rewrite Z.div_mul by lia. now rewrite mult_IZR. Qed.
Lemma ev_qn s an ad t : intable_ok an = true -> ev (qn s an ad) t = IZR (clcm an ad) * (IZR s * hornerQ an t).
Proof.
  intros H. unfold qn. rewrite ev_pscale, intable_ev, mult_IZR by auto.
  rewrite <- (div_IZR (clcm an ad) (common an) (common_pos an)) by (unfold clcm; apply Z.divide_lcm_l). ring.
Qed.
Lemma ev_qd s an ad t : intable_ok ad = true -> ev (qd s an ad) t = IZR (clcm an ad) * (IZR s * hornerQ ad t).
Proof.
  intros H. unfold qd. rewrite ev_pscale, intable_ev, mult_IZR by auto.
  rewrite <- (div_IZR (clcm an ad) (common ad) (common_pos ad)) by (unfold clcm; apply Z.divide_lcm_r). ring.
Qed.
Definition W (an ad : list Q) (t : R) : R := t * hornerQ an t / hornerQ ad t.
Lemma W_wfun s an ad t : intable_ok an = true -> intable_ok ad = true -> IZR s * hornerQ ad t <> 0 ->
  wfun (qn s an ad) (qd s an ad) t = W an ad t.
Proof.
  intros H H' N. unfold wfun, W. rewrite ev_qn, ev_qd by auto. pose proof (IZR_lt _ _ (clcm_pos an ad)).
  assert (IZR s <> 0) by (intros E; rewrite E in N; lra). assert (hornerQ ad t <> 0) by (intros E; rewrite E in N; lra). field. lra.
Qed.
Definition signs (s : Z) (an ad : list Q) (T : Q) : Prop :=
  forall t, 0 < t <= Q2R T -> 0 < IZR s * hornerQ an t /\ 0 < IZR s * hornerQ ad t.
Definition grows (an ad : list Q) (T : Q) (k : R) : Prop :=
  forall d t1 t2, 0 < t1 <= Q2R T -> 0 < t2 <= Q2R T -> lnear d (W an ad t1) (W an ad t2) -> lnear (k * d) t1 t2.
Lemma mono_tables fuel e N s an ad T : mono fuel e N (qn s an ad) (qd s an ad) T = true -> (0 < e)%Z -> (0 < N)%Z ->
  intable_ok an = true -> intable_ok ad = true -> signs s an ad T /\ grows an ad T (IZR N / IZR e).
Proof.
  intros H He HN I1 I2. assert (S : signs s an ad T).
  { intros t Ht. unfold mono in H. apply andb_true_iff in H. destruct H as [H _]. apply andb_true_iff in H. destruct H as [HA HB].
    assert (Z0 : Q2R 0 = 0) by (unfold Q2R; cbn; lra).
    pose proof (wpos_on_ok _ _ _ _ t HA ltac:(lra)) as A. pose proof (wpos_on_ok _ _ _ _ t HB ltac:(lra)) as B.
    rewrite ev_qn in A by auto. rewrite ev_qd in B by auto. pose proof (IZR_lt _ _ (clcm_pos an ad)) as C.
    split; apply Rmult_lt_reg_l with (IZR (clcm an ad)); auto; lra. }
  split; [exact S|]. intros d t1 t2 T1 T2 L. apply (mono_ok _ _ _ _ _ _ d _ _ H); auto.
  rewrite !W_wfun by (auto; apply not_eq_sym, Rlt_not_eq, S; auto). exact L.
Qed.
(* in terms of the positive numbers s an, s ad *)
Lemma W_lnear s an ad c n e d : 0 < IZR s * n -> 0 < IZR s * e -> 0 < c -> forall q, lnear d (q * (IZR s * n)) (IZR s * e) -> 
  hornerQ an (c * q) = n -> hornerQ ad (c * q) = e -> lnear d (W an ad (c * q)) c.
Proof.
  intros Pn Pe Pc q L En Ee. unfold W. rewrite En, Ee.
  assert (IZR s <> 0) by (intros E; rewrite E in Pe; lra). assert (e <> 0) by (intros E; rewrite E in Pe; lra).
  replace (c * q * n / e) with (c * (q * (IZR s * n) / (IZR s * e))) by (field; auto).
  apply lnear_scale; auto. apply L.
Qed.

(** ** From 4 and 2: t = 1 / x, z = y^(-2/m) is close to t q, the rational factor of the value to f *)
Record chkd := { d_cen : Q; d_hw : Q; d_q : list Z; d_f : list Z; d_W : Z; d_g : Z; d_g2 : Z }.
Definition chk_d (U U2 : Z) (K K2 fuel k : nat) (e2 M2 e5 M5 e6 M6 s s2 : Z) (bn bd fn fd : list Q) (Zh : Q) (c : chkd) : bool :=
  let t := tvar U (d_cen c) (d_hw c) in
  let q := tpoly (d_g c) (d_q c) in
  let f := tpoly (d_g c) (d_f c) in
  let z := tmul U K t q in
  let t2 := tvar U2 (d_cen c) (d_hw c) in
  let u := tmul U2 K2 t2 t2 in
  tpos fuel q && tpos fuel f && tle fuel U z Zh &&
  tbetween fuel e2 M2 (tmul U K q (tscale s (thorner U K bd z))) (tscale s (thorner U K bn z)) &&
  tbetween fuel e5 M5 (tmul U K (tpow U K q (2 * k + 1)) (tmul U K f f)) (tconst U 1) &&
  tbetween fuel e6 M6 (tmul U2 K2 (tpoly (d_g2 c) (d_f c)) (tscale s2 (thorner U2 K2 fd u))) (tscale s2 (thorner U2 K2 fn u)) &&
  (0 <? d_W c)%Z && (U =? d_W c * d_g c)%Z && (U2 =? d_W c * d_g2 c)%Z && Qle_bool (1 # 1000) (d_hw c).
Lemma Qle_R a b : Qle_bool a b = true -> Q2R a <= Q2R b.
Proof. intros H. apply Qle_bool_iff in H. now apply Qle_Rle. Qed.
Lemma reg_d U U2 K K2 fuel k e2 M2 e5 M5 e6 M6 s s2 bn bd fn fd Zh c kap t y z :
  chk_d U U2 K K2 fuel k e2 M2 e5 M5 e6 M6 s s2 bn bd fn fd Zh c = true -> (0 < U)%Z -> (0 < U2)%Z ->
  (0 < M2)%Z -> (0 < e2)%Z -> (101 * e2 <= M2)%Z -> (0 < M5)%Z -> (0 < e5)%Z -> (101 * e5 <= M5)%Z -> (0 < M6)%Z -> (0 < e6)%Z -> (101 * e6 <= M6)%Z ->
  grows bd bn Zh kap -> 0 < t -> Q2R (d_cen c) - Q2R (d_hw c) <= t <= Q2R (d_cen c) + Q2R (d_hw c) ->
  0 < y -> 0 < z <= Q2R Zh -> y ^ 2 * z ^ (2 * k + 1) = 1 -> t = W bd bn z ->
  lnear (101 / 200 * (IZR e5 / IZR M5) + 101 / 100 * (IZR e6 / IZR M6) + INR (2 * k + 1) / 2 * (kap * (101 / 100 * (IZR e2 / IZR M2)))) (hi_fun k fn fd (/ t)) y.
Proof.
  intros H HU HU2 M2p e2p E2 M5p e5p E5 M6p e6p E6 HG Ht Rt Hy Hz Ey Et.
  unfold chk_d in H. cbv zeta in H. do 9 (apply andb_true_iff in H; destruct H as [H ?H]).
  rename H into C0, H8 into C1, H7 into C2, H6 into C3, H5 into C4, H4 into C5, H3 into C6, H2 into C7, H1 into C8, H0 into C9.
  apply Z.ltb_lt in C6. apply Z.eqb_eq in C7. apply Z.eqb_eq in C8. apply Qle_R in C9.
  assert (W0 : 0 < Q2R (d_hw c)) by (unfold Q2R at 1 in C9; cbn [Qnum Qden] in C9; lra).
  destruct (to_unit _ _ t W0 Rt) as (p & Hp & Etp).
  pose proof (tvar_ok U p (d_cen c) (d_hw c) Hp) as At. rewrite <- Etp in At.
  pose proof (tvar_ok U2 p (d_cen c) (d_hw c) Hp) as At2. rewrite <- Etp in At2.
  pose proof (tpoly_ok U (d_W c) (d_g c) p (d_q c) C6 C7) as Aq. set (Q1 := ev (d_q c) p / IZR (d_W c)) in *.
  pose proof (tpoly_ok U (d_W c) (d_g c) p (d_f c) C6 C7) as Af. pose proof (tpoly_ok U2 (d_W c) (d_g2 c) p (d_f c) C6 C8) as Af2.
  set (G := ev (d_f c) p / IZR (d_W c)) in *.
  pose proof (tmul_ok U K p _ _ _ _ HU Hp At Aq) as Az. pose proof (tmul_ok U2 K2 p _ _ _ _ HU2 Hp At2 At2) as Au.
  pose proof (thorner_ok U2 K2 p fn _ _ HU2 Hp Au) as AN. pose proof (thorner_ok U2 K2 p fd _ _ HU2 Hp Au) as AD.
  pose proof (tpos_ok _ _ _ _ _ HU Hp C0 Aq) as Q0. pose proof (tpos_ok _ _ _ _ _ HU Hp C1 Af) as G0. pose proof (tle_ok _ _ _ _ _ _ HU Hp C2 Az) as QZ.
  assert (L2 : lnear (101 / 100 * (IZR e2 / IZR M2)) (Q1 * (IZR s * hornerQ bd (t * Q1))) (IZR s * hornerQ bn (t * Q1))).
  { apply (tbetween_ok _ U _ _ p _ _ _ _ HU Hp M2p e2p E2 C3); [apply tmul_ok; auto|]; apply tscale_ok; now apply thorner_ok. }
  assert (L5 : lnear (101 / 100 * (IZR e5 / IZR M5)) (Q1 ^ (2 * k + 1) * (G * G)) (Q2R 1)).
  { apply (tbetween_ok _ U _ _ p _ _ _ _ HU Hp M5p e5p E5 C4); auto using tmul_ok, tpow_ok, tconst_ok. }
  assert (L6 : lnear (101 / 100 * (IZR e6 / IZR M6)) (G * (IZR s2 * hornerQ fd (t * t))) (IZR s2 * hornerQ fn (t * t))).
  { apply (tbetween_ok _ U2 _ _ p _ _ _ _ HU2 Hp M6p e6p E6 C5); auto using tmul_ok, tscale_ok. }
  clear At At2 Aq Af Af2 Az Au AN AD C0 C1 C2 C3 C4 C5 Hp Etp. clearbody Q1 G. set (m := (2 * k + 1)%nat) in *.
  assert (L3 : lnear (kap * (101 / 100 * (IZR e2 / IZR M2))) (t * Q1) z).
  { apply HG; auto; [split; auto; now apply Rmult_lt_0_compat|]. rewrite <- Et. destruct L2 as (P1 & P2 & L2).
    apply (W_lnear s bd bn t (hornerQ bd (t * Q1)) (hornerQ bn (t * Q1))); auto; [|repeat split; auto].
    apply Rmult_lt_reg_l with Q1; auto. lra. }
  assert (x0 : 0 < / t) by now apply Rinv_0_lt_compat.
  assert (Eu : 1 / (/ t * / t) = t * t) by (field; lra).
  set (n := hornerQ fn (t * t)) in *. set (d := hornerQ fd (t * t)) in *.
  assert (dn : d <> 0 /\ lnear (101 / 100 * (IZR e6 / IZR M6)) G (n / d)).
  { clearbody n d. assert (P1 := proj1 L6). assert (P2 := proj1 (proj2 L6)). assert (Sd : 0 < IZR s2 * d) by (apply Rmult_lt_reg_l with G; lra).
    assert (d0 : d <> 0) by (intros E; rewrite E in Sd; lra). assert (s0 : IZR s2 <> 0) by (intros E; rewrite E in Sd; lra). split; auto.
    replace (n / d) with ((IZR s2 * n) / (IZR s2 * d)) by (field; auto). replace G with (G / 1) by field.
    apply lnear_quot; auto; try lra. now rewrite Rmult_1_r. }
  destruct dn as [d0 LG].
  assert (F0 : 0 < hi_fun k fn fd (/ t)) by (apply hi_fun_pos; auto; rewrite Eu; apply LG).
  assert (L4 : lnear (INR 2 * (101 / 100 * (IZR e6 / IZR M6)) + 101 / 100 * (IZR e5 / IZR M5) + INR m * (kap * (101 / 100 * (IZR e2 / IZR M2)))) (hi_fun k fn fd (/ t) ^ 2) (y ^ 2)).
  { rewrite hi_fun_sq by (auto; now rewrite Eu). rewrite Eu. fold m n d. clearbody n d.
    assert (zm : 0 < z ^ m) by (apply pow_lt; lra). assert (qm : 0 < Q1 ^ m) by (apply pow_lt; lra). assert (tm : 0 < t ^ m) by (apply pow_lt; lra).
    assert (EY : y ^ 2 = / z ^ m) by (apply Rmult_eq_reg_r with (z ^ m); [rewrite Ey; field|]; lra). rewrite EY.
    apply lnear_trans with (/ (t * Q1) ^ m); [|apply lnear_inv; now apply lnear_pow].
    apply lnear_trans with ((/ t) ^ m * G ^ 2).
    - rewrite <- (Rplus_0_l (INR 2 * _)). apply lnear_mul; [apply lnear_refl; now apply pow_lt|]. apply lnear_pow. now apply lnear_sym.
    - rewrite pow_inv, Rpow_mult_distr. replace (/ t ^ m * G ^ 2) with ((G * G) / t ^ m) by (field; lra).
      replace (/ (t ^ m * Q1 ^ m)) with (1 / (t ^ m * Q1 ^ m)) by (field; lra).
      apply lnear_quot; auto using Rmult_lt_0_compat; try lra.
      replace (G * G * (t ^ m * Q1 ^ m)) with (t ^ m * (Q1 ^ m * (G * G))) by ring. rewrite Rmult_1_l.
      rewrite <- (Rplus_0_l (101 / 100 * (IZR e5 / IZR M5))). replace (t ^ m) with (t ^ m * Q2R 1) at 2 by (unfold Q2R; cbn; field).
      apply lnear_mul; [now apply lnear_refl|exact L5]. }
  apply lnear_root in L4; auto. eapply lnear_weak; [exact L4|]. cbn [INR]. right. field.
  repeat split; apply not_eq_sym, Rlt_not_eq; apply IZR_lt; auto.
Qed.

(** ** Below 4, from 2: y is close to p(x), exp x to c(x), the rational factor of the value to f(x) *)
(* a table in 1 / w, times a power of w *)
Definition padf (n : nat) (c : list Q) : list Q := repeat (0 # 1)%Q (n - length c) ++ c.
Lemma horner_snoc c q z : hornerQ (c ++ [q]) z = hornerQ c z * z + Q2R q.
Proof. unfold hornerQ. rewrite fold_left_app. reflexivity. Qed.
Lemma horner_padf n c z : hornerQ (padf n c) z = hornerQ c z.
Proof.
  unfold padf, hornerQ. rewrite fold_left_app. f_equal. induction (n - length c)%nat as [|k IH]; cbn [repeat fold_left]; auto.
  replace (0 * z + Q2R 0) with 0 by (unfold Q2R; cbn; ring). exact IH.
Qed.
Lemma horner_cons q c z : hornerQ (q :: c) z = Q2R q * z ^ length c + hornerQ c z.
Proof.
  induction c as [|a c IH] using rev_ind; [unfold hornerQ; cbn; ring|].
  change (q :: c ++ [a]) with ((q :: c) ++ [a]). rewrite !horner_snoc, IH, app_length, pow_add. cbn [length]. ring.
Qed.
Lemma horner_rev c w : w <> 0 -> hornerQ (rev c) w * w = w ^ length c * hornerQ c (1 / w).
Proof.
  intros Hw. induction c as [|q c IH]; [unfold hornerQ; cbn; ring|]. cbn [rev length]. rewrite horner_snoc, horner_cons.
  replace ((hornerQ (rev c) w * w + Q2R q) * w) with (hornerQ (rev c) w * w * w + Q2R q * w) by ring. rewrite IH.
  unfold Rdiv. rewrite Rmult_1_l. cbn [pow]. rewrite pow_inv. pose proof (pow_nonzero w (length c) Hw). field. auto.
Qed.
Record chkb := { b_cen : Q; b_hw : Q; b_p : list Z; b_f : list Z; b_W : Z; b_g : Z; b_g2 : Z }.
Definition chk_b (U U2 : Z) (K K2 fuel k : nat) (e1 M1 e2 M2 e6 M6 s s2 : Z) (m : positive) (r : list Z) (an ad fn fd : list Q) (Yh : Q) (c : chkb) : bool :=
  let x := tvar U (b_cen c) (b_hw c) in
  let p := tpoly (b_g c) (b_p c) in
  let f := tpoly (b_g c) (b_f c) in
  let x2 := tvar U2 (b_cen c) (b_hw c) in
  let w := tmul U2 K2 x2 x2 in
  let n := Nat.max (length fn) (length fd) in
  tpos fuel p && tpos fuel f && tle fuel U p Yh &&
  tbetween fuel e1 M1 (tmul U K p p) (tmul U K (tpow U K x (2 * k + 1)) (tmul U K f f)) &&
  tbetween fuel e2 M2 (tmul U K p (tscale s (thorner U K an p))) (tmul U K (tev U K m (Zpos m :: r) x) (tscale s (thorner U K ad p))) &&
  tbetween fuel e6 M6 (tmul U2 K2 (tpoly (b_g2 c) (b_f c)) (tscale s2 (thorner U2 K2 (rev (padf n fd)) w))) (tscale s2 (thorner U2 K2 (rev (padf n fn)) w)) &&
  (0 <? b_W c)%Z && (U =? b_W c * b_g c)%Z && (U2 =? b_W c * b_g2 c)%Z && Qle_bool (1 # 1000) (b_hw c).
Lemma reg_b U U2 K K2 fuel fuel' k e1 M1 e2 M2 e4 M4 e6 M6 s s2 m r an ad fn fd Yh c kap X' x y :
  chk_b U U2 K K2 fuel k e1 M1 e2 M2 e6 M6 s s2 m r an ad fn fd Yh c = true -> (0 < U)%Z -> (0 < U2)%Z ->
  between fuel' e4 M4 (pder (Zpos m :: r)) (Zpos m :: r) 0 X' = true -> (0 < M4)%Z -> (0 < e4)%Z ->
  (0 < M1)%Z -> (0 < e1)%Z -> (101 * e1 <= M1)%Z -> (0 < M2)%Z -> (0 < e2)%Z -> (101 * e2 <= M2)%Z -> (0 < M6)%Z -> (0 < e6)%Z -> (101 * e6 <= M6)%Z ->
  grows an ad Yh kap -> signs s an ad Yh -> Q2R (b_cen c) - Q2R (b_hw c) <= x <= Q2R (b_cen c) + Q2R (b_hw c) -> 0 < x <= Q2R X' ->
  0 < y <= Q2R Yh -> exp x = W an ad y ->
  lnear (101 / 200 * (IZR e1 / IZR M1) + 101 / 100 * (IZR e6 / IZR M6) + kap * (101 / 100 * (IZR e2 / IZR M2) + IZR e4 / IZR M4 * x)) (hi_fun k fn fd x) y.
Proof.
  intros H HU HU2 HE M4p e4p M1p e1p E1 M2p e2p E2 M6p e6p E6 HG HS Rx HX Hy Ex.
  unfold chk_b in H. cbv zeta in H. do 9 (apply andb_true_iff in H; destruct H as [H ?H]).
  rename H into C0, H8 into C1, H7 into C2, H6 into C3, H5 into C4, H4 into C5, H3 into C6, H2 into C7, H1 into C8, H0 into C9.
  apply Z.ltb_lt in C6. apply Z.eqb_eq in C7. apply Z.eqb_eq in C8. apply Qle_R in C9.
  assert (W0 : 0 < Q2R (b_hw c)) by (unfold Q2R at 1 in C9; cbn [Qnum Qden] in C9; lra).
  destruct (to_unit _ _ x W0 Rx) as (t & Ht & Ext).
  pose proof (tvar_ok U t (b_cen c) (b_hw c) Ht) as Ax. rewrite <- Ext in Ax.
  pose proof (tvar_ok U2 t (b_cen c) (b_hw c) Ht) as Ax2. rewrite <- Ext in Ax2.
  pose proof (tpoly_ok U (b_W c) (b_g c) t (b_p c) C6 C7) as Ap. set (P := ev (b_p c) t / IZR (b_W c)) in *.
  pose proof (tpoly_ok U (b_W c) (b_g c) t (b_f c) C6 C7) as Af. pose proof (tpoly_ok U2 (b_W c) (b_g2 c) t (b_f c) C6 C8) as Af2.
  set (G := ev (b_f c) t / IZR (b_W c)) in *.
  pose proof (tmul_ok U2 K2 t _ _ _ _ HU2 Ht Ax2 Ax2) as Aw.
  set (l := Nat.max (length fn) (length fd)) in *.
  pose proof (thorner_ok U2 K2 t (rev (padf l fn)) _ _ HU2 Ht Aw) as AN. pose proof (thorner_ok U2 K2 t (rev (padf l fd)) _ _ HU2 Ht Aw) as AD.
  pose proof (tpos_ok _ _ _ _ _ HU Ht C0 Ap) as P0. pose proof (tpos_ok _ _ _ _ _ HU Ht C1 Af) as G0. pose proof (tle_ok _ _ _ _ _ _ HU Ht C2 Ap) as PY.
  pose proof (tev_ok U K t m (Zpos m :: r) _ _ HU Ht Ax) as AE.
  assert (L1 : lnear (101 / 100 * (IZR e1 / IZR M1)) (P * P) (x ^ (2 * k + 1) * (G * G))).
  { apply (tbetween_ok _ U _ _ t _ _ _ _ HU Ht M1p e1p E1 C3); auto using tmul_ok, tpow_ok. }
  assert (L2 : lnear (101 / 100 * (IZR e2 / IZR M2)) (P * (IZR s * hornerQ an P)) (ev (Zpos m :: r) x / IZR (Zpos m) * (IZR s * hornerQ ad P))).
  { apply (tbetween_ok _ U _ _ t _ _ _ _ HU Ht M2p e2p E2 C4); auto using tmul_ok, tscale_ok, thorner_ok. }
  assert (L6 : lnear (101 / 100 * (IZR e6 / IZR M6)) (G * (IZR s2 * hornerQ (rev (padf l fd)) (x * x))) (IZR s2 * hornerQ (rev (padf l fn)) (x * x))).
  { apply (tbetween_ok _ U2 _ _ t _ _ _ _ HU2 Ht M6p e6p E6 C5); auto using tmul_ok, tscale_ok. }
  clear Ax Ax2 Ap Af Af2 Aw AN AD AE C0 C1 C2 C3 C4 C5 Ht Ext. clearbody P G.
  set (n := hornerQ fn (1 / (x * x))). set (d := hornerQ fd (1 / (x * x))).
  assert (dn : d <> 0 /\ lnear (101 / 100 * (IZR e6 / IZR M6)) G (n / d)).
  { assert (xx : x * x <> 0) by (apply Rmult_integral_contrapositive; lra).
    pose proof (horner_rev (padf l fn) (x * x) xx) as Rn. pose proof (horner_rev (padf l fd) (x * x) xx) as Rd. rewrite horner_padf in Rn, Rd. fold n in Rn. fold d in Rd.
    assert (ll : length (padf l fn) = length (padf l fd)) by (unfold padf, l; rewrite !app_length, !repeat_length; lia). rewrite ll in Rn.
    pose proof (pow_nonzero (x * x) (length (padf l fd)) xx) as w0. set (w := (x * x) ^ length (padf l fd)) in *. clearbody w. clear ll.
    set (rn := hornerQ (rev (padf l fn)) (x * x)) in *. set (rd := hornerQ (rev (padf l fd)) (x * x)) in *. clearbody n d rn rd.
    assert (P1 := proj1 L6). assert (P2 := proj1 (proj2 L6)). assert (Sd : 0 < IZR s2 * rd) by (apply Rmult_lt_reg_l with G; lra).
    assert (r0 : rd <> 0) by (intros E; rewrite E in Sd; lra). assert (s0 : IZR s2 <> 0) by (intros E; rewrite E in Sd; lra).
    assert (d0 : d <> 0). { intros E. rewrite E, Rmult_0_r in Rd. apply Rmult_integral in Rd. destruct Rd; auto. }
    split; auto. replace (n / d) with ((IZR s2 * rn) / (IZR s2 * rd)).
    - replace G with (G / 1) by field. apply lnear_quot; auto; try lra. now rewrite Rmult_1_r.
    - apply Rmult_eq_reg_r with (rd * (x * x)); [|now apply Rmult_integral_contrapositive_currified]. 
      transitivity (rn * (x * x)); [field; auto|]. rewrite Rn, Rd. field; auto. }
  destruct dn as [d0 LG].
  destruct (exp_lnear fuel' e4 M4 (Zpos m :: r) (Zpos m) r X' x eq_refl M4p e4p HE ltac:(lra)) as (m0 & c0 & LE).
  assert (F0 : 0 < hi_fun k fn fd x) by (apply hi_fun_pos; [lra|apply LG]).
  assert (LP : lnear (101 / 200 * (IZR e1 / IZR M1) + 101 / 100 * (IZR e6 / IZR M6)) (hi_fun k fn fd x) P).
  { replace (101 / 200 * (IZR e1 / IZR M1) + 101 / 100 * (IZR e6 / IZR M6)) with ((INR 2 * (101 / 100 * (IZR e6 / IZR M6)) + 101 / 100 * (IZR e1 / IZR M1)) / INR 2)
      by (cbn; field; apply IZR_lt in M1p, M6p; lra).
    apply lnear_root; auto. rewrite hi_fun_sq by (auto; lra). fold n d. clearbody n d. pose proof (pow_lt x (2 * k + 1) ltac:(lra)) as xm.
    apply lnear_trans with (x ^ (2 * k + 1) * G ^ 2).
    - rewrite <- (Rplus_0_l (INR 2 * _)). apply lnear_mul; [now apply lnear_refl|]. apply lnear_pow. now apply lnear_sym.
    - apply lnear_sym. replace (P ^ 2) with (P * P) by ring. replace (G ^ 2) with (G * G) by ring. exact L1. }
  eapply lnear_trans; [exact LP|]. apply HG; auto. rewrite <- Ex. eapply lnear_trans; [|exact LE].
  destruct (HS P (conj P0 PY)) as [Sn Sd].
  assert (Ew : W an ad P = (P * (IZR s * hornerQ an P)) / (IZR s * hornerQ ad P)).
  { unfold W. assert (IZR s <> 0) by (intros E; rewrite E in Sd; lra). assert (hornerQ ad P <> 0) by (intros E; rewrite E in Sd; lra). field; auto. }
  rewrite Ew. assert (c1 : 0 < ev (Zpos m :: r) x / IZR (Zpos m)) by now apply Rdiv_lt_0_compat.
  replace (ev (Zpos m :: r) x / IZR (Zpos m)) with (ev (Zpos m :: r) x / IZR (Zpos m) / 1) at 1 by (field; lra).
  apply lnear_quot; auto using Rmult_lt_0_compat; try lra. now rewrite Rmult_1_r.
Qed.

(** ** From 4, below 2: the value is close to p(x), z to q(x), exp x to c(x) *)
Record chkc := { c_cen : Q; c_hw : Q; c_p : list Z; c_q : list Z; c_W : Z; c_g : Z }.
Definition chk_c (U : Z) (K fuel k : nat) (e1 M1 e2 M2 e5 M5 s : Z) (m : positive) (r : list Z) (bn bd fn fd : list Q) (Zh : Q) (c : chkc) : bool :=
  let x := tvar U (c_cen c) (c_hw c) in
  let p := tpoly (c_g c) (c_p c) in
  let q := tpoly (c_g c) (c_q c) in
  let E := tev U K m (Zpos m :: r) x in
  tpos fuel p && tpos fuel q && tle fuel U q Zh &&
  tbetween fuel e1 M1 (tmul U K p (thorner U K fd E)) (tmul U K E (thorner U K fn E)) &&
  tbetween fuel e5 M5 (tmul U K (tpow U K q (2 * k + 1)) (tmul U K p p)) (tconst U 1) &&
  tbetween fuel e2 M2 (tmul U K x (tmul U K q (tscale s (thorner U K bd q)))) (tscale s (thorner U K bn q)) &&
  (0 <? c_W c)%Z && (U =? c_W c * c_g c)%Z && Qle_bool (1 # 1000) (c_hw c).
(* tables with coefficients >= 0 *)
Lemma horner_lnear c d a b : forallb (fun q => Qle_bool 0 q) c = true -> intable_ok c = true -> lnear d a b -> 0 < hornerQ c a ->
  lnear (INR (length c) * d) (hornerQ c a) (hornerQ c b).
Proof.
  intros H I L P. pose proof (IZR_lt _ _ (common_pos c)) as C.
  assert (N : forallb (Z.leb 0) (intable c) = true).
  { apply forallb_forall. intros z Hz. unfold intable in Hz. apply in_rev in Hz. apply in_map_iff in Hz. destruct Hz as (q & <- & Hq).
    rewrite forallb_forall in H. specialize (H q Hq). apply Qle_bool_iff in H. unfold Qle in H. cbn in H. apply Z.leb_le.
    apply Z.mul_nonneg_nonneg; [lia|]. apply Z.div_pos; [apply Z.lt_le_incl, common_pos|lia]. }
  pose proof (ev_lnear (intable c) d a b N L) as K. rewrite !intable_ev in K by auto.
  assert (Len : length (intable c) = length c) by (unfold intable; rewrite rev_length, map_length; reflexivity). rewrite Len in K.
  specialize (K ltac:(now apply Rmult_lt_0_compat)). destruct K as (A & B & K). split; auto.
  assert (B' : 0 < hornerQ c b) by (apply Rmult_lt_reg_l with (IZR (common c)); auto; lra). split; auto.
  rewrite !ln_mult in K by auto. replace (ln (hornerQ c a) - ln (hornerQ c b)) with
    (ln (IZR (common c)) + ln (hornerQ c a) - (ln (IZR (common c)) + ln (hornerQ c b))) by ring. exact K.
Qed.
Lemma reg_c U K fuel fuel' k e1 M1 e2 M2 e4 M4 e5 M5 s m r bn bd fn fd Zh c kap x y z :
  chk_c U K fuel k e1 M1 e2 M2 e5 M5 s m r bn bd fn fd Zh c = true -> (0 < U)%Z ->
  between fuel' e4 M4 (pder (Zpos m :: r)) (Zpos m :: r) 0 2 = true -> (0 < M4)%Z -> (0 < e4)%Z ->
  (0 < M1)%Z -> (0 < e1)%Z -> (101 * e1 <= M1)%Z -> (0 < M2)%Z -> (0 < e2)%Z -> (101 * e2 <= M2)%Z -> (0 < M5)%Z -> (0 < e5)%Z -> (101 * e5 <= M5)%Z ->
  forallb (fun q => Qle_bool 0 q) fn = true -> forallb (fun q => Qle_bool 0 q) fd = true -> intable_ok fn = true -> intable_ok fd = true ->
  grows bd bn Zh kap -> Q2R (c_cen c) - Q2R (c_hw c) <= x <= Q2R (c_cen c) + Q2R (c_hw c) -> 0 < x <= 2 ->
  0 < y -> 0 < z <= Q2R Zh -> y ^ 2 * z ^ (2 * k + 1) = 1 -> / x = W bd bn z -> 0 < hornerQ fn (exp x) -> 0 < hornerQ fd (exp x) ->
  lnear ((1 + INR (length fn) + INR (length fd)) * (IZR e4 / IZR M4 * x) + 101 / 100 * (IZR e1 / IZR M1) + 101 / 200 * (IZR e5 / IZR M5) +
    INR (2 * k + 1) / 2 * (kap * (101 / 100 * (IZR e2 / IZR M2)))) (exp x * hornerQ fn (exp x) / hornerQ fd (exp x)) y.
Proof.
  intros H HU HE M4p e4p M1p e1p E1 M2p e2p E2 M5p e5p E5 Nn Dn In Id HG Rx Hx Hy Hz Ey Ex Nv Dv.
  unfold chk_c in H. cbv zeta in H. do 8 (apply andb_true_iff in H; destruct H as [H ?H]).
  rename H into C0, H7 into C1, H6 into C2, H5 into C3, H4 into C4, H3 into C5, H2 into C6, H1 into C7, H0 into C8.
  apply Z.ltb_lt in C6. apply Z.eqb_eq in C7. apply Qle_R in C8.
  assert (W0 : 0 < Q2R (c_hw c)) by (unfold Q2R at 1 in C8; cbn [Qnum Qden] in C8; lra).
  destruct (to_unit _ _ x W0 Rx) as (t & Ht & Ext).
  pose proof (tvar_ok U t (c_cen c) (c_hw c) Ht) as Ax. rewrite <- Ext in Ax.
  pose proof (tpoly_ok U (c_W c) (c_g c) t (c_p c) C6 C7) as Ap. set (P := ev (c_p c) t / IZR (c_W c)) in *.
  pose proof (tpoly_ok U (c_W c) (c_g c) t (c_q c) C6 C7) as Aq. set (Q1 := ev (c_q c) t / IZR (c_W c)) in *.
  pose proof (tev_ok U K t m (Zpos m :: r) _ _ HU Ht Ax) as AE. set (E := ev (Zpos m :: r) x / IZR (Zpos m)) in *.
  pose proof (tpos_ok _ _ _ _ _ HU Ht C0 Ap) as P0. pose proof (tpos_ok _ _ _ _ _ HU Ht C1 Aq) as Q0. pose proof (tle_ok _ _ _ _ _ _ HU Ht C2 Aq) as QZ.
  assert (B1 : lnear (101 / 100 * (IZR e1 / IZR M1)) (P * hornerQ fd E) (E * hornerQ fn E)).
  { apply (tbetween_ok _ U _ _ t _ _ _ _ HU Ht M1p e1p E1 C3); auto using tmul_ok, thorner_ok. }
  assert (B5 : lnear (101 / 100 * (IZR e5 / IZR M5)) (Q1 ^ (2 * k + 1) * (P * P)) (Q2R 1)).
  { apply (tbetween_ok _ U _ _ t _ _ _ _ HU Ht M5p e5p E5 C4); auto using tmul_ok, tpow_ok, tconst_ok. }
  assert (B2 : lnear (101 / 100 * (IZR e2 / IZR M2)) (x * (Q1 * (IZR s * hornerQ bd Q1))) (IZR s * hornerQ bn Q1)).
  { apply (tbetween_ok _ U _ _ t _ _ _ _ HU Ht M2p e2p E2 C5); auto using tmul_ok, tscale_ok, thorner_ok. }
  clear Ax Ap Aq AE C0 C1 C2 C3 C4 C5 Ht Ext. clearbody P Q1.
  destruct (exp_lnear fuel' e4 M4 (Zpos m :: r) (Zpos m) r 2 x eq_refl M4p e4p HE) as (m0 & c0 & LE).
  { unfold Q2R. cbn [Qnum Qden]. lra. }
  fold E in LE. set (d4 := IZR e4 / IZR M4 * x) in *. apply lnear_sym in LE.
  set (m' := (2 * k + 1)%nat) in *. assert (m0' : (0 < m')%nat) by (unfold m'; lia). clearbody m'.
  pose proof (horner_lnear fn _ _ _ Nn In LE Nv) as LN. pose proof (horner_lnear fd _ _ _ Dn Id LE Dv) as LD.
  assert (L1 : lnear ((1 + INR (length fn) + INR (length fd)) * d4) (exp x * hornerQ fn (exp x) / hornerQ fd (exp x)) (E * hornerQ fn E / hornerQ fd E)).
  { replace ((1 + INR (length fn) + INR (length fd)) * d4) with (d4 + INR (length fn) * d4 + INR (length fd) * d4) by ring.
    apply lnear_div; [apply lnear_mul|]; auto. }
  assert (L2 : lnear (101 / 100 * (IZR e1 / IZR M1)) (E * hornerQ fn E / hornerQ fd E) P).
  { destruct LN as (_ & Ne & _). destruct LD as (_ & De & _). destruct LE as (_ & E0 & _). apply lnear_sym.
    replace P with (P / 1) by field. apply lnear_quot; auto using Rmult_lt_0_compat; try lra. now rewrite Rmult_1_r. }
  assert (L3 : lnear (kap * (101 / 100 * (IZR e2 / IZR M2))) Q1 z).
  { apply HG; auto. rewrite <- Ex. destruct B2 as (S1 & S2 & B2).
    assert (S3 : 0 < Q1 * (IZR s * hornerQ bd Q1)) by (apply Rmult_lt_reg_l with x; lra).
    assert (Ew : W bd bn Q1 = (Q1 * (IZR s * hornerQ bd Q1)) / (IZR s * hornerQ bn Q1)).
    { unfold W. assert (IZR s <> 0) by (intros Z; rewrite Z in S2; lra). assert (hornerQ bn Q1 <> 0) by (intros Z; rewrite Z in S2; lra). field; auto. }
    rewrite Ew. replace (/ x) with (1 / x) by (field; lra). apply lnear_quot; auto; try lra.
    rewrite Rmult_1_l, (Rmult_comm _ x). repeat split; auto. }
  assert (L4 : lnear (101 / 100 * (IZR e5 / IZR M5) + INR m' * (kap * (101 / 100 * (IZR e2 / IZR M2)))) (P ^ 2) (y ^ 2)).
  { assert (zm : 0 < z ^ m') by (apply pow_lt; lra). assert (qm : 0 < Q1 ^ m') by (apply pow_lt; lra).
    assert (EY : y ^ 2 = / z ^ m') by (apply Rmult_eq_reg_r with (z ^ m'); [rewrite Ey; field|]; lra). rewrite EY.
    apply lnear_trans with (/ Q1 ^ m'); [|apply lnear_inv; now apply lnear_pow].
    replace (P ^ 2) with (P * P / 1) by field. replace (/ Q1 ^ m') with (1 / Q1 ^ m') by (field; lra).
    apply lnear_quot; auto using Rmult_lt_0_compat; try lra. rewrite (Rmult_comm (P * P)).
    replace (1 * 1) with (Q2R 1) by (unfold Q2R; cbn; field). exact B5. }
  apply lnear_root in L4; auto. pose proof (lnear_trans _ _ _ _ _ (lnear_trans _ _ _ _ _ L1 L2) L4) as KK.
  eapply lnear_weak; [exact KK|]. cbn [INR]. right. field.
  repeat split; apply not_eq_sym, Rlt_not_eq; apply IZR_lt; auto.
Qed.

(** ** Bounds of W, and the regions put together *)
Definition wlt (fuel : nat) (s : Z) (an ad : list Q) (a b q : Q) : bool :=
  wpos_on fuel (padd (pscale (Qnum q) (qd s an ad)) (pscale (- Zpos (Qden q)) (0%Z :: qn s an ad))) a b.
Definition wgt (fuel : nat) (s : Z) (an ad : list Q) (a b q : Q) : bool :=
  wpos_on fuel (padd (pscale (- Qnum q) (qd s an ad)) (pscale (Zpos (Qden q)) (0%Z :: qn s an ad))) a b.
Lemma W_signed s an ad t : 0 < IZR s * hornerQ ad t -> W an ad t = t * (IZR s * hornerQ an t) / (IZR s * hornerQ ad t).
Proof.
  intros H. unfold W. assert (IZR s <> 0) by (intros E; rewrite E in H; lra). assert (hornerQ ad t <> 0) by (intros E; rewrite E in H; lra). field; auto.
Qed.
Lemma wlt_ok fuel s an ad a b q t : wlt fuel s an ad a b q = true -> intable_ok an = true -> intable_ok ad = true -> Q2R a <= t <= Q2R b ->
  0 < IZR s * hornerQ ad t -> W an ad t < Q2R q.
Proof.
  intros H I1 I2 Ht P. rewrite (W_signed s) by auto. apply (wpos_on_ok _ _ _ _ t) in H; auto. rewrite ev_padd, !ev_pscale in H. cbn [ev] in H.
  rewrite ev_qn, ev_qd in H by auto. pose proof (IZR_lt _ _ (clcm_pos an ad)) as C. set (k := IZR (clcm an ad)) in *.
  set (n := IZR s * hornerQ an t) in *. set (d := IZR s * hornerQ ad t) in *. clearbody n d k.
  unfold Q2R. rewrite opp_IZR in H. assert (D : 0 < IZR (Zpos (Qden q))) by (apply IZR_lt; lia).
  assert (K0 : 0 < k * (IZR (Qnum q) * d - IZR (Zpos (Qden q)) * (t * n))) by lra.
  apply Rmult_lt_reg_r with (d * IZR (Zpos (Qden q))); [now apply Rmult_lt_0_compat|].
  replace (t * n / d * (d * IZR (Zpos (Qden q)))) with (IZR (Zpos (Qden q)) * (t * n)) by (field; lra).
  replace (IZR (Qnum q) * / IZR (Zpos (Qden q)) * (d * IZR (Zpos (Qden q)))) with (IZR (Qnum q) * d) by (field; lra).
  assert (0 < IZR (Qnum q) * d - IZR (Zpos (Qden q)) * (t * n)); [|lra]. apply Rmult_lt_reg_l with k; lra.
Qed.
Lemma wgt_ok fuel s an ad a b q t : wgt fuel s an ad a b q = true -> intable_ok an = true -> intable_ok ad = true -> Q2R a <= t <= Q2R b ->
  0 < IZR s * hornerQ ad t -> Q2R q < W an ad t.
Proof.
  intros H I1 I2 Ht P. rewrite (W_signed s) by auto. apply (wpos_on_ok _ _ _ _ t) in H; auto. rewrite ev_padd, !ev_pscale in H. cbn [ev] in H.
  rewrite ev_qn, ev_qd in H by auto. pose proof (IZR_lt _ _ (clcm_pos an ad)) as C. set (k := IZR (clcm an ad)) in *.
  set (n := IZR s * hornerQ an t) in *. set (d := IZR s * hornerQ ad t) in *. clearbody n d k.
  unfold Q2R. rewrite opp_IZR in H. assert (D : 0 < IZR (Zpos (Qden q))) by (apply IZR_lt; lia).
  assert (K0 : 0 < k * (IZR (Zpos (Qden q)) * (t * n) - IZR (Qnum q) * d)) by lra.
  apply Rmult_lt_reg_r with (d * IZR (Zpos (Qden q))); [now apply Rmult_lt_0_compat|].
  replace (t * n / d * (d * IZR (Zpos (Qden q)))) with (IZR (Zpos (Qden q)) * (t * n)) by (field; lra).
  replace (IZR (Qnum q) * / IZR (Zpos (Qden q)) * (d * IZR (Zpos (Qden q)))) with (IZR (Qnum q) * d) by (field; lra).
  assert (0 < IZR (Zpos (Qden q)) * (t * n) - IZR (Qnum q) * d); [|lra]. apply Rmult_lt_reg_l with k; lra.
Qed.
Lemma W_pos s an ad T t : signs s an ad T -> 0 < t <= Q2R T -> 0 < W an ad t.
Proof. intros S Ht. destruct (S t Ht) as [A B]. rewrite (W_signed s) by auto. apply Rdiv_lt_0_compat; auto. apply Rmult_lt_0_compat; lra. Qed.
Lemma W_inv bn bd z : 0 < W bd bn z -> 0 < z -> hornerQ bn z / (z * hornerQ bd z) = / W bd bn z.
Proof.
  intros H Hz. unfold W in *. assert (hornerQ bd z <> 0) by (intros E; rewrite E in H; unfold Rdiv in H; rewrite Rmult_0_r, Rmult_0_l in H; lra).
  destruct (Req_dec (hornerQ bn z) 0) as [E|E]; [|field; repeat split; lra].
  exfalso. rewrite E in H. unfold Rdiv in H. rewrite Rinv_0, Rmult_0_r in H. lra.
Qed.

(* below 4 and 2 *)
Definition chk_aQ (fuel : nat) (e M s : Z) (an ad fn fd : list Q) (Y : Q) : bool :=
  let n := Nat.max (length an) (length ad) in let l := Nat.max (length fn) (length fd) in
  chk_a fuel e M (pad n (qn s an ad)) (pad n (qd s an ad)) (pad l (qn 1 fn fd)) (pad l (qd 1 fn fd)) Y.
Lemma qn_length s an ad : length (qn s an ad) = length an.
Proof. unfold qn, pscale, intable. now rewrite map_length, rev_length, map_length. Qed.
Lemma qd_length s an ad : length (qd s an ad) = length ad.
Proof. unfold qd, pscale, intable. now rewrite map_length, rev_length, map_length. Qed.
Lemma reg_aQ fuel e M s an ad fn fd Y T y : chk_aQ fuel e M s an ad fn fd Y = true -> (0 < M)%Z -> (0 < e)%Z -> (101 * e <= M)%Z ->
  intable_ok an = true -> intable_ok ad = true -> intable_ok fn = true -> intable_ok fd = true -> signs s an ad T -> 0 < y <= Q2R Y -> y <= Q2R T ->
  (forall z, 0 < z -> 0 < hornerQ fn z) -> (forall z, 0 < z -> 0 < hornerQ fd z) ->
  lnear (101 / 100 * (IZR e / IZR M)) (lo_fun fn fd (ln (W an ad y))) y.
Proof.
  intros H HM He HE I1 I2 I3 I4 S Hy HT N D. unfold chk_aQ in H. cbv zeta in H. destruct (S y ltac:(lra)) as [Sa Sd].
  assert (W0 : 0 < W an ad y) by (apply (W_pos s an ad T); auto; lra).
  pose proof (IZR_lt _ _ (clcm_pos an ad)) as C. pose proof (IZR_lt _ _ (clcm_pos fn fd)) as C'.
  pose proof (reg_a _ _ _ _ _ _ _ _ y H HM He HE) as R. cbv zeta in R. unfold wfun in R. rewrite !ev_pad in R.
  assert (Ew : y * ev (qn s an ad) y / ev (qd s an ad) y = W an ad y) by (apply (W_wfun s); auto; lra).
  rewrite Ew in R. rewrite !ev_qn, !ev_qd in R by auto.
  unfold lo_fun. rewrite exp_ln by auto. set (v := W an ad y) in *. clearbody v.
  specialize (N v W0). specialize (D v W0).
  replace (v * hornerQ fn v / hornerQ fd v) with (v * (IZR (clcm fn fd) * (1 * hornerQ fn v)) / (IZR (clcm fn fd) * (1 * hornerQ fd v))) by (field; lra).
  apply R; auto; try (apply Rmult_lt_0_compat; lra).
  rewrite !pad_length; auto; rewrite ?qn_length, ?qd_length; lia.
Qed.
Lemma z_facts k (Zc : Q) y : 4 <= y -> 0 < Q2R Zc -> 1 / 16 <= Q2R Zc ^ (2 * k + 1) ->
  let z := Rpower y (- 2 / INR (2 * k + 1)) in 0 < z <= Q2R Zc /\ y ^ 2 * z ^ (2 * k + 1) = 1.
Proof.
  intros Hy H0 HZ z. assert (z0 : 0 < z) by apply exp_pos. set (m := (2 * k + 1)%nat) in *. assert (Hm : (0 < m)%nat) by (unfold m; lia).
  assert (E : y ^ 2 * z ^ m = 1).
  { rewrite <- (Rpower_pow m z) by auto. unfold z. rewrite Rpower_mult, <- Rpower_pow, <- Rpower_plus by lra.
    replace (INR 2 + - 2 / INR m * INR m) with 0 by (cbn [INR]; field; apply not_0_INR; lia). apply Rpower_O. lra. }
  split; [split; [exact z0|]|exact E]. destruct (Rle_lt_dec z (Q2R Zc)) as [L|L]; auto. exfalso.
  assert (P : Q2R Zc ^ m < z ^ m).
  { clear - H0 L Hm. clearbody z m. induction m as [|n IH]; [lia|]. cbn [pow]. destruct n as [|n]; [cbn [pow]; lra|].
    pose proof (pow_lt (Q2R Zc) (S n) H0). apply Rmult_le_0_lt_compat; auto using Rlt_le. apply IH. lia. }
  assert (16 <= y ^ 2) by nra. assert (16 * z ^ m <= y ^ 2 * z ^ m) by (apply Rmult_le_compat_r; lra). lra.
Qed.
Lemma round_trip k an ad bn bd fan fad fbn fbd (Zc : Q) d : 0 < Q2R Zc -> 1 / 16 <= Q2R Zc ^ (2 * k + 1) ->
  (forall y, 0 < y < 4 -> 0 < W an ad y) -> (forall z, 0 < z <= Q2R Zc -> 0 < W bd bn z) ->
  (forall y, 0 < y < 4 -> W an ad y < exp 2 -> lnear d (lo_fun fan fad (ln (W an ad y))) y) ->
  (forall y, 0 < y < 4 -> exp 2 <= W an ad y -> lnear d (hi_fun k fbn fbd (ln (W an ad y))) y) ->
  (forall y z, 4 <= y -> 0 < z <= Q2R Zc -> y ^ 2 * z ^ (2 * k + 1) = 1 -> / W bd bn z < 2 -> lnear d (lo_fun fan fad (/ W bd bn z)) y) ->
  (forall y z, 4 <= y -> 0 < z <= Q2R Zc -> y ^ 2 * z ^ (2 * k + 1) = 1 -> 2 <= / W bd bn z -> lnear d (hi_fun k fbn fbd (/ W bd bn z)) y) ->
  forall y, 0 < y -> lnear d (fd_fun k fan fad fbn fbd (ifd_fun (2 * k + 1) an ad bn bd y)) y.
Proof.
  intros Z0 ZC Wa Wb A B C D y Hy. unfold ifd_fun. destruct (Rlt_dec y 4) as [L|L].
  - unfold ilo. fold (W an ad y). pose proof (Wa y ltac:(lra)) as w0. unfold fd_fun. destruct (Rlt_dec (ln (W an ad y)) 2) as [X|X].
    + apply A; [lra|]. apply exp_increasing in X. now rewrite exp_ln in X by auto.
    + apply B; [lra|]. apply Rnot_lt_le in X. destruct X as [X|X]; [apply exp_increasing in X; rewrite exp_ln in X by auto; lra|].
      rewrite X, exp_ln by auto. lra.
  - unfold ihi. cbv zeta. destruct (z_facts k Zc y ltac:(lra) Z0 ZC) as [Hz Ey]. set (z := Rpower y (- 2 / INR (2 * k + 1))) in *. clearbody z.
    rewrite (W_inv bn bd z) by (auto; lra). unfold fd_fun. destruct (Rlt_dec (/ W bd bn z) 2) as [X|X]; [apply C|apply D]; auto; lra.
Qed.

(** ** The two kinds of orders *)
Definition tabs4 (an ad bn bd : list Q) : bool := intable_ok an && intable_ok ad && intable_ok bn && intable_ok bd.
Lemma tabs4_ok an ad bn bd : tabs4 an ad bn bd = true -> intable_ok an = true /\ intable_ok ad = true /\ intable_ok bn = true /\ intable_ok bd = true.
Proof. unfold tabs4. intros H. repeat (apply andb_true_iff in H; destruct H as [H ?]). auto. Qed.
Definition halves (lo hi : chkd) (T : Q) : bool :=
  Qle_bool (d_cen lo - d_hw lo) 0 && Qle_bool (d_cen hi - d_hw hi) (d_cen lo + d_hw lo) && Qle_bool T (d_cen hi + d_hw hi).
Lemma halves_ok lo hi T t : halves lo hi T = true -> 0 < t <= Q2R T ->
  Q2R (d_cen lo) - Q2R (d_hw lo) <= t <= Q2R (d_cen lo) + Q2R (d_hw lo) \/ Q2R (d_cen hi) - Q2R (d_hw hi) <= t <= Q2R (d_cen hi) + Q2R (d_hw hi).
Proof.
  unfold halves. intros H Ht. apply andb_true_iff in H. destruct H as [H H3]. apply andb_true_iff in H. destruct H as [H1 H2].
  apply Qle_R in H1. apply Qle_R in H2. apply Qle_R in H3. rewrite ?Q2R_minus, ?Q2R_plus in *.
  assert (Z0 : Q2R 0 = 0) by (unfold Q2R; cbn; lra). rewrite Z0 in H1.
  destruct (Rle_lt_dec t (Q2R (d_cen lo) + Q2R (d_hw lo))); [left|right]; lra.
Qed.
(* two halves of 1 / x, from 4 and 2 *)
Lemma both_halves U U2 K1 K2 K fuel k e5 s s2 bn bd fn fd Zh Zc T lo hi kn d :
  chk_d U U2 K1 K fuel k 3 (10 ^ 10) e5 (10 ^ 9) 2 (10 ^ 10) s s2 bn bd fn fd Zh lo = true ->
  chk_d U U2 K2 K fuel k 3 (10 ^ 10) e5 (10 ^ 9) 2 (10 ^ 10) s s2 bn bd fn fd Zh hi = true ->
  (0 < U)%Z -> (0 < U2)%Z -> (0 < e5)%Z -> (101 * e5 <= 10 ^ 9)%Z -> halves lo hi T = true ->
  grows bd bn Zh (IZR 10 / IZR kn) -> Q2R Zc <= Q2R Zh -> (forall z, 0 < z <= Q2R Zc -> 0 < W bd bn z) ->
  101 / 200 * (IZR e5 / IZR (10 ^ 9)) + 101 / 100 * (IZR 2 / IZR (10 ^ 10)) + INR (2 * k + 1) / 2 * (IZR 10 / IZR kn * (101 / 100 * (IZR 3 / IZR (10 ^ 10)))) <= d ->
  forall y z, 4 <= y -> 0 < z <= Q2R Zc -> y ^ 2 * z ^ (2 * k + 1) = 1 -> W bd bn z <= Q2R T -> lnear d (hi_fun k fn fd (/ W bd bn z)) y.
Proof.
  intros C1 C2 HU HU2 e5p E5 HH HG HZ Wp Hd y z Hy Hz Ey Ht. pose proof (Wp z Hz) as w0.
  eapply lnear_weak; [|exact Hd].
  destruct (halves_ok _ _ _ _ HH (conj w0 Ht)) as [R|R]; [eapply (reg_d _ _ _ _ _ _ _ _ _ _ _ _ _ _ _ _ _ _ _ _ _ _ _ _ C1)|eapply (reg_d _ _ _ _ _ _ _ _ _ _ _ _ _ _ _ _ _ _ _ _ _ _ _ _ C2)];
    eauto; try lia; lra.
Qed.
Lemma mono_swap fuel e N s bn bd T : mono fuel e N (qd s bn bd) (qn s bn bd) T = true -> (0 < e)%Z -> (0 < N)%Z ->
  intable_ok bn = true -> intable_ok bd = true -> signs s bd bn T /\ grows bd bn T (IZR N / IZR e).
Proof.
  intros H He HN I1 I2. apply (mono_tables fuel e N s bd bn T); auto. unfold qn, qd, clcm in *. now rewrite (Z.lcm_comm (common bd)).
Qed.
Definition within (cen hw a b : Q) : bool := Qle_bool (cen - hw) a && Qle_bool b (cen + hw).
Lemma within_ok cen hw a b x : within cen hw a b = true -> Q2R a <= x <= Q2R b -> Q2R cen - Q2R hw <= x <= Q2R cen + Q2R hw.
Proof.
  unfold within. intros H Hx. apply andb_true_iff in H. destruct H as [H1 H2]. apply Qle_R in H1. apply Qle_R in H2. rewrite Q2R_minus in H1. rewrite Q2R_plus in H2. lra.
Qed.
(* orders -1/2 and 1/2 *)
Lemma type1 k an ad bn bd fan fad fbn fbd sa sb s2 ts ea eb e5 kn Y Yh V X Zc Zh T U U2 K1 K2 K Ub Kb m r cb lo hi d :
  tables_ok ts fan fad fbn fbd = true -> tabs4 an ad bn bd = true ->
  mono 10 9 10 (qn sa an ad) (qd sa an ad) Yh = true -> mono 10 kn 10 (qd sb bn bd) (qn sb bn bd) Zh = true ->
  chk_aQ 12 ea (10 ^ 9) sa an ad fan fad Y = true -> wgt 10 sa an ad Y 4 (74 # 10) = true -> wlt 10 sa an ad 0 4 V = true ->
  chk_b Ub U2 Kb K 8 k eb (10 ^ 9) 1 (10 ^ 10) 1 (10 ^ 10) sa s2 m r an ad fbn fbd Yh cb = true ->
  between 8 1 (10 ^ 10) (pder (Zpos m :: r)) (Zpos m :: r) 0 (17 # 4) = true -> within (b_cen cb) (b_hw cb) 2 X = true ->
  wlt 10 sb bd bn 0 Zc T = true ->
  chk_d U U2 K1 K 8 k 3 (10 ^ 10) e5 (10 ^ 9) 2 (10 ^ 10) sb s2 bn bd fbn fbd Zh lo = true ->
  chk_d U U2 K2 K 8 k 3 (10 ^ 10) e5 (10 ^ 9) 2 (10 ^ 10) sb s2 bn bd fbn fbd Zh hi = true -> halves lo hi T = true ->
  Q2R V <= exp (Q2R X) -> Q2R X <= 17 / 4 -> Q2R T <= 1 / 2 ->
  (0 < U)%Z -> (0 < U2)%Z -> (0 < Ub)%Z -> (0 < ea)%Z -> (101 * ea <= 10 ^ 9)%Z -> (0 < eb)%Z -> (101 * eb <= 10 ^ 9)%Z -> (0 < e5)%Z -> (101 * e5 <= 10 ^ 9)%Z -> (0 < kn)%Z ->
  4 <= Q2R Yh -> Q2R Y <= 4 -> 0 < Q2R Zc <= Q2R Zh -> 1 / 16 <= Q2R Zc ^ (2 * k + 1) ->
  101 / 100 * (IZR ea / IZR (10 ^ 9)) <= d ->
  101 / 200 * (IZR eb / IZR (10 ^ 9)) + 101 / 100 * (IZR 1 / IZR (10 ^ 10)) + IZR 10 / IZR 9 * (101 / 100 * (IZR 1 / IZR (10 ^ 10)) + IZR 1 / IZR (10 ^ 10) * (17 / 4)) <= d ->
  101 / 200 * (IZR e5 / IZR (10 ^ 9)) + 101 / 100 * (IZR 2 / IZR (10 ^ 10)) + INR (2 * k + 1) / 2 * (IZR 10 / IZR kn * (101 / 100 * (IZR 3 / IZR (10 ^ 10)))) <= d ->
  forall y, 0 < y -> lnear d (fd_fun k fan fad fbn fbd (ifd_fun (2 * k + 1) an ad bn bd y)) y.
Proof.
  intros TF TI Ma Mb Ca Cg Cv Cb Ce Cx Ct Cl Ch HH HV HX T2 HU HU2 HUb eap EA ebp EB e5p E5 knp HYh HY HZ HZc Da Db Dd.
  destruct (tables_facts _ _ _ _ _ TF) as (_ & _ & _ & _ & A1 & A2 & _ & _ & I1 & I2 & _ & _).
  destruct (tabs4_ok _ _ _ _ TI) as (J1 & J2 & J3 & J4).
  destruct (mono_tables _ _ _ _ _ _ _ Ma ltac:(lia) ltac:(lia) J1 J2) as [Sa Ga].
  destruct (mono_swap _ _ _ _ _ _ _ Mb knp ltac:(lia) J3 J4) as [Sb Gb].
  assert (Q0 : Q2R 0 = 0) by (unfold Q2R; cbn; lra). assert (Q4 : Q2R 4 = 4) by (unfold Q2R; cbn; lra). assert (Q2 : Q2R 2 = 2) by (unfold Q2R; cbn; lra).
  assert (QX : Q2R (17 # 4) = 17 / 4) by (unfold Q2R; cbn; lra).
  assert (E2 : exp 2 <= Q2R (74 # 10)) by (pose proof exp2_range; unfold Q2R; cbn [Qnum Qden]; lra).
  assert (Wb : forall z, 0 < z <= Q2R Zc -> 0 < W bd bn z /\ W bd bn z < Q2R T).
  { intros z Hz. split; [apply (W_pos sb bd bn Zh); auto; lra|]. apply (wlt_ok _ sb bd bn 0 Zc _ _ Ct); auto; [lra|]. apply Sb. lra. }
  apply (round_trip k an ad bn bd fan fad fbn fbd Zc d); auto; try lra.
  - intros y Hy. apply (W_pos sa an ad Yh); auto. lra.
  - intros z Hz. now apply Wb.
  - intros y Hy Hw. eapply lnear_weak; [|exact Da]. apply (reg_aQ 12 ea (10 ^ 9) sa an ad fan fad Y Yh); auto; try lia; try lra. split; [lra|].
    destruct (Rle_lt_dec y (Q2R Y)) as [L|L]; auto. exfalso. pose proof (wgt_ok _ _ _ _ _ _ _ y Cg J1 J2 ltac:(lra) ltac:(apply Sa; lra)). lra.
  - intros y Hy Hw. set (x := ln (W an ad y)). assert (w0 : 0 < W an ad y) by (apply (W_pos sa an ad Yh); auto; lra).
    pose proof (wlt_ok _ _ _ _ _ _ _ y Cv J1 J2 ltac:(lra) ltac:(apply Sa; lra)) as Hv.
    assert (Ex : exp x = W an ad y) by (unfold x; now apply exp_ln).
    assert (x2 : 2 <= x). { destruct (Rle_lt_dec 2 x) as [G|G]; auto. exfalso. pose proof (exp_increasing x 2 G). lra. }
    assert (xX : x <= Q2R X). { destruct (Rle_lt_dec x (Q2R X)) as [G|G]; auto. exfalso. pose proof (exp_increasing (Q2R X) x G). lra. }
    clearbody x. pose proof (within_ok _ _ _ _ x Cx ltac:(lra)) as Rx.
    eapply lnear_weak; [apply (reg_b Ub U2 Kb K 8 8 k eb (10 ^ 9) 1 (10 ^ 10) 1 (10 ^ 10) 1 (10 ^ 10) sa s2 m r an ad fbn fbd Yh cb (IZR 10 / IZR 9) (17 # 4) x y); auto; try lia; lra|].
    eapply Rle_trans; [|exact Db]. apply Rplus_le_compat_l. apply Rmult_le_compat_l; [lra|]. apply Rplus_le_compat_l. apply Rmult_le_compat_l; [|lra].
    apply Rlt_le, Rdiv_lt_0_compat; apply IZR_lt; reflexivity.
  - intros y z Hy Hz Ey Hw. exfalso. destruct (Wb z Hz) as [w0 w1]. apply (Rmult_lt_compat_l (W bd bn z)) in Hw; auto. rewrite Rinv_r in Hw by lra. lra.
  - intros y z Hy Hz Ey Hw. apply (both_halves U U2 K1 K2 K 8 k e5 sb s2 bn bd fbn fbd Zh Zc T lo hi kn d); auto; try lra.
    + intros z' Hz'. now apply Wb.
    + apply Rlt_le. now apply Wb.
Qed.
(* orders 3/2 and 5/2 *)
Lemma type2 k an ad bn bd fan fad fbn fbd sa sb s2 ts ea e1 e2 e5c e5 kn X0 Zc Zh U U2 K1 K2 K Kc m r cc lo hi d :
  tables_ok ts fan fad fbn fbd = true -> tabs4 an ad bn bd = true ->
  mono 10 1 10 (qn sa an ad) (qd sa an ad) 4 = true -> mono 10 kn 10 (qd sb bn bd) (qn sb bn bd) Zh = true ->
  chk_aQ 12 ea (10 ^ 9) sa an ad fan fad 4 = true -> wlt 10 sa an ad 0 4 7 = true ->
  chk_c U Kc 8 k e1 (10 ^ 9) e2 (10 ^ 10) e5c (10 ^ 9) sb m r bn bd fan fad Zh cc = true ->
  between 8 1 (10 ^ 11) (pder (Zpos m :: r)) (Zpos m :: r) 0 2 = true -> within (c_cen cc) (c_hw cc) X0 2 = true ->
  wlt 10 sb bd bn 0 Zc (/ X0) = true ->
  forallb (fun q => Qle_bool 0 q) fan = true -> forallb (fun q => Qle_bool 0 q) fad = true ->
  chk_d U U2 K1 K 8 k 3 (10 ^ 10) e5 (10 ^ 9) 2 (10 ^ 10) sb s2 bn bd fbn fbd Zh lo = true ->
  chk_d U U2 K2 K 8 k 3 (10 ^ 10) e5 (10 ^ 9) 2 (10 ^ 10) sb s2 bn bd fbn fbd Zh hi = true -> halves lo hi (1 # 2) = true ->
  (0 < X0)%Q ->
  (0 < U)%Z -> (0 < U2)%Z -> (0 < ea)%Z -> (101 * ea <= 10 ^ 9)%Z -> (0 < e1)%Z -> (101 * e1 <= 10 ^ 9)%Z -> (0 < e2)%Z -> (101 * e2 <= 10 ^ 10)%Z ->
  (0 < e5c)%Z -> (101 * e5c <= 10 ^ 9)%Z -> (0 < e5)%Z -> (101 * e5 <= 10 ^ 9)%Z -> (0 < kn)%Z ->
  0 < Q2R Zc <= Q2R Zh -> 1 / 16 <= Q2R Zc ^ (2 * k + 1) ->
  101 / 100 * (IZR ea / IZR (10 ^ 9)) <= d ->
  (1 + INR (length fan) + INR (length fad)) * (IZR 1 / IZR (10 ^ 11) * 2) + 101 / 100 * (IZR e1 / IZR (10 ^ 9)) + 101 / 200 * (IZR e5c / IZR (10 ^ 9)) +
    INR (2 * k + 1) / 2 * (IZR 10 / IZR kn * (101 / 100 * (IZR e2 / IZR (10 ^ 10)))) <= d ->
  101 / 200 * (IZR e5 / IZR (10 ^ 9)) + 101 / 100 * (IZR 2 / IZR (10 ^ 10)) + INR (2 * k + 1) / 2 * (IZR 10 / IZR kn * (101 / 100 * (IZR 3 / IZR (10 ^ 10)))) <= d ->
  forall y, 0 < y -> lnear d (fd_fun k fan fad fbn fbd (ifd_fun (2 * k + 1) an ad bn bd y)) y.
Proof.
  intros TF TI Ma Mb Ca Cv Cc Ce Cx Ct Pn Pd Cl Ch HH HX HU HU2 eap EA e1p E1 e2p E2' e5cp E5c e5p E5 knp HZ HZc Da Dc Dd.
  destruct (tables_facts _ _ _ _ _ TF) as (_ & _ & _ & _ & A1 & A2 & _ & _ & I1 & I2 & _ & _).
  destruct (tabs4_ok _ _ _ _ TI) as (J1 & J2 & J3 & J4).
  destruct (mono_tables _ _ _ _ _ _ _ Ma ltac:(lia) ltac:(lia) J1 J2) as [Sa _].
  destruct (mono_swap _ _ _ _ _ _ _ Mb knp ltac:(lia) J3 J4) as [Sb Gb].
  assert (Q0 : Q2R 0 = 0) by (unfold Q2R; cbn; lra). assert (Q4 : Q2R 4 = 4) by (unfold Q2R; cbn; lra). assert (Q2 : Q2R 2 = 2) by (unfold Q2R; cbn; lra).
  assert (Q7 : Q2R 7 = 7) by (unfold Q2R; cbn; lra). assert (Qh : Q2R (1 # 2) = 1 / 2) by (unfold Q2R; cbn; lra).
  assert (x0 : 0 < Q2R X0) by (rewrite <- Q0; now apply Qlt_Rlt).
  assert (E2 : 7 < exp 2) by (pose proof exp2_range; lra).
  assert (Wb : forall z, 0 < z <= Q2R Zc -> 0 < W bd bn z /\ W bd bn z < / Q2R X0).
  { intros z Hz. split; [apply (W_pos sb bd bn Zh); auto; lra|]. rewrite <- Q2R_inv by (intros E; rewrite E in HX; now apply Qlt_irrefl in HX).
    apply (wlt_ok _ sb bd bn 0 Zc _ _ Ct); auto; [lra|]. apply Sb. lra. }
  apply (round_trip k an ad bn bd fan fad fbn fbd Zc d); auto; try lra.
  - intros y Hy. apply (W_pos sa an ad 4); auto. lra.
  - intros z Hz. now apply Wb.
  - intros y Hy Hw. eapply lnear_weak; [|exact Da]. apply (reg_aQ 12 ea (10 ^ 9) sa an ad fan fad 4 4); auto; try lia; try lra.
  - intros y Hy Hw. exfalso. pose proof (wlt_ok _ _ _ _ _ _ _ y Cv J1 J2 ltac:(lra) ltac:(apply Sa; lra)). lra.
  - intros y z Hy Hz Ey Hw. destruct (Wb z Hz) as [w0 w1]. set (x := / W bd bn z) in *. assert (xp : 0 < x) by (unfold x; now apply Rinv_0_lt_compat).
    assert (X1 : Q2R X0 < x). { unfold x. rewrite <- (Rinv_inv (Q2R X0)). apply Rinv_lt_contravar; auto. apply Rmult_lt_0_compat; auto. now apply Rinv_0_lt_compat. }
    assert (Ix : / x = W bd bn z) by (unfold x; now rewrite Rinv_inv). clearbody x.
    pose proof (within_ok _ _ _ _ x Cx ltac:(lra)) as Rx. unfold lo_fun.
    eapply lnear_weak; [apply (reg_c U Kc 8 8 k e1 (10 ^ 9) e2 (10 ^ 10) 1 (10 ^ 11) e5c (10 ^ 9) sb m r bn bd fan fad Zh cc (IZR 10 / IZR kn) x y z); auto using exp_pos; try lia; lra|].
    eapply Rle_trans; [|exact Dc]. do 3 apply Rplus_le_compat_r. apply Rmult_le_compat_l; [pose proof (pos_INR (length fan)); pose proof (pos_INR (length fad)); lra|].
    apply Rmult_le_compat_l; [|lra]. apply Rlt_le, Rdiv_lt_0_compat; apply IZR_lt; reflexivity.
  - intros y z Hy Hz Ey Hw. apply (both_halves U U2 K1 K2 K 8 k e5 sb s2 bn bd fbn fbd Zh Zc (1 # 2) lo hi kn d); auto; try lra.
    + intros z' Hz'. now apply Wb.
    + rewrite Qh. destruct (Wb z Hz) as [w0 _]. apply (Rmult_le_compat_l (W bd bn z)) in Hw; [|lra]. rewrite Rinv_r in Hw by lra. lra.
Qed.
