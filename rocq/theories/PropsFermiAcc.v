(* C92: below 2 the functions fdm12, fd12, fd32, fd52 are the Fermi-Dirac integrals, to
   a relative error of 1e-12. *)
From Coq Require Import List Arith ZArith QArith Qreals Bool Lia Reals Lra.
From Coquelicot Require Import Coquelicot.
From Verif Require Import Num PyBase NdArray RSum PolySign PolyDer Fermi FermiProofs PropsFermi PropsFermiDer GaussInt FermiInt.
Import ListNotations.
Open Scope R_scope.

(** ** Chebyshev polynomials T_n(1 + 2 v) *)
Fixpoint chebs (n : nat) : list Z * list Z :=
  match n with
  | O => ([1%Z], [1%Z; 2%Z])
  | S n' => let (a, b) := chebs n' in (b, padd (pscale 2 (pmul [1%Z; 2%Z] b)) (pscale (-1) a))
  end.
Lemma chebs_ok n y : 0 <= y <= 1 ->
  ev (fst (chebs n)) (- y) = cos (INR n * acos (1 - 2 * y)) /\ ev (snd (chebs n)) (- y) = cos (INR (S n) * acos (1 - 2 * y)).
Proof.
  intros Hy. set (t := acos (1 - 2 * y)). assert (C : cos t = 1 - 2 * y) by (apply cos_acos; lra).
  induction n as [|n [IH1 IH2]].
  - cbn [chebs fst snd ev]. rewrite Rmult_0_l, cos_0. change (INR 1) with 1. rewrite Rmult_1_l, C. split; ring.
  - cbn [chebs]. destruct (chebs n) as [a b]. cbn [fst snd] in *. split; [exact IH2|].
    rewrite ev_padd, !ev_pscale, ev_pmul, IH1, IH2. cbn [ev].
    replace (IZR 1 + - y * (IZR 2 + - y * 0)) with (cos t) by (rewrite C; ring).
    rewrite (S_INR (S n)). replace ((INR (S n) + 1) * t) with (INR (S n) * t + t) by ring.
    replace (INR n * t) with (INR (S n) * t - t) by (rewrite S_INR; ring). rewrite cos_plus, cos_minus. ring.
Qed.
Definition cheb (n : nat) : list Z := fst (chebs n).
Lemma cheb_bound n y : 0 <= y <= 1 -> Rabs (ev (cheb n) (- y)) <= 1.
Proof. intros Hy. unfold cheb. rewrite (proj1 (chebs_ok n y Hy)). apply Rabs_le. apply COS_bound. Qed.

(** ** Integer enclosures of 2^B / n^(k + 1/2) *)
Definition aI (B : Z) (k i : nat) : Z := Z.sqrt (4 ^ B / Z.of_nat (S i) ^ Z.of_nat (2 * k + 1)).
Lemma aI_ok B k i : (0 <= B)%Z ->
  Rabs (IZR (2 ^ B) / (sqrt (INR (S i)) * INR (S i) ^ k) - IZR (aI B k i)) <= 1.
Proof.
  intros HB. set (n := INR (S i)). assert (Hn : 0 < n) by (apply lt_0_INR; lia).
  pose proof (sqrt_lt_R0 n Hn) as S0. assert (Pk : 0 < n ^ k) by (now apply pow_lt).
  set (m := (Z.of_nat (S i) ^ Z.of_nat (2 * k + 1))%Z). assert (Hm : (0 < m)%Z) by (apply Z.pow_pos_nonneg; lia).
  assert (Em : IZR m = n ^ (2 * k + 1)). { unfold m, n. rewrite <- pow_IZR, INR_IZR_INZ. reflexivity. }
  set (r := IZR (2 ^ B) / (sqrt n * n ^ k)).
  assert (P2 : (0 < 2 ^ B)%Z) by (apply Z.pow_pos_nonneg; lia). pose proof (IZR_lt _ _ P2) as R2.
  assert (Hr : 0 < r) by (apply Rdiv_lt_0_compat; auto; apply Rmult_lt_0_compat; auto).
  assert (Er : r * r * IZR m = IZR (4 ^ B)).
  { replace (4 ^ B)%Z with (2 ^ B * 2 ^ B)%Z by (rewrite <- Z.pow_mul_l; reflexivity).
    rewrite mult_IZR, Em, pow_add, pow_mult, pow_1. unfold r.
    replace ((n ^ 2) ^ k) with (n ^ k * n ^ k) by (rewrite <- Rpow_mult_distr; f_equal; ring).
    replace n with (sqrt n * sqrt n) at 7 by (apply sqrt_sqrt; lra). field. split; lra. }
  set (q := (4 ^ B / m)%Z). assert (P4 : (0 < 4 ^ B)%Z) by (apply Z.pow_pos_nonneg; lia).
  assert (Q0 : (0 <= q)%Z) by (apply Z.div_pos; lia).
  unfold aI. fold m q. pose proof (Z.sqrt_spec q Q0) as [L U]. pose proof (Z.sqrt_nonneg q) as N0.
  set (s := Z.sqrt q) in *. clearbody s.
  pose proof (Z.mul_div_le (4 ^ B) m Hm) as D1. pose proof (Z.mul_succ_div_gt (4 ^ B) m Hm) as D2. fold q in D1, D2.
  assert (U' : (q + 1 <= (s + 1) * (s + 1))%Z) by lia.
  apply IZR_le in L, D1, U', N0. apply IZR_lt in D2. rewrite ?mult_IZR, ?plus_IZR, ?succ_IZR in *. apply IZR_lt in Hm.
  rewrite <- Er in D1, D2. assert (r * r < IZR q + 1) by nra. assert (IZR q <= r * r) by nra.
  apply Rabs_le. split; nra.
Qed.
Fixpoint ddI (B : Z) (k i : nat) (s : list Z) : list Z :=
  match s with [] => [] | _ :: s' => padd (pscale (aI B k i) s') (pscale (-1) (ddI B k (S i) s')) end.
Fixpoint eeI (s : list Z) : list Z := match s with [] => [] | _ :: s' => padd s' (eeI s') end.
Lemma ev_nonneg s v : List.Forall (fun a => 0 <= a)%Z s -> 0 <= v -> 0 <= ev s v.
Proof. intros H Hv. induction H as [|a s Ha H IH]; cbn [ev]; [lra|]. apply IZR_le in Ha. nra. Qed.
Lemma ddI_ok B k s v : (0 <= B)%Z -> List.Forall (fun a => 0 <= a)%Z s -> 0 <= v ->
  forall i, Rabs (IZR (2 ^ B) * ddR k i s v - ev (ddI B k i s) v) <= ev (eeI s) v.
Proof.
  intros HB H Hv. induction H as [|a s Ha H IH]; intros i; cbn [ddI ddR eeI ev].
  - rewrite Rmult_0_r, Rminus_0_r, Rabs_R0. lra.
  - rewrite !ev_padd, !ev_pscale. specialize (IH (S i)). pose proof (aI_ok B k i HB) as A. pose proof (ev_nonneg s v H Hv) as E0.
    assert (Hn : 0 < INR (S i)) by (apply lt_0_INR; lia).
    pose proof (sqrt_lt_R0 _ Hn) as S0. assert (Pk : 0 < INR (S i) ^ k) by (now apply pow_lt).
    set (sq := sqrt (INR (S i))) in *. set (pk := INR (S i) ^ k) in *. clearbody sq pk.
    replace (IZR (2 ^ B) * (ev s v / (sq * pk) - ddR k (S i) s v) - (IZR (aI B k i) * ev s v + -1 * ev (ddI B k (S i) s) v))
      with ((IZR (2 ^ B) / (sq * pk) - IZR (aI B k i)) * ev s v + - (IZR (2 ^ B) * ddR k (S i) s v - ev (ddI B k (S i) s) v)) by (field; lra).
    eapply Rle_trans; [apply Rabs_triang|]. rewrite Rabs_Ropp, Rabs_mult, (Rabs_right (ev s v)) by lra. nra.
Qed.

(** ** Reversed coefficients *)
Lemma ev_app a b z : ev (a ++ b) z = ev a z + z ^ length a * ev b z.
Proof. induction a as [|x a IH]; cbn [app ev length pow]; [ring|]. rewrite IH. ring. Qed.
Lemma ev_rev c z : z <> 0 -> z ^ length c * ev c (/ z) = z * ev (rev c) z.
Proof.
  intros Hz. induction c as [|a c IH]; cbn [length pow ev rev]; [ring|].
  rewrite ev_app, rev_length. cbn [ev]. replace (z * z ^ length c * (IZR a + / z * ev c (/ z))) with (z * z ^ length c * IZR a + z ^ length c * ev c (/ z)) by (field; auto).
  rewrite IH. ring.
Qed.
Lemma padd_length p : forall q, length (padd p q) = Nat.max (length p) (length q).
Proof. induction p as [|a p IH]; intros [|b q]; cbn [padd length]; auto. now rewrite IH. Qed.
Lemma ddI_length B k s : forall i, length (ddI B k i s) = pred (length s).
Proof.
  induction s as [|a s IH]; intros i; cbn [ddI length]; auto.
  rewrite padd_length. unfold pscale. rewrite !map_length, IH. lia.
Qed.
Lemma eeI_length s : length (eeI s) = pred (length s).
Proof. induction s as [|a s IH]; cbn [eeI length]; auto. rewrite padd_length, IH. lia. Qed.

(** ** Gamma(k + 1/2) *)
Fixpoint gamn (k : nat) : Z := match k with O => 1772453850905516 | S k' => (2 * Z.of_nat k' + 1) * gamn k' end%Z.
Definition gamd (k : nat) : Z := (10 ^ 15 * 2 ^ Z.of_nat k)%Z.
Lemma gam_range k : Rabs (Gam k - IZR (gamn k) / IZR (gamd k)) <= 1 / 10 ^ 15 * (IZR (gamn k) / IZR (gamd k)).
Proof.
  assert (P : Rabs (sqrt PI - 1772453850905516 / 10 ^ 15) <= 1 / 10 ^ 15).
  { pose proof PI_range as P. pose proof (sqrt_lt_R0 PI PI_RGT_0) as S. pose proof (sqrt_sqrt PI ltac:(lra)) as E.
    apply Rabs_le. split; nra. }
  assert (D : forall k, 0 < IZR (gamd k)).
  { intros i. apply IZR_lt. unfold gamd. apply Z.mul_pos_pos; [reflexivity|]. apply Z.pow_pos_nonneg; lia. }
  induction k as [|k IH].
  - cbn [Gam gamn]. change (gamd 0) with (10 ^ 15)%Z. replace (IZR (10 ^ 15)) with (10 ^ 15) by (rewrite (pow_IZR 10 15); reflexivity). lra.
  - cbn [Gam gamn].
    replace (IZR ((2 * Z.of_nat k + 1) * gamn k) / IZR (gamd (S k))) with ((INR k + 1 / 2) * (IZR (gamn k) / IZR (gamd k))).
    + pose proof (pos_INR k). rewrite <- Rmult_minus_distr_l, Rabs_mult, (Rabs_right (INR k + 1 / 2)) by lra. nra.
    + assert (E : gamd (S k) = (2 * gamd k)%Z). { unfold gamd. rewrite Nat2Z.inj_succ, Z.pow_succ_r by lia. ring. }
      rewrite E, !mult_IZR, plus_IZR, mult_IZR, <- INR_IZR_INZ. specialize (D k). field. lra.
Qed.

(** ** The check *)
Definition acc_check (B : Z) (N : nat) (e E : Z) (b : Q) (s : list Z) (k : nat) (an ad : list Q) : bool :=
  let sr := rev s in let d := rev (ddI B k 0 s) in
  (length s =? S N)%nat && forallb (fun a => 0 <=? a)%Z s &&
  between 12 e E (pscale (2 ^ B * (common ad * gamd k)) (pmul (intable an) sr))
    (pscale (common an * gamn k) (pmul (intable ad) d)) 0 b &&
  pos_on 12 (padd d (pscale (- (10 ^ 14)) (rev (eeI s)))) 0 b &&
  pos_on 12 (padd sr (repeat 0%Z N ++ [(- (5 * 10 ^ 13))%Z])) 0 b.
Lemma ev_zeros N z : ev (repeat 0%Z N) z = 0.
Proof. induction N as [|n IH]; cbn [repeat ev]; [reflexivity|rewrite IH; ring]. Qed.
Lemma acc_core (a b Y G e : R) : 0 <= e <= 9 / 10 ^ 13 -> Rabs (a - b) <= 2 / 10 ^ 14 * a -> Rabs (b - Y) <= 12 / 10 ^ 15 * Y ->
  Rabs (G - Y) <= e * Y -> 0 < Y -> 0 < a /\ Rabs (G - a) <= 1 / 10 ^ 12 * a.
Proof.
  intros He H1 H2 H3 HY.
  assert (H3' : Rabs (G - Y) <= 9 / 10 ^ 13 * Y) by nra. clear H3 He.
  assert (A : 0 < a). { unfold Rabs in *. destruct (Rcase_abs (a - b)), (Rcase_abs (b - Y)); lra. }
  split; [exact A|]. apply Rabs_le.
  unfold Rabs in *. destruct (Rcase_abs (a - b)), (Rcase_abs (b - Y)), (Rcase_abs (G - Y)); lra.
Qed.
Lemma acc_ok B N e E b s k an ad x : (0 <= B)%Z -> (0 < e)%Z -> (0 < E)%Z -> IZR e / IZR E <= 9 / 10 ^ 13 ->
  acc_check B N e E b s k an ad = true -> (forall y, 0 <= y <= 1 -> Rabs (ev s (- y)) <= 1) ->
  intable_ok an = true -> intable_ok ad = true -> 0 < hornerQ ad (exp x) -> exp x <= Q2R b ->
  exists l, FD_integral (INR k - 1 / 2) x l /\ 0 < l /\ Rabs (lo_fun an ad x - l) <= 1 / 10 ^ 12 * l.
Proof.
  intros HB He HE HeE H Hs I1 I2 HQ Hx. unfold acc_check in H. cbv zeta in H.
  apply andb_true_iff in H. destruct H as [H C3]. apply andb_true_iff in H. destruct H as [H C2].
  apply andb_true_iff in H. destruct H as [H C1]. apply andb_true_iff in H. destruct H as [C00 C0]. apply Nat.eqb_eq in C00.
  assert (Fs : List.Forall (fun a => 0 <= a)%Z s).
  { apply Forall_forall. intros a Ha. rewrite forallb_forall in C0. specialize (C0 a Ha). now apply Z.leb_le. }
  destruct (hint_lim k x) as (l & Ll & _). exists l. split; [now apply FD_of_hint|].
  pose proof (FD_encl k x s l Hs Ll) as En.
  set (z := exp x) in *. assert (Hz : 0 < z) by apply exp_pos.
  assert (Ev : exp (- x) = / z) by apply exp_Ropp. rewrite Ev in En.
  assert (Bz : Q2R 0 <= z <= Q2R b) by (split; [unfold Q2R; cbn; lra|exact Hx]).
  apply (between_ok 12 e E _ _ _ _ z) in C1; [|exact HE|exact He|exact Bz]. destruct C1 as [C1a C1b].
  apply (pos_on_ok 12 _ _ _ z) in C2; [|exact Bz]. apply (pos_on_ok 12 _ _ _ z) in C3; [|exact Bz].
  rewrite ev_padd, ev_pscale in C2. rewrite ev_padd, ev_app, ev_zeros, repeat_length in C3.
  cbn [ev] in C3. rewrite Rmult_0_r, Rplus_0_r, Rplus_0_l in C3.
  repeat first [rewrite ev_pscale in C1a | rewrite ev_pmul in C1a | rewrite mult_IZR in C1a].
  repeat first [rewrite ev_pscale in C1b | rewrite ev_pmul in C1b | rewrite mult_IZR in C1b].
  assert (PT : 0 < IZR (2 ^ B)) by (apply IZR_lt, Z.pow_pos_nonneg; lia).
  assert (ER : z ^ N * ev s (/ z) = ev (rev s) z).
  { pose proof (ev_rev s z ltac:(lra)) as R1. rewrite C00 in R1. cbn [pow] in R1.
    apply Rmult_eq_reg_l with z; [|lra]. rewrite <- R1. ring. }
  assert (V0 : 0 <= / z) by (apply Rlt_le, Rinv_0_lt_compat, Hz).
  pose proof (ddI_ok B k s (/ z) HB Fs V0 0) as D.
  pose proof (ev_rev (ddI B k 0 s) z ltac:(lra)) as R2. rewrite ddI_length, C00 in R2. cbn [pred] in R2.
  pose proof (ev_rev (eeI s) z ltac:(lra)) as R3. rewrite eeI_length, C00 in R3. cbn [pred] in R3.
  assert (Pz : 0 < z ^ N) by (now apply pow_lt).
  set (Sr := ev (rev s) z) in *. set (X := ev (rev (ddI B k 0 s)) z) in *. set (Er := ev (rev (eeI s)) z) in *.
  set (W := z ^ N) in *. set (dr := ddR k 0 s (/ z)) in *. set (Sv := ev s (/ z)) in *.
  set (dv := ev (ddI B k 0 s) (/ z)) in *. set (ee := ev (eeI s) (/ z)) in *. set (tt := IZR (2 ^ B)) in *.
  clearbody Sr X Er W dr Sv dv ee tt. clear C0 Fs C00 Ll Hs.
  unfold lo_fun. fold z. rewrite !hornerQ_ev in * by auto. pose proof (common_pos an) as PA. pose proof (common_pos ad) as PD.
  set (Pi := ev (intable an) z) in *. set (Qi := ev (intable ad) z) in *. set (ca := IZR (common an)) in *. set (cd := IZR (common ad)) in *.
  clearbody Pi Qi ca cd. clear I1 I2 Bz V0 Ev Hx.
  pose proof (gam_range k) as G.
  assert (Gd : 0 < IZR (gamd k)). { apply IZR_lt. unfold gamd. apply Z.mul_pos_pos; [reflexivity|]. apply Z.pow_pos_nonneg; lia. }
  pose proof (Gam_pos k) as GP. set (Ga := Gam k) in *. set (gn := IZR (gamn k)) in *. set (gd := IZR (gamd k)) in *.
  clearbody Ga gn gd z.
  assert (EE : 0 <= IZR e / IZR E). { apply IZR_lt in He, HE. apply Rlt_le, Rdiv_lt_0_compat; auto. }
  set (eps := IZR e / IZR E) in *. clearbody eps.
  assert (E14 : IZR (- (10 ^ 14)) = - 10 ^ 14) by (rewrite opp_IZR, (pow_IZR 10 14); reflexivity). rewrite E14 in C2. clear E14.
  assert (E5 : IZR (- (5 * 10 ^ 13)) = - (5 * 10 ^ 13)) by (rewrite opp_IZR, mult_IZR, (pow_IZR 10 13); reflexivity). rewrite E5 in C3. clear E5.
  assert (Q0 : 0 < Qi). { apply Rmult_lt_reg_r with (/ cd); [now apply Rinv_0_lt_compat|]. rewrite Rmult_0_l. exact HQ. }
  assert (E0 : 0 <= ee) by (eapply Rle_trans; [apply Rabs_pos|exact D]).
  assert (Er0 : 0 <= Er). { apply Rmult_le_reg_l with z; [exact Hz|]. rewrite Rmult_0_r, <- R3. nra. }
  assert (X0 : 0 < X) by lra.
  assert (Gn : 0 < gn / gd). { unfold Rabs in G. destruct (Rcase_abs _) in G; lra. }
  assert (S0 : 0 < Sr) by nra.
  (* l Sr, Gamma W dr, Gamma' z X / 2^B, g Sr *)
  set (g := z * (Pi / ca) / (Qi / cd)).
  destruct (acc_core (l * Sr) (Ga * (W * dr)) (gn / gd * (z * X / tt)) (g * Sr) eps) as [P1 P2].
  - split; auto.
  - rewrite <- ER. replace (l * (W * Sv) - Ga * (W * dr)) with (W * (l * Sv - Ga * dr)) by ring.
    rewrite Rabs_mult, (Rabs_right W) by lra. rewrite ER.
    assert (L0 : 0 <= l) by (eapply Rle_trans; [apply Rabs_pos|exact En]).
    apply Rle_trans with (W * l); [apply Rmult_le_compat_l; lra|]. nra.
  - set (q := gn / gd) in *. clearbody q.
    assert (D' : Rabs (W * dr - z * X / tt) <= 1 / 10 ^ 14 * (z * X / tt)).
    { replace (W * dr - z * X / tt) with (W / tt * (tt * dr - dv)) by (rewrite <- R2; field; lra).
      assert (Pw : 0 < W / tt) by (now apply Rdiv_lt_0_compat). rewrite Rabs_mult, (Rabs_right (W / tt)) by lra.
      apply Rle_trans with (W / tt * ee); [apply Rmult_le_compat_l; lra|].
      replace (W / tt * ee) with (z * Er / tt) by (rewrite <- R3; field; lra).
      unfold Rdiv. rewrite <- !Rmult_assoc. apply Rmult_le_compat_r; [apply Rlt_le, Rinv_0_lt_compat; lra|].
      assert (Er <= 1 * / 10 ^ 14 * X) by lra. nra. }
    assert (Y0 : 0 < z * X / tt) by (apply Rdiv_lt_0_compat; nra).
    set (y := z * X / tt) in *. clearbody y. set (t := W * dr) in *. clearbody t.
    replace (Ga * t - q * y) with ((Ga - q) * t + q * (t - y)) by ring.
    eapply Rle_trans; [apply Rabs_triang|]. rewrite !Rabs_mult, (Rabs_right q) by lra.
    assert (T1 : Rabs t <= 2 * y) by (unfold Rabs in *; destruct (Rcase_abs _) in D'; destruct (Rcase_abs t); lra).
    assert (Rabs (Ga - q) * Rabs t <= 1 / 10 ^ 15 * q * (2 * y)) by (apply Rmult_le_compat; auto using Rabs_pos).
    assert (q * Rabs (t - y) <= q * (1 / 10 ^ 14 * y)) by (apply Rmult_le_compat_l; lra). nra.
  - unfold g. replace (z * (Pi / ca) / (Qi / cd) * Sr - gn / gd * (z * X / tt)) with
      (z / (tt * gd * ca * Qi) * (tt * (cd * gd) * (Pi * Sr) - ca * gn * (Qi * X))) by (field; repeat split; lra).
    replace (gn / gd * (z * X / tt)) with (z / (tt * gd * ca * Qi) * (ca * gn * (Qi * X))) by (field; repeat split; lra).
    assert (PZ : 0 < z / (tt * gd * ca * Qi)) by (apply Rdiv_lt_0_compat; auto; repeat apply Rmult_lt_0_compat; auto).
    rewrite Rabs_mult, (Rabs_right (z / _)) by lra.
    apply Rle_trans with (z / (tt * gd * ca * Qi) * (eps * (ca * gn * (Qi * X)))); [|right; ring].
    apply Rmult_le_compat_l; lra.
  - apply Rmult_lt_0_compat; auto. apply Rdiv_lt_0_compat; nra.
  - split; [apply Rmult_lt_reg_r with Sr; lra|].
    apply Rmult_le_reg_r with Sr; [exact S0|]. rewrite <- (Rabs_right Sr) at 1 by lra. rewrite <- Rabs_mult.
    replace ((g - l) * Sr) with (g * Sr - l * Sr) by ring. lra.
Qed.

(** ** C92 *)
(* the integral is a number determined by the order and x *)
Lemma FD_unique j x l l' : FD_integral j x l -> FD_integral j x l' -> l = l'.
Proof.
  intros H H'. unfold FD_integral in *.
  rewrite <- (is_RInt_gen_unique (V := R_CompleteNormedModule) _ _ H). exact (is_RInt_gen_unique (V := R_CompleteNormedModule) _ _ H').
Qed.
(* below a, g is the integral of order j up to a relative error of eps *)
Definition is_FD_below (g : R -> R) (j a eps : R) : Prop :=
  forall x, x < a -> exists l, FD_integral j x l /\ 0 < l /\ Rabs (g x - l) <= eps * l.
Lemma fd_below s' k an ad bn bd : tables_ok s' an ad bn bd = true ->
  acc_check 140 46 9 (10 ^ 13) (473 # 64) (cheb 46) k an ad = true ->
  is_FD_below (fd_fun k an ad bn bd) (INR k - 1 / 2) 2 (1 / 10 ^ 12).
Proof.
  intros T H x Hx. destruct (tables_facts _ _ _ _ _ T) as (_ & _ & _ & _ & A1 & A2 & _ & _ & I1 & I2 & _).
  unfold fd_fun. destruct (Rlt_dec x 2) as [_|N]; [|contradiction].
  apply (acc_ok 140 46 9 (10 ^ 13) (473 # 64) (cheb 46)); auto using exp_pos; try lia.
  - right. rewrite (pow_IZR 10 13). reflexivity.
  - intros y Hy. now apply cheb_bound.
  - apply exp_increasing in Hx. pose proof exp2_range. unfold Q2R. cbn [Qnum Qden]. lra.
Qed.
Definition gm12 : R -> R := fd_fun 0 fdm12_anum fdm12_aden fdm12_bnum fdm12_bden.
Definition g12 : R -> R := fd_fun 1 fd12_anum fd12_aden fd12_bnum fd12_bden.
Definition g32 : R -> R := fd_fun 2 fd32_anum fd32_aden fd32_bnum fd32_bden.
Definition g52 : R -> R := fd_fun 3 fd52_anum fd52_aden fd52_bnum fd52_bden.
Lemma tabs_m12 : tables_ok false fdm12_anum fdm12_aden fdm12_bnum fdm12_bden = true.
Proof. vm_compute. reflexivity. Qed.
Lemma elt_m12 : elementwise fdm12 (fun x => Some (gm12 x)).
Proof. apply (fd_fun_elementwise false); [exact tabs_m12|intros; cbn; ring]. Qed.
Lemma acc_m12 : acc_check 140 46 9 (10 ^ 13) (473 # 64) (cheb 46) 0 fdm12_anum fdm12_aden = true.
Proof. vm_compute. reflexivity. Qed.
Lemma below_m12 : is_FD_below gm12 (- (1 / 2)) 2 (1 / 10 ^ 12).
Proof. replace (- (1 / 2)) with (INR 0 - 1 / 2) by (cbn; lra). exact (fd_below false 0 _ _ _ _ tabs_m12 acc_m12). Qed.
Lemma tabs_12 : tables_ok true fd12_anum fd12_aden fd12_bnum fd12_bden = true.
Proof. vm_compute. reflexivity. Qed.
Lemma elt_12 : elementwise fd12 (fun x => Some (g12 x)).
Proof. apply (fd_fun_elementwise true); [exact tabs_12|intros; cbn; ring]. Qed.
Lemma acc_12 : acc_check 140 46 9 (10 ^ 13) (473 # 64) (cheb 46) 1 fd12_anum fd12_aden = true.
Proof. vm_compute. reflexivity. Qed.
Lemma below_12 : is_FD_below g12 (1 / 2) 2 (1 / 10 ^ 12).
Proof. replace (1 / 2) with (INR 1 - 1 / 2) by (cbn; lra). exact (fd_below true 1 _ _ _ _ tabs_12 acc_12). Qed.
Lemma tabs_32 : tables_ok true fd32_anum fd32_aden fd32_bnum fd32_bden = true.
Proof. vm_compute. reflexivity. Qed.
Lemma elt_32 : elementwise fd32 (fun x => Some (g32 x)).
Proof. apply (fd_fun_elementwise true); [exact tabs_32|intros; cbn; ring]. Qed.
Lemma acc_32 : acc_check 140 46 9 (10 ^ 13) (473 # 64) (cheb 46) 2 fd32_anum fd32_aden = true.
Proof. vm_compute. reflexivity. Qed.
Lemma below_32 : is_FD_below g32 (3 / 2) 2 (1 / 10 ^ 12).
Proof. replace (3 / 2) with (INR 2 - 1 / 2) by (cbn; lra). exact (fd_below true 2 _ _ _ _ tabs_32 acc_32). Qed.
Lemma tabs_52 : tables_ok true fd52_anum fd52_aden fd52_bnum fd52_bden = true.
Proof. vm_compute. reflexivity. Qed.
Lemma elt_52 : elementwise fd52 (fun x => Some (g52 x)).
Proof. apply (fd_fun_elementwise true); [exact tabs_52|intros; cbn; ring]. Qed.
Lemma acc_52 : acc_check 140 46 9 (10 ^ 13) (473 # 64) (cheb 46) 3 fd52_anum fd52_aden = true.
Proof. vm_compute. reflexivity. Qed.
Lemma below_52 : is_FD_below g52 (5 / 2) 2 (1 / 10 ^ 12).
Proof. replace (5 / 2) with (INR 3 - 1 / 2) by (cbn; lra). exact (fd_below true 3 _ _ _ _ tabs_52 acc_52). Qed.
Theorem C92_below_two : exists gm12 g12 g32 g52 : R -> R,
  elementwise fdm12 (fun x => Some (gm12 x)) /\ elementwise fd12 (fun x => Some (g12 x)) /\
  elementwise fd32 (fun x => Some (g32 x)) /\ elementwise fd52 (fun x => Some (g52 x)) /\
  is_FD_below gm12 (- (1 / 2)) 2 (1 / 10 ^ 12) /\ is_FD_below g12 (1 / 2) 2 (1 / 10 ^ 12) /\
  is_FD_below g32 (3 / 2) 2 (1 / 10 ^ 12) /\ is_FD_below g52 (5 / 2) 2 (1 / 10 ^ 12).
Proof.
  exists gm12, g12, g32, g52.
  repeat split; first [exact elt_m12|exact elt_12|exact elt_32|exact elt_52|exact below_m12|exact below_12|exact below_32|exact below_52].
Qed.
Print Assumptions C92_below_two.
Lemma quot_near p d c e : 0 < d -> (c - e) * d <= p -> p <= (c + e) * d -> Rabs (p / d - c) <= e.
Proof.
  intros D H1 H2. replace p with (p / d * d) in H1, H2 by (field; lra). apply Rabs_le.
  apply Rmult_le_reg_r in H1; auto. apply Rmult_le_reg_r in H2; auto. lra.
Qed.
(* x = 0: the integral of sqrt t / (exp t + 1) is 0.678093895153... *)
Example ex_C92 : exists l, FD_integral (1 / 2) 0 l /\ Rabs (l - 0.678093895153) <= 2 / 10 ^ 12.
Proof.
  destruct (below_12 0 ltac:(lra)) as (l & L & Pl & Bl). exists l. split; [exact L|].
  unfold g12, fd_fun in Bl. destruct (Rlt_dec 0 2) as [_|N]; [|lra].
  unfold lo_fun in Bl. rewrite exp_0 in Bl.
  unfold hornerQ, fd12_anum, fd12_aden, Q2R in Bl. cbn [fold_left Qnum Qden] in Bl.
  repeat match type of Bl with
    | context [Qnum ?q] => let v := eval vm_compute in (Qnum q) in change (Qnum q) with v in Bl
    | context [Qden ?q] => let v := eval vm_compute in (Qden q) in change (Qden q) with v in Bl
    end.
  match type of Bl with Rabs (?p / ?d - _) <= _ =>
    assert (B : Rabs (p / d - 0.678093895153) <= 1 / 10 ^ 12) by (apply quot_near; lra); set (w := p / d) in * end.
  clearbody w. clear - B Bl Pl. apply Rabs_le. unfold Rabs in B, Bl.
  destruct (Rcase_abs _) in B; destruct (Rcase_abs _) in Bl; lra.
Qed.
Print Assumptions ex_C92.
