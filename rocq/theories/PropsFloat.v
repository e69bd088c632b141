(* Properties in double precision arithmetic (Float64.v): span, zcen, pcen, polyfun.
   /repo/npplus/basic.py:55-96, 381-479, /repo/npplus/pwpoly.py:1460-1481. *)
From Coq Require Import List Arith ZArith Bool Lia Reals Lra.
From Flocq Require Import BinarySingleNaN.
From Verif Require Import Num PyBase NdArray NdLemmas RSum Basic BasicProofs PropsBasic PropsElem Poly SpecPoly PolyProofs Float64.
Import ListNotations.
Local Open Scope R_scope.

(** ** Errors *)
Lemma upow_ge j : 1 <= (1 + uro) ^ j.
Proof. pose proof uro_pos. apply pow_R1_Rle. lra. Qed.
Lemma abs_1e e : Rabs e <= uro -> Rabs (1 + e) <= 1 + uro.
Proof. intros H. eapply Rle_trans; [apply Rabs_triang|]. rewrite Rabs_R1. lra. Qed.
Lemma err_mul x e : Rabs e <= uro -> Rabs (x * e) <= uro * Rabs x.
Proof. intros H. rewrite Rabs_mult. rewrite Rmult_comm. apply Rmult_le_compat_r; auto using Rabs_pos. Qed.

(** ** span *)
Lemma cums_fin (d : f64) j : fin (cums (fun _ => d) j) -> fin d /\ forall i, (i <= j)%nat -> fin (cums (fun _ => d) i).
Proof.
  induction j as [|j IH]; cbn [cums]; intros H.
  - split; auto. intros i Hi. assert (i = 0)%nat as -> by lia. exact H.
  - destruct (fadd_fin _ _ H) as [H1 H2]. destruct (IH H1) as [_ F]. split; auto. intros i Hi.
    destruct (Nat.eq_dec i (S j)) as [->|]; [exact H|]. apply F. lia.
Qed.
Lemma cums_err (d : f64) j : fin (cums (fun _ => d) j) ->
  Rabs (val (cums (fun _ => d) j) - INR (S j) * val d) <= ((1 + uro) ^ j - 1) * (INR (S j) * Rabs (val d)).
Proof.
  pose proof uro_pos as U. induction j as [|j IH]; intros H.
  - cbn [cums INR pow]. replace (val d - 1 * val d) with 0 by ring. rewrite Rabs_R0. lra.
  - cbn [cums] in *. destruct (fadd_fin _ _ H) as [H1 H2]. specialize (IH H1). rewrite (fadd_val _ _ H).
    destruct (rnd_plus_err (cums (fun _ => d) j) d) as (e & He & ->). set (c := val (cums (fun _ => d) j)) in *. set (v := val d) in *.
    clearbody c v. pose proof (upow_ge j) as P. rewrite (S_INR (S j)). set (n := INR (S j)) in *. assert (N : 0 <= n) by apply pos_INR. clearbody n.
    cbn [pow]. set (w := (1 + uro) ^ j) in *. clearbody w.
    replace ((c + v) * (1 + e) - (n + 1) * v) with ((c - n * v) * (1 + e) + (n + 1) * v * e) by ring.
    eapply Rle_trans; [apply Rabs_triang|]. rewrite Rabs_mult.
    assert (A : Rabs (c - n * v) * Rabs (1 + e) <= (w - 1) * (n * Rabs v) * (1 + uro)) by (apply Rmult_le_compat; auto using Rabs_pos, abs_1e).
    assert (B : Rabs ((n + 1) * v * e) <= uro * ((n + 1) * Rabs v)).
    { eapply Rle_trans; [apply err_mul; exact He|]. rewrite Rabs_mult, (Rabs_pos_eq (n + 1)) by lra. lra. }
    pose proof (Rabs_pos v). assert (0 <= (w - 1) * (1 + uro) * Rabs v) by (repeat apply Rmult_le_pos; lra).
    replace (((1 + uro) * w - 1) * ((n + 1) * Rabs v)) with ((w - 1) * (n * Rabs v) * (1 + uro) + uro * ((n + 1) * Rabs v) + (w - 1) * (1 + uro) * Rabs v) by ring. lra.
Qed.
Lemma val_bz (a : nd f64) idx : fin (bget a idx) -> fin (bz a idx) /\ val (bz a idx) = val (bget a idx).
Proof.
  unfold bz. generalize (bget a idx). intros x H. destruct x as [s|s| |s m e b]; try discriminate H; [destruct s; split; reflexivity|].
  split; reflexivity.
Qed.
Lemma bz_fin (a : nd f64) idx : fin (bz a idx) -> fin (bget a idx).
Proof. unfold bz. intros H. apply (fadd_fin _ _ H). Qed.
(* the step *)
Lemma step_err (a b : f64) m : (0 < m)%nat -> (Z.of_nat m <= 2 ^ 53)%Z -> let d := (ndiv (nsub b a) (nofnat m)) in fin d ->
  fin a /\ fin b /\ let D := (val b - val a) / INR m in
  Rabs (val d - D) <= ((1 + uro) ^ 2 - 1) * Rabs D + uflow /\ (val a <= val b -> 0 <= val d) /\ (val a = val b -> val d = 0).
Proof.
  intros Hm Hb d Hd. destruct (fofZ_val (Z.of_nat m) ltac:(lia)) as [M1 M2]. fold (nofnat m : f64) in M1, M2. rewrite <- INR_IZR_INZ in M2.
  destruct (fdiv_fin _ _ Hd M1) as [F1 F2]. destruct (fsub_fin _ _ F1) as [Fb Fa]. split; [exact Fa|]. split; [exact Fb|]. intros D.
  unfold d. rewrite (fdiv_val _ _ Hd M1), (fsub_val _ _ F1), M2. assert (M0 : 0 < INR m) by (apply lt_0_INR; lia). pose proof uro_pos as U.
  destruct (rnd_plus_err b (nopp a)) as (e1 & E1 & Q1). rewrite val_opp in Q1. fold (val b - val a) in Q1.
  split; [|split].
  - destruct (rnd_err (rnd (val b - val a) / INR m)) as (e2 & h & E2 & Eh & ->). rewrite Q1.
    replace ((val b - val a) * (1 + e1) / INR m * (1 + e2) + h - D) with (D * ((1 + e1) * (1 + e2) - 1) + h) by (unfold D; field; lra).
    eapply Rle_trans; [apply Rabs_triang|]. apply Rplus_le_compat; [|exact Eh]. rewrite Rabs_mult, Rmult_comm. apply Rmult_le_compat_r; [apply Rabs_pos|].
    replace ((1 + e1) * (1 + e2) - 1) with (e1 + e2 * (1 + e1)) by ring. eapply Rle_trans; [apply Rabs_triang|]. rewrite Rabs_mult.
    assert (Rabs e2 * Rabs (1 + e1) <= uro * (1 + uro)) by (apply Rmult_le_compat; auto using Rabs_pos, abs_1e). simpl. lra.
  - intros L. rewrite <- rnd_0 at 1. apply rnd_le. apply Rmult_le_pos; [|left; now apply Rinv_0_lt_compat]. rewrite <- rnd_0. apply rnd_le. lra.
  - intros L. rewrite L. replace (val b - val b) with 0 by ring. rewrite rnd_0. unfold Rdiv. rewrite Rmult_0_l. apply rnd_0.
Qed.

(** ** C94 *)
(* In double precision the first and last samples are exactly start and stop, infinities included. *)
Theorem C94_span_ends (start stop : nd f64) num axis k S0 :
  (2 <= num)%nat -> bshape (shp start) (shp stop) = Some S0 -> axis_is (S (length S0)) axis k ->
  exists r, span start stop num axis = Ok r /\ shp r = insert_at k num S0 /\
    forall idx, inb idx S0 ->
      (bget start idx <> B754_nan -> neqb (get r (insert_at k 0%nat idx)) (bget start idx) = true) /\
      (bget stop idx <> B754_nan -> neqb (get r (insert_at k (num - 1)%nat idx)) (bget stop idx) = true).
Proof.
  intros Hn HS Hk. destruct (C01_span_last_exact start stop num axis k S0 Hn HS Hk) as (r & E & Sr & G).
  exists r. split; [exact E|]. split; [exact Sr|]. intros idx Hi. destruct (G idx Hi) as [-> ->]. split; apply fadd_0.
Qed.
Print Assumptions C94_span_ends.

(* Sample i differs from start + i (stop - start)/(num - 1) by at most this: the rounding of the result, about
   i (i + 2)/2^53 steps, and i times the smallest number. *)
Definition span_err (a b : R) (m i : nat) : R :=
  let D := (b - a) / INR m in
  uro * Rabs (a + INR i * D) + ((1 + uro) ^ (i + 2) - 1) * (INR i * Rabs D) + (1 + uro) ^ i * (INR i * uflow).
Theorem C94_span_error (start stop : nd f64) num axis k S0 :
  (2 <= num)%nat -> (Z.of_nat num <= 2 ^ 53)%Z -> bshape (shp start) (shp stop) = Some S0 -> axis_is (S (length S0)) axis k ->
  exists r, span start stop num axis = Ok r /\ shp r = insert_at k num S0 /\
    forall idx i, inb idx S0 -> (i < num)%nat -> fin (bget start idx) -> fin (bget stop idx) -> fin (get r (insert_at k i idx)) ->
      let a := val (bget start idx) in let b := val (bget stop idx) in
      Rabs (val (get r (insert_at k i idx)) - (a + INR i * ((b - a) / INR (num - 1)))) <= span_err a b (num - 1) i.
Proof.
  intros Hn Hb HS Hk. destruct num as [|m]; [lia|].
  destruct (span_ok start stop m axis k S0 HS (axis_is_index _ _ _ Hk)) as (r & E & Sr & G).
  exists r. split; [exact E|]. split; [exact Sr|]. intros idx i Hi Him F1 F2 Fr. rewrite G in Fr |- * by auto.
  replace (S m - 1)%nat with m by lia. destruct (val_bz start idx F1) as [B1 V1]. destruct (val_bz stop idx F2) as [B2 V2]. rewrite <- V1, <- V2.
  set (A := bz start idx) in *. set (B := bz stop idx) in *. clearbody A B. clear V1 V2 F1 F2. cbv zeta. unfold span_err.
  assert (M0 : 0 < INR m) by (apply lt_0_INR; lia). set (D := (val B - val A) / INR m).
  assert (ED : val B = val A + INR m * D) by (unfold D; field; lra). pose proof uro_pos as U. pose proof uflow_pos as H0.
  assert (POS : forall x j, 0 <= ((1 + uro) ^ (j + 2) - 1) * (INR j * Rabs x) + (1 + uro) ^ j * (INR j * uflow)).
  { intros x j. pose proof (upow_ge (j + 2)). pose proof (upow_ge j). pose proof (pos_INR j). pose proof (Rabs_pos x).
    assert (0 <= INR j * Rabs x) by (apply Rmult_le_pos; auto). assert (0 <= INR j * uflow) by (apply Rmult_le_pos; lra).
    assert (0 <= ((1 + uro) ^ (j + 2) - 1) * (INR j * Rabs x)) by (apply Rmult_le_pos; lra).
    assert (0 <= (1 + uro) ^ j * (INR j * uflow)) by (apply Rmult_le_pos; lra). lra. }
  destruct (Nat.eqb_spec i m) as [->|Ne].
  { rewrite ED. replace (_ - _) with 0 by ring. rewrite Rabs_R0. pose proof (POS D m). pose proof (Rabs_pos (val A + INR m * D)).
    assert (0 <= uro * Rabs (val A + INR m * D)) by (apply Rmult_le_pos; lra). lra. }
  destruct i as [|j].
  { cbn [INR]. replace (_ - _) with 0 by ring. rewrite Rabs_R0. pose proof (POS D 0%nat). cbn [INR] in *. pose proof (Rabs_pos (val A + 0 * D)).
    assert (0 <= uro * Rabs (val A + 0 * D)) by (apply Rmult_le_pos; lra). lra. }
  set (d := ndiv (nsub B A) (nofnat m)) in *. destruct (fadd_fin _ _ Fr) as [_ Fc]. destruct (cums_fin d j Fc) as [Fd _].
  destruct (step_err A B m ltac:(lia) ltac:(lia) Fd) as (_ & _ & Ed & _). fold d D in Ed. pose proof (cums_err d j Fc) as Ec.
  rewrite (fadd_val _ _ Fr). destruct (rnd_plus_err A (cums (fun _ => d) j)) as (e & He & ->).
  set (c := val (cums (fun _ => d) j)) in *. set (v := val d) in *. set (n := INR (S j)) in *. assert (N : 0 <= n) by apply pos_INR. clearbody c v n.
  set (w := (1 + uro) ^ j) in *. assert (W : 1 <= w) by apply upow_ge.
  replace ((1 + uro) ^ (S j + 2)) with ((1 + uro) * ((1 + uro) ^ 2 * w)) by (unfold w; rewrite (pow_add _ (S j) 2); simpl; ring).
  replace ((1 + uro) ^ S j) with ((1 + uro) * w) by reflexivity. clearbody w. clear POS.
  assert (Vd : Rabs v <= (1 + uro) ^ 2 * Rabs D + uflow).
  { replace v with (v - D + D) by ring. eapply Rle_trans; [apply Rabs_triang|]. lra. }
  assert (C : Rabs (c - n * D) <= ((1 + uro) ^ 2 * w - 1) * (n * Rabs D) + w * (n * uflow)).
  { replace (c - n * D) with ((c - n * v) + n * (v - D)) by ring. eapply Rle_trans; [apply Rabs_triang|].
    rewrite (Rabs_mult n), (Rabs_pos_eq n) by auto.
    assert (A1 : n * Rabs (v - D) <= n * (((1 + uro) ^ 2 - 1) * Rabs D + uflow)) by (apply Rmult_le_compat_l; auto).
    assert (A2 : (w - 1) * (n * Rabs v) <= (w - 1) * (n * ((1 + uro) ^ 2 * Rabs D + uflow))) by (apply Rmult_le_compat_l; [lra|apply Rmult_le_compat_l; auto]).
    replace (((1 + uro) ^ 2 * w - 1) * (n * Rabs D) + w * (n * uflow)) with ((w - 1) * (n * ((1 + uro) ^ 2 * Rabs D + uflow)) + n * (((1 + uro) ^ 2 - 1) * Rabs D + uflow)) by ring.
    lra. }
  replace ((val A + c) * (1 + e) - (val A + n * D)) with ((val A + n * D) * e + (c - n * D) * (1 + e)) by ring.
  eapply Rle_trans; [apply Rabs_triang|]. pose proof (err_mul (val A + n * D) e He) as X1. rewrite (Rabs_mult (c - n * D)).
  assert (X2 : Rabs (c - n * D) * Rabs (1 + e) <= (((1 + uro) ^ 2 * w - 1) * (n * Rabs D) + w * (n * uflow)) * (1 + uro)) by (apply Rmult_le_compat; auto using Rabs_pos, abs_1e).
  pose proof (Rabs_pos D). assert (0 <= uro * (n * Rabs D)) by (apply Rmult_le_pos; [lra|apply Rmult_le_pos; auto]).
  replace (((1 + uro) * ((1 + uro) ^ 2 * w) - 1) * (n * Rabs D) + (1 + uro) * w * (n * uflow))
    with ((((1 + uro) ^ 2 * w - 1) * (n * Rabs D) + w * (n * uflow)) * (1 + uro) + uro * (n * Rabs D)) by ring. lra.
Qed.
Print Assumptions C94_span_error.

(* rising sample by sample, if start <= stop, for up to 2^25 points; only differences near the smallest
   numbers are excluded *)
Lemma cums_mono (d : f64) j : fin (cums (fun _ => d) (S j)) -> 0 <= val d -> val (cums (fun _ => d) j) <= val (cums (fun _ => d) (S j)).
Proof.
  intros H P. cbn [cums] in *. rewrite (fadd_val _ _ H). rewrite <- (rnd_val (cums (fun _ => d) j)) at 1. apply rnd_le. lra.
Qed.
Lemma upow_small m : (Z.of_nat m <= 2 ^ 25)%Z -> (1 + uro) ^ m <= 1 + / 2 ^ 52 * INR m.
Proof.
  intros H. pose proof uro_pos as U.
  assert (I : forall j, (j <= m)%nat -> (1 + uro) ^ j <= 1 + / 2 ^ 52 * INR j).
  { induction j as [|j IH]; intros Hj; [cbn; lra|]. specialize (IH ltac:(lia)). cbn [pow]. rewrite S_INR.
    assert (J : INR j <= 2 ^ 25). { rewrite INR_IZR_INZ. replace (2 ^ 25) with (IZR (2 ^ 25)) by (change (2 ^ 25)%Z with 33554432%Z; lra). apply IZR_le. lia. }
    assert (X : (1 + uro) * (1 + uro) ^ j <= (1 + uro) * (1 + / 2 ^ 52 * INR j)) by (apply Rmult_le_compat_l; lra).
    assert (Y : uro * (/ 2 ^ 52 * INR j) <= uro * (/ 2 ^ 52 * 2 ^ 25)) by (apply Rmult_le_compat_l; [lra|apply Rmult_le_compat_l; [apply Rlt_le, Rinv_0_lt_compat; lra|auto]]).
    unfold uro in *. lra. }
  apply I. lia.
Qed.
Theorem C94_span_monotone (start stop : nd f64) num axis k S0 :
  (2 <= num)%nat -> (Z.of_nat num <= 2 ^ 25)%Z -> bshape (shp start) (shp stop) = Some S0 -> axis_is (S (length S0)) axis k ->
  exists r, span start stop num axis = Ok r /\ shp r = insert_at k num S0 /\
    forall idx, inb idx S0 -> (forall i, (i < num)%nat -> fin (get r (insert_at k i idx))) ->
      let a := val (bget start idx) in let b := val (bget stop idx) in
      (a = b \/ a + / 2 ^ 1000 <= b) ->
      forall i, (S i < num)%nat -> val (get r (insert_at k i idx)) <= val (get r (insert_at k (S i) idx)).
Proof.
  intros Hn Hb HS Hk. destruct num as [|m]; [lia|].
  destruct (span_ok start stop m axis k S0 HS (axis_is_index _ _ _ Hk)) as (r & E & Sr & G).
  exists r. split; [exact E|]. split; [exact Sr|]. intros idx Hi Fr a b Hab i Hin.
  pose proof (Fr 0%nat ltac:(lia)) as F1. pose proof (Fr m ltac:(lia)) as F2. rewrite G in F1, F2 by (auto; lia).
  rewrite Nat.eqb_refl in F2. destruct m as [|m]; [lia|]. cbn [Nat.eqb] in F1.
  assert (V1 : val (bz start idx) = a) by (apply val_bz; now apply bz_fin). assert (V2 : val (bz stop idx) = b) by (apply val_bz; now apply bz_fin).
  rewrite <- V1, <- V2 in Hab. clear V1 V2 a b. pose proof (Fr i ltac:(lia)) as Fi. pose proof (Fr (S i) ltac:(lia)) as Fi'.
  destruct m as [|m].
  { assert (i = 0)%nat as -> by lia. rewrite !G by (auto; lia). cbn [Nat.eqb]. pose proof (Rinv_0_lt_compat (2 ^ 1000) ltac:(apply pow_lt; lra)). lra. }
  (* the step *)
  assert (Fd : fin (ndiv (nsub (bz stop idx) (bz start idx)) (nofnat (S (S m))))).
  { pose proof (Fr 1%nat ltac:(lia)) as Q. rewrite G in Q by (auto; lia). cbn [Nat.eqb cums] in Q. apply (fadd_fin _ _ Q). }
  rewrite G in Fi, Fi' |- * by (auto; lia). rewrite (G idx (S i)) by (auto; lia). set (M := S (S m)) in *.
  destruct (step_err (bz start idx) (bz stop idx) M ltac:(lia) ltac:(lia) Fd) as (_ & _ & Ed & Pd & Zd).
  assert (P1000 : 0 < / 2 ^ 1000) by (apply Rinv_0_lt_compat, pow_lt; lra).
  set (A := bz start idx) in *. set (B := bz stop idx) in *. set (d := ndiv (nsub B A) (nofnat M)) in *.
  assert (D0 : 0 <= val d) by (apply Pd; lra).
  replace (i =? M)%nat with false in Fi |- * by (symmetry; apply Nat.eqb_neq; lia).
  destruct (Nat.eqb_spec (S i) M) as [EM|EM].
  - (* the last one *)
    destruct i as [|j]; [lia|]. rewrite (fadd_val _ _ Fi). rewrite <- (rnd_val B). apply rnd_le.
    destruct (fadd_fin _ _ Fi) as [_ Fc]. pose proof (cums_err d j Fc) as Ec. pose proof (cums_mono d) as CM.
    destruct Hab as [Q|Q].
    { rewrite (Zd Q) in Ec. rewrite Rabs_R0, !Rmult_0_r, Rminus_0_r in Ec. assert (val (cums (fun _ => d) j) = 0).
      { destruct (Req_dec (val (cums (fun _ => d) j)) 0) as [|N]; auto. apply Rabs_pos_lt in N. lra. } lra. }
    assert (N0 : 0 < INR M) by (apply lt_0_INR; lia). set (D := (val B - val A) / INR M) in *.
    assert (EB : val B = val A + INR M * D) by (unfold D; field; lra).
    assert (EMj : INR M = INR (S j) + 1) by (rewrite <- S_INR; f_equal; lia).
    assert (DP : 0 < D) by (apply Rmult_lt_0_compat; [lra|now apply Rinv_0_lt_compat]).
    pose proof (upow_small j ltac:(lia)) as UP. pose proof (upow_ge j) as UG. set (w := (1 + uro) ^ j) in *. set (c := val (cums (fun _ => d) j)) in *. set (v := val d) in *.
    assert (NB : INR M <= 2 ^ 25). { rewrite INR_IZR_INZ. replace (2 ^ 25) with (IZR (2 ^ 25)) by (change (2 ^ 25)%Z with 33554432%Z; lra). apply IZR_le. lia. }
    assert (JN : INR j <= INR (S j)) by (rewrite S_INR; lra). set (n := INR (S j)) in *. assert (N1 : 1 <= n) by (unfold n; rewrite S_INR; pose proof (pos_INR j); lra).
    rewrite (Rabs_pos_eq v) in Ec by lra. rewrite (Rabs_pos_eq D) in Ed by lra.
    assert (C1 : c <= w * (n * v)). { pose proof (Rle_abs (c - n * v)). lra. }
    assert (V1 : v <= (1 + uro) ^ 2 * D + uflow). { pose proof (Rle_abs (v - D)). lra. }
    (* D is much larger than the smallest number *)
    assert (HD : uflow <= / 2 ^ 40 * D).
    { assert (X : / 2 ^ 1000 <= 2 ^ 25 * D). { apply Rle_trans with (INR M * D); [lra|]. apply Rmult_le_compat_r; lra. }
      unfold uflow. replace 1075%nat with (1000 + 75)%nat by reflexivity. rewrite pow_add, Rinv_mult. 
      assert (Y : / 2 ^ 1000 * / 2 ^ 75 <= 2 ^ 25 * D * / 2 ^ 75) by (apply Rmult_le_compat_r; [apply Rlt_le, Rinv_0_lt_compat; lra|exact X]). lra. }
    assert (V2 : v <= (1 + / 2 ^ 39) * D).
    { assert ((1 + uro) ^ 2 * D <= (1 + / 2 ^ 51) * D) by (apply Rmult_le_compat_r; [lra|unfold uro; lra]). lra. }
    assert (W1 : w <= 1 + / 2 ^ 52 * n) by (pose proof (Rmult_le_compat_l (/ 2 ^ 52) _ _ ltac:(lra) JN); lra).
    assert (C2 : c <= (1 + / 2 ^ 52 * n) * (n * ((1 + / 2 ^ 39) * D))).
    { eapply Rle_trans; [exact C1|]. apply Rmult_le_compat; [lra|apply Rmult_le_pos; lra|exact W1|]. apply Rmult_le_compat_l; lra. }
    assert (K : (1 + / 2 ^ 52 * n) * (n * (1 + / 2 ^ 39)) <= n + 1).
    { assert (n * n <= 2 ^ 25 * 2 ^ 25) by (apply Rmult_le_compat; lra). nra. }
    assert (K' : (1 + / 2 ^ 52 * n) * (n * (1 + / 2 ^ 39)) * D <= (n + 1) * D) by (apply Rmult_le_compat_r; lra).
    rewrite EB, EMj. lra.
  - destruct i as [|j].
    + rewrite (fadd_val _ _ Fi'). rewrite <- (rnd_val A) at 1. apply rnd_le. cbn [cums]. lra.
    + rewrite (fadd_val _ _ Fi), (fadd_val _ _ Fi'). apply rnd_le. apply Rplus_le_compat_l. apply cums_mono; auto. apply (fadd_fin _ _ Fi').
Qed.
Print Assumptions C94_span_monotone.
(* m * 2^e, rounded *)
Definition fdy (m e : Z) : f64 := binary_normalize 53 1024 prec_pos prec_emax mode_NE m e false.
Definition res_is {A} (P : A -> bool) (r : res A) : bool := match r with Ok a => P a | Err _ => false end.
Lemma res_is_true {A} (P : A -> bool) r : res_is P r = true -> exists a, r = Ok a /\ P a = true.
Proof. destruct r as [a|e]; cbn; [eauto|discriminate]. Qed.
(* below that the samples need not rise: from 0 to 6 times the smallest positive number in 10 steps *)
Theorem C94_subnormal_refuted : exists (start stop : nd f64) r,
  (get start [] <? get stop [])%K = true /\ span start stop 11 0 = Ok r /\
  (forall i, (i < 11)%nat -> fin (get r [i])) /\ (get r [10%nat] <? get r [9%nat])%K = true.
Proof.
  exists (full [] n0), (full [] (fdy 6 (-1074))).
  assert (Q : res_is (fun r => forallb (fun i => is_finite (get r [i])) (seq 0 11) && (get r [10%nat] <? get r [9%nat])%K) (span (full [] n0) (full [] (fdy 6 (-1074))) 11 0) = true)
    by (vm_compute; reflexivity).
  apply res_is_true in Q. destruct Q as (r & E & Q). apply andb_prop in Q. destruct Q as [Q1 Q2]. exists r.
  split; [vm_compute; reflexivity|]. split; [exact E|]. split; [|exact Q2].
  rewrite forallb_forall in Q1. intros i Hi. apply Q1. apply in_seq. lia.
Qed.
(* span(0, 1, 11): the sample next to the last is the double just below 0.9, the last one exactly 1 *)
Example ex_C94 : let start := full [] (n0 : f64) in let stop := full [] (n1 : f64) in
  bshape (shp start) (shp stop) = Some [] /\ axis_is 1 0 0 /\ (forall idx, bget start idx <> B754_nan /\ bget stop idx <> B754_nan) /\
  res_is (fun r => forallb (fun i => is_finite (get r [i])) (seq 0 11) && (get r [10%nat] =? n1)%K &&
                   (get r [9%nat] =? fdy 8106479329266892 (-53))%K && (fdy 9 0 / fdy 10 0 =? fdy 8106479329266893 (-53))%K) (span start stop 11 0) = true.
Proof.
  cbv zeta. split; [reflexivity|]. split; [split; [lia|left; reflexivity]|]. split; [intros idx; split; discriminate|]. vm_compute. reflexivity.
Qed.

(** ** zcen and pcen *)
Section Centre.
  Context {K : Type} {NK : Num K}.
  Definition mid2 (x y : K) : K := nmul (nadd y x) (ndiv n1 (nofZ 2)).
  Lemma zcen_ok (a : nd K) z k n : axis_is (length (shp a)) z k -> nth k (shp a) 0%nat = n -> (2 <= n)%nat ->
    exists r, zcen a z = Ok r /\ shp r = upd k (n - 1)%nat (shp a) /\
      forall idx, inb idx (shp a) -> forall i, (S i < n)%nat -> at_k r k i idx = mid2 (at_k a k i idx) (at_k a k (S i) idx).
  Proof.
    intros Hax En Hn. pose proof (axis_is_index _ _ _ Hax) as Hk'. destruct Hax as [Hk _].
    unfold zcen. destruct (shp a) as [|d s] eqn:Es; [cbn in Hk; lia|]. rewrite <- Es in *.
    rewrite Hk'. cbn [of_opt bind]. rewrite En. replace (n <? 2)%nat with false by (symmetry; apply Nat.ltb_ge; auto).
    rewrite (nd_map2_same _ _ _ (upd k (n - 1)%nat (shp a))) by reflexivity.
    eexists. split; [reflexivity|]. split; [reflexivity|]. intros idx Hi i Hin.
    unfold at_k. cbn [get]. assert (Hl := inb_length _ _ Hi).
    rewrite !bget_self by (cbn [nd_slice shp]; apply inb_upd_shape; auto; lia).
    cbn [nd_slice get]. rewrite nth_upd_eq, !upd_upd by lia. reflexivity.
  Qed.
  Lemma pcen_ok (a : nd K) z k n : axis_is (length (shp a)) z k -> nth k (shp a) 0%nat = n -> (1 <= n)%nat ->
    exists r, pcen a z = Ok r /\ shp r = upd k (S n) (shp a) /\
      forall idx, inb idx (shp a) ->
        at_k r k 0 idx = at_k a k 0 idx /\ at_k r k n idx = at_k a k (n - 1) idx /\
        forall i, (S i < n)%nat -> at_k r k (S i) idx = mid2 (at_k a k i idx) (at_k a k (S i) idx).
  Proof.
    intros Hax En Hn. pose proof (axis_is_index _ _ _ Hax) as Hk'. destruct Hax as [Hk _].
    unfold pcen. destruct (shp a) as [|d s] eqn:Es; [cbn in Hk; lia|]. rewrite <- Es in *.
    rewrite Hk'. cbn [of_opt bind]. rewrite En.
    replace (Nat.min 1 n) with 1%nat by lia.
    assert (F : forall lo idx, length idx = length (shp a) -> at_k (nd_slice k lo 1 a) k 0 idx = at_k a k lo idx).
    { intros lo idx Hl. unfold at_k. cbn [nd_slice get]. rewrite nth_upd_eq, upd_upd, Nat.add_0_r by lia. reflexivity. }
    destruct (Nat.ltb_spec n 2) as [H2|H2].
    - assert (n = 1)%nat by lia. clear H2.
      destruct (nd_cat2_ok (nd_slice k 0 1 a) (nd_slice k (n - 1) 1 a) k (shp a) 1 1) as (r & E & Sr & G); auto.
      exists r. split; [exact E|]. split; [rewrite Sr; f_equal; lia|]. intros idx Hi. assert (Hl := inb_length _ _ Hi).
      destruct (G idx Hl) as [G1 G2]. split; [|split; [|intros; lia]].
      + rewrite G1 by lia. apply F; auto.
      + replace n with (1 + 0)%nat at 1 by lia. rewrite G2. apply F; auto.
    - rewrite (nd_map2_same _ _ _ (upd k (n - 1)%nat (shp a))) by reflexivity. cbn [bind].
      match goal with |- context [nd_cat2 k _ ?m] => set (mid := m) end.
      assert (M : forall idx, inb idx (shp a) -> forall i, (S i < n)%nat -> at_k mid k i idx = mid2 (at_k a k i idx) (at_k a k (S i) idx)).
      { intros idx Hi i Hin. unfold at_k. cbn [mid get]. assert (Hl := inb_length _ _ Hi).
        rewrite !bget_self by (cbn [nd_slice shp]; apply inb_upd_shape; auto; lia).
        cbn [nd_slice get]. rewrite nth_upd_eq, !upd_upd by lia. reflexivity. }
      destruct (nd_cat2_ok (nd_slice k 0 1 a) mid k (shp a) 1 (n - 1)) as (r1 & E1 & S1 & G1); auto.
      rewrite E1. cbn [bind].
      destruct (nd_cat2_ok r1 (nd_slice k (n - 1) 1 a) k (shp a) (1 + (n - 1)) 1) as (r & E & Sr & G); auto.
      exists r. split; [exact E|]. split; [rewrite Sr; f_equal; lia|]. intros idx Hi. assert (Hl := inb_length _ _ Hi).
      destruct (G idx Hl) as [GA GB]. destruct (G1 idx Hl) as [GC GD]. split; [|split].
      + rewrite GA by lia. rewrite GC by lia. apply F; auto.
      + replace n with (1 + (n - 1) + 0)%nat at 1 by lia. rewrite GB. apply F; auto.
      + intros i Hin. rewrite GA by lia. change (S i) with (1 + i)%nat at 1. rewrite GD. apply M; auto.
  Qed.
End Centre.
Lemma half_val : fin (ndiv n1 (nofZ 2) : f64) /\ val (ndiv n1 (nofZ 2)) = / 2.
Proof.
  assert (F : fin (ndiv n1 (nofZ 2) : f64)) by (vm_compute; reflexivity). split; [exact F|].
  unfold val. rewrite <- SF2R_B2SF. replace (B2SF (ndiv n1 (nofZ 2) : f64)) with (SpecFloat.S754_finite false 4503599627370496 (-53)) by (vm_compute; reflexivity).
  unfold SF2R, Defs.F2R. cbn. lra.
Qed.
(* the mean of two doubles whose sum does not overflow: correctly rounded, and between the two *)
Lemma mid2_val (x y : f64) : fin (mid2 x y) -> fin x /\ fin y /\ val (mid2 x y) = rnd ((val x + val y) / 2).
Proof.
  unfold mid2. intros H. destruct (fmul_fin _ _ H) as [H1 _]. destruct (fadd_fin _ _ H1) as [Hy Hx]. split; [exact Hx|]. split; [exact Hy|].
  rewrite (fmul_val _ _ H), (fadd_val _ _ H1). destruct half_val as [_ ->]. fold (rnd (val y + val x) / 2). rewrite rnd_mean. f_equal. lra.
Qed.
Lemma rnd_between x y : Rmin (val x) (val y) <= rnd ((val x + val y) / 2) <= Rmax (val x) (val y).
Proof.
  assert (M : rnd (Rmin (val x) (val y)) = Rmin (val x) (val y)) by (unfold Rmin; destruct (Rle_dec _ _); apply rnd_val).
  assert (X : rnd (Rmax (val x) (val y)) = Rmax (val x) (val y)) by (unfold Rmax; destruct (Rle_dec _ _); apply rnd_val).
  rewrite <- M at 1. rewrite <- X. split; apply rnd_le; pose proof (Rmin_l (val x) (val y)); pose proof (Rmin_r (val x) (val y)); pose proof (Rmax_l (val x) (val y)); pose proof (Rmax_r (val x) (val y)); lra.
Qed.
Lemma mid2_fin (x y : f64) : fin (nadd y x) -> fin (mid2 x y).
Proof.
  intros H. unfold mid2. destruct half_val as [Fh Vh]. pose proof (Bmult_correct 53 1024 _ _ mode_NE (nadd y x) (ndiv n1 (nofZ 2))) as C.
  fold (val (nadd y x)) (val (ndiv n1 (nofZ 2))) in C. rewrite Vh in C. fold (val (nadd y x) / 2) in C.
  rewrite Raux.Rlt_bool_true in C.
  - destruct C as (_ & C & _). unfold fin. cbn [nmul NumF]. rewrite C. unfold fin in H, Fh. now rewrite H, Fh.
  - change (Rabs (rnd (val (nadd y x) / 2)) < Raux.bpow Zaux.radix2 1024). destruct (nadd y x) as [s|s| |s m e b] eqn:E; try discriminate H.
    + unfold val. cbn [B2R]. unfold Rdiv. rewrite Rmult_0_l, rnd_0, Rabs_R0. apply Raux.bpow_gt_0.
    + set (z := B754_finite s m e b). pose proof (abs_B2R_lt_emax 53 1024 z) as L. fold (val z) in L. apply Rle_lt_trans with (Rabs (val z)); [|exact L].
      pose proof (rnd_val z) as V. destruct (Rle_dec 0 (val z)) as [P|P].
      * assert (Q : 0 <= rnd (val z / 2)) by (rewrite <- rnd_0; apply rnd_le; lra). rewrite !Rabs_pos_eq by lra. rewrite <- V at 2. apply rnd_le. lra.
      * assert (Q : rnd (val z / 2) <= 0) by (rewrite <- rnd_0; apply rnd_le; lra). rewrite !Rabs_left1 by lra. assert (rnd (val z) <= rnd (val z / 2)) by (apply rnd_le; lra). lra.
Qed.
Theorem C95_zcen (a : nd f64) z k n : axis_is (length (shp a)) z k -> nth k (shp a) 0%nat = n -> (2 <= n)%nat ->
  exists r, zcen a z = Ok r /\ shp r = upd k (n - 1)%nat (shp a) /\
    forall idx, inb idx (shp a) -> forall i, (S i < n)%nat ->
      let x := at_k a k i idx in let y := at_k a k (S i) idx in fin (y + x)%K ->
      fin (at_k r k i idx) /\ val (at_k r k i idx) = rnd ((val x + val y) / 2) /\
      Rmin (val x) (val y) <= val (at_k r k i idx) <= Rmax (val x) (val y).
Proof.
  intros H1 H2 H3. destruct (zcen_ok a z k n H1 H2 H3) as (r & E & S & G). exists r. split; [exact E|]. split; [exact S|].
  intros idx Hi i Hin x y F. rewrite (G idx Hi i Hin). fold x y. pose proof (mid2_fin x y F) as F'. split; [exact F'|].
  destruct (mid2_val x y F') as (_ & _ & ->). split; [reflexivity|apply rnd_between].
Qed.
Theorem C95_pcen (a : nd f64) z k n : axis_is (length (shp a)) z k -> nth k (shp a) 0%nat = n -> (1 <= n)%nat ->
  exists r, pcen a z = Ok r /\ shp r = upd k (S n) (shp a) /\
    forall idx, inb idx (shp a) ->
      at_k r k 0 idx = at_k a k 0 idx /\ at_k r k n idx = at_k a k (n - 1) idx /\
      forall i, (S i < n)%nat ->
        let x := at_k a k i idx in let y := at_k a k (S i) idx in fin (y + x)%K ->
        fin (at_k r k (S i) idx) /\ val (at_k r k (S i) idx) = rnd ((val x + val y) / 2) /\
        Rmin (val x) (val y) <= val (at_k r k (S i) idx) <= Rmax (val x) (val y).
Proof.
  intros H1 H2 H3. destruct (pcen_ok a z k n H1 H2 H3) as (r & E & S & G). exists r. split; [exact E|]. split; [exact S|].
  intros idx Hi. destruct (G idx Hi) as (G1 & G2 & G3). split; [exact G1|]. split; [exact G2|]. intros i Hin x y F. rewrite (G3 i Hin). fold x y. pose proof (mid2_fin x y F) as F'. split; [exact F'|].
  destruct (mid2_val x y F') as (_ & _ & ->). split; [reflexivity|apply rnd_between].
Qed.
(* the mean of two large doubles overflows: two neighbours 2^1023 have the mean inf *)
Theorem C95_overflow_refuted : exists (a r : nd f64), fin (get a [0%nat]) /\ fin (get a [1%nat]) /\ zcen a (-1) = Ok r /\ get r [0%nat] = B754_infinity false.
Proof.
  exists (full [2%nat] (fdy 1 1023)).
  destruct (zcen_ok (full [2%nat] (fdy 1 1023)) (-1) 0 2) as (r & E & _ & G); [split; [cbn; lia|right; reflexivity]|reflexivity|lia|].
  exists r. split; [vm_compute; reflexivity|]. split; [vm_compute; reflexivity|]. split; [exact E|].
  specialize (G [0%nat] ltac:(repeat constructor) 0%nat ltac:(lia)). unfold at_k in G. cbn [upd] in G. rewrite G. vm_compute. reflexivity.
Qed.
Example ex_C95 : let a := Nd [3%nat] (fun idx => nofZ (Z.of_nat (nth 0 idx 0%nat)) / nofZ 10)%K : nd f64 in
  axis_is (length (shp a)) (-1) 0 /\ nth 0 (shp a) 0%nat = 3%nat /\ inb [0%nat] (shp a) /\ fin (get a [2%nat] + get a [1%nat])%K /\
  res_is (fun r => (get r [1%nat] =? fdy 5404319552844596 (-55))%K && (nofZ 3 / nofZ 20 =? fdy 5404319552844595 (-55))%K) (zcen a (-1)) = true.
Proof.
  cbv zeta. split; [split; [cbn; lia|right; reflexivity]|]. split; [reflexivity|]. split; [repeat constructor|]. split; vm_compute; reflexivity.
Qed.
Print Assumptions C95_zcen.

(** ** polyfun *)
Local Open Scope R_scope.
Lemma peval_abs_pos c x : 0 <= peval (map Rabs c) (Rabs x).
Proof.
  induction c as [|a c IH]; cbn [map]; [rewrite peval_nil; lra|]. rewrite peval_cons. pose proof (Rabs_pos a). pose proof (Rmult_le_pos _ _ (Rabs_pos x) IH). lra.
Qed.
Lemma peval_abs_le c x : Rabs (peval c x) <= peval (map Rabs c) (Rabs x).
Proof.
  induction c as [|a c IH]; cbn [map]; [rewrite !peval_nil, Rabs_R0; lra|]. rewrite !peval_cons. eapply Rle_trans; [apply Rabs_triang|]. rewrite Rabs_mult.
  apply Rplus_le_compat_l. apply Rmult_le_compat_l; auto using Rabs_pos.
Qed.
Lemma ones_pos n x : 0 <= peval (repeat 1 n) (Rabs x).
Proof. induction n as [|n IH]; cbn [repeat]; [rewrite peval_nil; lra|]. rewrite peval_cons. pose proof (Rmult_le_pos _ _ (Rabs_pos x) IH). lra. Qed.
(* n: number of multiply-add steps *)
Definition poly_err (c : list R) (x : R) (n : nat) : R :=
  ((1 + uro) ^ (2 * n) - 1) * peval (map Rabs c) (Rabs x) + (1 + uro) ^ (2 * n) * (uflow * peval (repeat 1 n) (Rabs x)).
Lemma poly_step (a x p : f64) s n : fin (a + p * x)%K \/ fin (p * x + a)%K ->
  Rabs (val p - peval s (val x)) <= poly_err s (val x) n ->
  fin p /\ fin x /\ fin a /\ Rabs (rnd (rnd (val p * val x) + val a) - peval (val a :: s) (val x)) <= poly_err (val a :: s) (val x) (S n).
Proof.
  intros F H. assert (F' : fin (p * x)%K /\ fin a) by (destruct F as [F|F]; apply fadd_fin in F; tauto). destruct F' as [Fm Fa].
  destruct (fmul_fin _ _ Fm) as [Fp Fx]. split; [exact Fp|]. split; [exact Fx|]. split; [exact Fa|].
  rewrite <- (fmul_val _ _ Fm). destruct (rnd_plus_err (p * x)%K a) as (e & He & ->). rewrite (fmul_val _ _ Fm).
  destruct (rnd_err (val p * val x)) as (d & h & Hd & Hh & ->). unfold poly_err in *. cbn [map repeat]. rewrite !peval_cons.
  replace (2 * S n)%nat with (2 + 2 * n)%nat by lia. rewrite pow_add. pose proof (upow_ge (2 * n)) as W. set (w := (1 + uro) ^ (2 * n)) in *. clearbody w.
  pose proof (peval_abs_le s (val x)) as PA. pose proof (peval_abs_pos s (val x)) as P0. set (A := peval (map Rabs s) (Rabs (val x))) in *. clearbody A.
  pose proof (ones_pos n (val x)) as H0. set (H1 := peval (repeat 1 n) (Rabs (val x))) in *. clearbody H1. set (P := peval s (val x)) in *. clearbody P.
  set (X := val x) in *. set (c := val a) in *. set (q := val p) in *. clearbody X c q. clear F Fm Fa Fp Fx p x a s.
  pose proof uro_pos as U. pose proof uflow_pos as UF. pose proof (Rabs_pos X) as X0. pose proof (Rabs_pos c) as C0.
  assert (Q2 : Rabs ((1 + d) * (1 + e)) <= (1 + uro) ^ 2).
  { rewrite Rabs_mult. replace ((1 + uro) ^ 2) with ((1 + uro) * (1 + uro)) by ring. apply Rmult_le_compat; auto using Rabs_pos, abs_1e. }
  assert (Q3 : Rabs ((1 + d) * (1 + e) - 1) <= (1 + uro) ^ 2 - 1).
  { replace ((1 + d) * (1 + e) - 1) with (d + e * (1 + d)) by ring. eapply Rle_trans; [apply Rabs_triang|]. rewrite Rabs_mult.
    assert (Rabs e * Rabs (1 + d) <= uro * (1 + uro)) by (apply Rmult_le_compat; auto using Rabs_pos, abs_1e). replace ((1 + uro) ^ 2 - 1) with (uro + uro * (1 + uro)) by ring. lra. }
  replace ((q * X * (1 + d) + h + c) * (1 + e) - (c + X * P)) with ((q - P) * X * ((1 + d) * (1 + e)) + P * X * ((1 + d) * (1 + e) - 1) + h * (1 + e) + c * e) by ring.
  assert (B1 : Rabs ((q - P) * X * ((1 + d) * (1 + e))) <= ((w - 1) * A + w * (uflow * H1)) * Rabs X * (1 + uro) ^ 2).
  { rewrite !(Rabs_mult (_ * X)), (Rabs_mult _ X). apply Rmult_le_compat; auto using Rabs_pos; [apply Rmult_le_pos; apply Rabs_pos|]. apply Rmult_le_compat_r; auto. }
  assert (B2 : Rabs (P * X * ((1 + d) * (1 + e) - 1)) <= A * Rabs X * ((1 + uro) ^ 2 - 1)).
  { rewrite !(Rabs_mult (_ * X)), (Rabs_mult _ X). apply Rmult_le_compat; auto using Rabs_pos; [apply Rmult_le_pos; apply Rabs_pos|]. apply Rmult_le_compat_r; auto. }
  assert (B3 : Rabs (h * (1 + e)) <= uflow * (1 + uro)) by (rewrite Rabs_mult; apply Rmult_le_compat; auto using Rabs_pos, abs_1e).
  pose proof (err_mul c e He) as B4.
  assert (V : 1 + uro <= (1 + uro) ^ 2 * w). { replace ((1 + uro) ^ 2 * w) with ((1 + uro) * ((1 + uro) * w)) by ring. rewrite <- (Rmult_1_r (1 + uro)) at 1. apply Rmult_le_compat_l; [lra|]. rewrite <- (Rmult_1_r 1). apply Rmult_le_compat; lra. }
  assert (V3 : uflow * (1 + uro) <= uflow * ((1 + uro) ^ 2 * w)) by (apply Rmult_le_compat_l; lra).
  assert (V4 : uro * Rabs c <= ((1 + uro) ^ 2 * w - 1) * Rabs c) by (apply Rmult_le_compat_r; lra).
  eapply Rle_trans; [eapply Rle_trans; [apply Rabs_triang|apply Rplus_le_compat_r; eapply Rle_trans; [apply Rabs_triang|apply Rplus_le_compat_r; apply Rabs_triang]]|].
  replace (((1 + uro) ^ 2 * w - 1) * (Rabs c + Rabs X * A) + (1 + uro) ^ 2 * w * (uflow * (1 + Rabs X * H1)))
    with (((w - 1) * A + w * (uflow * H1)) * Rabs X * (1 + uro) ^ 2 + A * Rabs X * ((1 + uro) ^ 2 - 1) + uflow * ((1 + uro) ^ 2 * w) + ((1 + uro) ^ 2 * w - 1) * Rabs c) by ring.
  lra.
Qed.
Lemma fold_fin (x : f64) r p : fin (fold_left (fun p cn => p * x + cn)%K r p) -> fin p.
Proof.
  revert p. induction r as [|a r IH]; intros p H; [exact H|]. cbn [fold_left] in H. specialize (IH _ H). apply fadd_fin in IH. destruct IH as [IH _]. apply (fmul_fin _ _ IH).
Qed.
Lemma fold_err (x : f64) r : forall p s n, fin (fold_left (fun p cn => p * x + cn)%K r p) ->
  Rabs (val p - peval (map val s) (val x)) <= poly_err (map val s) (val x) n ->
  Rabs (val (fold_left (fun p cn => p * x + cn)%K r p) - peval (map val (rev r ++ s)) (val x)) <= poly_err (map val (rev r ++ s)) (val x) (length r + n).
Proof.
  induction r as [|a r IH]; intros p s n F H; [exact H|]. cbn [fold_left] in *. pose proof (fold_fin _ _ _ F) as Fp.
  destruct (poly_step a x p (map val s) n (or_intror Fp) H) as (_ & _ & _ & Q). cbn [rev]. rewrite <- app_assoc. cbn [app].
  replace (length (a :: r) + n)%nat with (length r + S n)%nat by (cbn; lia). apply IH; [exact F|]. cbn [map].
  destruct (fadd_fin _ _ Fp) as [Fm _]. rewrite (fadd_val _ _ Fp), (fmul_val _ _ Fm). exact Q.
Qed.
Theorem C96_polyfun_error (c : list f64) (x r : f64) : polyfun c x = Ok r -> fin r ->
  let C := map val c in let X := val x in let n := (length c - 1)%nat in
  Rabs (val r - peval C X) <= ((1 + uro) ^ (2 * n) - 1) * peval (map Rabs C) (Rabs X) + (1 + uro) ^ (2 * n) * (uflow * peval (repeat 1 n) (Rabs X)).
Proof.
  intros E F C X n. destruct c as [|c0 c']; [discriminate|]. injection E as <-. set (c := c0 :: c') in *.
  assert (HC : C = map val (rev (rev c))) by (now rewrite rev_involutive).
  assert (Hn : n = (length (rev c) - 1)%nat) by (now rewrite rev_length). assert (NE : rev c <> []). { intros Q. apply (f_equal (@length _)) in Q. rewrite rev_length in Q. discriminate. }
  unfold horner in *. destruct (rev c) as [|a [|b t]]; [congruence| |]; cbn [polysetup] in *.
  - cbn [fold_left] in *. cbn [rev app map] in HC. rewrite HC, Hn. cbn [length Nat.sub Nat.mul Nat.add pow repeat]. cbn [map]. rewrite (fadd_val _ _ F), val_n0, Rplus_0_r, rnd_val.
    rewrite !peval_cons, !peval_nil. replace (val a - (val a + X * 0)) with 0 by ring. rewrite Rabs_R0. lra.
  - pose proof (fold_fin _ _ _ F) as Fp.
    assert (I0 : Rabs (val a - peval [val a] (val x)) <= poly_err [val a] (val x) 0).
    { unfold poly_err. cbn [Nat.mul Nat.add pow repeat map]. rewrite !peval_cons, !peval_nil. replace (val a - (val a + val x * 0)) with 0 by ring. rewrite Rabs_R0. lra. }
    destruct (poly_step b x a [val a] 0 (or_introl Fp) I0) as (_ & _ & _ & Q). destruct (fadd_fin _ _ Fp) as [_ Fm].
    pose proof (fold_err x t (b + a * x)%K [b; a] 1 F) as Z. rewrite HC. cbn [rev]. rewrite <- !app_assoc. cbn [app].
    replace n with (length t + 1)%nat by (rewrite Hn; cbn; lia). apply Z. cbn [map]. rewrite (fadd_val _ _ Fp), (fmul_val _ _ Fm), (Rplus_comm (val b)). exact Q.
Qed.
Print Assumptions C96_polyfun_error.
(* integers: no rounding at all while the sum of the absolute values stays within 2^53 *)
Fixpoint zpoly (c : list Z) (x : Z) : Z := match c with [] => 0 | a :: c => a + x * zpoly c x end%Z.
Definition int64 (x : f64) (z : Z) : Prop := fin x /\ val x = IZR z.
Lemma zpoly_abs c x M : (Z.abs x <= M)%Z -> (0 <= zpoly (map Z.abs c) M /\ Z.abs (zpoly c x) <= zpoly (map Z.abs c) M)%Z.
Proof.
  intros H. induction c as [|a c [IH1 IH2]]; cbn [zpoly map]; [lia|]. pose proof (Z.abs_triangle a (x * zpoly c x)) as T. rewrite Z.abs_mul in T. nia.
Qed.
Lemma zpoly_app c d M : (1 <= M -> zpoly (map Z.abs d) M <= zpoly (map Z.abs (c ++ d)) M)%Z.
Proof.
  intros H. induction c as [|a c IH]; cbn [app map zpoly]; [lia|]. pose proof (proj1 (zpoly_abs (c ++ d) 1 M ltac:(lia))). nia.
Qed.
Lemma int_step (a p x : f64) za zp zx : int64 a za -> int64 p zp -> int64 x zx -> (Z.abs za + Z.abs zx * Z.abs zp <= 2 ^ 53)%Z ->
  int64 (p * x + a)%K (za + zx * zp) /\ int64 (a + p * x)%K (za + zx * zp).
Proof.
  intros [Fa Va] [Fp Vp] [Fx Vx] H. assert (Q : (Z.abs (zx * zp) <= 2 ^ 53)%Z) by (rewrite Z.abs_mul; lia).
  assert (Q2 : (Z.abs (za + zx * zp) <= 2 ^ 53)%Z) by (pose proof (Z.abs_triangle za (zx * zp)) as T; rewrite Z.abs_mul in T; lia).
  destruct (fmul_int p x (zx * zp)) as [Fm Vm]; auto; [rewrite Vp, Vx, mult_IZR; ring|].
  split; apply fadd_int; auto; rewrite Va, Vm, plus_IZR; ring.
Qed.

Lemma fold_int (x : f64) zx M : int64 x zx -> (Z.abs zx <= M)%Z -> (1 <= M)%Z -> forall r zr, Forall2 int64 r zr ->
  forall p s, int64 p (zpoly s zx) -> (zpoly (map Z.abs (rev zr ++ s)) M <= 2 ^ 53)%Z ->
  int64 (fold_left (fun p cn => p * x + cn)%K r p) (zpoly (rev zr ++ s) zx).
Proof.
  intros Hx HM M1 r zr F. induction F as [|a za r zr Ha F IH]; intros p s Hp B; [exact Hp|]. cbn [rev] in *. rewrite <- app_assoc in *. cbn [app] in *.
  cbn [fold_left]. apply IH; [|exact B]. pose proof (zpoly_app (rev zr) (za :: s) M M1) as A. cbn [map zpoly] in A. pose proof (zpoly_abs s zx M HM) as [Q1 Q2].
  cbn [zpoly]. apply int_step; auto. nia.
Qed.
Theorem C96_polyfun_integers (c : list f64) (x : f64) zc zx : c <> [] -> Forall2 int64 c zc -> int64 x zx ->
  (zpoly (map Z.abs zc) (Z.max 1 (Z.abs zx)) <= 2 ^ 53)%Z ->
  exists r, polyfun c x = Ok r /\ int64 r (zpoly zc zx).
Proof.
  intros NE F Hx B. destruct c as [|c0 c']; [congruence|]. set (c := c0 :: c') in *. exists (horner c x). split; [reflexivity|]. unfold horner.
  assert (FR : Forall2 int64 (rev c) (rev zc)).
  { clear - F. induction F as [|a b l l' H F IH]; [constructor|]. cbn [rev]. apply Forall2_app; [exact IH|]. repeat constructor; apply H. }
  rewrite <- (rev_involutive zc) in B |- *. revert FR B. generalize (rev zc). intros rz FR B. assert (NR : rev c <> []) by (intros Q; apply (f_equal (@length _)) in Q; rewrite rev_length in Q; discriminate).
  destruct FR as [|a za r zr Ha FR]; [congruence|]. set (M := Z.max 1 (Z.abs zx)) in *. destruct FR as [|b zb r zr Hb FR]; cbn [polysetup].
  - cbn [fold_left rev app zpoly map] in *. destruct Ha as [Fa Va]. pose proof (fadd_int a n0 (za + zx * 0)) as Q. apply Q; auto; [reflexivity|rewrite Va, val_n0, Z.mul_0_r, Z.add_0_r; ring|lia].
  - cbn [rev] in *. rewrite <- !app_assoc in *. cbn [app] in *. pose proof (zpoly_app (rev zr) [zb; za] M ltac:(lia)) as A. cbn [map zpoly] in A.
    apply (fold_int x zx M Hx ltac:(lia) ltac:(lia) r zr FR); [|exact B]. cbn [zpoly].
    replace (zb + zx * (za + zx * 0))%Z with (zb + zx * za)%Z by ring. apply int_step; auto. nia.
Qed.
(* 1 - 2 x + x^2 at the double next above 1: the exact value 2^-104 is lost, within the bound *)
Example ex_C96 : let c := [n1; nopp (nofZ 2); n1] : list f64 in let x := fdy 4503599627370497 (-52) in
  res_is (fun r => is_finite r && (r =? n0)%K) (polyfun c x) = true /\
  Forall2 int64 c [1; -2; 1]%Z /\ int64 (nofZ 94906264) 94906264 /\ (zpoly (map Z.abs [1; -2; 1]) (Z.max 1 (Z.abs 94906264)) <= 2 ^ 53)%Z /\
  res_is (fun r => (r =? nofZ 9007198756625169)%K) (polyfun c (nofZ 94906264)) = true.
Proof.
  cbv zeta. split; [vm_compute; reflexivity|]. assert (I : forall z, (Z.abs z <= 2 ^ 53)%Z -> int64 (nofZ z) z) by (intros z H; apply (fofZ_val z H)).
  split.
  - constructor; [apply (I 1%Z); lia|]. constructor; [|constructor; [apply (I 1%Z); lia|constructor]].
    destruct (I 2%Z ltac:(lia)) as [F V]. split; [now apply fin_opp|]. rewrite val_opp, V. lra.
  - split; [apply I; lia|]. split; [vm_compute; discriminate|vm_compute; reflexivity].
Qed.
Print Assumptions C96_polyfun_integers.
