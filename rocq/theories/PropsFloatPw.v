(* Piecewise polynomials in double precision: evaluation.  /repo/npplus/pwpoly.py:299-321, 1460-1481. *)
From Coq Require Import List Arith ZArith Bool Lia Reals Lra.
From Flocq Require Import BinarySingleNaN.
From Verif Require Import Num PyBase NdArray Poly SpecPoly PolyProofs PwPoly PwBase Float64 PropsFloat.
Import ListNotations.
Local Open Scope R_scope.

(* a PwPoly whose knots are finite and increasing; the coefficients may be any doubles *)
Record fpw (p : pwpoly f64) : Prop := {
  fp_cl : pcl p = Pw;
  fp_n : (1 <= cn (pc p))%nat;
  fp_col : forall comp i, inb comp (csh (pc p)) -> (i < ck (pc p))%nat -> length (ccol (pc p) comp i) = cn (pc p);
  fp_len : length (pxk0 p) = ck (pc p);
  fp_nk : (1 <= length (pxk p))%nat;
  fp_first : nth 0 (pxk0 p) n0 = nth 0 (pxk p) n0;
  fp_fin : Forall fin (pxk p);
  fp_inc : incr (map val (pxk p)) }.

(* comparisons are exact, so searchsorted finds the right piece *)
Lemma ssearch_val (l : list f64) (x : f64) : Forall fin l -> fin x -> ssearch l x = ssearch (map val l) (val x).
Proof.
  intros H F. induction H as [|a l Ha H IH]; [reflexivity|]. cbn [ssearch map]. rewrite flt_val by auto. numR. rewrite IH. reflexivity.
Qed.
(* a polynomial at a point with a relative error *)
Lemma peval_scale c x e : Rabs e <= uro -> forall n, (length c <= S n)%nat ->
  Rabs (peval c (x * (1 + e)) - peval c x) <= ((1 + uro) ^ n - 1) * peval (map Rabs c) (Rabs x) /\
  peval (map Rabs c) (Rabs (x * (1 + e))) <= (1 + uro) ^ n * peval (map Rabs c) (Rabs x).
Proof.
  intros He. pose proof uro_pos as U. induction c as [|a c IH]; intros n Hn.
  { cbn [map]. rewrite !peval_nil. replace (0 - 0) with 0 by ring. rewrite Rabs_R0. lra. }
  destruct c as [|b c].
  { cbn [map]. rewrite !peval_cons, !peval_nil, !Rmult_0_r, !Rplus_0_r. replace (a - a) with 0 by ring. rewrite Rabs_R0. pose proof (Rabs_pos a).
    pose proof (upow_ge n). split; [apply Rmult_le_pos; lra|]. rewrite <- (Rmult_1_l (Rabs a)) at 1. apply Rmult_le_compat_r; lra. }
  destruct n as [|n]; [cbn in Hn; lia|]. destruct (IH n ltac:(cbn in *; lia)) as [I1 I2]. set (c' := b :: c) in *. clearbody c'.
  cbn [map]. rewrite !(peval_cons a), !(peval_cons (Rabs a)). pose proof (peval_abs_pos c' x) as P0. pose proof (peval_abs_le c' x) as PA. pose proof (peval_abs_le c' (x * (1 + e))) as PB.
  set (A := peval (map Rabs c') (Rabs x)) in *. set (A' := peval (map Rabs c') (Rabs (x * (1 + e)))) in *. set (q := peval c' (x * (1 + e))) in *. set (r := peval c' x) in *.
  cbn [pow]. pose proof (upow_ge n) as W. set (w := (1 + uro) ^ n) in *. clearbody A A' q r w. pose proof (Rabs_pos a) as Pa. pose proof (Rabs_pos x) as Px.
  assert (W1 : 1 <= (1 + uro) * w) by (rewrite <- (Rmult_1_r 1) at 1; apply Rmult_le_compat; lra).
  assert (M1 : Rabs (1 + e) * Rabs (q - r) <= (1 + uro) * ((w - 1) * A)) by (apply Rmult_le_compat; auto using Rabs_pos, abs_1e).
  split.
  - replace (a + x * (1 + e) * q - (a + x * r)) with (x * ((1 + e) * (q - r) + e * r)) by ring. rewrite Rabs_mult.
    apply Rle_trans with (Rabs x * (((1 + uro) * w - 1) * A)).
    + apply Rmult_le_compat_l; auto. eapply Rle_trans; [apply Rabs_triang|]. rewrite !Rabs_mult.
      assert (Rabs e * Rabs r <= uro * A) by (apply Rmult_le_compat; auto using Rabs_pos). lra.
    + replace (((1 + uro) * w - 1) * (Rabs a + Rabs x * A)) with (Rabs x * (((1 + uro) * w - 1) * A) + ((1 + uro) * w - 1) * Rabs a) by ring.
      assert (0 <= ((1 + uro) * w - 1) * Rabs a) by (apply Rmult_le_pos; lra). lra.
  - rewrite Rabs_mult. assert (A0 : 0 <= A') by (eapply Rle_trans; [apply Rabs_pos|exact PB]).
    assert (Rabs (1 + e) * A' <= (1 + uro) * (w * A)) by (apply Rmult_le_compat; auto using Rabs_pos, abs_1e).
    assert (Rabs x * (Rabs (1 + e) * A') <= Rabs x * ((1 + uro) * (w * A))) by (apply Rmult_le_compat_l; auto).
    assert (1 * Rabs a <= (1 + uro) * w * Rabs a) by (apply Rmult_le_compat_r; lra).
    replace (Rabs x * Rabs (1 + e) * A') with (Rabs x * (Rabs (1 + e) * A')) by ring. replace ((1 + uro) * w * (Rabs a + Rabs x * A)) with ((1 + uro) * w * Rabs a + Rabs x * ((1 + uro) * (w * A))) by ring. lra.
Qed.
Lemma abs_ones n : map Rabs (repeat 1 n) = repeat 1 n.
Proof. induction n as [|n IH]; cbn; [reflexivity|]. rewrite IH, Rabs_R1. reflexivity. Qed.
Lemma map_val_nth (l : list f64) i : (i < length l)%nat -> nth i (map val l) 0 = val (nth i l n0).
Proof. intros H. rewrite (nth_indep (map val l) 0 (val n0)) by (rewrite map_length; auto). apply map_nth. Qed.

(** ** C104 *)
(* For every double x the call uses the piece containing x, with no rounding in the choice, and a finite result is the value of that
   piece's polynomial up to three roundings per degree, relative to the sum of the absolute values of its terms. *)
Theorem C104_call_error (p : pwpoly f64) comp (x : f64) : fpw p -> inb comp (csh (pc p)) -> fin x ->
  exists r i, pw_call p comp x = Ok r /\ in_piece (map val (pxk p)) i (val x) /\ (forall j, in_piece (map val (pxk p)) j (val x) -> j = i) /\
    let C := map val (ccol (pc p) comp i) in let D := val x - left_knot (map val (pxk p)) i in let n := (cn (pc p) - 1)%nat in
    (fin r -> Rabs (val r - peval C D) <=
      ((1 + uro) ^ (3 * n) - 1) * peval (map Rabs C) (Rabs D) + (1 + uro) ^ (3 * n) * (uflow * peval (repeat 1 n) (Rabs D))).
Proof.
  intros W Hb Fx. destruct W as [W1 W2 W3 W4 W5 W6 W7 W8]. set (i := ssearch (map val (pxk p)) (val x)).
  pose proof (ssearch_piece (map val (pxk p)) (val x) W8) as Hi. fold i in Hi.
  assert (L0 : length (pxk0 p) = S (length (pxk p))) by (unfold pxk in *; destruct (pxk0 p); cbn in *; lia).
  assert (Li : (i <= length (pxk p))%nat) by (destruct Hi as [Q _]; rewrite map_length in Q; exact Q).
  exists (pw_val p comp x), i. split.
  { unfold pw_call, pw_ok. rewrite W4, Nat.eqb_refl. destruct (Nat.eqb_spec (cn (pc p)) 0); [lia|]. destruct (Nat.eqb_spec (ck (pc p)) 0); [lia|]. rewrite W1. reflexivity. }
  split; [exact Hi|]. split; [intros j Hj; apply (in_piece_unique _ _ _ _ Hj Hi)|]. cbv zeta. intros F.
  unfold pw_val, pw_reduce in *. rewrite W1 in *. cbv zeta in *. rewrite (ssearch_val _ _ W7 Fx) in *. fold i in F |- *.
  pose proof (W3 comp i Hb ltac:(lia)) as LC. set (c := ccol (pc p) comp i) in *. set (kn := nth i (pxk0 p) n0) in *.
  assert (Hk : fin kn /\ val kn = left_knot (map val (pxk p)) i).
  { unfold kn. assert (NF : forall j, (j < length (pxk p))%nat -> fin (nth j (pxk p) n0)) by (intros j Hj; rewrite Forall_forall in W7; apply W7, nth_In; auto).
    destruct i as [|j]; cbn [left_knot].
    - rewrite W6, map_val_nth by lia. split; [apply NF; lia|reflexivity].
    - assert (E : nth (S j) (pxk0 p) n0 = nth j (pxk p) n0) by (unfold pxk; destruct (pxk0 p); [destruct j|]; reflexivity). rewrite E, map_val_nth by lia. split; [apply NF; lia|reflexivity]. }
  destruct Hk as [Fk Vk]. rewrite <- Vk.
  destruct c as [|c0 c'] eqn:Ec; [cbn in LC; lia|]. rewrite <- Ec in *.
  pose proof (C96_polyfun_error c (nsub x kn) (horner c (nsub x kn)) ltac:(rewrite Ec; reflexivity) F) as E. cbv zeta in E. rewrite LC in E.
  set (n := (cn (pc p) - 1)%nat) in *. destruct (Nat.eq_dec n 0) as [N0|N0].
  - (* constants *)
    rewrite N0 in *. cbn [Nat.mul Nat.add pow repeat] in *. rewrite !peval_nil in *. assert (c' = []) as -> by (rewrite Ec in LC; destruct c'; [reflexivity|cbn in LC; lia]).
    rewrite Ec in *. cbn [map] in *. rewrite !peval_cons, !peval_nil, !Rmult_0_r, !Rplus_0_r in *. lra.
  - assert (Fd : fin (nsub x kn)).
    { clear - F LC N0. unfold horner in F. set (d := nsub x kn) in *. clearbody d. assert (L : (2 <= length (rev c))%nat) by (rewrite rev_length; lia).
      destruct (rev c) as [|a [|b t]]; [cbn in L; lia|cbn in L; lia|]. cbn [polysetup] in F. apply fold_fin in F. apply fadd_fin in F. destruct F as [_ F]. apply (fmul_fin _ _ F). }
    destruct (rnd_plus_err x (nopp kn)) as (e & He & Q). rewrite val_opp in Q. fold (val x - val kn) in Q. rewrite <- (fsub_val _ _ Fd) in Q.
    set (D := val x - val kn) in *. rewrite Q in E. set (C := map val c) in *.
    assert (LC' : (length C <= S n)%nat) by (unfold C; rewrite map_length; lia).
    destruct (peval_scale C D e He n LC') as [P1 P2]. assert (LO : (length (repeat 1%R n) <= S n)%nat) by (rewrite repeat_length; lia).
    destruct (peval_scale (repeat 1 n) D e He n LO) as [_ P3]. rewrite abs_ones in P3. pose proof (peval_abs_pos C D) as P0. pose proof (ones_pos n D) as O0.
    replace (3 * n)%nat with (2 * n + n)%nat by lia. rewrite pow_add. pose proof (upow_ge (2 * n)) as V2. pose proof (upow_ge n) as V1. set (v := (1 + uro) ^ (2 * n)) in *. set (w := (1 + uro) ^ n) in *.
    set (A := peval (map Rabs C) (Rabs D)) in *. set (O := peval (repeat 1 n) (Rabs D)) in *. set (A' := peval (map Rabs C) (Rabs (D * (1 + e)))) in *. set (O' := peval (repeat 1 n) (Rabs (D * (1 + e)))) in *.
    set (q := peval C (D * (1 + e))) in *. set (s := peval C D) in *. set (y := val (horner c (nsub x kn))) in *. clearbody v w A O A' O' q s y. pose proof uflow_pos as UF.
    replace (y - s) with ((y - q) + (q - s)) by ring. eapply Rle_trans; [apply Rabs_triang|].
    assert (T1 : (v - 1) * A' <= (v - 1) * (w * A)) by (apply Rmult_le_compat_l; lra).
    assert (T2 : v * (uflow * O') <= v * (uflow * (w * O))) by (apply Rmult_le_compat_l; [lra|]; apply Rmult_le_compat_l; lra).
    replace ((v * w - 1) * A) with ((v - 1) * (w * A) + (w - 1) * A) by ring. replace (v * w * (uflow * O)) with (v * (uflow * (w * O))) by ring. lra.
Qed.
Print Assumptions C104_call_error.
(* with integer knots, coefficients and argument there is no rounding at all, up to 2^53 *)
Theorem C104_call_integers (p : pwpoly f64) comp (x : f64) i zc zk zx : fpw p -> inb comp (csh (pc p)) -> int64 x zx ->
  in_piece (map val (pxk p)) i (val x) -> Forall2 int64 (ccol (pc p) comp i) zc -> left_knot (map val (pxk p)) i = IZR zk ->
  (zpoly (map Z.abs zc) (Z.max 1 (Z.abs (zx - zk))) <= 2 ^ 53)%Z -> (Z.abs (zx - zk) <= 2 ^ 53)%Z ->
  exists r, pw_call p comp x = Ok r /\ int64 r (zpoly zc (zx - zk)).
Proof.
  intros W Hb [Fx Vx] Hi HF Hk B B2. destruct W as [W1 W2 W3 W4 W5 W6 W7 W8].
  assert (Ei : ssearch (pxk p) x = i) by (rewrite ssearch_val by auto; apply ssearch_unique; auto).
  assert (L0 : length (pxk0 p) = S (length (pxk p))) by (unfold pxk in *; destruct (pxk0 p); cbn in *; lia).
  assert (Li : (i <= length (pxk p))%nat) by (destruct Hi as [Q _]; rewrite map_length in Q; exact Q).
  pose proof (W3 comp i Hb ltac:(lia)) as LC. set (kn := nth i (pxk0 p) n0) in *.
  assert (Hkn : fin kn /\ val kn = IZR zk).
  { rewrite <- Hk. unfold kn. assert (NF : forall j, (j < length (pxk p))%nat -> fin (nth j (pxk p) n0)) by (intros j Hj; rewrite Forall_forall in W7; apply W7, nth_In; auto).
    destruct i as [|j]; cbn [left_knot].
    - rewrite W6, map_val_nth by lia. split; [apply NF; lia|reflexivity].
    - assert (E : nth (S j) (pxk0 p) n0 = nth j (pxk p) n0) by (unfold pxk; destruct (pxk0 p); [destruct j|]; reflexivity). rewrite E, map_val_nth by lia. split; [apply NF; lia|reflexivity]. }
  destruct Hkn as [Fk Vk].
  assert (I : int64 (nsub x kn) (zx - zk)).
  { assert (I2 : int64 (nadd x (nopp kn)) (zx - zk)). { apply fadd_int; [auto|now apply fin_opp| |auto]. rewrite val_opp, Vx, Vk, minus_IZR. ring. }
    destruct I2 as [F2 V2]. pose proof (Bminus_correct 53 1024 _ _ mode_NE x kn Fx Fk) as C. fold (val x) (val kn) in C. rewrite Vx, Vk, <- minus_IZR in C.
    change (Flocq.Core.Generic_fmt.round Zaux.radix2 (SpecFloat.fexp 53 1024) (round_mode mode_NE) (IZR (zx - zk))) with (rnd (IZR (zx - zk))) in C. rewrite rnd_int, Raux.Rlt_bool_true in C by auto using int_lt.
    destruct C as (C1 & C2 & _). split; [exact C2|exact C1]. }
  destruct (C96_polyfun_integers (ccol (pc p) comp i) (nsub x kn) zc (zx - zk)) as (r & E & R); auto.
  { intros Q. rewrite Q in LC. cbn in LC. lia. }
  exists r. split; [|exact R]. unfold pw_call, pw_ok. rewrite W4, Nat.eqb_refl. destruct (Nat.eqb_spec (cn (pc p)) 0); [lia|]. destruct (Nat.eqb_spec (ck (pc p)) 0); [lia|]. rewrite W1. cbn [bind].
  unfold pw_val, pw_reduce. rewrite W1. cbv zeta. rewrite Ei. fold kn. unfold polyfun in E. destruct (ccol (pc p) comp i) as [|a l]; [discriminate|]. exact E.
Qed.
Print Assumptions C104_call_integers.

(* The polyline through (0, 0), (1/10, 1/10), (3/10, 3/10) and constant on both sides: the value at 2/10 is the
   double 2/10, and 7 is in the last piece *)
Definition fx_knots : list f64 := [n0; nofZ 1 / nofZ 10; nofZ 3 / nofZ 10]%K.
Definition fx_p : pwpoly f64 :=
  PwP Pw (n0 :: fx_knots) (CArr 2 [] 4 (fun _ i => nth i [[n0; n0]; [n0; n1]; [nofZ 1 / nofZ 10; n1]; [nofZ 3 / nofZ 10; n0]]%K [])) None.
Lemma fx_val (x : f64) s m e : B2SF x = SpecFloat.S754_finite s m e -> fin x /\ val x = SF2R Zaux.radix2 (SpecFloat.S754_finite s m e).
Proof. intros H. unfold fin, val. rewrite <- SF2R_B2SF, H, <- is_finite_SF_B2SF, H. split; reflexivity. Qed.
Example ex_C104 : fpw fx_p /\ inb [] (csh (pc fx_p)) /\ fin (nofZ 2 / nofZ 10 : f64)%K /\
  res_is (fun r => is_finite r && (r =? nofZ 2 / nofZ 10)%K) (pw_call fx_p [] (nofZ 2 / nofZ 10)%K) = true /\
  int64 (nofZ 7) 7 /\ in_piece (map val (pxk fx_p)) 3 (val (nofZ 7)).
Proof.
  assert (I : forall i, (i < 3)%nat -> nth i (map val fx_knots) 0 < match i with 0 => 1 / 20 | 1 => 2 / 10 | _ => 7 end /\ match i with 0 => -1 | 1 => 1 / 20 | _ => 2 / 10 end < nth i (map val fx_knots) 0).
  { intros i Hi. destruct i as [|[|[|i]]]; [| | |lia]; cbn [fx_knots map nth].
    - rewrite val_n0. lra.
    - destruct (fx_val (nofZ 1 / nofZ 10)%K false 7205759403792794 (-56)) as [_ ->]; [vm_compute; reflexivity|]. unfold SF2R, Defs.F2R. cbn. lra.
    - destruct (fx_val (nofZ 3 / nofZ 10)%K false 5404319552844595 (-54)) as [_ ->]; [vm_compute; reflexivity|]. unfold SF2R, Defs.F2R. cbn. lra. }
  pose proof (I 0%nat ltac:(lia)) as I0. pose proof (I 1%nat ltac:(lia)) as I1. pose proof (I 2%nat ltac:(lia)) as I2.
  split.
  { constructor.
    - reflexivity.
    - apply (le_S 1 1), le_n.
    - intros comp i _ Hi. change (i < 4)%nat in Hi. change (cn (pc fx_p)) with 2%nat.
      change (ccol (pc fx_p) comp i) with (nth i [[n0; n0]; [n0; n1]; [nofZ 1 / nofZ 10; n1]; [nofZ 3 / nofZ 10; n0]]%K ([] : list f64)).
      destruct i as [|[|[|[|i]]]]; [reflexivity..|lia].
    - reflexivity.
    - change (1 <= 3)%nat. lia.
    - reflexivity.
    - change (Forall fin fx_knots). repeat constructor; vm_compute; reflexivity.
    - intros i Hi. change (pxk fx_p) with fx_knots in *. destruct i as [|[|i]]; [lra|lra|cbn in Hi; lia]. }
  split; [constructor|]. split; [vm_compute; reflexivity|]. split; [vm_compute; reflexivity|].
  destruct (fofZ_val 7 ltac:(lia)) as [F V]. split; [split; auto|]. rewrite V. change (pxk fx_p) with fx_knots.
  split; [cbn; lia|]. split; [|intros j Hj; cbn in Hj; lia]. intros j Hj. destruct j as [|[|[|j]]]; [lra|lra|lra|lia].
Qed.
