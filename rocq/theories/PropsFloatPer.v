(* C127: calls of periodic piecewise polynomials in double precision.  npplus/pwpoly.py:799-802, 804-811. *)
From Coq Require Import List Arith ZArith QArith Bool Lia Reals Lra.
From Flocq Require Import Core BinarySingleNaN.
From Verif Require Import Num PyBase NdArray Poly SpecPoly PolyProofs PwPoly PwBase Float64 FloatElem PropsFloat FloatErr PropsFloatPw PropsFloatPline PropsFloatAtan.
Import ListNotations.
Local Open Scope R_scope.

(* x0 + (x - x0) % period, npplus/pwpoly.py:800-801, with numpy's % of doubles (FloatElem.v) *)
Definition freduce (x0 T x : f64) : f64 := nadd x0 (fmodulo (nsub x x0) T).
(* PerPwPoly.__call__ with nd=0, npplus/pwpoly.py:799-802: the call of PwPoly at the reduced argument *)
Definition fper_call (p : pwpoly f64) (comp : list nat) (x : f64) : res f64 :=
  match pper p with
  | Some T => pw_call (PwP Pw (pxk0 p) (pc p) None) comp (freduce (nth 0 (pxk p) n0) T x)
  | None => Err AttributeError
  end.

(** ** The reduced argument *)
Lemma freduce_err (a b x : f64) : fin a -> fin b -> fin x -> val a < val b -> Rabs (val a) <= 10 ^ 298 -> Rabs (val b) <= 10 ^ 298 -> Rabs (val x) <= 10 ^ 298 ->
  let P := val b - val a in let y := freduce a (nsub b a) x in
  fin y /\ val a <= val y <= val b + uro * (Rabs (val a) + 3 * P) /\
  exists k, Rabs (val y - (val x - P * IZR k)) <= uro * (3 * Rabs (val x - val a) + 4 * P + Rabs (val a)).
Proof.
  intros Fa Fb Fx L Ba Bb Bx P y. pose proof uro_lt as U.
  assert (T : 10 ^ 301 = 10 ^ 298 * 1000) by (replace 1000 with (10 ^ 3) by lra; rewrite <- pow_add; reflexivity).
  assert (T3 : 10 ^ 300 = 10 ^ 298 * 100) by (replace 100 with (10 ^ 2) by lra; rewrite <- pow_add; reflexivity).
  assert (T0 : 1 <= 10 ^ 298) by (apply pow_R1_Rle; lra).
  set (B := 10 ^ 298) in *. assert (P0 : 0 < P) by (unfold P; lra).
  assert (P1 : P <= 2 * B) by (unfold P; pose proof (Rle_abs (val b)); pose proof (Rle_abs (- val a)) as Q; rewrite Rabs_Ropp in Q; lra).
  assert (X1 : Rabs (val x - val a) <= 2 * B) by (unfold Rminus; eapply Rle_trans; [apply Rabs_triang|]; rewrite Rabs_Ropp; lra).
  destruct (fsub_ok b a Fb Fa) as [FT VT]; [fold P; rewrite Rabs_pos_eq by lra; rewrite T; lra|].
  destruct (fsub_ok x a Fx Fa) as [Fd Vd]; [rewrite T; lra|].
  destruct (rnd_minus_err b a) as (e2 & He2 & E2). rewrite E2 in VT. fold P in VT. destruct (rnd_minus_err x a) as (e1 & He1 & E1). rewrite E1 in Vd.
  apply Raux.Rabs_le_inv in He2 as He2'. set (t := nsub b a) in *. set (d := nsub x a) in *.
  assert (M2 : - (uro * P) <= e2 * P <= uro * P) by (split; [rewrite <- Ropp_mult_distr_l_reverse|]; apply Rmult_le_compat_r; lra).
  assert (T1 : 0.999 * P <= val t <= 1.001 * P) by (rewrite VT; assert (uro * P <= 0.001 * P) by (apply Rmult_le_compat_r; lra); lra).
  destruct (fmodulo_ok d t Fd FT) as (Fm & Bm & k & Ek & Bk); [rewrite T3; lra|]. unfold y, freduce. fold t d. set (m := fmodulo d t) in *. clearbody m d t.
  set (aa := Rabs (val a)) in *. assert (A1 : val a <= aa) by apply Rle_abs. assert (A2 : - aa <= val a) by (pose proof (Rle_abs (- val a)) as Q; rewrite Rabs_Ropp in Q; fold aa in Q; lra).
  assert (A0 : 0 <= aa) by apply Rabs_pos.
  destruct (fadd_ok a m Fa Fm) as [Fr Vr]; [rewrite T; apply Rabs_le; lra|]. split; [exact Fr|]. rewrite Vr.
  destruct (rnd_plus_err a m) as (e & He & Er).
  assert (AM : Rabs (val a + val m) <= aa + 1.001 * P) by (apply Rabs_le; lra).
  assert (AE : Rabs (e * (val a + val m)) <= uro * (aa + 1.001 * P)) by (rewrite Rabs_mult; apply Rmult_le_compat; try apply Rabs_pos; auto).
  assert (UP : 0 <= uro * P) by (apply Rmult_le_pos; lra). assert (UA : 0 <= uro * aa) by (apply Rmult_le_pos; lra).
  split.
  { split; [rewrite <- (rnd_val a) at 1; apply rnd_le; lra|]. rewrite Er. apply Raux.Rabs_le_inv in AE. unfold P in *. lra. }
  exists k. rewrite Er. set (X := Rabs (val x - val a)) in *. assert (X0 : 0 <= X) by apply Rabs_pos.
  replace ((val a + val m) * (1 + e) - (val x - P * IZR k)) with ((val m - (val d - val t * IZR k)) + (e1 * (val x - val a) + (e * (val a + val m) - IZR k * (e2 * P)))) by (rewrite Vd, VT; ring).
  assert (B1 : Rabs (e1 * (val x - val a)) <= uro * X) by (rewrite Rabs_mult; apply Rmult_le_compat; auto using Rabs_pos; apply Rle_refl).
  assert (Dd : Rabs (val d) <= 1.001 * X).
  { rewrite Vd, Rmult_comm, Rabs_mult. apply Rmult_le_compat; try apply Rabs_pos; [|apply Rle_refl]. eapply Rle_trans; [apply Rabs_triang|]. rewrite Rabs_R1. lra. }
  assert (KP : Rabs (IZR k) * P <= 1.01 * (X + P)).
  { pose proof (Rabs_pos (IZR k)) as Q. pose proof (Rmult_le_compat_r (Rabs (IZR k)) _ _ Q (proj1 T1)) as Q1. lra. }
  assert (B3 : Rabs (IZR k * (e2 * P)) <= uro * (1.01 * (X + P))).
  { replace (IZR k * (e2 * P)) with (e2 * (IZR k * P)) by ring. rewrite Rabs_mult. apply Rmult_le_compat; try apply Rabs_pos; auto. rewrite Rabs_mult, (Rabs_pos_eq P) by lra. exact KP. }
  assert (B0 : uro * val t <= uro * (1.001 * P)) by (apply Rmult_le_compat_l; lra).
  eapply Rle_trans; [apply Rabs_triang|]. eapply Rle_trans; [apply Rplus_le_compat_l, Rabs_triang|].
  assert (B4 : Rabs (e * (val a + val m) - IZR k * (e2 * P)) <= uro * (aa + 1.001 * P) + uro * (1.01 * (X + P))).
  { unfold Rminus. eapply Rle_trans; [apply Rabs_triang|]. rewrite Rabs_Ropp. lra. }
  assert (UX : 0 <= uro * X) by (apply Rmult_le_pos; lra). lra.
Qed.

(* periodic piecewise polynomials with finite increasing knots; the coefficients may be any doubles, and the period is the rounded
   difference of the last and the first knot, npplus/pwpoly.py:811 *)
Record fper (p : pwpoly f64) : Prop := {
  fr_pw : fpw (PwP Pw (pxk0 p) (pc p) None);
  fr_nk : (2 <= length (pxk p))%nat;
  fr_per : pper p = Some (nsub (nth (length (pxk p) - 1) (pxk p) n0) (nth 0 (pxk p) n0)) }.

(** ** C127 *)
(* For knots and arguments up to 10^298 in size every call evaluates the piece that contains an argument y in the base period, up to
   an excess over the last knot of a few roundings, and y is x less a multiple of the true period up to a few roundings of the
   distance of x from the first knot; a finite result is the value at y with the error of C104.
   Missing: y inside the base period (see the refutation). *)
Theorem C127_call_partial (p : pwpoly f64) comp (x : f64) : fper p -> inb comp (csh (pc p)) -> fin x ->
  let a := val (nth 0 (pxk p) n0) in let b := val (nth (length (pxk p) - 1) (pxk p) n0) in let P := b - a in
  Rabs a <= 10 ^ 298 -> Rabs b <= 10 ^ 298 -> Rabs (val x) <= 10 ^ 298 ->
  exists y r i (k : Z), fper_call p comp x = Ok r /\ fin y /\ a <= val y <= b + uro * (Rabs a + 3 * P) /\
    Rabs (val y - (val x - P * IZR k)) <= uro * (3 * Rabs (val x - a) + 4 * P + Rabs a) /\
    in_piece (map val (pxk p)) i (val y) /\ (forall j, in_piece (map val (pxk p)) j (val y) -> j = i) /\
    let C := map val (ccol (pc p) comp i) in let D := val y - left_knot (map val (pxk p)) i in let n := (cn (pc p) - 1)%nat in
    (fin r -> Rabs (val r - peval C D) <=
      ((1 + uro) ^ (3 * n) - 1) * peval (map Rabs C) (Rabs D) + (1 + uro) ^ (3 * n) * (uflow * peval (repeat 1 n) (Rabs D))).
Proof.
  intros [W H2 HT] Hb Fx a b P Ba Bb Bx. set (q := PwP Pw (pxk0 p) (pc p) None) in *.
  pose proof (fp_fin q W) as FK. change (pxk q) with (pxk p) in FK. rewrite Forall_forall in FK.
  assert (Fa : fin (nth 0 (pxk p) n0)) by (apply FK, nth_In; lia). assert (Fb : fin (nth (length (pxk p) - 1) (pxk p) n0)) by (apply FK, nth_In; lia).
  assert (L : a < b).
  { pose proof (fp_inc q W) as I. change (pxk q) with (pxk p) in I. unfold a, b. rewrite <- !map_val_nth by lia.
    apply incr_lt; [exact I|rewrite map_length; lia]. }
  destruct (freduce_err _ _ x Fa Fb Fx L Ba Bb Bx) as (Fy & By & k & Ek). set (y := freduce _ _ x) in *.
  destruct (C104_call_error q comp y W Hb Fy) as (r & i & E & Hi & Hu & He).
  exists y, r, i, k. split; [|split; [exact Fy|split; [exact By|split; [exact Ek|split; [exact Hi|split; [exact Hu|exact He]]]]]].
  unfold fper_call. rewrite HT. exact E.
Qed.
Print Assumptions C127_call_partial.

(* With first knot 0 arguments inside the base period are not changed at all. *)
Theorem C127_exact (b x : f64) : fin b -> fin x -> 0 <= val x < val b -> val b <= 10 ^ 298 ->
  fin (freduce n0 (nsub b n0) x) /\ val (freduce n0 (nsub b n0) x) = val x.
Proof.
  intros Fb Fx Hx Bb. assert (F0 : fin (n0 : f64)) by reflexivity.
  assert (T : 10 ^ 298 <= 10 ^ 301) by (apply Rle_pow; [lra|lia]).
  assert (S : forall z, fin z -> 0 <= val z <= val b -> fin (nsub z n0) /\ val (nsub z n0) = val z).
  { intros z Fz Hz. destruct (fsub_ok z n0 Fz F0) as [F V]; [rewrite val_n0, Rminus_0_r, Rabs_pos_eq by lra; lra|]. split; [exact F|]. rewrite V, val_n0, Rminus_0_r. apply rnd_val. }
  destruct (S b Fb ltac:(lra)) as [F1 V1]. destruct (S x Fx ltac:(lra)) as [F2 V2]. unfold freduce.
  set (t := nsub b n0) in *. set (d := nsub x n0) in *. clearbody t d.
  destruct (ffmod_ok d t F2 F1 ltac:(lra)) as (Fm & Bm & Pm & _ & k & Ek & _).
  assert (Vm : val (ffmod d t) = val x).
  { rewrite V1, V2 in Ek. rewrite V1, (Rabs_pos_eq (val b)) in Bm by lra. specialize (Pm ltac:(lra)). rewrite Rabs_pos_eq in Bm by lra.
    assert (K : (k = 0)%Z).
    { assert (A : -1 < IZR k) by nra. assert (A2 : IZR k < 1) by nra. apply lt_IZR in A. apply lt_IZR in A2. lia. }
    subst k. lra. }
  assert (Vmod : fin (fmodulo d t) /\ val (fmodulo d t) = val x).
  { unfold fmodulo. set (m := ffmod d t) in *. clearbody m. rewrite feq_val, val_n0 by (auto; reflexivity). destruct (Reqb_spec (val m) 0) as [Z|Z].
    - rewrite flt_val, val_n0 by (auto; reflexivity). destruct (Rltb_spec (val t) 0); split; try reflexivity; cbn; lra.
    - rewrite !flt_val, val_n0 by (auto; reflexivity). destruct (Rltb_spec (val t) 0); [lra|]. destruct (Rltb_spec (val m) 0); [lra|]. split; auto. }
  destruct Vmod as [F3 V3]. destruct (fadd_ok n0 _ F0 F3) as [F V]; [rewrite val_n0, Rplus_0_l, V3, Rabs_pos_eq by lra; lra|].
  split; [exact F|]. rewrite V, val_n0, Rplus_0_l. rewrite rnd_val. exact V3.
Qed.
Print Assumptions C127_exact.


(* the hypotheses hold for the polyline through (0, 0), (1/10, 1/10), (3/10, 0) with period 3/10, whose value at 10 is close to 1/10 *)
Definition fx_per : pwpoly f64 :=
  PwP Per (n0 :: fx_knots) (CArr 2 [] 4 (fun _ i => nth i [[n0; n1]; [n0; n1]; [nofZ 1 / nofZ 10; nofZ (-1) / nofZ 2]; [n0; nofZ (-1) / nofZ 2]]%K []))
    (Some (nsub (nofZ 3 / nofZ 10)%K n0)).
Lemma small_le (x : f64) : fin x -> ((- nofZ 100 <=? x) && (x <=? nofZ 100))%K = true -> Rabs (val x) <= 10 ^ 298.
Proof.
  intros F H. apply andb_true_iff in H as [H1 H2]. destruct (fofZ_val 100 ltac:(lia)) as [F1 V1]. assert (F2 : fin (- nofZ 100 : f64)%K) by (apply fin_opp; exact F1).
  rewrite fle_val in H1, H2 by auto. rewrite val_opp in H1. destruct (Rleb_spec (- val (nofZ 100)) (val x)); [|discriminate]. destruct (Rleb_spec (val x) (val (nofZ 100))); [|discriminate].
  rewrite V1 in *. apply Rle_trans with (10 ^ 2); [apply Rabs_le; lra|apply Rle_pow; [lra|lia]].
Qed.
Example ex_C127 : fper fx_per /\ inb [] (csh (pc fx_per)) /\ fin (nofZ 10 : f64) /\
  Rabs (val (nth 0 (pxk fx_per) n0)) <= 10 ^ 298 /\ Rabs (val (nth (length (pxk fx_per) - 1) (pxk fx_per) n0)) <= 10 ^ 298 /\ Rabs (val (nofZ 10)) <= 10 ^ 298 /\
  res_is (fun r => is_finite r && (nofZ 99 / nofZ 1000 <? r)%K && (r <? nofZ 1 / nofZ 10)%K) (fper_call fx_per [] (nofZ 10)) = true.
Proof.
  destruct ex_C104 as (W & _). destruct W as [W1 W2 W3 W4 W5 W6 W7 W8].
  split.
  { constructor; [|change (2 <= 3)%nat; lia|reflexivity]. constructor; auto.
    intros comp i _ Hi. change (i < 4)%nat in Hi. change (cn (pc (PwP Pw (pxk0 fx_per) (pc fx_per) None))) with 2%nat.
      change (ccol (pc (PwP Pw (pxk0 fx_per) (pc fx_per) None)) comp i) with (nth i [[n0; n1]; [n0; n1]; [nofZ 1 / nofZ 10; nofZ (-1) / nofZ 2]; [n0; nofZ (-1) / nofZ 2]]%K ([] : list f64)).
      destruct i as [|[|[|[|i]]]]; [reflexivity..|lia]. }
  split; [constructor|]. split; [vm_compute; reflexivity|].
  split; [apply small_le; vm_compute; reflexivity|]. split; [apply small_le; vm_compute; reflexivity|]. split; [apply small_le; vm_compute; reflexivity|].
  vm_compute. reflexivity.
Qed.
(* 1/10 is in the base period 0 .. 3/10 *)
Example ex_C127_exact : val (freduce n0 (nsub (nofZ 3 / nofZ 10) n0) (nofZ 1 / nofZ 10))%K = val (nofZ 1 / nofZ 10)%K.
Proof.
  destruct (fx_val (nofZ 1 / nofZ 10)%K false 7205759403792794 (-56)) as [F1 V1]; [vm_compute; reflexivity|].
  destruct (fx_val (nofZ 3 / nofZ 10)%K false 5404319552844595 (-54)) as [F3 V3]; [vm_compute; reflexivity|].
  apply C127_exact; auto.
  - rewrite V1, V3. unfold SF2R, Defs.F2R. cbn -[Rle Rlt]. lra.
  - eapply Rle_trans; [apply Rle_abs|]. apply small_le; vm_compute; reflexivity.
Qed.

(* the reduced argument can be the end of the period, and even lie beyond it: the periodic x - 3/10 with knots 3/10 and 9/10 has at
   the double before 3/10 a value larger than its value at the last knot *)
Definition fx_saw : pwpoly f64 :=
  (let a := nofZ 3 / nofZ 10 in let b := nofZ 9 / nofZ 10 in
   PwP Per [a; a; b] (CArr 2 [] 3 (fun _ i => nth i [[n0; n1]; [n0; n1]; [b - a; n1]] [])) (Some (b - a)))%K.
Definition before03 : f64 := fdy 5404319552844594 (-54).
Definition flast (p : pwpoly f64) : f64 := nth (length (pxk p) - 1) (pxk p) n0.
Theorem C127_extrapolation_refuted :
  fper fx_saw /\ fin before03 /\
  (flast fx_saw <? freduce (nth 0 (pxk fx_saw) n0) (flast fx_saw - nth 0 (pxk fx_saw) n0) before03)%K = true /\
  (exists r, fper_call fx_saw [] before03 = Ok r /\ (flast fx_saw - nth 0 (pxk fx_saw) n0 <? r)%K = true) /\
  (freduce n0 (nsub n1 n0) (flit (-1 # 10 ^ 20)) =? n1)%K = true.
Proof.
  split; [|split; [vm_compute; reflexivity|split; [vm_compute; reflexivity|split; [|vm_compute; reflexivity]]]].
  - destruct (fx_val (nofZ 3 / nofZ 10)%K false 5404319552844595 (-54)) as [F3 V3]; [vm_compute; reflexivity|].
    destruct (fx_val (nofZ 9 / nofZ 10)%K false 8106479329266893 (-53)) as [F9 V9]; [vm_compute; reflexivity|].
    constructor; [|change (2 <= 2)%nat; lia|reflexivity]. constructor.
    + reflexivity.
    + change (1 <= 2)%nat. lia.
    + intros comp i _ Hi. change (i < 3)%nat in Hi. destruct i as [|[|[|i]]]; [reflexivity..|lia].
    + reflexivity.
    + change (1 <= 2)%nat. lia.
    + reflexivity.
    + change (Forall fin [nofZ 3 / nofZ 10; nofZ 9 / nofZ 10]%K). repeat constructor; auto.
    + change (incr [val (nofZ 3 / nofZ 10)%K; val (nofZ 9 / nofZ 10)%K]). rewrite V3, V9. unfold SF2R, Defs.F2R. cbn -[Rlt Rmult IZR].
      intros [|i] Hi; cbn -[Rlt Rmult IZR] in *; [lra|lia].
  - apply res_is_true. vm_compute. reflexivity.
Qed.
Print Assumptions C127_extrapolation_refuted.
