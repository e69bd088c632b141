(* pline in double precision.  /repo/npplus/pwpoly.py:193-240, 928-937, 1027-1048. *)
From Coq Require Import List Arith ZArith Bool Lia Reals Lra.
From Flocq Require Import BinarySingleNaN.
From Verif Require Import Num PyBase NdArray NdLemmas Poly SpecPoly PolyProofs PwPoly PwBase PwCtor PropsCtor SolvePer Spline SplineProofs SplineCore SplineSolve SplineFacts PropsSpline Float64 PropsFloat FloatErr PropsFloatPw.
Import ListNotations.
Local Open Scope R_scope.

(** ** Operations *)
Lemma fsub_ok (x y : f64) : fin x -> fin y -> Rabs (val x - val y) <= 10 ^ 301 -> fin (nsub x y) /\ val (nsub x y) = rnd (val x - val y).
Proof.
  intros Fx Fy H. pose proof (Bminus_correct 53 1024 _ _ mode_NE x y Fx Fy) as C. fold (val x) (val y) in C.
  change (Flocq.Core.Generic_fmt.round Zaux.radix2 (SpecFloat.fexp 53 1024) (round_mode mode_NE) (val x - val y)) with (rnd (val x - val y)) in C.
  rewrite Raux.Rlt_bool_true in C by (now apply rnd_big). destruct C as (C1 & C2 & _). split; [exact C2|exact C1].
Qed.
Lemma mul_one (y o : f64) : int64 o 1 -> fin (nmul y o) \/ fin (nmul o y) -> fin y /\ val (nmul y o) = val y /\ val (nmul o y) = val y.
Proof.
  intros [Fo Vo] H. assert (Fy : fin y) by (destruct H as [H|H]; apply fmul_fin in H; tauto).
  assert (G : forall a b, (a = y /\ b = o) \/ (a = o /\ b = y) -> val (nmul a b) = val y).
  { intros a b Hab. pose proof (Bmult_correct 53 1024 _ _ mode_NE a b) as C. fold (val a) (val b) in C.
    assert (E : val a * val b = val y) by (destruct Hab as [[-> ->]|[-> ->]]; rewrite Vo; ring). rewrite E in C.
    change (Flocq.Core.Generic_fmt.round Zaux.radix2 (SpecFloat.fexp 53 1024) (round_mode mode_NE) (val y)) with (rnd (val y)) in C. rewrite rnd_val in C.
    rewrite Raux.Rlt_bool_true in C by apply val_lt_emax. exact (proj1 C). }
  split; [exact Fy|]. split; apply G; auto.
Qed.
Lemma rnd_rel_ex x : / 10 ^ 301 <= Rabs x -> exists e, Rabs e <= uro /\ rnd x = x * (1 + e).
Proof.
  intros H. pose proof (rnd_rel x H) as E. assert (P : 0 < Rabs x) by (eapply Rlt_le_trans; [|exact H]; apply Rinv_0_lt_compat, pow_lt; lra).
  assert (N : x <> 0) by (intros ->; rewrite Rabs_R0 in P; lra). exists ((rnd x - x) / x). split.
  - unfold Rdiv. rewrite Rabs_mult, Rabs_inv. apply (Rmult_le_reg_r (Rabs x)); [exact P|]. rewrite Rmult_assoc, Rinv_l by lra. lra.
  - field. exact N.
Qed.
Lemma rnd_idem x : rnd (rnd x) = rnd x.
Proof.
  rewrite !rnd_FLT. apply Generic_fmt.round_generic; auto with typeclass_instances. apply Generic_fmt.generic_format_round; auto with typeclass_instances.
Qed.
(* w is 1 to n units of 2^-53 *)
Definition near (n w : R) : Prop := Rabs (w - 1) <= n * uro.
Lemma near_e e : Rabs e <= uro -> near 1 (1 + e).
Proof. intros H. unfold near. replace (1 + e - 1) with e by ring. lra. Qed.
Lemma near_mul n m x y : 0 <= n <= 10 -> 0 <= m <= 10 -> near n x -> near m y -> near (n + m + 0.01) (x * y).
Proof.
  unfold near. intros Hn Hm Hx Hy. pose proof uro_lt as U. set (d := x - 1) in *. set (e := y - 1) in *.
  replace (x * y - 1) with (d + e + d * e) by (unfold d, e; ring). eapply Rle_trans; [apply Rabs_triang|]. rewrite Rabs_mult. pose proof (Rabs_triang d e).
  assert (P : Rabs d * Rabs e <= (n * uro) * (m * uro)) by (apply Rmult_le_compat; try apply Rabs_pos; auto).
  assert (Q : (n * uro) * (m * uro) <= 0.01 * uro); [|lra]. replace ((n * uro) * (m * uro)) with ((n * (m * uro)) * uro) by ring. apply Rmult_le_compat_r; [lra|].
  apply Rle_trans with (10 * (10 * / 10 ^ 15)); [|lra]. assert (0 <= m * uro) by (apply Rmult_le_pos; lra). apply Rmult_le_compat; try lra. apply Rmult_le_compat; lra.
Qed.
Lemma near_inv n x : 0 <= n <= 10 -> near n x -> near (n + 0.01) (/ x).
Proof.
  unfold near. intros Hn Hx. pose proof uro_lt as U. assert (N : n * uro <= 10 * / 10 ^ 15) by (apply Rmult_le_compat; lra).
  assert (0 <= n * uro) by (apply Rmult_le_pos; lra). assert (B : Rabs (x - 1) <= 10 * / 10 ^ 15) by lra. apply Raux.Rabs_le_inv in B.
  replace (/ x - 1) with (- (x - 1) * / x) by (field; lra). rewrite Rabs_mult, Rabs_Ropp, (Rabs_pos_eq (/ x)) by (left; apply Rinv_0_lt_compat; lra).
  apply (Rmult_le_reg_r x); [lra|]. rewrite Rmult_assoc, Rinv_l by lra. rewrite Rmult_1_r.
  assert (n * uro * (1 - x) <= 0.01 * uro * x); [|lra].
  assert (T : n * uro * (1 - x) <= n * uro * (10 * / 10 ^ 15)) by (apply Rmult_le_compat_l; lra).
  assert (T2 : n * uro * (10 * / 10 ^ 15) <= 10 * uro * (10 * / 10 ^ 15)) by (apply Rmult_le_compat_r; [lra|]; apply Rmult_le_compat_r; lra).
  assert (T3 : 0.01 * uro * 0.5 <= 0.01 * uro * x) by (apply Rmult_le_compat_l; lra). lra.
Qed.
Lemma rnd_minus_err (x y : f64) : exists e, Rabs e <= uro /\ rnd (val x - val y) = (val x - val y) * (1 + e).
Proof.
  destruct (rnd_plus_err x (Bopp y)) as (e & He & E). unfold val in E. rewrite B2R_Bopp in E. fold (val x) (val y) in E. exists e. split; [exact He|exact E].
Qed.
Lemma one_f : int64 (n1 : f64) 1. Proof. apply (fofZ_val 1). lia. Qed.
Lemma one_mul (z o : f64) : int64 o 1 -> fin z -> fin (nmul z o) /\ fin (nmul o z) /\ val (nmul z o) = val z /\ val (nmul o z) = val z.
Proof.
  intros [Fo Vo] Fz.
  assert (Q : forall a b, val a * val b = val z -> fin a -> fin b -> fin (nmul a b) /\ val (nmul a b) = val z).
  { intros a b E Fa Fb. pose proof (Bmult_correct 53 1024 _ _ mode_NE a b) as C. fold (val a) (val b) in C. rewrite E in C.
    change (Flocq.Core.Generic_fmt.round Zaux.radix2 (SpecFloat.fexp 53 1024) (round_mode mode_NE) (val z)) with (rnd (val z)) in C. rewrite rnd_val in C.
    rewrite Raux.Rlt_bool_true in C by apply val_lt_emax. destruct C as (C1 & C2 & _). split; [|exact C1]. red in Fa, Fb. rewrite Fa, Fb in C2. exact C2. }
  destruct (Q z o) as [a b]; auto; [rewrite Vo; ring|]. destruct (Q o z) as [c d]; auto; rewrite Vo; ring.
Qed.
Lemma rnd_twice x B : Rabs x <= B -> 1 <= B -> Rabs (rnd x) <= 3 * B.
Proof.
  intros H HB. pose proof (rnd_abs x) as E. pose proof uro_lt as U.
  assert (V : uflow <= 1) by (rewrite uflow_bpow; change 1 with (Raux.bpow Zaux.radix2 0); apply Raux.bpow_le; lia).
  assert (Z : uro * Rabs x <= 1 * B) by (apply Rmult_le_compat; try apply Rabs_pos; lra). replace (rnd x) with (rnd x - x + x) by ring. eapply Rle_trans; [apply Rabs_triang|]. lra.
Qed.
Lemma fin_0 : fin (n0 : f64). Proof. reflexivity. Qed.
Lemma int_is_ok1 (x : f64) : is_finite x && (x =? n1)%K = true -> int64 x 1.
Proof.
  intros H. apply andb_prop in H. destruct H as [A B]. destruct one_f as [F V]. split; [exact A|]. rewrite <- V. rewrite feq_val in B by auto. revert B. destruct (Reqb_spec (val x) (val n1)); [auto|discriminate].
Qed.
Lemma one_div : int64 (ndiv n1 (nfact 0) : f64) 1.
Proof. apply int_is_ok1. vm_compute. reflexivity. Qed.
Lemma two_sided_f : int64 (two_sided 0 0%nat 0%nat : f64) 1.
Proof. apply int_is_ok1. vm_compute. reflexivity. Qed.
Lemma call_piece (p : pwpoly f64) comp (x : f64) i : fpw p -> fin x -> in_piece (map val (pxk p)) i (val x) ->
  pw_call p comp x = Ok (horner (ccol (pc p) comp i) (nsub x (nth i (pxk0 p) n0))).
Proof.
  intros [W1 W2 W3 W4 W5 W6 W7 W8] Fx Hi.
  assert (Ei : ssearch (pxk p) x = i) by (rewrite ssearch_val by auto; apply ssearch_unique; auto).
  assert (L0 : length (pxk0 p) = S (length (pxk p))) by (unfold pxk in *; destruct (pxk0 p); cbn in *; lia).
  unfold pw_call, pw_ok. rewrite W4, Nat.eqb_refl. destruct (Nat.eqb_spec (cn (pc p)) 0); [lia|]. destruct (Nat.eqb_spec (ck (pc p)) 0); [lia|]. rewrite W1. cbn [orb negb bind].
  unfold pw_val, pw_reduce. rewrite W1. cbv zeta. rewrite Ei. reflexivity.
Qed.

Lemma ztail_length e (c : list f64) : length (zero_tail e c) = length c.
Proof.
  unfold zero_tail. set (n := Z.to_nat _). rewrite app_length, repeat_length, firstn_length.
  destruct (Nat.le_gt_cases n (length c)); [lia|]. replace (Nat.min n (length c)) with (length c) by lia. lia.
Qed.

(** ** The error of one piece *)
(* rounded slope times rounded distance plus ordinate *)
Lemma line_err (x0 x1 t y0 y1 m : f64) : let h := val x1 - val x0 in let D := val t - val x0 in let dy := val y1 - val y0 in
  0 < h <= 10 ^ 300 -> 0 <= D <= h -> val m = rnd (rnd (rnd dy * rnd (/ rnd h)) * rnd D) ->
  Rabs (rnd (val y0 + val m) - (val y0 + dy / h * D))
    <= uro * Rmax (Rabs (val y0)) (Rabs (val y1)) + 8 * uro * (D / h) * Rabs dy + 2 * uflow * (1 + D).
Proof.
  intros h D dy Hh HD Hm. pose proof uro_lt as U. pose proof uflow_pos as UF.
  destruct (rnd_minus_err x1 x0) as (e1 & He1 & E1). destruct (rnd_minus_err y1 y0) as (e2 & He2 & E2). destruct (rnd_minus_err t x0) as (e5 & He5 & E5).
  fold h in E1. fold dy in E2. fold D in E5.
  assert (B1 : -1 / 10 <= e1 <= 1 / 10) by (apply Raux.Rabs_le_inv in He1; lra).
  destruct (rnd_rel_ex (/ rnd h)) as (e3 & He3 & E3).
  { rewrite E1, Rabs_inv. apply Rinv_le_contravar; [apply Rabs_pos_lt; nra|]. rewrite Rabs_pos_eq by nra.
    replace (10 ^ 301) with (10 ^ 300 * 10) by (rewrite <- (pow_1 10) at 2; rewrite <- pow_add; reflexivity). generalize dependent (10 ^ 300). intros P HP. nra. }
  destruct (rnd_err (rnd dy * rnd (/ rnd h))) as (e4 & n1 & He4 & Hn1 & E4).
  destruct (rnd_err (rnd (rnd dy * rnd (/ rnd h)) * rnd D)) as (e6 & n2 & He6 & Hn2 & E6).
  destruct (rnd_plus_err y0 m) as (e7 & He7 & E7). rewrite E7, Hm, E6, E4, E3, E2, E5, E1. clear E7 E6 E4 E3 E2 E5 E1 Hm.
  destruct Hh as [Hh _]. set (l := D / h).
  assert (Hl : 0 <= l <= 1). { unfold l. split; [apply Rmult_le_pos; [lra|left; apply Rinv_0_lt_compat; lra]|]. apply (Rmult_le_reg_r h); [lra|]. unfold Rdiv. rewrite Rmult_assoc, Rinv_l by lra. lra. }
  set (W := (1 + e2) * (/ (1 + e1) * (1 + e3)) * ((1 + e4) * ((1 + e5) * (1 + e6)))).
  assert (NW : near 6.1 W).
  { assert (Q : near ((1 + ((1 + 0.01) + 1 + 0.01) + 0.01) + (1 + (1 + 1 + 0.01) + 0.01) + 0.01) W).
    { unfold W. apply near_mul; try lra; apply near_mul; try lra; try (apply near_e; assumption).
      - apply near_mul; try lra; [apply near_inv; [lra|apply near_e; assumption]|apply near_e; assumption].
      - apply near_mul; try lra; apply near_e; assumption. }
    unfold near in *. eapply Rle_trans; [exact Q|]. apply Rmult_le_compat_r; lra. }
  replace (val y0 + ((dy * (1 + e2) * (/ (h * (1 + e1)) * (1 + e3)) * (1 + e4) + n1) * (D * (1 + e5)) * (1 + e6) + n2))
    with ((val y0 + dy * l) + (dy * l * (W - 1) + (n1 * D * ((1 + e5) * (1 + e6)) + n2))) by (unfold W, l; field; lra).
  replace (dy / h * D) with (dy * l) by (unfold l; field; lra).
  set (v := val y0 + dy * l). set (g := dy * l * (W - 1) + (n1 * D * ((1 + e5) * (1 + e6)) + n2)).
  replace ((v + g) * (1 + e7) - v) with (e7 * v + g * (1 + e7)) by ring.
  assert (Vb : Rabs v <= Rmax (Rabs (val y0)) (Rabs (val y1))).
  { replace v with ((1 - l) * val y0 + l * val y1) by (unfold v, dy; ring). eapply Rle_trans; [apply Rabs_triang|]. rewrite !Rabs_mult, !(Rabs_pos_eq) with (x := l), (Rabs_pos_eq (1 - l)) by lra.
    pose proof (Rmax_l (Rabs (val y0)) (Rabs (val y1))). pose proof (Rmax_r (Rabs (val y0)) (Rabs (val y1))). set (M := Rmax _ _) in *.
    assert ((1 - l) * Rabs (val y0) <= (1 - l) * M) by (apply Rmult_le_compat_l; lra). assert (l * Rabs (val y1) <= l * M) by (apply Rmult_le_compat_l; lra). lra. }
  assert (Gb : Rabs g <= 6.1 * uro * l * Rabs dy + uflow * (1 + D) * 1.01).
  { unfold g. eapply Rle_trans; [apply Rabs_triang|]. apply Rplus_le_compat.
    - rewrite !Rabs_mult, (Rabs_pos_eq l) by lra. unfold near in NW. assert (Rabs dy * l * Rabs (W - 1) <= Rabs dy * l * (6.1 * uro)); [|lra].
      apply Rmult_le_compat_l; [|exact NW]. apply Rmult_le_pos; [apply Rabs_pos|lra].
    - assert (N2 : near 2.1 ((1 + e5) * (1 + e6))).
      { pose proof (near_mul 1 1 _ _ ltac:(lra) ltac:(lra) (near_e _ He5) (near_e _ He6)) as Q. unfold near in *. eapply Rle_trans; [exact Q|]. apply Rmult_le_compat_r; lra. }
      unfold near in N2. set (q := (1 + e5) * (1 + e6)) in *. assert (Bq : Rabs q <= 1.01) by (apply Raux.Rabs_le_inv in N2; apply Rabs_le; lra).
      eapply Rle_trans; [apply Rabs_triang|]. rewrite !Rabs_mult, (Rabs_pos_eq D) by lra.
      assert (Rabs n1 * D * Rabs q <= uflow * D * 1.01); [|lra].
      apply Rmult_le_compat; try apply Rabs_pos; auto; [apply Rmult_le_pos; [apply Rabs_pos|lra]|]. apply Rmult_le_compat_r; lra. }
  eapply Rle_trans; [apply Rabs_triang|]. rewrite !Rabs_mult.
  assert (A1 : Rabs e7 * Rabs v <= uro * Rmax (Rabs (val y0)) (Rabs (val y1))) by (apply Rmult_le_compat; auto; apply Rabs_pos).
  assert (A2 : Rabs (1 + e7) <= 1.01) by (apply Raux.Rabs_le_inv in He7; apply Rabs_le; lra).
  assert (A3 : Rabs g * Rabs (1 + e7) <= (6.1 * uro * l * Rabs dy + uflow * (1 + D) * 1.01) * 1.01) by (apply Rmult_le_compat; auto; apply Rabs_pos).
  assert (P1 : 0 <= uro * l * Rabs dy) by (apply Rmult_le_pos; [apply Rmult_le_pos; lra|apply Rabs_pos]).
  assert (P2 : 0 <= uflow * (1 + D)) by (apply Rmult_le_pos; lra). lra.
Qed.

(** ** The polynomials pline computes *)
Section Pline.
  Variable inv : nat -> mat f64 -> mat f64.
  Variable sb : nat -> nat -> arr2 f64 -> arr2 f64 -> res (arr2 f64).
  Variable s : arr2 f64 -> arr2 f64 -> res (arr2 f64).
  (* numpy.linalg.inv of the 1 by 1 matrix 1 *)
  Hypothesis Hinv : forall m, int64 (m 0%nat 0%nat) 1 -> int64 (inv 1 m 0%nat 0%nat) 1.
  Definition plcol (x : list f64) (y : nat -> f64) (q : nat) : list f64 :=
    ctor_col 0 (inv 1 (two_sided 0)) x (fun k i => nmul (y i) (ndiv n1 (nfact k))) None q.
  Lemma ends_f (x : list f64) : Forall fin x -> incr (map val x) -> (2 <= length x)%nat -> (nth (length x - 1) x n0 <? nth 0 x n0)%K = false.
  Proof.
    intros HF Hi Hx. assert (FN : forall j, (j < length x)%nat -> fin (nth j x n0)) by (intros j Hj; rewrite Forall_forall in HF; apply HF, nth_In; auto).
    rewrite flt_val by (apply FN; lia). rewrite <- !map_val_nth by lia. destruct (Rltb_spec (nth (length x - 1) (map val x) 0) (nth 0 (map val x) 0)) as [Q|Q]; [|reflexivity].
    pose proof (incr_lt (map val x) 0 (length x - 1) Hi ltac:(rewrite map_length; lia)). lra.
  Qed.
  Lemma ctor_pl (x : list f64) (y : yarr f64) : (nth (length x - 1) x n0 <? nth 0 x n0)%K = false -> (2 <= length x)%nat -> yn y = length x -> size (ysh y) <> 0%nat ->
    exists c, ctor inv Pw x [y] = Ok (PwP Pw (firstn 1 x ++ x) (CArr 2 (ysh y) (length x + 1) c) None) /\
      forall comp q, (S q < length x)%nat -> c comp (S q) = plcol x (yval y comp) q.
  Proof.
    intros D Hx Hy Hsz. unfold ctor. cbv zeta. rewrite !D, !andb_false_r. cbn [andb rev List.app]. rewrite !Hy.
    destruct (Nat.eqb_spec (length x + 1) (length x)); [lia|]. cbn [uniform forallb negb].
    rewrite Hy, size_snoc_pos by (auto; lia). destruct (Nat.eqb_spec (length x) 0); [lia|]. cbn [orb].
    destruct (Nat.eqb_spec (length x) (length x + 1)); [lia|]. rewrite Nat.eqb_refl. cbn [negb]. destruct (Nat.ltb_spec (length x) 2); [lia|]. cbn [length Nat.sub andb Nat.add].
    unfold rawinit. cbn [ck]. destruct (Nat.eqb_spec (length x) (length x + 1)); [lia|]. eexists. split; [reflexivity|]. cbv beta.
    intros comp q Hq. destruct (Nat.eqb_spec (S q) 0); [lia|]. destruct (Nat.eqb_spec (S q) (length x)); [lia|]. replace (S q - 1)%nat with q by lia. reflexivity.
  Qed.
  Lemma pline_cols (x : list f64) (y : yarr f64) extrap e f : Forall fin x -> incr (map val x) -> (2 <= length x)%nat -> yn y = length x -> size (ysh y) <> 0%nat ->
    ex_pair 1 extrap = (e, f) ->
    exists p, pline inv sb s x y extrap false = Ok p /\ fpw p /\ csh (pc p) = ysh y /\ pxk p = x /\ cn (pc p) = 2%nat /\
      forall comp, ccol (pc p) comp 0%nat = zero_tail e (plcol x (yval y comp) 0) /\
        (forall q, (S q < length x)%nat -> ccol (pc p) comp (S q) = plcol x (yval y comp) q) /\
        ccol (pc p) comp (length x) = zero_tail f (pshift (plcol x (yval y comp) (length x - 2)) (dxs x (length x - 2))).
  Proof.
    intros HF Hi Hx Hy Hsz He. pose proof (ends_f x HF Hi Hx) as D. destruct (ctor_pl x y D Hx Hy Hsz) as (c & Ec & Hc).
    unfold pline, spline. rewrite Hy, size_snoc_pos by (auto; lia). rewrite Nat.eqb_refl.
    destruct (Nat.eqb_spec (length x) 0); [lia|]. destruct (Nat.ltb_spec (length x) 2); [lia|].
    cbn [orb negb andb bc_tuple length Nat.leb Nat.ltb]. rewrite He, D. unfold spl_linear. rewrite Ec. cbn [bind pc pcl pxk0 pper cn csh ck ccol].
    assert (X0 : pxk (PwP Pw (firstn 1 x ++ x) (CArr 2 (ysh y) (length x + 1) c) None) = x) by (destruct x; [cbn in Hx; lia|reflexivity]).
    unfold pxk in X0 |- *. cbn [pxk0] in X0 |- *. rewrite X0.
    eexists. split; [reflexivity|]. cbn [pxk0 pc pcl cn csh ck ccol].
    match goal with |- _ /\ _ /\ _ /\ _ /\ ?G => assert (Cn : G) end.
    { intros comp. replace (length x + 1 - 1)%nat with (length x) by lia. replace (length x + 1 - 2)%nat with (length x - 1)%nat by lia.
      destruct (Nat.ltb_spec 1 (length x)); [|lia]. cbn [andb]. split; [|split].
      - destruct (Nat.eqb_spec 0 (length x)); [lia|]. rewrite Nat.eqb_refl, Hc by lia. reflexivity.
      - intros q Hq. destruct (Nat.eqb_spec (S q) (length x)); [lia|]. destruct (Nat.eqb_spec (S q) 0); [lia|]. apply Hc; lia.
      - rewrite Nat.eqb_refl. destruct (Nat.eqb_spec (length x - 1) 0); [lia|]. replace (length x - 1)%nat with (S (length x - 2)) by lia. rewrite Hc by lia. unfold dxs. replace (S (length x - 2)) with (length x - 1)%nat by lia. reflexivity. }
    split; [|split; [reflexivity|split; [exact X0|split; [reflexivity|exact Cn]]]].
    split; unfold pxk; cbn [pxk0 pc pcl cn csh ck ccol]; rewrite ?X0; auto; try lia.
    - intros comp i Hb Hi'. destruct (Cn comp) as (C1 & C2 & C3). destruct i as [|q]; [rewrite C1, ztail_length; reflexivity|].
      destruct (Nat.eq_dec (S q) (length x)) as [->|]; [rewrite C3, ztail_length; reflexivity|].
      rewrite C2 by lia. reflexivity.
    - destruct x; [cbn in Hx; lia|]. cbn. lia.
    - destruct x; [cbn in Hx; lia|]. reflexivity.
  Qed.
  (* the two coefficients: the ordinate, and the rounded difference times the rounded reciprocal of the rounded length *)
  Lemma plcol_vals (x : list f64) (y : nat -> f64) q : fin (nth q x n0) -> fin (nth (S q) x n0) ->
    0 < val (nth (S q) x n0) - val (nth q x n0) <= 10 ^ 300 ->
    exists A S', plcol x y q = [A; S'] /\ (fin A -> fin (y q) /\ val A = val (y q)) /\
      (fin S' -> fin (y q) /\ fin (y (S q)) /\
        val S' = rnd (rnd (val (y (S q)) - val (y q)) * rnd (/ rnd (val (nth (S q) x n0) - val (nth q x n0))))).
  Proof.
    intros F0 F1 Hh. pose (o := ndiv n1 (nfact 0) : f64). pose (A := nmul (y q) o : f64). pose (dx := dxs x q).
    pose (r := nmul (nsub (nmul (y (S q)) o) (nadd A (nmul n0 dx))) n1 : f64). pose (g := ndiv n1 (nmul n1 (nmul dx n1)) : f64).
    pose (v := inv 1 (two_sided 0) 0%nat 0%nat).
    exists A, (nmul (nadd n0 (nmul v r)) g). split; [reflexivity|].
    assert (HA : fin A -> fin (y q) /\ val A = val (y q)) by (intros FA; destruct (mul_one (y q) o one_div (or_introl FA)) as (a & b & _); auto).
    split; [exact HA|]. intros FS. destruct (fmul_fin _ _ FS) as [Fk Fg]. destruct (fadd_fin _ _ Fk) as [_ Fvr].
    assert (Iv : int64 v 1) by (apply Hinv, two_sided_f). destruct (mul_one r v Iv (or_intror Fvr)) as (Fr & _ & Vvr).
    destruct (mul_one _ _ one_f (or_introl Fr)) as (Fsub & Vr & _). change (val r = val (nsub (nmul (y (S q)) o) (nadd A (nmul n0 dx)))) in Vr.
    destruct (fsub_fin _ _ Fsub) as [Fy1 Ft]. destruct (fadd_fin _ _ Ft) as [FA Fz]. destruct (HA FA) as [Fy0 VA].
    destruct (mul_one _ _ one_div (or_introl Fy1)) as (Fy & Vy & _). fold o in Vy.
    split; [exact Fy0|]. split; [exact Fy|].
    (* dx and its reciprocal *)
    assert (T : 10 ^ 300 <= 10 ^ 301) by (apply Rle_pow; [lra|lia]).
    assert (Dx : fin dx /\ val dx = rnd (val (nth (S q) x n0) - val (nth q x n0))) by (apply fsub_ok; auto; rewrite Rabs_right; lra).
    destruct Dx as [Fdx Vdx].
    pose proof (fun z => one_mul z n1 one_f) as M1.
    destruct (M1 dx Fdx) as (F2 & _ & V2 & _). destruct (M1 _ F2) as (_ & F3 & _ & V3).
    assert (Vg : val g = rnd (/ val dx)).
    { unfold g. rewrite fdiv_val by auto. rewrite V3, V2, (proj2 one_f). f_equal. unfold Rdiv. apply Rmult_1_l. }
    rewrite (fmul_val _ _ FS), (fadd_val _ _ Fk), Vvr, Vr, (fsub_val _ _ Fsub), Vy, (fadd_val _ _ Ft), VA, (fmul_val _ _ Fz), val_n0, Vg, Vdx.
    rewrite Rmult_0_l, rnd_0, Rplus_0_r, Rplus_0_l, rnd_val. rewrite rnd_idem. reflexivity.
  Qed.
  Lemma horner2 (A S' d : f64) : horner [A; S'] d = nadd A (nmul S' d).
  Proof. reflexivity. Qed.
  Lemma in_piece_S (x : list f64) q (t : f64) : incr (map val x) -> (S q < length x)%nat -> val (nth q x n0) < val t <= val (nth (S q) x n0) -> in_piece (map val x) (S q) (val t).
  Proof.
    intros Hi Hq [H1 H2]. rewrite <- !map_val_nth in * by lia. split; [rewrite map_length; lia|]. split.
    - intros j Hj. destruct (Nat.eq_dec j q) as [->|]; [exact H1|]. pose proof (incr_lt _ j q Hi ltac:(rewrite map_length; lia)). lra.
    - intros j Hj. rewrite map_length in Hj. destruct (Nat.eq_dec j (S q)) as [->|]; [exact H2|]. pose proof (incr_lt _ (S q) j Hi ltac:(rewrite map_length; lia)). lra.
  Qed.
  (* pline(x, y)(t): the line through the two points around t up to rounding *)
  Theorem C105_pline (x : list f64) (y : yarr f64) extrap e f : Forall fin x -> incr (map val x) -> (2 <= length x)%nat -> yn y = length x -> size (ysh y) <> 0%nat ->
    (forall q, (S q < length x)%nat -> val (nth (S q) x n0) - val (nth q x n0) <= 10 ^ 300) -> ex_pair 1 extrap = (e, f) ->
    exists p, pline inv sb s x y extrap false = Ok p /\ forall comp, inb comp (ysh y) ->
      (forall q t, (S q < length x)%nat -> fin t -> val (nth q x n0) < val t <= val (nth (S q) x n0) ->
         exists r, pw_call p comp t = Ok r /\
           (fin r -> fin (yval y comp q) /\ fin (yval y comp (S q)) /\
             let dy := Rabs (val (yval y comp (S q)) - val (yval y comp q)) in let D := val t - val (nth q x n0) in
             Rabs (val r - seg (map val x) (fun i => val (yval y comp i)) q (val t))
               <= uro * Rmax (Rabs (val (yval y comp q))) (Rabs (val (yval y comp (S q))))
                  + 8 * uro * (D / (val (nth (S q) x n0) - val (nth q x n0))) * dy + 2 * uflow * (1 + D))) /\
      (e = 0%Z -> forall t, fin t -> val t <= val (nth 0 x n0) ->
         exists r, pw_call p comp t = Ok r /\ (fin r -> fin (yval y comp 0%nat) /\ val r = val (yval y comp 0%nat))) /\
      (f = 0%Z -> forall t, fin t -> val (nth (length x - 1) x n0) < val t ->
         exists r r', pw_call p comp t = Ok r /\ pw_call p comp (nth (length x - 1) x n0) = Ok r' /\ (fin r -> fin r' /\ val r = val r')).
  Proof.
    intros HF Hi Hx Hy Hsz Hh He. destruct (pline_cols x y extrap e f HF Hi Hx Hy Hsz He) as (p & E & W & Sh & X & N & C). exists p. split; [exact E|].
    intros comp Hb. destruct (C comp) as (C0 & C1 & C2). clear C E.
    assert (FN : forall j, (j < length x)%nat -> fin (nth j x n0)) by (intros j Hj; rewrite Forall_forall in HF; apply HF, nth_In; auto).
    assert (PH : forall q, (S q < length x)%nat -> 0 < val (nth (S q) x n0) - val (nth q x n0) <= 10 ^ 300).
    { intros q Hq. split; [|apply Hh; auto]. pose proof (incr_lt _ q (S q) Hi ltac:(rewrite map_length; lia)). rewrite !map_val_nth in * by lia. lra. }
    assert (K : forall i, (1 <= i)%nat -> nth i (pxk0 p) n0 = nth (i - 1) x n0).
    { intros i Hi1. rewrite <- X. unfold pxk. destruct i; [lia|]. replace (S i - 1)%nat with i by lia. destruct (pxk0 p); [destruct i; reflexivity|reflexivity]. }
    assert (PC : forall q t, (S q < length x)%nat -> fin t -> val (nth q x n0) < val t <= val (nth (S q) x n0) ->
       pw_call p comp t = Ok (horner (plcol x (yval y comp) q) (nsub t (nth q x n0)))).
    { intros q t Hq Ft Ht. rewrite (call_piece p comp t (S q) W Ft) by (rewrite X; apply in_piece_S; auto). rewrite C1 by auto. rewrite K by lia. replace (S q - 1)%nat with q by lia. reflexivity. }
    split; [|split].
    - intros q t Hq Ft Ht. exists (horner (plcol x (yval y comp) q) (nsub t (nth q x n0))). split; [apply PC; auto|].
      destruct (plcol_vals x (yval y comp) q (FN q ltac:(lia)) (FN (S q) Hq) (PH q Hq)) as (A & S' & -> & HA & HS). rewrite horner2. intros Fr.
      destruct (fadd_fin _ _ Fr) as [FA Fm]. destruct (fmul_fin _ _ Fm) as [FS FD]. destruct (HA FA) as [F0 V0], (HS FS) as (_ & F1 & VS). split; [exact F0|]. split; [exact F1|].
      intros dy D. rewrite (fadd_val _ _ Fr), V0. pose proof (PH q Hq) as PHq. unfold seg. rewrite !map_val_nth by lia.
      apply line_err; [exact PHq|lra|]. rewrite (fmul_val _ _ Fm), VS, (fsub_val _ _ FD). reflexivity.
    - intros -> t Ft Ht. rewrite (call_piece p comp t 0 W Ft).
      2:{ rewrite X. split; [lia|]. split; [intros j Hj; lia|]. intros j Hj. rewrite map_length in Hj. rewrite map_val_nth by lia.
          destruct j as [|j]; [exact Ht|]. pose proof (incr_lt _ 0 (S j) Hi ltac:(rewrite map_length; lia)). rewrite !map_val_nth in * by lia. lra. }
      eexists. split; [reflexivity|]. rewrite C0. destruct (plcol_vals x (yval y comp) 0 (FN 0%nat ltac:(lia)) (FN 1%nat ltac:(lia)) (PH 0%nat ltac:(lia))) as (A & S' & -> & HA & _).
      change (zero_tail 0 [A; S']) with [A; n0 : f64]. rewrite horner2. intros Fr. destruct (fadd_fin _ _ Fr) as [FA Fm]. destruct (HA FA) as [F0 V0]. split; [exact F0|].
      rewrite (fadd_val _ _ Fr), (fmul_val _ _ Fm), val_n0, Rmult_0_l, rnd_0, Rplus_0_r, rnd_val. exact V0.
    - intros -> t Ft Ht. set (q := (length x - 2)%nat) in *. assert (Hq : (S q < length x)%nat) by (unfold q; lia). replace (length x - 1)%nat with (S q) in * by (unfold q; lia).
      pose proof (PH q Hq) as PHq. rewrite (PC q (nth (S q) x n0) Hq (FN _ Hq)) by lra.
      rewrite (call_piece p comp t (length x) W Ft).
      2:{ rewrite X. split; [rewrite map_length; lia|]. split; [|intros j Hj; rewrite map_length in Hj; lia]. intros j Hj. rewrite map_val_nth by lia.
          destruct (Nat.eq_dec j (S q)) as [->|]; [exact Ht|]. pose proof (incr_lt _ j (S q) Hi ltac:(rewrite map_length; unfold q in *; lia)) as Q. rewrite !map_val_nth in Q by lia. lra. }
      do 2 eexists. split; [reflexivity|]. split; [reflexivity|]. rewrite C2.
      destruct (plcol_vals x (yval y comp) q (FN q ltac:(lia)) (FN (S q) Hq) PHq) as (A & S' & -> & _ & _).
      change (zero_tail 0 (pshift [A; S'] (dxs x q))) with [nadd A (nmul S' (dxs x q)); n0 : f64]. rewrite !horner2. intros Fr. destruct (fadd_fin _ _ Fr) as [F1 Fm].
      change (nsub (nth (S q) x n0) (nth q x n0)) with (dxs x q). split; [exact F1|].
      rewrite (fadd_val _ _ Fr), (fmul_val _ _ Fm), val_n0, Rmult_0_l, rnd_0, Rplus_0_r, rnd_val. reflexivity.
  Qed.
  (* within one interval the computed values rise or fall with the ordinates *)
  Theorem C105_monotone (x : list f64) (y : yarr f64) extrap p comp q t t' r r' : Forall fin x -> incr (map val x) -> (2 <= length x)%nat -> yn y = length x -> size (ysh y) <> 0%nat ->
    pline inv sb s x y extrap false = Ok p -> inb comp (ysh y) ->
    (S q < length x)%nat -> val (nth (S q) x n0) - val (nth q x n0) <= 10 ^ 300 -> fin t -> fin t' -> val (nth q x n0) < val t <= val t' -> val t' <= val (nth (S q) x n0) ->
    pw_call p comp t = Ok r -> pw_call p comp t' = Ok r' -> fin r -> fin r' ->
    (val (yval y comp q) <= val (yval y comp (S q)) -> val r <= val r') /\ (val (yval y comp (S q)) <= val (yval y comp q) -> val r' <= val r).
  Proof.
    intros HF Hi Hx Hy Hsz Ep Hb Hq Hh Ft Ft' Ht Ht' Er Er' Fr Fr'. destruct (ex_pair 1 extrap) as [e f] eqn:He.
    destruct (pline_cols x y extrap e f HF Hi Hx Hy Hsz He) as (p' & E & W & Sh & X & N & C). rewrite E in Ep. injection Ep as <-. destruct (C comp) as (_ & C1 & _).
    assert (FN : forall j, (j < length x)%nat -> fin (nth j x n0)) by (intros j Hj; rewrite Forall_forall in HF; apply HF, nth_In; auto).
    assert (PHq : 0 < val (nth (S q) x n0) - val (nth q x n0) <= 10 ^ 300).
    { split; [|exact Hh]. pose proof (incr_lt _ q (S q) Hi ltac:(rewrite map_length; lia)) as Q. rewrite !map_val_nth in Q by lia. lra. }
    assert (K : nth (S q) (pxk0 p') n0 = nth q x n0) by (rewrite <- X; unfold pxk; destruct (pxk0 p'); [destruct q; reflexivity|reflexivity]).
    assert (PC : forall t, fin t -> val (nth q x n0) < val t <= val (nth (S q) x n0) -> pw_call p' comp t = Ok (horner (plcol x (yval y comp) q) (nsub t (nth q x n0)))).
    { intros u Fu Hu. rewrite (call_piece p' comp u (S q) W Fu) by (rewrite X; apply in_piece_S; auto). rewrite C1, K by auto. reflexivity. }
    rewrite PC in Er by (auto; lra). rewrite PC in Er' by (auto; lra).
    destruct (plcol_vals x (yval y comp) q (FN q ltac:(lia)) (FN (S q) Hq) PHq) as (A & S' & EA & HA & HS). rewrite EA in *. rewrite horner2 in *.
    assert (Q : r = nadd A (nmul S' (nsub t (nth q x n0)))) by (assert (Z : forall a b : f64, Ok a = Ok b -> a = b) by (intros a b Z; congruence); symmetry; apply Z, Er).
    assert (Q' : r' = nadd A (nmul S' (nsub t' (nth q x n0)))) by (assert (Z : forall a b : f64, Ok a = Ok b -> a = b) by (intros a b Z; congruence); symmetry; apply Z, Er').
    rewrite Q, Q' in *. destruct (fadd_fin _ _ Fr) as [FA Fm], (fadd_fin _ _ Fr') as [_ Fm']. destruct (fmul_fin _ _ Fm) as [FS FD], (fmul_fin _ _ Fm') as [_ FD'].
    destruct (HS FS) as (_ & _ & VS). rewrite !fadd_val, !fmul_val, !fsub_val by auto.
    assert (L : rnd (val t - val (nth q x n0)) <= rnd (val t' - val (nth q x n0))) by (apply rnd_le; lra).
    assert (G : 0 <= rnd (/ rnd (val (nth (S q) x n0) - val (nth q x n0)))).
    { rewrite <- rnd_0. apply rnd_le. destruct (Rle_lt_dec (rnd (val (nth (S q) x n0) - val (nth q x n0))) 0) as [Z|Z].
      - assert (Z0 : 0 <= rnd (val (nth (S q) x n0) - val (nth q x n0))) by (rewrite <- rnd_0; apply rnd_le; lra). replace (rnd (val (nth (S q) x n0) - val (nth q x n0))) with 0 by lra. rewrite Rinv_0. lra.
      - left. apply Rinv_0_lt_compat. exact Z. }
    set (g := rnd (/ rnd (val (nth (S q) x n0) - val (nth q x n0)))) in *. set (dy := val (yval y comp (S q)) - val (yval y comp q)) in *.
    split; intros Hd; apply rnd_le, Rplus_le_compat_l, rnd_le.
    - assert (P : 0 <= val S'). { rewrite VS, <- rnd_0. apply rnd_le. apply Rmult_le_pos; [|exact G]. rewrite <- rnd_0. apply rnd_le. unfold dy. lra. }
      apply Rmult_le_compat_l; auto.
    - assert (P : val S' <= 0).
      { rewrite VS, <- rnd_0. apply rnd_le. assert (Z : rnd dy <= 0) by (rewrite <- rnd_0; apply rnd_le; unfold dy; lra). pose proof (Rmult_le_compat_r g _ _ G Z) as Z'. rewrite Rmult_0_l in Z'. exact Z'. }
      assert (Z : 0 <= - val S') by lra. pose proof (Rmult_le_compat_l _ _ _ Z L). lra.
  Qed.
  (* nothing overflows if the ordinates are at most 10^99 and the intervals between 10^-99 and 10^99 long *)
  Theorem C105_finite (x : list f64) (y : yarr f64) extrap p comp q t : Forall fin x -> incr (map val x) -> (2 <= length x)%nat -> yn y = length x -> size (ysh y) <> 0%nat ->
    pline inv sb s x y extrap false = Ok p -> inb comp (ysh y) ->
    (S q < length x)%nat -> / 10 ^ 99 <= val (nth (S q) x n0) - val (nth q x n0) <= 10 ^ 99 -> fin t -> val (nth q x n0) < val t <= val (nth (S q) x n0) ->
    (forall i, i = q \/ i = S q -> fin (yval y comp i) /\ Rabs (val (yval y comp i)) <= 10 ^ 99) ->
    exists r, pw_call p comp t = Ok r /\ fin r.
  Proof.
    intros HF Hi Hx Hy Hsz Ep Hb Hq Hh Ft Ht Hys. destruct (ex_pair 1 extrap) as [e f] eqn:He.
    destruct (pline_cols x y extrap e f HF Hi Hx Hy Hsz He) as (p' & E & W & Sh & X & N & C). rewrite E in Ep. injection Ep as <-. destruct (C comp) as (_ & C1 & _).
    assert (FN : forall j, (j < length x)%nat -> fin (nth j x n0)) by (intros j Hj; rewrite Forall_forall in HF; apply HF, nth_In; auto).
    assert (K : nth (S q) (pxk0 p') n0 = nth q x n0) by (rewrite <- X; unfold pxk; destruct (pxk0 p'); [destruct q; reflexivity|reflexivity]).
    rewrite (call_piece p' comp t (S q) W Ft) by (rewrite X; apply in_piece_S; auto). rewrite C1, K by auto.
    eexists. split; [reflexivity|]. destruct (Hys q (or_introl eq_refl)) as [Fy0 By0], (Hys (S q) (or_intror eq_refl)) as [Fy1 By1].
    pose proof (FN q ltac:(lia)) as Fx0. pose proof (FN (S q) Hq) as Fx1.
    set (y0 := yval y comp q) in *. set (y1 := yval y comp (S q)) in *. set (x0 := nth q x n0) in *. set (x1 := nth (S q) x n0) in *.
    assert (EP : 10 ^ 99 * 10 ^ 99 * 10 ^ 99 * 10 ^ 4 = 10 ^ 301) by (rewrite <- !pow_add; reflexivity).
    assert (GP : 1 <= 10 ^ 99) by (apply pow_R1_Rle; lra). set (P := 10 ^ 99) in *. set (B := 10 ^ 301) in *. clearbody P.
    assert (PP : P <= P * P) by nra. assert (PPP : P * P <= P * P * P) by nra. assert (LB : 10000 * (P * P * P) <= B) by lra.
    assert (HP : 0 < / P) by (apply Rinv_0_lt_compat; lra).
    pose (o := ndiv n1 (nfact 0) : f64). pose (dx := dxs x q). pose (v := inv 1 (two_sided 0) 0%nat 0%nat).
    destruct (one_mul y0 o one_div Fy0) as (FA & _ & VA & _). destruct (one_mul y1 o one_div Fy1) as (FB & _ & VB & _).
    destruct (fsub_ok x1 x0 Fx1 Fx0) as [Fd Vd]; [rewrite Rabs_pos_eq by lra; fold B; lra|]. change (nsub x1 x0) with dx in *.
    destruct (fmul_ok n0 dx fin_0 Fd) as [Fz Vz]; [rewrite val_n0, Rmult_0_l, Rabs_R0; fold B; lra|]. rewrite val_n0, Rmult_0_l, rnd_0 in Vz.
    destruct (fadd_ok (nmul y0 o) (nmul n0 dx) FA Fz) as [F0 V0]; [rewrite VA, Vz, Rplus_0_r; fold B; lra|]. rewrite VA, Vz, Rplus_0_r, rnd_val in V0.
    assert (DY : Rabs (val y1 - val y0) <= 2 * P) by (unfold Rminus; eapply Rle_trans; [apply Rabs_triang|]; rewrite Rabs_Ropp; lra).
    destruct (fsub_ok (nmul y1 o) (nadd (nmul y0 o) (nmul n0 dx)) FB F0) as [F1 V1]; [rewrite VB, V0; fold B; lra|]. rewrite VB, V0 in V1.
    destruct (one_mul _ n1 one_f F1) as (F2 & _ & V2 & _). destruct (one_mul _ v (Hinv _ two_sided_f) F2) as (_ & F3 & _ & V3). rewrite V2, V1 in V3.
    pose proof (rnd_twice _ _ DY ltac:(lra)) as RY.
    destruct (fadd_ok n0 _ fin_0 F3) as [F4 V4]; [rewrite V3, val_n0, Rplus_0_l; fold B; lra|]. rewrite V3, val_n0, Rplus_0_l, rnd_idem in V4.
    destruct (one_mul dx n1 one_f Fd) as (F5 & _ & V5 & _). destruct (one_mul _ n1 one_f F5) as (_ & F6 & _ & V6). rewrite V5 in V6.
    destruct (rnd_minus_err x1 x0) as (e1 & He1 & E1). assert (B1 : -1 / 10 <= e1 <= 1 / 10) by (pose proof uro_lt; apply Raux.Rabs_le_inv in He1; lra).
    assert (LD : / (2 * P) <= val dx) by (rewrite Vd, E1, Rinv_mult; nra). assert (PD : 0 < / (2 * P)) by (apply Rinv_0_lt_compat; lra).
    assert (GD : Rabs (val n1 / val (nmul n1 (nmul dx n1))) <= 2 * P).
    { rewrite V6, (proj2 one_f). unfold Rdiv. rewrite Rmult_1_l, Rabs_pos_eq by (left; apply Rinv_0_lt_compat; lra). rewrite <- (Rinv_inv (2 * P)). apply Rinv_le_contravar; auto. }
    destruct (fdiv_ok n1 (nmul n1 (nmul dx n1)) (proj1 one_f) F6) as [F7 V7]; [rewrite V6; lra|fold B; lra|]. pose proof (rnd_twice _ _ GD ltac:(lra)) as RG. rewrite <- V7 in RG. rewrite <- V4 in RY.
    set (k := nadd n0 _) in *. set (g := ndiv n1 (nmul n1 (nmul dx n1)) : f64) in *.
    assert (SB : Rabs (val k * val g) <= 36 * (P * P)) by (rewrite Rabs_mult; replace (36 * (P * P)) with ((3 * (2 * P)) * (3 * (2 * P))) by ring; apply Rmult_le_compat; try apply Rabs_pos; auto).
    destruct (fmul_ok k g F4 F7) as [F8 V8]; [fold B; lra|]. pose proof (rnd_twice _ _ SB ltac:(lra)) as RS. rewrite <- V8 in RS.
    destruct (fsub_ok t x0 Ft Fx0) as [F9 V9]; [rewrite Rabs_pos_eq by lra; fold B; lra|].
    assert (DB : Rabs (val t - val x0) <= P) by (rewrite Rabs_pos_eq; lra). pose proof (rnd_twice _ _ DB ltac:(lra)) as RD. rewrite <- V9 in RD.
    assert (MB : Rabs (val (nmul k g) * val (nsub t x0)) <= 324 * (P * P * P)) by (rewrite Rabs_mult; replace (324 * (P * P * P)) with (3 * (36 * (P * P)) * (3 * P)) by ring; apply Rmult_le_compat; try apply Rabs_pos; auto).
    destruct (fmul_ok _ _ F8 F9) as [F10 V10]; [fold B; lra|]. pose proof (rnd_twice _ _ MB ltac:(lra)) as RM. rewrite <- V10 in RM.
    apply (fadd_ok (nmul y0 o) (nmul (nmul k g) (nsub t x0)) FA F10).
    eapply Rle_trans; [apply Rabs_triang|]. rewrite VA. fold B. lra.
  Qed.
End Pline.
Print Assumptions C105_pline.
Print Assumptions C105_monotone.
Print Assumptions C105_finite.

(* pline([0, 49], [0, 1]); the inverse of the 1 by 1 matrix m is m for m = 1 *)
Definition fl_inv (n : nat) (m : mat f64) : mat f64 := m.
Definition fl_sb (k l : nat) (a b : arr2 f64) : res (arr2 f64) := Err TypeError.
Definition fl_s (a b : arr2 f64) : res (arr2 f64) := Err TypeError.
Definition fl_x : list f64 := [n0; nofZ 49].
Definition fl_y : yarr f64 := YArr [] 2 (fun _ i => nth i [n0; n1] n0).
Example ex_C105 : (forall m, int64 (m 0%nat 0%nat) 1 -> int64 (fl_inv 1 m 0%nat 0%nat) 1) /\
  Forall fin fl_x /\ incr (map val fl_x) /\ yn fl_y = length fl_x /\ size (ysh fl_y) <> 0%nat /\ ex_pair 1 (ExNone) = (0, 0)%Z /\
  (forall q, (S q < length fl_x)%nat -> / 10 ^ 99 <= val (nth (S q) fl_x n0) - val (nth q fl_x n0) <= 10 ^ 99) /\
  res_is (fun p => res_is (fun r => is_finite r && (nofZ 48 / nofZ 100 <? r)%K && (r <? nofZ 5 / nofZ 10)%K) (pw_call p [] (nofZ 24))) (pline fl_inv fl_sb fl_s fl_x fl_y ExNone false) = true.
Proof.
  destruct (fofZ_val 49 ltac:(lia)) as [F V]. split; [intros m H; exact H|].
  split; [repeat constructor|]. split.
  { intros i Hi. cbn in Hi. replace i with 0%nat by lia. unfold fl_x. cbn [map nth]. rewrite val_n0, V. lra. }
  split; [reflexivity|]. split; [cbn; lia|]. split; [reflexivity|]. split; [|vm_compute; reflexivity].
  intros q Hq. cbn in Hq. replace q with 0%nat by lia. unfold fl_x. cbn [nth]. rewrite val_n0, V.
  assert (P : 10 ^ 2 <= 10 ^ 99) by (apply Rle_pow; [lra|lia]). split; [|lra]. apply Rle_trans with (/ 10 ^ 2); [|lra]. apply Rinv_le_contravar; lra.
Qed.
(* The documented pline(x, y)(xp) <---> interp(xp, x, y) fails at the points themselves: the polyline does not pass through (49, 1) *)
Theorem C105_points_refuted : exists (x : list f64) (y : yarr f64) p r,
  Forall fin x /\ incr (map val x) /\ length x = 2%nat /\ yn y = 2%nat /\ ysh y = [] /\
  pline fl_inv fl_sb fl_s x y ExNone false = Ok p /\ pw_call p [] (nth 1 x n0) = Ok r /\ fin r /\
  val (yval y [] 1%nat) = 1 /\ val r < 1.
Proof.
  assert (Q : res_is (fun p => res_is (fun r => is_finite r && (r <? n1)%K) (pw_call p [] (nofZ 49))) (pline fl_inv fl_sb fl_s fl_x fl_y ExNone false) = true) by (vm_compute; reflexivity).
  apply res_is_true in Q. destruct Q as (p & Ep & Q). apply res_is_true in Q. destruct Q as (r & Er & Q). apply andb_prop in Q. destruct Q as [Q1 Q2].
  exists fl_x, fl_y, p, r. destruct ex_C105 as (_ & A & B & _). split; [exact A|]. split; [exact B|]. split; [reflexivity|]. split; [reflexivity|]. split; [reflexivity|].
  split; [exact Ep|]. split; [exact Er|]. split; [exact Q1|]. split; [apply one_f|].
  rewrite flt_val in Q2 by (auto; apply one_f). rewrite (proj2 one_f) in Q2. revert Q2. destruct (Rltb_spec (val r) 1); [auto|discriminate].
Qed.
Print Assumptions C105_points_refuted.
