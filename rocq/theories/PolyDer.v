(* Derivatives of integer polynomials; comparison of two functions by the ratio of
   their derivatives; bounds of exp by polynomials. *)
From Coq Require Import List Arith ZArith QArith Qreals Bool Lia Reals Lra Ratan Machin.
From Verif Require Import PolySign.
Import ListNotations.
Open Scope R_scope.

Fixpoint pder (c : list Z) : list Z :=
  match c with [] => [] | _ :: r => padd r (0%Z :: pder r) end.
Lemma ev_pder c t : derivable_pt_lim (ev c) t (ev (pder c) t).
Proof.
  induction c as [|a r IH]; cbn [pder ev].
  - apply derivable_pt_lim_const.
  - rewrite ev_padd. cbn [ev].
    replace (ev r t + (0 + t * ev (pder r) t)) with (0 + (1 * ev r t + t * ev (pder r) t)) by ring.
    apply (derivable_pt_lim_plus (fun _ => IZR a) (fun t => t * ev r t)).
    + apply derivable_pt_lim_const.
    + apply (derivable_pt_lim_mult id (ev r)); auto. apply derivable_pt_lim_id.
Qed.
Lemma der_ext (f g : R -> R) x l d : 0 < d -> (forall y, Rabs (y - x) < d -> f y = g y) ->
  derivable_pt_lim g x l -> derivable_pt_lim f x l.
Proof.
  intros Hd E H eps He. destruct (H eps He) as (del & Hdel).
  assert (M : 0 < Rmin del d) by (apply Rmin_pos; auto; apply cond_pos).
  exists (mkposreal _ M). intros h Hh Lh. cbn [pos] in Lh.
  rewrite !E.
  - apply Hdel; auto. pose proof (Rmin_l del d). lra.
  - replace (x - x) with 0 by ring. rewrite Rabs_R0. exact Hd.
  - replace (x + h - x) with h by ring. pose proof (Rmin_r del d). lra.
Qed.
Lemma der_eq (f : R -> R) x l l' : l = l' -> derivable_pt_lim f x l -> derivable_pt_lim f x l'.
Proof. intros ->. auto. Qed.

(* product with a power of the variable, and powers *)
Fixpoint ppow (p : list Z) (n : nat) : list Z := match n with O => [1%Z] | S n => pmul p (ppow p n) end.
Lemma ev_ppow p n t : ev (ppow p n) t = ev p t ^ n.
Proof. induction n as [|n IH]; cbn [ppow pow ev]; [ring|]. now rewrite ev_pmul, IH. Qed.

(* [between fuel e N L R a b]: on [a,b], R > 0 and |L - R| < (e/N) R *)
Definition between (fuel : nat) (e N : Z) (L R : list Z) (a b : Q) : bool :=
  pos_on fuel (padd (pscale (N + e) R) (pscale (- N) L)) a b &&
  pos_on fuel (padd (pscale N L) (pscale (e - N) R)) a b.
Lemma between_ok fuel e N L R a b t : (0 < N)%Z -> (0 < e)%Z -> between fuel e N L R a b = true -> Q2R a <= t <= Q2R b ->
  0 < ev R t /\ Rabs (ev L t - ev R t) < IZR e / IZR N * ev R t.
Proof.
  intros HN He H Ht. apply IZR_lt in HN. apply IZR_lt in He. unfold between in H. apply andb_true_iff in H.
  destruct H as [H1 H2]. pose proof (pos_on_ok _ _ _ _ _ H1 Ht) as P1. pose proof (pos_on_ok _ _ _ _ _ H2 Ht) as P2.
  rewrite ev_padd, !ev_pscale in P1, P2. rewrite plus_IZR, opp_IZR in P1. rewrite minus_IZR in P2.
  assert (P : 0 < ev R t) by nra. split; auto.
  apply Rabs_def1.
  - apply Rmult_lt_reg_l with (IZR N); auto.
    replace (IZR N * (IZR e / IZR N * ev R t)) with (IZR e * ev R t) by (field; lra). lra.
  - apply Rmult_lt_reg_l with (IZR N); auto.
    replace (IZR N * - (IZR e / IZR N * ev R t)) with (- (IZR e * ev R t)) by (field; lra). lra.
Qed.

(** ** exp *)
(* n! sum_(k <= n) x^k / k! *)
Fixpoint expc_aux (k : nat) (c : Z) (acc : list Z) : list Z :=
  match k with O => c :: acc | S k' => expc_aux k' (c * Z.of_nat k)%Z (c :: acc) end.
Definition expc (n : nat) : list Z := expc_aux n 1 [].
Example ex_expc : expc 4 = [24; 24; 12; 4; 1]%Z.
Proof. reflexivity. Qed.
(* a polynomial that is nearly its own derivative is nearly a multiple of exp *)
Lemma exp_poly fuel e N c m r b x : c = m :: r -> (0 < N)%Z -> (0 < e)%Z -> between fuel e N (pder c) c 0 b = true ->
  0 <= x <= Q2R b ->
  0 < ev c x /\ IZR m * exp (x - IZR e / IZR N * x) <= ev c x <= IZR m * exp (x + IZR e / IZR N * x).
Proof.
  intros Ec HN He B Hx. set (eps := IZR e / IZR N).
  assert (H0 : forall t, 0 <= t <= x -> 0 < ev c t /\ Rabs (ev (pder c) t - ev c t) < eps * ev c t).
  { intros t Ht. apply (between_ok _ _ _ _ _ _ _ t HN He B). unfold Q2R at 1; cbn [Qnum Qden]; lra. }
  assert (M : ev c 0 = IZR m) by (rewrite Ec; cbn [ev]; ring).
  assert (Mp : 0 < IZR m) by (rewrite <- M; apply H0; lra).
  split; [apply H0; lra|].
  destruct (Req_dec x 0) as [->|Nx].
  { rewrite M. replace (0 - eps * 0) with 0 by ring. replace (0 + eps * 0) with 0 by ring. rewrite exp_0. lra. }
  assert (G : forall s, (forall t, 0 <= t <= x -> derivable_pt_lim (fun t => ev c t * exp (- (s * t))) t
     ((ev (pder c) t - s * ev c t) * exp (- (s * t))))).
  { intros s t _. eapply der_eq; [|apply (derivable_pt_lim_mult (ev c) (fun t => exp (- (s * t))))].
    2: apply ev_pder.
    2: apply (derivable_pt_lim_comp (fun t => - (s * t)) exp); [|apply derivable_pt_lim_exp].
    2: apply (derivable_pt_lim_opp (mult_real_fct s id)), derivable_pt_lim_scal, derivable_pt_lim_id.
    unfold mult_real_fct, id. cbv beta. ring. }
  assert (K : forall s, exists t, 0 < t < x /\ ev c x * exp (- (s * x)) - IZR m =
     (ev (pder c) t - s * ev c t) * exp (- (s * t)) * x).
  { intros s. destruct (MVT_cor2 (fun t => ev c t * exp (- (s * t))) (fun t => (ev (pder c) t - s * ev c t) * exp (- (s * t))) 0 x) as (t & E & Ht).
    - lra.
    - apply G.
    - exists t. split; auto. rewrite M in E. replace (- (s * 0)) with 0 in E by ring. rewrite exp_0 in E. rewrite Rminus_0_r in E. lra. }
  assert (V : forall s, ev c x = ev c x * exp (- (s * x)) * exp (s * x)).
  { intros s. rewrite Rmult_assoc, <- exp_plus. replace (- (s * x) + s * x) with 0 by ring. rewrite exp_0. ring. }
  split.
  - destruct (K (1 - eps)) as (t & Ht & E). destruct (H0 t ltac:(lra)) as [P A]. apply Rabs_def2 in A.
    pose proof (exp_pos (- ((1 - eps) * t))) as X.
    rewrite (V (1 - eps)). replace (x - eps * x) with ((1 - eps) * x) by ring.
    apply Rmult_le_compat_r; [apply Rlt_le, exp_pos|].
    assert (0 <= (ev (pder c) t - (1 - eps) * ev c t) * exp (- ((1 - eps) * t)) * x); [|lra].
    apply Rmult_le_pos; [|lra]. apply Rmult_le_pos; lra.
  - destruct (K (1 + eps)) as (t & Ht & E). destruct (H0 t ltac:(lra)) as [P A]. apply Rabs_def2 in A.
    pose proof (exp_pos (- ((1 + eps) * t))) as X.
    rewrite (V (1 + eps)). replace (x + eps * x) with ((1 + eps) * x) by ring.
    apply Rmult_le_compat_r; [apply Rlt_le, exp_pos|].
    assert (0 <= (- (ev (pder c) t - (1 + eps) * ev c t)) * exp (- ((1 + eps) * t)) * x); [|lra].
    apply Rmult_le_pos; [|lra]. apply Rmult_le_pos; lra.
Qed.
Lemma exp_close fuel e N c m r b x : c = m :: r -> (0 < N)%Z -> (0 < e)%Z -> between fuel e N (pder c) c 0 b = true ->
  0 <= x <= Q2R b ->
  0 < IZR m /\ ev c x * (1 - IZR e / IZR N * x) <= IZR m * exp x /\ IZR m * exp x * (1 - IZR e / IZR N * x) <= ev c x.
Proof.
  intros Ec HN He B Hx.
  assert (Z0 : 0 <= 0 <= Q2R b) by lra.
  destruct (exp_poly _ _ _ _ _ _ _ 0 Ec HN He B Z0) as [M _]. rewrite Ec in M. cbn [ev] in M.
  destruct (exp_poly _ _ _ _ _ _ _ x Ec HN He B Hx) as (P & L & U).
  set (eps := IZR e / IZR N) in *. split; [lra|].
  assert (X : 1 - eps * x <= exp (- (eps * x))) by (pose proof (exp_ineq1_le (- (eps * x))); lra).
  pose proof (exp_pos x) as Ex. split.
  - apply Rle_trans with (ev c x * exp (- (eps * x))); [apply Rmult_le_compat_l; lra|].
    apply Rle_trans with (IZR m * exp (x + eps * x) * exp (- (eps * x))).
    + apply Rmult_le_compat_r; [apply Rlt_le, exp_pos|exact U].
    + rewrite Rmult_assoc, <- exp_plus. replace (x + eps * x + - (eps * x)) with x by ring. lra.
  - apply Rle_trans with (IZR m * exp x * exp (- (eps * x))).
    + apply Rmult_le_compat_l; auto. apply Rlt_le, Rmult_lt_0_compat; lra.
    + rewrite Rmult_assoc, <- exp_plus. exact L.
Qed.

(* value at a rational: d^n p(u/d), n the number of coefficients *)
Fixpoint evZ (u d : Z) (c : list Z) : Z :=
  match c with [] => 0%Z | a :: r => (d ^ Z.of_nat (S (length r)) * a + u * evZ u d r)%Z end.
Lemma evZ_ok u d c : (0 < d)%Z -> IZR (evZ u d c) = IZR d ^ length c * ev c (IZR u / IZR d).
Proof.
  intros Hd. apply IZR_lt in Hd. induction c as [|a r IH]; cbn [evZ ev length]; [cbn; ring|].
  rewrite plus_IZR, !mult_IZR, IH, <- pow_IZR. cbn [pow]. field. lra.
Qed.
(* exp on [0, 17/4], to 1e-17 x *)
Lemma exp34_check : between 3 1 (10 ^ 17) (pder (expc 34)) (expc 34) 0 (17 # 4) = true.
Proof. vm_compute. reflexivity. Qed.
Lemma exp_range (u d : Z) (l h w : Z) : (0 < d)%Z -> (0 <= u)%Z -> (4 * u <= 17 * d)%Z -> (0 < l)%Z -> (0 < w)%Z ->
  let c := expc 34 in let D := (d ^ Z.of_nat (length c))%Z in let V := evZ u d c in let m := hd 0%Z c in
  (* l/w <= exp(u/d) <= h/w *)
  (l * m * D * (10 ^ 17 * d) <=? w * V * (10 ^ 17 * d - u))%Z && (w * V * (10 ^ 17 * d) <=? h * m * D * (10 ^ 17 * d - u))%Z = true ->
  IZR l / IZR w <= exp (IZR u / IZR d) <= IZR h / IZR w.
Proof.
  intros Hd Hu Hud Hl Hw c D V m H. apply andb_true_iff in H. destruct H as [H1 H2].
  apply Z.leb_le, IZR_le in H1. apply Z.leb_le, IZR_le in H2. rewrite !mult_IZR in H1, H2. rewrite minus_IZR in H1, H2.
  assert (Ec : c = m :: tl c) by reflexivity.
  pose proof (IZR_lt _ _ Hd) as Rd. pose proof (IZR_le _ _ Hu) as Ru. apply IZR_le in Hud. rewrite !mult_IZR in Hud.
  pose proof (IZR_lt _ _ Hw) as Rw. apply IZR_lt in Hl.
  assert (X : 0 <= IZR u / IZR d <= Q2R (17 # 4)).
  { unfold Q2R. cbn [Qnum Qden]. split.
    - apply Rmult_le_pos; auto. apply Rlt_le, Rinv_0_lt_compat; auto.
    - apply Rmult_le_reg_r with (IZR d); auto. unfold Rdiv. rewrite Rmult_assoc, Rinv_l by lra. lra. }
  destruct (exp_close 3 1 (10 ^ 17) c m (tl c) (17 # 4) (IZR u / IZR d) Ec ltac:(reflexivity) ltac:(reflexivity) exp34_check X) as (M & L & U).
  assert (EV : IZR V = IZR D * ev c (IZR u / IZR d)).
  { unfold V, D. rewrite evZ_ok, <- pow_IZR by auto. reflexivity. }
  set (x := IZR u / IZR d) in *.
  assert (Eu : IZR u = x * IZR d) by (unfold x; field; lra).
  assert (D0 : 0 < IZR D) by (unfold D; apply IZR_lt; apply Z.pow_pos_nonneg; lia).
  rewrite EV in H1, H2. rewrite Eu in H1, H2. set (v := ev c x) in *. clearbody v x.
  set (T := IZR (10 ^ 17)) in *. assert (HT : T = 100000000000000000) by (unfold T; f_equal).
  change (IZR 1) with 1 in *.
  set (s := 1 - 1 / T * x) in *.
  assert (Es : T * IZR d - x * IZR d = T * IZR d * s) by (unfold s; field; rewrite HT; lra).
  rewrite (mult_IZR (10 ^ 17)) in H1, H2. fold T in H1, H2. rewrite Es in H1, H2.
  assert (S0 : 0 < s).
  { unfold s. rewrite HT. assert (Q2R (17 # 4) = 17 / 4) by (unfold Q2R; cbn [Qnum Qden]; lra). lra. }
  clearbody s.
  assert (TD : 0 < IZR D * (T * IZR d)) by (apply Rmult_lt_0_compat; auto; apply Rmult_lt_0_compat; [rewrite HT; lra|auto]).
  assert (A1 : IZR l * IZR m <= IZR w * v * s).
  { apply Rmult_le_reg_l with (IZR D * (T * IZR d)); auto. lra. }
  assert (A2 : IZR w * v <= IZR h * IZR m * s).
  { apply Rmult_le_reg_l with (IZR D * (T * IZR d)); auto. lra. }
  split.
  - apply Rmult_le_reg_r with (IZR m * IZR w); [now apply Rmult_lt_0_compat|].
    replace (IZR l / IZR w * (IZR m * IZR w)) with (IZR l * IZR m) by (field; lra).
    apply Rle_trans with (IZR w * (v * s)); [lra|]. apply Rle_trans with (IZR w * (IZR m * exp x)); [|right; ring].
    apply Rmult_le_compat_l; lra.
  - apply Rmult_le_reg_r with (IZR m * IZR w * s); [apply Rmult_lt_0_compat; auto; now apply Rmult_lt_0_compat|].
    replace (IZR h / IZR w * (IZR m * IZR w * s)) with (IZR h * IZR m * s) by (field; lra).
    apply Rle_trans with (IZR w * v); auto. apply Rle_trans with (IZR w * (IZR m * exp x * s)); [right; ring|].
    apply Rmult_le_compat_l; lra.
Qed.
(* e^2 = 7.38905609893065..., to 2^-50 *)
Lemma exp2_range : 8319337573440941 / 1125899906842624 <= exp 2 <= 8319337573440942 / 1125899906842624.
Proof.
  replace 2 with (IZR 2 / IZR 1) by field.
  apply (exp_range 2 1 8319337573440941 8319337573440942 1125899906842624); try lia. vm_compute. reflexivity.
Qed.

(** ** pi, by Machin's formula pi/4 = 2 atan(1/3) + atan(1/7) *)
Definition atanQ (b : positive) (n : nat) : Q := (1 # (b ^ Pos.of_nat (2 * n + 1) * Pos.of_nat (2 * n + 1)))%Q.
Lemma atanQ_ok b n : Q2R (atanQ b n) = Ratan_seq (/ IZR (Zpos b)) n.
Proof.
  unfold atanQ, Ratan_seq, Q2R. cbn [Qnum Qden]. rewrite Pos2Z.inj_mul, mult_IZR, Pos2Z.inj_pow.
  set (m := (2 * n + 1)%nat). assert (Hm : (0 < m)%nat) by (unfold m; lia). clearbody m.
  assert (E : Zpos (Pos.of_nat m) = Z.of_nat m) by (rewrite <- positive_nat_Z, Nat2Pos.id by lia; reflexivity).
  rewrite E, <- INR_IZR_INZ, <- pow_IZR, pow_inv. field.
  repeat split; try (apply not_0_INR; lia); apply pow_nonzero; apply IZR_neq; lia.
Qed.
Fixpoint piQ (n : nat) : Q :=
  match n with
  | O => Qred (2 * atanQ 3 0 + atanQ 7 0)
  | S m => let t := Qred (2 * atanQ 3 n + atanQ 7 n) in Qred (piQ m + if Nat.even n then t else - t)
  end.
Lemma piQ_ok n : Q2R (piQ n) = sum_f_R0 (tg_alt PI_2_3_7_tg) n.
Proof.
  assert (T : forall n, Q2R (2 * atanQ 3 n + atanQ 7 n) = PI_2_3_7_tg n).
  { intros k. unfold PI_2_3_7_tg. rewrite Q2R_plus, Q2R_mult, !atanQ_ok. unfold Q2R at 1. cbn [Qnum Qden]. lra. }
  induction n as [|n IH]; cbn [piQ sum_f_R0]; unfold tg_alt at 2 || unfold tg_alt at 1.
  - rewrite (Qeq_eqR _ _ (Qred_correct _)), T. cbn [pow]. lra.
  - cbv zeta. rewrite (Qeq_eqR _ _ (Qred_correct _)), Q2R_plus, IH. f_equal.
    assert (E : Q2R (Qred (2 * atanQ 3 (S n) + atanQ 7 (S n))) = PI_2_3_7_tg (S n)) by (rewrite (Qeq_eqR _ _ (Qred_correct _)); apply T).
    destruct (Nat.even (S n)) eqn:Ev.
    + apply Nat.even_spec in Ev. destruct Ev as [k Hk]. rewrite E, Hk, pow_1_even. lra.
    + rewrite Q2R_opp, E. assert (O : Nat.odd (S n) = true) by (unfold Nat.odd; now rewrite Ev).
      apply Nat.odd_spec in O. destruct O as [k Hk]. rewrite Hk, Nat.add_1_r, pow_1_odd. lra.
Qed.
Lemma PI_range : 3141592653589793 / 1000000000000000 <= PI <= 3141592653589794 / 1000000000000000.
Proof.
  pose proof (PI_2_3_7_ineq 8) as [L U]. rewrite <- piQ_ok in L, U.
  assert (H1 : (3141592653589793 # 4000000000000000 <= piQ 17)%Q) by (apply Qle_bool_iff; vm_compute; reflexivity).
  assert (H2 : (piQ 16 <= 3141592653589794 # 4000000000000000)%Q) by (apply Qle_bool_iff; vm_compute; reflexivity).
  apply Qle_Rle in H1. apply Qle_Rle in H2. change (S (2 * 8)) with 17%nat in L. change (2 * 8)%nat with 16%nat in U.
  unfold Q2R at 1 in H1. unfold Q2R at 2 in H2. cbn [Qnum Qden] in H1, H2. lra.
Qed.
