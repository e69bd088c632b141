(* C134: how far the arguments returned by the inverse Fermi-Dirac functions are from the exact ones (npplus/fermi.py:205-299). *)
From Coq Require Import List Arith ZArith Lia Reals Lra.
From Coquelicot Require Import Coquelicot.
From Flocq Require Import Core BinarySingleNaN.
From Verif Require Import Num PyBase NdArray PolySign GaussInt FermiInt Float64 FermiFloat FloatErr PropsFermiFloat PropsFermiAcc PropsFermiTail PropsFermiInv FermiSens PropsFermiInvFloat.
Import ListNotations.
Open Scope R_scope.

(** ** How fast the integrals grow *)
(* the derivative of the integrand by x *)
Definition gfun (k : nat) (x u : R) : R := 2 * u ^ (2 * k) * (exp (u * u - x) / ((exp (u * u - x) + 1) * (exp (u * u - x) + 1))).
Definition gint (k : nat) (x M : R) : R := RInt (gfun k x) 0 M.
Lemma gfun_cont k x u : continuous (gfun k x) u.
Proof.
  apply (ex_derive_continuous (gfun k x) u). unfold gfun. auto_derive. pose proof (exp_pos (u * u + - x)).
  apply Rgt_not_eq. apply Rmult_lt_0_compat; lra.
Qed.
Lemma gfun_pos k x u : 0 <= gfun k x u.
Proof.
  unfold gfun. pose proof (FermiInt.den_pos (u * u - x)) as P. pose proof (sq_pow_pos k u). apply Rmult_le_pos; [lra|].
  apply Rlt_le, Rdiv_lt_0_compat; [apply exp_pos|now apply Rmult_lt_0_compat].
Qed.
Lemma gint_der k x M : is_derive (gint k x) M (gfun k x M).
Proof. apply (RInt_0_der (gfun k x)). intros; apply gfun_cont. Qed.
Lemma gint_mvt k x a b : a < b -> exists c, gint k x b - gint k x a = gfun k x c * (b - a) /\ a < c < b.
Proof.
  intros L. destruct (MVT_cor2 (gint k x) (gfun k x) a b L) as (c & E & H); [|eauto].
  intros c _. apply is_derive_Reals, gint_der.
Qed.
Lemma gint_mono k x a b : a <= b -> gint k x a <= gint k x b.
Proof.
  intros H. destruct (Rle_lt_or_eq_dec _ _ H) as [L|<-]; [|lra]. destruct (gint_mvt k x a b L) as (c & E & _).
  pose proof (Rmult_le_pos (gfun k x c) (b - a) (gfun_pos k x c) ltac:(lra)). lra.
Qed.
Lemma gint_0 k x : gint k x 0 = 0.
Proof. apply (RInt_point (V := R_CompleteNormedModule)). Qed.
Lemma ex_gfun k x a b : ex_RInt (gfun k x) a b.
Proof. apply ex_RInt_cont. intros; apply gfun_cont. Qed.

Lemma exp_neg d : 0 <= d -> 0 < exp (- d) <= 1.
Proof. intros H. split; [apply exp_pos|]. rewrite <- exp_0. destruct H as [H| <-]; [apply Rlt_le, exp_increasing; lra|rewrite Ropp_0; lra]. Qed.
Lemma hfun_grow k x d u : 0 <= d -> hfun k x u + (1 - exp (- d)) * gfun k x u <= hfun k (x + d) u.
Proof.
  intros H. unfold hfun, gfun. pose proof (exp_neg d H) as Q. set (q := exp (- d)) in *.
  replace (exp (u * u - (x + d))) with (exp (u * u - x) * q) by (unfold q; rewrite <- exp_plus; f_equal; ring).
  pose proof (exp_pos (u * u - x)) as P. set (E := exp (u * u - x)) in *. pose proof (sq_pow_pos k u) as S. set (w := u ^ (2 * k)) in *. clearbody q E w.
  assert (P1 : 0 < E * q) by (apply Rmult_lt_0_compat; lra). assert (P2 : E * q <= E) by (rewrite <- (Rmult_1_r E) at 2; apply Rmult_le_compat_l; lra).
  assert (D : / (E + 1) + (1 - q) * (E / ((E + 1) * (E + 1))) <= / (E * q + 1)).
  { replace (/ (E * q + 1)) with (/ (E + 1) + (1 - q) * (E / ((E + 1) * (E * q + 1)))) by (field; lra).
    apply Rplus_le_compat_l, Rmult_le_compat_l; [lra|]. apply Rmult_le_compat_l; [lra|].
    apply Rinv_le_contravar; [apply Rmult_lt_0_compat; lra|apply Rmult_le_compat_l; lra]. }
  unfold Rdiv in *. apply (Rmult_le_compat_l (2 * w)) in D; [|lra]. lra.
Qed.
Lemma hint_grow k x d M : 0 <= M -> 0 <= d -> hint k x M + (1 - exp (- d)) * gint k x M <= hint k (x + d) M.
Proof.
  intros HM H. unfold hint, gint.
  replace (RInt (hfun k x) 0 M + (1 - exp (- d)) * RInt (gfun k x) 0 M) with (RInt (fun u => plus (hfun k x u) (scal (1 - exp (- d)) (gfun k x u))) 0 M).
  - apply RInt_le; auto using ex_hfun.
    + apply (ex_RInt_plus (V := R_CompleteNormedModule)); [apply ex_hfun|apply (ex_RInt_scal (V := R_CompleteNormedModule)), ex_gfun].
    + intros u _. now apply hfun_grow.
  - rewrite (RInt_plus (V := R_CompleteNormedModule)); [|apply ex_hfun|apply (ex_RInt_scal (V := R_CompleteNormedModule)), ex_gfun].
    rewrite (RInt_scal (V := R_CompleteNormedModule)) by apply ex_gfun. reflexivity.
Qed.

(* from x to x + d the integral grows by the factor 1 + c (1 - e^-d) at least *)
Definition grows (k : nat) (x c : R) : Prop := forall d l l', 0 <= d ->
  FD_integral (INR k - 1 / 2) x l -> FD_integral (INR k - 1 / 2) (x + d) l' -> l + (1 - exp (- d)) * c * l <= l'.
Lemma gint_small k x M : 0 <= M -> / (1 + exp x) * hint k x M <= gint k x M.
Proof.
  intros HM. unfold hint, gint. replace (/ (1 + exp x) * RInt (hfun k x) 0 M) with (RInt (fun u => scal (/ (1 + exp x)) (hfun k x u)) 0 M).
  2:{ rewrite (RInt_scal (V := R_CompleteNormedModule)) by apply ex_hfun. reflexivity. }
  apply RInt_le; auto using ex_gfun; [apply (ex_RInt_scal (V := R_CompleteNormedModule)), ex_hfun|].
  intros u _. unfold scal; cbn; unfold mult; cbn. change (k + (k + 0))%nat with (2 * k)%nat. unfold hfun, gfun.
  assert (L : exp (- x) <= exp (u * u - x)).
  { destruct (Rle_lt_or_eq_dec (- x) (u * u - x)) as [Q|Q]; [nra|apply Rlt_le, exp_increasing; exact Q|rewrite <- Q; lra]. }
  pose proof (exp_pos x) as X. rewrite exp_Ropp in L. set (E := exp (u * u - x)) in *. pose proof (sq_pow_pos k u) as S. set (w := u ^ (2 * k)) in *. set (a := exp x) in *. clearbody E w a.
  assert (A : 0 < / a) by now apply Rinv_0_lt_compat. assert (Q : 1 <= E * a) by (apply (Rmult_le_compat_r a) in L; [rewrite Rinv_l in L; lra|lra]).
  replace (/ (1 + a) * (2 * w / (E + 1))) with (2 * w * (/ (1 + a) * / (E + 1))) by (field; lra).
  apply Rmult_le_compat_l; [lra|]. replace (E / ((E + 1) * (E + 1))) with (E / (E + 1) * / (E + 1)) by (field; lra).
  apply Rmult_le_compat_r; [apply Rlt_le, Rinv_0_lt_compat; lra|].
  apply Rmult_le_reg_r with ((1 + a) * (E + 1)); [apply Rmult_lt_0_compat; lra|].
  replace (/ (1 + a) * ((1 + a) * (E + 1))) with (E + 1) by (field; lra). replace (E / (E + 1) * ((1 + a) * (E + 1))) with (E * (1 + a)) by (field; lra). lra.
Qed.
Lemma grows_small k x : grows k x (/ (1 + exp x)).
Proof.
  intros d l l' Hd I I'. pose proof (exp_neg d Hd) as Q. assert (C : 0 < / (1 + exp x)) by (apply Rinv_0_lt_compat; pose proof (exp_pos x); lra).
  set (f := 1 + (1 - exp (- d)) * / (1 + exp x)). assert (F : 1 <= f) by (unfold f; pose proof (Rmult_le_pos (1 - exp (- d)) (/ (1 + exp x))); lra).
  assert (l <= l' / f) as L; [|apply (Rmult_le_compat_r f) in L; [|lra]; replace (l' / f * f) with l' in L by (field; lra); unfold f in L; lra].
  destruct (FD_exists k x) as (m & Im & Lm & Bm), (FD_exists k (x + d)) as (m' & Im' & Lm' & Bm').
  rewrite (FD_unique _ _ _ _ I Im), (FD_unique _ _ _ _ I' Im'). apply (lim_le (hint k x)); auto. intros M HM.
  apply Rmult_le_reg_r with f; [lra|]. replace (m' / f * f) with m' by (field; lra). eapply Rle_trans; [|apply (Bm' M)]. eapply Rle_trans; [|apply hint_grow; auto].
  pose proof (Rmult_le_compat_l (1 - exp (- d)) _ _ ltac:(lra) (gint_small k x M HM)). unfold f. lra.
Qed.

(* for large x: the derivative from u^2 between x and x + 1 *)
Lemma gint_big k x M : 1 <= x -> sqrt (x + 1) <= M -> 3 / 20 * (sqrt x ^ (2 * k + 1) / x) <= gint k x M.
Proof.
  intros Hx HM. set (a := sqrt x). set (b := sqrt (x + 1)) in *.
  assert (A2 : a * a = x) by (apply sqrt_sqrt; lra). assert (B2 : b * b = x + 1) by (apply sqrt_sqrt; lra).
  assert (A0 : 1 <= a) by (rewrite <- sqrt_1; apply sqrt_le_1_alt; lra). assert (B0 : 0 <= b) by apply sqrt_pos.
  assert (AB : a < b) by (apply sqrt_lt_1_alt; lra). assert (B1 : b <= 3 / 2 * a) by nra.
  destruct (gint_mvt k x a b AB) as (c & E & C1 & C2).
  pose proof (gint_mono k x b M HM). pose proof (gint_mono k x 0 a ltac:(lra)). rewrite gint_0 in *.
  assert (G : 3 / 8 * a ^ (2 * k) <= gfun k x c).
  { unfold gfun. assert (P : a ^ (2 * k) <= c ^ (2 * k)) by (apply pow_incr; lra). assert (P0 : 0 <= a ^ (2 * k)) by (apply pow_le; lra).
    assert (V : 0 <= c * c - x <= 1) by (split; nra). assert (E1 : 1 <= exp (c * c - x) <= 3).
    { split; [rewrite <- exp_0|apply Rle_trans with (exp 1); [|apply exp_le_3]];
      (match goal with |- exp ?u <= exp ?v => destruct (Rle_lt_or_eq_dec u v) as [Q|Q]; [lra|apply Rlt_le, exp_increasing; exact Q|rewrite Q; lra] end). }
    set (e := exp (c * c - x)) in *. clearbody e.
    assert (W : 3 / 16 <= e / ((e + 1) * (e + 1))).
    { apply Rmult_le_reg_r with ((e + 1) * (e + 1)); [nra|]. replace (e / ((e + 1) * (e + 1)) * ((e + 1) * (e + 1))) with e by (field; lra). nra. }
    set (p := a ^ (2 * k)) in *. set (r := c ^ (2 * k)) in *. set (z := e / ((e + 1) * (e + 1))) in *. clearbody p r z.
    apply Rle_trans with (2 * p * z); [|apply Rmult_le_compat_r; lra]. apply (Rmult_le_compat_l (2 * p)) in W; lra. }
  assert (D : / (5 / 2 * a) <= b - a).
  { apply Rmult_le_reg_r with (5 / 2 * a); [lra|]. rewrite Rinv_l by lra. assert ((b - a) * (b + a) = 1) by (ring_simplify; nra). nra. }
  assert (P0 : 0 <= a ^ (2 * k)) by (apply pow_le; lra).
  assert (D0 : 0 < / (5 / 2 * a)) by (apply Rinv_0_lt_compat; lra).
  assert (T : 3 / 8 * a ^ (2 * k) * / (5 / 2 * a) <= gfun k x c * (b - a)) by (apply Rmult_le_compat; lra).
  replace (3 / 20 * (a ^ (2 * k + 1) / x)) with (3 / 8 * a ^ (2 * k) * / (5 / 2 * a)); [lra|].
  rewrite pow_add, pow_1, <- A2. field. lra.
Qed.
Lemma hint_scale2 k x s M : 0 <= M -> 1 <= s -> hint k (s * s * x) (s * M) <= 2 * s ^ (2 * k + 1) * hint k x M.
Proof.
  intros HM H. unfold hint.
  assert (E : RInt (fun u => scal s (hfun k (s * s * x) (s * u + 0))) 0 M = RInt (hfun k (s * s * x)) (s * 0 + 0) (s * M + 0)).
  { apply (RInt_comp_lin (V := R_CompleteNormedModule)). apply ex_hfun. }
  rewrite Rmult_0_r, !Rplus_0_r in E. rewrite <- E.
  assert (C : forall u, continuous (fun u => scal s (hfun k (s * s * x) (s * u + 0))) u).
  { intros u. apply (ex_derive_continuous (fun u => scal s (hfun k (s * s * x) (s * u + 0))) u). unfold hfun, scal; cbn; unfold mult; cbn. auto_derive.
    pose proof (exp_pos ((s * u + 0) * (s * u + 0) + - (s * s * x))). lra. }
  replace (2 * s ^ (2 * k + 1) * RInt (hfun k x) 0 M) with (RInt (fun u => scal (2 * s ^ (2 * k + 1)) (hfun k x u)) 0 M).
  2:{ rewrite (RInt_scal (V := R_CompleteNormedModule)) by apply ex_hfun. reflexivity. }
  apply RInt_le; auto.
  - apply ex_RInt_cont. intros; apply C.
  - apply (ex_RInt_scal (V := R_CompleteNormedModule)), ex_hfun.
  - intros u _. unfold scal; cbn; unfold mult; cbn. rewrite Rplus_0_r. unfold hfun.
    replace (s * u * (s * u) - s * s * x) with (s * s * (u * u - x)) by ring. set (v := u * u - x).
    assert (S2 : 1 <= s * s) by nra. pose proof (FermiInt.den_pos v) as P. pose proof (FermiInt.den_pos (s * s * v)) as P'.
    assert (D : exp v + 1 <= 2 * (exp (s * s * v) + 1)).
    { pose proof (exp_pos (s * s * v)). destruct (Rle_lt_dec v 0) as [V|V].
      - assert (exp v <= 1) by (rewrite <- exp_0; destruct V as [V| ->]; [apply Rlt_le, exp_increasing; exact V|lra]). lra.
      - assert (exp v <= exp (s * s * v)); [|lra]. destruct (Rle_lt_or_eq_dec v (s * s * v)) as [Q|Q]; [nra|apply Rlt_le, exp_increasing; exact Q|rewrite <- Q; lra]. }
    rewrite Rpow_mult_distr. change (k + (k + 0))%nat with (2 * k)%nat. set (w := u ^ (2 * k)). assert (w0 : 0 <= w) by apply sq_pow_pos.
    rewrite !(pow_add s). set (t := s ^ (2 * k)). rewrite pow_1.
    assert (t0 : 0 <= t) by (apply pow_le; lra).
    match goal with |- ?a <= ?b => replace a with (s * t * (2 * w) * / (exp (s * s * v) + 1)) by (field; lra);
      replace b with (s * t * (2 * w) * (2 / (exp v + 1))) by (field; lra) end.
    apply Rmult_le_compat_l; [apply Rmult_le_pos; [apply Rmult_le_pos|]; lra|].
    apply Rmult_le_reg_r with ((exp (s * s * v) + 1) * (exp v + 1)); [now apply Rmult_lt_0_compat|].
    replace (/ (exp (s * s * v) + 1) * ((exp (s * s * v) + 1) * (exp v + 1))) with (exp v + 1) by (field; lra).
    replace (2 / (exp v + 1) * ((exp (s * s * v) + 1) * (exp v + 1))) with (2 * (exp (s * s * v) + 1)) by (field; lra). exact D.
Qed.
Lemma Gam_le k : (k <= 3)%nat -> Gam k <= 4.
Proof.
  intros H. assert (S : 0 < sqrt PI <= 2).
  { split; [apply sqrt_lt_R0, PI_RGT_0|]. replace 2 with (sqrt (2 * 2)) by (apply sqrt_square; lra). apply sqrt_le_1_alt. pose proof PI_4. lra. }
  destruct k as [|[|[|[|k]]]]; [| | | |lia]; cbn [Gam INR]; lra.
Qed.
Lemma FD_big k x l : (k <= 3)%nat -> 1 <= x -> FD_integral (INR k - 1 / 2) x l -> l <= 24 * sqrt x ^ (2 * k + 1).
Proof.
  intros Hk Hx I. set (s := sqrt x). assert (S2 : s * s = x) by (apply sqrt_sqrt; lra). assert (S0 : 1 <= s) by (unfold s; rewrite <- sqrt_1; apply sqrt_le_1_alt; lra).
  destruct (FD_exists k x) as (m & Im & Lm & Bm). rewrite (FD_unique _ _ _ _ I Im). apply (lim_le (hint k x)); auto. intros M HM.
  assert (M0 : 0 <= M / s) by (apply Rmult_le_pos; auto; apply Rlt_le, Rinv_0_lt_compat; lra).
  replace M with (s * (M / s)) by (field; lra). pose proof (hint_scale2 k 1 s (M / s) M0 S0) as H. rewrite Rmult_1_r, S2 in H.
  eapply Rle_trans; [exact H|]. pose proof (hint_bound k 1 (M / s) M0) as B. pose proof (Gam_le k Hk) as G. pose proof (Gam_pos k) as G0. pose proof exp_le_3 as E3. pose proof (exp_pos 1) as E0.
  assert (hint k 1 (M / s) <= 12) by (eapply Rle_trans; [exact B|]; replace 12 with (3 * 4) by ring; apply Rmult_le_compat; lra).
  assert (P : 0 <= s ^ (2 * k + 1)) by (apply pow_le; lra). apply (Rmult_le_compat_l (2 * s ^ (2 * k + 1))) in H0; lra.
Qed.
Lemma grows_big k x : (k <= 3)%nat -> 1 <= x -> grows k x (/ (160 * x)).
Proof.
  intros Hk Hx d l l' Hd I I'. pose proof (exp_neg d Hd) as Q. pose proof (FD_big k x l Hk Hx I) as U. set (t := sqrt x ^ (2 * k + 1)) in *.
  set (G := 3 / 20 * (t / x)). assert (GG : / (160 * x) * l <= G).
  { apply (Rmult_le_compat_l (/ (160 * x))) in U; [|apply Rlt_le, Rinv_0_lt_compat; lra]. eapply Rle_trans; [exact U|]. unfold G. right. field. lra. }
  assert (l <= l' - (1 - exp (- d)) * G).
  2:{ apply (Rmult_le_compat_l (1 - exp (- d))) in GG; lra. }
  destruct (FD_exists k x) as (m & Im & Lm & Bm), (FD_exists k (x + d)) as (m' & Im' & Lm' & Bm').
  rewrite (FD_unique _ _ _ _ I Im), (FD_unique _ _ _ _ I' Im'). apply (lim_le (hint k x)); auto. intros M HM.
  set (N := Rmax M (sqrt (x + 1))). pose proof (Rmax_l M (sqrt (x + 1))) as N1. pose proof (Rmax_r M (sqrt (x + 1))) as N2. fold N in N1, N2.
  pose proof (hint_mono k x M N N1). pose proof (hint_grow k x d N ltac:(lra) Hd). pose proof (Bm' N).
  pose proof (Rmult_le_compat_l (1 - exp (- d)) _ _ ltac:(lra) (gint_big k x N Hx N2)) as H2. fold t G in H2. lra.
Qed.
(* for all x *)
Lemma grows_all k x X : (k <= 3)%nat -> x <= X -> 1 <= X -> grows k x (/ (160 * X)).
Proof.
  intros Hk H HX. assert (H0 : exists c, / (160 * X) <= c /\ grows k x c).
  { destruct (Rle_lt_dec 1 x) as [L|L].
    - exists (/ (160 * x)). split; [apply Rinv_le_contravar; lra|now apply grows_big].
    - exists (/ (1 + exp x)). split; [|apply grows_small]. apply Rinv_le_contravar; [pose proof (exp_pos x); lra|].
      assert (exp x < exp 1) by now apply exp_increasing. pose proof exp_le_3. lra. }
  destruct H0 as (c & Hc & G). intros d l l' Hd I I'. pose proof (G d l l' Hd I I') as R1. pose proof (exp_neg d Hd) as Q.
  assert (P : 0 <= l).
  { destruct (FD_exists k x) as (m & Im & Lm & Bm). rewrite (FD_unique _ _ _ _ I Im). rewrite <- (hint_0 k x). apply Bm. }
  assert ((1 - exp (- d)) * / (160 * X) * l <= (1 - exp (- d)) * c * l) by (apply Rmult_le_compat_r; [exact P|apply Rmult_le_compat_l; lra]). lra.
Qed.
Lemma grows_neg k x : x <= 0 -> grows k x (/ 2).
Proof.
  intros H d l l' Hd I I'. pose proof (grows_small k x d l l' Hd I I') as R1. pose proof (exp_neg d Hd) as Q.
  assert (P : 0 <= l).
  { destruct (FD_exists k x) as (m & Im & Lm & Bm). rewrite (FD_unique _ _ _ _ I Im). rewrite <- (hint_0 k x). apply Bm. }
  assert (C : / 2 <= / (1 + exp x)).
  { pose proof (exp_pos x). apply Rinv_le_contravar; [lra|]. assert (exp x <= 1); [|lra]. rewrite <- exp_0. destruct H as [H| ->]; [apply Rlt_le, exp_increasing; exact H|lra]. }
  assert ((1 - exp (- d)) * / 2 * l <= (1 - exp (- d)) * / (1 + exp x) * l) by (apply Rmult_le_compat_r; [exact P|apply Rmult_le_compat_l; lra]). lra.
Qed.

(** ** From the error of the value to that of the argument *)
Lemma arg_step k a b la lb K r : a <= b -> 0 < K -> 0 < la -> 0 <= r -> K * r <= 1 / 2 -> grows k a (/ K) ->
  FD_integral (INR k - 1 / 2) a la -> FD_integral (INR k - 1 / 2) b lb -> lb <= (1 + r) * la -> b - a <= 2 * (K * r).
Proof.
  intros Hab HK Hl Hr HKr G Ia Ib L. set (d := b - a). assert (Hd : 0 <= d) by (unfold d; lra).
  replace b with (a + d) in Ib by (unfold d; ring). pose proof (G d la lb Hd Ia Ib) as R1. pose proof (exp_neg d Hd) as Q.
  assert (R2 : (1 - exp (- d)) * / K <= r) by (apply Rmult_le_reg_r with la; [exact Hl|lra]).
  assert (R3 : 1 - exp (- d) <= K * r) by (apply (Rmult_le_compat_l K) in R2; [|lra]; replace (K * ((1 - exp (- d)) * / K)) with (1 - exp (- d)) in R2 by (field; lra); exact R2).
  assert (Ed : exp d * exp (- d) = 1) by (rewrite <- exp_plus, Rplus_opp_r; apply exp_0).
  pose proof (exp_ineq1_le d) as E1. set (p := K * r) in *. assert (0 <= p) by (apply Rmult_le_pos; lra). clearbody p d. clear -R3 Ed E1 HKr H Hd Q.
  assert (U : (1 + d) * (1 - p) <= 1) by (rewrite <- Ed; apply Rmult_le_compat; lra). nra.
Qed.
Lemma arg_err k z t y l K eps : 0 < K -> 0 < y -> 0 <= eps <= 1 / 2 -> 4 * (K * eps) <= 1 -> (forall a, a <= t -> grows k a (/ K)) ->
  FD_integral (INR k - 1 / 2) t y -> FD_integral (INR k - 1 / 2) z l -> Rabs (l - y) <= eps * y -> Rabs (z - t) <= 4 * (K * eps).
Proof.
  intros HK Hy He HKe G It Iz A. apply Rabs_le_inv in A. assert (0 <= K * eps) by (apply Rmult_le_pos; lra).
  assert (Ey : eps * y <= 1 / 2 * y) by (apply Rmult_le_compat_r; lra).
  destruct (Rle_lt_dec z t) as [L|L].
  - rewrite Rabs_left1 by lra. assert (t - z <= 2 * (K * (2 * eps))); [|lra]. apply (arg_step k z t l y); auto; try lra.
    assert (0 <= eps * (1 - 2 * eps) * y) by (apply Rmult_le_pos; [apply Rmult_le_pos|]; lra). assert ((1 + 2 * eps) * ((1 - eps) * y) <= (1 + 2 * eps) * l) by (apply Rmult_le_compat_l; lra). lra.
  - rewrite Rabs_pos_eq by lra. assert (z - t <= 2 * (K * eps)); [|lra]. apply (arg_step k t z y l); auto; try lra. apply G. lra.
Qed.

(** ** C134 *)
(* the result z for a number that is the integral at t, to the relative error 10^-11 *)
Definition near_argument (z t eps : R) : Prop :=
  (t <= 60000 -> Rabs (z - t) <= 640 * eps * Rmax 1 t) /\ (t <= 0 -> Rabs (z - t) <= 8 * eps).
Definition finds_argument (F : nd f64 -> res (nd f64)) (j eps : R) : Prop :=
  forall x, (forall idx, inb idx (shp x) -> fin (get x idx) /\ / 10 ^ 200 <= val (get x idx) <= 10 ^ 60) ->
  exists y, F x = Ok y /\ shp y = shp x /\
    forall idx, inb idx (shp x) -> fin (get y idx) /\
      forall t l, FD_integral j t l -> Rabs (val (get x idx) - l) <= / 10 ^ 11 * l -> near_argument (val (get y idx)) t eps.
Lemma inverts_argument F k e eps j : (k <= 3)%nat -> j = INR k - 1 / 2 -> 0 <= e -> e + 2 / 10 ^ 11 <= eps -> eps <= 2.6 / 10 ^ 8 -> inverts F j e -> finds_argument F j eps.
Proof.
  intros Hk -> He0 Hee He H x Hx. destruct (H x Hx) as (y & E & S & G). exists y. split; [exact E|]. split; [exact S|].
  intros idx Hi. destruct (G idx Hi) as (Fy & l & Il & El). split; [exact Fy|]. intros t m It Em.
  assert (Y : 0 < val (get x idx)) by (destruct (Hx idx Hi) as [_ B]; assert (0 < / 10 ^ 200) by (apply Rinv_0_lt_compat, p10); lra).
  set (v := val (get x idx)) in *. clearbody v. apply Rabs_le_inv in Em. assert (M0 : 0 < m) by lra.
  assert (A : Rabs (l - m) <= eps * m).
  { assert (e * v <= (e + / 10 ^ 11) * m) as W.
    { apply Rle_trans with (e * ((1 + / 10 ^ 11) * m)); [apply Rmult_le_compat_l; lra|]. assert (e * m <= 1 * m) by (apply Rmult_le_compat_r; lra). lra. }
    assert ((e + 2 / 10 ^ 11) * m <= eps * m) by (apply Rmult_le_compat_r; lra). apply Rabs_le_inv in El. apply Rabs_le. lra. }
  split; intros Ht.
  - set (X := Rmax 1 t). assert (X1 : 1 <= X) by apply Rmax_l. assert (Xt : t <= X) by apply Rmax_r. assert (X2 : X <= 60000) by (apply Rmax_lub; lra).
    assert (XE : X * eps <= 60000 * (2.6 / 10 ^ 8)) by (apply Rmult_le_compat; lra).
    replace (640 * eps * X) with (4 * (160 * X * eps)) by ring. apply (arg_err k _ _ m l); auto; try lra. intros a Ha. apply grows_all; auto; lra.
  - replace (8 * eps) with (4 * (2 * eps)) by ring. apply (arg_err k _ _ m l); auto; try lra. intros a Ha. apply grows_neg. lra.
Qed.
Theorem C134_argument lf pf : log_ok lf -> pow_ok pf ->
  finds_argument (ifdm12_double lf) (- (1 / 2)) (3.4 / 10 ^ 9) /\ finds_argument (ifd12_double lf pf) (1 / 2) (1.04 / 10 ^ 8) /\
  finds_argument (ifd32_double lf pf) (3 / 2) (9.4 / 10 ^ 9) /\ finds_argument (ifd52_double lf pf) (5 / 2) (2.54 / 10 ^ 8).
Proof.
  intros HL HP. pose proof (C102_inverse lf pf HL HP) as (I1 & I2 & I3 & I4). split; [|split; [|split]].
  - apply (inverts_argument _ 0 (3.3 / 10 ^ 9)); [lia|cbn; lra|lra|lra|lra|exact I1].
  - apply (inverts_argument _ 1 (1.03 / 10 ^ 8)); [lia|cbn; lra|lra|lra|lra|exact I2].
  - apply (inverts_argument _ 2 (9.3 / 10 ^ 9)); [lia|cbn; lra|lra|lra|lra|exact I3].
  - apply (inverts_argument _ 3 (2.53 / 10 ^ 8)); [lia|cbn; lra|lra|lra|lra|exact I4].
Qed.
Print Assumptions C134_argument.

(** ** The round trip *)
Lemma FD_0_low k l : (k <= 3)%nat -> FD_integral (INR k - 1 / 2) 0 l -> / 256 <= l.
Proof.
  intros Hk I. destruct (FD_exists k 0) as (m & Im & _ & Bm). rewrite (FD_unique _ _ _ _ I Im). eapply Rle_trans; [|apply (Bm 1)].
  destruct (MVT_cor2 (hint k 0) (hfun k 0) (1 / 2) 1 ltac:(lra)) as (c & E & C); [intros c _; apply is_derive_Reals, hint_der|].
  pose proof (hint_mono k 0 0 (1 / 2) ltac:(lra)) as H0. rewrite hint_0 in H0.
  assert (H : / 128 <= hfun k 0 c); [|lra].
  unfold hfun. assert (P : / 64 <= c ^ (2 * k)).
  { apply Rle_trans with ((1 / 2) ^ (2 * k)); [|apply pow_incr; lra]. destruct k as [|[|[|[|k]]]]; [| | | |lia]; cbn [Nat.mul Nat.add pow]; lra. }
  assert (X : exp (c * c - 0) <= 3).
  { apply Rle_trans with (exp 1); [|apply exp_le_3]. apply Rlt_le, exp_increasing. nra. }
  pose proof (exp_pos (c * c - 0)) as X0. set (e := exp (c * c - 0)) in *. set (p := c ^ (2 * k)) in *. clearbody e p.
  apply Rmult_le_reg_r with (e + 1); [lra|]. replace (2 * p / (e + 1) * (e + 1)) with (2 * p) by (field; lra). lra.
Qed.
Lemma FD_low k x l : (k <= 3)%nat -> FD_integral (INR k - 1 / 2) x l -> exp (Rmin x 0) / 256 <= l.
Proof.
  intros Hk I. destruct (FD_exists k 0) as (m & Im & Lm & Bm), (FD_exists k x) as (m' & Im' & Lm' & Bm'). rewrite (FD_unique _ _ _ _ I Im').
  pose proof (FD_0_low k m Hk Im) as L0. pose proof (exp_pos (Rmin x 0)) as E0.
  assert (m <= m' / exp (Rmin x 0)) as H.
  2:{ apply (Rmult_le_compat_r (exp (Rmin x 0))) in H; [|lra]. replace (m' / exp (Rmin x 0) * exp (Rmin x 0)) with m' in H by (field; lra).
      apply (Rmult_le_compat_r (exp (Rmin x 0))) in L0; lra. }
  apply (lim_le (hint k 0)); auto. intros M HM. apply Rmult_le_reg_r with (exp (Rmin x 0)); [lra|].
  replace (m' / exp (Rmin x 0) * exp (Rmin x 0)) with m' by (field; lra). eapply Rle_trans; [|apply (Bm' M)].
  unfold hint. replace (RInt (hfun k 0) 0 M * exp (Rmin x 0)) with (RInt (fun u => scal (exp (Rmin x 0)) (hfun k 0 u)) 0 M).
  2:{ rewrite (RInt_scal (V := R_CompleteNormedModule)) by apply ex_hfun. unfold scal; cbn; unfold mult; cbn. ring. }
  apply RInt_le; auto using ex_hfun; [apply (ex_RInt_scal (V := R_CompleteNormedModule)), ex_hfun|].
  intros u _. unfold scal; cbn; unfold mult; cbn. change (k + (k + 0))%nat with (2 * k)%nat. unfold hfun. rewrite Rminus_0_r.
  pose proof (sq_pow_pos k u) as S. set (w := u ^ (2 * k)) in *. clearbody w.
  assert (Q : exp (Rmin x 0) * exp (u * u - x) <= exp (u * u)).
  { rewrite <- exp_plus. pose proof (Rmin_l x 0). destruct (Rle_lt_or_eq_dec (Rmin x 0 + (u * u - x)) (u * u)) as [Q|Q]; [lra|apply Rlt_le, exp_increasing; exact Q|rewrite Q; lra]. }
  assert (Q1 : exp (Rmin x 0) <= 1).
  { rewrite <- exp_0. pose proof (Rmin_r x 0) as R0. destruct R0 as [R0|R0]; [apply Rlt_le, exp_increasing; exact R0|rewrite R0; lra]. }
  pose proof (exp_pos (u * u)). pose proof (exp_pos (u * u - x)). set (q := exp (Rmin x 0)) in *. set (a := exp (u * u)) in *. set (b := exp (u * u - x)) in *. clearbody q a b.
  apply Rmult_le_reg_r with ((a + 1) * (b + 1)); [apply Rmult_lt_0_compat; lra|].
  replace (q * (2 * w / (a + 1)) * ((a + 1) * (b + 1))) with (2 * w * (q * b + q)) by (field; lra).
  replace (2 * w / (b + 1) * ((a + 1) * (b + 1))) with (2 * w * (a + 1)) by (field; lra). apply Rmult_le_compat_l; lra.
Qed.
Lemma pow3_400 : 512 * 3 ^ 400 <= 10 ^ 200.
Proof. rewrite (pow_IZR 3), (pow_IZR 10), <- mult_IZR. apply IZR_le. apply Z.leb_le. vm_compute. reflexivity. Qed.
Lemma exp_400 x : -400 <= x -> 512 * / 10 ^ 200 <= exp (Rmin x 0).
Proof.
  intros H. apply Rle_trans with (exp (-400)).
  - replace (-400) with (- (INR 400 * 1)) by (rewrite INR_IZR_INZ; cbn; lra). rewrite exp_Ropp.
    assert (E : exp (INR 400 * 1) <= 3 ^ 400).
    { replace (exp (INR 400 * 1)) with (exp 1 ^ 400) by (rewrite <- Rpower_pow by apply exp_pos; unfold Rpower; now rewrite ln_exp).
      apply pow_incr. split; [apply Rlt_le, exp_pos|apply exp_le_3]. }
    pose proof (exp_pos (INR 400 * 1)) as P. pose proof pow3_400 as T. pose proof (p10 200) as T0. set (e := exp (INR 400 * 1)) in *. set (t := 10 ^ 200) in *. set (s := 3 ^ 400) in *. clearbody e t s.
    apply Rmult_le_reg_r with (t * e); [now apply Rmult_lt_0_compat|]. replace (512 * / t * (t * e)) with (512 * e) by (field; lra). replace (/ e * (t * e)) with t by (field; lra). lra.
  - assert (M : -400 <= Rmin x 0) by (apply Rmin_glb; lra). destruct M as [M| <-]; [apply Rlt_le, exp_increasing; exact M|lra].
Qed.
Lemma FD_high k x l : (k <= 3)%nat -> x <= 60000 -> FD_integral (INR k - 1 / 2) x l -> l <= 10 ^ 59.
Proof.
  intros Hk Hx I. destruct (Rle_lt_dec 1 x) as [L|L].
  - eapply Rle_trans; [apply (FD_big k x l Hk L I)|].
    assert (S : 1 <= sqrt x <= 1000).
    { split; [rewrite <- sqrt_1; apply sqrt_le_1_alt; lra|]. replace 1000 with (sqrt (1000 * 1000)) by (apply sqrt_square; lra). apply sqrt_le_1_alt. lra. }
    assert (P : sqrt x ^ (2 * k + 1) <= 1000 ^ 7).
    { apply Rle_trans with (1000 ^ (2 * k + 1)); [apply pow_incr; lra|apply Rle_pow; [lra|lia]]. }
    apply Rle_trans with (24 * 1000 ^ 7); [lra|]. apply Rle_trans with (10 ^ 30); [lra|apply Rle_pow; [lra|lia]].
  - destruct (FD_exists k x) as (m & Im & Lm & _). rewrite (FD_unique _ _ _ _ I Im). apply Rle_trans with (3 * 4); [|apply Rle_trans with (10 ^ 2); [lra|apply Rle_pow; [lra|lia]]].
    apply (lim_le (hint k x)); auto. intros M HM. eapply Rle_trans; [apply (hint_bound k x M HM)|].
    pose proof (Gam_le k Hk). pose proof (Gam_pos k). pose proof (exp_pos x). assert (exp x < exp 1) by now apply exp_increasing. pose proof exp_le_3. apply Rmult_le_compat; lra.
Qed.
(* G after F returns doubles t from -400 to 60000 *)
Definition returns (F G : nd f64 -> res (nd f64)) (eps : R) : Prop :=
  forall t, (forall idx, inb idx (shp t) -> fin (get t idx) /\ -400 <= val (get t idx) <= 60000) ->
  exists x y, F t = Ok x /\ G x = Ok y /\ shp y = shp t /\
    forall idx, inb idx (shp t) -> fin (get y idx) /\ near_argument (val (get y idx)) (val (get t idx)) eps.
Lemma round_trip F G k j e eps : (k <= 3)%nat -> j = INR k - 1 / 2 -> e <= / 10 ^ 11 -> integrates F j e -> finds_argument G j eps -> returns F G eps.
Proof.
  intros Hk -> He HF HG t Ht. destruct (HF t) as (x & Ex & Sx & Px).
  { intros idx Hi. destruct (Ht idx Hi) as [A B]. split; [exact A|]. split; [lra|]. apply Rle_trans with (10 ^ 5); [lra|apply Rle_pow; [lra|lia]]. }
  destruct (HG x) as (y & Ey & Sy & Py).
  { intros idx Hi. rewrite Sx in Hi. destruct (Px idx Hi) as (A & l & Il & L0 & El), (Ht idx Hi) as [_ B]. split; [exact A|].
    pose proof (FD_low k _ l Hk Il) as Lo. pose proof (FD_high k _ l Hk (proj2 B) Il) as Hi'. pose proof (exp_400 _ (proj1 B)) as E4. pose proof (Rinv_0_lt_compat _ (p10 200)).
    assert (e * l <= 1 / 2 * l) by (apply Rmult_le_compat_r; lra). apply Rabs_le_inv in El.
    assert (10 ^ 60 = 10 * 10 ^ 59) by reflexivity. assert (0 < 10 ^ 59) by apply p10. set (T1 := / 10 ^ 200) in *. set (T2 := 10 ^ 60) in *. set (T3 := 10 ^ 59) in *. clearbody T1 T2 T3. lra. }
  exists x, y. split; [exact Ex|]. split; [exact Ey|]. split; [now rewrite Sy|]. intros idx Hi. destruct (Py idx) as [A B]; [now rewrite Sx|]. split; [exact A|].
  destruct (Px idx Hi) as (_ & l & Il & L0 & El). apply (B _ l Il). eapply Rle_trans; [exact El|]. apply Rmult_le_compat_r; lra.
Qed.
Theorem C134_round_trip ef lf pf : exp_ok ef -> log_ok lf -> pow_ok pf ->
  returns (fdm12_double ef) (ifdm12_double lf) (3.4 / 10 ^ 9) /\ returns (fd12_double ef) (ifd12_double lf pf) (1.04 / 10 ^ 8) /\
  returns (fd32_double ef) (ifd32_double lf pf) (9.4 / 10 ^ 9) /\ returns (fd52_double ef) (ifd52_double lf pf) (2.54 / 10 ^ 8).
Proof.
  intros HE HL HP. destruct (C101_integrals ef HE) as (F1 & F2 & F3 & F4), (C134_argument lf pf HL HP) as (G1 & G2 & G3 & G4). split; [|split; [|split]].
  - apply (round_trip _ _ 0 (- (1 / 2)) (3.03 / 10 ^ 12)); [lia|cbn; lra|lra|exact F1|exact G1].
  - apply (round_trip _ _ 1 (1 / 2) (1.03 / 10 ^ 12)); [lia|cbn; lra|lra|exact F2|exact G2].
  - apply (round_trip _ _ 2 (3 / 2) (1.03 / 10 ^ 12)); [lia|cbn; lra|lra|exact F3|exact G3].
  - apply (round_trip _ _ 3 (5 / 2) (1.03 / 10 ^ 12)); [lia|cbn; lra|lra|exact F4|exact G4].
Qed.
Print Assumptions C134_round_trip.
(* The hypotheses are met by the correctly rounded functions.  The double that ifdm12 returns after fdm12 at 20 (neither exp nor log
   is used there) is 20.00000004..., not 20. *)
Example ex_C134 : exp_ok (fun x => fround (exp (val x))) /\ log_ok (fun x => fround (ln (val x))) /\ pow_ok (fun x e => fround (Rpower (val x) (val e))) /\
  (fin (fofZ 20) /\ -400 <= val (fofZ 20) <= 60000) /\
  at_list (fun t => match fdm12_double (fun x => x) t with Ok x => ifdm12_double (fun x => x) x | Err e => Err e end) [fofZ 20; fofZ 30] =
    [SpecFloat.S754_finite false 5629499546420270 (-48); SpecFloat.S754_finite false 8444249280841534 (-48)].
Proof.
  split; [exact exp_ok_round|]. split; [exact log_ok_round|]. split; [exact pow_ok_round|]. split; [|vm_compute; reflexivity].
  destruct (fofZ_val 20 ltac:(lia)) as [F V]. split; [exact F|]. change (fofZ 20) with (nofZ 20 : f64). rewrite V. lra.
Qed.
