(* How the Fermi-Dirac integrals change with their argument. *)
From Coq Require Import List Arith ZArith Lia Reals Lra.
From Coquelicot Require Import Coquelicot.
From Verif Require Import PolySign GaussInt FermiInt PropsFermiAcc.
Import ListNotations.
Open Scope R_scope.

(* every integral exists *)
Lemma FD_exists k x : exists l, FD_integral (INR k - 1 / 2) x l /\ is_lim (hint k x) p_infty l /\ forall M, hint k x M <= l.
Proof. destruct (hint_lim k x) as (l & L & B). exists l. split; [now apply FD_of_hint|]. auto. Qed.
Lemma lim_le f l c : is_lim f p_infty (Finite l) -> (forall M, 0 <= M -> f M <= c) -> l <= c.
Proof.
  intros L H. apply (is_lim_le_loc f (fun _ => c) p_infty l c); [exists 0; intros y Hy; apply H; lra|exact L|apply is_lim_const].
Qed.
(* a larger argument, by d: between the same and e^d times as much *)
Lemma hfun_le k x y u : x <= y -> hfun k x u <= hfun k y u.
Proof.
  intros H. unfold hfun, Rdiv. apply Rmult_le_compat_l; [pose proof (sq_pow_pos k u); lra|]. apply Rinv_le_contravar; [apply den_pos|].
  apply Rplus_le_compat_r. destruct H as [H|H]; [apply Rlt_le, exp_increasing; lra|rewrite H; lra].
Qed.
Lemma hfun_exp k x d u : 0 <= d -> hfun k (x + d) u <= exp d * hfun k x u.
Proof.
  intros H. unfold hfun, Rdiv. rewrite (Rmult_comm (exp d)), (Rmult_assoc _ _ (exp d)). apply Rmult_le_compat_l; [pose proof (sq_pow_pos k u); lra|].
  pose proof (den_pos (u * u - x)) as P. pose proof (exp_pos d) as D. pose proof (exp_pos (u * u - x)) as E.
  assert (1 <= exp d) by (rewrite <- exp_0; destruct H as [H|H]; [apply Rlt_le, exp_increasing; exact H|rewrite H; lra]).
  replace (/ (exp (u * u - x) + 1) * exp d) with (/ ((exp (u * u - x) + 1) * / exp d)) by (field; split; lra).
  apply Rinv_le_contravar; [apply Rmult_lt_0_compat; [lra|now apply Rinv_0_lt_compat]|].
  replace (u * u - (x + d)) with (u * u - x + - d) by ring. rewrite exp_plus, exp_Ropp.
  assert (/ exp d <= 1) by (rewrite <- Rinv_1; apply Rinv_le_contravar; lra). lra.
Qed.
Lemma ex_hfun k x a b : ex_RInt (hfun k x) a b.
Proof. apply ex_RInt_cont. intros; apply hfun_cont. Qed.
Lemma hint_le k x y M : 0 <= M -> x <= y -> hint k x M <= hint k y M.
Proof. intros HM H. apply RInt_le; auto using ex_hfun. intros; now apply hfun_le. Qed.
Lemma hint_exp k x d M : 0 <= M -> 0 <= d -> hint k (x + d) M <= exp d * hint k x M.
Proof.
  intros HM H. unfold hint. replace (exp d * RInt (hfun k x) 0 M) with (RInt (fun u => scal (exp d) (hfun k x u)) 0 M).
  - apply RInt_le; auto using ex_hfun; [apply (ex_RInt_scal (V := R_CompleteNormedModule)), ex_hfun|]. intros u _. now apply hfun_exp.
  - rewrite (RInt_scal (V := R_CompleteNormedModule)) by apply ex_hfun. reflexivity.
Qed.
Lemma FD_shift k x d l l' : 0 <= d -> FD_integral (INR k - 1 / 2) x l -> FD_integral (INR k - 1 / 2) (x + d) l' -> l <= l' <= exp d * l.
Proof.
  intros H I I'. destruct (FD_exists k x) as (m & Im & Lm & Bm), (FD_exists k (x + d)) as (m' & Im' & Lm' & Bm').
  rewrite (FD_unique _ _ _ _ I Im), (FD_unique _ _ _ _ I' Im'). split.
  - apply (lim_le (hint k x)); auto. intros M HM. eapply Rle_trans; [apply (hint_le k x (x + d) M HM); lra|apply Bm'].
  - apply (lim_le (hint k (x + d))); auto. intros M HM. eapply Rle_trans; [apply hint_exp; auto|]. apply Rmult_le_compat_l; [apply Rlt_le, exp_pos|apply Bm].
Qed.
(* a positive argument s times as large: at most s^(k + 3/2) times as much *)
Lemma scale_den s v : 1 <= s -> exp v + 1 <= s * (exp (s * v) + 1).
Proof.
  intros H. pose proof (exp_pos v) as E. pose proof (exp_pos (s * v)) as E'. destruct (Rle_lt_dec 0 v) as [V|V].
  - assert (exp v <= exp (s * v)).
    { destruct (Rle_lt_or_eq_dec v (s * v)) as [L|L]; [|apply Rlt_le, exp_increasing; exact L|rewrite <- L; lra].
      rewrite <- (Rmult_1_l v) at 1. apply Rmult_le_compat_r; lra. }
    nra.
  - (* e^v (1 - e^((s-1) v)) <= (s-1) (-v) e^v <= s - 1 *)
    assert (A : 1 + (s - 1) * v <= exp ((s - 1) * v)) by apply exp_ineq1_le.
    assert (B : exp (s * v) = exp v * exp ((s - 1) * v)) by (rewrite <- exp_plus; f_equal; ring).
    assert (C : - v * exp v <= 1).
    { pose proof (exp_ineq1_le (- v)) as X. rewrite exp_Ropp in X. apply Rmult_le_reg_r with (/ exp v); [now apply Rinv_0_lt_compat|].
      rewrite Rmult_assoc, Rinv_r, Rmult_1_l, Rmult_1_r by lra. lra. }
    assert (D : exp v - (s - 1) <= exp (s * v)).
    { rewrite B. apply Rle_trans with (exp v * (1 + (s - 1) * v)); [|apply Rmult_le_compat_l; lra].
      assert ((s - 1) * (- v * exp v) <= (s - 1) * 1) by (apply Rmult_le_compat_l; lra). lra. }
    assert (exp (s * v) <= s * exp (s * v)) by (rewrite <- (Rmult_1_l (exp (s * v))) at 1; apply Rmult_le_compat_r; lra). lra.
Qed.
Lemma hint_scale k x s M : 0 <= M -> 1 <= s -> hint k (s * s * x) (s * M) <= s ^ (2 * k + 3) * hint k x M.
Proof.
  intros HM H. unfold hint.
  assert (E : RInt (fun u => scal s (hfun k (s * s * x) (s * u + 0))) 0 M = RInt (hfun k (s * s * x)) (s * 0 + 0) (s * M + 0)).
  { apply (RInt_comp_lin (V := R_CompleteNormedModule)). apply ex_hfun. }
  rewrite Rmult_0_r, !Rplus_0_r in E. rewrite <- E.
  assert (C : forall u, continuous (fun u => scal s (hfun k (s * s * x) (s * u + 0))) u).
  { intros u. apply (ex_derive_continuous (fun u => scal s (hfun k (s * s * x) (s * u + 0))) u). unfold hfun, scal; cbn; unfold mult; cbn. auto_derive.
    pose proof (exp_pos ((s * u + 0) * (s * u + 0) + - (s * s * x))). lra. }
  replace (s ^ (2 * k + 3) * RInt (hfun k x) 0 M) with (RInt (fun u => scal (s ^ (2 * k + 3)) (hfun k x u)) 0 M).
  2:{ rewrite (RInt_scal (V := R_CompleteNormedModule)) by apply ex_hfun. reflexivity. }
  apply RInt_le; auto.
  - apply ex_RInt_cont. intros; apply C.
  - apply (ex_RInt_scal (V := R_CompleteNormedModule)), ex_hfun.
  - intros u _. unfold scal; cbn; unfold mult; cbn. rewrite Rplus_0_r. unfold hfun.
    replace (s * u * (s * u) - s * s * x) with (s * s * (u * u - x)) by ring. set (v := u * u - x).
    assert (S2 : 1 <= s * s) by nra. pose proof (scale_den (s * s) v S2) as D. pose proof (den_pos v) as P. pose proof (den_pos (s * s * v)) as P'.
    rewrite Rpow_mult_distr. change (k + (k + 0))%nat with (2 * k)%nat. set (w := u ^ (2 * k)). assert (w0 : 0 <= w) by apply sq_pow_pos.
    replace (2 * k + 3)%nat with (2 * k + 1 + 2)%nat by lia. rewrite !(pow_add s). set (t := s ^ (2 * k)). rewrite pow_1. replace (s ^ 2) with (s * s) by ring.
    assert (t0 : 0 <= t) by (apply pow_le; lra).
    match goal with |- ?a <= ?b => replace a with (s * t * (2 * w) * / (exp (s * s * v) + 1)) by (field; lra);
      replace b with (s * t * (2 * w) * (s * s / (exp v + 1))) by (field; lra) end.
    apply Rmult_le_compat_l; [apply Rmult_le_pos; [apply Rmult_le_pos|]; lra|].
    apply Rmult_le_reg_r with ((exp (s * s * v) + 1) * (exp v + 1)); [now apply Rmult_lt_0_compat|].
    replace (/ (exp (s * s * v) + 1) * ((exp (s * s * v) + 1) * (exp v + 1))) with (exp v + 1) by (field; lra).
    replace (s * s / (exp v + 1) * ((exp (s * s * v) + 1) * (exp v + 1))) with (s * s * (exp (s * s * v) + 1)) by (field; lra). exact D.
Qed.
Lemma FD_scale k x s l l' : 0 <= x -> 1 <= s -> FD_integral (INR k - 1 / 2) x l -> FD_integral (INR k - 1 / 2) (s * s * x) l' -> l <= l' <= s ^ (2 * k + 3) * l.
Proof.
  intros Hx H I I'. destruct (FD_exists k x) as (m & Im & Lm & Bm), (FD_exists k (s * s * x)) as (m' & Im' & Lm' & Bm').
  rewrite (FD_unique _ _ _ _ I Im), (FD_unique _ _ _ _ I' Im'). split.
  - apply (lim_le (hint k x)); auto. intros M HM. eapply Rle_trans; [apply (hint_le k x (s * s * x) M HM)|apply Bm']. assert (1 <= s * s) by nra. nra.
  - apply (lim_le (hint k (s * s * x))); auto. intros M HM. replace M with (s * (M / s)) by (field; lra).
    eapply Rle_trans; [apply hint_scale; auto|apply Rmult_le_compat_l; [apply pow_le; lra|apply Bm]]. apply Rmult_le_pos; auto. apply Rlt_le, Rinv_0_lt_compat. lra.
Qed.
(* small changes of the argument *)
Lemma exp_small d : 0 <= d <= / 2 -> exp d <= 1 + 2 * d.
Proof.
  intros H. pose proof (exp_ineq1_le (- d)) as X. rewrite exp_Ropp in X. pose proof (exp_pos d) as E.
  assert (exp d * (1 - d) <= 1). { apply Rle_trans with (exp d * / exp d); [apply Rmult_le_compat_l; lra|rewrite Rinv_r; lra]. }
  apply Rmult_le_reg_r with (1 - d); [lra|]. nra.
Qed.
Lemma FD_near_shift k x y d l : FD_integral (INR k - 1 / 2) x l -> 0 < l -> Rabs (y - x) <= d -> d <= / 2 ->
  exists l', FD_integral (INR k - 1 / 2) y l' /\ Rabs (l' - l) <= 2 * d * l.
Proof.
  intros I P H D. destruct (FD_exists k y) as (l' & I' & _). exists l'. split; [exact I'|]. pose proof (Rabs_pos (y - x)) as D0.
  destruct (Rle_lt_dec x y) as [L|L].
  - replace y with (x + (y - x)) in I' by ring. rewrite Rabs_pos_eq in H by lra. destruct (FD_shift k x (y - x) l l' ltac:(lra) I I') as [A B].
    pose proof (exp_small (y - x) ltac:(lra)) as E. rewrite Rabs_pos_eq by lra. assert (exp (y - x) * l <= (1 + 2 * d) * l) by (apply Rmult_le_compat_r; lra). lra.
  - replace x with (y + (x - y)) in I by ring. rewrite Rabs_left in H by lra. destruct (FD_shift k y (x - y) l' l ltac:(lra) I' I) as [A B].
    pose proof (exp_small (x - y) ltac:(lra)) as E. rewrite Rabs_minus_sym, Rabs_pos_eq by lra.
    assert (l' <= l) by lra. assert (0 <= l').
    { destruct (Rle_lt_dec 0 l'); auto. assert (exp (x - y) * l' <= 0) by (pose proof (exp_pos (x - y)); nra). lra. }
    assert (exp (x - y) * l' <= (1 + 2 * d) * l') by (apply Rmult_le_compat_r; lra). assert (2 * d * l' <= 2 * d * l) by (apply Rmult_le_compat_l; lra). lra.
Qed.
Lemma pow_small n e : (n <= 9)%nat -> 0 <= e <= / 1000 -> (1 + e) ^ n <= 1 + 10 * e.
Proof.
  intros Hn H. apply Rle_trans with ((1 + e) ^ 9); [apply Rle_pow; [lra|exact Hn]|]. cbn [pow]. nra.
Qed.
Lemma FD_near_scale k x y e l : (k <= 3)%nat -> FD_integral (INR k - 1 / 2) x l -> 0 < l -> 0 < x -> Rabs (y - x) <= e * x -> e <= / 2000 ->
  exists l', FD_integral (INR k - 1 / 2) y l' /\ Rabs (l' - l) <= 20 * e * l.
Proof.
  intros Hk I P X H E1. destruct (FD_exists k y) as (l' & I' & _). exists l'. split; [exact I'|].
  assert (E0 : 0 <= e) by (pose proof (Rabs_pos (y - x)); apply Rmult_le_reg_r with x; lra).
  destruct (Rle_lt_dec x y) as [L|L].
  - rewrite Rabs_pos_eq in H by lra. set (s := sqrt (y / x)).
    assert (R : 1 <= y / x <= 1 + e).
    { split; apply Rmult_le_reg_r with x; auto; unfold Rdiv; rewrite (Rmult_assoc y), Rinv_l by lra; lra. }
    assert (S1 : 1 <= s). { unfold s. rewrite <- sqrt_1. apply sqrt_le_1_alt. lra. }
    assert (S2 : s * s = y / x) by (apply sqrt_sqrt; lra). assert (S3 : s <= 1 + e) by nra.
    replace y with (s * s * x) in I' by (rewrite S2; field; lra). destruct (FD_scale k x s l l' ltac:(lra) S1 I I') as [A B].
    assert (Q : s ^ (2 * k + 3) <= 1 + 10 * e) by (eapply Rle_trans; [apply pow_incr; split; [lra|exact S3]|apply pow_small; [lia|lra]]).
    rewrite Rabs_pos_eq by lra. assert (s ^ (2 * k + 3) * l <= (1 + 10 * e) * l) by (apply Rmult_le_compat_r; lra). assert (0 <= e * l) by (apply Rmult_le_pos; lra). lra.
  - rewrite Rabs_left in H by lra. assert (Y : 0 < y) by nra. set (s := sqrt (x / y)).
    assert (R : 1 <= x / y <= 1 + 2 * e).
    { split; apply Rmult_le_reg_r with y; auto; unfold Rdiv; rewrite (Rmult_assoc x), Rinv_l by lra; nra. }
    assert (S1 : 1 <= s). { unfold s. rewrite <- sqrt_1. apply sqrt_le_1_alt. lra. }
    assert (S2 : s * s = x / y) by (apply sqrt_sqrt; lra). assert (S3 : s <= 1 + 2 * e) by nra.
    replace x with (s * s * y) in I by (rewrite S2; field; lra). destruct (FD_scale k y s l' l ltac:(lra) S1 I' I) as [A B].
    assert (Q : s ^ (2 * k + 3) <= 1 + 20 * e).
    { eapply Rle_trans; [apply pow_incr; split; [lra|exact S3]|]. eapply Rle_trans; [apply pow_small; [lia|lra]|lra]. }
    assert (0 < s ^ (2 * k + 3)) by (apply pow_lt; lra).
    assert (0 <= l') by (destruct (Rle_lt_dec 0 l'); auto; assert (s ^ (2 * k + 3) * l' < 0) by nra; lra).
    rewrite Rabs_minus_sym, Rabs_pos_eq by lra. assert (s ^ (2 * k + 3) * l' <= (1 + 20 * e) * l') by (apply Rmult_le_compat_r; lra).
    assert (20 * e * l' <= 20 * e * l) by (apply Rmult_le_compat_l; lra). lra.
Qed.
