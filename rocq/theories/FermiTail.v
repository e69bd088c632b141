(* The Fermi-Dirac integrals of half-integer order for x > 0: the integrand is split at
   t = x, and on either side 1/(1+y) is replaced by a polynomial in y = e^-|t-x|.  What
   remains are Dawson's integral and the complementary error function at n x. *)
From Coq Require Import List Arith ZArith Lia Reals Lra.
From Coquelicot Require Import Coquelicot.
From Verif Require Import PolySign GaussInt FermiInt.
Import ListNotations.
Open Scope R_scope.

(** ** Integrals of 2 u^(2k) e^(n (x - u^2)) above sqrt x and of 2 u^(2k) e^(n (u^2 - x)) below *)
Definition Ak (k : nat) (n x : R) : R := exp (n * x) * (Gam k / (sqrt n * n ^ k) - mom k n (sqrt x)).
Definition Bk (k : nat) (n x : R) : R := exp (- (n * x)) * mom k (- n) (sqrt x).
Definition al (t : R) : R := Ak 0 1 t / sqrt t.
Definition be (t : R) : R := Bk 0 1 t / sqrt t.

Lemma sqrt_odd k x : 0 <= x -> sqrt x ^ (2 * k + 1) = sqrt x * x ^ k.
Proof. intros H. rewrite pow_add, pow_mult, pow_1. rewrite <- Rsqr_pow2, Rsqr_sqrt by auto. ring. Qed.
Lemma exp_cancel a : exp a * exp (- a) = 1.
Proof. rewrite <- exp_plus. replace (a + - a) with 0 by ring. apply exp_0. Qed.
Lemma Ak_S k n x : 0 < n -> 0 <= x -> n * Ak (S k) n x = (INR k + 1 / 2) * Ak k n x + sqrt x * x ^ k.
Proof.
  intros Hn Hx. unfold Ak. rewrite mom_S by lra. rewrite sqrt_odd, sqrt_sqrt by auto. cbn [Gam pow].
  pose proof (exp_cancel (n * x)) as C. pose proof (sqrt_lt_R0 n Hn). assert (n ^ k <> 0) by (apply pow_nonzero; lra).
  set (e := exp (n * x)) in *. set (e' := exp (- (n * x))) in *. clearbody e e'.
  replace (sqrt x * x ^ k) with (e * e' * (sqrt x * x ^ k)) at 2 by (rewrite C; ring). field. repeat split; lra.
Qed.
Lemma Bk_S k n x : 0 < n -> 0 <= x -> n * Bk (S k) n x = sqrt x * x ^ k - (INR k + 1 / 2) * Bk k n x.
Proof.
  intros Hn Hx. unfold Bk. rewrite mom_S by lra. rewrite sqrt_odd, sqrt_sqrt by auto.
  replace (- (- n * x)) with (n * x) by ring.
  pose proof (exp_cancel (n * x)) as C.
  set (e := exp (n * x)) in *. set (e' := exp (- (n * x))) in *. clearbody e e'.
  replace (sqrt x * x ^ k) with (e * e' * (sqrt x * x ^ k)) at 2 by (rewrite C; ring). field. lra.
Qed.
Lemma mom_scale c n M : 0 < n -> mom 0 (c * n) M = mom 0 c (sqrt n * M) / sqrt n.
Proof.
  intros Hn. pose proof (sqrt_lt_R0 n Hn) as S. unfold mom.
  pose proof (RInt_comp_lin (V := R_CompleteNormedModule) (mfun 0 c) (sqrt n) 0 0 M) as C.
  replace (sqrt n * 0 + 0) with 0 in C by ring. replace (sqrt n * M + 0) with (sqrt n * M) in C by ring.
  rewrite <- C by (apply ex_RInt_cont; intros; apply mfun_cont).
  transitivity (/ sqrt n * RInt (fun u => sqrt n * mfun 0 c (sqrt n * u + 0)) 0 M); [|unfold Rdiv; apply Rmult_comm].
  transitivity (RInt (fun u => / sqrt n * (sqrt n * mfun 0 c (sqrt n * u + 0))) 0 M).
  - apply RInt_ext. intros u _. unfold mfun.
    replace ((sqrt n * u + 0) * (sqrt n * u + 0)) with (sqrt n * sqrt n * (u * u)) by ring. rewrite sqrt_sqrt by lra.
    change (u ^ (2 * 0)) with 1. change ((sqrt n * u + 0) ^ (2 * 0)) with 1. replace (c * (n * (u * u))) with (c * n * (u * u)) by ring.
    match goal with |- ?a = ?b => change (@eq R a b) end. field. lra.
  - apply (RInt_scal (V := R_CompleteNormedModule) (fun u => sqrt n * mfun 0 c (sqrt n * u + 0))).
    apply ex_RInt_cont. intros t. apply (ex_derive_continuous (fun u => sqrt n * mfun 0 c (sqrt n * u + 0)) t). unfold mfun. auto_derive. exact I.
Qed.
Lemma Ak_0 n x : 0 < n -> 0 < x -> Ak 0 n x = sqrt x * al (n * x).
Proof.
  intros Hn Hx. unfold al, Ak. replace n with (1 * n) at 4 by ring. rewrite mom_scale by auto.
  rewrite sqrt_mult by lra. rewrite sqrt_1. cbn [pow]. pose proof (sqrt_lt_R0 n Hn). pose proof (sqrt_lt_R0 x Hx).
  replace (1 * (n * x)) with (n * x) by ring. field. lra.
Qed.
Lemma Bk_0 n x : 0 < n -> 0 < x -> Bk 0 n x = sqrt x * be (n * x).
Proof.
  intros Hn Hx. unfold be, Bk. replace (- n) with (- 1 * n) by ring. rewrite mom_scale by auto.
  rewrite sqrt_mult by lra. pose proof (sqrt_lt_R0 n Hn). pose proof (sqrt_lt_R0 x Hx).
  replace (1 * (n * x)) with (n * x) by ring. replace (- (1)) with (-1) by ring. field. lra.
Qed.

(** ** Polynomials in y *)
Fixpoint dcoef (s : list Z) : list Z := match s with [] => [] | _ :: s' => fold_right Z.add 0%Z s' :: map Z.opp (dcoef s') end.
Lemma ev_1 s : ev s 1 = IZR (fold_right Z.add 0%Z s).
Proof. induction s as [|a s IH]; cbn [ev fold_right]; [reflexivity|]. rewrite IH, plus_IZR. ring. Qed.
Lemma ev_opp s y : ev (map Z.opp s) y = - ev s y.
Proof. induction s as [|a s IH]; cbn [ev map]; [ring|]. rewrite IH, opp_IZR. ring. Qed.
Lemma dcoef_ok s y : (1 + y) * ev (dcoef s) y = ev s 1 - ev s (- y).
Proof.
  rewrite <- Dv_ok. f_equal. induction s as [|a s IH]; cbn [dcoef ev Dv]; [reflexivity|].
  rewrite ev_opp, IH, ev_1. ring.
Qed.

Fixpoint pT (k : nat) (x sg : R) (c : list Z) (i : nat) (u : R) : R :=
  match c with [] => 0 | a :: c' => IZR a * (exp (sg * INR i * x) * mfun k (sg * INR i) u) + pT k x sg c' (S i) u end.
Fixpoint pI (k : nat) (x sg : R) (c : list Z) (i : nat) (M : R) : R :=
  match c with [] => 0 | a :: c' => IZR a * (exp (sg * INR i * x) * mom k (sg * INR i) M) + pI k x sg c' (S i) M end.
Lemma mom_der k n M : is_derive (mom k n) M (mfun k n M).
Proof. apply (RInt_0_der (mfun k n)). intros; apply mfun_cont. Qed.
Lemma pI_der k x sg c : forall i M, is_derive (pI k x sg c i) M (pT k x sg c i M).
Proof.
  induction c as [|a c IH]; intros i M; cbn [pI pT]; [apply (is_derive_const (V := R_NormedModule) 0)|].
  apply (is_derive_plus (fun M => IZR a * (exp (sg * INR i * x) * mom k (sg * INR i) M)) (pI k x sg c (S i))); [|apply IH].
  apply (is_derive_scal (fun M => exp (sg * INR i * x) * mom k (sg * INR i) M)).
  apply (is_derive_scal (mom k (sg * INR i))). apply mom_der.
Qed.
Lemma pI_0 k x sg c : forall i, pI k x sg c i 0 = 0.
Proof.
  induction c as [|a c IH]; intros i; cbn [pI]; [reflexivity|]. rewrite IH.
  assert (E : mom k (sg * INR i) 0 = 0) by (apply (RInt_point (V := R_CompleteNormedModule))). rewrite E. ring.
Qed.
Lemma exp_INR i y : exp (INR i * y) = exp y ^ i.
Proof.
  induction i as [|i IH]; [cbn; rewrite Rmult_0_l; apply exp_0|].
  rewrite S_INR, Rmult_plus_distr_r, Rmult_1_l, exp_plus, IH. cbn. ring.
Qed.
Lemma pT_eq k x sg c u : forall i, pT k x sg c i u = 2 * u ^ (2 * k) * (exp (sg * (x - u * u)) ^ i * ev c (exp (sg * (x - u * u)))).
Proof.
  induction c as [|a c IH]; intros i; cbn [pT ev]; [ring|]. rewrite IH.
  assert (E : exp (sg * INR i * x) * mfun k (sg * INR i) u = 2 * u ^ (2 * k) * exp (sg * (x - u * u)) ^ i).
  { unfold mfun. rewrite <- exp_INR. replace (INR i * (sg * (x - u * u))) with (sg * INR i * x + - (sg * INR i * (u * u))) by ring.
    rewrite exp_plus. ring. }
  rewrite E. cbn [pow]. ring.
Qed.

(** ** The enclosure *)
Lemma der_bound (E H e h : R -> R) a b : a <= b -> (forall u : R, is_derive E u (e u)) -> (forall u : R, is_derive H u (h u)) ->
  (forall u, a <= u <= b -> Rabs (e u) <= h u) -> Rabs (E b - E a) <= H b - H a.
Proof.
  intros L DE DH B. destruct (Rle_lt_or_eq_dec _ _ L) as [L'|<-]; [|rewrite !Rminus_eq_0, Rabs_R0; lra].
  apply Rabs_le. split.
  - destruct (MVT_cor2 (fun u => H u + E u) (fun u => h u + e u) a b L') as (c & Ec & Hc).
    + intros c _. apply is_derive_Reals, (is_derive_plus H E); auto.
    + specialize (B c ltac:(lra)). unfold Rabs in B. destruct (Rcase_abs _) in B; nra.
  - destruct (MVT_cor2 (fun u => H u - E u) (fun u => h u - e u) a b L') as (c & Ec & Hc).
    + intros c _. apply is_derive_Reals, (is_derive_minus H E); auto.
    + specialize (B c ltac:(lra)). unfold Rabs in B. destruct (Rcase_abs _) in B; nra.
Qed.
Lemma exp_le_1 a : a <= 0 -> exp a <= 1.
Proof. intros H. pose proof exp_0 as E. destruct (Req_dec a 0) as [->|N]; [lra|]. rewrite <- E. left. apply exp_increasing. lra. Qed.
(* 1/(1+y) and y/(1+y) *)
Lemma frac_err s y : (forall y, 0 <= y <= 1 -> Rabs (ev s (- y)) <= 1) -> 0 < y <= 1 ->
  Rabs (ev s 1 * (y / (1 + y)) - y * ev (dcoef s) y) <= y / (1 + y).
Proof.
  intros Hs Hy. pose proof (dcoef_ok s y) as D. specialize (Hs y ltac:(lra)).
  replace (y * ev (dcoef s) y) with (y / (1 + y) * ((1 + y) * ev (dcoef s) y)) by (field; lra). rewrite D.
  replace (ev s 1 * (y / (1 + y)) - y / (1 + y) * (ev s 1 - ev s (- y))) with (y / (1 + y) * ev s (- y)) by ring.
  assert (0 < y / (1 + y)) by (apply Rdiv_lt_0_compat; lra). rewrite Rabs_mult, (Rabs_right (y / (1 + y))) by lra. nra.
Qed.
Lemma low_err k x s : (forall y, 0 <= y <= 1 -> Rabs (ev s (- y)) <= 1) -> 0 <= x ->
  Rabs (ev s 1 * hint k x (sqrt x) - (ev s 1 * (2 / INR (2 * k + 1) * sqrt x ^ (2 * k + 1)) - pI k x (- 1) (dcoef s) 1 (sqrt x)))
    <= hint k x (sqrt x).
Proof.
  intros Hs Hx. pose proof (sqrt_pos x) as Sx.
  pose proof (der_bound (fun M => ev s 1 * hint k x M - (ev s 1 * (2 / INR (2 * k + 1) * M ^ (2 * k + 1)) - pI k x (- 1) (dcoef s) 1 M))
    (hint k x) (fun u => ev s 1 * hfun k x u - (ev s 1 * (2 * u ^ (2 * k)) - pT k x (- 1) (dcoef s) 1 u)) (hfun k x) 0 (sqrt x) Sx) as B.
  cbv beta in B. rewrite hint_0, pI_0, pow_i, !Rmult_0_r, !Rminus_0_r in B by lia. apply B; clear B.
  - intros u. apply (is_derive_minus (fun M => ev s 1 * hint k x M)); [apply (is_derive_scal (hint k x)), hint_der|].
    apply (is_derive_minus (fun M => ev s 1 * (2 / INR (2 * k + 1) * M ^ (2 * k + 1)))); [|apply pI_der].
    apply (is_derive_scal (fun M => 2 / INR (2 * k + 1) * M ^ (2 * k + 1))).
    auto_derive; [exact I|]. replace (k + (k + 0) + 1)%nat with (2 * k + 1)%nat by lia.
    replace (Init.Nat.pred (2 * k + 1)) with (2 * k)%nat by lia. assert (0 < INR (2 * k + 1)) by (apply lt_0_INR; lia). field. lra.
  - intros u. apply hint_der.
  - intros u Hu. rewrite pT_eq. unfold hfun. set (y := exp (-1 * (x - u * u))).
    replace (exp (u * u - x)) with y by (unfold y; f_equal; ring).
    assert (Y : 0 < y <= 1).
    { split; [apply exp_pos|]. apply exp_le_1. assert (u * u <= x) by (rewrite <- (sqrt_sqrt x) by auto; nra). lra. }
    pose proof (frac_err s y Hs Y) as F. pose proof (sq_pow_pos k u) as P. set (p := u ^ (2 * k)) in *. clearbody p y.
    rewrite pow_1.
    replace (ev s 1 * (2 * p / (y + 1)) - (ev s 1 * (2 * p) - 2 * p * (y * ev (dcoef s) y))) with
      (- (2 * p) * (ev s 1 * (y / (1 + y)) - y * ev (dcoef s) y)) by (field; lra).
    rewrite Rabs_mult, Rabs_Ropp, (Rabs_right (2 * p)) by lra.
    apply Rle_trans with (2 * p * (y / (1 + y))); [apply Rmult_le_compat_l; lra|].
    unfold Rdiv. rewrite (Rplus_comm y 1). apply Rmult_le_compat_l; [lra|].
    assert (0 < / (1 + y)) by (apply Rinv_0_lt_compat; lra). nra.
Qed.
Lemma up_err k x s M : (forall y, 0 <= y <= 1 -> Rabs (ev s (- y)) <= 1) -> 0 <= x -> sqrt x <= M ->
  Rabs ((ev s 1 * hint k x M - pI k x 1 (dcoef s) 1 M) - (ev s 1 * hint k x (sqrt x) - pI k x 1 (dcoef s) 1 (sqrt x)))
    <= hint k x M - hint k x (sqrt x).
Proof.
  intros Hs Hx HM. pose proof (sqrt_pos x) as Sx.
  apply (der_bound (fun M => ev s 1 * hint k x M - pI k x 1 (dcoef s) 1 M)
    (hint k x) (fun u => ev s 1 * hfun k x u - pT k x 1 (dcoef s) 1 u) (hfun k x)); auto.
  - intros u. apply (is_derive_minus (fun M => ev s 1 * hint k x M)); [apply (is_derive_scal (hint k x)), hint_der|]. apply pI_der.
  - intros u. apply hint_der.
  - intros u Hu. rewrite pT_eq. unfold hfun. set (y := exp (1 * (x - u * u))).
    replace (exp (u * u - x)) with (/ y) by (unfold y; rewrite <- exp_Ropp; f_equal; ring).
    assert (Y : 0 < y <= 1).
    { split; [apply exp_pos|]. apply exp_le_1. assert (x <= u * u) by (rewrite <- (sqrt_sqrt x) by auto; nra). lra. }
    pose proof (frac_err s y Hs Y) as F. pose proof (sq_pow_pos k u) as P. set (p := u ^ (2 * k)) in *. clearbody p y.
    rewrite pow_1. replace (2 * p / (/ y + 1)) with (2 * p * (y / (1 + y))) by (field; lra).
    replace (ev s 1 * (2 * p * (y / (1 + y))) - 2 * p * (y * ev (dcoef s) y)) with
      (2 * p * (ev s 1 * (y / (1 + y)) - y * ev (dcoef s) y)) by ring.
    rewrite Rabs_mult, (Rabs_right (2 * p)) by lra. apply Rmult_le_compat_l; lra.
Qed.
Fixpoint Gs (k : nat) (x : R) (c : list Z) (i : nat) : R :=
  match c with [] => 0 | a :: c' => IZR a * (Ak k (INR i) x - Bk k (INR i) x) + Gs k x c' (S i) end.
Fixpoint pL (k : nat) (x : R) (c : list Z) (i : nat) : R :=
  match c with [] => 0 | a :: c' => IZR a * (exp (INR i * x) * (Gam k / (sqrt (INR i) * INR i ^ k))) + pL k x c' (S i) end.
Lemma pI_lim k x c : forall i, (0 < i)%nat -> is_lim (pI k x 1 c i) p_infty (pL k x c i).
Proof.
  induction c as [|a c IH]; intros i Hi; cbn [pI pL]; [apply is_lim_const|].
  assert (P : 0 < INR i) by (now apply lt_0_INR).
  apply (is_lim_plus' (fun M => IZR a * (exp (1 * INR i * x) * mom k (1 * INR i) M))); [|apply IH; lia].
  rewrite Rmult_1_l. apply (is_lim_scal_l (fun M => exp (INR i * x) * mom k (INR i) M) (IZR a) p_infty (exp (INR i * x) * (Gam k / (sqrt (INR i) * INR i ^ k)))).
  apply (is_lim_scal_l (mom k (INR i)) (exp (INR i * x)) p_infty (Gam k / (sqrt (INR i) * INR i ^ k))). now apply mom_lim.
Qed.
Lemma Gs_eq k x c : forall i, Gs k x c i = pL k x c i - pI k x 1 c i (sqrt x) - pI k x (- 1) c i (sqrt x).
Proof.
  induction c as [|a c IH]; intros i; cbn [Gs pL pI]; [ring|]. rewrite IH. unfold Ak, Bk.
  rewrite Rmult_1_l. replace (-1 * INR i * x) with (- (INR i * x)) by ring. replace (-1 * INR i) with (- INR i) by ring. ring.
Qed.
Theorem FD_tail k (x : R) s (l : R) : (forall y, 0 <= y <= 1 -> Rabs (ev s (- y)) <= 1) -> 0 <= x -> is_lim (hint k x) p_infty l ->
  Rabs (ev s 1 * l - (ev s 1 * (2 / INR (2 * k + 1) * (sqrt x * x ^ k)) + Gs k x (dcoef s) 1)) <= l.
Proof.
  intros Hs Hx L. rewrite <- sqrt_odd by auto. rewrite Gs_eq.
  pose proof (low_err k x s Hs Hx) as B1.
  set (h := hint k x (sqrt x)) in *. set (c := ev s 1 * (2 / INR (2 * k + 1) * sqrt x ^ (2 * k + 1))) in *.
  set (p := pI k x (- 1) (dcoef s) 1 (sqrt x)) in *. set (q := pI k x 1 (dcoef s) 1 (sqrt x)) in *. set (pl := pL k x (dcoef s) 1).
  assert (B2 : Rabs ((ev s 1 * l - pl) - (ev s 1 * h - q)) <= l - h).
  { assert (LD : is_lim (fun M => (ev s 1 * hint k x M - pI k x 1 (dcoef s) 1 M) - (ev s 1 * h - q)) p_infty ((ev s 1 * l - pl) - (ev s 1 * h - q))).
    { apply is_lim_minus'; [|apply is_lim_const]. apply is_lim_minus'; [|apply pI_lim; lia].
      apply (is_lim_scal_l (hint k x) (ev s 1) p_infty l L). }
    assert (LH : is_lim (fun M => hint k x M - h) p_infty (l - h)) by (apply is_lim_minus'; [exact L|apply is_lim_const]).
    assert (LO : is_lim (fun M => - (hint k x M - h)) p_infty (- (l - h))) by (apply (is_lim_opp (fun M => hint k x M - h) p_infty (l - h) LH)).
    apply Rabs_le. split.
    - eapply (is_lim_le_loc (fun M => - (hint k x M - h)) _ p_infty (- (l - h)) ((ev s 1 * l - pl) - (ev s 1 * h - q))); [|exact LO|exact LD].
      exists (sqrt x). intros M HM. cbv beta. pose proof (up_err k x s M Hs Hx ltac:(lra)) as U. fold h q in U.
      unfold Rabs in U. destruct (Rcase_abs _) in U; lra.
    - eapply (is_lim_le_loc _ (fun M => hint k x M - h) p_infty ((ev s 1 * l - pl) - (ev s 1 * h - q)) (l - h)); [|exact LD|exact LH].
      exists (sqrt x). intros M HM. cbv beta. pose proof (up_err k x s M Hs Hx ltac:(lra)) as U. fold h q in U.
      unfold Rabs in U. destruct (Rcase_abs _) in U; lra. }
  replace (ev s 1 * l - (c + (pl - q - p))) with ((ev s 1 * l - pl - (ev s 1 * h - q)) + (ev s 1 * h - (c - p))) by ring.
  eapply Rle_trans; [apply Rabs_triang|]. lra.
Qed.
