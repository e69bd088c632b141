(* Moments of the Gaussian function: the integral of 2 u^(2k) exp(-n u^2) over the
   positive half line is Gamma(k + 1/2) / n^(k + 1/2). *)
From Coq Require Import List Arith ZArith Lia Reals Lra Classical.
From Coquelicot Require Import Coquelicot.
Import ListNotations.
Open Scope R_scope.

(** ** Continuity and integrability of smooth functions *)
Lemma cont_der (f : R -> R) x l : is_derive f x l -> continuous f x.
Proof. intros H. apply (ex_derive_continuous f x). exists l. exact H. Qed.
Lemma ex_RInt_cont (f : R -> R) a b : (forall x, continuous f x) -> ex_RInt f a b.
Proof. intros H. apply (@ex_RInt_continuous R_CompleteNormedModule). intros; apply H. Qed.
Lemma RInt_is (f : R -> R) a b : (forall x, continuous f x) -> is_RInt f a b (RInt f a b).
Proof. intros H. apply (@RInt_correct R_CompleteNormedModule), ex_RInt_cont, H. Qed.
Lemma RInt_0_der (f : R -> R) (x : R) : (forall y, continuous f y) -> is_derive (fun M => RInt f 0 M) x (f x).
Proof.
  intros H. apply (is_derive_RInt f (fun M => RInt f 0 M) 0 x); [|apply H].
  apply filter_forall. intros y. apply RInt_is, H.
Qed.

(** ** The Gaussian integral *)
Definition gau (t : R) : R := exp (- (t * t)).
Lemma gau_der (t : R) : is_derive gau t (- (2 * t) * gau t).
Proof. unfold gau. auto_derive; [exact I|ring]. Qed.
Lemma gau_cont t : continuous gau t.
Proof. eapply cont_der, gau_der. Qed.
Definition gerf (x : R) : R := RInt gau 0 x.
Lemma gerf_der (x : R) : is_derive gerf x (gau x).
Proof. apply (RInt_0_der gau), gau_cont. Qed.
Lemma gau_le t : 0 < gau t <= 1.
Proof. split; [apply exp_pos|]. unfold gau. rewrite <- exp_0. destruct (Req_dec t 0) as [->|H].
  - right. f_equal. ring.
  - left. apply exp_increasing. nra.
Qed.
Lemma gerf_mono x y : x <= y -> gerf x <= gerf y.
Proof.
  intros H. destruct (Rle_lt_or_eq_dec _ _ H) as [L|<-]; [|lra].
  destruct (MVT_cor2 gerf gau x y L) as (c & E & _).
  - intros c _. apply is_derive_Reals, gerf_der.
  - pose proof (gau_le c). nra.
Qed.
Lemma gerf_0 : gerf 0 = 0.
Proof. unfold gerf. apply (RInt_point (V := R_CompleteNormedModule)). Qed.
Lemma gerf_pos x : 0 <= x -> 0 <= gerf x.
Proof. intros H. rewrite <- gerf_0. now apply gerf_mono. Qed.

Definition gk (x t : R) : R := exp (- (x * x) * (1 + t * t)) / (1 + t * t).
Definition gB (x : R) : R := RInt (gk x) 0 1.
Lemma one_sq t : 0 < 1 + t * t. Proof. nra. Qed.
Lemma gk_der_x (x t : R) : is_derive (fun u => gk u t) x (- 2 * x * exp (- (x * x) * (1 + t * t))).
Proof. unfold gk. pose proof (one_sq t). auto_derive; [lra|]. field. lra. Qed.
Lemma gk_cont x t : continuous (gk x) t.
Proof.
  apply (ex_derive_continuous (gk x) t). unfold gk. pose proof (one_sq t). auto_derive. lra.
Qed.
Lemma gB_der (x : R) : is_derive gB x (- 2 * gau x * gerf x).
Proof.
  assert (D : is_derive gB x (RInt (fun t => Derive (fun u => gk u t) x) 0 1)).
  { unfold gB. apply (is_derive_RInt_param gk 0 1 x).
    - apply filter_forall. intros y t _. eexists. apply gk_der_x.
    - intros t _. apply (continuity_2d_pt_ext (fun u v => - 2 * u * exp (- (u * u) * (1 + v * v)))).
      + intros u v. symmetry. apply is_derive_unique, gk_der_x.
      + apply continuity_2d_pt_mult.
        * apply continuity_2d_pt_mult; [apply continuity_2d_pt_const|apply continuity_2d_pt_id1].
        * apply (continuity_1d_2d_pt_comp exp (fun u v => - (u * u) * (1 + v * v))); [apply derivable_continuous_pt, derivable_pt_exp|].
          apply continuity_2d_pt_mult; [apply continuity_2d_pt_opp, continuity_2d_pt_mult; apply continuity_2d_pt_id1|].
          apply continuity_2d_pt_plus; [apply continuity_2d_pt_const|].
          apply continuity_2d_pt_mult; apply continuity_2d_pt_id2.
    - apply filter_forall. intros y. apply ex_RInt_cont. intros t. apply gk_cont. }
  replace (- 2 * gau x * gerf x) with (RInt (fun t => Derive (fun u => gk u t) x) 0 1); [exact D|].
  assert (C : RInt (fun t => x * gau (x * t + 0)) 0 1 = gerf x).
  { unfold gerf. pose proof (RInt_comp_lin (V := R_CompleteNormedModule) gau x 0 0 1) as C.
    replace (x * 0 + 0) with 0 in C by ring. replace (x * 1 + 0) with x in C by ring.
    apply C. apply ex_RInt_cont, gau_cont. }
  rewrite <- C. rewrite (RInt_ext _ (fun t => (- 2 * gau x) * (x * gau (x * t + 0)))).
  - apply (RInt_scal (V := R_CompleteNormedModule)).
    apply ex_RInt_cont. intros t. apply (ex_derive_continuous (fun t => x * gau (x * t + 0)) t). unfold gau. auto_derive. exact I.
  - intros t _. etransitivity; [apply is_derive_unique, gk_der_x|]. unfold gau.
    replace (- (x * x) * (1 + t * t)) with (- (x * x) + - ((x * t + 0) * (x * t + 0))) by ring. rewrite exp_plus.
    match goal with |- ?a = ?b => change (@eq R a b) end. ring.
Qed.
Lemma gB_0 : gB 0 = PI / 4.
Proof.
  unfold gB. rewrite (RInt_ext _ (fun t => / (1 + t * t))).
  - replace (PI / 4) with (minus (atan 1) (atan 0)) by (rewrite atan_1, atan_0; unfold minus, plus, opp; cbn; lra).
    apply is_RInt_unique. apply (is_RInt_derive atan (fun t => / (1 + t * t))).
    + intros t _. apply is_derive_Reals. pose proof (derivable_pt_lim_atan t) as H.
      replace (/ (1 + t * t)) with (/ (1 + t ^ 2)) by (f_equal; ring). exact H.
    + intros t _. apply (ex_derive_continuous (fun t => / (1 + t * t)) t). pose proof (one_sq t). auto_derive. lra.
  - intros t _. unfold gk. replace (- (0 * 0) * (1 + t * t)) with 0 by ring. rewrite exp_0. unfold Rdiv. apply Rmult_1_l.
Qed.
Lemma gB_bound x : 0 <= gB x <= gau x.
Proof.
  assert (E : forall a : R, ex_RInt (fun _ : R => a) 0 1) by (intros; apply ex_RInt_const).
  assert (V : forall a : R, RInt (fun _ => a) 0 1 = a).
  { intros a. rewrite (RInt_const (V := R_CompleteNormedModule)). unfold scal; cbn; unfold mult; cbn. ring. }
  assert (G : ex_RInt (gk x) 0 1) by (apply ex_RInt_cont; intros; apply gk_cont).
  split.
  - rewrite <- (V 0). apply RInt_le; auto; [lra|]. intros t _. unfold gk. apply Rlt_le, Rdiv_lt_0_compat; [apply exp_pos|apply one_sq].
  - rewrite <- (V (gau x)). apply RInt_le; auto; [lra|]. intros t _. unfold gk.
    apply Rmult_le_reg_r with (1 + t * t); [apply one_sq|].
    replace (exp (- (x * x) * (1 + t * t)) / (1 + t * t) * (1 + t * t)) with (exp (- (x * x) * (1 + t * t))) by (field; pose proof (one_sq t); lra).
    replace (- (x * x) * (1 + t * t)) with (- (x * x) + - ((x * t) * (x * t))) by ring. rewrite exp_plus.
    fold (gau x) (gau (x * t)). pose proof (gau_le x). pose proof (gau_le (x * t)). pose proof (one_sq t). nra.
Qed.
Lemma gerf_sq x : gerf x * gerf x + gB x = PI / 4.
Proof.
  assert (D : forall t, is_derive (fun x => gerf x * gerf x + gB x) t 0).
  { intros t. pose proof (gerf_der t) as D1. pose proof (gB_der t) as D2.
    replace 0 with (plus (plus (gau t * gerf t) (gerf t * gau t)) (- 2 * gau t * gerf t)) by (unfold plus; cbn; ring).
    apply (is_derive_plus (fun x => gerf x * gerf x) gB); [|exact D2].
    apply (is_derive_mult gerf gerf t (gau t) (gau t) D1 D1). intros; apply Rmult_comm. }
  rewrite <- gB_0. transitivity (gerf 0 * gerf 0 + gB 0); [|rewrite gerf_0; ring].
  destruct (Rtotal_order x 0) as [L|[->|L]]; [| reflexivity |].
  - apply (eq_is_derive (fun x => gerf x * gerf x + gB x) x 0); auto.
  - symmetry. apply (eq_is_derive (fun x => gerf x * gerf x + gB x) 0 x); auto.
Qed.
Lemma gau_lim : is_lim gau p_infty 0.
Proof.
  apply (is_lim_le_le_loc (fun _ => 0) (fun x => exp (- x))).
  - exists 1. intros y Hy. split; [apply Rlt_le, exp_pos|]. unfold gau. left. apply exp_increasing. nra.
  - apply is_lim_const.
  - apply (is_lim_comp exp Ropp p_infty 0 m_infty); [apply is_lim_exp_m| |exists 0; intros; discriminate].
    apply (is_lim_opp (fun x => x) p_infty p_infty), is_lim_id.
Qed.
Lemma gerf_lim : is_lim gerf p_infty (sqrt PI / 2).
Proof.
  pose proof PI_RGT_0 as HP.
  set (s := sqrt PI / 2). assert (S : 0 < s) by (unfold s; pose proof (sqrt_lt_R0 PI HP); lra).
  assert (SS : s * s = PI / 4). { unfold s. replace (sqrt PI / 2 * (sqrt PI / 2)) with (sqrt PI * sqrt PI / 4) by field. rewrite sqrt_sqrt by lra. reflexivity. }
  apply (is_lim_le_le_loc (fun x => s - gau x / s) (fun _ => s)).
  - exists 0. intros x Hx. pose proof (gerf_sq x) as E. pose proof (gB_bound x) as B. pose proof (gerf_pos x ltac:(lra)) as G.
    assert (U : gerf x <= s) by (apply Rnot_lt_le; intros C; nra). split; [|exact U].
    (* (s - g) (s + g) = B <= gau *)
    assert (F : (s - gerf x) * (s + gerf x) <= gau x) by nra.
    apply Rmult_le_reg_r with s; [exact S|]. replace ((s - gau x / s) * s) with (s * s - gau x) by (field; lra). nra.
  - replace (Finite s) with (Finite (s - / s * 0)) by (f_equal; ring).
    apply (is_lim_ext (fun x => s - / s * gau x)); [intros; unfold Rdiv; ring|].
    apply is_lim_minus'; [apply is_lim_const|]. apply (is_lim_scal_l gau (/ s) p_infty 0 gau_lim).
  - apply is_lim_const.
Qed.

(** ** Moments *)
Definition mfun (k : nat) (n u : R) : R := 2 * u ^ (2 * k) * exp (- (n * (u * u))).
Definition mom (k : nat) (n M : R) : R := RInt (mfun k n) 0 M.
Fixpoint Gam (k : nat) : R := match k with O => sqrt PI | S k' => (INR k' + 1 / 2) * Gam k' end.
Lemma Gam_pos k : 0 < Gam k.
Proof.
  induction k as [|k IH]; cbn [Gam]; [apply sqrt_lt_R0, PI_RGT_0|].
  apply Rmult_lt_0_compat; auto. pose proof (pos_INR k). lra.
Qed.
Lemma mfun_cont k n u : continuous (mfun k n) u.
Proof. apply (ex_derive_continuous (mfun k n) u). unfold mfun. auto_derive. exact I. Qed.
Lemma mfun_pos k n u : 0 <= mfun k n u.
Proof.
  unfold mfun. rewrite pow_mult. pose proof (exp_pos (- (n * (u * u)))). 
  assert (0 <= (u ^ 2) ^ k) by (apply pow_le; nra). nra.
Qed.
Lemma mom_mono k n x y : x <= y -> mom k n x <= mom k n y.
Proof.
  intros H. destruct (Rle_lt_or_eq_dec _ _ H) as [L|<-]; [|lra].
  destruct (MVT_cor2 (mom k n) (mfun k n) x y L) as (c & E & _).
  - intros c _. apply is_derive_Reals. apply (RInt_0_der (mfun k n)). intros; apply mfun_cont.
  - pose proof (mfun_pos k n c). nra.
Qed.
Lemma mom_0 n M : 0 < n -> mom 0 n M = 2 / sqrt n * gerf (sqrt n * M).
Proof.
  intros Hn. pose proof (sqrt_lt_R0 n Hn) as S. unfold gerf.
  pose proof (RInt_comp_lin (V := R_CompleteNormedModule) gau (sqrt n) 0 0 M) as C.
  replace (sqrt n * 0 + 0) with 0 in C by ring. replace (sqrt n * M + 0) with (sqrt n * M) in C by ring.
  rewrite <- C by (apply ex_RInt_cont, gau_cont).
  transitivity (RInt (fun u => 2 / sqrt n * (sqrt n * gau (sqrt n * u + 0))) 0 M).
  - unfold mom. apply RInt_ext. intros u _. unfold mfun, gau.
    replace ((sqrt n * u + 0) * (sqrt n * u + 0)) with (sqrt n * sqrt n * (u * u)) by ring. rewrite sqrt_sqrt by lra.
    change (u ^ (2 * 0)) with 1. match goal with |- ?a = ?b => change (@eq R a b) end. field. lra.
  - apply (RInt_scal (V := R_CompleteNormedModule) (fun u => sqrt n * gau (sqrt n * u + 0))).
    apply ex_RInt_cont. intros t. apply (ex_derive_continuous (fun u => sqrt n * gau (sqrt n * u + 0)) t). unfold gau. auto_derive. exact I.
Qed.
Lemma mom_S k n M : n <> 0 -> mom (S k) n M = (INR k + 1 / 2) / n * mom k n M - / n * (M ^ (2 * k + 1) * exp (- (n * (M * M)))).
Proof.
  intros Hn.
  set (h := fun u => u ^ (2 * k + 1) * exp (- (n * (u * u)))).
  assert (D : forall u : R, is_derive h u ((INR k + 1 / 2) * mfun k n u - n * mfun (S k) n u)).
  { intros u. unfold h, mfun. auto_derive; [exact I|].
    replace (k + (k + 0) + 1)%nat with (2 * k + 1)%nat by lia.
    replace (2 * S k)%nat with (2 * k + 2)%nat by lia. replace (Init.Nat.pred (2 * k + 1)) with (2 * k)%nat by lia.
    rewrite plus_INR, mult_INR. change (INR 2) with 2. change (INR 1) with 1. rewrite !pow_add. cbn [pow]. field. }
  assert (I1 : is_RInt (fun u => (INR k + 1 / 2) * mfun k n u - n * mfun (S k) n u) 0 M (minus (h M) (h 0))).
  { apply (is_RInt_derive h). - intros; apply D.
    - intros u _. apply (ex_derive_continuous (fun u => (INR k + 1 / 2) * mfun k n u - n * mfun (S k) n u) u).
      unfold mfun. auto_derive. repeat split. }
  assert (I2 : is_RInt (fun u => (INR k + 1 / 2) * mfun k n u - n * mfun (S k) n u) 0 M
     ((INR k + 1 / 2) * mom k n M - n * mom (S k) n M)).
  { apply (is_RInt_minus (V := R_NormedModule) (fun u => (INR k + 1 / 2) * mfun k n u) (fun u => n * mfun (S k) n u)).
    - apply (is_RInt_scal (V := R_NormedModule) (mfun k n)). apply RInt_is. intros; apply mfun_cont.
    - apply (is_RInt_scal (V := R_NormedModule) (mfun (S k) n)). apply RInt_is. intros; apply mfun_cont. }
  pose proof (is_RInt_unique _ _ _ _ I1) as E1. pose proof (is_RInt_unique _ _ _ _ I2) as E2. rewrite E1 in E2.
  change (minus (h M) (h 0)) with (h M - h 0) in E2. fold (h M). unfold h in E2 at 2. rewrite pow_i in E2 by lia.
  set (a := mom (S k) n M) in *. set (b := mom k n M) in *. set (c := INR k + 1 / 2) in *. clearbody a b c.
  set (hM := h M) in *. clearbody hM. apply Rmult_eq_reg_l with n; [|exact Hn].
  replace (n * (c / n * b - / n * hM)) with (c * b - hM) by (field; lra). lra.
Qed.
(* x^p exp(-c x^2) vanishes at infinity *)
Lemma pow_gau_lim p c : 0 < c -> (0 < p)%nat -> is_lim (fun x => x ^ p * exp (- (c * (x * x)))) p_infty 0.
Proof.
  intros Hc Hp. assert (P : 0 < INR p) by (apply lt_0_INR; lia).
  set (q := INR p / c). assert (Hq : 0 < q) by (apply Rdiv_lt_0_compat; auto).
  apply (is_lim_le_le_loc (fun _ => 0) (fun x => q * / x)).
  - exists (Rmax 1 q). intros x Hx. assert (1 < x /\ q < x) as [H1 H2] by (split; (eapply Rle_lt_trans; [|exact Hx]); [apply Rmax_l|apply Rmax_r]).
    assert (0 < x ^ p) by (apply pow_lt; lra). split; [pose proof (exp_pos (- (c * (x * x)))); nra|].
    assert (E : exp (c * (x * x)) = exp (x * x / q) ^ p).
    { assert (G : forall m y, exp (INR m * y) = exp y ^ m).
      { induction m as [|m IH]; intros y. - cbn. rewrite Rmult_0_l. apply exp_0.
        - rewrite S_INR, Rmult_plus_distr_r, Rmult_1_l, exp_plus, IH. cbn. ring. }
      rewrite <- G. f_equal. unfold q. field. lra. }
    assert (L : (x * x / q) ^ p <= exp (c * (x * x))).
    { rewrite E. apply pow_incr. split; [apply Rlt_le, Rdiv_lt_0_compat; nra|].
      pose proof (exp_ineq1_le (x * x / q)). lra. }
    rewrite exp_Ropp. apply Rmult_le_reg_r with (exp (c * (x * x))); [apply exp_pos|].
    rewrite Rmult_assoc, Rinv_l by (apply Rgt_not_eq, exp_pos). rewrite Rmult_1_r.
    apply Rle_trans with (q * / x * (x * x / q) ^ p).
    2:{ apply Rmult_le_compat_l; auto. apply Rlt_le, Rmult_lt_0_compat; auto. apply Rinv_0_lt_compat. lra. }
    (* x^p <= q/x (x x / q)^p *)
    replace (x * x / q) with (x * (x / q)) by (field; lra). rewrite Rpow_mult_distr.
    assert (Y : x / q <= (x / q) ^ p).
    { assert (1 <= x / q) by (apply Rmult_le_reg_r with q; auto; field_simplify; lra).
      destruct p as [|p]; [lia|]. cbn [pow]. pose proof (pow_R1_Rle (x / q) p H0). nra. }
    replace (x ^ p) with (q * / x * (x ^ p * (x / q))) at 1 by (field; lra).
    apply Rmult_le_compat_l; [apply Rlt_le, Rmult_lt_0_compat; auto; apply Rinv_0_lt_compat; lra|].
    apply Rmult_le_compat_l; lra.
  - apply is_lim_const.
  - replace (Finite 0) with (Rbar_mult q 0) by (cbn; f_equal; ring). apply is_lim_scal_l.
    replace (Finite 0) with (Rbar_inv p_infty) by reflexivity. apply is_lim_inv; [apply is_lim_id|discriminate].
Qed.
Lemma mom_lim k n : 0 < n -> is_lim (mom k n) p_infty (Gam k / (sqrt n * n ^ k)).
Proof.
  intros Hn. pose proof (sqrt_lt_R0 n Hn) as S. induction k as [|k IH].
  - apply (is_lim_ext (fun M => 2 / sqrt n * gerf (sqrt n * M))); [intros; symmetry; now apply mom_0|].
    replace (Finite (Gam 0 / (sqrt n * n ^ 0))) with (Rbar_mult (2 / sqrt n) (sqrt PI / 2)) by (cbn; f_equal; field; lra).
    apply is_lim_scal_l. apply (is_lim_comp gerf (fun M => sqrt n * M) p_infty (sqrt PI / 2) p_infty); [apply gerf_lim| |exists 0; intros; discriminate].
    replace p_infty with (Rbar_mult (sqrt n) p_infty) at 2.
    + apply is_lim_scal_l, is_lim_id.
    + cbn. destruct (Rle_dec 0 (sqrt n)) as [H|H]; [|lra]. destruct (Rle_lt_or_eq_dec 0 (sqrt n) H); [reflexivity|lra].
  - apply (is_lim_ext (fun M => (INR k + 1 / 2) / n * mom k n M - / n * (M ^ (2 * k + 1) * exp (- (n * (M * M)))))).
    { intros; symmetry; apply mom_S; lra. }
    replace (Finite (Gam (Datatypes.S k) / (sqrt n * n ^ Datatypes.S k))) with
      (Finite ((INR k + 1 / 2) / n * (Gam k / (sqrt n * n ^ k)) - / n * 0)).
    2:{ f_equal. cbn [Gam pow]. assert (n ^ k <> 0) by (apply pow_nonzero; lra). field. repeat split; lra. }
    apply is_lim_minus'.
    + apply (is_lim_scal_l (mom k n) _ p_infty (Gam k / (sqrt n * n ^ k)) IH).
    + apply (is_lim_scal_l (fun M => M ^ (2 * k + 1) * exp (- (n * (M * M)))) (/ n) p_infty 0). apply pow_gau_lim; [auto|lia].
Qed.
Lemma mom_le k n M : 0 < n -> mom k n M <= Gam k / (sqrt n * n ^ k).
Proof.
  intros Hn. apply (is_lim_le_loc (fun _ => mom k n M) (mom k n) p_infty (mom k n M) (Gam k / (sqrt n * n ^ k))).
  - exists M. intros y Hy. apply mom_mono. lra.
  - apply is_lim_const.
  - now apply mom_lim.
Qed.

(** ** Increasing bounded functions have limits *)
Lemma mono_lim (f : R -> R) B : (forall x y, x <= y -> f x <= f y) -> (forall x, f x <= B) -> exists l : R, is_lim f p_infty l /\ forall x, f x <= l.
Proof.
  intros Hm Hb. destruct (completeness (fun y => exists x, y = f x)) as (l & U & L).
  - exists B. intros y (x & ->). apply Hb.
  - exists (f 0), 0. reflexivity.
  - exists l. split; [|intros x; apply U; eauto].
    apply is_lim_spec. intros eps. destruct (classic (exists x, l - eps < f x)) as [(x & Hx)|H].
    + exists x. intros y Hy. assert (f y <= l) by (apply U; eauto). pose proof (Hm x y ltac:(lra)). apply Rabs_def1; lra.
    + exfalso. assert (l <= l - eps). { apply L. intros y (x & ->). apply Rnot_lt_le. intros C. apply H. eauto. }
      pose proof (cond_pos eps). lra.
Qed.
