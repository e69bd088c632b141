(* The functions al and be of [FermiTail] solve t y' = (t - 1/2) y - 1 and
   t y' = 1 - (t + 1/2) y.  A polynomial that solves the equation up to a small residual
   is close to them: al is compared from the right (or from infinity), be from the left. *)
From Coq Require Import List Arith ZArith Lia Reals Lra.
From Coquelicot Require Import Coquelicot.
From Verif Require Import PolySign GaussInt FermiInt FermiTail.
Import ListNotations.
Open Scope R_scope.
Ltac Req := match goal with |- ?a = ?b => change (@eq R a b) end.

Lemma sqrt_der (t : R) : 0 < t -> is_derive sqrt t (/ (2 * sqrt t)).
Proof. intros H. apply is_derive_Reals. now apply derivable_pt_lim_sqrt. Qed.
Lemma mom_sqrt_der c (t : R) : 0 < t -> is_derive (fun t => mom 0 c (sqrt t)) t (exp (- (c * t)) / sqrt t).
Proof.
  intros H. pose proof (sqrt_lt_R0 t H) as S.
  replace (exp (- (c * t)) / sqrt t) with (scal (/ (2 * sqrt t)) (mfun 0 c (sqrt t))).
  - apply (is_derive_comp (mom 0 c) sqrt); [apply mom_der|now apply sqrt_der].
  - unfold scal; cbn; unfold mult; cbn. unfold mfun. rewrite sqrt_sqrt by lra. change (sqrt t ^ (2 * 0)) with 1. field. lra.
Qed.
Lemma A_der (t : R) : 0 < t -> is_derive (fun t => exp (- t) * Ak 0 1 t) t (- exp (- t) / sqrt t).
Proof.
  intros H. apply (is_derive_ext (fun t => sqrt PI - mom 0 1 (sqrt t))).
  - intros u. unfold Ak. rewrite sqrt_1. cbn [Gam pow]. pose proof (exp_cancel u) as E. rewrite Rmult_1_l.
    transitivity (exp u * exp (- u) * (sqrt PI - mom 0 1 (sqrt u))); [Req; rewrite E; ring|Req; field].
  - replace (- exp (- t) / sqrt t) with (minus 0 (exp (- (1 * t)) / sqrt t)).
    + apply (is_derive_minus (fun _ => sqrt PI)); [apply (is_derive_const (V := R_NormedModule))|now apply mom_sqrt_der].
    + rewrite Rmult_1_l. change (minus 0 (exp (- t) / sqrt t)) with (0 - exp (- t) / sqrt t). pose proof (sqrt_lt_R0 t H). Req. field. lra.
Qed.
Lemma B_der (t : R) : 0 < t -> is_derive (fun t => exp t * Bk 0 1 t) t (exp t / sqrt t).
Proof.
  intros H. apply (is_derive_ext (fun t => mom 0 (-1) (sqrt t))).
  - intros u. unfold Bk. pose proof (exp_cancel u) as E. rewrite Rmult_1_l. replace (- (1)) with (-1) by ring.
    transitivity (exp u * exp (- u) * mom 0 (-1) (sqrt u)); [Req; rewrite E; ring|Req; ring].
  - replace (exp t / sqrt t) with (exp (- (-1 * t)) / sqrt t) by (f_equal; f_equal; ring). now apply mom_sqrt_der.
Qed.
Lemma der_plus (p : R -> R) (c l M : R) : is_derive p c l -> is_derive (fun t => p t + M) c l.
Proof. intros H. replace l with (l + 0) by ring. apply (is_derive_plus p (fun _ => M)); [exact H|apply (is_derive_const (V := R_NormedModule))]. Qed.
Lemma der_minus (p : R -> R) (c l M : R) : is_derive p c l -> is_derive (fun t => p t - M) c l.
Proof. apply der_plus. Qed.
Lemma incr_le (f f' : R -> R) a b : a <= b -> (forall c, a <= c <= b -> is_derive f c (f' c)) -> (forall c, a <= c <= b -> 0 <= f' c) -> f a <= f b.
Proof.
  intros L D P. destruct (Rle_lt_or_eq_dec _ _ L) as [L'|<-]; [|lra].
  destruct (MVT_cor2 f f' a b L') as (c & E & Hc).
  - intros c Hc. now apply is_derive_Reals, D.
  - specialize (P c ltac:(lra)). nra.
Qed.

(* exp(-t) (A - sqrt t q), q a function with derivative q' *)
Definition phiA (q : R -> R) (t : R) : R := exp (- t) * Ak 0 1 t - exp (- t) * (sqrt t * q t).
Definition phiA' (q q' : R -> R) (t : R) : R := exp (- t) / sqrt t * (t * q t - 1 - q t / 2 - t * q' t).
Lemma phiA_der q q' t : 0 < t -> is_derive q t (q' t) -> is_derive (phiA q) t (phiA' q q' t).
Proof.
  intros H D. unfold phiA. pose proof (sqrt_lt_R0 t H) as S. pose proof (sqrt_sqrt t ltac:(lra)) as Q.
  assert (D2 : is_derive (fun t => exp (- t) * (sqrt t * q t)) t (- exp (- t) * (sqrt t * q t) + exp (- t) * (/ (2 * sqrt t) * q t + sqrt t * q' t))).
  { apply (is_derive_mult (fun t => exp (- t)) (fun t => sqrt t * q t)); [| |intros; apply Rmult_comm].
    - auto_derive; [exact I|]. ring.
    - apply (is_derive_mult sqrt q); [now apply sqrt_der|exact D|intros; apply Rmult_comm]. }
  eapply is_derive_ext_loc; [apply filter_forall; intros; reflexivity|].
  replace (phiA' q q' t) with (minus (- exp (- t) / sqrt t) (- exp (- t) * (sqrt t * q t) + exp (- t) * (/ (2 * sqrt t) * q t + sqrt t * q' t))).
  - apply (is_derive_minus (fun t => exp (- t) * Ak 0 1 t)); [now apply A_der|exact D2].
  - unfold minus, plus, opp; cbn. unfold phiA'. set (e := exp (- t)). set (s := sqrt t) in *. set (a := q t). set (b := q' t).
    clearbody e a b s. clear D D2. rewrite <- Q. Req. field. lra.
Qed.
Lemma phiA_al q t : 0 < t -> phiA q t = exp (- t) * sqrt t * (al t - q t).
Proof. intros H. unfold phiA, al. pose proof (sqrt_lt_R0 t H). field. lra. Qed.
Lemma al_cmp (p p' : R -> R) a b M : 0 < a -> (forall t, a <= t <= b -> is_derive p t (p' t)) ->
  (forall t, a <= t <= b -> Rabs (t * p' t + p t / 2 + 1 - t * p t) <= M * (t - 1 / 2)) ->
  Rabs (al b - p b) <= M -> forall t, a <= t <= b -> Rabs (al t - p t) <= M.
Proof.
  intros Ha D B E t Ht.
  assert (Dp : forall c, a <= c <= b -> is_derive (fun t => p t + M) c (p' c)).
  { intros c Hc. apply der_plus. now apply D. }
  assert (Dm : forall c, a <= c <= b -> is_derive (fun t => p t - M) c (p' c)).
  { intros c Hc. apply der_minus. now apply D. }
  assert (I1 : phiA (fun t => p t + M) t <= phiA (fun t => p t + M) b).
  { apply (incr_le _ (phiA' (fun t => p t + M) p')); [lra| |].
    - intros c Hc. apply phiA_der; [lra|]. apply Dp. lra.
    - intros c Hc. unfold phiA'. specialize (B c ltac:(lra)). 
      assert (0 < exp (- c) / sqrt c) by (apply Rdiv_lt_0_compat; [apply exp_pos|apply sqrt_lt_R0; lra]).
      apply Rmult_le_pos; [lra|]. unfold Rabs in B. destruct (Rcase_abs _) in B; nra. }
  assert (I2 : - phiA (fun t => p t - M) t <= - phiA (fun t => p t - M) b).
  { apply (incr_le (fun t => - phiA (fun t => p t - M) t) (fun t => - phiA' (fun t => p t - M) p' t)); [lra| |].
    - intros c Hc. apply (is_derive_opp (phiA (fun t => p t - M))). apply phiA_der; [lra|]. apply Dm. lra.
    - intros c Hc. unfold phiA'. specialize (B c ltac:(lra)). 
      assert (0 < exp (- c) / sqrt c) by (apply Rdiv_lt_0_compat; [apply exp_pos|apply sqrt_lt_R0; lra]).
      rewrite Ropp_mult_distr_r. apply Rmult_le_pos; [lra|]. unfold Rabs in B. destruct (Rcase_abs _) in B; nra. }
  rewrite !phiA_al in I1, I2 by lra.
  assert (P : forall c, a <= c -> 0 < exp (- c) * sqrt c) by (intros; apply Rmult_lt_0_compat; [apply exp_pos|apply sqrt_lt_R0; lra]).
  pose proof (P t ltac:(lra)) as Pt. pose proof (P b ltac:(lra)) as Pb.
  set (wt := exp (- t) * sqrt t) in *. set (wb := exp (- b) * sqrt b) in *. clearbody wt wb.
  apply Rabs_le. assert (E' : - M <= al b - p b <= M) by (unfold Rabs in E; destruct (Rcase_abs _) in E; lra).
  split.
  - apply Rmult_le_reg_l with wt; auto. assert (0 <= wb * (al b - (p b - M))) by (apply Rmult_le_pos; lra). lra.
  - apply Rmult_le_reg_l with wt; auto. assert (0 <= wb * ((p b + M) - al b)) by (apply Rmult_le_pos; lra). lra.
Qed.
(* from infinity, for a bounded p *)
Lemma sqrt_lim : is_lim sqrt p_infty p_infty.
Proof. apply (is_lim_sqrt_p (fun x => x)), is_lim_id. Qed.
Lemma A_lim : is_lim (fun t => exp (- t) * Ak 0 1 t) p_infty 0.
Proof.
  apply (is_lim_ext (fun t => sqrt PI - mom 0 1 (sqrt t))).
  - intros u. unfold Ak. rewrite sqrt_1. cbn [Gam pow]. pose proof (exp_cancel u) as E. rewrite Rmult_1_l.
    transitivity (exp u * exp (- u) * (sqrt PI - mom 0 1 (sqrt u))); [Req; rewrite E; ring|Req; field].
  - replace (Finite 0) with (Finite (sqrt PI - Gam 0 / (sqrt 1 * 1 ^ 0))) by (rewrite sqrt_1; cbn; f_equal; field).
    apply is_lim_minus'; [apply is_lim_const|].
    apply (is_lim_comp (mom 0 1) sqrt p_infty (Gam 0 / (sqrt 1 * 1 ^ 0)) p_infty); [apply mom_lim; lra|apply sqrt_lim|exists 0; intros; discriminate].
Qed.
Lemma es_lim : is_lim (fun t => exp (- t) * sqrt t) p_infty 0.
Proof.
  apply (is_lim_ext_loc (fun t => sqrt t ^ 1 * exp (- (1 * (sqrt t * sqrt t))))).
  - exists 0. intros t Ht. rewrite sqrt_sqrt, pow_1, Rmult_1_l by lra. ring.
  - apply (is_lim_comp (fun x => x ^ 1 * exp (- (1 * (x * x)))) sqrt p_infty 0 p_infty); [apply pow_gau_lim; [lra|lia]|apply sqrt_lim|exists 0; intros; discriminate].
Qed.
Lemma al_cmp_inf (p p' : R -> R) a M C : 0 < a -> (forall t, a <= t -> is_derive p t (p' t)) ->
  (forall t, a <= t -> Rabs (p t) <= C) ->
  (forall t, a <= t -> Rabs (t * p' t + p t / 2 + 1 - t * p t) <= M * (t - 1 / 2)) ->
  forall t, a <= t -> Rabs (al t - p t) <= M.
Proof.
  intros Ha D HC B t Ht.
  assert (LC : forall q, (forall t, a <= t -> Rabs (q t) <= C + Rabs M) -> is_lim (phiA q) p_infty 0).
  { intros q Hq. replace (Finite 0) with (Finite (0 - 0)) by (f_equal; ring). unfold phiA. apply is_lim_minus'; [apply A_lim|].
    apply (is_lim_le_le_loc (fun t => - (C + Rabs M) * (exp (- t) * sqrt t)) (fun t => (C + Rabs M) * (exp (- t) * sqrt t))).
    - exists a. intros y Hy. specialize (Hq y ltac:(lra)).
      assert (P : 0 < exp (- y) * sqrt y) by (apply Rmult_lt_0_compat; [apply exp_pos|apply sqrt_lt_R0; lra]).
      replace (exp (- y) * (sqrt y * q y)) with (exp (- y) * sqrt y * q y) by ring. set (w := exp (- y) * sqrt y) in *. clearbody w.
      apply Rabs_le_between in Hq. set (K := C + Rabs M) in *. clearbody K. nra.
    - replace (Finite 0) with (Rbar_mult (- (C + Rabs M)) 0) by (cbn; f_equal; ring). apply is_lim_scal_l, es_lim.
    - replace (Finite 0) with (Rbar_mult (C + Rabs M) 0) by (cbn; f_equal; ring). apply is_lim_scal_l, es_lim. }
  assert (Dp : forall c, a <= c -> is_derive (fun t => p t + M) c (p' c)).
  { intros c Hc. apply der_plus. now apply D. }
  assert (Dm : forall c, a <= c -> is_derive (fun t => p t - M) c (p' c)).
  { intros c Hc. apply der_minus. now apply D. }
  assert (I1 : forall b, t <= b -> phiA (fun t => p t + M) t <= phiA (fun t => p t + M) b).
  { intros b Hb. apply (incr_le _ (phiA' (fun t => p t + M) p')); [lra| |].
    - intros c Hc. apply phiA_der; [lra|]. apply Dp. lra.
    - intros c Hc. unfold phiA'. specialize (B c ltac:(lra)). 
      assert (0 < exp (- c) / sqrt c) by (apply Rdiv_lt_0_compat; [apply exp_pos|apply sqrt_lt_R0; lra]).
      apply Rmult_le_pos; [lra|]. unfold Rabs in B. destruct (Rcase_abs _) in B; nra. }
  assert (I2 : forall b, t <= b -> - phiA (fun t => p t - M) t <= - phiA (fun t => p t - M) b).
  { intros b Hb. apply (incr_le (fun t => - phiA (fun t => p t - M) t) (fun t => - phiA' (fun t => p t - M) p' t)); [lra| |].
    - intros c Hc. apply (is_derive_opp (phiA (fun t => p t - M))). apply phiA_der; [lra|]. apply Dm. lra.
    - intros c Hc. unfold phiA'. specialize (B c ltac:(lra)). 
      assert (0 < exp (- c) / sqrt c) by (apply Rdiv_lt_0_compat; [apply exp_pos|apply sqrt_lt_R0; lra]).
      rewrite Ropp_mult_distr_r. apply Rmult_le_pos; [lra|]. unfold Rabs in B. destruct (Rcase_abs _) in B; nra. }
  assert (J1 : phiA (fun t => p t + M) t <= 0).
  { apply (is_lim_le_loc (fun _ => phiA (fun t => p t + M) t) (phiA (fun t => p t + M)) p_infty (phiA (fun t => p t + M) t) 0).
    - exists t. intros b Hb. apply I1. lra.
    - apply is_lim_const.
    - apply LC. intros u Hu. specialize (HC u Hu). eapply Rle_trans; [apply Rabs_triang|]. lra. }
  assert (J2 : 0 <= phiA (fun t => p t - M) t).
  { apply (is_lim_le_loc (phiA (fun t => p t - M)) (fun _ => phiA (fun t => p t - M) t) p_infty 0 (phiA (fun t => p t - M) t)).
    - exists t. intros b Hb. specialize (I2 b ltac:(lra)). lra.
    - apply LC. intros u Hu. specialize (HC u Hu). unfold Rminus. eapply Rle_trans; [apply Rabs_triang|]. rewrite Rabs_Ropp. lra.
    - apply is_lim_const. }
  rewrite phiA_al in J1, J2 by lra.
  assert (Pt : 0 < exp (- t) * sqrt t) by (apply Rmult_lt_0_compat; [apply exp_pos|apply sqrt_lt_R0; lra]).
  set (w := exp (- t) * sqrt t) in *. clearbody w. apply Rabs_le. split; apply Rmult_le_reg_l with w; lra.
Qed.

(* exp(t) (B - sqrt t q) *)
Definition phiB (q : R -> R) (t : R) : R := exp t * Bk 0 1 t - exp t * (sqrt t * q t).
Definition phiB' (q q' : R -> R) (t : R) : R := exp t / sqrt t * (1 - t * q t - q t / 2 - t * q' t).
Lemma phiB_der q q' t : 0 < t -> is_derive q t (q' t) -> is_derive (phiB q) t (phiB' q q' t).
Proof.
  intros H D. unfold phiB. pose proof (sqrt_lt_R0 t H) as S. pose proof (sqrt_sqrt t ltac:(lra)) as Q.
  assert (D2 : is_derive (fun t => exp t * (sqrt t * q t)) t (exp t * (sqrt t * q t) + exp t * (/ (2 * sqrt t) * q t + sqrt t * q' t))).
  { apply (is_derive_mult exp (fun t => sqrt t * q t)); [| |intros; apply Rmult_comm].
    - auto_derive; [exact I|]. ring.
    - apply (is_derive_mult sqrt q); [now apply sqrt_der|exact D|intros; apply Rmult_comm]. }
  replace (phiB' q q' t) with (minus (exp t / sqrt t) (exp t * (sqrt t * q t) + exp t * (/ (2 * sqrt t) * q t + sqrt t * q' t))).
  - apply (is_derive_minus (fun t => exp t * Bk 0 1 t)); [now apply B_der|exact D2].
  - unfold minus, plus, opp; cbn. unfold phiB'. set (e := exp t). set (s := sqrt t) in *. set (a := q t). set (b := q' t).
    clearbody e a b s. clear D D2. rewrite <- Q. Req. field. lra.
Qed.
Lemma phiB_be q t : 0 < t -> phiB q t = exp t * sqrt t * (be t - q t).
Proof. intros H. unfold phiB, be. pose proof (sqrt_lt_R0 t H). field. lra. Qed.
Lemma be_cmp (p p' : R -> R) a b M : 0 < a -> (forall t, a <= t <= b -> is_derive p t (p' t)) ->
  (forall t, a <= t <= b -> Rabs (t * p' t + p t / 2 - 1 + t * p t) <= M * (t + 1 / 2)) ->
  Rabs (be a - p a) <= M -> forall t, a <= t <= b -> Rabs (be t - p t) <= M.
Proof.
  intros Ha D B E t Ht.
  assert (Dp : forall c, a <= c <= b -> is_derive (fun t => p t + M) c (p' c)).
  { intros c Hc. apply der_plus. now apply D. }
  assert (Dm : forall c, a <= c <= b -> is_derive (fun t => p t - M) c (p' c)).
  { intros c Hc. apply der_minus. now apply D. }
  assert (I1 : - phiB (fun t => p t + M) a <= - phiB (fun t => p t + M) t).
  { apply (incr_le (fun t => - phiB (fun t => p t + M) t) (fun t => - phiB' (fun t => p t + M) p' t)); [lra| |].
    - intros c Hc. apply (is_derive_opp (phiB (fun t => p t + M))). apply phiB_der; [lra|]. apply Dp. lra.
    - intros c Hc. unfold phiB'. specialize (B c ltac:(lra)). 
      assert (0 < exp c / sqrt c) by (apply Rdiv_lt_0_compat; [apply exp_pos|apply sqrt_lt_R0; lra]).
      rewrite Ropp_mult_distr_r. apply Rmult_le_pos; [lra|]. unfold Rabs in B. destruct (Rcase_abs _) in B; nra. }
  assert (I2 : phiB (fun t => p t - M) a <= phiB (fun t => p t - M) t).
  { apply (incr_le _ (phiB' (fun t => p t - M) p')); [lra| |].
    - intros c Hc. apply phiB_der; [lra|]. apply Dm. lra.
    - intros c Hc. unfold phiB'. specialize (B c ltac:(lra)). 
      assert (0 < exp c / sqrt c) by (apply Rdiv_lt_0_compat; [apply exp_pos|apply sqrt_lt_R0; lra]).
      apply Rmult_le_pos; [lra|]. unfold Rabs in B. destruct (Rcase_abs _) in B; nra. }
  rewrite !phiB_be in I1, I2 by lra.
  assert (P : forall c, a <= c -> 0 < exp c * sqrt c) by (intros; apply Rmult_lt_0_compat; [apply exp_pos|apply sqrt_lt_R0; lra]).
  pose proof (P t ltac:(lra)) as Pt. pose proof (P a ltac:(lra)) as Pa.
  set (wt := exp t * sqrt t) in *. set (wa := exp a * sqrt a) in *. clearbody wt wa.
  apply Rabs_le. assert (E' : - M <= be a - p a <= M) by (unfold Rabs in E; destruct (Rcase_abs _) in E; lra).
  split.
  - apply Rmult_le_reg_l with wt; auto. assert (0 <= wa * (be a - (p a - M))) by (apply Rmult_le_pos; lra). lra.
  - apply Rmult_le_reg_l with wt; auto. assert (0 <= wa * ((p a + M) - be a)) by (apply Rmult_le_pos; lra). lra.
Qed.
(* from 0, in u = sqrt t *)
Lemma be_base (p p' : R -> R) b M : 0 < b -> (forall t : R, is_derive p t (p' t)) ->
  (forall t, 0 <= t <= b -> Rabs (t * p' t + p t / 2 - 1 + t * p t) <= M) ->
  Rabs (be b - p b) <= M * be b.
Proof.
  intros Hb D B. pose proof (sqrt_lt_R0 b Hb) as S.
  pose proof (der_bound (fun u => mom 0 (-1) u - exp (u * u) * (u * p (u * u))) (fun u => M * mom 0 (-1) u)
    (fun u => 2 * exp (u * u) * (1 - p (u * u) / 2 - u * u * p (u * u) - u * u * p' (u * u))) (fun u => M * mfun 0 (-1) u) 0 (sqrt b) ltac:(lra)) as G.
  assert (M0 : mom 0 (-1) 0 = 0) by (apply (RInt_point (V := R_CompleteNormedModule))). cbv beta in G. rewrite M0 in G.
  rewrite !Rmult_0_l, !Rmult_0_r, !Rminus_0_r, sqrt_sqrt in G by lra.
  assert (X : Rabs (mom 0 (-1) (sqrt b) - exp b * (sqrt b * p b)) <= M * mom 0 (-1) (sqrt b)).
  { apply G; clear G.
    - intros u. replace (2 * exp (u * u) * (1 - p (u * u) / 2 - u * u * p (u * u) - u * u * p' (u * u))) with
        (minus (mfun 0 (-1) u) (2 * u * exp (u * u) * (u * p (u * u)) + exp (u * u) * (1 * p (u * u) + u * (2 * u * p' (u * u))))).
      + apply (is_derive_minus (mom 0 (-1))); [apply mom_der|].
        apply (is_derive_mult (fun u => exp (u * u)) (fun u => u * p (u * u))); [auto_derive; [exact I|ring]| |intros; apply Rmult_comm].
        apply (is_derive_mult (fun u => u) (fun u => p (u * u))); [apply (is_derive_id (K := R_AbsRing))| |intros; apply Rmult_comm].
        replace (2 * u * p' (u * u)) with (scal (2 * u) (p' (u * u))) by reflexivity.
        apply (is_derive_comp p (fun u => u * u)); [apply D|]. auto_derive; [exact I|ring].
      + unfold minus, plus, opp; cbn. unfold mfun. change (u ^ (2 * 0)) with 1. replace (- (-1 * (u * u))) with (u * u) by ring. field.
    - intros u. apply (is_derive_scal (mom 0 (-1))), mom_der.
    - intros u Hu. specialize (B (u * u)). assert (u * u <= b) by (rewrite <- (sqrt_sqrt b) by lra; nra). specialize (B ltac:(nra)).
      unfold mfun. change (u ^ (2 * 0)) with 1. replace (- (-1 * (u * u))) with (u * u) by ring. pose proof (exp_pos (u * u)) as P.
      set (e := exp (u * u)) in *. clearbody e. rewrite Rabs_mult, Rabs_right by lra.
      replace (1 - p (u * u) / 2 - u * u * p (u * u) - u * u * p' (u * u)) with
        (- (u * u * p' (u * u) + p (u * u) / 2 - 1 + u * u * p (u * u))) by ring. rewrite Rabs_Ropp. nra. }
  assert (Eb : mom 0 (-1) (sqrt b) = exp b * sqrt b * be b).
  { unfold be, Bk. rewrite Rmult_1_l. replace (- (1)) with (-1) by ring. pose proof (exp_cancel b) as C.
    transitivity (exp b * exp (- b) * mom 0 (-1) (sqrt b)); [rewrite C; ring|field; lra]. }
  rewrite Eb in X. assert (W : 0 < exp b * sqrt b) by (apply Rmult_lt_0_compat; [apply exp_pos|exact S]).
  replace (exp b * sqrt b * be b - exp b * (sqrt b * p b)) with (exp b * sqrt b * (be b - p b)) in X by ring.
  rewrite Rabs_mult, (Rabs_right (exp b * sqrt b)) in X by lra.
  apply Rmult_le_reg_l with (exp b * sqrt b); [exact W|]. lra.
Qed.
