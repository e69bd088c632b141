(* The Fermi-Dirac integrals of half-integer order as improper integrals, and the
   enclosure of their values by polynomials: with v = e^-x and a polynomial S with
   |S| <= 1 on [-1,0], S(v) F(x) is a polynomial in v up to an error of F(x). *)
From Coq Require Import List Arith ZArith Lia Reals Lra.
From Coquelicot Require Import Coquelicot.
From Verif Require Import PolySign GaussInt.
Import ListNotations.
Open Scope R_scope.

(** ** The integral in u = sqrt t *)
Definition hfun (k : nat) (x u : R) : R := 2 * u ^ (2 * k) / (exp (u * u - x) + 1).
Definition hint (k : nat) (x M : R) : R := RInt (hfun k x) 0 M.
Lemma den_pos y : 0 < exp y + 1.
Proof. pose proof (exp_pos y). lra. Qed.
Lemma hfun_cont k x u : continuous (hfun k x) u.
Proof.
  apply (ex_derive_continuous (hfun k x) u). unfold hfun. auto_derive. pose proof (den_pos (u * u - x)). 
  replace (u * u + - x) with (u * u - x) by ring. lra.
Qed.
Lemma sq_pow_pos k u : 0 <= u ^ (2 * k).
Proof. rewrite pow_mult. apply pow_le. nra. Qed.
Lemma hfun_pos k x u : 0 <= hfun k x u.
Proof.
  unfold hfun. pose proof (den_pos (u * u - x)). pose proof (sq_pow_pos k u).
  apply Rmult_le_pos; [lra|]. apply Rlt_le, Rinv_0_lt_compat. lra.
Qed.
Lemma hint_der k x M : is_derive (hint k x) M (hfun k x M).
Proof. apply (RInt_0_der (hfun k x)). intros; apply hfun_cont. Qed.
Lemma hint_mono k x a b : a <= b -> hint k x a <= hint k x b.
Proof.
  intros H. destruct (Rle_lt_or_eq_dec _ _ H) as [L|<-]; [|lra].
  destruct (MVT_cor2 (hint k x) (hfun k x) a b L) as (c & E & _).
  - intros c _. apply is_derive_Reals, hint_der.
  - pose proof (hfun_pos k x c). nra.
Qed.
Lemma hint_0 k x : hint k x 0 = 0.
Proof. apply (RInt_point (V := R_CompleteNormedModule)). Qed.
(* with v = e^-x and y = e^-(u^2): 2 u^(2k) y / (v + y) *)
Lemma hfun_eq k x u : hfun k x u = mfun k 1 u / (exp (- x) + gau u).
Proof.
  unfold hfun, mfun, gau. rewrite Rmult_1_l. unfold Rminus. rewrite exp_plus, !exp_Ropp.
  pose proof (exp_pos x). pose proof (exp_pos (u * u)). field. repeat split; nra.
Qed.
Lemma hint_bound k x M : 0 <= M -> hint k x M <= exp x * Gam k.
Proof.
  intros HM. apply Rle_trans with (exp x * mom k 1 M).
  2:{ apply Rmult_le_compat_l; [apply Rlt_le, exp_pos|]. eapply Rle_trans; [apply mom_le; lra|].
      right. rewrite sqrt_1, pow1. field. }
  unfold hint, mom.
  assert (E : RInt (fun u => exp x * mfun k 1 u) 0 M = exp x * RInt (mfun k 1) 0 M).
  { apply (RInt_scal (V := R_CompleteNormedModule) (mfun k 1)). apply ex_RInt_cont. intros; apply mfun_cont. }
  rewrite <- E. apply RInt_le; auto.
  - apply ex_RInt_cont. intros; apply hfun_cont.
  - apply ex_RInt_cont. intros t. apply (ex_derive_continuous (fun u => exp x * mfun k 1 u) t). unfold mfun. auto_derive. exact I.
  - intros u _. rewrite hfun_eq. pose proof (mfun_pos k 1 u). pose proof (gau_le u). pose proof (exp_pos (- x)).
    unfold Rdiv. rewrite Rmult_comm. apply Rmult_le_compat_r; auto.
    replace (exp x) with (/ exp (- x)) by (rewrite exp_Ropp, Rinv_inv; reflexivity). apply Rinv_le_contravar; lra.
Qed.
Lemma hint_lim k x : exists l : R, is_lim (hint k x) p_infty l /\ forall M, hint k x M <= l.
Proof.
  apply (mono_lim (hint k x) (exp x * Gam k)); [apply hint_mono|].
  intros M. destruct (Rle_lt_dec 0 M) as [H|H]; [now apply hint_bound|].
  eapply Rle_trans; [apply hint_mono; left; exact H|]. apply hint_bound. lra.
Qed.

(** ** The integral in t *)
(* l is the integral of t^j / (e^(t-x) + 1) for t from 0 to infinity *)
Definition FD_integral (j x l : R) : Prop :=
  is_RInt_gen (fun t => Rpower t j / (exp (t - x) + 1)) (at_right 0) (Rbar_locally p_infty) l.
Lemma FD_piece k x a b : 0 < a -> 0 < b ->
  is_RInt (fun t => Rpower t (INR k - 1 / 2) / (exp (t - x) + 1)) a b (hint k x (sqrt b) - hint k x (sqrt a)).
Proof.
  intros Ha Hb.
  assert (E : RInt (hfun k x) (sqrt a) (sqrt b) = hint k x (sqrt b) - hint k x (sqrt a)).
  { apply is_RInt_unique. apply (is_RInt_derive (hint k x) (hfun k x)); intros; [apply hint_der|apply hfun_cont]. }
  assert (P : forall t, Rmin a b <= t -> 0 < t).
  { intros t Ht. eapply Rlt_le_trans; [|exact Ht]. now apply Rmin_glb_lt. }
  rewrite <- E. eapply is_RInt_ext; [|apply (is_RInt_comp (V := R_CompleteNormedModule) (hfun k x) sqrt (fun t => / (2 * sqrt t)))].
  - intros t [Ht _]. apply Rlt_le, P in Ht. pose proof (sqrt_lt_R0 t Ht) as S. unfold scal; cbn; unfold mult; cbn.
    unfold hfun. rewrite sqrt_sqrt by lra. replace (k + (k + 0))%nat with (2 * k)%nat by lia.
    rewrite pow_mult, <- Rsqr_pow2, Rsqr_sqrt by lra.
    unfold Rminus at 2. rewrite Rpower_plus, Rpower_pow by auto. rewrite Rpower_Ropp. replace (1 / 2) with (/ 2) by lra. rewrite Rpower_sqrt by auto.
    pose proof (den_pos (t - x)). match goal with |- ?a = ?b => change (@eq R a b) end. field. repeat split; lra.
  - intros t _. apply hfun_cont.
  - intros t [Ht _]. apply P in Ht. pose proof (sqrt_lt_R0 t Ht) as S. split.
    + apply is_derive_Reals. now apply derivable_pt_lim_sqrt.
    + apply (ex_derive_continuous (fun t => / (2 * sqrt t)) t). auto_derive. repeat split; lra.
Qed.
Lemma FD_of_hint k (x l : R) : is_lim (hint k x) p_infty l -> FD_integral (INR k - 1 / 2) x l.
Proof.
  intros L P [eps HP]. unfold filtermapi.
  assert (C : continuous (hint k x) 0) by (eapply cont_der, hint_der).
  pose proof (cond_pos eps) as He.
  assert (Hh : 0 < eps / 2) by lra.
  destruct (proj1 (filterlim_locally (hint k x) (hint k x 0)) C (mkposreal _ Hh)) as [d Hd].
  apply is_lim_spec in L. specialize (L (mkposreal _ Hh)). destruct L as [B HB].
  pose proof (cond_pos d) as Hdp.
  apply (Filter_prod _ _ _ (fun a => 0 < a < d * d) (fun b => 0 < b /\ Rabs B * Rabs B < b)).
  - exists (mkposreal (d * d) ltac:(nra)). intros a Ha H0. unfold ball in Ha; cbn in Ha; unfold AbsRing_ball, abs, minus, plus, opp in Ha; cbn in Ha.
    rewrite Ropp_0, Rplus_0_r, Rabs_right in Ha by lra. lra.
  - exists (Rabs B * Rabs B). intros b Hb. pose proof (Rabs_pos B). split; nra.
  - intros a b [A1 A2] [B1 B2]. exists (hint k x (sqrt b) - hint k x (sqrt a)). split; [now apply FD_piece|].
    apply HP. change (Rabs (hint k x (sqrt b) - hint k x (sqrt a) - l) < eps).
    assert (Sa : sqrt a < d). { rewrite <- (sqrt_square d) by lra. apply sqrt_lt_1; nra. }
    assert (Sb : B < sqrt b).
    { eapply Rle_lt_trans; [apply Rle_abs|]. rewrite <- (sqrt_square (Rabs B)) by apply Rabs_pos. apply sqrt_lt_1; nra. }
    specialize (HB (sqrt b) Sb). change (Rabs (hint k x (sqrt b) - l) < eps / 2) in HB.
    assert (Hda : ball (hint k x 0) (eps / 2) (hint k x (sqrt a))).
    { apply Hd. change (Rabs (sqrt a - 0) < d). rewrite Rminus_0_r, Rabs_right; [exact Sa|]. apply Rle_ge, sqrt_pos. }
    change (Rabs (hint k x (sqrt a) - hint k x 0) < eps / 2) in Hda. rewrite hint_0, Rminus_0_r in Hda.
    replace (hint k x (sqrt b) - hint k x (sqrt a) - l) with ((hint k x (sqrt b) - l) + - hint k x (sqrt a)) by ring.
    eapply Rle_lt_trans; [apply Rabs_triang|]. rewrite Rabs_Ropp. lra.
Qed.

(** ** Polynomials in v *)
(* (S(v) - S(-y)) / (v + y) *)
Fixpoint Dv (s : list Z) (v y : R) : R := match s with [] => 0 | _ :: s' => ev s' v - y * Dv s' v y end.
Lemma Dv_ok s v y : (v + y) * Dv s v y = ev s v - ev s (- y).
Proof. induction s as [|a s IH]; cbn [Dv ev]; [ring|]. transitivity ((v + y) * ev s v - y * ((v + y) * Dv s v y)); [ring|]. rewrite IH. ring. Qed.
(* its integral against 2 u^(2k) y^(i+1), over Gamma(k + 1/2) *)
Fixpoint ddR (k i : nat) (s : list Z) (v : R) : R :=
  match s with [] => 0 | _ :: s' => ev s' v / (sqrt (INR (S i)) * INR (S i) ^ k) - ddR k (S i) s' v end.
Definition wfun (k i : nat) (s : list Z) (v u : R) : R := mfun k (INR (S i)) u * Dv s v (gau u).
Lemma Dv_cont s v u : continuous (fun u => Dv s v (gau u)) u.
Proof.
  induction s as [|a s IH]; cbn [Dv]; [apply continuous_const|].
  apply (continuous_minus (fun _ => ev s v) (fun u => gau u * Dv s v (gau u))); [apply continuous_const|].
  apply (continuous_mult gau (fun u => Dv s v (gau u))); [apply gau_cont|exact IH].
Qed.
Lemma wfun_cont k i s v u : continuous (wfun k i s v) u.
Proof. apply (continuous_mult (mfun k (INR (S i))) (fun u => Dv s v (gau u))); [apply mfun_cont|apply Dv_cont]. Qed.
Lemma wint_lim k s v : forall i, is_lim (fun M => RInt (wfun k i s v) 0 M) p_infty (Gam k * ddR k i s v).
Proof.
  induction s as [|a s IH]; intros i; cbn [ddR].
  - apply (is_lim_ext (fun _ => 0)); [|rewrite Rmult_0_r; apply is_lim_const].
    intros M. symmetry. rewrite (RInt_ext _ (fun _ => 0)).
    + rewrite (RInt_const (V := R_CompleteNormedModule)). unfold scal; cbn; unfold mult; cbn. ring.
    + intros u _. unfold wfun. cbn [Dv]. apply Rmult_0_r.
  - assert (P : 0 < INR (S i)) by (apply lt_0_INR; lia). pose proof (sqrt_lt_R0 _ P) as Sq.
    assert (Pk : 0 < INR (S i) ^ k) by (now apply pow_lt).
    apply (is_lim_ext (fun M => ev s v * mom k (INR (S i)) M - RInt (wfun k (S i) s v) 0 M)).
    + intros M. unfold mom. symmetry. apply is_RInt_unique.
      eapply is_RInt_ext; [|apply (is_RInt_minus (V := R_NormedModule) (fun u => ev s v * mfun k (INR (S i)) u) (wfun k (S i) s v))].
      * intros u _. unfold wfun. cbn [Dv]. unfold minus, plus, opp; cbn [AbelianGroup.plus AbelianGroup.opp]. 
        assert (X : mfun k (INR (S (S i))) u = mfun k (INR (S i)) u * gau u).
        { unfold mfun, gau. rewrite (S_INR (S i)).
          replace (- ((INR (S i) + 1) * (u * u))) with (- (INR (S i) * (u * u)) + - (u * u)) by ring. rewrite exp_plus. ring. }
        rewrite X. match goal with |- ?a = ?b => change (@eq R a b) end. cbn. ring.
      * apply (is_RInt_scal (V := R_NormedModule) (mfun k (INR (S i)))). apply RInt_is. intros; apply mfun_cont.
      * apply RInt_is. intros; apply wfun_cont.
    + replace (Finite (Gam k * (ev s v / (sqrt (INR (S i)) * INR (S i) ^ k) - ddR k (S i) s v))) with
        (Finite (ev s v * (Gam k / (sqrt (INR (S i)) * INR (S i) ^ k)) - Gam k * ddR k (S i) s v)) by (f_equal; field; lra).
      apply is_lim_minus'; [|apply IH].
      apply (is_lim_scal_l (mom k (INR (S i))) _ p_infty (Gam k / (sqrt (INR (S i)) * INR (S i) ^ k))). now apply mom_lim.
Qed.
Lemma hint_encl k x s M : (forall y, 0 <= y <= 1 -> Rabs (ev s (- y)) <= 1) -> 0 <= M ->
  Rabs (hint k x M * ev s (exp (- x)) - RInt (wfun k 0 s (exp (- x))) 0 M) <= hint k x M.
Proof.
  intros Hs HM. set (v := exp (- x)). assert (V : 0 < v) by apply exp_pos.
  assert (Ch : forall u, continuous (fun u => hfun k x u * ev s v) u).
  { intros u. apply (continuous_mult (hfun k x) (fun _ => ev s v)); [apply hfun_cont|apply continuous_const]. }
  assert (E : RInt (fun u => hfun k x u * ev s v - wfun k 0 s v u) 0 M = hint k x M * ev s v - RInt (wfun k 0 s v) 0 M).
  { apply is_RInt_unique. apply (is_RInt_minus (V := R_NormedModule) (fun u => hfun k x u * ev s v) (wfun k 0 s v)).
    - eapply is_RInt_ext; [|replace (hint k x M * ev s v) with (scal (ev s v) (hint k x M)) by (unfold scal; cbn; unfold mult; cbn; ring); apply (is_RInt_scal (V := R_NormedModule) (hfun k x))].
      + intros u _. unfold scal; cbn; unfold mult; cbn. apply Rmult_comm.
      + apply RInt_is. intros; apply hfun_cont.
    - apply RInt_is. intros; apply wfun_cont. }
  rewrite <- E.
  assert (Cd : forall u, continuous (fun u => hfun k x u * ev s v - wfun k 0 s v u) u).
  { intros u. apply (continuous_minus (fun u => hfun k x u * ev s v) (wfun k 0 s v)); [apply Ch|apply wfun_cont]. }
  eapply Rle_trans; [apply (abs_RInt_le (fun u => hfun k x u * ev s v - wfun k 0 s v u)); [exact HM|now apply ex_RInt_cont]|].
  apply RInt_le; auto.
  - apply ex_RInt_cont. intros u. apply (continuous_comp (fun u => hfun k x u * ev s v - wfun k 0 s v u) Rabs); [apply Cd|apply continuous_Rabs].
  - apply ex_RInt_cont. intros; apply hfun_cont.
  - intros u _. pose proof (gau_le u) as G. rewrite hfun_eq. fold v. unfold wfun. change (INR 1) with 1.
    pose proof (mfun_pos k 1 u) as M0. pose proof (Dv_ok s v (gau u)) as D. specialize (Hs (gau u) ltac:(lra)).
    set (m := mfun k 1 u) in *. set (y := gau u) in *. clearbody m y.
    replace (m / (v + y) * ev s v - m * Dv s v y) with (m / (v + y) * (ev s v - (v + y) * Dv s v y)) by (field; lra).
    rewrite D. replace (ev s v - (ev s v - ev s (- y))) with (ev s (- y)) by ring.
    assert (0 <= m / (v + y)) by (apply Rmult_le_pos; [lra|apply Rlt_le, Rinv_0_lt_compat; lra]).
    rewrite Rabs_mult, Rabs_right by lra. pose proof (Rabs_pos (ev s (- y))). nra.
Qed.
Lemma FD_encl k (x : R) s (l : R) : (forall y, 0 <= y <= 1 -> Rabs (ev s (- y)) <= 1) -> is_lim (hint k x) p_infty l ->
  Rabs (l * ev s (exp (- x)) - Gam k * ddR k 0 s (exp (- x))) <= l.
Proof.
  intros Hs L. set (v := exp (- x)).
  assert (LD : is_lim (fun M => hint k x M * ev s v - RInt (wfun k 0 s v) 0 M) p_infty (l * ev s v - Gam k * ddR k 0 s v)).
  { apply is_lim_minus'; [|apply wint_lim]. apply (is_lim_ext (fun M => ev s v * hint k x M)); [intros; ring|].
    rewrite Rmult_comm. apply (is_lim_scal_l (hint k x) (ev s v) p_infty l L). }
  assert (LO : is_lim (fun M => - hint k x M) p_infty (- l)) by (apply (is_lim_opp (hint k x) p_infty l L)).
  apply Rabs_le. split.
  - apply (is_lim_le_loc (fun M => - hint k x M) (fun M => hint k x M * ev s v - RInt (wfun k 0 s v) 0 M) p_infty (- l) (l * ev s v - Gam k * ddR k 0 s v)); [|exact LO|exact LD].
    exists 0. intros M HM. pose proof (hint_encl k x s M Hs ltac:(lra)) as H. fold v in H.
    unfold Rabs in H. destruct (Rcase_abs _) in H; lra.
  - apply (is_lim_le_loc (fun M => hint k x M * ev s v - RInt (wfun k 0 s v) 0 M) (hint k x) p_infty (l * ev s v - Gam k * ddR k 0 s v) l); [|exact LD|exact L].
    exists 0. intros M HM. pose proof (hint_encl k x s M Hs ltac:(lra)) as H. fold v in H.
    unfold Rabs in H. destruct (Rcase_abs _) in H; lra.
Qed.
