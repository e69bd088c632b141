(* ModelFit.chi2prob (npplus/lsqfit.py:500-527): the probability that chi square with ndof degrees of freedom exceeds a value. *)
From Coq Require Import List Arith ZArith Lia Bool Reals Lra.
From Coquelicot Require Import Coquelicot.
From Verif Require Import GaussInt.
From Verif Require Import Num PyBase NdArray NdLemmas PwPoly RSum SolvePer SolveProofs LsqModel PropsRegress Levmar LevmarProofs PropsLevmar PropsLevmar2.
Import ListNotations.
Local Open Scope R_scope.

(** ** specification *)
(* v is the integral from c to infinity of the density of chi square with n degrees of freedom, up to its
   constant factor: s^(n/2-1) exp(-s/2) *)
Definition chi2_tail (n : nat) (c v : R) : Prop :=
  is_RInt_gen (fun s => Rpower s (INR n / 2 - 1) * exp (- (s / 2))) (at_right c) (Rbar_locally p_infty) v.
(* p is the probability that chi square with n degrees of freedom exceeds c *)
Definition chi2_exceeds (n : nat) (c p : R) : Prop := exists T T0, chi2_tail n c T /\ chi2_tail n 0 T0 /\ 0 < T0 /\ p = T / T0.
(* scipy.special.gammaincc(a, x): the integral of t^(a-1) exp(-t) from x to infinity over that from 0 *)
Definition gamma_tail (a x v : R) : Prop :=
  is_RInt_gen (fun t => Rpower t (a - 1) * exp (- t)) (at_right x) (Rbar_locally p_infty) v.
Definition gammaincc_spec (g : R -> R -> R) : Prop :=
  forall a x U G, 0 < a -> 0 <= x -> gamma_tail a x U -> gamma_tail a 0 G -> g a x = U / G.

(** ** the integrals in u, s = k u^2 *)
Definition gf (d : nat) (u : R) : R := 2 * Rabs u ^ d * gau u.
Definition gi (d : nat) (M : R) : R := RInt (gf d) 0 M.
Lemma gf_cont d u : continuous (gf d) u.
Proof.
  unfold gf. apply (continuous_mult (fun u => 2 * Rabs u ^ d) gau); [|apply gau_cont].
  apply (continuous_mult (fun _ => 2) (fun u => Rabs u ^ d)); [apply continuous_const|].
  apply (continuous_comp Rabs (fun v => v ^ d)); [apply continuous_Rabs|].
  apply (ex_derive_continuous (fun v => v ^ d)). auto_derive. exact I.
Qed.
Lemma gf_pos d u : 0 <= gf d u.
Proof. unfold gf. pose proof (gau_le u). pose proof (pow_le _ d (Rabs_pos u)). nra. Qed.
Lemma gf_pos' d u : 0 < u -> 0 < gf d u.
Proof. intros H. unfold gf. pose proof (gau_le u). pose proof (pow_lt (Rabs u) d ltac:(rewrite Rabs_right; lra)). nra. Qed.
Lemma gi_der d M : is_derive (gi d) M (gf d M).
Proof. apply (RInt_0_der (gf d)). intros; apply gf_cont. Qed.
Lemma gi_0 d : gi d 0 = 0.
Proof. apply (RInt_point (V := R_CompleteNormedModule)). Qed.
Lemma gi_mono d x y : x <= y -> gi d x <= gi d y.
Proof.
  intros H. destruct (Rle_lt_or_eq_dec _ _ H) as [L|<-]; [|lra].
  destruct (MVT_cor2 (gi d) (gf d) x y L) as (c & E & _).
  - intros c _. apply is_derive_Reals, gi_der.
  - pose proof (gf_pos d c). nra.
Qed.
Lemma gi_smono d x y : 0 <= x < y -> gi d x < gi d y.
Proof.
  intros [H L]. destruct (MVT_cor2 (gi d) (gf d) x y L) as (c & E & Hc).
  - intros c _. apply is_derive_Reals, gi_der.
  - pose proof (gf_pos' d c ltac:(lra)). nra.
Qed.
Lemma gi_bound d M : gi d M <= Gam 0 + Gam d.
Proof.
  destruct (Rle_lt_dec M 0) as [H|H].
  { pose proof (gi_mono d M 0 H). rewrite gi_0 in *. pose proof (Gam_pos 0). pose proof (Gam_pos d). lra. }
  assert (B : gi d M <= mom 0 1 M + mom d 1 M).
  { unfold gi, mom.
    rewrite <- (RInt_plus (V := R_CompleteNormedModule) (mfun 0 1) (mfun d 1)) by (apply ex_RInt_cont; intros; apply mfun_cont).
    apply RInt_le; [lra| | |].
    - apply ex_RInt_cont. intros; apply gf_cont.
    - apply ex_RInt_cont. intros u. apply (continuous_plus (mfun 0 1) (mfun d 1)); apply mfun_cont.
    - intros u Hu. change (gf d u <= mfun 0 1 u + mfun d 1 u). unfold gf, mfun, gau. rewrite Rabs_right by lra. rewrite !Rmult_1_l.
      pose proof (exp_pos (- (u * u))) as PE. set (E := exp (- (u * u))) in *. change (u ^ (2 * 0)) with 1. rewrite (Nat.mul_comm 2 d), (pow_mult u d 2).
      assert (P : 0 <= u ^ d) by (apply pow_le; lra). set (w := u ^ d) in *. assert (W : w <= 1 + w ^ 2) by nra. set (w2 := w ^ 2) in *.
      replace (2 * 1 * E + 2 * w2 * E) with (2 * ((1 + w2) * E)) by ring. replace (2 * w * E) with (2 * (w * E)) by ring.
      apply Rmult_le_compat_l; [lra|]. apply Rmult_le_compat_r; lra. }
  pose proof (mom_le 0 1 M ltac:(lra)) as B0. pose proof (mom_le d 1 M ltac:(lra)) as B1. rewrite sqrt_1, pow1 in B0, B1.
  replace (Gam 0 / (1 * 1)) with (Gam 0) in B0 by field. replace (Gam d / (1 * 1)) with (Gam d) in B1 by field. lra.
Qed.
Lemma gi_lim d : exists l : R, is_lim (gi d) p_infty l /\ forall M, gi d M < l.
Proof.
  destruct (mono_lim (gi d) (Gam 0 + Gam d) (gi_mono d) (gi_bound d)) as (l & L & B). exists l. split; [exact L|].
  intros M. pose proof (B (Rmax M 0 + 1)). pose proof (Rmax_l M 0). pose proof (Rmax_r M 0).
  pose proof (gi_mono d M (Rmax M 0) ltac:(lra)). pose proof (gi_smono d (Rmax M 0) (Rmax M 0 + 1) ltac:(lra)). lra.
Qed.
(* k = 1: the gamma function, k = 2: chi square *)
Definition kd (k : R) (d : nat) (t : R) : R := Rpower t (INR (S d) / 2 - 1) * exp (- (t / k)).
Definition Kd (k : R) (d : nat) (t : R) : R := Rpower k (INR (S d) / 2) * gi d (sqrt (t / k)).
Lemma Kd_der k d t : 0 < k -> 0 < t -> is_derive (Kd k d) t (kd k d t).
Proof.
  intros Hk Ht. assert (Hq : 0 < t / k) by (apply Rdiv_lt_0_compat; auto). pose proof (sqrt_lt_R0 _ Hq) as Hu.
  set (u := sqrt (t / k)) in *. assert (Eu : u * u = t / k) by (apply sqrt_sqrt; lra).
  assert (Et : t = k * (u * u)) by (rewrite Eu; field; lra).
  assert (D1 : is_derive (fun t => sqrt (t / k)) t (/ (2 * u) * / k)).
  { replace (/ (2 * u) * / k) with (/ k * / (2 * u)) by ring. apply (is_derive_comp sqrt (fun t => t / k) t).
    - apply is_derive_Reals. apply derivable_pt_lim_sqrt. exact Hq.
    - auto_derive; [exact I|]. field. lra. }
  pose proof (is_derive_comp (gi d) (fun t => sqrt (t / k)) t _ _ (gi_der d u) D1) as D2.
  pose proof (is_derive_scal (fun t => gi d (sqrt (t / k))) t (Rpower k (INR (S d) / 2)) _ D2) as D3.
  unfold Kd. replace (kd k d t) with (Rpower k (INR (S d) / 2) * scal (/ (2 * u) * / k) (gf d u)); [exact D3|].
  unfold scal; cbn -[INR]; unfold mult; cbn -[INR]. unfold kd, gf, gau. rewrite Eu, Rabs_right by lra.
  assert (Lt : ln t = ln k + (ln u + ln u)) by (rewrite Et, ln_mult, (ln_mult u u); auto; nra).
  rewrite <- (Rpower_pow d u) by lra. unfold Rpower. rewrite Lt.
  transitivity (exp (INR (S d) / 2 * ln k) * (exp (- ln u) * exp (- ln k)) * exp (INR d * ln u) * exp (- (t / k))).
  - rewrite (exp_Ropp (ln u)), (exp_Ropp (ln k)), !exp_ln by lra. field. lra.
  - rewrite <- !exp_plus. f_equal. rewrite S_INR. field. lra.
Qed.
Lemma kd_cont k d t : 0 < k -> 0 < t -> continuous (kd k d) t.
Proof. intros Hk Ht. apply (ex_derive_continuous (kd k d) t). unfold kd, Rpower. auto_derive. repeat split; lra. Qed.
Lemma kd_piece k d a b : 0 < k -> 0 < a -> 0 < b -> is_RInt (kd k d) a b (Kd k d b - Kd k d a).
Proof.
  intros Hk Ha Hb. apply (is_RInt_derive (Kd k d) (kd k d)); intros t [Ht _]; assert (0 < t) by (eapply Rlt_le_trans; [|exact Ht]; apply Rmin_glb_lt; auto).
  - apply Kd_der; auto.
  - apply kd_cont; auto.
Qed.
Lemma Kd_cont k d c : 0 < k -> 0 <= c -> continuous (Kd k d) c.
Proof.
  intros Hk Hc. unfold Kd. apply (continuous_scal_r (Rpower k (INR (S d) / 2)) (fun t => gi d (sqrt (t / k)))).
  apply (continuous_comp (fun t => sqrt (t / k)) (gi d)); [|eapply cont_der, gi_der].
  apply (continuous_comp (fun t => t / k) sqrt).
  - apply (ex_derive_continuous (fun t => t / k)). auto_derive. exact I.
  - apply continuity_pt_filterlim. apply continuity_pt_sqrt. apply Rle_mult_inv_pos; auto.
Qed.

Lemma gen_of_prim F f c (l : R) : (forall a b, c < a -> c < b -> is_RInt f a b (F b - F a)) -> continuous F c -> is_lim F p_infty l ->
  is_RInt_gen f (at_right c) (Rbar_locally p_infty) (l - F c).
Proof.
  intros HI C L P [eps HP]. unfold filtermapi. pose proof (cond_pos eps) as He. assert (Hh : 0 < eps / 2) by lra.
  destruct (proj1 (filterlim_locally F (F c)) C (mkposreal _ Hh)) as [d Hd].
  apply is_lim_spec in L. specialize (L (mkposreal _ Hh)). destruct L as [B HB]. cbn in HB, Hd.
  apply (Filter_prod _ _ _ (fun a => c < a /\ Rabs (a - c) < d) (fun b => c < b /\ B < b)).
  - exists d. intros a Ha H0. split; [exact H0|exact Ha].
  - exists (Rmax c B). intros b Hb. pose proof (Rmax_l c B). pose proof (Rmax_r c B). lra.
  - intros a b [A1 A2] [B1 B2]. exists (F b - F a). split; [apply HI; auto|]. apply HP. change (Rabs (F b - F a - (l - F c)) < eps).
    specialize (HB b B2). specialize (Hd a A2). change (Rabs (F a - F c) < eps / 2) in Hd.
    replace (F b - F a - (l - F c)) with ((F b - l) + - (F a - F c)) by ring. eapply Rle_lt_trans; [apply Rabs_triang|]. rewrite Rabs_Ropp. lra.
Qed.
Lemma sqrt_div_lim k : 0 < k -> is_lim (fun t => sqrt (t / k)) p_infty p_infty.
Proof.
  intros Hk. apply is_lim_spec. intros M. exists (k * (Rabs M * Rabs M)). intros t Ht. pose proof (Rabs_pos M).
  assert (Q : Rabs M * Rabs M < t / k) by (apply (Rmult_lt_reg_l k); auto; replace (k * (t / k)) with t by (field; lra); auto).
  eapply Rle_lt_trans; [apply Rle_abs|]. rewrite <- (sqrt_square (Rabs M)) by auto. apply sqrt_lt_1; nra.
Qed.
Lemma kd_gen k d c (l : R) : 0 < k -> 0 <= c -> is_lim (gi d) p_infty l ->
  is_RInt_gen (kd k d) (at_right c) (Rbar_locally p_infty) (Rpower k (INR (S d) / 2) * (l - gi d (sqrt (c / k)))).
Proof.
  intros Hk Hc L. replace (Rpower k (INR (S d) / 2) * (l - gi d (sqrt (c / k)))) with (Rpower k (INR (S d) / 2) * l - Kd k d c) by (unfold Kd; ring).
  apply gen_of_prim.
  - intros a b Ha Hb. apply kd_piece; lra.
  - apply Kd_cont; auto.
  - unfold Kd. apply (is_lim_scal_l (fun t => gi d (sqrt (t / k))) (Rpower k (INR (S d) / 2)) p_infty l).
    apply (is_lim_comp (gi d) (fun t => sqrt (t / k)) p_infty l p_infty); [exact L|apply sqrt_div_lim; auto|].
    exists 0. intros t _. discriminate.
Qed.
Lemma gen_same f c (l l' : R) : is_RInt_gen f (at_right c) (Rbar_locally p_infty) l -> is_RInt_gen f (at_right c) (Rbar_locally p_infty) l' -> l = l'.
Proof.
  intros H H'. rewrite <- (is_RInt_gen_unique (V := R_CompleteNormedModule) _ _ H). exact (is_RInt_gen_unique (V := R_CompleteNormedModule) _ _ H').
Qed.
(* the two tails for n = d + 1 in terms of gi *)
Lemma chi2_tail_gi d c (l : R) : 0 <= c -> is_lim (gi d) p_infty l -> chi2_tail (S d) c (Rpower 2 (INR (S d) / 2) * (l - gi d (sqrt (c / 2)))).
Proof. intros Hc L. exact (kd_gen 2 d c l ltac:(lra) Hc L). Qed.
Lemma gamma_tail_gi d x (l : R) : 0 <= x -> is_lim (gi d) p_infty l -> gamma_tail (INR (S d) / 2) x (l - gi d (sqrt x)).
Proof.
  intros Hx L. pose proof (kd_gen 1 d x l ltac:(lra) Hx L) as H. unfold kd in H. replace (Rpower 1 (INR (S d) / 2)) with 1 in H by (unfold Rpower; rewrite ln_1, Rmult_0_r, exp_0; reflexivity).
  rewrite Rmult_1_l in H. replace (x / 1) with x in H by field. unfold gamma_tail. refine (is_RInt_gen_ext _ _ _ _ H).
  apply filter_forall. intros ab t _. cbv beta. f_equal. f_equal. field.
Qed.
Lemma chi2_exceeds_gi d c (l : R) : 0 <= c -> is_lim (gi d) p_infty l -> (forall M, gi d M < l) ->
  forall p, chi2_exceeds (S d) c p <-> p = (l - gi d (sqrt (c / 2))) / l.
Proof.
  intros Hc L B p. pose proof (chi2_tail_gi d c l Hc L) as T1. pose proof (chi2_tail_gi d 0 l ltac:(lra) L) as T0.
  replace (sqrt (0 / 2)) with 0 in T0 by (unfold Rdiv; rewrite Rmult_0_l, sqrt_0; reflexivity). rewrite gi_0, Rminus_0_r in T0.
  assert (P2 : 0 < Rpower 2 (INR (S d) / 2)) by apply exp_pos. assert (Hl : 0 < l) by (pose proof (B 0); rewrite gi_0 in *; lra).
  split.
  - intros (T & T' & H & H' & _ & ->). rewrite (gen_same _ _ _ _ H T1), (gen_same _ _ _ _ H' T0). field. lra.
  - intros ->. exists (Rpower 2 (INR (S d) / 2) * (l - gi d (sqrt (c / 2)))), (Rpower 2 (INR (S d) / 2) * l).
    split; [exact T1|]. split; [exact T0|]. split; [apply Rmult_lt_0_compat; auto|]. field. lra.
Qed.
(* the probability exists, is 1 at 0, decreases strictly and tends to 0 *)
Theorem C114_distribution : forall n, (0 < n)%nat ->
  (forall c, 0 <= c -> exists p, chi2_exceeds n c p /\ 0 < p <= 1 /\ forall p', chi2_exceeds n c p' -> p' = p) /\
  chi2_exceeds n 0 1 /\
  (forall c c' p p', 0 <= c < c' -> chi2_exceeds n c p -> chi2_exceeds n c' p' -> p' < p) /\
  (forall eps, 0 < eps -> exists M, forall c p, M <= c -> chi2_exceeds n c p -> p < eps).
Proof.
  intros [|d] Hn; [lia|]. destruct (gi_lim d) as (l & L & B). pose proof (fun c Hc => chi2_exceeds_gi d c l Hc L B) as E.
  assert (Hl : 0 < l) by (pose proof (B 0); rewrite gi_0 in *; lra).
  assert (G0 : forall c, 0 <= c -> 0 <= gi d (sqrt (c / 2))) by (intros c Hc; rewrite <- (gi_0 d); apply gi_mono, sqrt_pos).
  split; [|split; [|split]].
  - intros c Hc. exists ((l - gi d (sqrt (c / 2))) / l). split; [apply E; auto|]. split; [|intros p'; apply E; auto].
    pose proof (B (sqrt (c / 2))). pose proof (G0 c Hc). split; [apply Rdiv_lt_0_compat; lra|].
    apply (Rmult_le_reg_r l); auto. unfold Rdiv. rewrite Rmult_assoc, Rinv_l by lra. lra.
  - apply E; [lra|]. replace (sqrt (0 / 2)) with 0 by (unfold Rdiv; rewrite Rmult_0_l, sqrt_0; reflexivity). rewrite gi_0. field. lra.
  - intros c c' p p' [H0 H1] Hp Hp'. apply E in Hp; [|lra]. apply E in Hp'; [|lra]. subst p p'.
    assert (S : 0 <= sqrt (c / 2) < sqrt (c' / 2)) by (split; [apply sqrt_pos|apply sqrt_lt_1; lra]).
    pose proof (gi_smono d _ _ S). apply (Rmult_lt_compat_r (/ l)); [apply Rinv_0_lt_compat; auto|lra].
  - intros eps He. assert (P : 0 < eps * l) by (apply Rmult_lt_0_compat; auto). pose proof L as L'. apply is_lim_spec in L'. specialize (L' (mkposreal _ P)). destruct L' as [M HM].
    exists (2 * (Rmax M 0 + 1) ^ 2). intros c p Hc Hp. pose proof (Rmax_l M 0). pose proof (Rmax_r M 0). set (m := Rmax M 0) in *.
    assert (Hc0 : 0 <= c) by nra. apply (E c Hc0) in Hp. subst p.
    assert (Sm : M < sqrt (c / 2)). { apply Rlt_le_trans with (m + 1); [lra|]. rewrite <- (sqrt_square (m + 1)) by lra.
      replace ((m + 1) ^ 2) with ((m + 1) * (m + 1)) in Hc by ring. assert (0 <= (m + 1) * (m + 1)) by nra. apply sqrt_le_1; lra. }
    specialize (HM _ Sm). change (Rabs (gi d (sqrt (c / 2)) - l) < eps * l) in HM. pose proof (B (sqrt (c / 2))). rewrite Rabs_left1 in HM by lra.
    apply (Rmult_lt_reg_r l); auto. unfold Rdiv. rewrite Rmult_assoc, Rinv_l by lra. lra.
Qed.

(** ** chi2prob *)
Section Prob.
  Context {P A V : Type}.
  Variable g : R -> R -> R.
  Hypothesis Hg : gammaincc_spec g.
  (* chi2prob(x), and chi2prob() with x the chi2 of the model: x is chi square per degree of freedom *)
  Theorem C114_chi2prob : forall (m : modelfit R P A V) n x chi2, mf_ndof m = Some (Z.of_nat n) -> (0 < n)%nat -> 0 <= x ->
    chi2 = Some x \/ chi2 = None /\ mf_chi2 m = Some x ->
    exists p, mf_chi2prob g m chi2 = Ok p /\ chi2_exceeds n (INR n * x) p.
  Proof using Hg.
    intros m [|d] x chi2 En Hn Hx Hc; [lia|]. destruct (gi_lim d) as (l & L & B).
    assert (E : mf_chi2prob g m chi2 = Ok (g (INR (S d) / 2) (INR (S d) / 2 * x))).
    { unfold mf_chi2prob. rewrite En. destruct Hc as [->|[-> ->]]; cbn [of_opt bind]; numR; rewrite <- INR_IZR_INZ; replace (1 + 1) with 2 by lra; reflexivity. }
    exists (g (INR (S d) / 2) (INR (S d) / 2 * x)). split; [exact E|].
    pose proof (lt_0_INR (S d) ltac:(lia)) as HI. assert (Hc0 : 0 <= INR (S d) * x) by (apply Rmult_le_pos; lra).
    assert (HI2 : 0 <= INR (S d) / 2 * x) by (apply Rmult_le_pos; lra).
    apply (chi2_exceeds_gi d _ l Hc0 L B).
    pose proof (gamma_tail_gi d 0 l ltac:(lra) L) as T0. rewrite sqrt_0, gi_0, Rminus_0_r in T0.
    rewrite (Hg (INR (S d) / 2) (INR (S d) / 2 * x) _ _ ltac:(lra) HI2 (gamma_tail_gi d _ l HI2 L) T0). f_equal. f_equal. f_equal. f_equal. field.
  Qed.
  Theorem C114_missing : forall (m : modelfit R P A V) chi2,
    (chi2 = None /\ mf_chi2 m = None) \/ mf_ndof m = None -> mf_chi2prob g m chi2 = Err TypeError.
  Proof using.
    intros m chi2 H. unfold mf_chi2prob. destruct H as [[-> ->]|H]; [reflexivity|]. rewrite H.
    destruct (match chi2 with None => mf_chi2 m | Some _ => chi2 end); reflexivity.
  Qed.
End Prob.
(* regress(data, model, errs, model=1).chi2prob() is the probability of a worse sum of squares *)
Theorem C114_regress : forall g, gammaincc_spec g -> forall svd data mdl errs rcond f n,
  svd_sound svd -> mdl_ok data mdl -> errs_ok data errs -> regress_model svd data mdl errs rcond = Ok f ->
  mf_ndof f = Some (Z.of_nat n) -> (0 < n)%nat ->
  exists p, mf_chi2prob g f None = Ok p /\ chi2_exceeds n (cost data mdl errs (fun i => get (mf_p f) [i])) p.
Proof.
  intros g Hg svd data mdl errs rcond f n Hs Hm He E En Hn.
  destruct (C63_statistics svd data mdl errs rcond f Hs Hm He E) as (_ & u & s & v & _ & _ & _ & E4 & E5 & _).
  rewrite En in E4. injection E4 as E4. rewrite <- E4, <- INR_IZR_INZ in E5.
  assert (HI : 1 <= INR n) by (apply (le_INR 1); lia). rewrite Rmax_left in E5 by exact HI.
  set (C := cost data mdl errs (fun i => get (mf_p f) [i])) in *.
  assert (HC : 0 <= C) by (apply rsum_nonneg; intros; apply pow2_ge_0).
  destruct (C114_chi2prob g Hg f n (C / INR n) None En Hn) as (p & Ep & Hp); [apply Rle_mult_inv_pos; lra|right; auto|].
  exists p. split; [exact Ep|]. replace (INR n * (C / INR n)) with C in Hp by (field; lra). exact Hp.
Qed.
(* so does levmar(f, data, p0, a0, ...).chi2prob() *)
Theorem C114_levmar : forall g, gammaincc_spec g -> forall A (f : ufun (list R) A (nd R)) a0 solve inv fo fi cfg data p0 kw m n,
  fst (levmar_run (lfun_of f a0) solve inv fo fi cfg data p0 kw []) = Ok (Some m) ->
  solve_len solve -> lerrs_ok data kw -> 0 <= c_tol cfg -> (forall p v, first_value f p a0 = Ok v -> bto (shp v) [npts data] = true) ->
  l_ndof m = Z.of_nat n -> (0 < n)%nat ->
  exists p v, mf_chi2prob g (levmar_model f m) None = Ok p /\ mf_call (levmar_model f m) a0 = Ok v /\
    chi2_exceeds n (rsum (npts data) (fun t => ((dpt data t - bget v [t]) / leps data kw t) ^ 2)) p.
Proof.
  intros g Hg A f a0 solve inv fo fi cfg data p0 kw m n Hm Hsl He Ht Hv En Hn.
  destruct (C72_levmar f a0 solve inv fo fi cfg data p0 kw m Hm) as [_ H]. destruct (H Hsl He Ht Hv) as (v & Ev & Ec). clear H.
  set (C := rsum (npts data) (fun t => ((dpt data t - bget v [t]) / leps data kw t) ^ 2)) in *.
  rewrite En, <- INR_IZR_INZ in Ec. assert (HI : 1 <= INR n) by (apply (le_INR 1); lia).
  assert (HC : 0 <= C) by (apply rsum_nonneg; intros; apply pow2_ge_0).
  destruct (C114_chi2prob g Hg (levmar_model f m) n (C / INR n) None) as (p & Ep & Hp); auto.
  - cbn. rewrite En. reflexivity.
  - apply Rle_mult_inv_pos; lra.
  - right. split; [reflexivity|]. cbn. rewrite Ec. reflexivity.
  - exists p, v. split; [exact Ep|]. split; [exact Ev|]. replace (INR n * (C / INR n)) with C in Hp by (field; lra). exact Hp.
Qed.

(** ** cases *)
(* two degrees of freedom: exp(-c/2) *)
Lemma gi_1 M : 0 <= M -> gi 1 M = 1 - gau M.
Proof.
  intros H. unfold gi. replace (1 - gau M) with ((- gau M) - (- gau 0)) by (unfold gau; rewrite Rmult_0_l, Ropp_0, exp_0; ring).
  apply is_RInt_unique. apply (is_RInt_derive (fun u => - gau u)).
  - intros u. rewrite Rmin_left, Rmax_right by auto. intros Hu. replace (gf 1 u) with (opp (- (2 * u) * gau u)); [apply (is_derive_opp gau u), gau_der|].
    unfold opp; cbn. unfold gf. rewrite Rabs_right by lra. ring.
  - intros u _. apply gf_cont.
Qed.
Theorem C114_two : forall c, 0 <= c -> chi2_exceeds 2 c (exp (- (c / 2))).
Proof.
  intros c Hc. destruct (gi_lim 1) as (l & L & B).
  assert (l = 1) as ->.
  { assert (L1 : is_lim (gi 1) p_infty 1).
    { apply (is_lim_ext_loc (fun M => 1 - gau M)); [exists 0; intros M HM; rewrite gi_1 by lra; reflexivity|].
      replace (Finite 1) with (Rbar_minus 1 0) by (cbn; f_equal; ring).
      apply (is_lim_minus (fun _ => 1) gau p_infty 1 0); [apply is_lim_const|apply gau_lim|]. unfold is_Rbar_minus, is_Rbar_plus; cbn. f_equal. }
    apply is_lim_unique in L. apply is_lim_unique in L1. rewrite L in L1. injection L1. auto. }
  apply (chi2_exceeds_gi 1 c 1 Hc L B). rewrite gi_1 by apply sqrt_pos. unfold gau. rewrite sqrt_sqrt by lra. field.
Qed.

(* a function that meets the specification of gammaincc *)
Definition gincc (a x : R) : R :=
  RInt_gen (fun t => Rpower t (a - 1) * exp (- t)) (at_right x) (Rbar_locally p_infty) / RInt_gen (fun t => Rpower t (a - 1) * exp (- t)) (at_right 0) (Rbar_locally p_infty).
Lemma gincc_ok : gammaincc_spec gincc.
Proof.
  intros a x U G _ _ HU HG. unfold gincc.
  rewrite (is_RInt_gen_unique (V := R_CompleteNormedModule) _ _ HU), (is_RInt_gen_unique (V := R_CompleteNormedModule) _ _ HG). reflexivity.
Qed.
(* a model with chi2 3 per degree of freedom and two of them *)
Example C114_case : let m := ModelFit (Plain (fun (_ : nd R) (_ : unit) => Ok (full [] 0))) (full [1%nat] 1) None (Some 3) (Some 2%Z) false None None in
  mf_chi2prob gincc m None = Ok (exp (- 3)) /\ mf_chi2prob gincc m (Some 1) = Ok (exp (- 1)).
Proof.
  intros m. assert (H : forall x chi2, 0 <= x -> chi2 = Some x \/ chi2 = None /\ mf_chi2 m = Some x -> mf_chi2prob gincc m chi2 = Ok (exp (- x))).
  { intros x chi2 Hx Hc. destruct (C114_chi2prob gincc gincc_ok m 2 x chi2 eq_refl ltac:(lia) Hx Hc) as (p & E & Hp). rewrite E. f_equal.
    change (INR 2) with (1 + 1) in Hp. destruct (C114_distribution 2 ltac:(lia)) as [D _].
    destruct (D ((1 + 1) * x) ltac:(lra)) as (q & _ & _ & U). rewrite (U p Hp). symmetry.
    replace (exp (- x)) with (exp (- ((1 + 1) * x / 2))) by (f_equal; field). apply U, C114_two. lra. }
  split; [apply (H 3); [lra|right; auto]|apply (H 1); [lra|left; auto]].
Qed.

Print Assumptions C114_chi2prob.
Print Assumptions C114_distribution.
Print Assumptions C114_regress.
Print Assumptions C114_levmar.
