(* Round trips through a pair of rational approximations, by polynomial inequalities:
   the tools for the inverses of the Fermi-Dirac integrals (/repo/npplus/fermi.py:205-297). *)
From Coq Require Import List Arith ZArith QArith Qreals Bool Lia Reals Lra.
From Verif Require Import PolySign PolyDer PropsFermiDer PropsFermiJoin.
Import ListNotations.
Open Scope R_scope.

(** ** A check of signs with more bits *)
(* [pos01] of PolySign.v drops bits before it shifts to the right half; for polynomials of high degree that loses too much *)
Fixpoint wpos01 (fuel : nat) (c : list Z) : bool :=
  if sums_pos c then true
  else match fuel with
       | O => false
       | S fuel' => let h := halve c in
           wpos01 fuel' (shrink h) && wpos01 fuel' (shrink (shift1 (shrink_to (64 + Z.of_nat (length c)) h)))
       end.
Lemma wpos01_ok fuel : forall c t, wpos01 fuel c = true -> 0 <= t <= 1 -> 0 < ev c t.
Proof.
  induction fuel as [|fuel IH]; intros c t H Ht; cbn [wpos01] in H;
  destruct (sums_pos c) eqn:S; try (now apply sums_pos_ok); try discriminate.
  apply andb_true_iff in H. destruct H as [H1 H2].
  pose proof (pow_lt 2 (length c) ltac:(lra)) as P.
  destruct (Rle_lt_dec t (1 / 2)) as [L|L].
  - specialize (IH _ (2 * t) H1 ltac:(lra)). apply ev_shrink in IH; [|lra]. pose proof (ev_halve c (2 * t)) as E.
    replace (2 * t / 2) with t in E by field. nra.
  - specialize (IH _ (2 * t - 1) H2 ltac:(lra)). apply ev_shrink in IH; [|lra]. rewrite ev_shift1 in IH. replace (2 * t - 1 + 1) with (2 * t) in IH by ring.
    apply ev_shrink_to in IH; [|lra].
    pose proof (ev_halve c (2 * t)) as E. replace (2 * t / 2) with t in E by field. nra.
Qed.
Definition wpos_on (fuel : nat) (c : list Z) (a b : Q) : bool :=
  let w := (Zpos (Qden a) * Zpos (Qden b))%Z in
  let u := (Qnum a * Zpos (Qden b))%Z in
  let v := (Qnum b * Zpos (Qden a) - Qnum a * Zpos (Qden b))%Z in
  (0 <? v)%Z && wpos01 fuel (shrink (plin u v w c)).
Lemma wpos_on_ok fuel c a b z : wpos_on fuel c a b = true -> Q2R a <= z <= Q2R b -> 0 < ev c z.
Proof.
  unfold wpos_on. set (w := (Zpos (Qden a) * Zpos (Qden b))%Z).
  set (v := (Qnum b * Zpos (Qden a) - Qnum a * Zpos (Qden b))%Z). set (u := (Qnum a * Zpos (Qden b))%Z). cbv zeta.
  intros H Hz. apply andb_true_iff in H.
  destruct H as [Hv H]. apply Z.ltb_lt in Hv. assert (Hw : (0 < w)%Z) by (unfold w; lia).
  pose proof (IZR_lt _ _ Hv) as Rv. pose proof (IZR_lt _ _ Hw) as Rw.
  assert (Da : 0 < IZR (Zpos (Qden a))) by (apply IZR_lt; lia).
  assert (Db : 0 < IZR (Zpos (Qden b))) by (apply IZR_lt; lia).
  assert (Ew : IZR w = IZR (Zpos (Qden a)) * IZR (Zpos (Qden b))) by (unfold w; apply mult_IZR).
  assert (Ea : Q2R a * IZR w = IZR u) by (rewrite Ew; unfold Q2R, u; rewrite mult_IZR; field; lra).
  assert (Eb : Q2R b * IZR w = IZR u + IZR v).
  { rewrite Ew. unfold Q2R, u, v. rewrite minus_IZR, !mult_IZR. field. lra. }
  assert (Za : Q2R a * IZR w <= z * IZR w) by (apply Rmult_le_compat_r; lra).
  assert (Zb : z * IZR w <= Q2R b * IZR w) by (apply Rmult_le_compat_r; lra).
  set (t := (z * IZR w - IZR u) / IZR v).
  assert (Ht : 0 <= t <= 1).
  { unfold t. split.
    - apply Rmult_le_pos; [lra|]. apply Rlt_le, Rinv_0_lt_compat; lra.
    - apply Rmult_le_reg_r with (IZR v); auto. unfold Rdiv. rewrite Rmult_assoc, (Rinv_l (IZR v)) by lra. lra. }
  pose proof (wpos01_ok _ _ _ H Ht) as P. apply ev_shrink in P; [|lra]. rewrite ev_plin in P by auto.
  replace ((IZR u + IZR v * t) / IZR w) with z in P by (unfold t; field; lra).
  pose proof (pow_lt (IZR w) (length c) Rw); nra.
Qed.
(* on [a,b], R > 0 and |L - R| < (e/N) R *)
Definition wbetween (fuel : nat) (e N : Z) (L R : list Z) (a b : Q) : bool :=
  wpos_on fuel (padd (pscale (N + e) R) (pscale (- N) L)) a b &&
  wpos_on fuel (padd (pscale N L) (pscale (e - N) R)) a b.
Lemma wbetween_ok fuel e N L R a b t : (0 < N)%Z -> (0 < e)%Z -> wbetween fuel e N L R a b = true -> Q2R a <= t <= Q2R b ->
  0 < ev R t /\ Rabs (ev L t - ev R t) < IZR e / IZR N * ev R t.
Proof.
  intros HN He H Ht. apply IZR_lt in HN. apply IZR_lt in He. unfold wbetween in H. apply andb_true_iff in H.
  destruct H as [H1 H2]. pose proof (wpos_on_ok _ _ _ _ _ H1 Ht) as P1. pose proof (wpos_on_ok _ _ _ _ _ H2 Ht) as P2.
  rewrite ev_padd, !ev_pscale in P1, P2. rewrite plus_IZR, opp_IZR in P1. rewrite minus_IZR in P2.
  assert (P : 0 < ev R t) by nra. split; auto.
  apply Rabs_def1.
  - apply Rmult_lt_reg_l with (IZR N); auto.
    replace (IZR N * (IZR e / IZR N * ev R t)) with (IZR e * ev R t) by (field; lra). lra.
  - apply Rmult_lt_reg_l with (IZR N); auto.
    replace (IZR N * - (IZR e / IZR N * ev R t)) with (- (IZR e * ev R t)) by (field; lra). lra.
Qed.

(** ** Closeness of logarithms *)
Definition lnear (d a b : R) : Prop := 0 < a /\ 0 < b /\ Rabs (ln a - ln b) <= d.
Lemma lnear_sym d a b : lnear d a b -> lnear d b a.
Proof. intros (A & B & H). repeat split; auto. now rewrite Rabs_minus_sym. Qed.
Lemma lnear_trans d1 d2 a b c : lnear d1 a b -> lnear d2 b c -> lnear (d1 + d2) a c.
Proof.
  intros (A & B & H) (_ & C & H'). repeat split; auto.
  replace (ln a - ln c) with ((ln a - ln b) + (ln b - ln c)) by ring. eapply Rle_trans; [apply Rabs_triang|]. lra.
Qed.
Lemma lnear_weak d1 d2 a b : lnear d1 a b -> d1 <= d2 -> lnear d2 a b.
Proof. intros (A & B & H) L. repeat split; auto. lra. Qed.
Lemma ln_div a b : 0 < a -> 0 < b -> ln (a / b) = ln a - ln b.
Proof. intros A B. unfold Rdiv. rewrite ln_mult, ln_Rinv by auto using Rinv_0_lt_compat. ring. Qed.
Lemma ln_pow' n a : 0 < a -> ln (a ^ n) = INR n * ln a.
Proof.
  intros A. induction n as [|n IH]; [cbn; rewrite ln_1; ring|].
  rewrite S_INR. cbn [pow]. rewrite ln_mult, IH by auto using pow_lt. ring.
Qed.
Lemma ln_le a b : 0 < a -> a <= b -> ln a <= ln b.
Proof. intros A [L|<-]; [left; now apply ln_increasing|lra]. Qed.
Lemma ln_le_sub r : 0 < r -> ln r <= r - 1.
Proof. intros H. pose proof (exp_ineq1_le (ln r)) as E. rewrite exp_ln in E by auto. lra. Qed.
Lemma lnear_of e L R : 0 < R -> Rabs (L - R) < e * R -> e <= 1 / 101 -> lnear (101 / 100 * e) L R.
Proof.
  intros HR H He. apply Rabs_def2 in H. assert (E0 : 0 < e) by nra.
  assert (HL : 0 < L) by nra. repeat split; auto.
  rewrite <- ln_div by auto. apply Rabs_le. split.
  - assert (X : ln (R / L) <= R / L - 1) by (apply ln_le_sub; now apply Rdiv_lt_0_compat).
    rewrite ln_div in X by auto. rewrite ln_div by auto.
    assert (Y : R / L - 1 <= 101 / 100 * e); [|lra].
    apply Rmult_le_reg_r with L; auto. replace ((R / L - 1) * L) with (R - L) by (field; lra).
    apply Rle_trans with (e * R); [lra|]. apply Rle_trans with (101 / 100 * e * (R * (1 - e))).
    + replace (101 / 100 * e * (R * (1 - e))) with (e * R * (101 / 100 * (1 - e))) by ring.
      rewrite <- (Rmult_1_r (e * R)) at 1. apply Rmult_le_compat_l; [nra|lra].
    + apply Rmult_le_compat_l; [lra|]. lra.
  - assert (X : ln (L / R) <= L / R - 1) by (apply ln_le_sub; now apply Rdiv_lt_0_compat).
    eapply Rle_trans; [exact X|]. apply Rmult_le_reg_r with R; auto.
    replace ((L / R - 1) * R) with (L - R) by (field; lra). nra.
Qed.
Lemma near_of d a b : lnear d a b -> d <= 1 / 101 -> Rabs (a - b) <= 101 / 100 * d * b.
Proof.
  intros (A & B & H) Hd. assert (D0 : 0 <= d) by (pose proof (Rabs_pos (ln a - ln b)); lra).
  assert (H1 : - d <= ln a - ln b) by (pose proof (Rle_abs (- (ln a - ln b))) as X; rewrite Rabs_Ropp in X; lra).
  assert (H2 : ln a - ln b <= d) by (pose proof (Rle_abs (ln a - ln b)); lra).
  assert (E : a = b * exp (ln a - ln b)).
  { rewrite <- ln_div, exp_ln by (auto; now apply Rdiv_lt_0_compat). field. lra. }
  set (u := ln a - ln b) in *. clearbody u.
  pose proof (exp_ineq1_le u) as U1. pose proof (exp_ineq1_le (- u)) as U2.
  assert (P : exp u * exp (- u) = 1) by (rewrite <- exp_plus; replace (u + - u) with 0 by ring; apply exp_0).
  pose proof (exp_pos u) as U0.
  assert (U3 : exp u * (1 - d) <= 1).
  { apply Rle_trans with (exp u * exp (- u)); [|lra]. apply Rmult_le_compat_l; lra. }
  assert (U4 : exp u <= 1 + 101 / 100 * d).
  { apply Rmult_le_reg_r with (1 - d); [lra|]. eapply Rle_trans; [exact U3|]. nra. }
  rewrite E. apply Rabs_le. split; nra.
Qed.
Lemma lnear_refl a : 0 < a -> lnear 0 a a.
Proof. intros H. repeat split; auto. rewrite Rminus_eq_0, Rabs_R0. lra. Qed.
Lemma lnear_mul d1 d2 a b a' b' : lnear d1 a b -> lnear d2 a' b' -> lnear (d1 + d2) (a * a') (b * b').
Proof.
  intros (A & B & H) (A' & B' & H'). split; [now apply Rmult_lt_0_compat|]. split; [now apply Rmult_lt_0_compat|].
  rewrite !ln_mult by auto. replace (ln a + ln a' - (ln b + ln b')) with ((ln a - ln b) + (ln a' - ln b')) by ring.
  eapply Rle_trans; [apply Rabs_triang|]. lra.
Qed.
Lemma lnear_inv d a b : lnear d a b -> lnear d (/ a) (/ b).
Proof.
  intros (A & B & H). split; [now apply Rinv_0_lt_compat|]. split; [now apply Rinv_0_lt_compat|].
  rewrite !ln_Rinv by auto. replace (- ln a - - ln b) with (- (ln a - ln b)) by ring. now rewrite Rabs_Ropp.
Qed.
Lemma lnear_div d1 d2 a b a' b' : lnear d1 a b -> lnear d2 a' b' -> lnear (d1 + d2) (a / a') (b / b').
Proof. intros H H'. apply lnear_mul; auto. now apply lnear_inv. Qed.
Lemma lnear_pow n d a b : lnear d a b -> lnear (INR n * d) (a ^ n) (b ^ n).
Proof.
  intros H. induction n as [|n IH]; [cbn; rewrite Rmult_0_l; apply lnear_refl; lra|].
  rewrite S_INR. cbn [pow]. replace ((INR n + 1) * d) with (d + INR n * d) by ring. now apply lnear_mul.
Qed.
Lemma lnear_root n d a b : (0 < n)%nat -> 0 < a -> 0 < b -> lnear d (a ^ n) (b ^ n) -> lnear (d / INR n) a b.
Proof.
  intros Hn A B (_ & _ & H). repeat split; auto. rewrite !ln_pow' in H by auto.
  replace (INR n * ln a - INR n * ln b) with (INR n * (ln a - ln b)) in H by ring.
  assert (N : 0 < INR n) by now apply lt_0_INR.
  rewrite Rabs_mult, (Rabs_right (INR n)) in H by lra.
  apply Rmult_le_reg_l with (INR n); auto. replace (INR n * (d / INR n)) with d by (field; lra). exact H.
Qed.
(* two quotients from a comparison of the cross products *)
Lemma lnear_quot d a b c e : 0 < a -> 0 < b -> 0 < c -> 0 < e -> lnear d (a * e) (c * b) -> lnear d (a / b) (c / e).
Proof.
  intros A B C E (_ & _ & H). split; [now apply Rdiv_lt_0_compat|]. split; [now apply Rdiv_lt_0_compat|].
  rewrite !ln_mult in H by auto. rewrite !ln_div by auto.
  replace (ln a - ln b - (ln c - ln e)) with (ln a + ln e - (ln c + ln b)) by ring. exact H.
Qed.
Lemma lnear_scale d a n e : 0 < a -> 0 < n -> 0 < e -> lnear d n e -> lnear d (a * (n / e)) a.
Proof.
  intros A N E H. assert (K : lnear (0 + d) (a * (n / e)) (a * (1 / 1))).
  { apply lnear_mul; [now apply lnear_refl|]. apply lnear_quot; try lra. now rewrite Rmult_1_r, Rmult_1_l. }
  rewrite Rplus_0_l in K. replace (a * (1 / 1)) with a in K by field. exact K.
Qed.
Lemma between_lnear fuel e N L R a b t : (0 < N)%Z -> (0 < e)%Z -> (101 * e <= N)%Z -> wbetween fuel e N L R a b = true -> Q2R a <= t <= Q2R b ->
  lnear (101 / 100 * (IZR e / IZR N)) (ev L t) (ev R t).
Proof.
  intros HN He HE H Ht. destruct (wbetween_ok _ _ _ _ _ _ _ _ HN He H Ht) as [P Q].
  apply lnear_of; auto. apply IZR_lt in HN. apply IZR_le in HE. rewrite mult_IZR in HE.
  apply Rmult_le_reg_r with (IZR N * 101); [lra|]. replace (IZR e / IZR N * (IZR N * 101)) with (IZR e * 101) by (field; lra). lra.
Qed.

(** ** Polynomials of quotients *)
(* sum c_i p^i q^(n-1-i) and q^n, n the number of coefficients *)
Fixpoint phom2 (c p q : list Z) : list Z * list Z :=
  match c with [] => ([], [1%Z]) | a :: r => let (h, Q) := phom2 r p q in (padd (pscale a Q) (pmul p h), pmul q Q) end.
Definition phom (c p q : list Z) : list Z := fst (phom2 c p q).
Lemma ev_phom c p q t : ev q t <> 0 -> ev q t * ev (phom c p q) t = ev q t ^ length c * ev c (ev p t / ev q t).
Proof.
  intros H. unfold phom. assert (K : ev (snd (phom2 c p q)) t = ev q t ^ length c /\
    ev q t * ev (fst (phom2 c p q)) t = ev q t ^ length c * ev c (ev p t / ev q t)); [|apply K].
  induction c as [|a r [IQ IH]]; cbn [phom2 ev length]; [cbn; split; ring|].
  destruct (phom2 r p q) as [h Q]. cbn [fst snd] in *. rewrite ev_padd, ev_pscale, !ev_pmul, IQ. cbn [pow]. split; [ring|].
  replace (ev q t * (IZR a * ev q t ^ length r + ev p t * ev h t)) with
    (ev q t * (IZR a * ev q t ^ length r) + ev p t * (ev q t * ev h t)) by ring.
  rewrite IH. field. exact H.
Qed.
Definition pad (n : nat) (c : list Z) : list Z := c ++ repeat 0%Z (n - length c).
Lemma ev_app0 c n t : ev (c ++ repeat 0%Z n) t = ev c t.
Proof.
  induction c as [|a c IH]; cbn [app ev]; [|now rewrite IH].
  induction n as [|n IH]; cbn [repeat ev]; [reflexivity|]. rewrite IH. ring.
Qed.
Lemma ev_pad n c t : ev (pad n c) t = ev c t.
Proof. apply ev_app0. Qed.
Lemma pad_length n c : (length c <= n)%nat -> length (pad n c) = n.
Proof. intros H. unfold pad. rewrite app_length, repeat_length. lia. Qed.
(* N(p/q) / D(p/q), N and D with the same number of coefficients *)
Lemma hom_quot N D p q t : length N = length D -> 0 < ev q t -> 0 < ev N (ev p t / ev q t) -> 0 < ev D (ev p t / ev q t) ->
  0 < ev (phom N p q) t /\ 0 < ev (phom D p q) t /\
  ev N (ev p t / ev q t) / ev D (ev p t / ev q t) = ev (phom N p q) t / ev (phom D p q) t.
Proof.
  intros L Q Np Dp. pose proof (ev_phom N p q t ltac:(lra)) as E1. pose proof (ev_phom D p q t ltac:(lra)) as E2. rewrite L in E1.
  set (v := ev p t / ev q t) in *. set (Q' := ev q t ^ length D) in *. assert (Q1 : 0 < Q') by now apply pow_lt.
  set (n := ev (phom N p q) t) in *. set (d := ev (phom D p q) t) in *. clearbody v Q' n d.
  assert (n0 : 0 < n) by (apply Rmult_lt_reg_l with (ev q t); auto; rewrite Rmult_0_r, E1; now apply Rmult_lt_0_compat).
  assert (d0 : 0 < d) by (apply Rmult_lt_reg_l with (ev q t); auto; rewrite Rmult_0_r, E2; now apply Rmult_lt_0_compat).
  repeat split; auto.
  apply Rmult_eq_reg_l with (Q' * ev D v * (ev q t * d)).
  2: { apply Rmult_integral_contrapositive_currified; apply Rmult_integral_contrapositive_currified; lra. }
  replace (Q' * ev D v * (ev q t * d) * (ev N v / ev D v)) with (Q' * ev N v * (ev q t * d)) by (field; lra).
  replace (Q' * ev D v * (ev q t * d) * (n / d)) with (Q' * ev D v * (ev q t * n)) by (field; lra).
  rewrite E1, E2. ring.
Qed.

(** ** A quotient that grows fast enough *)
Definition wfun (A B : list Z) (t : R) : R := t * ev A t / ev B t.
(* on [0, T]: A > 0, B > 0 and t w'/w > e/N *)
Definition mono (fuel : nat) (e N : Z) (A B : list Z) (T : Q) : bool :=
  wpos_on fuel A 0 T && wpos_on fuel B 0 T &&
  wpos_on fuel (padd (pscale (N - e) (pmul A B))
    (pscale N (0%Z :: padd (pmul (pder A) B) (pscale (-1) (pmul A (pder B)))))) 0 T.
Lemma wfun_pos A B t : 0 < t -> 0 < ev A t -> 0 < ev B t -> 0 < wfun A B t.
Proof. intros. unfold wfun. apply Rdiv_lt_0_compat; auto. now apply Rmult_lt_0_compat. Qed.
Lemma mono_ok fuel e N A B T d t1 t2 : mono fuel e N A B T = true -> (0 < e)%Z -> (0 < N)%Z ->
  0 < t1 <= Q2R T -> 0 < t2 <= Q2R T -> lnear d (wfun A B t1) (wfun A B t2) -> lnear (IZR N / IZR e * d) t1 t2.
Proof.
  intros H He HN. unfold mono in H. apply andb_true_iff in H. destruct H as [H H3]. apply andb_true_iff in H. destruct H as [H1 H2].
  apply IZR_lt in He. apply IZR_lt in HN.
  assert (Z0 : Q2R 0 = 0) by (unfold Q2R; cbn; lra).
  assert (PA : forall t, 0 < t <= Q2R T -> 0 < ev A t) by (intros t Ht; apply (wpos_on_ok _ _ _ _ _ H1); lra).
  assert (PB : forall t, 0 < t <= Q2R T -> 0 < ev B t) by (intros t Ht; apply (wpos_on_ok _ _ _ _ _ H2); lra).
  set (g := fun t => ln (ev A t) - ln (ev B t) + (1 - IZR e / IZR N) * ln t).
  assert (G : forall t, 0 < t <= Q2R T -> derivable_pt_lim g t
     (/ ev A t * ev (pder A) t - / ev B t * ev (pder B) t + (1 - IZR e / IZR N) * / t)).
  { intros t Ht. unfold g.
    apply (derivable_pt_lim_plus (fun t => ln (ev A t) - ln (ev B t)) (fun t => (1 - IZR e / IZR N) * ln t)).
    - apply (derivable_pt_lim_minus (fun t => ln (ev A t)) (fun t => ln (ev B t))).
      + apply (derivable_pt_lim_comp (ev A) ln); [apply ev_pder|]. apply derivable_pt_lim_ln. now apply PA.
      + apply (derivable_pt_lim_comp (ev B) ln); [apply ev_pder|]. apply derivable_pt_lim_ln. now apply PB.
    - apply (derivable_pt_lim_scal ln). apply derivable_pt_lim_ln. lra. }
  assert (G0 : forall t, 0 < t <= Q2R T -> 0 < / ev A t * ev (pder A) t - / ev B t * ev (pder B) t + (1 - IZR e / IZR N) * / t).
  { intros t Ht. pose proof (PA t Ht) as a. pose proof (PB t Ht) as b.
    pose proof (wpos_on_ok _ _ _ _ t H3 ltac:(lra)) as P. rewrite ev_padd, !ev_pscale in P. cbn [ev] in P.
    rewrite ev_padd, ev_pscale, !ev_pmul, minus_IZR in P.
    set (a' := ev (pder A) t) in *. set (b' := ev (pder B) t) in *.
    set (A0 := ev A t) in *. set (B0 := ev B t) in *. clearbody a' b' A0 B0.
    replace (/ A0 * a' - / B0 * b' + (1 - IZR e / IZR N) * / t) with
      (((IZR N - IZR e) * (A0 * B0) + IZR N * (0 + t * (a' * B0 + -1 * (A0 * b')))) / (IZR N * A0 * B0 * t)) by (field; lra).
    apply Rdiv_lt_0_compat; [exact P|]. apply Rmult_lt_0_compat; [|lra]. apply Rmult_lt_0_compat; auto. now apply Rmult_lt_0_compat. }
  assert (E : forall t, 0 < t <= Q2R T -> ln (wfun A B t) = g t + IZR e / IZR N * ln t).
  { intros t Ht. unfold wfun, g. rewrite ln_div, ln_mult by (auto using Rmult_lt_0_compat; lra || (apply Rmult_lt_0_compat; [lra|auto])). ring. }
  assert (M : forall s t, 0 < s <= Q2R T -> 0 < t <= Q2R T -> s <= t -> g s <= g t).
  { intros s t Hs Ht [L|L]; [|subst; lra].
    destruct (MVT_cor2 g (fun t => / ev A t * ev (pder A) t - / ev B t * ev (pder B) t + (1 - IZR e / IZR N) * / t) s t L) as (r & Er & Hr).
    - intros c Hc. apply G. lra.
    - pose proof (G0 r ltac:(lra)) as Q. assert (0 < t - s) by lra. pose proof (Rmult_lt_0_compat _ _ Q H). lra. }
  intros T1 T2 (_ & _ & W). split; [lra|]. split; [lra|].
  rewrite !E in W by auto.
  assert (K : 0 < IZR e / IZR N) by now apply Rdiv_lt_0_compat.
  assert (R : IZR e / IZR N * Rabs (ln t1 - ln t2) <= d).
  { eapply Rle_trans; [|exact W]. set (k := IZR e / IZR N) in *. clearbody k.
    destruct (Rle_dec t1 t2) as [L|L].
    - pose proof (M t1 t2 T1 T2 L). assert (ln t1 <= ln t2) by (apply ln_le; lra).
      rewrite (Rabs_left1 (ln t1 - ln t2)), Rabs_left1 by nra. nra.
    - assert (L' : t2 <= t1) by lra. pose proof (M t2 t1 T2 T1 L'). assert (ln t2 <= ln t1) by (apply ln_le; lra).
      rewrite (Rabs_right (ln t1 - ln t2)), Rabs_right by nra. nra. }
  apply Rmult_le_reg_l with (IZR e / IZR N); auto.
  replace (IZR e / IZR N * (IZR N / IZR e * d)) with d by (field; lra). exact R.
Qed.

(** ** Below 4 and below 2: the polynomials are in y *)
Definition chk_a (fuel : nat) (e M : Z) (A B N D : list Z) (Y : Q) : bool :=
  wbetween fuel e M (pmul A (phom N (0%Z :: A) B)) (pmul B (phom D (0%Z :: A) B)) 0 Y.
Lemma reg_a fuel e M A B N D Y y : chk_a fuel e M A B N D Y = true -> (0 < M)%Z -> (0 < e)%Z -> (101 * e <= M)%Z ->
  length N = length D -> 0 < y <= Q2R Y -> 0 < ev A y -> 0 < ev B y ->
  let v := wfun A B y in 0 < ev N v -> 0 < ev D v ->
  lnear (101 / 100 * (IZR e / IZR M)) (v * ev N v / ev D v) y.
Proof.
  intros H HM He HE L Hy Ha Hb v Nv Dv.
  assert (Z0 : Q2R 0 = 0) by (unfold Q2R; cbn; lra).
  pose proof (between_lnear _ _ _ _ _ _ _ y HM He HE H ltac:(lra)) as B0. rewrite !ev_pmul in B0.
  assert (Ev : v = ev (0%Z :: A) y / ev B y) by (unfold v, wfun; cbn [ev]; field; lra).
  pose proof Nv as Nv'. pose proof Dv as Dv'. rewrite Ev in Nv', Dv'.
  destruct (hom_quot N D (0%Z :: A) B y L Hb Nv' Dv') as (n0 & d0 & E). rewrite <- Ev in E.
  assert (Ew : v = y * ev A y / ev B y) by reflexivity. clearbody v.
  replace (v * ev N v / ev D v) with (y * (ev A y * ev (phom N (0%Z :: A) B) y / (ev B y * ev (phom D (0%Z :: A) B) y))).
  2: { replace (v * ev N v / ev D v) with (v * (ev N v / ev D v)) by (unfold Rdiv; ring). rewrite E, Ew. field. lra. }
  apply lnear_scale; auto; try lra; now apply Rmult_lt_0_compat.
Qed.

(** ** Above 2 *)
Lemma hi_fun_sq k bn bd x : 0 < x -> hornerQ bd (1 / (x * x)) <> 0 ->
  hi_fun k bn bd x ^ 2 = x ^ (2 * k + 1) * (hornerQ bn (1 / (x * x)) / hornerQ bd (1 / (x * x))) ^ 2.
Proof.
  intros H HD. unfold hi_fun. rewrite pow_add, pow_mult. replace (x ^ 1) with (sqrt x * sqrt x) by (rewrite sqrt_sqrt by lra; ring).
  replace ((x ^ 2) ^ k) with (x ^ k * x ^ k) by (rewrite <- pow_mult, <- pow_add; f_equal; lia). field. exact HD.
Qed.
Lemma hi_fun_pos k bn bd x : 0 < x -> 0 < hornerQ bn (1 / (x * x)) / hornerQ bd (1 / (x * x)) -> 0 < hi_fun k bn bd x.
Proof.
  intros H HD. unfold hi_fun, Rdiv at 1. rewrite Rmult_assoc. apply Rmult_lt_0_compat; auto.
  apply Rmult_lt_0_compat; [now apply sqrt_lt_R0|now apply pow_lt].
Qed.

(** ** exp *)
Lemma exp_lnear fuel e M c m r b x : c = m :: r -> (0 < M)%Z -> (0 < e)%Z -> between fuel e M (pder c) c 0 b = true ->
  0 <= x <= Q2R b -> 0 < IZR m /\ 0 < ev c x /\ lnear (IZR e / IZR M * x) (ev c x / IZR m) (exp x).
Proof.
  intros Ec HM He B Hx. destruct (exp_poly _ _ _ _ _ _ _ x Ec HM He B Hx) as (P & L & U).
  assert (m0 : 0 < IZR m).
  { pose proof (exp_pos (x + IZR e / IZR M * x)) as X. apply Rmult_lt_reg_r with (exp (x + IZR e / IZR M * x)); auto. lra. }
  split; auto. split; auto. set (d := IZR e / IZR M * x) in *.
  split; [now apply Rdiv_lt_0_compat|]. split; [apply exp_pos|].
  rewrite ln_exp, ln_div by auto.
  apply ln_le in L; [|apply Rmult_lt_0_compat; auto; apply exp_pos]. apply ln_le in U; auto.
  rewrite ln_mult, ln_exp in L by (auto; apply exp_pos). rewrite ln_mult, ln_exp in U by (auto; apply exp_pos).
  apply Rabs_le. lra.
Qed.
(* a polynomial with coefficients >= 0 changes by at most the power of the change of its argument *)
Lemma ev_nonneg c t : forallb (Z.leb 0) c = true -> 0 <= t -> 0 <= ev c t.
Proof.
  intros H Ht. induction c as [|a c IH]; cbn [ev forallb] in *; [lra|]. apply andb_true_iff in H. destruct H as [H1 H2].
  apply Z.leb_le, IZR_le in H1. specialize (IH H2). pose proof (Rmult_le_pos _ _ Ht IH). lra.
Qed.
Lemma ev_mono_pos c a s : forallb (Z.leb 0) c = true -> 0 <= a -> 1 <= s -> ev c a <= ev c (s * a) <= s ^ length c * ev c a.
Proof.
  intros H Ha Hs. induction c as [|q c IH]; cbn [ev forallb length pow] in *; [lra|]. apply andb_true_iff in H. destruct H as [H1 H2].
  apply Z.leb_le, IZR_le in H1. destruct (IH H2) as [I1 I2]. pose proof (ev_nonneg c a H2 Ha) as P.
  pose proof (pow_R1_Rle s (length c) Hs) as S1. set (p := s ^ length c) in *. clearbody p.
  assert (Q : 0 <= ev c (s * a)) by lra. pose proof (Rmult_le_pos _ _ Ha P) as AP. split.
  - assert (a * ev c a <= s * a * ev c (s * a)); [|lra].
    apply Rle_trans with (1 * (a * ev c (s * a))); [rewrite Rmult_1_l; now apply Rmult_le_compat_l|].
    rewrite (Rmult_assoc s). apply Rmult_le_compat_r; auto. now apply Rmult_le_pos.
  - assert (s * a * ev c (s * a) <= s * p * (a * ev c a)).
    { replace (s * p * (a * ev c a)) with (s * a * (p * ev c a)) by ring. apply Rmult_le_compat_l; auto. apply Rmult_le_pos; lra. }
    assert (1 * IZR q <= s * p * IZR q); [|lra]. apply Rmult_le_compat_r; auto.
    apply Rle_trans with (1 * 1); [lra|]. apply Rmult_le_compat; lra.
Qed.
Lemma ev_lnear c d a b : forallb (Z.leb 0) c = true -> lnear d a b -> 0 < ev c a -> lnear (INR (length c) * d) (ev c a) (ev c b).
Proof.
  intros H.
  assert (K : forall a b, 0 < a -> a <= b -> 0 < ev c a -> 0 < ev c b /\ 0 <= ln (ev c b) - ln (ev c a) <= INR (length c) * (ln b - ln a)).
  { clear a b. intros a b Ha Hab Pa. assert (Hs : 1 <= b / a).
    { apply Rmult_le_reg_r with a; auto. unfold Rdiv. rewrite Rmult_assoc, Rinv_l by lra. lra. }
    destruct (ev_mono_pos c a (b / a) H ltac:(lra) Hs) as [L U].
    replace (b / a * a) with b in L, U by (field; lra). split; [lra|].
    pose proof (ln_le _ _ Pa L) as L'. apply ln_le in U; [|lra]. rewrite ln_mult, ln_pow', ln_div in U by (try apply pow_lt; lra). lra. }
  intros (A & B & D) Pa. destruct (Rle_dec a b) as [L|L].
  - destruct (K a b A L Pa) as [Pb J]. split; auto. split; auto. pose proof (ln_le a b A L).
    rewrite Rabs_left1 in D |- * by lra. pose proof (pos_INR (length c)).
    eapply Rle_trans; [|apply Rmult_le_compat_l; [|exact D]; lra]. lra.
  - assert (L' : b <= a) by lra. assert (Pb : 0 < ev c b).
    { assert (Hs : 1 <= a / b). { apply Rmult_le_reg_r with b; auto. unfold Rdiv. rewrite Rmult_assoc, Rinv_l by lra. lra. }
      destruct (ev_mono_pos c b (a / b) H ltac:(lra) Hs) as [_ U]. replace (a / b * b) with a in U by (field; lra).
      pose proof (pow_lt (a / b) (length c) ltac:(lra)). apply Rmult_lt_reg_l with ((a / b) ^ length c); auto. lra. }
    destruct (K b a B L' Pb) as [_ J]. split; auto. split; auto. pose proof (ln_le b a B L').
    rewrite Rabs_right in D |- * by lra. pose proof (pos_INR (length c)).
    eapply Rle_trans; [|apply Rmult_le_compat_l; [|exact D]; lra]. lra.
Qed.
