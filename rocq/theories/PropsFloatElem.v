(* abs_ in double precision.  /repo/npplus/basic.py:267-281. *)
From Coq Require Import String List Arith ZArith Bool Lia Reals Lra Permutation.
From Flocq Require Import Core BinarySingleNaN.
From Verif Require Import Num PyBase NdArray NdLemmas Basic BasicProofs PropsBasic PropsCat PropsElem Poly SpecPoly Float64 PropsFloat FloatErr FloatElem PropsFloatPline.
Import ListNotations.
Local Open Scope R_scope.

(** ** Sums in any order *)
(* a is a sum of the numbers l: additions in any order and with any bracketing *)
Inductive sums : list f64 -> f64 -> Prop :=
  | sums_nil : sums [] n0
  | sums_one x : sums [x] x
  | sums_add l l1 l2 a b : Permutation l (l1 ++ l2) -> sums l1 a -> sums l2 b -> sums l (nadd a b).
Lemma fold_right_permutation_Z u v : Permutation u v -> fold_right Z.add 0%Z u = fold_right Z.add 0%Z v.
Proof. induction 1; cbn; lia. Qed.
Definition rsl (l : list R) : R := fold_right Rplus 0 l.
Lemma rsl_app l m : rsl (l ++ m) = rsl l + rsl m.
Proof. unfold rsl. induction l as [|a l IH]; cbn; [lra|]. rewrite IH. lra. Qed.
Lemma rsl_perm l m : Permutation l m -> rsl l = rsl m.
Proof. unfold rsl. induction 1; cbn; lra. Qed.
Lemma rsl_pos l : (forall x, In x l -> 0 <= x) -> 0 <= rsl l.
Proof. unfold rsl. induction l as [|a l IH]; intros H; cbn; [lra|]. pose proof (H a (or_introl eq_refl)). pose proof (IH (fun x Hx => H x (or_intror Hx))). lra. Qed.
Lemma rsl_abs l : Rabs (rsl l) <= rsl (map Rabs l).
Proof. unfold rsl. induction l as [|a l IH]; cbn; [rewrite Rabs_R0; lra|]. eapply Rle_trans; [apply Rabs_triang|]. lra. Qed.
Lemma abs_pos_in l x : In x (map Rabs l) -> 0 <= x.
Proof. intros H. apply in_map_iff in H. destruct H as (a & <- & _). apply Rabs_pos. Qed.
(* sequential summation is one of the orders *)
Lemma sums_seq l : sums l (fold_left nadd l n0).
Proof.
  induction l as [|x l IH] using rev_ind; [constructor|]. rewrite fold_left_app. cbn [fold_left].
  apply (sums_add _ l [x]); [reflexivity|exact IH|constructor].
Qed.
Definition gam (n : nat) : R := (1 + uro) ^ n - 1.
Lemma gam_pos n : 0 <= gam n.
Proof. unfold gam. pose proof (upow_ge n). lra. Qed.
Lemma gam_le n m : (n <= m)%nat -> gam n <= gam m.
Proof. intros H. unfold gam. pose proof uro_pos. assert ((1 + uro) ^ n <= (1 + uro) ^ m) by (apply Rle_pow; [lra|exact H]). lra. Qed.
Lemma gam_S n : gam n * (1 + uro) + uro = gam (S n).
Proof. unfold gam. cbn [pow]. ring. Qed.
Lemma sums_nil_val l a : sums l a -> l = [] -> fin a /\ val a = 0.
Proof.
  induction 1 as [|x|l l1 l2 a b P A IA B IB]; intros E; [split; reflexivity|discriminate|].
  subst l. apply Permutation_nil in P. apply app_eq_nil in P. destruct P as [-> ->]. destruct (IA eq_refl) as [Fa Va], (IB eq_refl) as [Fb Vb].
  destruct (fadd_ok a b Fa Fb) as [F V]; [rewrite Va, Vb, Rplus_0_r, Rabs_R0; apply pow_le; lra|]. split; [exact F|]. rewrite V, Va, Vb, Rplus_0_r. apply rnd_0.
Qed.
Lemma sums_err l a : sums l a -> fin a -> Forall fin l /\ Rabs (val a - rsl (map val l)) <= gam (length l - 1) * rsl (map Rabs (map val l)).
Proof.
  induction 1 as [|x|l l1 l2 a b P A IA B IB]; intros F.
  - split; [constructor|]. cbn. rewrite Rminus_0_r, Rmult_0_r, Rabs_R0. lra.
  - split; [repeat constructor; exact F|]. cbn. unfold gam. cbn. rewrite Rplus_0_r. replace (val x - val x) with 0 by ring. rewrite Rabs_R0. lra.
  - destruct (fadd_fin _ _ F) as [Fa Fb]. destruct (IA Fa) as [F1 E1], (IB Fb) as [F2 E2].
    split; [eapply Permutation_Forall; [apply Permutation_sym; exact P|]; apply Forall_app; auto|].
    assert (L : length l = (length l1 + length l2)%nat) by (rewrite (Permutation_length P), app_length; reflexivity).
    rewrite (rsl_perm _ _ (Permutation_map val P)), (rsl_perm _ _ (Permutation_map Rabs (Permutation_map val P))), !map_app, !rsl_app, L.
    set (S1 := rsl (map val l1)) in *. set (S2 := rsl (map val l2)) in *. set (T1 := rsl (map Rabs (map val l1))) in *. set (T2 := rsl (map Rabs (map val l2))) in *.
    assert (P1 : 0 <= T1) by (apply rsl_pos, abs_pos_in). assert (P2 : 0 <= T2) by (apply rsl_pos, abs_pos_in).
    destruct l1 as [|x1 l1].
    { destruct (sums_nil_val _ _ A eq_refl) as [_ Va]. rewrite (fadd_val _ _ F), Va, Rplus_0_l, rnd_val. change S1 with 0. change T1 with 0. rewrite !Rplus_0_l. exact E2. }
    destruct l2 as [|x2 l2].
    { destruct (sums_nil_val _ _ B eq_refl) as [_ Vb]. rewrite (fadd_val _ _ F), Vb, Rplus_0_r, rnd_val. change S2 with 0. change T2 with 0. rewrite !Rplus_0_r. cbn [length] in *. rewrite Nat.add_0_r. exact E1. }
    cbn [length] in *. replace (S (length l1) + S (length l2) - 1)%nat with (S (length l1 + length l2)) by lia. rewrite Nat.sub_succ, Nat.sub_0_r in E1, E2.
    rewrite (fadd_val _ _ F). destruct (rnd_plus_err a b) as (e & He & ->). set (n := (length l1 + length l2)%nat).
    assert (G1 : Rabs (val a - S1) <= gam n * T1) by (eapply Rle_trans; [exact E1|]; apply Rmult_le_compat_r; [exact P1|]; apply gam_le; unfold n; lia).
    assert (G2 : Rabs (val b - S2) <= gam n * T2) by (eapply Rle_trans; [exact E2|]; apply Rmult_le_compat_r; [exact P2|]; apply gam_le; unfold n; lia).
    replace ((val a + val b) * (1 + e) - (S1 + S2)) with (((val a - S1) + (val b - S2)) * (1 + e) + e * (S1 + S2)) by ring.
    eapply Rle_trans; [apply Rabs_triang|]. rewrite !Rabs_mult, <- gam_S. pose proof uro_pos as U.
    assert (A1 : Rabs ((val a - S1) + (val b - S2)) <= gam n * (T1 + T2)) by (eapply Rle_trans; [apply Rabs_triang|]; lra).
    assert (A2 : Rabs (1 + e) <= 1 + uro) by (eapply Rle_trans; [apply Rabs_triang|]; rewrite Rabs_R1; lra).
    assert (A3 : Rabs (S1 + S2) <= T1 + T2) by (eapply Rle_trans; [apply Rabs_triang|]; apply Rplus_le_compat; apply rsl_abs).
    assert (A4 : Rabs ((val a - S1) + (val b - S2)) * Rabs (1 + e) <= gam n * (T1 + T2) * (1 + uro)) by (apply Rmult_le_compat; auto; apply Rabs_pos).
    assert (A5 : Rabs e * Rabs (S1 + S2) <= uro * (T1 + T2)) by (apply Rmult_le_compat; auto; apply Rabs_pos). lra.
Qed.
Lemma sums_nonneg l a : sums l a -> fin a -> (forall x, In x l -> 0 <= val x) -> 0 <= val a.
Proof.
  induction 1 as [|x|l l1 l2 a b P A IA B IB]; intros F H; [rewrite val_n0; lra|apply H; left; reflexivity|].
  destruct (fadd_fin _ _ F) as [Fa Fb]. rewrite (fadd_val _ _ F), <- rnd_0. apply rnd_le.
  assert (0 <= val a) by (apply IA; auto; intros x Hx; apply H, (Permutation_in _ (Permutation_sym P)), in_or_app; auto).
  assert (0 <= val b) by (apply IB; auto; intros x Hx; apply H, (Permutation_in _ (Permutation_sym P)), in_or_app; auto). lra.
Qed.
Lemma sums_fin l a : sums l a -> Forall fin l -> (1 + uro) ^ length l * rsl (map Rabs (map val l)) <= 10 ^ 301 -> fin a.
Proof.
  induction 1 as [|x|l l1 l2 a b P A IA B IB]; intros F H; [reflexivity|inversion F; auto|].
  assert (L : length l = (length l1 + length l2)%nat) by (rewrite (Permutation_length P), app_length; reflexivity).
  rewrite (rsl_perm _ _ (Permutation_map Rabs (Permutation_map val P))), !map_app, !rsl_app, L in H.
  assert (F12 : Forall fin (l1 ++ l2)) by (eapply Permutation_Forall; eauto). apply Forall_app in F12. destruct F12 as [F1 F2].
  set (T1 := rsl (map Rabs (map val l1))) in *. set (T2 := rsl (map Rabs (map val l2))) in *.
  assert (P1 : 0 <= T1) by (apply rsl_pos, abs_pos_in). assert (P2 : 0 <= T2) by (apply rsl_pos, abs_pos_in).
  assert (U1 : (1 + uro) ^ length l1 <= (1 + uro) ^ (length l1 + length l2)) by (apply Rle_pow; [pose proof uro_pos; lra|lia]).
  assert (U2 : (1 + uro) ^ length l2 <= (1 + uro) ^ (length l1 + length l2)) by (apply Rle_pow; [pose proof uro_pos; lra|lia]).
  assert (N1 : 0 <= (1 + uro) ^ length l1) by (apply pow_le; pose proof uro_pos; lra). assert (N2 : 0 <= (1 + uro) ^ length l2) by (apply pow_le; pose proof uro_pos; lra).
  set (U := (1 + uro) ^ (length l1 + length l2)) in *.
  assert (M1 : (1 + uro) ^ length l1 * T1 <= U * T1) by (apply Rmult_le_compat_r; auto). assert (M2 : (1 + uro) ^ length l2 * T2 <= U * T2) by (apply Rmult_le_compat_r; auto).
  assert (Q1 : 0 <= U * T1) by (apply Rmult_le_pos; lra). assert (Q2 : 0 <= U * T2) by (apply Rmult_le_pos; lra). rewrite Rmult_plus_distr_l in H.
  assert (Fa : fin a) by (apply IA; auto; lra). assert (Fb : fin b) by (apply IB; auto; lra).
  destruct (sums_err _ _ A Fa) as [_ E1], (sums_err _ _ B Fb) as [_ E2]. fold T1 in E1. fold T2 in E2.
  assert (G : forall l v T S', Rabs (v - S') <= gam (length l - 1) * T -> Rabs S' <= T -> 0 <= T -> Rabs v <= (1 + uro) ^ length (l : list f64) * T).
  { intros m v T S' E HS HT. replace v with ((v - S') + S') by ring. eapply Rle_trans; [apply Rabs_triang|].
    assert (gam (length m - 1) * T <= gam (length m) * T) by (apply Rmult_le_compat_r; [exact HT|]; apply gam_le; lia). unfold gam in *. lra. }
  pose proof (G _ _ _ _ E1 (rsl_abs _) P1) as B1. pose proof (G _ _ _ _ E2 (rsl_abs _) P2) as B2. fold T1 in B1. fold T2 in B2.
  apply (fadd_ok a b Fa Fb). eapply Rle_trans; [apply Rabs_triang|]. lra.
Qed.
(* integers are added exactly *)
Lemma sums_int l a : sums l a -> forall zs, Forall2 int64 l zs -> (fold_right Z.add 0 (map Z.abs zs) <= 2 ^ 53)%Z -> int64 a (fold_right Z.add 0%Z zs).
Proof.
  assert (ZA : forall u v, fold_right Z.add 0%Z (u ++ v) = (fold_right Z.add 0 u + fold_right Z.add 0 v)%Z) by (intros u v; induction u as [|z u IH]; cbn; lia).
  assert (ZP : forall u, (Z.abs (fold_right Z.add 0 u) <= fold_right Z.add 0 (map Z.abs u))%Z) by (intros u; induction u as [|z u IH]; cbn; lia).
  induction 1 as [|x|l l1 l2 a b P A IA B IB]; intros zs HF HB.
  - inversion HF; subst. split; reflexivity.
  - inversion HF as [|? z ? ? Hx Ht]; subst. inversion Ht; subst. cbn. rewrite Z.add_0_r. exact Hx.
  - destruct (Permutation_Forall2 P HF) as (zs' & P' & HF'). apply Forall2_app_inv_l in HF'. destruct HF' as (z1 & z2 & H1 & H2 & ->).
    assert (E : fold_right Z.add 0%Z zs = (fold_right Z.add 0 z1 + fold_right Z.add 0 z2)%Z) by (rewrite <- ZA; apply fold_right_permutation_Z; exact P').
    assert (E2 : fold_right Z.add 0%Z (map Z.abs zs) = (fold_right Z.add 0 (map Z.abs z1) + fold_right Z.add 0 (map Z.abs z2))%Z) by (rewrite <- ZA, <- map_app; apply fold_right_permutation_Z, Permutation_map; exact P').
    pose proof (ZP z1) as Z1. pose proof (ZP z2) as Z2.
    destruct (IA z1 H1 ltac:(lia)) as [Fa Va], (IB z2 H2 ltac:(lia)) as [Fb Vb]. rewrite E.
    apply fadd_int; auto; [rewrite Va, Vb, <- plus_IZR; reflexivity|lia].
Qed.

(** ** abs_ *)
Lemma fsqrt_val (x : f64) : val (fsqrt x) = rnd (sqrt (val x)).
Proof. destruct (Bsqrt_correct 53 1024 _ _ mode_NE x) as (C1 & _ & _). exact C1. Qed.
Lemma fsqrt_fin (x : f64) : fin (fsqrt x) -> fin x.
Proof. unfold fin, fsqrt. destruct x as [s|[|]| |s m e B]; cbn; auto. Qed.
(* square roots of doubles are never subnormal *)
Lemma rnd_sqrt (x : f64) : 0 <= val x -> Rabs (rnd (sqrt (val x)) - sqrt (val x)) <= uro * sqrt (val x).
Proof.
  intros H. destruct (Req_dec (val x) 0) as [E|N].
  { rewrite E, sqrt_0, rnd_0, Rminus_0_r, Rabs_R0, Rmult_0_r. lra. }
  assert (P : 0 < val x) by lra.
  assert (L : bpow radix2 (-1074) <= val x).
  { apply (generic_format_ge_bpow radix2 (FLT_exp (-1074) 53)); [intros e; unfold FLT_exp; lia|exact P|]. exact (generic_format_B2R 53 1024 x). }
  assert (L2 : bpow radix2 (-537) <= sqrt (val x)).
  { rewrite <- (sqrt_Rsqr (bpow radix2 (-537))) by apply bpow_ge_0. apply sqrt_le_1_alt. unfold Rsqr. rewrite <- bpow_plus. exact L. }
  pose proof (rnd_rel (sqrt (val x))) as R. rewrite (Rabs_pos_eq (sqrt (val x))) in R by apply sqrt_pos. apply R.
  eapply Rle_trans; [|exact L2]. change (-537)%Z with (- (537))%Z. rewrite bpow_opp. apply Rinv_le_contravar; [apply bpow_gt_0|].
  rewrite (pow_IZR 10), <- (IZR_Zpower radix2) by lia. apply IZR_le. vm_compute. discriminate.
Qed.
(* the square of a number that is 0 or at least 10^-150 *)
Definition no_uflow (x : f64) : Prop := val x = 0 \/ / 10 ^ 150 <= Rabs (val x).
Lemma sq_val (x : f64) : fin (nmul x x) -> no_uflow x -> Rabs (val (nmul x x) - (val x)²) <= uro * (val x)².
Proof.
  intros F H. rewrite (fmul_val _ _ F). change (val x * val x) with ((val x)²). pose proof (Rle_0_sqr (val x)) as P. destruct H as [E|H].
  - rewrite E. unfold Rsqr. rewrite Rmult_0_r, rnd_0, Rminus_0_r, Rabs_R0. lra.
  - pose proof (rnd_rel ((val x)²)) as R. rewrite (Rabs_pos_eq ((val x)²)) in R by exact P. apply R.
    apply Rle_trans with (/ 10 ^ 150 * / 10 ^ 150).
    + rewrite <- Rinv_mult, <- pow_add. apply Rinv_le_contravar; [apply pow_lt; lra|]. apply Rle_pow; [lra|lia].
    + rewrite <- (Rabs_pos_eq ((val x)²)) by exact P. unfold Rsqr. rewrite Rabs_mult. assert (0 < / 10 ^ 150) by (apply Rinv_0_lt_compat, pow_lt; lra). apply Rmult_le_compat; lra.
Qed.
(* sqrt of the sum of the squares *)
Lemma norm_err (xs : list f64) s : sums (map (fun x => nmul x x) xs) s -> fin s -> Forall no_uflow xs ->
  Rabs (val (fsqrt s) - sqrt (rsl (map (fun x => (val x)²) xs))) <= gam (S (length xs)) * sqrt (rsl (map (fun x => (val x)²) xs)).
Proof.
  intros H F HU. destruct (sums_err _ _ H F) as [Fl E]. rewrite map_length in E.
  assert (NN : forall x, In x (map (fun x : f64 => nmul x x) xs) -> 0 <= val x).
  { intros z Hz. apply in_map_iff in Hz. destruct Hz as (x & <- & Hx). rewrite fmul_val; [|rewrite Forall_forall in Fl; apply Fl, in_map_iff; eauto]. rewrite <- rnd_0. apply rnd_le. apply Rle_0_sqr. }
  pose proof (sums_nonneg _ _ H F NN) as Ps. set (SS := rsl (map (fun x => (val x)²) xs)) in *.
  assert (PS : 0 <= SS) by (apply rsl_pos; intros z Hz; apply in_map_iff in Hz; destruct Hz as (x & <- & _); apply Rle_0_sqr).
  set (q := rsl (map val (map (fun x : f64 => nmul x x) xs))) in *.
  assert (Eq : rsl (map Rabs (map val (map (fun x : f64 => nmul x x) xs))) = q).
  { unfold q. f_equal. rewrite <- (map_id (map val (map _ xs))) at 2. apply map_ext_in. intros z Hz. apply in_map_iff in Hz. destruct Hz as (x & <- & Hx). apply Rabs_pos_eq, NN, Hx. }
  rewrite Eq in E. pose proof uro_pos as U.
  assert (D : Rabs (q - SS) <= uro * SS).
  { unfold q, SS. clear -Fl HU U. induction xs as [|x xs IH]; [cbn; rewrite Rminus_0_r, Rabs_R0; lra|]. change (map (fun x : f64 => nmul x x) (x :: xs)) with (nmul x x :: map (fun x : f64 => nmul x x) xs) in Fl. apply Forall_cons_iff in Fl, HU. destruct Fl as [Fx Fl], HU as [Hx HU].
    pose proof (sq_val x Fx Hx) as A. pose proof (IH HU Fl) as B.
    change (rsl (map val (map (fun x : f64 => nmul x x) (x :: xs)))) with (val (nmul x x) + rsl (map val (map (fun x : f64 => nmul x x) xs))).
    change (rsl (map (fun x => (val x)²) (x :: xs))) with ((val x)² + rsl (map (fun x => (val x)²) xs)).
    set (p := rsl (map val (map (fun x0 : f64 => (x0 * x0)%K) xs))) in *. set (r := rsl (map (fun x0 : f64 => (val x0)²) xs)) in *.
    replace (val (x * x)%K + p - ((val x)² + r)) with ((val (x * x)%K - (val x)²) + (p - r)) by ring. eapply Rle_trans; [apply Rabs_triang|]. lra. }
  assert (D2 : Rabs (val s - SS) <= gam (length xs) * SS).
  { destruct xs as [|x0 xs]; [cbn in *; unfold gam in *; cbn in *; unfold q, SS in *; cbn in *; rewrite Rmult_0_r in *; exact E|].
    replace (length (x0 :: xs)) with (S (length (x0 :: xs) - 1)) by (cbn; lia). rewrite <- gam_S. set (g := gam (length (x0 :: xs) - 1)) in *. assert (Pg : 0 <= g) by apply gam_pos.
    replace (val s - SS) with ((val s - q) + (q - SS)) by ring. eapply Rle_trans; [apply Rabs_triang|].
    assert (Bq : q <= (1 + uro) * SS) by (apply Rabs_le_inv in D; lra). assert (g * q <= g * ((1 + uro) * SS)) by (apply Rmult_le_compat_l; auto). lra. }
  rewrite fsqrt_val. pose proof (rnd_sqrt s Ps) as R. set (g := gam (length xs)) in *. assert (Pg : 0 <= g) by apply gam_pos. rewrite <- gam_S. fold g.
  assert (D3 : Rabs (sqrt (val s) - sqrt SS) <= g * sqrt SS).
  { destruct (Req_dec SS 0) as [Z|Z].
    - rewrite Z, Rmult_0_r, Rminus_0_r in D2. assert (val s = 0) by (apply Rabs_le_inv in D2; lra). rewrite H0, Z, sqrt_0, Rminus_0_r, Rabs_R0, Rmult_0_r. lra.
    - assert (Q : 0 < sqrt SS) by (apply sqrt_lt_R0; lra). pose proof (sqrt_pos (val s)) as Q2.
      apply (Rmult_le_reg_r (sqrt (val s) + sqrt SS)); [lra|]. rewrite <- (Rabs_pos_eq (sqrt (val s) + sqrt SS)) at 1 by lra. rewrite <- Rabs_mult.
      replace ((sqrt (val s) - sqrt SS) * (sqrt (val s) + sqrt SS)) with (val s - SS).
      2:{ rewrite <- (sqrt_sqrt (val s)) at 1 by lra. rewrite <- (sqrt_sqrt SS) at 1 by lra. ring. }
      eapply Rle_trans; [exact D2|]. rewrite <- (sqrt_sqrt SS) at 1 by lra. rewrite Rmult_plus_distr_l.
      assert (0 <= g * sqrt SS * sqrt (val s)) by (apply Rmult_le_pos; auto; apply Rmult_le_pos; lra). lra. }
  assert (B : sqrt (val s) <= (1 + g) * sqrt SS) by (apply Rabs_le_inv in D3; lra).
  replace (rnd (sqrt (val s)) - sqrt SS) with ((rnd (sqrt (val s)) - sqrt (val s)) + (sqrt (val s) - sqrt SS)) by ring.
  eapply Rle_trans; [apply Rabs_triang|]. assert (uro * sqrt (val s) <= uro * ((1 + g) * sqrt SS)) by (apply Rmult_le_compat_l; lra). lra.
Qed.

Lemma upow_3 n : INR n <= 10 ^ 15 -> (1 + uro) ^ n <= 3.
Proof.
  intros H. pose proof uro_pos as U. assert (B : (1 + uro) ^ n * (1 - INR n * uro) <= 1).
  { clear H. induction n as [|n IH]; [cbn; lra|]. rewrite S_INR. cbn [pow]. assert (P : 0 <= (1 + uro) ^ n) by (apply pow_le; lra). pose proof (pos_INR n).
    assert (Q : (1 + uro) * (1 - (INR n + 1) * uro) <= 1 - INR n * uro). { assert (0 <= (INR n + 1) * (uro * uro)) by (apply Rmult_le_pos; [lra|apply Rmult_le_pos; lra]). lra. }
    pose proof (Rmult_le_compat_l _ _ _ P Q). lra. }
  assert (V : uro <= 2 / 10 ^ 16) by (unfold uro; lra). assert (Q : INR n * uro <= 10 ^ 15 * (2 / 10 ^ 16)) by (apply Rmult_le_compat; try lra; apply pos_INR).
  assert (P : 0 <= (1 + uro) ^ n) by (apply pow_le; lra). set (p := (1 + uro) ^ n) in *. set (q := INR n * uro) in *. nra.
Qed.
Definition fabs (x : f64) : f64 := Babs x.
(* abs_(a, b, ...), summed in any order: the 2-norm up to n + 1 roundings, n the number of arguments *)
Section Abs.
  Variable sumf : list f64 -> f64.
  Hypothesis Hsum : forall l, sums l (sumf l).
  Lemma abs_elems (a : arg f64) args n T : args <> [] -> numeric (a :: args) -> is_rank 0 (a :: args) n -> common n (fun _ => True) (a :: args) T ->
    exists r, abs_gen fabs fsqrt sumf a args = Ok r /\ shp r = T /\
      forall idx, inb idx T -> exists s, get r idx = fsqrt s /\ sums (map (fun x => nmul x x) (map (fun b => bget (aarr b) idx) (a :: args))) s.
  Proof.
    intros Hne Hnum Hr Hc. destruct args as [|b0 args]; [congruence|]. cbn [abs_gen]. set (l := a :: b0 :: args) in *.
    destruct (C06_stack l [] 0%Z n 0 T) as (st & E & Ss & G); auto. { left; auto. } { discriminate. } { split; [lia|left; reflexivity]. }
    rewrite E. cbn [bind]. rewrite (nd_map2_same _ st st (shp st)) by auto. cbn [bind].
    rewrite Ss. replace (insert_at 0 (length l) T) with (length l :: T) in * by (destruct T; reflexivity).
    eexists. split; [reflexivity|]. split; [reflexivity|]. intros idx Hi. cbn [nd_map get shp tl hd].
    eexists. split; [reflexivity|]. match goal with |- sums ?A _ => match goal with |- sums _ (sumf ?B) => replace A with B; [apply Hsum|] end end.
    rewrite map_map. apply nth_ext with (d := n0) (d' := n0); [rewrite !map_length, seq_length; auto|]. rewrite map_length, seq_length. intros j Hj.
    set (F := fun i : nat => nmul (bget st (i :: idx)) (bget st (i :: idx))). rewrite (nth_indep _ n0 (F 0%nat)) by (rewrite map_length, seq_length; auto).
    rewrite (map_nth F), seq_nth by auto. cbn [Nat.add]. set (H := fun b : arg f64 => nmul (bget (aarr b) idx) (bget (aarr b) idx)).
    rewrite (nth_indep _ n0 (H a)) by (rewrite map_length; auto). rewrite (map_nth H). unfold F, H. rewrite bget_self by (rewrite Ss; constructor; auto).
    specialize (G j a Hj idx Hi). replace (insert_at 0 j idx) with (j :: idx) in G by (destruct idx; reflexivity). rewrite G. reflexivity.
  Qed.
  Theorem C106_abs_error (a : arg f64) args n T : args <> [] -> numeric (a :: args) -> is_rank 0 (a :: args) n -> common n (fun _ => True) (a :: args) T ->
    exists r, abs_gen fabs fsqrt sumf a args = Ok r /\ shp r = T /\
      forall idx, inb idx T -> let xs := map (fun b => bget (aarr b) idx) (a :: args) in let norm := sqrt (rsl (map (fun x => (val x)²) xs)) in
        (fin (get r idx) -> Forall fin xs /\ 0 <= val (get r idx) /\
          ((forall x, In x xs -> val x = 0 \/ / 10 ^ 150 <= Rabs (val x)) -> Rabs (val (get r idx) - norm) <= ((1 + uro) ^ (length xs + 1) - 1) * norm)) /\
        (Forall fin xs -> (forall x, In x xs -> Rabs (val x) <= 10 ^ 140) -> INR (length xs) <= 10 ^ 15 -> fin (get r idx)).
  Proof.
    intros Hne Hnum Hr Hc. destruct (abs_elems a args n T Hne Hnum Hr Hc) as (r & E & Sr & G). exists r. split; [exact E|]. split; [exact Sr|].
    intros idx Hi xs norm. destruct (G idx Hi) as (s & -> & Hs). fold xs in Hs. split.
    - intros F. apply fsqrt_fin in F. destruct (sums_err _ _ Hs F) as [Fl _]. split; [|split].
      + rewrite Forall_forall in *. intros x Hx. assert (Q : fin (nmul x x)) by (apply Fl, in_map_iff; eauto). apply fmul_fin in Q. tauto.
      + rewrite fsqrt_val, <- rnd_0. apply rnd_le, sqrt_pos.
      + intros HU. rewrite Nat.add_1_r. apply (norm_err xs s Hs F). apply Forall_forall. exact HU.
    - intros Fx B HN.
      assert (FQ : forall x, In x xs -> fin (nmul x x) /\ 0 <= val (nmul x x) <= 3 * 10 ^ 280).
      { intros x Hx. rewrite Forall_forall in Fx. pose proof (B x Hx) as Bx. pose proof (Fx x Hx) as Fxx.
        assert (Q : Rabs (val x * val x) <= 10 ^ 280) by (rewrite Rabs_mult; replace (10 ^ 280) with (10 ^ 140 * 10 ^ 140) by (rewrite <- pow_add; reflexivity); apply Rmult_le_compat; auto; apply Rabs_pos).
        destruct (fmul_ok x x Fxx Fxx) as [F V]; [eapply Rle_trans; [exact Q|]; apply Rle_pow; [lra|lia]|]. split; [exact F|]. split.
        - rewrite V, <- rnd_0. apply rnd_le, Rle_0_sqr.
        - eapply Rle_trans; [apply Rle_abs|]. rewrite V. apply rnd_twice; [exact Q|]. apply pow_R1_Rle. lra. }
      assert (Fs : fin s).
      { apply (sums_fin _ _ Hs).
        - apply Forall_forall. intros z Hz. apply in_map_iff in Hz. destruct Hz as (x & <- & Hx). apply (FQ x Hx).
        - rewrite map_length. assert (Q : rsl (map Rabs (map val (map (fun x : f64 => nmul x x) xs))) <= INR (length xs) * (3 * 10 ^ 280)).
          { assert (K : forall x, In x xs -> Rabs (val (nmul x x)) <= 3 * 10 ^ 280) by (intros x Hx; destruct (FQ x Hx) as [_ Q]; rewrite Rabs_pos_eq; lra).
            generalize dependent (3 * 10 ^ 280). intros P _ K. clear -K. induction xs as [|x xs IH]; [cbn; lra|].
            change (rsl (map Rabs (map val (map (fun x0 : f64 => nmul x0 x0) (x :: xs))))) with (Rabs (val (nmul x x)) + rsl (map Rabs (map val (map (fun x0 : f64 => nmul x0 x0) xs)))).
            cbn [length]. rewrite S_INR. pose proof (K x (or_introl eq_refl)). pose proof (IH (fun z Hz => K z (or_intror Hz))). lra. }
          assert (PU : 0 <= (1 + uro) ^ length xs) by (apply pow_le; pose proof uro_pos; lra).
          eapply Rle_trans; [apply Rmult_le_compat_l; [exact PU|exact Q]|]. rewrite <- Rmult_assoc. replace (10 ^ 301) with (10 ^ 280 * 10 ^ 21) by (rewrite <- pow_add; reflexivity).
          assert (P : 0 < 10 ^ 280) by (apply pow_lt; lra). set (Z := 10 ^ 280) in *. clearbody Z. set (W := (1 + uro) ^ length xs * INR (length xs)) in *.
          assert (W3 : W <= 3 * 10 ^ 15) by (apply Rmult_le_compat; auto; [apply pos_INR|apply upow_3; exact HN]).
          pose proof (Rmult_le_compat_r (3 * Z) W _ ltac:(lra) W3). lra. }
      apply fsqrt_ok; auto. apply (sums_nonneg _ _ Hs Fs). intros z Hz. apply in_map_iff in Hz. destruct Hz as (x & <- & Hx). apply (FQ x Hx).
  Qed.
  (* integers whose squares add up to a square: exact *)
  Theorem C106_integers (a : arg f64) args n T : args <> [] -> numeric (a :: args) -> is_rank 0 (a :: args) n -> common n (fun _ => True) (a :: args) T ->
    exists r, abs_gen fabs fsqrt sumf a args = Ok r /\
      forall idx zs m, inb idx T -> Forall2 (fun b z => int64 (bget (aarr b) idx) z) (a :: args) zs ->
        fold_right Z.add 0%Z (map (fun z => z * z)%Z zs) = (m * m)%Z -> (0 <= m)%Z -> (m * m <= 2 ^ 53)%Z -> int64 (get r idx) m.
  Proof.
    intros Hne Hnum Hr Hc. destruct (abs_elems a args n T Hne Hnum Hr Hc) as (r & E & Sr & G). exists r. split; [exact E|].
    intros idx zs m Hi HZ HS Hm HB. destruct (G idx Hi) as (s & -> & Hs).
    assert (SQ : forall z, In z zs -> (z * z <= m * m)%Z).
    { rewrite <- HS. clear. intros z H. induction zs as [|w zs IH]; [destruct H|]. cbn.
      assert (P : (0 <= fold_right Z.add 0 (map (fun z => z * z)%Z zs))%Z) by (clear; induction zs as [|v zs IH]; cbn; [lia|nia]).
      destruct H as [->|H]; [nia|]. specialize (IH H). nia. }
    assert (I : int64 s (m * m)%Z).
    { rewrite <- HS. apply (sums_int _ _ Hs).
      - rewrite map_map. revert HZ SQ. generalize (a :: args). clear -HB. intros l HZ. induction HZ as [|b z l zs Hb HZ IH]; intros SQ; [constructor|]. cbn [map]. constructor.
        + destruct Hb as [F V]. apply fmul_int; auto; [rewrite V, <- mult_IZR; reflexivity|]. pose proof (SQ z (or_introl eq_refl)). pose proof (Z.square_nonneg z). lia.
        + apply IH. intros w Hw. apply SQ. right. exact Hw.
      - replace (map Z.abs (map (fun z => z * z)%Z zs)) with (map (fun z => z * z)%Z zs); [lia|]. rewrite map_map. apply map_ext. intros z. rewrite Z.abs_eq; [reflexivity|apply Z.square_nonneg]. }
    destruct I as [F V]. destruct (fsqrt_ok s F) as [F' V']; [rewrite V; apply IZR_le, Z.square_nonneg|]. split; [exact F'|].
    rewrite V', V, mult_IZR, sqrt_square by (apply IZR_le; exact Hm). apply rnd_int. nia.
  Qed.
End Abs.
Print Assumptions C106_abs_error.
Print Assumptions C106_integers.
(* one argument: the absolute value, exactly *)
Theorem C106_single sumf (a : arg f64) : exists r, abs_gen fabs fsqrt sumf a [] = Ok r /\ shp r = shp (aarr a) /\
  forall idx, val (get r idx) = Rabs (val (get (aarr a) idx)) /\ (fin (get r idx) <-> fin (get (aarr a) idx)).
Proof.
  eexists. split; [reflexivity|]. split; [reflexivity|]. intros idx. cbn [nd_map get]. unfold fabs, val, fin. rewrite B2R_Babs, is_finite_Babs. split; reflexivity.
Qed.
Print Assumptions C106_single.
(* Half of the exponent range is lost: the norm of (1e200, 1e200) overflows, that of (1e-200, 1e-200) is 0 *)
Theorem C106_half_range : exists (big tiny : f64) rb rt,
  fin big /\ 9 * 10 ^ 199 <= val big <= 2 * 10 ^ 200 /\ abs_gen fabs fsqrt (fun l => fold_left nadd l n0) (Arg true (scalar big)) [Arg true (scalar big)] = Ok rb /\ get rb [] = B754_infinity false /\
  fin tiny /\ 0 < val tiny /\ abs_gen fabs fsqrt (fun l => fold_left nadd l n0) (Arg true (scalar tiny)) [Arg true (scalar tiny)] = Ok rt /\ fin (get rt []) /\ val (get rt []) = 0.
Proof.
  set (big := nofZ (10 ^ 200) : f64). set (tiny := (n1 / big)%K : f64).
  assert (Q1 : res_is (fun r => match get r [] with B754_infinity false => true | _ => false end) (abs_gen fabs fsqrt (fun l => fold_left nadd l n0) (Arg true (scalar big)) [Arg true (scalar big)]) = true) by (vm_compute; reflexivity).
  assert (Q2 : res_is (fun r => match get r [] with B754_zero _ => true | _ => false end) (abs_gen fabs fsqrt (fun l => fold_left nadd l n0) (Arg true (scalar tiny)) [Arg true (scalar tiny)]) = true) by (vm_compute; reflexivity).
  apply res_is_true in Q1. destruct Q1 as (rb & E1 & Q1). apply res_is_true in Q2. destruct Q2 as (rt & E2 & Q2).
  exists big, tiny, rb, rt. split; [vm_compute; reflexivity|]. split.
  { unfold val, big. rewrite <- SF2R_B2SF. assert (E : B2SF (nofZ (10 ^ 200) : f64) = SpecFloat.S754_finite false 5883593420661338 612) by (vm_compute; reflexivity).
    rewrite E. unfold SF2R, F2R. cbn [Fnum Fexp SpecFloat.cond_Zopp]. rewrite <- (IZR_Zpower radix2) by lia. rewrite !(pow_IZR 10), <- !mult_IZR. split; apply IZR_le; vm_compute; discriminate. }
  split; [exact E1|]. split; [destruct (get rb []) as [| [|] | |]; try discriminate; reflexivity|]. split; [vm_compute; reflexivity|]. split.
  { unfold val. assert (E : exists m e, B2SF tiny = SpecFloat.S754_finite false m e) by (vm_compute; eauto). destruct E as (m & e & E). rewrite <- SF2R_B2SF, E. apply F2R_gt_0. reflexivity. }
  split; [exact E2|]. destruct (get rt []); try discriminate. split; reflexivity.
Qed.
Print Assumptions C106_half_range.
Example ex_C106 : let a := Arg true (scalar (nofZ 3 : f64)) in let b := Arg true (full [2]%nat (nofZ (-4) : f64)) in
  numeric [a; b] /\ is_rank 0 [a; b] 1 /\ common 1 (fun _ => True) [a; b] [2]%nat /\ (forall l, sums l (fold_left nadd l n0)) /\
  Forall2 (fun c z => int64 (bget (aarr c) [1]%nat) z) [a; b] [3; -4]%Z /\
  res_is (fun r => is_finite (get r [1]%nat) && (get r [1]%nat =? nofZ 5)%K) (abs_gen fabs fsqrt (fun l => fold_left nadd l n0) a [b]) = true.
Proof.
  intros a b. split; [|split; [|split; [|split; [|split]]]].
  - intros c [<-|[<-|[]]]; reflexivity.
  - split; [lia|]. split; [intros c [<-|[<-|[]]]; cbn; lia|]. right. exists b. cbn; auto.
  - split; [reflexivity|]. intros m Hm _. assert (m = 0)%nat by lia. subst m. split.
    + intros c [<-|[<-|[]]]; cbn; [right; split; auto; lia|auto].
    + exists b; cbn; auto.
  - apply sums_seq.
  - constructor; [apply (fofZ_val 3); lia|]. constructor; [apply (fofZ_val (-4)); lia|constructor].
  - vm_compute. reflexivity.
Qed.
