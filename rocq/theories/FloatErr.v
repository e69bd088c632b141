(* Relative rounding errors in double precision: literals, products, quotients, square roots and Horner's rule. *)
From Coq Require Import List Arith ZArith QArith Qreals Bool Lia Reals Lra.
From Flocq Require Import Core Relative BinarySingleNaN.
From Verif Require Import Num PolySign Float64 FermiFloat.
Import ListNotations.
Local Open Scope R_scope.

(** ** Sizes *)
(* x is a number between 10^-k and 10^k *)
Definition sz (k : nat) (x : R) : Prop := / 10 ^ k <= Rabs x <= 10 ^ k.
Lemma p10 k : 0 < 10 ^ k. Proof. apply pow_lt. lra. Qed.
Lemma sz_pos k x : sz k x -> 0 < Rabs x.
Proof. intros [H _]. eapply Rlt_le_trans; [|exact H]. apply Rinv_0_lt_compat, p10. Qed.
Lemma sz_ne k x : sz k x -> x <> 0.
Proof. intros H E. apply sz_pos in H. rewrite E, Rabs_R0 in H. lra. Qed.
Lemma sz_le k k' x : (k <= k')%nat -> sz k x -> sz k' x.
Proof.
  intros L [A B]. assert (P : 10 ^ k <= 10 ^ k') by (apply Rle_pow; [lra|exact L]). split; [|lra].
  eapply Rle_trans; [|exact A]. apply Rinv_le_contravar; [apply p10|exact P].
Qed.
Lemma sz_mul j k x y : sz j x -> sz k y -> sz (j + k) (x * y).
Proof.
  intros [A B] [C D]. unfold sz. rewrite Rabs_mult, pow_add, Rinv_mult. pose proof (Rinv_0_lt_compat _ (p10 j)). pose proof (Rinv_0_lt_compat _ (p10 k)).
  pose proof (Rabs_pos x). pose proof (Rabs_pos y). split; apply Rmult_le_compat; lra.
Qed.
Lemma sz_inv k x : sz k x -> sz k (/ x).
Proof.
  intros H. pose proof (sz_pos _ _ H) as P. pose proof (sz_ne _ _ H) as N. destruct H as [A B]. unfold sz. rewrite Rabs_inv. split.
  - apply Rinv_le_contravar; auto.
  - rewrite <- (Rinv_inv (10 ^ k)). apply Rinv_le_contravar; [apply Rinv_0_lt_compat, p10|exact A].
Qed.
Lemma sz_div j k x y : sz j x -> sz k y -> sz (j + k) (x / y).
Proof. intros A B. apply sz_mul; [exact A|now apply sz_inv]. Qed.
Lemma sz_1 k : sz k 1.
Proof. pose proof (pow_R1_Rle 10 k ltac:(lra)). unfold sz. rewrite Rabs_R1. split; [|lra]. rewrite <- Rinv_1. apply Rinv_le_contravar; lra. Qed.
(* 10^301 is below 2^1000 and 10^-301 above the smallest normal number *)
Lemma ten301 : 10 ^ 301 <= bpow radix2 1000.
Proof. rewrite (pow_IZR 10), <- (IZR_Zpower radix2) by lia. apply IZR_le. vm_compute. discriminate. Qed.
Lemma norm301 : bpow radix2 (-1022) <= / 10 ^ 301.
Proof.
  change (-1022)%Z with (- (1022))%Z. rewrite bpow_opp. apply Rinv_le_contravar; [apply p10|].
  rewrite (pow_IZR 10), <- (IZR_Zpower radix2) by lia. apply IZR_le. vm_compute. discriminate.
Qed.

(** ** Rounding *)
Lemma uro_lt : 0 < uro < / 10 ^ 15.
Proof. split; [apply uro_pos|]. unfold uro. apply Rinv_lt_contravar; [apply Rmult_lt_0_compat; apply pow_lt; lra|lra]. Qed.
Lemma rnd_rel x : / 10 ^ 301 <= Rabs x -> Rabs (rnd x - x) <= uro * Rabs x.
Proof.
  intros H. rewrite rnd_FLT. pose proof (relative_error_N_FLT radix2 (-1074) 53 ltac:(lia) (fun x => negb (Z.even x)) x) as E.
  eapply Rle_trans; [apply E|].
  - eapply Rle_trans; [|exact H]. exact norm301.
  - apply Rmult_le_compat_r; [apply Rabs_pos|]. rewrite uro_bpow. change (- (53) + 1)%Z with (-53 + 1)%Z. rewrite bpow_plus_1. change (IZR radix2) with 2. lra.
Qed.
Lemma rnd_big x : Rabs x <= 10 ^ 301 -> Rabs (rnd x) < bpow radix2 1024.
Proof.
  intros H. apply Rle_lt_trans with (bpow radix2 1000); [|apply bpow_lt; lia].
  pose proof ten301 as T. apply Rabs_le. split.
  - replace (- bpow radix2 1000) with (rnd (- bpow radix2 1000)); [apply rnd_le; pose proof (Rle_abs (- x)); rewrite Rabs_Ropp in *; lra|].
    rewrite rnd_FLT, round_NE_opp, <- rnd_FLT, rnd_pow2 by lia. reflexivity.
  - rewrite <- (rnd_pow2 1000) by lia. apply rnd_le. pose proof (Rle_abs x). lra.
Qed.
Lemma rnd_abs x : Rabs (rnd x - x) <= uro * Rabs x + uflow.
Proof.
  destruct (rnd_err x) as (e & h & He & Hh & ->). replace (x * (1 + e) + h - x) with (e * x + h) by ring.
  eapply Rle_trans; [apply Rabs_triang|]. rewrite Rabs_mult. apply Rplus_le_compat; [|exact Hh]. apply Rmult_le_compat_r; [apply Rabs_pos|exact He].
Qed.
(* the operations do not overflow *)
Local Open Scope num_scope.
Lemma fadd_ok (x y : f64) : fin x -> fin y -> (Rabs (val x + val y) <= 10 ^ 301)%R -> fin (x + y) /\ val (x + y) = rnd (val x + val y)%R.
Proof.
  intros Hx Hy H. pose proof (Bplus_correct 53 1024 _ _ mode_NE x y Hx Hy) as C. apply rnd_big in H.
  rewrite Rlt_bool_true in C by exact H. destruct C as (C1 & C2 & _). split; [exact C2|exact C1].
Qed.
Lemma fmul_ok (x y : f64) : fin x -> fin y -> (Rabs (val x * val y) <= 10 ^ 301)%R -> fin (x * y) /\ val (x * y) = rnd (val x * val y)%R.
Proof.
  intros Hx Hy H. pose proof (Bmult_correct 53 1024 _ _ mode_NE x y) as C. apply rnd_big in H.
  rewrite Rlt_bool_true in C by exact H. destruct C as (C1 & C2 & _). unfold fin in *. cbn [nmul NumF]. rewrite C2, Hx, Hy. split; [reflexivity|exact C1].
Qed.
Lemma fdiv_ok (x y : f64) : fin x -> fin y -> val y <> 0%R -> (Rabs (val x / val y) <= 10 ^ 301)%R -> fin (x / y) /\ val (x / y) = rnd (val x / val y)%R.
Proof.
  intros Hx Hy N H. pose proof (Bdiv_correct 53 1024 _ _ mode_NE x y N) as C. apply rnd_big in H.
  rewrite Rlt_bool_true in C by exact H. destruct C as (C1 & C2 & _). unfold fin in *. cbn [ndiv NumF]. rewrite C2, Hx. split; [reflexivity|exact C1].
Qed.
(* numpy.sqrt *)
Definition fsqrt (x : f64) : f64 := Bsqrt mode_NE x.
Lemma fsqrt_ok (x : f64) : fin x -> (0 <= val x)%R -> fin (fsqrt x) /\ val (fsqrt x) = rnd (sqrt (val x)).
Proof.
  intros Hx P. destruct (Bsqrt_correct 53 1024 _ _ mode_NE x) as (C1 & C2 & _). split; [|exact C1].
  unfold fin, fsqrt. rewrite C2. destruct x as [s|s| |[|] m e B]; auto; try discriminate.
  exfalso. unfold val in P. cbn [B2R] in P. assert (F2R (Float radix2 (SpecFloat.cond_Zopp true (Zpos m)) e) < 0)%R by (apply F2R_lt_0; reflexivity). lra.
Qed.

(** ** Literals *)
Definition flit_pos (s : bool) (m d : positive) : f64 :=
  SF2B _ (proj1 (Bdiv_correct_aux 53 1024 prec_pos prec_emax mode_NE s m 0 false d 0)).
(* a decimal literal is the nearest double *)
Definition flit (q : Q) : f64 :=
  match Qnum q with Z0 => n0 | Zpos m => flit_pos false m (Qden q) | Zneg m => flit_pos true m (Qden q) end.
Local Open Scope R_scope.
Lemma flit_pos_ok s m d x : x = IZR (SpecFloat.cond_Zopp s (Zpos m)) / IZR (Zpos d) -> Rabs x <= 10 ^ 301 -> fin (flit_pos s m d) /\ val (flit_pos s m d) = rnd x.
Proof.
  intros -> H. unfold flit_pos, fin, val. set (A := Bdiv_correct_aux 53 1024 prec_pos prec_emax mode_NE s m 0 false d 0).
  rewrite B2R_SF2B, is_finite_SF2B. destruct A as [V C]. cbv zeta in C. clear V.
  assert (E : F2R (Float radix2 (SpecFloat.cond_Zopp s (Zpos m)) 0) / F2R (Float radix2 (SpecFloat.cond_Zopp false (Zpos d)) 0) = IZR (SpecFloat.cond_Zopp s (Zpos m)) / IZR (Zpos d)).
  { unfold F2R. cbn [Fnum Fexp bpow SpecFloat.cond_Zopp]. rewrite !Rmult_1_r. reflexivity. }
  rewrite E in C. rewrite Rlt_bool_true in C by (apply rnd_big; exact H). destruct C as (C1 & C2 & _). split; [exact C2|exact C1].
Qed.
Lemma flit_ok q : Rabs (Q2R q) <= 10 ^ 301 -> fin (flit q) /\ val (flit q) = rnd (Q2R q).
Proof.
  intros H. unfold flit. destruct q as [[|m|m] d]; cbn [Qnum Qden].
  - unfold Q2R. cbn [Qnum]. rewrite Rmult_0_l, rnd_0. split; reflexivity.
  - apply flit_pos_ok; [reflexivity|exact H].
  - apply flit_pos_ok; [reflexivity|exact H].
Qed.

(** ** Relative errors, in units of 2^-53 *)
Definition app (n : R) (a : f64) (x : R) : Prop := fin a /\ Rabs (val a - x) <= n * uro * Rabs x.
Lemma app_le n m a x : n <= m -> app n a x -> app m a x.
Proof. intros L [F H]. split; auto. eapply Rle_trans; [exact H|]. pose proof uro_pos. pose proof (Rabs_pos x). apply Rmult_le_compat_r; auto. apply Rmult_le_compat_r; lra. Qed.
Lemma app_refl a n : fin a -> 0 <= n -> app n a (val a).
Proof. intros F H. split; auto. unfold Rminus. rewrite Rplus_opp_r, Rabs_R0. apply Rmult_le_pos; [|apply Rabs_pos]. apply Rmult_le_pos; auto. apply Rlt_le, uro_pos. Qed.
Lemma app_val n a x : x <> 0 -> app n a x -> exists d, val a = x * (1 + d) /\ Rabs d <= n * uro.
Proof.
  intros N [_ H]. exists ((val a - x) / x). split; [field; auto|]. unfold Rdiv. rewrite Rabs_mult, Rabs_inv.
  apply Rabs_pos_lt in N. apply Rmult_le_reg_r with (Rabs x); auto. rewrite Rmult_assoc, Rinv_l by lra. lra.
Qed.
(* rounding a number close to x *)
Lemma app_rnd n a x t d : fin a -> val a = rnd t -> t = x * (1 + d) -> Rabs d <= n * uro -> 0 <= n <= 3000000 -> sz 300 x -> app (n + 1.01) a x.
Proof.
  intros F E -> Hd Hn S. split; auto. rewrite E. pose proof uro_lt as U. pose proof (sz_pos _ _ S) as P. destruct S as [S1 S2].
  assert (D : Rabs d <= / 10 ^ 8).
  { eapply Rle_trans; [exact Hd|]. apply Rle_trans with (3000000 * / 10 ^ 15); [apply Rmult_le_compat; lra|lra]. }
  assert (D2 : / 10 <= Rabs (1 + d) <= 1 + n * uro).
  { apply Rabs_le_inv in D. rewrite Rabs_pos_eq by lra. apply Rabs_le_inv in Hd. lra. }
  assert (R : Rabs (rnd (x * (1 + d)) - x * (1 + d)) <= uro * Rabs (x * (1 + d))).
  { apply rnd_rel. rewrite Rabs_mult. replace (/ 10 ^ 301) with (/ 10 ^ 300 * / 10) by (rewrite <- Rinv_mult; f_equal; rewrite <- (pow_1 10) at 2; rewrite <- pow_add; reflexivity).
    apply Rmult_le_compat; try lra. }
  replace (rnd (x * (1 + d)) - x) with (rnd (x * (1 + d)) - x * (1 + d) + x * d) by ring.
  eapply Rle_trans; [apply Rabs_triang|]. rewrite Rabs_mult in R. rewrite Rabs_mult.
  assert (Rabs x * Rabs d <= Rabs x * (n * uro)) by (apply Rmult_le_compat_l; lra).
  assert (uro * (Rabs x * Rabs (1 + d)) <= uro * (Rabs x * (1 + n * uro))) by (apply Rmult_le_compat_l; [lra|]; apply Rmult_le_compat_l; lra).
  assert (n * uro <= 0.01) by (apply Rle_trans with (3000000 * / 10 ^ 15); [apply Rmult_le_compat; lra|lra]).
  assert (uro * (Rabs x * (1 + n * uro)) <= uro * (Rabs x * 1.01)) by (apply Rmult_le_compat_l; [lra|]; apply Rmult_le_compat_l; lra).
  replace ((n + 1.01) * uro * Rabs x) with (uro * (Rabs x * 1.01) + Rabs x * (n * uro)) by lra. lra.
Qed.
Lemma app_big n x d : sz 300 x -> Rabs d <= n * uro -> n <= 3000000 -> Rabs (x * (1 + d)) <= 10 ^ 301.
Proof.
  intros [_ S] Hd Hn. pose proof uro_lt. rewrite Rabs_mult. replace (10 ^ 301) with (10 ^ 300 * 10) by (rewrite <- (pow_1 10) at 2; rewrite <- pow_add; reflexivity).
  apply Rmult_le_compat; try apply Rabs_pos; auto. assert (n * uro <= 3000000 * / 10 ^ 15).
  { destruct (Rle_lt_dec 0 n); [apply Rmult_le_compat; lra|]. assert (n * uro <= 0) by (pose proof (Rmult_le_compat_r uro n 0); lra). lra. }
  eapply Rle_trans; [apply Rabs_triang|]. rewrite Rabs_R1. lra.
Qed.
Local Ltac small n := assert (0 <= n * uro <= 1000000 * / 10 ^ 15) by (split; [apply Rmult_le_pos; lra|apply Rmult_le_compat; lra]).
Lemma app_mul n m a b x y : app n a x -> app m b y -> 0 <= n <= 1000000 -> 0 <= m <= 1000000 -> sz 300 (x * y) -> app (n + m + 1.03) (nmul a b) (x * y).
Proof.
  intros A B Hn Hm S. pose proof (sz_ne _ _ S) as N. assert (Nx : x <> 0) by (intros ->; apply N; ring). assert (Ny : y <> 0) by (intros ->; apply N; ring).
  destruct (app_val _ _ _ Nx A) as (d & Ea & Hd), (app_val _ _ _ Ny B) as (e & Eb & He). destruct A as [Fa _], B as [Fb _].
  pose proof uro_lt as U. small n. small m.
  assert (E : val a * val b = x * y * (1 + (d + e + d * e))) by (rewrite Ea, Eb; ring).
  assert (D : Rabs (d + e + d * e) <= (n + m + 0.02) * uro).
  { eapply Rle_trans; [apply Rabs_triang|]. rewrite Rabs_mult. pose proof (Rabs_triang d e). pose proof (Rabs_pos d). pose proof (Rabs_pos e).
    assert (Rabs d * Rabs e <= (n * uro) * (m * uro)) by (apply Rmult_le_compat; lra).
    assert ((n * uro) * (m * uro) <= 0.02 * uro); [|lra]. replace ((n * uro) * (m * uro)) with ((n * (m * uro)) * uro) by ring. apply Rmult_le_compat_r; [lra|].
    apply Rle_trans with (1000000 * (1000000 * / 10 ^ 15)); [apply Rmult_le_compat; lra|lra]. }
  destruct (fmul_ok a b Fa Fb) as [F V].
  { rewrite E. apply (app_big (n + m + 0.02)); auto. lra. }
  apply (app_le (n + m + 0.02 + 1.01)); [lra|]. eapply app_rnd; eauto. lra.
Qed.
Lemma app_div n m a b x y : app n a x -> app m b y -> 0 <= n <= 1000000 -> 0 <= m <= 1000000 -> sz 300 (x / y) -> app (n + m + 1.1) (ndiv a b) (x / y).
Proof.
  intros A B Hn Hm S. pose proof (sz_ne _ _ S) as N. assert (Nx : x <> 0) by (intros ->; apply N; unfold Rdiv; ring).
  assert (Ny : y <> 0) by (intros ->; apply N; unfold Rdiv; rewrite Rinv_0; ring).
  destruct (app_val _ _ _ Nx A) as (d & Ea & Hd), (app_val _ _ _ Ny B) as (e & Eb & He). destruct A as [Fa _], B as [Fb _].
  pose proof uro_lt as U. small n. small m. assert (E1 : Rabs e <= 1000000 * / 10 ^ 15) by lra. apply Rabs_le_inv in E1.
  assert (Nb : val b <> 0) by (rewrite Eb; apply Rmult_integral_contrapositive; split; auto; lra).
  assert (E : val a / val b = x / y * (1 + (d - e) / (1 + e))) by (rewrite Ea, Eb; field; repeat split; lra || auto).
  assert (D : Rabs ((d - e) / (1 + e)) <= (n + m + 0.09) * uro).
  { unfold Rdiv. rewrite Rabs_mult, Rabs_inv, (Rabs_pos_eq (1 + e)) by lra. apply Rmult_le_reg_r with (1 + e); [lra|].
    rewrite Rmult_assoc, Rinv_l, Rmult_1_r by lra.
    assert (Rabs (d - e) <= n * uro + m * uro) by (eapply Rle_trans; [apply Rabs_triang|]; rewrite Rabs_Ropp; lra).
    assert ((n + m + 0.09) * uro * - (1000000 * / 10 ^ 15) <= (n + m + 0.09) * uro * e) by (apply Rmult_le_compat_l; [apply Rmult_le_pos|]; lra).
    assert ((n + m + 0.09) * uro * (1000000 * / 10 ^ 15) <= 0.09 * uro); [|lra].
    replace ((n + m + 0.09) * uro * (1000000 * / 10 ^ 15)) with ((n + m + 0.09) * (1000000 * / 10 ^ 15) * uro) by ring. apply Rmult_le_compat_r; [lra|].
    apply Rle_trans with (2000001 * (1000000 * / 10 ^ 15)); [apply Rmult_le_compat_r; lra|lra]. }
  destruct (fdiv_ok a b Fa Fb Nb) as [F V].
  { rewrite E. apply (app_big (n + m + 0.09)); auto. lra. }
  apply (app_le (n + m + 0.09 + 1.01)); [lra|]. eapply app_rnd; eauto. lra.
Qed.
Lemma app_sqrt (a : f64) : fin a -> 0 <= val a -> sz 300 (sqrt (val a)) -> app 1.01 (fsqrt a) (sqrt (val a)).
Proof.
  intros F P S. destruct (fsqrt_ok a F P) as [G V]. apply (app_le (0 + 1.01)); [lra|]. apply (app_rnd 0 _ _ _ 0 G V); [ring|rewrite Rabs_R0; lra|lra|exact S].
Qed.

(** ** Horner's rule *)
(* the table of absolute values *)
Definition absQ (c : list Q) : list Q := map (fun q => Qmake (Z.abs (Qnum q)) (Qden q)) c.
Lemma absQ_R q : Q2R (Qmake (Z.abs (Qnum q)) (Qden q)) = Rabs (Q2R q).
Proof.
  unfold Q2R. cbn [Qnum Qden]. rewrite Rabs_mult, Rabs_inv, abs_IZR, <- (abs_IZR (Zpos (Qden q))). reflexivity.
Qed.
(* a coefficient is 0 or its size is between 10^-40 and 10^8 *)
Definition coef_ok (q : Q) : bool := ((Z.abs (Qnum q) <=? 10 ^ 8 * Zpos (Qden q)) && (Zpos (Qden q) <=? 10 ^ 40))%Z.
Lemma coef_flit q : coef_ok q = true -> fin (flit q) /\ Rabs (val (flit q) - Q2R q) <= uro * Rabs (Q2R q) /\ Rabs (Q2R q) <= 10 ^ 8.
Proof.
  unfold coef_ok. intros H. apply andb_true_iff in H. destruct H as [H1 H2]. apply Z.leb_le in H1, H2.
  assert (D : 0 < IZR (Zpos (Qden q))) by (apply IZR_lt; lia).
  assert (A : Rabs (Q2R q) = IZR (Z.abs (Qnum q)) / IZR (Zpos (Qden q))).
  { unfold Q2R. rewrite Rabs_mult, Rabs_inv, !abs_IZR, <- (abs_IZR (Zpos (Qden q))). reflexivity. }
  assert (B : Rabs (Q2R q) <= 10 ^ 8).
  { rewrite A. apply Rmult_le_reg_r with (IZR (Zpos (Qden q))); auto. unfold Rdiv. rewrite Rmult_assoc, Rinv_l, Rmult_1_r by lra.
    rewrite (pow_IZR 10), <- mult_IZR. apply IZR_le. exact H1. }
  destruct (flit_ok q) as [F V].
  { eapply Rle_trans; [exact B|]. apply Rle_pow; [lra|lia]. }
  split; [exact F|]. split; [|exact B]. rewrite V. destruct (Z.eq_dec (Qnum q) 0) as [Z0|NZ].
  - replace (Q2R q) with 0 by (unfold Q2R; rewrite Z0; ring). rewrite rnd_0, Rminus_0_r, Rabs_R0. lra.
  - apply rnd_rel. rewrite A. apply Rle_trans with (/ 10 ^ 40); [apply Rinv_le_contravar; [apply p10|apply Rle_pow; [lra|lia]]|].
    apply Rle_trans with (/ IZR (Zpos (Qden q))).
    + apply Rinv_le_contravar; auto. rewrite (pow_IZR 10). apply IZR_le. exact H2.
    + unfold Rdiv. rewrite <- (Rmult_1_l (/ _)) at 1. apply Rmult_le_compat_r; [apply Rlt_le, Rinv_0_lt_compat; auto|]. apply (IZR_le 1). lia.
Qed.

Section Horner.
Variables (z : R) (zf : f64) (n : R).
Hypotheses (Hz : 0 <= z <= 8) (Hn : 0 <= n <= 1000) (Az : app n zf z).
Let W := (1 + n * uro) * (1 + uro) ^ 2.
Lemma W_ge : 1 <= W <= 1.01.
Proof.
  pose proof uro_lt as U. assert (0 <= n * uro <= 1000 * / 10 ^ 15) by (split; [apply Rmult_le_pos; lra|apply Rmult_le_compat; lra]).
  unfold W. split; nra.
Qed.
Lemma fstep (pf : f64) (p P A B M q : R) (qf : f64) : fin pf -> Rabs (val pf - p) <= (A - 1) * P + B -> Rabs p <= P -> 1 <= A -> 0 <= B -> A * W <= 2 -> B <= 1 ->
  P <= M -> 10 ^ 8 <= M <= 10 ^ 40 -> fin qf -> Rabs (val qf - q) <= uro * Rabs q -> Rabs q <= 10 ^ 8 ->
  fin (nadd (nmul pf zf) qf) /\ Rabs (val (nadd (nmul pf zf) qf) - (p * z + q)) <= (A * W - 1) * (P * z + Rabs q) + (10 * B + 2 * uflow) /\
  Rabs (p * z + q) <= P * z + Rabs q /\ P * z + Rabs q <= 10 * M.
Proof.
  intros Fp Ep Hp HA HB HAW HB1 HM M8 Fq Eq Hq. pose proof uro_lt as U. pose proof W_ge as HW. destruct Az as [Fz Ez].
  assert (Hu : 0 < uflow <= 1).
  { split; [apply uflow_pos|]. unfold uflow. rewrite <- Rinv_1. apply Rinv_le_contravar; [lra|]. apply pow_R1_Rle. lra. }
  rewrite (Rabs_pos_eq z) in Ez by lra. assert (WE : W = (1 + n * uro) * (1 + uro) ^ 2) by reflexivity. clearbody W. set (e := n * uro) in *.
  assert (He : 0 <= e <= / 10 ^ 12).
  { split; [apply Rmult_le_pos; lra|]. apply Rle_trans with (1000 * / 10 ^ 15); [apply Rmult_le_compat; lra|lra]. }
  assert (HA2 : A <= 2) by nra. clearbody e.
  pose proof (Rabs_pos p) as P0. assert (PP : 0 <= P) by lra. pose proof (Rabs_pos q) as Q0.
  (* the product *)
  assert (Vp : Rabs (val pf) <= A * P + B).
  { replace (val pf) with (val pf - p + p) by ring. eapply Rle_trans; [apply Rabs_triang|]. lra. }
  assert (Vz : Rabs (val zf) <= (1 + e) * z).
  { replace (val zf) with (val zf - z + z) by ring. eapply Rle_trans; [apply Rabs_triang|]. rewrite (Rabs_pos_eq z) by lra. lra. }
  pose proof (Rabs_pos (val pf)) as V0. pose proof (Rabs_pos (val zf)) as V1.
  assert (Pr : Rabs (val pf * val zf) <= (A * P + B) * ((1 + e) * z)) by (rewrite Rabs_mult; apply Rmult_le_compat; auto).
  assert (D1 : Rabs (val pf * val zf - p * z) <= (A * (1 + e) - 1) * (P * z) + B * ((1 + e) * z)).
  { replace (val pf * val zf - p * z) with (val pf * (val zf - z) + (val pf - p) * z) by ring. eapply Rle_trans; [apply Rabs_triang|].
    rewrite !Rabs_mult, (Rabs_pos_eq z) by lra.
    assert (Rabs (val pf) * Rabs (val zf - z) <= (A * P + B) * (e * z)) by (apply Rmult_le_compat; auto using Rabs_pos).
    assert (Rabs (val pf - p) * z <= ((A - 1) * P + B) * z) by (apply Rmult_le_compat_r; lra). lra. }
  assert (AP : 0 <= A * P <= 2 * M) by (split; [apply Rmult_le_pos; lra|]; apply Rmult_le_compat; lra).
  assert (AB : 0 <= A * P + B <= 2 * M + 1) by lra.
  assert (EZ : 0 <= (1 + e) * z <= 9) by (split; [apply Rmult_le_pos; lra|]; apply Rle_trans with (1.1 * 8); [apply Rmult_le_compat; lra|lra]).
  assert (Pr2 : Rabs (val pf * val zf) <= 20 * M).
  { eapply Rle_trans; [exact Pr|]. apply Rle_trans with ((2 * M + 1) * 9); [apply Rmult_le_compat; lra|lra]. }
  assert (T : forall t, t <= 30 * M -> t <= 10 ^ 301).
  { intros t Ht. apply Rle_trans with (10 ^ 42); [lra|apply Rle_pow; [lra|lia]]. }
  destruct (fmul_ok pf zf Fp Fz ltac:(apply T; lra)) as [Fm Vm]. set (m := nmul pf zf) in *.
  pose proof (rnd_abs (val pf * val zf)) as Rm. rewrite <- Vm in Rm. set (t := val pf * val zf) in *. clearbody t m. clear Vm.
  assert (D2 : Rabs (val m - p * z) <= (A * (1 + e) * (1 + uro) - 1) * (P * z) + B * ((1 + e) * z) * (1 + uro) + uflow).
  { replace (val m - p * z) with (val m - t + (t - p * z)) by ring. eapply Rle_trans; [apply Rabs_triang|].
    assert (uro * Rabs t <= uro * ((A * P + B) * ((1 + e) * z))) by (apply Rmult_le_compat_l; lra). lra. }
  assert (Vm : Rabs (val m) <= 21 * M).
  { replace (val m) with (val m - t + t) by ring. eapply Rle_trans; [apply Rabs_triang|].
    assert (uro * Rabs t <= 0.01 * (20 * M)) by (apply Rmult_le_compat; try apply Rabs_pos; lra). lra. }
  (* the sum *)
  assert (D3 : Rabs (val m + val qf - (p * z + q)) <= (A * (1 + e) * (1 + uro) - 1) * (P * z) + B * ((1 + e) * z) * (1 + uro) + uflow + uro * Rabs q).
  { replace (val m + val qf - (p * z + q)) with (val m - p * z + (val qf - q)) by ring. eapply Rle_trans; [apply Rabs_triang|]. lra. }
  assert (Pz : Rabs (p * z + q) <= P * z + Rabs q).
  { eapply Rle_trans; [apply Rabs_triang|]. rewrite Rabs_mult, (Rabs_pos_eq z) by lra. apply Rplus_le_compat_r. apply Rmult_le_compat_r; lra. }
  assert (S3 : Rabs (val m + val qf) <= A * (1 + e) * (1 + uro) * (P * z) + B * ((1 + e) * z) * (1 + uro) + uflow + (1 + uro) * Rabs q).
  { replace (val m + val qf) with (val m + val qf - (p * z + q) + (p * z + q)) by ring. eapply Rle_trans; [apply Rabs_triang|]. lra. }
  assert (Vq : Rabs (val qf) <= 2 * 10 ^ 8).
  { replace (val qf) with (val qf - q + q) by ring. eapply Rle_trans; [apply Rabs_triang|].
    assert (uro * Rabs q <= 1 * 10 ^ 8) by (apply Rmult_le_compat; lra). lra. }
  assert (Sb : Rabs (val m + val qf) <= 30 * M) by (eapply Rle_trans; [apply Rabs_triang|]; lra).
  destruct (fadd_ok m qf Fm Fq ltac:(apply T; lra)) as [Fs Vs]. split; [exact Fs|].
  assert (Rs : Rabs (val (nadd m qf) - (val m + val qf)) <= uro * Rabs (val m + val qf)).
  { rewrite Vs. destruct (rnd_plus_err m qf) as (d & Hd & ->). replace ((val m + val qf) * (1 + d) - (val m + val qf)) with (d * (val m + val qf)) by ring.
    rewrite Rabs_mult. apply Rmult_le_compat_r; [apply Rabs_pos|exact Hd]. }
  set (s := val m + val qf) in *.
  split; [|split; [exact Pz|]].
  2:{ assert (P * z <= M * 8) by (apply Rmult_le_compat; lra). lra. }
  replace (val (nadd m qf) - (p * z + q)) with (val (nadd m qf) - s + (s - (p * z + q))) by ring. eapply Rle_trans; [apply Rabs_triang|].
  assert (X : uro * Rabs s <= uro * (A * (1 + e) * (1 + uro) * (P * z) + B * ((1 + e) * z) * (1 + uro) + uflow + (1 + uro) * Rabs q)) by (apply Rmult_le_compat_l; lra).
  assert (Y1 : (1 + uro) * (B * ((1 + e) * z) * (1 + uro)) <= 10 * B).
  { replace ((1 + uro) * (B * ((1 + e) * z) * (1 + uro))) with (B * (((1 + e) * z) * ((1 + uro) * (1 + uro)))) by ring.
    rewrite (Rmult_comm 10). apply Rmult_le_compat_l; auto. apply Rle_trans with (9 * 1.1); [|lra]. apply Rmult_le_compat; try lra; nra. }
  assert (Y2 : (1 + uro) * uflow <= 2 * uflow) by (apply Rmult_le_compat_r; lra).
  assert (Y3 : ((1 + uro) * (1 + uro) - 1) * Rabs q <= (A * W - 1) * Rabs q).
  { apply Rmult_le_compat_r; auto. rewrite WE. cbn [pow]. assert (A1 : 1 * 1 <= A * (1 + e)) by (apply Rmult_le_compat; lra).
    assert (U1 : 0 <= (1 + uro) * (1 + uro)) by (apply Rmult_le_pos; lra). pose proof (Rmult_le_compat_r _ _ _ U1 A1). lra. }
  replace ((A * W - 1) * (P * z + Rabs q)) with ((A * (1 + e) * (1 + uro) * (1 + uro) - 1) * (P * z) + (A * W - 1) * Rabs q) by (rewrite WE; ring).
  lra.
Qed.
Lemma fhorner_steps r : forall (pf : f64) (p P A B M : R), forallb coef_ok r = true ->
  fin pf -> Rabs (val pf - p) <= (A - 1) * P + B -> Rabs p <= P -> 1 <= A -> 0 <= B -> A * W ^ length r <= 2 -> (B + uflow) * 10 ^ length r <= 1 ->
  P <= M -> 10 ^ 8 <= M -> M * 10 ^ length r <= 10 ^ 40 ->
  let pf' := fold_left (fun p a => nadd (nmul p zf) a) (map flit r) pf in
  let p' := fold_left (fun p q => p * z + Q2R q) r p in
  let P' := fold_left (fun p q => p * z + Q2R q) (absQ r) P in
  fin pf' /\ Rabs (val pf' - p') <= (A * W ^ length r - 1) * P' + (B + uflow) * 10 ^ length r /\ Rabs p' <= P' /\ P' <= M * 10 ^ length r.
Proof.
  pose proof W_ge as HW. pose proof uflow_pos as U.
  induction r as [|q r IH]; intros pf p P A B M Hr Fp Ep Hp HA HB HAW HBU HM M8 MT; cbn [length map fold_left absQ pow] in *.
  - rewrite !Rmult_1_r in *. repeat split; auto. lra.
  - apply andb_true_iff in Hr. destruct Hr as [Hq Hr]. destruct (coef_flit q Hq) as (Fq & Eq & Bq).
    assert (W1 : 1 <= W ^ length r) by (apply pow_R1_Rle; lra). assert (T1 : 1 <= 10 ^ length r) by (apply pow_R1_Rle; lra).
    assert (AW : 1 <= A * W) by (replace 1 with (1 * 1) by ring; apply Rmult_le_compat; lra).
    assert (AW2 : A * W <= A * (W * W ^ length r)).
    { rewrite <- Rmult_assoc. rewrite <- (Rmult_1_r (A * W)) at 1. apply Rmult_le_compat_l; lra. }
    assert (BU : (B + uflow) * 10 <= (B + uflow) * (10 * 10 ^ length r)) by (apply Rmult_le_compat_l; lra).
    assert (MM : M * 10 <= M * (10 * 10 ^ length r)) by (apply Rmult_le_compat_l; lra).
    destruct (fstep pf p P A B M (Q2R q) (flit q)) as (Fs & Es & Hs & Ms); auto; try lra.
    rewrite absQ_R.
    destruct (IH (nadd (nmul pf zf) (flit q)) (p * z + Q2R q) (P * z + Rabs (Q2R q)) (A * W) (10 * B + 2 * uflow) (10 * M)) as (Fo & Eo & Ho & Mo); auto; try lra.
    + apply Rle_trans with ((B + uflow) * (10 * 10 ^ length r)); auto. rewrite <- Rmult_assoc. apply Rmult_le_compat_r; lra.
    + fold (absQ r). split; [exact Fo|]. split; [|split; [exact Ho|]].
      * eapply Rle_trans; [exact Eo|]. rewrite Rmult_assoc. apply Rplus_le_compat_l. rewrite <- Rmult_assoc. apply Rmult_le_compat_r; lra.
      * eapply Rle_trans; [exact Mo|]. lra.
Qed.
End Horner.

Lemma pow_1p m x : 0 <= x -> INR m * x <= 0.009 -> (1 + x) ^ m <= 1 + 1.01 * (INR m * x).
Proof.
  intros Hx. induction m as [|m IH]; intros H; [cbn; lra|]. rewrite S_INR in *. cbn [pow]. pose proof (pos_INR m) as Pm.
  assert (M : 0 <= INR m * x) by (apply Rmult_le_pos; lra). specialize (IH ltac:(lra)).
  assert ((1 + x) * (1 + x) ^ m <= (1 + x) * (1 + 1.01 * (INR m * x))) by (apply Rmult_le_compat_l; lra).
  assert (x * (INR m * x) <= x * 0.009) by (apply Rmult_le_compat_l; lra). lra.
Qed.
(* the value is at least 2/k of that with the absolute values of the coefficients, on [0, b]; its sign is s *)
Definition condQ (k : Z) (s : bool) (c : list Q) : list Q :=
  map (fun q => Qmake (k * SpecFloat.cond_Zopp s (Qnum q) - 2 * Z.abs (Qnum q)) (Qden q)) c.
Lemma condQ_val k s c z : hornerQ (condQ k s c) z = IZR k * (if s then - hornerQ c z else hornerQ c z) - 2 * hornerQ (absQ c) z.
Proof.
  unfold hornerQ, condQ, absQ.
  enough (E : forall x y w, w = IZR k * (if s then - x else x) - 2 * y ->
    fold_left (fun p q => p * z + Q2R q) (map (fun q => Qmake (k * SpecFloat.cond_Zopp s (Qnum q) - 2 * Z.abs (Qnum q)) (Qden q)) c) w =
    IZR k * (if s then - fold_left (fun p q => p * z + Q2R q) c x else fold_left (fun p q => p * z + Q2R q) c x) -
    2 * fold_left (fun p q => p * z + Q2R q) (map (fun q => Qmake (Z.abs (Qnum q)) (Qden q)) c) y) by (apply E; destruct s; ring).
  induction c as [|q c IH]; intros x y w Hw; cbn [map fold_left]; [exact Hw|]. apply IH. rewrite Hw. unfold Q2R. cbn [Qnum Qden].
  rewrite minus_IZR, !mult_IZR. destruct s; cbn [SpecFloat.cond_Zopp]; [rewrite opp_IZR|]; ring.
Qed.
Definition last_ok (c : list Q) : bool := (Zpos (Qden (last c 0%Q)) <=? 10 ^ 20 * Z.abs (Qnum (last c 0%Q)))%Z.
Definition cond_ok (k : Z) (s : bool) (fuel : nat) (c : list Q) (b : Q) : bool :=
  ((0 <? k) && (k <=? 10 ^ 5))%Z && forallb coef_ok c && last_ok c && (length c <=? 14)%nat && chk true fuel (condQ k s c) 0 b.
Lemma horner_abs_ge c z : 0 <= z -> last_ok c = true -> / 10 ^ 20 <= hornerQ (absQ c) z.
Proof.
  intros Hz L. unfold last_ok in L. apply Z.leb_le in L. destruct (exists_last (l := c)) as (r & q & ->).
  { intros ->. cbn in L. lia. }
  rewrite last_last in L. unfold hornerQ, absQ. rewrite map_app, fold_left_app. cbn [map fold_left]. rewrite absQ_R.
  assert (H : forall x, 0 <= x -> 0 <= fold_left (fun p q => p * z + Q2R q) (map (fun q => Qmake (Z.abs (Qnum q)) (Qden q)) r) x).
  { clear L. induction r as [|a r IH]; intros x Hx; cbn [map fold_left]; auto. apply IH. rewrite absQ_R. pose proof (Rabs_pos (Q2R a)).
    pose proof (Rmult_le_pos x z Hx Hz). lra. }
  specialize (H 0 (Rle_refl 0)). pose proof (Rmult_le_pos _ z H Hz). apply Rle_trans with (Rabs (Q2R q)); [|lra].
  assert (D : 0 < IZR (Zpos (Qden q))) by (apply IZR_lt; lia).
  rewrite <- absQ_R. unfold Q2R. cbn [Qnum Qden]. apply Rmult_le_reg_r with (IZR (Zpos (Qden q)) * 10 ^ 20); [apply Rmult_lt_0_compat; [auto|apply p10]|].
  replace (/ 10 ^ 20 * (IZR (Zpos (Qden q)) * 10 ^ 20)) with (IZR (Zpos (Qden q))) by (field; apply Rgt_not_eq, p10).
  replace (IZR (Z.abs (Qnum q)) * / IZR (Zpos (Qden q)) * (IZR (Zpos (Qden q)) * 10 ^ 20)) with (10 ^ 20 * IZR (Z.abs (Qnum q))) by (field; lra).
  rewrite (pow_IZR 10), <- mult_IZR. apply IZR_le. exact L.
Qed.
Lemma tiny : uflow * 10 ^ 13 <= 0.0001 * uro * / 10 ^ 30.
Proof.
  unfold uflow, uro. apply Rmult_le_reg_r with (2 ^ 1075); [apply pow_lt; lra|].
  replace (/ 2 ^ 1075 * 10 ^ 13 * 2 ^ 1075) with (10 ^ 13) by (field; apply pow_nonzero; lra).
  replace 1075%nat with (1022 + 53)%nat by reflexivity. rewrite pow_add.
  replace (0.0001 * / 2 ^ 53 * / 10 ^ 30 * (2 ^ 1022 * 2 ^ 53)) with (0.0001 * / 10 ^ 30 * 2 ^ 1022) by (field; split; apply pow_nonzero; lra).
  apply Rle_trans with (0.0001 * / 10 ^ 30 * 2 ^ 200); [lra|]. apply Rmult_le_compat_l; [lra|]. apply Rle_pow; [lra|lia].
Qed.
Lemma fhorner_app k s fuel c b z zf n : cond_ok k s fuel c b = true -> 0 <= z <= Q2R b -> Q2R b <= 8 -> 0 <= n <= 1000 -> app n zf z ->
  let N := IZR k / 2 * (1.01 * (INR (length c) * (n + 2.01))) + 0.001 in
  app N (khorner (map flit c) zf) (hornerQ c z) /\ sz 26 (hornerQ c z) /\ (if s then hornerQ c z < 0 else 0 < hornerQ c z).
Proof.
  intros C Hz Hb Hn Az N. unfold cond_ok in C. rewrite !andb_true_iff in C. destruct C as (((((K0 & K1) & Cc) & Cl) & Cn) & Ck).
  apply Z.ltb_lt, IZR_lt in K0. apply Z.leb_le, IZR_le in K1. change (10 ^ 5)%Z with 100000%Z in K1. apply Nat.leb_le in Cn.
  assert (S1 : Q2R 0 <= z <= Q2R b) by (replace (Q2R 0) with 0 by (unfold Q2R; cbn; lra); exact Hz). pose proof (chk_ok _ _ _ _ _ _ Ck S1) as Hc. cbn match in Hc. rewrite condQ_val in Hc.
  pose proof (horner_abs_ge c z (proj1 Hz) Cl) as HL. destruct c as [|c0 r]; [discriminate Cl|]. cbn [forallb] in Cc. apply andb_true_iff in Cc. destruct Cc as [C0 Cr].
  destruct (coef_flit c0 C0) as (F0 & E0 & B0). pose proof uro_lt as U. set (L := INR (length (c0 :: r))) in *.
  assert (HLn : 1 <= L <= 14).
  { unfold L. split; [apply (le_INR 1); cbn; lia|]. replace 14 with (INR 14) by (cbn; lra). now apply le_INR. }
  set (W := (1 + n * uro) * (1 + uro) ^ 2) in *.
  assert (nu : 0 <= n * uro <= 1000 * / 10 ^ 15) by (split; [apply Rmult_le_pos; lra|apply Rmult_le_compat; lra]).
  assert (HW1 : 1 + uro <= W).
  { unfold W. replace (1 + uro) with (1 * (1 + uro)) at 1 by ring. apply Rmult_le_compat; try lra. cbn [pow]. nra. }
  assert (HW2 : W <= 1 + (n + 2.01) * uro).
  { unfold W. replace ((1 + n * uro) * (1 + uro) ^ 2) with (1 + n * uro + 2 * uro + uro * (uro * (1 + n * uro) + 2 * (n * uro))) by ring.
    assert (uro * (1 + n * uro) <= 0.001 * 2) by (apply Rmult_le_compat; lra).
    assert (uro * (uro * (1 + n * uro) + 2 * (n * uro)) <= uro * 0.01) by (apply Rmult_le_compat_l; lra). lra. }
  assert (WL : W ^ length (c0 :: r) <= 1 + 1.01 * (L * ((n + 2.01) * uro))).
  { eapply Rle_trans; [apply pow_incr; split; [lra|exact HW2]|]. apply pow_1p; [apply Rmult_le_pos; lra|]. fold L.
    apply Rle_trans with (14 * (1003 * / 10 ^ 15)); [|lra]. apply Rmult_le_compat; [lra|apply Rmult_le_pos; lra|lra|apply Rmult_le_compat; lra]. }
  assert (WS : L * ((n + 2.01) * uro) <= 0.01).
  { apply Rle_trans with (14 * (1003 * / 10 ^ 15)); [|lra]. apply Rmult_le_compat; [lra|apply Rmult_le_pos; lra|lra|apply Rmult_le_compat; lra]. }
  assert (T13 : 10 ^ length r <= 10 ^ 13) by (apply Rle_pow; [lra|cbn in Cn; lia]).
  pose proof tiny as Ty. pose proof uflow_pos as Uf. pose proof (p10 (length r)) as Tr.
  assert (G1 : Rabs (val (flit c0) - Q2R c0) <= (W - 1) * Rabs (Q2R c0) + 0).
  { rewrite Rplus_0_r. eapply Rle_trans; [exact E0|]. apply Rmult_le_compat_r; [apply Rabs_pos|lra]. }
  assert (G2 : W * W ^ length r <= 2) by (change (W * W ^ length r) with (W ^ length (c0 :: r)); lra).
  assert (G3 : (0 + uflow) * 10 ^ length r <= 1).
  { rewrite Rplus_0_l. apply Rle_trans with (uflow * 10 ^ 13); [apply Rmult_le_compat_l; lra|lra]. }
  assert (G4 : 10 ^ 8 * 10 ^ length r <= 10 ^ 40).
  { apply Rle_trans with (10 ^ 8 * 10 ^ 13); [apply Rmult_le_compat_l; lra|]. rewrite <- pow_add. apply Rle_pow; [lra|lia]. }
  destruct (fhorner_steps z zf n ltac:(lra) Hn Az r (flit c0) (Q2R c0) (Rabs (Q2R c0)) W 0 (10 ^ 8) Cr F0 G1 (Rle_refl _) ltac:(lra) (Rle_refl _) G2 G3 B0 (Rle_refl _) G4) as (Fp & Ep & Hp & Hm).
  clear G1 G2 G3 G4. change ((1 + n * uro) * (1 + uro) ^ 2) with W in Ep.
    assert (P' : hornerQ (absQ (c0 :: r)) z = fold_left (fun p q => p * z + Q2R q) (absQ r) (Rabs (Q2R c0))).
    { unfold hornerQ, absQ. cbn [map fold_left]. rewrite absQ_R, Rmult_0_l, Rplus_0_l. reflexivity. }
    assert (p' : hornerQ (c0 :: r) z = fold_left (fun p q => p * z + Q2R q) r (Q2R c0)).
    { unfold hornerQ. cbn [fold_left]. rewrite Rmult_0_l, Rplus_0_l. reflexivity. }
    rewrite <- P', <- p' in *. clear P' p'. unfold khorner. cbn [map]. set (pf := fold_left _ (map flit r) (flit c0)) in *.
    set (p := hornerQ (c0 :: r) z) in *. set (P := hornerQ (absQ (c0 :: r)) z) in *. rewrite Rplus_0_l in Ep.
    change (W * W ^ length r) with (W ^ length (c0 :: r)) in Ep. set (WW := W ^ length (c0 :: r)) in *.
    assert (KP : 2 * P <= IZR k * Rabs p /\ (if s then p < 0 else 0 < p)).
    { assert (0 < P) by (pose proof (Rinv_0_lt_compat _ (p10 20)); lra). destruct s.
      - assert (0 < - p) by (apply Rmult_lt_reg_l with (IZR k); lra). rewrite Rabs_left by lra. lra.
      - assert (0 < p) by (apply Rmult_lt_reg_l with (IZR k); lra). rewrite Rabs_right by lra. lra. }
    destruct KP as [KP Sg]. clearbody pf p P WW. clear Cr C0 F0 E0 B0 Az Ck S1 Cl Hc.
    assert (Lo : / 10 ^ 25 <= Rabs p).
    { apply Rmult_le_reg_l with 100000; [lra|]. apply Rle_trans with (2 * P); [lra|]. eapply Rle_trans; [exact KP|]. apply Rmult_le_compat_r; [apply Rabs_pos|lra]. }
    split; [|split; [|exact Sg]].
    + split; [exact Fp|]. eapply Rle_trans; [exact Ep|].
      assert (WW1 : WW - 1 <= 1.01 * (L * ((n + 2.01) * uro))) by lra.
      assert (X1 : (WW - 1) * P <= 1.01 * (L * ((n + 2.01) * uro)) * (IZR k / 2 * Rabs p)).
      { destruct (Rle_lt_dec 0 (WW - 1)).
        - apply Rmult_le_compat; try lra.
        - assert (0 < P) by (pose proof (Rinv_0_lt_compat _ (p10 20)); lra). apply Rle_trans with 0; [apply Rlt_le; nra|].
          apply Rmult_le_pos; [|apply Rmult_le_pos; [lra|apply Rabs_pos]]. apply Rmult_le_pos; [lra|]. apply Rmult_le_pos; [lra|]. apply Rmult_le_pos; lra. }
      assert (X2 : uflow * 10 ^ length r <= 0.001 * uro * Rabs p).
      { apply Rle_trans with (uflow * 10 ^ 13); [apply Rmult_le_compat_l; lra|]. eapply Rle_trans; [exact Ty|]. apply Rmult_le_compat; try lra. }
      unfold N. lra.
    + unfold sz. split; [lra|]. eapply Rle_trans; [exact Hp|]. eapply Rle_trans; [exact Hm|]. apply Rle_trans with (10 ^ 8 * 10 ^ 13); [apply Rmult_le_compat_l; lra|lra].
Qed.
