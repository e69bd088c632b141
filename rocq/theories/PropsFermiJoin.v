(* C90: the two branches of each function agree where they meet, and the functions
   have the right limits at both ends of the line. *)
From Coq Require Import List Arith ZArith QArith Qreals Bool Lia Reals Lra.
From Verif Require Import Num PyBase NdArray RSum PolySign PolyDer Fermi FermiProofs PropsFermi PropsFermiDer.
Import ListNotations.
Open Scope R_scope.

(** ** The integrals at 2 *)
Lemma sqrt2_range : 1414213562373095048 / 10 ^ 18 <= sqrt 2 <= 1414213562373095049 / 10 ^ 18.
Proof.
  split.
  - rewrite <- (sqrt_Rsqr (1414213562373095048 / 10 ^ 18)) by lra. apply sqrt_le_1_alt. unfold Rsqr. lra.
  - rewrite <- (sqrt_Rsqr (1414213562373095049 / 10 ^ 18)) by lra. apply sqrt_le_1_alt. unfold Rsqr. lra.
Qed.
(* L / R is the lower branch divided by the upper one, times sqrt 2 *)
Definition join_check (k : nat) (e N : Z) (an ad bn bd : list Q) : bool :=
  let p := intable an in let q := intable ad in let pb := intable bn in let qb := intable bd in
  let A := (2 ^ Z.of_nat k * evZ 1 4 pb * common bd * 4 ^ Z.of_nat (length qb))%Z in
  let B := (common bn * 4 ^ Z.of_nat (length pb) * evZ 1 4 qb)%Z in
  let s := Z.sgn B in
  let L := pscale (10 ^ 18 * s * common ad * B) (0%Z :: p) in
  let R := pscale (s * common an * A) q in
  (negb (B =? 0)%Z) && pos_on 3 R (8319337573440941 # 1125899906842624) (8319337573440942 # 1125899906842624) &&
  pos_on 3 (padd (pscale ((N + e) * 1414213562373095048) R) (pscale (- N) L)) (8319337573440941 # 1125899906842624) (8319337573440942 # 1125899906842624) &&
  pos_on 3 (padd (pscale N L) (pscale ((e - N) * 1414213562373095049) R)) (8319337573440941 # 1125899906842624) (8319337573440942 # 1125899906842624).
Lemma join k e N an ad bn bd : (0 < N)%Z -> (0 < e)%Z -> (e < N)%Z ->
  intable_ok an = true -> intable_ok ad = true -> intable_ok bn = true -> intable_ok bd = true ->
  0 < hornerQ ad (exp 2) -> 0 < hi_fun k bn bd 2 ->
  join_check k e N an ad bn bd = true ->
  Rabs (lo_fun an ad 2 - hi_fun k bn bd 2) <= IZR e / IZR N * hi_fun k bn bd 2.
Proof.
  intros HN He HeN I1 I2 I3 I4 Q0 H0 H. unfold join_check in H. cbv zeta in H.
  set (p := intable an) in *. set (q := intable ad) in *. set (pb := intable bn) in *. set (qb := intable bd) in *.
  set (A := (2 ^ Z.of_nat k * evZ 1 4 pb * common bd * 4 ^ Z.of_nat (length qb))%Z) in *.
  set (B := (common bn * 4 ^ Z.of_nat (length pb) * evZ 1 4 qb)%Z) in *.
  set (s := Z.sgn B) in *.
  apply andb_true_iff in H. destruct H as [H H3]. apply andb_true_iff in H. destruct H as [H H2].
  apply andb_true_iff in H. destruct H as [HB H1].
  assert (Z2 : Q2R (8319337573440941 # 1125899906842624) <= exp 2 <= Q2R (8319337573440942 # 1125899906842624)).
  { pose proof exp2_range. unfold Q2R. cbn [Qnum Qden]. lra. }
  pose proof (pos_on_ok _ _ _ _ _ H1 Z2) as P1. pose proof (pos_on_ok _ _ _ _ _ H2 Z2) as P2.
  pose proof (pos_on_ok _ _ _ _ _ H3 Z2) as P3. set (z := exp 2) in *. assert (Hz : 0 < z) by apply exp_pos.
  rewrite !ev_padd, !ev_pscale in P2, P3. rewrite ev_pscale in P1. cbn [ev] in P2, P3.
  pose proof (common_pos an) as Da. pose proof (common_pos ad) as Db.
  pose proof (common_pos bn) as Dc. pose proof (common_pos bd) as Dd.
  assert (EA : IZR A = 2 ^ k * (4 ^ length pb * ev pb (1 / 4)) * IZR (common bd) * 4 ^ length qb).
  { unfold A. rewrite !mult_IZR, <- !pow_IZR, evZ_ok by lia. reflexivity. }
  assert (EB : IZR B = IZR (common bn) * 4 ^ length pb * (4 ^ length qb * ev qb (1 / 4))).
  { unfold B. rewrite !mult_IZR, <- !pow_IZR, evZ_ok by lia. reflexivity. }
  assert (B0 : IZR B <> 0).
  { intros E. apply eq_IZR in E. rewrite E in HB. discriminate. }
  set (r2 := sqrt 2) in *. pose proof sqrt2_range as [S1 S2]. fold r2 in S1, S2.
  assert (W1 : 0 < 4 ^ length pb) by (apply pow_lt; lra). assert (W2 : 0 < 4 ^ length qb) by (apply pow_lt; lra).
  assert (qb0 : ev qb (1 / 4) <> 0).
  { intros E. apply B0. rewrite EB, E. ring. }
  assert (EH : hi_fun k bn bd 2 = r2 * (IZR A / IZR B)).
  { unfold hi_fun. replace (1 / (2 * 2)) with (1 / 4) by field. rewrite !hornerQ_ev by auto. fold pb qb r2.
    rewrite EA, EB. field. repeat split; auto; lra. }
  assert (q0 : 0 < ev q z).
  { rewrite hornerQ_ev in Q0 by auto. fold q in Q0. apply Rmult_lt_reg_r with (/ IZR (common ad)); [now apply Rinv_0_lt_compat|].
    rewrite Rmult_0_l. exact Q0. }
  set (lo := lo_fun an ad 2).
  assert (EL : lo * (IZR (common an) * ev q z) = IZR (common ad) * (z * ev p z)).
  { unfold lo, lo_fun. fold z. rewrite !hornerQ_ev by auto. fold p q. field. repeat split; lra. }
  set (hi := hi_fun k bn bd 2) in *.
  (* R = s A DP q > 0 *)
  set (RR := IZR (s * common an * A) * ev q z) in *.
  set (LL := IZR (10 ^ 18 * s * common ad * B) * (0 + z * ev p z)) in *.
  assert (ELR : hi * LL = lo * (10 ^ 18 * r2 * RR)).
  { unfold LL, RR. rewrite EH, !mult_IZR. change (IZR (10 ^ 18)) with (IZR (10 ^ Z.of_nat 18)). rewrite <- (pow_IZR 10 18).
    transitivity (r2 * IZR A * 10 ^ 18 * IZR s * (IZR (common ad) * (z * ev p z))); [field; auto|]. rewrite <- EL. ring. }
  rewrite mult_IZR, opp_IZR, plus_IZR in P2. rewrite mult_IZR, minus_IZR in P3.
  clearbody LL RR lo hi r2. clear - ELR P1 P2 P3 HN He HeN S1 S2 H0.
  apply IZR_lt in HN. apply IZR_lt in He. apply IZR_lt in HeN. set (n := IZR N) in *. set (ee := IZR e) in *.
  assert (R2 : 0 < r2) by lra.
  assert (D : 0 < 10 ^ 18 * r2 * RR) by (apply Rmult_lt_0_compat; auto; lra).
  (* n LL < (n + ee) 10^18 r2 RR,  n LL > (n - ee) 10^18 r2 RR *)
  assert (U : n * LL < (n + ee) * (10 ^ 18 * r2 * RR)).
  { apply Rlt_le_trans with ((n + ee) * 1414213562373095048 * RR); [lra|].
    rewrite Rmult_assoc. apply Rmult_le_compat_l; [lra|]. apply Rmult_le_compat_r; lra. }
  assert (V : (n - ee) * (10 ^ 18 * r2 * RR) < n * LL).
  { apply Rle_lt_trans with ((n - ee) * (1414213562373095049 * RR)); [|lra].
    apply Rmult_le_compat_l; [lra|]. apply Rmult_le_compat_r; lra. }
  apply (close_ratio lo hi LL (10 ^ 18 * r2 * RR)); auto.
  apply Rabs_def1.
  - apply Rmult_lt_reg_l with n; auto. replace (n * (ee / n * (10 ^ 18 * r2 * RR))) with (ee * (10 ^ 18 * r2 * RR)) by (field; lra). lra.
  - apply Rmult_lt_reg_l with n; auto. replace (n * - (ee / n * (10 ^ 18 * r2 * RR))) with (- (ee * (10 ^ 18 * r2 * RR))) by (field; lra). lra.
Qed.

(** ** From 8 on: the expansion of Sommerfeld *)
Definition pi2n : Z := 9869604401089358.
Lemma PI2_range : Rabs (PI * PI - IZR pi2n / 10 ^ 15) <= 1 / 10 ^ 14.
Proof. pose proof PI_range. unfold pi2n. apply Rabs_le. split; nra. Qed.
Definition som_D : Z := (5760 * 10 ^ 30)%Z.
Definition som_S (k : Z) : list Z :=
  [som_D; 240 * (2 * k - 1) * (2 * k + 1) * pi2n * 10 ^ 15; 7 * (2 * k + 1) * (2 * k - 1) * (2 * k - 3) * (2 * k - 5) * pi2n * pi2n]%Z.
Definition som_tol : list Z := [99 * 5760 * 10 ^ 16; 0; 0; 60 * som_D]%Z.
Definition som_check (s : Z) (k : Z) (bn bd : list Q) : bool :=
  let p := intable bn in let q := intable bd in
  let d := padd (pscale ((2 * k + 1) * common bd * som_D) p) (pscale (- (2 * common bn)) (pmul (som_S k) q)) in
  let t := pscale (2 * common bn) (pmul som_tol q) in
  pos_on 10 (pscale s q) 0 (1 # 64) &&
  pos_on 10 (pscale s (padd t d)) 0 (1 # 64) && pos_on 10 (pscale s (padd t (pscale (-1) d))) 0 (1 # 64).
Definition som_value (j u : R) : R :=
  1 + PI ^ 2 / 6 * (j * (j + 1)) * u + 7 * PI ^ 4 / 360 * ((j + 1) * j * (j - 1) * (j - 2)) * u ^ 2.
Lemma som_S_ev k u : (0 <= k <= 3)%Z -> 0 <= u <= 1 / 64 ->
  Rabs (som_value (IZR k - 1 / 2) u - ev (som_S k) u / IZR som_D) <= 1 / 10 ^ 14.
Proof.
  intros Hk Hu. unfold som_value.
  pose proof PI2_range as H. set (t := PI * PI) in *. replace (PI ^ 2) with t by (unfold t; ring).
  replace (PI ^ 4) with (t * t) by (unfold t; ring). clearbody t.
  set (T := IZR pi2n / 10 ^ 15) in *. assert (HT : 9 <= T <= 10) by (unfold T, pi2n; lra).
  assert (E : ev (som_S k) u / IZR som_D = 1 + T / 6 * ((IZR k - 1 / 2) * (IZR k - 1 / 2 + 1)) * u +
     7 * (T * T) / 360 * ((IZR k - 1 / 2 + 1) * (IZR k - 1 / 2) * (IZR k - 1 / 2 - 1) * (IZR k - 1 / 2 - 2)) * (u * u)).
  { unfold som_S. cbn [ev]. rewrite !mult_IZR, !plus_IZR, !minus_IZR, !mult_IZR.
    change (IZR som_D) with (5760 * 10 ^ 30)%R || (assert (ED : IZR som_D = 5760 * 10 ^ 30) by (unfold som_D; rewrite mult_IZR; change (IZR (10 ^ 30)) with (IZR (10 ^ Z.of_nat 30)); rewrite <- pow_IZR; reflexivity); rewrite ED).
    change (IZR (10 ^ 15)) with (IZR (10 ^ Z.of_nat 15)). rewrite <- pow_IZR. unfold T. field. }
  rewrite E. clear E. clearbody T.
  set (d := t - T) in *. replace t with (T + d) by (unfold d; ring). clearbody d.
  assert (Hd : - (1 / 10 ^ 14) <= d <= 1 / 10 ^ 14) by (unfold Rabs in H; destruct (Rcase_abs d); lra). clear H.
  assert (C : k = 0%Z \/ k = 1%Z \/ k = 2%Z \/ k = 3%Z) by lia.
  assert (Hud : Rabs (u * d) <= 1 / 64 * (1 / 10 ^ 14)).
  { rewrite Rabs_mult. apply Rmult_le_compat; try apply Rabs_pos; apply Rabs_le; lra. }
  assert (Hw : Rabs ((2 * T + d) * u) <= 1).
  { rewrite Rabs_mult. apply Rle_trans with (21 * (1 / 64)); [|lra].
    apply Rmult_le_compat; try apply Rabs_pos; apply Rabs_le; lra. }
  set (a := (IZR k - 1 / 2) * (IZR k - 1 / 2 + 1)). set (b := (IZR k - 1 / 2 + 1) * (IZR k - 1 / 2) * (IZR k - 1 / 2 - 1) * (IZR k - 1 / 2 - 2)).
  assert (Ha : Rabs a <= 9) by (unfold a; apply Rabs_le; destruct C as [-> | [-> | [-> | ->]]]; lra).
  assert (Hb : Rabs b <= 7) by (unfold b; apply Rabs_le; destruct C as [-> | [-> | [-> | ->]]]; lra).
  match goal with |- Rabs ?X <= _ =>
    replace X with ((u * d) * (a / 6 + 7 / 360 * b * ((2 * T + d) * u))) by (unfold a, b; field) end.
  rewrite Rabs_mult. apply Rle_trans with (1 / 64 * (1 / 10 ^ 14) * 2); [|lra].
  apply Rmult_le_compat; try apply Rabs_pos; auto.
  eapply Rle_trans; [apply Rabs_triang|]. unfold Rdiv at 1. rewrite !Rabs_mult in *. rewrite (Rabs_right (/ 6)) by lra.
  rewrite (Rabs_right (7 / 360)) by lra.
  assert (Rabs b * (Rabs (2 * T + d) * Rabs u) <= 7 * 1).
  { apply Rmult_le_compat; auto using Rabs_pos. rewrite <- Rabs_mult. apply Rabs_pos. }
  lra.
Qed.
Definition sommerfeld (g : R -> R) (j : R) : Prop :=
  forall x, 8 <= x ->
    let lead := Rpower x (j + 1) / (j + 1) in
    Rabs (g x - lead * (1 + PI ^ 2 / 6 * (j * (j + 1)) / x ^ 2 + 7 * PI ^ 4 / 360 * ((j + 1) * j * (j - 1) * (j - 2)) / x ^ 4))
      <= lead * (60 / x ^ 6 + 1 / 10 ^ 12).
Lemma som_ok s k an ad bn bd : (k <= 3)%nat -> (s = 1)%Z \/ (s = -1)%Z ->
  intable_ok bn = true -> intable_ok bd = true -> som_check s (Z.of_nat k) bn bd = true ->
  sommerfeld (fd_fun k an ad bn bd) (INR k - 1 / 2).
Proof.
  intros Hk Hs I1 I2 H x Hx. unfold som_check in H. cbv zeta in H.
  apply andb_true_iff in H. destruct H as [H H3]. apply andb_true_iff in H. destruct H as [H1 H2].
  set (u := 1 / (x * x)). assert (X2 : 64 <= x * x) by nra.
  assert (U : 0 <= u <= 1 / 64).
  { unfold u. split; [apply Rlt_le, Rdiv_lt_0_compat; lra|]. apply Rmult_le_reg_r with (x * x); [lra|].
    unfold Rdiv. rewrite Rmult_assoc, Rinv_l by lra. lra. }
  assert (U' : Q2R 0 <= u <= Q2R (1 # 64)) by (unfold Q2R; cbn [Qnum Qden]; lra).
  pose proof (pos_on_ok _ _ _ _ _ H1 U') as P1. pose proof (pos_on_ok _ _ _ _ _ H2 U') as P2.
  pose proof (pos_on_ok _ _ _ _ _ H3 U') as P3. clear H1 H2 H3.
  repeat first [rewrite ev_pscale in P1 | rewrite ev_padd in P2 | rewrite ev_pscale in P2 | rewrite ev_pmul in P2
    | rewrite ev_padd in P3 | rewrite ev_pscale in P3 | rewrite ev_pmul in P3].
  pose proof (som_S_ev (Z.of_nat k) u ltac:(lia) U) as SS. rewrite <- INR_IZR_INZ in SS.
  intros lead. unfold fd_fun. destruct (Rlt_dec x 2); [lra|].
  pose proof (common_pos bn) as Dn. pose proof (common_pos bd) as Dd.
  set (p := ev (intable bn) u) in *. set (q := ev (intable bd) u) in *.
  rewrite opp_IZR, !mult_IZR, plus_IZR, mult_IZR, <- INR_IZR_INZ in P2, P3.
  set (S := ev (som_S (Z.of_nat k)) u) in *.
  assert (ET : ev som_tol u = IZR som_D * (99 / 10 ^ 14 + 60 * u ^ 3)).
  { unfold som_tol. cbn [ev]. rewrite !mult_IZR.
    assert (ED : IZR som_D = 5760 * 10 ^ 30) by (unfold som_D; rewrite mult_IZR; change (IZR (10 ^ 30)) with (IZR (10 ^ Z.of_nat 30)); rewrite <- pow_IZR; reflexivity).
    rewrite ED. change (IZR (10 ^ 16)) with (IZR (10 ^ Z.of_nat 16)). rewrite <- pow_IZR. field. }
  rewrite ET in P2, P3.
  assert (D0 : 0 < IZR som_D) by (apply IZR_lt; reflexivity). set (D := IZR som_D) in *.
  set (tol := 99 / 10 ^ 14 + 60 * u ^ 3) in *.
  assert (q0 : q <> 0) by (intros E; rewrite E in P1; lra).
  assert (K0 : 0 <= INR k) by apply pos_INR.
  set (v := (INR k + 1 / 2) * (p / IZR (common bn) / (q / IZR (common bd)))).
  assert (V : Rabs (v - S / D) < tol).
  { assert (Q : 0 < IZR s * q * (2 * IZR (common bn) * D)) by (apply Rmult_lt_0_compat; auto; apply Rmult_lt_0_compat; lra).
    assert (EV : (v - S / D) * (IZR s * q * (2 * IZR (common bn) * D)) =
       IZR s * ((2 * INR k + 1) * IZR (common bd) * D * p - 2 * IZR (common bn) * (S * q))).
    { unfold v. field. repeat split; auto; lra. }
    apply Rabs_def1; apply Rmult_lt_reg_r with (IZR s * q * (2 * IZR (common bn) * D)); auto; rewrite EV; lra. }
  assert (G : hi_fun k bn bd x = lead * v).
  { unfold hi_fun, lead, v. fold u. rewrite !hornerQ_ev by auto. fold p q.
    replace (INR k - 1 / 2 + 1) with (/ 2 + INR k) by field. rewrite <- sqrt_pow by lra. field. repeat split; auto; lra. }
  assert (L0 : 0 < lead).
  { unfold lead. apply Rdiv_lt_0_compat; [apply exp_pos|lra]. }
  assert (ES : 1 + PI ^ 2 / 6 * ((INR k - 1 / 2) * (INR k - 1 / 2 + 1)) / x ^ 2 + 7 * PI ^ 4 / 360 * ((INR k - 1 / 2 + 1) * (INR k - 1 / 2) * (INR k - 1 / 2 - 1) * (INR k - 1 / 2 - 2)) / x ^ 4
     = som_value (INR k - 1 / 2) u).
  { unfold som_value, u. field. lra. }
  rewrite ES, G. replace (60 / x ^ 6 + 1 / 10 ^ 12) with (1 / 10 ^ 14 + tol) by (unfold tol, u; field; lra).
  replace (lead * v - lead * som_value (INR k - 1 / 2) u) with (lead * (v - som_value (INR k - 1 / 2) u)) by ring.
  rewrite Rabs_mult, (Rabs_right lead) by lra. apply Rmult_le_compat_l; [lra|].
  replace (v - som_value (INR k - 1 / 2) u) with ((v - S / D) - (som_value (INR k - 1 / 2) u - S / D)) by ring.
  eapply Rle_trans; [apply Rabs_triang|]. rewrite Rabs_Ropp. lra.
Qed.

(** ** The inverses at 4 *)
Definition ilo (an ad : list Q) (x : R) : R := ln (x * hornerQ an x / hornerQ ad x).
Definition ihi (m : nat) (bn bd : list Q) (x : R) : R :=
  let z := Rpower x (- 2 / INR m) in hornerQ bn z / (z * hornerQ bd z).
Definition ifd_fun (m : nat) (an ad bn bd : list Q) (x : R) : R :=
  if Rlt_dec x 4 then ilo an ad x else ihi m bn bd x.
(* z = 16^(-1/m) *)
Lemma z4_range m (a b : Q) : (0 < m)%nat -> 0 < Q2R a -> 0 < Q2R b -> Q2R a ^ m <= 1 / 16 -> 1 / 16 <= Q2R b ^ m ->
  Q2R a <= Rpower 4 (- 2 / INR m) <= Q2R b.
Proof.
  intros Hm Ha Hb La Lb. set (z := Rpower 4 (- 2 / INR m)). assert (Hz : 0 < z) by apply exp_pos.
  assert (E : z ^ m = 1 / 16).
  { rewrite <- Rpower_pow by auto. unfold z. rewrite Rpower_mult.
    replace (- 2 / INR m * INR m) with (- 2) by (field; apply not_0_INR; lia).
    rewrite <- inv_sq by lra. field. }
  assert (M : forall s t, 0 < s -> s < t -> s ^ m < t ^ m).
  { intros s t Hs Hst. clear - Hm Hs Hst. destruct m as [|n]; [lia|]. clear Hm. induction n as [|n IH]; [cbn; lra|].
    change (s * s ^ S n < t * t ^ S n). apply Rmult_gt_0_lt_compat; auto; try lra. apply pow_lt; lra. }
  split; apply Rnot_lt_le; intros L.
  - specialize (M _ _ Hz L). lra.
  - specialize (M _ _ Hb L). lra.
Qed.
(* right value in [r, r+1]/2^40, exponential of the left value in [h1, l2]/2^50 *)
Definition ijoin_check (s1 s2 : Z) (an ad bn bd : list Q) (za zb : Q) (r h1 l2 : Z) : bool :=
  let w := (2 ^ 40)%Z in
  let p := intable an in let q := intable ad in let pb := intable bn in let qb := intable bd in
  let w2 := (2 ^ 50)%Z in
  let A := (4 * evZ 4 1 p * common ad)%Z in let B := (common an * evZ 4 1 q)%Z in
  (0 <? s1 * B)%Z && (h1 * (s1 * B) <=? w2 * (s1 * A))%Z && (w2 * (s1 * A) <=? l2 * (s1 * B))%Z &&
  (* right: with DP, DQ the denominators, P DQ / (DP z Q) *)
  pos_on 3 (pscale s2 qb) za zb &&
  pos_on 3 (pscale s2 (padd (pscale (w * common bd) pb) (pscale (- r * common bn) (0%Z :: qb)))) za zb &&
  pos_on 3 (pscale s2 (padd (pscale ((r + 1) * common bn) (0%Z :: qb)) (pscale (- (w * common bd)) pb))) za zb.
Lemma ijoin s1 s2 m an ad bn bd za zb r a h1 l2 eps :
  (s1 = 1)%Z \/ (s1 = -1)%Z -> (s2 = 1)%Z \/ (s2 = -1)%Z ->
  (0 < m)%nat -> 0 < Q2R za -> 0 < Q2R zb -> Q2R za ^ m <= 1 / 16 -> 1 / 16 <= Q2R zb ^ m ->
  intable_ok an = true -> intable_ok ad = true -> intable_ok bn = true -> intable_ok bd = true ->
  ijoin_check s1 s2 an ad bn bd za zb r h1 l2 = true ->
  exp (IZR a / 2 ^ 40) <= IZR h1 / 2 ^ 50 -> IZR l2 / 2 ^ 50 <= exp (IZR (a + 1) / 2 ^ 40) ->
  0 < eps -> (0 < r)%Z -> Rabs (IZR a - IZR r) + 1 <= eps * IZR r ->
  0 < 4 * hornerQ an 4 / hornerQ ad 4 /\ hornerQ ad 4 <> 0 /\ 0 < ihi m bn bd 4 /\
  Rabs (ilo an ad 4 - ihi m bn bd 4) <= eps * ihi m bn bd 4.
Proof.
  intros Hs1 Hs2 Hm Ha Hb La Lb I1 I2 I3 I4 H E1 E2 He Hr Hd.
  pose proof (z4_range m za zb Hm Ha Hb La Lb) as Hz.
  unfold ijoin_check in H. cbv zeta in H. repeat (apply andb_true_iff in H; destruct H as [H ?]).
  rename H into C1, H4 into C2, H3 into C3, H2 into P1, H1 into P2, H0 into P3.
  apply Z.ltb_lt, IZR_lt in C1. apply Z.leb_le, IZR_le in C2. apply Z.leb_le, IZR_le in C3.
  set (z := Rpower 4 (- 2 / INR m)) in *. assert (Z0 : 0 < z) by apply exp_pos.
  pose proof (pos_on_ok _ _ _ _ _ P1 Hz) as Q1. pose proof (pos_on_ok _ _ _ _ _ P2 Hz) as Q2.
  pose proof (pos_on_ok _ _ _ _ _ P3 Hz) as Q3. clear P1 P2 P3.
  repeat first [rewrite ev_pscale in Q1 | rewrite ev_padd in Q2 | rewrite ev_pscale in Q2 | rewrite ev_padd in Q3 | rewrite ev_pscale in Q3].
  cbn [ev] in Q2, Q3.
  pose proof (common_pos an) as Dan. pose proof (common_pos ad) as Dad.
  pose proof (common_pos bn) as Dbn. pose proof (common_pos bd) as Dbd.
  assert (EZ : forall c, IZR (evZ 4 1 c) = 1 * ev c 4).
  { intros c. rewrite evZ_ok by lia. rewrite pow1. do 2 f_equal. field. }
  repeat first [rewrite mult_IZR in C1 | rewrite EZ in C1 | rewrite mult_IZR in C2 | rewrite EZ in C2 | rewrite mult_IZR in C3 | rewrite EZ in C3].
  change (IZR (2 ^ 50)) with (IZR (2 ^ Z.of_nat 50)) in C2, C3. rewrite <- pow_IZR in C2, C3.
  set (p := ev (intable an) 4) in *. set (q := ev (intable ad) 4) in *.
  assert (q0 : q <> 0) by (intros E; rewrite E in C1; lra).
  set (V := 4 * hornerQ an 4 / hornerQ ad 4).
  assert (EV : V * (IZR s1 * (IZR (common an) * (1 * q))) = IZR s1 * (4 * (1 * p) * IZR (common ad))).
  { unfold V. rewrite !hornerQ_ev by auto. fold p q. field. repeat split; auto; lra. }
  rewrite <- EV in C2, C3. set (W := IZR s1 * (IZR (common an) * (1 * q))) in *.
  assert (V1 : IZR h1 / 2 ^ 50 <= V).
  { apply Rmult_le_reg_r with (2 ^ 50 * W); [apply Rmult_lt_0_compat; [apply pow_lt; lra|exact C1]|].
    replace (IZR h1 / 2 ^ 50 * (2 ^ 50 * W)) with (IZR h1 * W) by (field; apply pow_nonzero; lra). lra. }
  assert (V2 : V <= IZR l2 / 2 ^ 50).
  { apply Rmult_le_reg_r with (2 ^ 50 * W); [apply Rmult_lt_0_compat; [apply pow_lt; lra|exact C1]|].
    replace (IZR l2 / 2 ^ 50 * (2 ^ 50 * W)) with (IZR l2 * W) by (field; apply pow_nonzero; lra). lra. }
  pose proof (exp_pos (IZR a / 2 ^ 40)) as X0.
  assert (V0 : 0 < V) by lra. split; [exact V0|]. split.
  { rewrite hornerQ_ev by auto. fold q. intros E. apply q0. apply Rmult_eq_reg_r with (/ IZR (common ad)).
    - rewrite Rmult_0_l. exact E.
    - apply Rinv_neq_0_compat. lra. }
  assert (LL : IZR a / 2 ^ 40 <= ilo an ad 4 <= IZR (a + 1) / 2 ^ 40).
  { unfold ilo. fold V. split.
    - rewrite <- (ln_exp (IZR a / 2 ^ 40)). destruct (Rle_lt_or_eq_dec (exp (IZR a / 2 ^ 40)) V ltac:(lra)) as [L|L].
      + apply Rlt_le, ln_increasing; auto.
      + rewrite L. lra.
    - rewrite <- (ln_exp (IZR (a + 1) / 2 ^ 40)). destruct (Rle_lt_or_eq_dec V (exp (IZR (a + 1) / 2 ^ 40)) ltac:(lra)) as [L|L].
      + apply Rlt_le, ln_increasing; auto.
      + rewrite L. lra. }
  set (pb := ev (intable bn) z) in *. set (qb := ev (intable bd) z) in *.
  assert (qb0 : qb <> 0) by (intros E; rewrite E in Q1; lra).
  set (Y := ihi m bn bd 4).
  assert (EY : Y * (IZR (common bn) * (z * qb)) = IZR (common bd) * pb).
  { unfold Y, ihi. fold z. cbv zeta. rewrite !hornerQ_ev by auto. fold pb qb. field. repeat split; auto; lra. }
  repeat first [rewrite mult_IZR in Q2 | rewrite opp_IZR in Q2 | rewrite plus_IZR in Q2
    | rewrite mult_IZR in Q3 | rewrite opp_IZR in Q3 | rewrite plus_IZR in Q3].
  change (IZR (2 ^ 40)) with (IZR (2 ^ Z.of_nat 40)) in Q2, Q3. rewrite <- pow_IZR in Q2, Q3.
  set (T := 2 ^ 40) in *. assert (T0 : 0 < T) by (unfold T; apply pow_lt; lra).
  set (U := IZR s2 * (IZR (common bn) * (z * qb))).
  assert (U0 : 0 < U).
  { unfold U. replace (IZR s2 * (IZR (common bn) * (z * qb))) with (IZR s2 * qb * (IZR (common bn) * z)) by ring.
    apply Rmult_lt_0_compat; auto. apply Rmult_lt_0_compat; auto. }
  assert (Y1 : IZR r <= T * Y).
  { apply Rmult_le_reg_r with U; auto. unfold U.
    replace (T * Y * (IZR s2 * (IZR (common bn) * (z * qb)))) with (IZR s2 * T * (Y * (IZR (common bn) * (z * qb)))) by ring.
    rewrite EY. lra. }
  assert (Y2 : T * Y <= IZR r + 1).
  { apply Rmult_le_reg_r with U; auto. unfold U.
    replace (T * Y * (IZR s2 * (IZR (common bn) * (z * qb)))) with (IZR s2 * T * (Y * (IZR (common bn) * (z * qb)))) by ring.
    rewrite EY. lra. }
  apply IZR_lt in Hr. rewrite plus_IZR in LL.
  assert (Yp : 0 < Y) by (apply Rmult_lt_reg_l with T; auto; lra).
  split; [exact Yp|]. set (X := ilo an ad 4) in *.
  assert (X1 : IZR a <= T * X).
  { destruct LL as [LL _]. apply Rmult_le_compat_l with (r := T) in LL; [|lra].
    replace (T * (IZR a / T)) with (IZR a) in LL by (field; lra). exact LL. }
  assert (X2 : T * X <= IZR a + 1).
  { destruct LL as [_ LL]. apply Rmult_le_compat_l with (r := T) in LL; [|lra].
    replace (T * ((IZR a + 1) / T)) with (IZR a + 1) in LL by (field; lra). exact LL. }
  apply Rmult_le_reg_l with T; auto.
  replace (T * Rabs (X - Y)) with (Rabs (T * X - T * Y)).
  2: { rewrite <- Rmult_minus_distr_l, Rabs_mult, (Rabs_right T) by lra. reflexivity. }
  apply Rle_trans with (eps * IZR r).
  - apply Rle_trans with (Rabs (IZR a - IZR r) + 1); [|exact Hd]. unfold Rabs.
    destruct (Rcase_abs (T * X - T * Y)), (Rcase_abs (IZR a - IZR r)); lra.
  - replace (T * (eps * Y)) with (eps * (T * Y)) by ring. apply Rmult_le_compat_l; lra.
Qed.

(** ** C90 *)
(* the limit of g from the left at a differs from g a by at most eps |g a| *)
Definition joins_at (g : R -> R) (a eps : R) : Prop :=
  exists l, limit1_in g (fun x => x < a) l a /\ Rabs (l - g a) <= eps * Rabs (g a).
Lemma left_limit (f g : R -> R) a d : derivable_pt_lim f a d -> (forall x, x < a -> g x = f x) ->
  limit1_in g (fun x => x < a) (f a) a.
Proof.
  intros D E.
  assert (C : continuity_pt f a) by (apply derivable_continuous_pt; exists d; exact D).
  intros eps He. destruct (C eps He) as (al & Ha & Hal). exists al. split; auto.
  intros x [Hx Hd]. rewrite E by auto. apply Hal. split; auto. split; [exact I|lra].
Qed.
Lemma lo_fun_der an ad x : intable_ok an = true -> intable_ok ad = true -> hornerQ ad (exp x) <> 0 ->
  exists d, derivable_pt_lim (lo_fun an ad) x d.
Proof.
  intros I1 I2 Q0. eexists. apply (derivable_pt_lim_comp exp (fun z => z * hornerQ an z / hornerQ ad z)).
  - apply derivable_pt_lim_exp.
  - apply (derivable_pt_lim_div (fun z => z * hornerQ an z) (hornerQ ad)); auto using hornerQ_der.
    apply (derivable_pt_lim_mult id (hornerQ an)); [apply derivable_pt_lim_id | now apply hornerQ_der].
Qed.
Lemma ilo_der an ad x : intable_ok an = true -> intable_ok ad = true -> hornerQ ad x <> 0 ->
  0 < x * hornerQ an x / hornerQ ad x -> exists d, derivable_pt_lim (ilo an ad) x d.
Proof.
  intros I1 I2 Q0 V. eexists. apply (derivable_pt_lim_comp (fun z => z * hornerQ an z / hornerQ ad z) ln).
  - apply (derivable_pt_lim_div (fun z => z * hornerQ an z) (hornerQ ad)); auto using hornerQ_der.
    apply (derivable_pt_lim_mult id (hornerQ an)); [apply derivable_pt_lim_id | now apply hornerQ_der].
  - now apply derivable_pt_lim_ln.
Qed.
Lemma fd_joins s k an ad bn bd : tables_ok s an ad bn bd = true -> join_check k 1 (10 ^ 12) an ad bn bd = true ->
  joins_at (fd_fun k an ad bn bd) 2 (1 / 10 ^ 12).
Proof.
  intros T H. destruct (tables_facts _ _ _ _ _ T) as (_ & _ & _ & _ & A1 & A2 & B2 & B1 & I1 & I2 & I3 & I4).
  pose proof (A2 _ (exp_pos 2)) as Q0.
  destruct (lo_fun_der an ad 2 I1 I2 ltac:(lra)) as [d D]. exists (lo_fun an ad 2). split.
  - apply (left_limit _ _ _ d D). intros x Hx. unfold fd_fun. destruct (Rlt_dec x 2); [reflexivity|contradiction].
  - assert (E : fd_fun k an ad bn bd 2 = hi_fun k bn bd 2) by (unfold fd_fun; destruct (Rlt_dec 2 2); [lra|reflexivity]).
    rewrite E. assert (P : 0 < hi_fun k bn bd 2).
    { unfold hi_fun, Rdiv at 1. rewrite Rmult_assoc. apply Rmult_lt_0_compat; [|apply B1; lra].
      apply Rmult_lt_0_compat; [apply sqrt_lt_R0; lra|apply pow_lt; lra]. }
    rewrite (Rabs_right (hi_fun k bn bd 2)) by lra.
    assert (E12 : 1 / 10 ^ 12 = IZR 1 / IZR (10 ^ 12)) by (change (IZR (10 ^ 12)) with (IZR (10 ^ Z.of_nat 12)); rewrite <- pow_IZR; reflexivity).
    rewrite E12. apply join; auto; reflexivity.
Qed.
(* functions of the positive numbers *)
Definition elementwise_pos (F : nd R -> res (nd (option R))) (h : R -> R) : Prop :=
  forall x, exists y, F x = Ok y /\ shp y = shp x /\
    forall idx, inb idx (shp x) -> 0 < get x idx -> get y idx = Some (h (get x idx)).
Definition itables_ok (s1 s3 : bool) (B : Q) (an ad bn bd : list Q) : bool :=
  (2 <=? length an)%nat && (2 <=? length ad)%nat && (2 <=? length bn)%nat && (2 <=? length bd)%nat &&
  chk s1 12 an 0 4 && chk s1 12 ad 0 4 && chk s3 12 bd 0 B &&
  intable_ok an && intable_ok ad && intable_ok bn && intable_ok bd.
Lemma ifd_fun_elementwise s1 s3 B m f an ad bn bd : itables_ok s1 s3 B an ad bn bd = true ->
  (forall x, 4 <= x -> f x = Rpower x (- 2 / INR m) /\ 0 < f x <= Q2R B) ->
  elementwise_pos (ifd_template an ad bn bd f) (ifd_fun m an ad bn bd).
Proof.
  intros H Hf x. unfold itables_ok in H. repeat (apply andb_true_iff in H; destruct H as [H ?]).
  rename H into L1, H9 into L2, H8 into L3, H7 into L4, H6 into C1, H5 into C2, H4 into C3.
  apply Nat.leb_le in L1, L2, L3, L4.
  destruct (ifd_template_ok an ad bn bd f x L1 L2 L3 L4) as (y & E & S & G).
  exists y. split; [exact E|]. split; [exact S|]. intros idx Hi Hx. rewrite G by auto. set (a := get x idx) in *.
  unfold ifd_elem, ifd_fun. rewrite !horner_Q. destruct (Rltb_spec a 4) as [L|L], (Rlt_dec a 4); try contradiction.
  - assert (Hz : Q2R 0 <= a <= Q2R 4) by (unfold Q2R; cbn; lra).
    pose proof (chk_ok _ _ _ _ _ _ C1 Hz) as S1. pose proof (chk_ok _ _ _ _ _ _ C2 Hz) as S2.
    unfold odiv. destruct (Reqb_spec (hornerQ ad a) 0) as [Z|Z]; [destruct s1; lra|].
    assert (P : 0 < a * hornerQ an a / hornerQ ad a).
    { destruct s1.
      - apply Rdiv_lt_0_compat; auto. now apply Rmult_lt_0_compat.
      - replace (a * hornerQ an a / hornerQ ad a) with ((a * - hornerQ an a) / - hornerQ ad a) by (field; lra).
        apply Rdiv_lt_0_compat; [|lra]. apply Rmult_lt_0_compat; lra. }
    cbn [olog]. destruct (Rltb_spec 0 (a * hornerQ an a / hornerQ ad a)); [|contradiction]. reflexivity.
  - cbv zeta. destruct (Hf a ltac:(lra)) as (Ef & F0 & FB).
    assert (Hz : Q2R 0 <= f a <= Q2R B) by (rewrite Q2R_0; lra).
    pose proof (chk_ok _ _ _ _ _ _ C3 Hz) as S2.
    unfold odiv. destruct (Reqb_spec (f a * hornerQ bd (f a)) 0) as [Z|Z].
    + exfalso. destruct s3; nra.
    + unfold ihi. rewrite <- Ef. reflexivity.
Qed.
Lemma ifd_joins s1 s2 m an ad bn bd za zb r a h1 l2 eps :
  (s1 = 1)%Z \/ (s1 = -1)%Z -> (s2 = 1)%Z \/ (s2 = -1)%Z ->
  (0 < m)%nat -> 0 < Q2R za -> 0 < Q2R zb -> Q2R za ^ m <= 1 / 16 -> 1 / 16 <= Q2R zb ^ m ->
  intable_ok an = true -> intable_ok ad = true -> intable_ok bn = true -> intable_ok bd = true ->
  ijoin_check s1 s2 an ad bn bd za zb r h1 l2 = true ->
  exp (IZR a / 2 ^ 40) <= IZR h1 / 2 ^ 50 -> IZR l2 / 2 ^ 50 <= exp (IZR (a + 1) / 2 ^ 40) ->
  0 < eps -> (0 < r)%Z -> Rabs (IZR a - IZR r) + 1 <= eps * IZR r ->
  joins_at (ifd_fun m an ad bn bd) 4 eps.
Proof.
  intros. destruct (ijoin s1 s2 m an ad bn bd za zb r a h1 l2 eps) as (V & Q0 & P & J); auto.
  destruct (ilo_der an ad 4) as [d D]; auto. exists (ilo an ad 4). split.
  - apply (left_limit _ _ _ d D). intros x Hx. unfold ifd_fun. destruct (Rlt_dec x 4); [reflexivity|contradiction].
  - assert (E : ifd_fun m an ad bn bd 4 = ihi m bn bd 4) by (unfold ifd_fun; destruct (Rlt_dec 4 4); [lra|reflexivity]).
    rewrite E, (Rabs_right (ihi m bn bd 4)) by lra. exact J.
Qed.
Theorem C90_integrals : exists gm12 g12 g32 g52 : R -> R,
  elementwise fdm12 (fun x => Some (gm12 x)) /\ elementwise fd12 (fun x => Some (g12 x)) /\
  elementwise fd32 (fun x => Some (g32 x)) /\ elementwise fd52 (fun x => Some (g52 x)) /\
  (joins_at gm12 2 (1 / 10 ^ 12) /\ joins_at g12 2 (1 / 10 ^ 12) /\
   joins_at g32 2 (1 / 10 ^ 12) /\ joins_at g52 2 (1 / 10 ^ 12)) /\
  (sommerfeld gm12 (- (1 / 2)) /\ sommerfeld g12 (1 / 2) /\ sommerfeld g32 (3 / 2) /\ sommerfeld g52 (5 / 2)).
Proof.
  exists (fd_fun 0 fdm12_anum fdm12_aden fdm12_bnum fdm12_bden), (fd_fun 1 fd12_anum fd12_aden fd12_bnum fd12_bden),
    (fd_fun 2 fd32_anum fd32_aden fd32_bnum fd32_bden), (fd_fun 3 fd52_anum fd52_aden fd52_bnum fd52_bden).
  assert (T0 : tables_ok false fdm12_anum fdm12_aden fdm12_bnum fdm12_bden = true) by (vm_compute; reflexivity).
  assert (T1 : tables_ok true fd12_anum fd12_aden fd12_bnum fd12_bden = true) by (vm_compute; reflexivity).
  assert (T2 : tables_ok true fd32_anum fd32_aden fd32_bnum fd32_bden = true) by (vm_compute; reflexivity).
  assert (T3 : tables_ok true fd52_anum fd52_aden fd52_bnum fd52_bden = true) by (vm_compute; reflexivity).
  split; [apply (fd_fun_elementwise false); [exact T0|intros; cbn; ring]|].
  split; [apply (fd_fun_elementwise true); [exact T1|intros; cbn; ring]|].
  split; [apply (fd_fun_elementwise true); [exact T2|intros; cbn; ring]|].
  split; [apply (fd_fun_elementwise true); [exact T3|intros; cbn; ring]|].
  split; [split; [|split; [|split]]|split; [|split; [|split]]].
  - apply (fd_joins false); [exact T0|vm_compute; reflexivity].
  - apply (fd_joins true); [exact T1|vm_compute; reflexivity].
  - apply (fd_joins true); [exact T2|vm_compute; reflexivity].
  - apply (fd_joins true); [exact T3|vm_compute; reflexivity].
  - replace (- (1 / 2)) with (INR 0 - 1 / 2) by (cbn; lra). apply (som_ok (-1)); [lia|lia|vm_compute; reflexivity..].
  - replace (sommerfeld _ (1 / 2)) with (sommerfeld (fd_fun 1 fd12_anum fd12_aden fd12_bnum fd12_bden) (INR 1 - 1 / 2)) by (f_equal; cbn; lra).
    apply (som_ok 1); [lia|lia|vm_compute; reflexivity..].
  - replace (3 / 2) with (INR 2 - 1 / 2) by (cbn; lra). apply (som_ok 1); [lia|lia|vm_compute; reflexivity..].
  - replace (5 / 2) with (INR 3 - 1 / 2) by (cbn; lra). apply (som_ok 1); [lia|lia|vm_compute; reflexivity..].
Qed.
Ltac pow2 := change (2 ^ 40) with (IZR 2 ^ 40); change (2 ^ 50) with (IZR 2 ^ 50); rewrite ?pow_IZR;
  change (Z.of_nat 40) with 40%Z; change (Z.of_nat 50) with 50%Z.
Theorem C90_inverses : exists hm12 h12 h32 h52 : R -> R,
  elementwise_pos ifdm12 hm12 /\ elementwise_pos ifd12 h12 /\ elementwise_pos ifd32 h32 /\ elementwise_pos ifd52 h52 /\
  joins_at hm12 4 (5 / 10 ^ 9) /\ joins_at h12 4 (5 / 10 ^ 9) /\ joins_at h32 4 (5 / 10 ^ 9) /\ joins_at h52 4 (5 / 10 ^ 9).
Proof.
  exists (ifd_fun 1 ifdm12_anum ifdm12_aden ifdm12_bnum ifdm12_bden), (ifd_fun 3 ifd12_anum ifd12_aden ifd12_bnum ifd12_bden),
    (ifd_fun 5 ifd32_anum ifd32_aden ifd32_bnum ifd32_bden), (ifd_fun 7 ifd52_anum ifd52_aden ifd52_bnum ifd52_bden).
  split; [|split; [|split; [|split; [|split; [|split; [|split]]]]]].
  - apply (ifd_fun_elementwise false true (1 # 16)); [vm_compute; reflexivity|].
    intros x Hx. rewrite inv_sq by lra. replace (- 2 / INR 1) with (- 2) by (cbn; field). split; [reflexivity|].
    rewrite <- inv_sq by lra. assert (0 < x * x) by nra. split; [apply Rdiv_lt_0_compat; lra|].
    replace (Q2R (1 # 16)) with (/ 16) by (unfold Q2R; cbn; lra). unfold Rdiv. rewrite Rmult_1_l.
    apply Rinv_le_contravar; nra.
  - apply (ifd_fun_elementwise true false (2 # 5)); [vm_compute; reflexivity|].
    intros x Hx. replace (- 2 / 3) with (- 2 / INR 3) by (cbn; lra). split; [reflexivity|].
    apply root_bound; [lia| | |exact Hx]; unfold Q2R; cbn [Qnum Qden pow]; lra.
  - apply (ifd_fun_elementwise true false (23 # 40)); [vm_compute; reflexivity|].
    intros x Hx. replace (- 2 / 5) with (- 2 / INR 5) by (cbn; lra). split; [reflexivity|].
    apply root_bound; [lia| | |exact Hx]; unfold Q2R; cbn [Qnum Qden pow]; lra.
  - apply (ifd_fun_elementwise true false (27 # 40)); [vm_compute; reflexivity|].
    intros x Hx. replace (- 2 / 7) with (- 2 / INR 7) by (cbn; lra). split; [reflexivity|].
    apply root_bound; [lia| | |exact Hx]; unfold Q2R; cbn [Qnum Qden pow]; lra.
  - apply (ifd_joins (-1) 1 1 _ _ _ _ (70368744177664 # 1125899906842624) (70368744177665 # 1125899906842624)
      4655877361872 4655877375652 77717343096865002 77717343096865003); [lia|lia|lia| | | | |vm_compute; reflexivity|vm_compute; reflexivity|vm_compute; reflexivity|vm_compute; reflexivity|vm_compute; reflexivity| | |lra|lia|].
    1-4: unfold Q2R; cbn [Qnum Qden pow]; lra.
    + pow2. apply (exp_range 4655877375652 (2 ^ 40) 77717343096848347 77717343096865002 (2 ^ 50)); try lia. vm_compute. reflexivity.
    + pow2. apply (exp_range 4655877375653 (2 ^ 40) 77717343096865003 77717343096919040 (2 ^ 50)); try lia. vm_compute. reflexivity.
    + rewrite Rabs_right by lra. lra.
  - apply (ifd_joins 1 (-1) 3 _ _ _ _ (446813674133219 # 1125899906842624) (446813674133220 # 1125899906842624)
      3313919306084 3313919320233 22932948989278834 22932948989278835); [lia|lia|lia| | | | |vm_compute; reflexivity|vm_compute; reflexivity|vm_compute; reflexivity|vm_compute; reflexivity|vm_compute; reflexivity| | |lra|lia|].
    1-4: unfold Q2R; cbn [Qnum Qden pow]; lra.
    + pow2. apply (exp_range 3313919320233 (2 ^ 40) 22932948989258396 22932948989278834 (2 ^ 50)); try lia. vm_compute. reflexivity.
    + pow2. apply (exp_range 3313919320234 (2 ^ 40) 22932948989278835 22932948989279263 (2 ^ 50)); try lia. vm_compute. reflexivity.
    + rewrite Rabs_right by lra. lra.
  - apply (ifd_joins 1 (-1) 5 _ _ _ _ (646659685440718 # 1125899906842624) (646659685440719 # 1125899906842624)
      1690472600472 1690472604585 5238622124681252 5238622124681253); [lia|lia|lia| | | | |vm_compute; reflexivity|vm_compute; reflexivity|vm_compute; reflexivity|vm_compute; reflexivity|vm_compute; reflexivity| | |lra|lia|].
    1-4: unfold Q2R; cbn [Qnum Qden pow]; lra.
    + pow2. apply (exp_range 1690472604585 (2 ^ 40) 5238622124677872 5238622124681252 (2 ^ 50)); try lia. vm_compute. reflexivity.
    + pow2. apply (exp_range 1690472604586 (2 ^ 40) 5238622124681253 5238622124682647 (2 ^ 50)); try lia. vm_compute. reflexivity.
    + rewrite Rabs_right by lra. lra.
  - apply (ifd_joins 1 (-1) 7 _ _ _ _ (757674450752119 # 1125899906842624) (757674450752120 # 1125899906842624)
      308786021073 308786022480 1490962499929713 1490962499929714); [lia|lia|lia| | | | |vm_compute; reflexivity|vm_compute; reflexivity|vm_compute; reflexivity|vm_compute; reflexivity|vm_compute; reflexivity| | |lra|lia|].
    1-4: unfold Q2R; cbn [Qnum Qden pow]; lra.
    + pow2. apply (exp_range 308786022480 (2 ^ 40) 1490962499929617 1490962499929713 (2 ^ 50)); try lia. vm_compute. reflexivity.
    + pow2. apply (exp_range 308786022481 (2 ^ 40) 1490962499929714 1490962499930983 (2 ^ 50)); try lia. vm_compute. reflexivity.
    + rewrite Rabs_right by lra. lra.
Qed.
Print Assumptions C90_integrals.
Print Assumptions C90_inverses.

(* the value of fd12 at 100 that follows: 2/3 1000 (1 + pi^2/8 1e-4 + ...), within 1e-4 *)
Example ex_C90 : exists g12 : R -> R, elementwise fd12 (fun x => Some (g12 x)) /\ Rabs (g12 100 - 666.74894) <= 1 / 10 ^ 4.
Proof.
  destruct C90_integrals as (gm12 & g12 & g32 & g52 & _ & E & _ & _ & _ & _ & S & _).
  exists g12. split; [exact E|]. specialize (S 100 ltac:(lra)). cbv zeta in S.
  assert (L : Rpower 100 (1 / 2 + 1) = 1000).
  { rewrite Rpower_plus, Rpower_1 by lra. replace (1 / 2) with (/ 2) by lra. rewrite Rpower_sqrt by lra.
    replace 100 with (10 * 10) by lra. rewrite sqrt_square by lra. lra. }
  rewrite L in S. clear L.
  pose proof PI2_range as P. set (p := PI ^ 2) in *. replace (PI ^ 4) with (p * p) in S by (unfold p; ring).
  assert (B : 9.8696 <= p <= 9.8697).
  { replace (PI * PI) with p in P by (unfold p; ring). unfold pi2n in P. unfold Rabs in P. destruct (Rcase_abs _) in P; lra. }
  clearbody p. clear P.
  assert (Q : 97.4 <= p * p <= 97.5) by nra. set (q := p * p) in *. clearbody q.
  apply Rabs_le. unfold Rabs in S. destruct (Rcase_abs _) in S; lra.
Qed.
