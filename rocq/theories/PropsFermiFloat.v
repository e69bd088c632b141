(* C101: the Fermi-Dirac functions in double precision. *)
From Coq Require Import List Arith ZArith QArith Qreals Bool Lia Reals Lra.
From Flocq Require Import Core BinarySingleNaN.
From Verif Require Import Num PyBase NdArray PolySign Fermi FermiProofs FermiInt PolyDer PropsFermi PropsFermiDer PropsFermiAcc PropsFermiTail Float64 FermiFloat FloatErr.
Import ListNotations.
Local Open Scope R_scope.

(** ** The functions in double precision *)
Section Double.
Variable ef : f64 -> f64.   (* numpy.exp *)
Definition fd_double := fd_generic flit ef fsqrt ndiv (n0 : f64) (B754_nan : f64).
Local Open Scope num_scope.
(* fermi.py:64-93 *)
Definition fdm12_double := fd_double fdm12_anum fdm12_aden fdm12_bnum fdm12_bden (fun _ => n1).
(* fermi.py:96-123 *)
Definition fd12_double := fd_double fd12_anum fd12_aden fd12_bnum fd12_bden (fun x => x).
(* fermi.py:126-152 *)
Definition fd32_double := fd_double fd32_anum fd32_aden fd32_bnum fd32_bden (fun x => x * x).
(* fermi.py:155-181 *)
Definition fd52_double := fd_double fd52_anum fd52_aden fd52_bnum fd52_bden (fun x => x * x * x).
End Double.

(** ** Spec *)
(* exp is accurate to 2^-50 (four units in the last place) between -500 and 2 *)
Definition exp_ok (ef : f64 -> f64) : Prop := forall x, fin x -> -500 <= val x <= 2 ->
  fin (ef x) /\ Rabs (val (ef x) - exp (val x)) <= / 2 ^ 50 * exp (val x).
(* F maps an array of finite doubles between -500 and 10^60 to one of the same shape, with the integrals of order j of its
   elements, to the relative error eps *)
Definition integrates (F : nd f64 -> res (nd f64)) (j eps : R) : Prop :=
  forall x, (forall idx, inb idx (shp x) -> fin (get x idx) /\ -500 <= val (get x idx) <= 10 ^ 60) ->
  exists y, F x = Ok y /\ shp y = shp x /\
    forall idx, inb idx (shp x) -> fin (get y idx) /\
      exists l, FD_integral j (val (get x idx)) l /\ 0 < l /\ Rabs (val (get y idx) - l) <= eps * l.

(** ** The error of one element *)
Lemma exp_ok_app ef x : exp_ok ef -> fin x -> -500 <= val x <= 2 -> app 8 (ef x) (exp (val x)).
Proof.
  intros E F H. destruct (E x F H) as [G B]. split; auto. eapply Rle_trans; [exact B|]. pose proof (exp_pos (val x)). rewrite Rabs_pos_eq by lra.
  apply Rmult_le_compat_r; [lra|]. unfold uro. lra.
Qed.
Lemma exp_sz x : -500 <= x <= 2 -> sz 240 (exp x).
Proof.
  intros H. unfold sz. rewrite Rabs_pos_eq by apply Rlt_le, exp_pos. split.
  - apply Rle_trans with (/ 3 ^ 500).
    + apply Rinv_le_contravar; [apply pow_lt; lra|]. rewrite (pow_IZR 3), (pow_IZR 10). apply IZR_le. vm_compute. discriminate.
    + apply Rle_trans with (exp (-500)).
      2:{ destruct (proj1 H) as [L|L]; [apply Rlt_le, exp_increasing; exact L|rewrite L; lra]. }
      replace (-500) with (- (500)) by lra. rewrite exp_Ropp. apply Rinv_le_contravar; [apply exp_pos|].
      replace 500 with (INR 500) by (rewrite INR_IZR_INZ; reflexivity). replace (exp (INR 500)) with (exp 1 ^ 500).
      * apply pow_incr. split; [apply Rlt_le, exp_pos|apply exp_le_3].
      * rewrite <- Rpower_pow by apply exp_pos. unfold Rpower. rewrite ln_exp, Rmult_1_r. reflexivity.
  - apply Rle_trans with (exp 2).
    + destruct (proj2 H) as [L|L]; [apply Rlt_le, exp_increasing; exact L|rewrite L; lra].
    + pose proof exp2_range as X. apply Rle_trans with (10 ^ 1); [lra|apply Rle_pow; [lra|lia]].
Qed.
Definition tabs_double (s : bool) (an ad bn bd : list Q) : bool :=
  cond_ok 3 false 12 an (473 # 64) && cond_ok 3 false 12 ad (473 # 64) && cond_ok 3 s 12 bn (1 # 4) && cond_ok 3 s 12 bd (1 # 4) &&
  (length an <=? 8)%nat && (length ad <=? 8)%nat && (length bn <=? 12)%nat && (length bd <=? 12)%nat &&
  (2 <=? length an)%nat && (2 <=? length ad)%nat && (2 <=? length bn)%nat && (2 <=? length bd)%nat.
Lemma dm12 : tabs_double true fdm12_anum fdm12_aden fdm12_bnum fdm12_bden = true.
Proof. vm_compute. reflexivity. Qed.
Lemma d12 : tabs_double false fd12_anum fd12_aden fd12_bnum fd12_bden = true.
Proof. vm_compute. reflexivity. Qed.
Lemma d32 : tabs_double false fd32_anum fd32_aden fd32_bnum fd32_bden = true.
Proof. vm_compute. reflexivity. Qed.
Lemma d52 : tabs_double false fd52_anum fd52_aden fd52_bnum fd52_bden = true.
Proof. vm_compute. reflexivity. Qed.
Lemma len_INR {A} (c : list A) m : (length c <= m)%nat -> 0 <= INR (length c) <= INR m.
Proof. intros H. split; [apply pos_INR|now apply le_INR]. Qed.
Lemma fd_gelem_app ef k s an ad bn bd (f : f64 -> f64) x : exp_ok ef -> tabs_double s an ad bn bd = true -> (k <= 3)%nat ->
  (forall a, fin a -> 2 <= val a <= 10 ^ 60 -> app 2.1 (f a) (val a ^ k)) ->
  fin x -> -500 <= val x <= 10 ^ 60 ->
  app 256 (fd_gelem flit ef fsqrt ndiv an ad bn bd f x) (fd_fun k an ad bn bd (val x)).
Proof.
  intros He T Hk Hf Fx Hx. unfold tabs_double in T. rewrite !andb_true_iff in T. destruct T as (((((((((((C1 & C2) & C3) & C4) & L1) & L2) & L3) & L4) & _) & _) & _) & _).
  apply Nat.leb_le, len_INR in L1, L2, L3, L4. replace (INR 8) with 8 in * by (cbn; lra). replace (INR 12) with 12 in * by (cbn; lra).
  unfold fd_gelem, fd_fun. destruct (fofZ_val 2 ltac:(lia)) as [F2 V2]. rewrite flt_val by auto. rewrite V2. unfold Rltb. destruct (Rlt_dec (val x) 2) as [L|L].
  - unfold lo_fun. cbv zeta. pose proof (exp_ok_app ef x He Fx ltac:(lra)) as Az. set (z := exp (val x)) in *.
    assert (Bz : Q2R (473 # 64) = 473 / 64) by (unfold Q2R; cbn; lra).
    assert (Hz : 0 <= z <= Q2R (473 # 64)).
    { split; [apply Rlt_le, exp_pos|]. rewrite Bz. pose proof exp2_range. apply exp_increasing in L. fold z in L. lra. }
    pose proof (exp_sz (val x) ltac:(lra)) as Sz. fold z in Sz.
    destruct (fhorner_app 3 false 12 an _ z (ef x) 8 C1 Hz ltac:(lra) ltac:(lra) Az) as (A1 & S1 & _).
    destruct (fhorner_app 3 false 12 ad _ z (ef x) 8 C2 Hz ltac:(lra) ltac:(lra) Az) as (A2 & S2 & _).
    apply (app_le _ 121.5) in A1, A2; try lra.
    pose proof (sz_mul _ _ _ _ Sz S1) as S3. cbn [Nat.add] in S3. pose proof (sz_div _ _ _ _ S3 S2) as S4. cbn [Nat.add] in S4.
    eapply app_le; [|apply app_div; [apply app_mul; [exact Az|exact A1|lra|lra|]|exact A2|lra|lra|]]; [lra| |].
    + eapply sz_le; [|exact S3]; lia.
    + eapply sz_le; [|exact S4]; lia.
  - unfold hi_fun. cbv zeta. set (X := val x) in *. assert (X2 : 2 <= X <= 10 ^ 60) by lra.
    assert (SX : sz 60 X).
    { unfold sz. rewrite Rabs_pos_eq by lra. split; [|lra]. apply Rle_trans with 1; [|lra]. rewrite <- Rinv_1. apply Rinv_le_contravar; [lra|]. apply pow_R1_Rle. lra. }
    pose proof (app_refl x 0 Fx ltac:(lra)) as AX. fold X in AX.
    pose proof (sz_mul _ _ _ _ SX SX) as SXX. cbn [Nat.add] in SXX.
    assert (AXX : app 1.03 (nmul x x) (X * X)) by (eapply app_le; [|apply app_mul; [exact AX|exact AX|lra|lra|eapply sz_le; [|exact SXX]; lia]]; lra).
    destruct (fofZ_val 1 ltac:(lia)) as [F1 V1].
    assert (A1 : app 0 n1 1) by (change (n1 : f64) with (nofZ 1 : f64); rewrite <- V1; apply app_refl; [exact F1|lra]).
    pose proof (sz_div 0 _ 1 _ (sz_1 0) SXX) as SZ. cbn [Nat.add] in SZ.
    assert (AZ : app 2.13 (ndiv n1 (nmul x x)) (1 / (X * X))).
    { eapply app_le; [|apply app_div; [exact A1|exact AXX|lra|lra|eapply sz_le; [|exact SZ]; lia]]; lra. }
    set (z := 1 / (X * X)) in *. set (zf := ndiv n1 (nmul x x)) in *.
    assert (Bz : Q2R (1 # 4) = 1 / 4) by (unfold Q2R; cbn; lra).
    assert (Hz : 0 <= z <= Q2R (1 # 4)).
    { rewrite Bz. unfold z. assert (4 <= X * X) by nra. split; [apply Rlt_le, Rdiv_lt_0_compat; lra|]. unfold Rdiv. rewrite !Rmult_1_l. apply Rinv_le_contravar; lra. }
    destruct (fhorner_app 3 s 12 bn _ z zf 2.13 C3 Hz ltac:(lra) ltac:(lra) AZ) as (P1 & S1 & _).
    destruct (fhorner_app 3 s 12 bd _ z zf 2.13 C4 Hz ltac:(lra) ltac:(lra) AZ) as (P2 & S2 & _).
    apply (app_le _ 76) in P1, P2; try lra.
    assert (SQ : sz 60 (sqrt X)).
    { pose proof (sqrt_le_1_alt 1 X ltac:(lra)) as Q. rewrite sqrt_1 in Q. unfold sz. rewrite Rabs_pos_eq by lra. split.
      - apply Rle_trans with 1; auto. rewrite <- Rinv_1. apply Rinv_le_contravar; [lra|]. apply pow_R1_Rle. lra.
      - apply Rle_trans with X; [|lra]. rewrite <- (sqrt_sqrt X) at 2 by lra. rewrite <- (Rmult_1_r (sqrt X)) at 1. apply Rmult_le_compat_l; lra. }
    pose proof (app_sqrt x Fx ltac:(fold X; lra) ltac:(eapply sz_le; [|exact SQ]; lia)) as AQ. fold X in AQ.
    assert (SK : sz 180 (X ^ k)).
    { clear - SX Hk. assert (H : forall i, sz (60 * i) (X ^ i)).
      { induction i; [apply sz_1|]. cbn [pow]. replace (60 * S i)%nat with (60 + 60 * i)%nat by lia. now apply sz_mul. }
      eapply sz_le; [|apply H]. lia. }
    pose proof (Hf x Fx X2) as AF. fold X in AF.
    pose proof (sz_mul _ _ _ _ SQ SK) as S3. pose proof (sz_mul _ _ _ _ S3 S1) as S4. pose proof (sz_div _ _ _ _ S4 S2) as S5. cbn [Nat.add] in S3, S4, S5.
    eapply app_le; [|apply app_div; [apply app_mul; [apply app_mul; [exact AQ|exact AF|lra|lra|]|exact P1|lra|lra|]|exact P2|lra|lra|]]; [lra| | |].
    + eapply sz_le; [|exact S3]; lia.
    + eapply sz_le; [|exact S4]; lia.
    + eapply sz_le; [|exact S5]; lia.
Qed.
Lemma fd_integrates ef k s an ad bn bd f j e eps : exp_ok ef -> tabs_double s an ad bn bd = true -> (k <= 3)%nat ->
  (forall a, fin a -> 2 <= val a <= 10 ^ 60 -> app 2.1 (f a) (val a ^ k)) ->
  is_FD (fd_fun k an ad bn bd) j e -> 0 <= e -> e + 256 * uro * (1 + e) <= eps ->
  integrates (fd_double ef an ad bn bd f) j eps.
Proof.
  intros He T Hk Hf FD E0 E x Hx. pose proof T as T'. unfold tabs_double in T'. rewrite !andb_true_iff in T'.
  destruct T' as ((((_ & L1) & L2) & L3) & L4). apply Nat.leb_le in L1, L2, L3, L4.
  destruct (fd_generic_ok flit ef fsqrt ndiv (n0 : f64) (B754_nan : f64) an ad bn bd f x L1 L2 L3 L4) as (y & Ey & Sy & Gy).
  exists y. split; [exact Ey|]. split; [exact Sy|]. intros idx Hi. destruct (Hx idx Hi) as [Fx Bx]. rewrite (Gy idx Hi).
  destruct (fd_gelem_app ef k s an ad bn bd f (get x idx) He T Hk Hf Fx Bx) as [Fy Ay]. split; [exact Fy|].
  destruct (FD (val (get x idx))) as (l & Fl & Pl & Al). exists l. split; [exact Fl|]. split; [exact Pl|].
  set (g := fd_fun k an ad bn bd (val (get x idx))) in *. set (v := val (fd_gelem _ _ _ _ _ _ _ _ _ _)) in *.
  assert (G : Rabs g <= (1 + e) * l).
  { replace g with (g - l + l) by ring. eapply Rle_trans; [apply Rabs_triang|]. rewrite (Rabs_pos_eq l) by lra. lra. }
  replace (v - l) with (v - g + (g - l)) by ring. eapply Rle_trans; [apply Rabs_triang|]. pose proof uro_pos.
  assert (256 * uro * Rabs g <= 256 * uro * ((1 + e) * l)) by (apply Rmult_le_compat_l; lra).
  assert ((e + 256 * uro * (1 + e)) * l <= eps * l) by (apply Rmult_le_compat_r; lra). lra.
Qed.
Lemma app_one : app 0 (n1 : f64) 1.
Proof. destruct (fofZ_val 1 ltac:(lia)) as [F V]. change (n1 : f64) with (nofZ 1 : f64). rewrite <- V. apply app_refl; [exact F|lra]. Qed.
Lemma sz_up a : 2 <= a <= 10 ^ 60 -> sz 60 a.
Proof. intros H. unfold sz. rewrite Rabs_pos_eq by lra. split; [|lra]. apply Rle_trans with 1; [|lra]. rewrite <- Rinv_1. apply Rinv_le_contravar; [lra|]. apply pow_R1_Rle. lra. Qed.
Lemma pow_app_2 a : fin a -> 2 <= val a <= 10 ^ 60 -> app 1.03 (nmul a a) (val a * val a).
Proof.
  intros F H. pose proof (sz_up _ H) as S. pose proof (sz_mul _ _ _ _ S S) as S2. pose proof (app_refl a 0 F ltac:(lra)) as A.
  eapply app_le; [|apply app_mul; [exact A|exact A|lra|lra|eapply sz_le; [|exact S2]; cbn; lia]]. lra.
Qed.
Lemma pow_app_3 a : fin a -> 2 <= val a <= 10 ^ 60 -> app 2.06 (nmul (nmul a a) a) (val a * val a * val a).
Proof.
  intros F H. pose proof (sz_up _ H) as S. pose proof (sz_mul _ _ _ _ (sz_mul _ _ _ _ S S) S) as S2. pose proof (app_refl a 0 F ltac:(lra)) as A.
  eapply app_le; [|apply app_mul; [exact (pow_app_2 a F H)|exact A|lra|lra|eapply sz_le; [|exact S2]; cbn; lia]]. lra.
Qed.

(* In double precision, with an exp accurate to four units in the last place, the functions return finite numbers within a
   relative error of 3.03e-12 (order -1/2) and 1.03e-12 of the integrals: of the errors of C92, the rounding adds at most 3 percent. *)
Theorem C101_integrals ef : exp_ok ef ->
  integrates (fdm12_double ef) (- (1 / 2)) (3.03 / 10 ^ 12) /\ integrates (fd12_double ef) (1 / 2) (1.03 / 10 ^ 12) /\
  integrates (fd32_double ef) (3 / 2) (1.03 / 10 ^ 12) /\ integrates (fd52_double ef) (5 / 2) (1.03 / 10 ^ 12).
Proof.
  intros He. split; [|split; [|split]].
  - apply (fd_integrates ef 0 true _ _ _ _ _ _ (3 / 10 ^ 12)); auto using dm12 with arith.
    + intros a _ _. apply (app_le 0); [lra|]. exact app_one.
    + eapply is_FD_join; [exact below_m12|exact above_m12|lra|lra].
    + lra.
    + unfold uro. lra.
  - apply (fd_integrates ef 1 false _ _ _ _ _ _ (1 / 10 ^ 12)); auto using d12 with arith.
    + intros a F _. rewrite pow_1. apply app_refl; [exact F|lra].
    + eapply is_FD_join; [exact below_12|exact above_12|lra|lra].
    + lra.
    + unfold uro. lra.
  - apply (fd_integrates ef 2 false _ _ _ _ _ _ (1 / 10 ^ 12)); auto using d32 with arith.
    + intros a F H. replace (val a ^ 2) with (val a * val a) by ring. apply (app_le 1.03); [lra|]. now apply pow_app_2.
    + eapply is_FD_join; [exact below_32|exact above_32|lra|lra].
    + lra.
    + unfold uro. lra.
  - apply (fd_integrates ef 3 false _ _ _ _ _ _ (1 / 10 ^ 12)); auto using d52 with arith.
    + intros a F H. replace (val a ^ 3) with (val a * val a * val a) by ring. apply (app_le 2.06); [lra|]. now apply pow_app_3.
    + eapply is_FD_join; [exact below_52|exact above_52|lra|lra].
    + lra.
    + unfold uro. lra.
Qed.
Print Assumptions C101_integrals.
(* over the reals the same code is that of Fermi.v *)
Theorem C101_same_code x :
  fdm12 x = fd_generic Q2R exp sqrt odiv (Some 0) None fdm12_anum fdm12_aden fdm12_bnum fdm12_bden (fun _ => 1) x /\
  fd12 x = fd_generic Q2R exp sqrt odiv (Some 0) None fd12_anum fd12_aden fd12_bnum fd12_bden (fun x => x) x /\
  fd32 x = fd_generic Q2R exp sqrt odiv (Some 0) None fd32_anum fd32_aden fd32_bnum fd32_bden (fun x => x * x) x /\
  fd52 x = fd_generic Q2R exp sqrt odiv (Some 0) None fd52_anum fd52_aden fd52_bnum fd52_bden (fun x => x * x * x) x.
Proof. repeat split; reflexivity. Qed.

(* the hypothesis is met: the correctly rounded exp *)
Definition fround (r : R) : f64 :=
  binary_normalize 53 1024 prec_pos prec_emax mode_NE (Ztrunc (scaled_mantissa radix2 (FLT_exp (-1074) 53) (rnd r))) (cexp radix2 (FLT_exp (-1074) 53) (rnd r)) false.
Lemma fround_ok r : Rabs r <= 10 ^ 301 -> fin (fround r) /\ val (fround r) = rnd r.
Proof.
  intros H. pose proof (binary_normalize_correct 53 1024 prec_pos prec_emax mode_NE (Ztrunc (scaled_mantissa radix2 (FLT_exp (-1074) 53) (rnd r))) (cexp radix2 (FLT_exp (-1074) 53) (rnd r)) false) as C. cbv zeta in C.
  assert (G : generic_format radix2 (FLT_exp (-1074) 53) (rnd r)) by (rewrite rnd_FLT; apply generic_format_round; auto with typeclass_instances).
  assert (E : F2R (Float radix2 (Ztrunc (scaled_mantissa radix2 (FLT_exp (-1074) 53) (rnd r))) (cexp radix2 (FLT_exp (-1074) 53) (rnd r))) = rnd r) by (symmetry; exact G).
  rewrite E in C. assert (I : round radix2 (SpecFloat.fexp 53 1024) (round_mode mode_NE) (rnd r) = rnd r) by (apply round_generic; auto with typeclass_instances; exact G).
  rewrite I in C. rewrite Rlt_bool_true in C by now apply rnd_big. destruct C as (C1 & C2 & _). split; [exact C2|exact C1].
Qed.
Lemma fround_app r : sz 300 r -> app 1.01 (fround r) r.
Proof.
  intros S. destruct (fround_ok r) as [F V].
  { destruct S as [_ S]. eapply Rle_trans; [exact S|]. apply Rle_pow; [lra|lia]. }
  apply (app_le (0 + 1.01)); [lra|]. apply (app_rnd 0 _ _ r 0 F V); [ring|rewrite Rabs_R0; lra|lra|exact S].
Qed.
Lemma exp_ok_round : exp_ok (fun x => fround (exp (val x))).
Proof.
  intros x _ H. destruct (fround_app (exp (val x))) as [F A]; [eapply sz_le; [|apply exp_sz; exact H]; lia|]. split; [exact F|].
  rewrite (Rabs_pos_eq (exp (val x))) in A by apply Rlt_le, exp_pos. eapply Rle_trans; [exact A|]. apply Rmult_le_compat_r; [apply Rlt_le, exp_pos|]. unfold uro. lra.
Qed.
(* the value of F at a one-dimensional array of doubles *)
Definition at_list (F : nd f64 -> res (nd f64)) (l : list f64) : list SpecFloat.spec_float :=
  match F {| shp := [length l]; get := fun idx => nth (nth 0 idx O) l n0 |} with
  | Ok y => map (fun i => B2SF (get y [i])) (seq 0 (nth 0 (shp y) O))
  | Err _ => []
  end.
(* 5.770726527607... = 6497260459846855 / 2^50 is the double that fd12 returns at 4 *)
Example ex_C101 : exp_ok (fun x => fround (exp (val x))) /\
  let ef := fun x : f64 => x in
  at_list (fd12_double ef) [fofZ 4] = [SpecFloat.S754_finite false 6497260459846855 (-50)] /\
  at_list (fdm12_double ef) [fofZ 4; fofZ 4] = [SpecFloat.S754_finite false 8724267702956611 (-51); SpecFloat.S754_finite false 8724267702956611 (-51)].
Proof. split; [exact exp_ok_round|]. cbv zeta. split; vm_compute; reflexivity. Qed.
(* infinity gives infinity, nan gives nan *)
Theorem C101_special ef :
  Forall (fun F => at_list F [B754_infinity false; B754_nan] = [SpecFloat.S754_infinity false; SpecFloat.S754_nan])
    [fdm12_double ef; fd12_double ef; fd32_double ef; fd52_double ef].
Proof. repeat constructor; vm_compute; reflexivity. Qed.
