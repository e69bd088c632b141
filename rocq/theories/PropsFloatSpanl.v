(* C128: spanl in double precision.  npplus/basic.py:99-139. *)
From Coq Require Import List Arith ZArith Bool Lia Reals Lra.
From Flocq Require Import Core BinarySingleNaN.
From Verif Require Import Num PyBase NdArray NdLemmas Basic BasicProofs PropsBasic Float64 PropsFloat FloatErr PropsFloatPw PropsFloatPline PropsFloatElem PropsFloatAtan.
Import ListNotations.
Local Open Scope R_scope.

(* numpy.sign of a double; nan for nan *)
Definition fsgn (x : f64) : f64 := (if x <? n0 then - n1 else if n0 <? x then n1 else if x =? n0 then n0 else x)%K.

Section Spanl.
  (* numpy.log and numpy.exp of doubles, those of the C library *)
  Variable flog fexp : f64 -> f64.

  (* spanl, basic.py:99-139 (dtype=None), in double precision *)
  Definition fspanl (start stop : nd f64) (num : nat) (axis : Z) : res (nd f64) :=
    (let s := nd_map fsgn start in
     let start := nd_map fabs start in
     let! stop := nd_map2 nmul s stop in
     if nd_any (fun x => x <=? n0)%K stop then Err ValueError else
     let! (s, axis) :=
       if (axis =? 0)%Z then Ok (s, axis) else
       let shape := shp s in
       let axis := if (axis <? 0)%Z then (axis + Z.of_nat (length shape) + 1)%Z else axis in
       let! s := reshape (py_take axis shape ++ [1%nat] ++ py_drop axis shape) s in
       Ok (s, axis) in
     let! e := span (nd_map flog start) (nd_map flog stop) num axis in
     nd_map2 nmul s (nd_map fexp e))%res.

  (* the exponent of sample i *)
  Definition fexpo (a b : f64) (m i : nat) : f64 :=
    (let la := flog (fabs a) + n0 in let lb := flog (fsgn a * b) + n0 in
     if (i =? m)%nat then lb
     else match i with O => la | S j => la + cums (fun _ => (lb - la) / nofnat m) j end)%K.
  Lemma fspanl_ok start stop m axis k S0 :
    bshape (shp start) (shp stop) = Some S0 ->
    py_index (S (length S0)) axis = Some k ->
    (axis = 0%Z \/ length (shp start) = length S0) ->
    (forall idx, inb idx S0 -> (fsgn (bget start idx) * bget stop idx <=? n0)%K = false) ->
    exists r e, fspanl start stop (S m) axis = Ok r /\ shp r = insert_at k (S m) S0 /\
      span (nd_map flog (nd_map fabs start)) (nd_map flog (Nd S0 (fun idx => nmul (fsgn (bget start idx)) (bget stop idx)))) (S m) axis = Ok e /\
      forall idx i, inb idx S0 -> (i < S m)%nat ->
        get e (insert_at k i idx) = fexpo (bget start idx) (bget stop idx) m i /\
        get r (insert_at k i idx) = nmul (fsgn (bget start idx)) (fexp (fexpo (bget start idx) (bget stop idx) m i)).
  Proof.
    intros HS Hk Hax Hpos.
    destruct (bshape_bto _ _ _ HS) as [B1 B2].
    unfold fspanl. unfold nd_map2 at 1. cbn [nd_map shp]. rewrite HS. cbn [bind].
    set (stop' := Nd S0 _).
    rewrite (nd_any_false _ stop').
    2:{ intros idx Hi. cbn [stop' get]. apply Hpos. exact Hi. }
    assert (Hk' := py_index_lt _ _ _ Hk).
    assert (exists s' ax',
      (if (axis =? 0)%Z then Ok (nd_map fsgn start, axis)
       else (let! s := reshape
                (py_take (if (axis <? 0)%Z then (axis + Z.of_nat (length (shp start)) + 1)%Z else axis) (shp start) ++
                 [1%nat] ++
                 py_drop (if (axis <? 0)%Z then (axis + Z.of_nat (length (shp start)) + 1)%Z else axis) (shp start))
                (nd_map fsgn start)
            in Ok (s, if (axis <? 0)%Z then (axis + Z.of_nat (length (shp start)) + 1)%Z else axis))%res) = Ok (s', ax') /\
      py_index (S (length S0)) ax' = Some k /\
      bto (shp s') (insert_at k (S m) S0) = true /\
      forall idx i, inb idx S0 -> (i < S m)%nat -> bget s' (insert_at k i idx) = fsgn (bget start idx)) as
      (s' & ax' & E & Hk2 & Hb & Hg).
    { destruct (Z.eqb_spec axis 0) as [->|Hne].
      - assert (k = 0%nat) by (cbv in Hk; congruence). subst k.
        exists (nd_map fsgn start), 0%Z. split; [reflexivity|]. split; [exact Hk|].
        cbn [nd_map shp]. replace (insert_at 0 (S m) S0) with (S m :: S0) by (destruct S0; reflexivity).
        split; [apply bto_cons; auto|]. intros idx i Hi _.
        replace (insert_at 0 i idx) with (i :: idx) by (destruct idx; reflexivity).
        unfold bget. cbn [shp nd_map get]. rewrite bidx_cons; [reflexivity|].
        rewrite (inb_length _ _ Hi). apply bto_length; auto.
      - destruct Hax as [|Hr]; [contradiction|].
        assert (Eax : (if (axis <? 0)%Z then (axis + Z.of_nat (length (shp start)) + 1)%Z else axis) = Z.of_nat k).
        { unfold py_index in Hk. rewrite Hr. destruct (Z.ltb_spec axis 0).
          - destruct (Z.ltb_spec (Z.of_nat (S (length S0)) + axis) 0); [discriminate|].
            assert (Ek : k = Z.to_nat (Z.of_nat (S (length S0)) + axis)) by congruence. lia.
          - destruct (Z.ltb_spec axis (Z.of_nat (S (length S0)))); [|discriminate]. assert (Ek : k = Z.to_nat axis) by congruence. lia. }
        rewrite Eax. unfold py_take, py_drop, zclip.
        replace (Z.of_nat k <? 0)%Z with false by (symmetry; apply Z.ltb_ge; lia). rewrite Nat2Z.id.
        destruct (reshape_insert k (nd_map fsgn start)) as (s' & Es & Ss & Gs); [cbn [nd_map shp]; lia|].
        cbn [nd_map shp] in Es, Ss, Gs. rewrite Es. cbn [bind].
        exists s', (Z.of_nat k). split; [reflexivity|]. split; [|split].
        + unfold py_index. replace (Z.of_nat k <? 0)%Z with false by (symmetry; apply Z.ltb_ge; lia).
          replace (Z.of_nat k <? Z.of_nat (S (length S0)))%Z with true by (symmetry; apply Z.ltb_lt; lia).
          rewrite Nat2Z.id. reflexivity.
        + rewrite Ss. apply bto_insert; auto; lia.
        + intros idx i Hi _. assert (Hl := inb_length _ _ Hi). unfold bget at 1.
          rewrite Ss, bidx_insert by lia. rewrite Gs; [reflexivity|].
          eapply inb_bidx; eauto. }
    assert (HS' : bshape (shp (nd_map flog (nd_map fabs start))) (shp (nd_map flog stop')) = Some S0).
    { cbn [nd_map shp stop']. rewrite bshape_comm. apply bshape_of_bto; auto. }
    destruct (span_ok (nd_map flog (nd_map fabs start)) (nd_map flog stop') m ax' k S0 HS' Hk2) as (e & Ee & Se & Ge).
    destruct (span_ok (nd_map flog (nd_map fabs start)) (nd_map flog stop') m axis k S0 HS' Hk) as (e2 & Ee2 & Se2 & Ge2).
    match type of E with ?L = _ => match goal with |- context [bind ?M _] =>
      replace M with (@Ok (nd f64 * Z) (s', ax')) by (rewrite <- E; reflexivity) end end.
    cbn [bind]. match goal with |- context [bind ?M _] => replace M with (Ok e) by (rewrite <- Ee; reflexivity) end. cbn [bind].
    unfold nd_map2. cbn [nd_map shp]. rewrite Se, bshape_comm, (bshape_of_bto _ _ Hb).
    eexists _, e2. split; [reflexivity|]. split; [reflexivity|]. split; [exact Ee2|].
    intros idx i Hi Him.
    assert (Ea : bz (nd_map flog (nd_map fabs start)) idx = nadd (flog (fabs (bget start idx))) n0) by reflexivity.
    assert (Eb : bz (nd_map flog stop') idx = nadd (flog (nmul (fsgn (bget start idx)) (bget stop idx))) n0).
    { unfold bz. rewrite bget_self by auto. reflexivity. }
    assert (EX : forall (u : f64), u = (if (i =? m)%nat then bz (nd_map flog stop') idx else match i with O => bz (nd_map flog (nd_map fabs start)) idx | S j => nadd (bz (nd_map flog (nd_map fabs start)) idx) (cums (fun _ => ndiv (nsub (bz (nd_map flog stop') idx) (bz (nd_map flog (nd_map fabs start)) idx)) (nofnat m)) j) end) -> u = fexpo (bget start idx) (bget stop idx) m i).
    { intros u ->. rewrite Ea, Eb. unfold fexpo. reflexivity. }
    split; [apply EX, Ge2; auto|]. cbn [get]. rewrite Hg by auto. f_equal.
    rewrite bget_self by (cbn [nd_map shp]; rewrite Se; apply inb_insert; auto; lia).
    cbn [nd_map get]. f_equal. apply EX, Ge; auto.
  Qed.
End Spanl.

(** ** Signs and sizes *)
Lemma sign_mul (s x : f64) : fin s -> val s = 1 \/ val s = -1 -> fin x -> fin (nmul s x) /\ val (nmul s x) = val s * val x.
Proof.
  intros Fs Hs Fx. pose proof (Bmult_correct 53 1024 _ _ mode_NE s x) as C. fold (val s) (val x) in C.
  change (round radix2 (SpecFloat.fexp 53 1024) (round_mode mode_NE) (val s * val x)) with (rnd (val s * val x)) in C.
  assert (E : rnd (val s * val x) = val s * val x /\ Rabs (val s * val x) < bpow radix2 1024).
  { destruct Hs as [-> | ->].
    - rewrite Rmult_1_l. split; [apply rnd_val|]. apply val_lt_emax.
    - replace (-1 * val x) with (val (Bopp x)) by (unfold val; rewrite B2R_Bopp; ring). split; [apply rnd_val|]. apply val_lt_emax. }
  destruct E as [E1 E2]. rewrite E1 in C. rewrite Rlt_bool_true in C by exact E2. destruct C as (C1 & C2 & _).
  red in Fs, Fx. rewrite Fs, Fx in C2. split; [exact C2|exact C1].
Qed.
Lemma fsgn_val (a : f64) : fin a -> val a <> 0 -> fin (fsgn a) /\ val (fsgn a) = Rsgn (val a) /\ (val (fsgn a) = 1 \/ val (fsgn a) = -1).
Proof.
  intros Fa N. destruct (fofZ_val 1 ltac:(lia)) as [F1 V1]. change (nofZ 1 : f64) with (n1 : f64) in F1, V1. assert (F0 : fin n0) by reflexivity. assert (V0 : val n0 = 0) by reflexivity.
  assert (Fm : fin (nopp (n1 : f64))) by reflexivity. assert (Vm : val (nopp (n1 : f64)) = -1) by (rewrite val_opp, V1; lra).
  unfold fsgn, Rsgn. rewrite !flt_val by auto. rewrite V0. destruct (Rltb_spec (val a) 0); [split; [exact Fm|]; split; [exact Vm|right; exact Vm]|].
  destruct (Rltb_spec 0 (val a)); [|lra]. split; [exact F1|]. split; [exact V1|left; exact V1].
Qed.
Lemma val_n0_add (x : f64) : fin x -> fin (nadd x n0) /\ val (nadd x n0) = val x.
Proof. intros H. destruct x as [s|s| |s m e b]; try discriminate H; [destruct s; split; reflexivity|]. split; reflexivity. Qed.
Lemma same_size (a b : f64) : fin a -> fin b -> 0 < val a * val b ->
  fin (fabs a) /\ val (fabs a) = Rabs (val a) /\ fin (nmul (fsgn a) b) /\ val (nmul (fsgn a) b) = Rabs (val b) /\
  val a <> 0 /\ val b <> 0 /\ (nmul (fsgn a) b <=? n0)%K = false.
Proof.
  intros Fa Fb P. assert (Na : val a <> 0) by (intros E; rewrite E in P; lra). assert (Nb : val b <> 0) by (intros E; rewrite E in P; lra).
  destruct (fsgn_val a Fa Na) as (Fs & Vs & Hs). destruct (sign_mul _ b Fs Hs Fb) as [Fm Vm].
  assert (V : val (nmul (fsgn a) b) = Rabs (val b)).
  { rewrite Vm, Vs. unfold Rsgn. destruct (Rltb_spec (val a) 0); [|destruct (Rltb_spec 0 (val a)); [|lra]].
    - rewrite Rabs_left; [ring|]. nra.
    - rewrite Rabs_right; [ring|]. nra. }
  unfold fabs at 1 2. unfold val at 1. unfold fin at 1. rewrite B2R_Babs, is_finite_Babs.
  repeat split; auto. rewrite fle_val by (auto; reflexivity). rewrite V. change (val n0) with 0.
  destruct (Rleb_spec (Rabs (val b)) 0); auto. pose proof (Rabs_pos_lt _ Nb). lra.
Qed.

(** ** Accuracy of the exponents *)
(* the exponent of sample i: i/m of the way from ln |a| to ln |b| *)
Definition lexpo (a b : R) (m i : nat) : R := ln (Rabs a) + INR i * ((ln (Rabs b) - ln (Rabs a)) / INR m).
Definition lmax (a b : R) : R := Rmax (Rabs (ln (Rabs a))) (Rabs (ln (Rabs b))).
(* C library functions with errors of at most one unit in the last place *)
Definition log_good (flog : f64 -> f64) : Prop := forall x, fin x -> 0 < val x -> Rabs (ln (val x)) <= 680 -> fin (flog x) /\ Rabs (val (flog x) - ln (val x)) <= 2 * uro * Rabs (ln (val x)).
Definition exp_good (fexp : f64 -> f64) : Prop := forall x, fin x -> Rabs (val x) <= 681 -> fin (fexp x) /\ Rabs (val (fexp x) - exp (val x)) <= 2 * uro * exp (val x).

Lemma exp_step fexp (s t : f64) L E : exp_good fexp -> fin s -> val s = 1 \/ val s = -1 -> fin t -> Rabs (val t) <= 681 -> Rabs (val t - L) <= E ->
  fin (nmul s (fexp t)) /\ Rabs (val (nmul s (fexp t)) - val s * exp L) <= (exp E * (1 + 2 * uro) - 1) * exp L.
Proof.
  intros GE Fs Hs Ft Bt HE. destruct (GE t Ft Bt) as [Fe Ee]. destruct (sign_mul s _ Fs Hs Fe) as [Fm Vm]. split; [exact Fm|].
  rewrite Vm. replace (val s * val (fexp t) - val s * exp L) with (val s * (val (fexp t) - exp L)) by ring. rewrite Rabs_mult.
  replace (Rabs (val s)) with 1 by (destruct Hs as [-> | ->]; [rewrite Rabs_R1|rewrite Rabs_left]; lra). rewrite Rmult_1_l.
  pose proof uro_pos as U. pose proof (exp_pos L) as PL.
  assert (T : exp (val t) = exp L * exp (val t - L)) by (rewrite <- exp_plus; f_equal; ring).
  assert (HE2 : - E <= val t - L <= E) by (apply Rabs_le_inv in HE; exact HE).
  assert (U1 : exp (val t - L) <= exp E) by (destruct (Rle_lt_or_eq_dec _ _ (proj2 HE2)) as [H|H]; [left; now apply exp_increasing|rewrite H; lra]).
  assert (D : Rabs (exp (val t - L) - 1) <= exp E - 1).
  { apply Rabs_le. split; [|lra]. assert (E0 : 0 <= E) by lra.
    assert (exp (- E) <= exp (val t - L)) by (destruct (Rle_lt_or_eq_dec _ _ (proj1 HE2)) as [H|H]; [left; now apply exp_increasing|rewrite H; lra]).
    assert (X : exp E * exp (- E) = 1) by (rewrite <- exp_plus, Rplus_opp_r; apply exp_0). assert (1 <= exp E) by (rewrite <- exp_0; destruct E0 as [H1|H1]; [left; now apply exp_increasing|rewrite H1; lra]).
    pose proof (exp_pos (- E)). nra. }
  replace (val (fexp t) - exp L) with ((val (fexp t) - exp (val t)) + exp L * (exp (val t - L) - 1)) by (rewrite T; ring).
  eapply Rle_trans; [apply Rabs_triang|]. rewrite (Rabs_mult (exp L)), (Rabs_pos_eq (exp L)) by lra.
  assert (A1 : exp L * Rabs (exp (val t - L) - 1) <= exp L * (exp E - 1)) by (apply Rmult_le_compat_l; lra).
  assert (A2 : 2 * uro * exp (val t) <= 2 * uro * (exp L * exp E)) by (apply Rmult_le_compat_l; [lra|]; rewrite T; apply Rmult_le_compat_l; lra).
  lra.
Qed.

Lemma cums_small (d : f64) j : fin d -> Rabs (val d) <= 10 ^ 5 -> (Z.of_nat j <= 2 ^ 25)%Z -> fin (cums (fun _ => d) j) /\ Rabs (val (cums (fun _ => d) j)) <= 10 ^ 14.
Proof.
  intros Fd Bd. pose proof uro_lt as U.
  assert (Q : forall j, (Z.of_nat j <= 2 ^ 25)%Z -> fin (cums (fun _ => d) j) -> Rabs (val (cums (fun _ => d) j)) <= 10 ^ 14).
  { intros j0 Hj F. pose proof (cums_err d j0 F) as Ec. pose proof (upow_small j0 Hj) as W. pose proof (upow_ge j0) as W1.
    assert (J : INR (S j0) <= 33554433) by (rewrite S_INR, INR_IZR_INZ; change (2 ^ 25)%Z with 33554432%Z in Hj; apply IZR_le in Hj; lra).
    pose proof (pos_INR (S j0)) as J0. assert (J1 : INR j0 <= 33554432) by (rewrite S_INR in J; lra). pose proof (pos_INR j0).
    assert (W2 : (1 + uro) ^ j0 <= 2) by (assert (/ 2 ^ 52 * INR j0 <= / 2 ^ 52 * 33554432) by (apply Rmult_le_compat_l; [apply Rlt_le, Rinv_0_lt_compat; lra|auto]); lra).
    set (c := val (cums (fun _ => d) j0)) in *. set (v := val d) in *. set (n := INR (S j0)) in *. set (w := (1 + uro) ^ j0) in *. clearbody c v n w.
    assert (N1 : n * Rabs v <= 33554433 * 10 ^ 5) by (apply Rmult_le_compat; auto using Rabs_pos).
    assert (N0 : 0 <= n * Rabs v) by (apply Rmult_le_pos; auto using Rabs_pos).
    assert (N2 : (w - 1) * (n * Rabs v) <= 1 * (33554433 * 10 ^ 5)) by (apply Rmult_le_compat; lra).
    replace c with ((c - n * v) + n * v) by ring. eapply Rle_trans; [apply Rabs_triang|]. rewrite (Rabs_mult n), (Rabs_pos_eq n) by auto. lra. }
  induction j as [|j IH]; intros Hj; [split; [exact Fd|cbn [cums]; lra]|].
  destruct IH as [F B]; [lia|].
  assert (F2 : fin (cums (fun _ => d) (S j))).
  { cbn [cums]. apply fadd_ok; auto. eapply Rle_trans; [apply Rabs_triang|]. lra. }
  split; [exact F2|]. apply Q; auto.
Qed.

Lemma fexpo_err flog (a b : f64) m i : log_good flog -> fin a -> fin b -> 0 < val a * val b -> lmax (val a) (val b) <= 680 ->
  (0 < m)%nat -> (Z.of_nat m <= 2 ^ 25 - 2)%Z -> (i <= m)%nat ->
  fin (fexpo flog a b m i) /\ Rabs (val (fexpo flog a b m i) - lexpo (val a) (val b) m i) <= uro * (lmax (val a) (val b) * (4 * INR i + 12) + 1) /\
  Rabs (lexpo (val a) (val b) m i) <= lmax (val a) (val b).
Proof.
  intros GL Fa Fb P HM Hm Hb Hi. destruct (same_size a b Fa Fb P) as (F1 & V1 & F2 & V2 & Na & Nb & _).
  pose proof (Rabs_pos_lt _ Na) as Pa. pose proof (Rabs_pos_lt _ Nb) as Pb.
  destruct (GL (fabs a) F1) as [G1 E1]; [rewrite V1; exact Pa|rewrite V1; eapply Rle_trans; [apply Rmax_l|exact HM]|].
  destruct (GL (nmul (fsgn a) b) F2) as [G2 E2]; [rewrite V2; exact Pb|rewrite V2; eapply Rle_trans; [apply Rmax_r|exact HM]|]. rewrite V1 in E1. rewrite V2 in E2.
  set (x := flog (fabs a)) in *. set (y := flog (nmul (fsgn a) b)) in *.
  set (M := lmax (val a) (val b)) in *. unfold lexpo. set (A := ln (Rabs (val a))) in *. set (B := ln (Rabs (val b))) in *.
  assert (MA : Rabs A <= M) by apply Rmax_l. assert (MB : Rabs B <= M) by apply Rmax_r.
  assert (M0 : 0 <= M) by (eapply Rle_trans; [apply Rabs_pos|exact MA]). pose proof uro_lt as U.
  assert (E1' : Rabs (val x - A) <= 2 * uro * M) by (eapply Rle_trans; [exact E1|]; apply Rmult_le_compat_l; lra).
  assert (E2' : Rabs (val y - B) <= 2 * uro * M) by (eapply Rle_trans; [exact E2|]; apply Rmult_le_compat_l; lra).
  assert (UM : 2 * uro * M <= / 10 ^ 11) by (apply Rle_trans with (2 * / 10 ^ 15 * 680); [apply Rmult_le_compat; lra|lra]).
  assert (X1 : Rabs (val x) <= M + 2 * uro * M) by (replace (val x) with ((val x - A) + A) by ring; eapply Rle_trans; [apply Rabs_triang|]; lra).
  assert (Y1 : Rabs (val y) <= M + 2 * uro * M) by (replace (val y) with ((val y - B) + B) by ring; eapply Rle_trans; [apply Rabs_triang|]; lra).
  destruct (val_n0_add x G1) as [Fx Vx]. destruct (val_n0_add y G2) as [Fy Vy].
  assert (I0 : 0 < INR m) by (apply lt_0_INR; lia). pose proof (pos_INR i) as I1. assert (I2 : INR i <= INR m) by (apply le_INR; lia).
  assert (I3 : 1 <= INR m) by (apply (le_INR 1); lia).
  assert (I4 : INR m <= 33554430) by (rewrite INR_IZR_INZ; change (2 ^ 25 - 2)%Z with 33554430%Z in Hb; apply IZR_le in Hb; exact Hb).
  set (q := INR i / INR m). assert (Q : 0 <= q <= 1) by (unfold q; split; [apply Rmult_le_pos; [lra|left; now apply Rinv_0_lt_compat]|apply (Rmult_le_reg_r (INR m)); [lra|]; unfold Rdiv; rewrite Rmult_assoc, Rinv_l by lra; lra]).
  assert (CV : forall u v K, Rabs u <= K -> Rabs v <= K -> Rabs (u + INR i * ((v - u) / INR m)) <= K).
  { intros u v K Hu Hv. replace (u + INR i * ((v - u) / INR m)) with (u * (1 - q) + v * q) by (unfold q; field; lra).
    eapply Rle_trans; [apply Rabs_triang|]. rewrite !Rabs_mult, (Rabs_pos_eq (1 - q)), (Rabs_pos_eq q) by lra. nra. }
  assert (Fin : fin (fexpo flog a b m i)).
  { unfold fexpo. fold x y. cbv zeta. destruct (i =? m)%nat; [exact Fy|]. destruct i as [|j]; [exact Fx|].
    assert (S1 : Rabs (val (nadd y n0) - val (nadd x n0)) <= 1402).
    { rewrite Vx, Vy. eapply Rle_trans; [apply Rabs_triang|]. rewrite Rabs_Ropp. lra. }
    destruct (fsub_ok _ _ Fy Fx ltac:(lra)) as [Fs Vs].
    assert (S2 : Rabs (val (nsub (nadd y n0) (nadd x n0))) <= 1403).
    { rewrite Vs. pose proof (rnd_abs (val (nadd y n0) - val (nadd x n0))) as R. pose proof (Rabs_triang (rnd (val (nadd y n0) - val (nadd x n0)) - (val (nadd y n0) - val (nadd x n0))) (val (nadd y n0) - val (nadd x n0))) as T.
      rewrite Rplus_assoc, Rplus_opp_l, Rplus_0_r in T || (replace (rnd (val (nadd y n0) - val (nadd x n0)) - (val (nadd y n0) - val (nadd x n0)) + (val (nadd y n0) - val (nadd x n0))) with (rnd (val (nadd y n0) - val (nadd x n0))) in T by ring).
      pose proof FloatErr.tiny as Ty. set (z := val (nadd y n0) - val (nadd x n0)) in *. assert (uro * Rabs z <= / 10 ^ 15 * 1402) by (apply Rmult_le_compat; auto using Rabs_pos; lra). lra. }
    destruct (fofZ_val (Z.of_nat m) ltac:(change (2 ^ 53)%Z with 9007199254740992%Z; change (2 ^ 25)%Z with 33554432%Z in Hb; lia)) as [M1 M2]. fold (nofnat m : f64) in M1, M2. rewrite <- INR_IZR_INZ in M2.
    assert (S3 : Rabs (val (nsub (nadd y n0) (nadd x n0)) / val (nofnat m : f64)) <= 1403).
    { rewrite M2. unfold Rdiv. rewrite Rabs_mult, (Rabs_pos_eq (/ INR m)) by (left; now apply Rinv_0_lt_compat).
      replace 1403 with (1403 * 1) by ring. apply Rmult_le_compat; auto using Rabs_pos; [left; now apply Rinv_0_lt_compat|]. rewrite <- Rinv_1. apply Rinv_le_contravar; lra. }
    destruct (fdiv_ok _ _ Fs M1 ltac:(lra) ltac:(lra)) as [Fd Vd].
    set (d := ndiv (nsub (nadd y n0) (nadd x n0)) (nofnat m)) in *.
    assert (S4 : Rabs (val d) <= 10 ^ 5).
    { rewrite Vd. set (z := val (nsub (nadd y n0) (nadd x n0)) / val (nofnat m : f64)) in *. pose proof (rnd_abs z) as R. pose proof FloatErr.tiny as Ty.
      replace (rnd z) with ((rnd z - z) + z) by ring. eapply Rle_trans; [apply Rabs_triang|].
      assert (uro * Rabs z <= / 10 ^ 15 * 1403) by (apply Rmult_le_compat; auto using Rabs_pos; lra). lra. }
    destruct (cums_small d j Fd S4 ltac:(change (2 ^ 25)%Z with 33554432%Z in *; lia)) as [Fc Bc].
    apply fadd_ok; auto. eapply Rle_trans; [apply Rabs_triang|]. rewrite Vx. lra. }
  split; [exact Fin|]. split; [|apply CV; auto].
  destruct (C94_span_error (scalar x) (scalar y) (S m) 0 0 []) as (r & Er & _ & G).
  { lia. } { change (2 ^ 25)%Z with 33554432%Z in Hb. change (2 ^ 53)%Z with 9007199254740992%Z. lia. } { reflexivity. } { split; [cbn; lia|left; reflexivity]. }
  destruct (span_ok (scalar x) (scalar y) m 0 0 [] eq_refl eq_refl) as (r2 & Er2 & _ & G'). rewrite Er in Er2. injection Er2 as <-.
  assert (V : get r (insert_at 0 i []) = fexpo flog a b m i) by (rewrite (G' [] i (Forall2_nil _) ltac:(lia)); reflexivity).
  specialize (G [] i (Forall2_nil _) ltac:(lia)). rewrite V in G. specialize (G G1 G2 Fin). change (bget (scalar x) []) with x in G. change (bget (scalar y) []) with y in G. cbv zeta in G.
  replace (S m - 1)%nat with m in G by lia. unfold span_err in G.
  assert (T1 : Rabs ((val x + INR i * ((val y - val x) / INR m)) - (A + INR i * ((B - A) / INR m))) <= 2 * uro * M).
  { replace (val x + INR i * ((val y - val x) / INR m) - (A + INR i * ((B - A) / INR m))) with ((val x - A) + INR i * (((val y - B) - (val x - A)) / INR m)) by (field; lra). apply CV; auto. }
  pose proof (CV _ _ _ X1 Y1) as T2.
  assert (T3 : INR i * Rabs ((val y - val x) / INR m) <= 2 * (M + 2 * uro * M)).
  { rewrite <- (Rabs_pos_eq (INR i)) at 1 by lra. rewrite <- Rabs_mult. replace (INR i * ((val y - val x) / INR m)) with (q * (val y - val x)) by (unfold q; field; lra).
    rewrite Rabs_mult, (Rabs_pos_eq q) by lra. pose proof (Rabs_triang (val y) (- val x)) as T. rewrite Rabs_Ropp in T. unfold Rminus at 1. pose proof (Rabs_pos (val y + - val x)). nra. }
  pose proof (upow_small (i + 2) ltac:(change (2 ^ 25)%Z with 33554432%Z in *; lia)) as W. pose proof (upow_ge (i + 2)) as W0. rewrite plus_INR in W. replace (INR 2) with 2 in W by (cbn; lra).
  pose proof (upow_small i ltac:(change (2 ^ 25)%Z with 33554432%Z in *; lia)) as W2. pose proof (upow_ge i) as W3.
  replace (/ 2 ^ 52) with (2 * uro) in W, W2 by (unfold uro; field).
  set (w := (1 + uro) ^ (i + 2)) in *. set (w' := (1 + uro) ^ i) in *. clearbody w w'.
  set (K := M + 2 * uro * M) in *. assert (K0 : 0 <= K) by (unfold K; apply Rplus_le_le_0_compat; [lra|apply Rmult_le_pos; lra]). set (n := INR i) in *.
  assert (N : n <= 33554430) by lra.
  assert (Z1 : (w - 1) * (n * Rabs ((val y - val x) / INR m)) <= 2 * uro * (n + 2) * (2 * K)).
  { apply Rmult_le_compat; [lra|apply Rmult_le_pos; [lra|apply Rabs_pos]|lra|exact T3]. }
  assert (Z2 : w' * (n * uflow) <= uro * / 2).
  { assert (2 * uro * n <= 2 * / 10 ^ 15 * 33554430) by (apply Rmult_le_compat; lra). pose proof uflow_pos as UF.
    assert (UU : uflow <= uro * / 10 ^ 9) by (pose proof FloatErr.tiny; lra).
    assert (n * uflow <= 33554430 * (uro * / 10 ^ 9)) by (apply Rmult_le_compat; lra). assert (0 <= n * uflow) by (apply Rmult_le_pos; lra).
    assert (w' * (n * uflow) <= 2 * (33554430 * (uro * / 10 ^ 9))) by (apply Rmult_le_compat; lra). lra. }
  assert (Z3 : uro * Rabs (val x + n * ((val y - val x) / INR m)) <= uro * K) by (apply Rmult_le_compat_l; [lra|exact T2]).
  match goal with |- Rabs (?t - ?l) <= _ => replace (t - l) with ((t - (val x + n * ((val y - val x) / INR m))) + ((val x + n * ((val y - val x) / INR m)) - l)) by ring end.
  eapply Rle_trans; [apply Rabs_triang|].
  assert (Z4 : uro * K + 2 * uro * (n + 2) * (2 * K) + uro * / 2 + 2 * uro * M <= uro * (M * (4 * n + 12) + 1)).
  { assert (KM : 2 * uro * M * (4 * n + 9) <= M).
    { assert (2 * uro * (4 * n + 9) <= 2 * / 10 ^ 15 * (4 * 33554430 + 9)) by (apply Rmult_le_compat; lra). nra. }
    unfold K. nra. }
  lra.
Qed.

(** ** C128 *)
(* start and stop have the same sign at every index, and sizes from exp(-680) to exp(680) *)
Definition span_in (start stop : nd f64) S0 : Prop := forall idx, inb idx S0 ->
  fin (bget start idx) /\ fin (bget stop idx) /\ 0 < val (bget start idx) * val (bget stop idx) /\ lmax (val (bget start idx)) (val (bget stop idx)) <= 680.
Lemma fspanl_at flog fexp start stop num axis k S0 :
  (2 <= num)%nat -> bshape (shp start) (shp stop) = Some S0 -> axis_is (S (length S0)) axis k ->
  (axis = 0%Z \/ (length (shp stop) <= length (shp start))%nat) ->
  (forall idx, inb idx S0 -> fin (bget start idx) /\ fin (bget stop idx) /\ 0 < val (bget start idx) * val (bget stop idx)) ->
  exists r, fspanl flog fexp start stop num axis = Ok r /\ shp r = insert_at k num S0 /\
    forall idx i, inb idx S0 -> (i < num)%nat ->
      get r (insert_at k i idx) = nmul (fsgn (bget start idx)) (fexp (fexpo flog (bget start idx) (bget stop idx) (num - 1) i)).
Proof.
  intros Hn HS Hk Hax Hp. destruct num as [|m]; [lia|].
  assert (Hax' : axis = 0%Z \/ length (shp start) = length S0).
  { destruct Hax as [H|H]; [auto|right]. apply bshape_some_iff in HS as [HS _]. lia. }
  destruct (fspanl_ok flog fexp start stop m axis k S0 HS (axis_is_index _ _ _ Hk) Hax') as (r & e & E & Sr & _ & G).
  { intros idx Hi. destruct (Hp idx Hi) as (Fa & Fb & P). apply (same_size _ _ Fa Fb P). }
  exists r. split; [exact E|]. split; [exact Sr|]. intros idx i Hi Him. replace (S m - 1)%nat with m by lia. apply (G idx i Hi Him).
Qed.

(* Every sample is close to the sample of the exact geometric sequence. *)
Theorem C128_error flog fexp start stop num axis k S0 : log_good flog -> exp_good fexp ->
  (2 <= num)%nat -> (Z.of_nat num <= 2 ^ 25 - 1)%Z -> bshape (shp start) (shp stop) = Some S0 -> axis_is (S (length S0)) axis k ->
  (axis = 0%Z \/ (length (shp stop) <= length (shp start))%nat) -> span_in start stop S0 ->
  exists r, fspanl flog fexp start stop num axis = Ok r /\ shp r = insert_at k num S0 /\
    forall idx i, inb idx S0 -> (i < num)%nat ->
      let a := val (bget start idx) in let b := val (bget stop idx) in let ideal := exp (lexpo a b (num - 1) i) in
      fin (get r (insert_at k i idx)) /\
      Rabs (val (get r (insert_at k i idx)) - Rsgn a * ideal) <= (exp (uro * (lmax a b * (4 * INR i + 12) + 1)) * (1 + 2 * uro) - 1) * ideal.
Proof.
  intros GL GE Hn Hb HS Hk Hax Hin.
  destruct (fspanl_at flog fexp start stop num axis k S0 Hn HS Hk Hax) as (r & E & Sr & G).
  { intros idx Hi. destruct (Hin idx Hi) as (Fa & Fb & P & _). auto. }
  exists r. split; [exact E|]. split; [exact Sr|]. intros idx i Hi Him a b ideal. destruct (Hin idx Hi) as (Fa & Fb & P & HM). rewrite G by auto.
  change (2 ^ 25)%Z with 33554432%Z in Hb.
  destruct (fexpo_err flog (bget start idx) (bget stop idx) (num - 1) i GL Fa Fb P HM) as (Ft & Et & BL); [lia|change (2 ^ 25)%Z with 33554432%Z; lia|lia|].
  destruct (same_size _ _ Fa Fb P) as (_ & _ & _ & _ & Na & _). destruct (fsgn_val _ Fa Na) as (Fs & Vs & Hs).
  fold a b in Et, BL, HM, Vs. rewrite <- Vs. apply exp_step; auto.
  set (t := val (fexpo flog (bget start idx) (bget stop idx) (num - 1) i)) in *. set (L := lexpo a b (num - 1) i) in *.
  replace t with ((t - L) + L) by ring. eapply Rle_trans; [apply Rabs_triang|].
  assert (M0 : 0 <= lmax a b) by (eapply Rle_trans; [apply Rabs_pos|apply Rmax_l]).
  assert (I4 : INR i <= 33554432) by (rewrite INR_IZR_INZ; apply IZR_le; lia). pose proof (pos_INR i). pose proof uro_lt.
  assert (lmax a b * (4 * INR i + 12) <= 680 * (4 * 33554432 + 12)) by (apply Rmult_le_compat; lra). assert (0 <= lmax a b * (4 * INR i + 12)) by (apply Rmult_le_pos; lra).
  assert (uro * (lmax a b * (4 * INR i + 12) + 1) <= / 10 ^ 15 * (680 * (4 * 33554432 + 12) + 1)) by (apply Rmult_le_compat; lra). lra.
Qed.
Print Assumptions C128_error.

(* in plain numbers: the relative error of sample i is at most (i + 4) 10^-12 *)
Lemma exp_1_2 x : 0 <= x <= / 2 -> exp x <= 1 + 2 * x.
Proof.
  intros H. assert (P : exp x * exp (- x) = 1) by (rewrite <- exp_plus, Rplus_opp_r; apply exp_0).
  assert (Q : 1 - x <= exp (- x)) by (destruct (Req_dec x 0) as [-> |N]; [rewrite Ropp_0, exp_0; lra|pose proof (exp_ineq1 (- x) ltac:(lra)); lra]).
  pose proof (exp_pos x). apply (Rmult_le_reg_r (1 - x)); [lra|]. assert (exp x * (1 - x) <= 1) by (rewrite <- P; apply Rmult_le_compat_l; lra). nra.
Qed.
Theorem C128_relative flog fexp start stop num axis k S0 : log_good flog -> exp_good fexp ->
  (2 <= num)%nat -> (Z.of_nat num <= 2 ^ 25 - 1)%Z -> bshape (shp start) (shp stop) = Some S0 -> axis_is (S (length S0)) axis k ->
  (axis = 0%Z \/ (length (shp stop) <= length (shp start))%nat) -> span_in start stop S0 ->
  exists r, fspanl flog fexp start stop num axis = Ok r /\ shp r = insert_at k num S0 /\
    forall idx i, inb idx S0 -> (i < num)%nat ->
      let ideal := Rsgn (val (bget start idx)) * exp (lexpo (val (bget start idx)) (val (bget stop idx)) (num - 1) i) in
      fin (get r (insert_at k i idx)) /\ Rabs (val (get r (insert_at k i idx)) - ideal) <= (INR i + 4) / 10 ^ 12 * Rabs ideal.
Proof.
  intros GL GE Hn Hb HS Hk Hax Hin.
  destruct (C128_error flog fexp start stop num axis k S0 GL GE Hn Hb HS Hk Hax Hin) as (r & E & Sr & G).
  exists r. split; [exact E|]. split; [exact Sr|]. intros idx i Hi Him. destruct (G idx i Hi Him) as [F B]. split; [exact F|]. eapply Rle_trans; [exact B|].
  destruct (Hin idx Hi) as (Fa & Fb & P & HM). destruct (same_size _ _ Fa Fb P) as (_ & _ & _ & _ & Na & _).
  set (a := val (bget start idx)) in *. set (b := val (bget stop idx)) in *. pose proof (exp_pos (lexpo a b (num - 1) i)) as PX.
  replace (Rabs (Rsgn a * exp (lexpo a b (num - 1) i))) with (exp (lexpo a b (num - 1) i)).
  2:{ rewrite Rabs_mult, (Rabs_pos_eq (exp _)) by lra. destruct (fsgn_val _ Fa Na) as (_ & Vs & [Hs|Hs]); fold a in Vs; rewrite <- Vs, Hs; [rewrite Rabs_R1|rewrite Rabs_left]; lra. }
  apply Rmult_le_compat_r; [lra|]. change (2 ^ 25)%Z with 33554432%Z in Hb.
  assert (M0 : 0 <= lmax a b) by (eapply Rle_trans; [apply Rabs_pos|apply Rmax_l]).
  assert (I4 : INR i <= 33554432) by (rewrite INR_IZR_INZ; apply IZR_le; lia). pose proof (pos_INR i) as I0. pose proof uro_pos as U. assert (U2 : uro <= 1.2 * / 10 ^ 16) by (unfold uro; lra).
  set (n := INR i) in *. set (X := lmax a b * (4 * n + 12) + 1). assert (X0 : 0 <= X) by (unfold X; assert (0 <= lmax a b * (4 * n + 12)) by (apply Rmult_le_pos; lra); lra).
  assert (X1 : X <= 680 * (4 * n + 12) + 1) by (unfold X; assert (lmax a b * (4 * n + 12) <= 680 * (4 * n + 12)) by (apply Rmult_le_compat_r; lra); lra).
  assert (X2 : uro * X <= 1.2 * / 10 ^ 16 * (680 * (4 * n + 12) + 1)) by (apply Rmult_le_compat; lra).
  assert (X3 : 0 <= uro * X) by (apply Rmult_le_pos; lra). pose proof (exp_1_2 (uro * X) ltac:(lra)) as EX. pose proof (exp_pos (uro * X)).
  assert (exp (uro * X) * (1 + 2 * uro) <= (1 + 2 * (uro * X)) * (1 + 2 * uro)) by (apply Rmult_le_compat_r; lra).
  assert (2 * (uro * X) * (2 * uro) <= 1 * (2 * uro)) by (apply Rmult_le_compat_r; lra). lra.
Qed.
Print Assumptions C128_relative.

(* The first and last samples: start and stop, but only up to the errors of exp and log. *)
Theorem C128_ends_partial flog fexp start stop num axis k S0 : log_good flog -> exp_good fexp ->
  (2 <= num)%nat -> bshape (shp start) (shp stop) = Some S0 -> axis_is (S (length S0)) axis k ->
  (axis = 0%Z \/ (length (shp stop) <= length (shp start))%nat) -> span_in start stop S0 ->
  exists r, fspanl flog fexp start stop num axis = Ok r /\ shp r = insert_at k num S0 /\
    forall idx, inb idx S0 -> let a := val (bget start idx) in let b := val (bget stop idx) in
      fin (get r (insert_at k 0%nat idx)) /\ fin (get r (insert_at k (num - 1)%nat idx)) /\
      Rabs (val (get r (insert_at k 0%nat idx)) - a) <= (exp (2 * uro * Rabs (ln (Rabs a))) * (1 + 2 * uro) - 1) * Rabs a /\
      Rabs (val (get r (insert_at k (num - 1)%nat idx)) - b) <= (exp (2 * uro * Rabs (ln (Rabs b))) * (1 + 2 * uro) - 1) * Rabs b.
Proof.
  intros GL GE Hn HS Hk Hax Hin.
  destruct (fspanl_at flog fexp start stop num axis k S0 Hn HS Hk Hax) as (r & E & Sr & G).
  { intros idx Hi. destruct (Hin idx Hi) as (Fa & Fb & P & _). auto. }
  exists r. split; [exact E|]. split; [exact Sr|]. intros idx Hi a b. destruct (Hin idx Hi) as (Fa & Fb & P & HM). rewrite !G by (auto; lia).
  destruct (same_size _ _ Fa Fb P) as (F1 & V1 & F2 & V2 & Na & Nb & _). destruct (fsgn_val _ Fa Na) as (Fs & Vs & Hs). fold a in V1, Vs, HM, Na, P. fold b in V2, HM, Nb, P.
  assert (L1 : Rabs (ln (Rabs a)) <= 680) by (eapply Rle_trans; [apply Rmax_l|exact HM]). assert (L2 : Rabs (ln (Rabs b)) <= 680) by (eapply Rle_trans; [apply Rmax_r|exact HM]).
  pose proof (Rabs_pos_lt _ Na) as Pa. pose proof (Rabs_pos_lt _ Nb) as Pb.
  destruct (GL _ F1) as [G1 E1]; [rewrite V1; exact Pa|rewrite V1; exact L1|]. destruct (GL _ F2) as [G2 E2]; [rewrite V2; exact Pb|rewrite V2; exact L2|]. rewrite V1 in E1. rewrite V2 in E2.
  destruct (val_n0_add _ G1) as [H1 W1]. destruct (val_n0_add _ G2) as [H2 W2]. rewrite <- W1 in E1. rewrite <- W2 in E2.
  assert (X1 : fexpo flog (bget start idx) (bget stop idx) (num - 1) 0 = nadd (flog (fabs (bget start idx))) n0).
  { unfold fexpo. destruct num as [|[|m]]; [lia|lia|]. replace (S (S m) - 1)%nat with (S m) by lia. reflexivity. }
  assert (X2 : fexpo flog (bget start idx) (bget stop idx) (num - 1) (num - 1) = nadd (flog (nmul (fsgn (bget start idx)) (bget stop idx))) n0).
  { unfold fexpo. rewrite Nat.eqb_refl. reflexivity. }
  rewrite X1, X2. clear X1 X2. set (t1 := nadd (flog (fabs (bget start idx))) n0) in *. set (t2 := nadd (flog (nmul (fsgn (bget start idx)) (bget stop idx))) n0) in *.
  pose proof uro_lt as U.
  assert (B : forall t l, Rabs l <= 680 -> Rabs (t - l) <= 2 * uro * Rabs l -> Rabs t <= 681).
  { intros t l Hl H. replace t with ((t - l) + l) by ring. eapply Rle_trans; [apply Rabs_triang|]. assert (2 * uro * Rabs l <= 2 * / 10 ^ 15 * 680) by (apply Rmult_le_compat; auto using Rabs_pos; lra). lra. }
  destruct (exp_step fexp _ t1 _ _ GE Fs Hs H1 (B _ _ L1 E1) E1) as [R1 Q1]. destruct (exp_step fexp _ t2 _ _ GE Fs Hs H2 (B _ _ L2 E2) E2) as [R2 Q2].
  rewrite exp_ln in Q1, Q2 by auto. rewrite Vs in Q1, Q2. rewrite Rsgn_abs in Q1 by auto.
  assert (SB : Rsgn a * Rabs b = b).
  { unfold Rsgn. destruct (Rltb_spec a 0); [rewrite Rabs_left; nra|]. destruct (Rltb_spec 0 a); [rewrite Rabs_right; nra|lra]. }
  rewrite SB in Q2. auto.
Qed.
Print Assumptions C128_ends_partial.

(* Opposite signs and zeros are rejected: one pair is enough. *)
Theorem C128_rejects flog fexp start stop num axis S0 idx :
  bshape (shp start) (shp stop) = Some S0 -> inb idx S0 -> fin (bget start idx) -> fin (bget stop idx) ->
  val (bget start idx) * val (bget stop idx) <= 0 -> fspanl flog fexp start stop num axis = Err ValueError.
Proof.
  intros HS Hi Fa Fb P. unfold fspanl. unfold nd_map2 at 1. cbn [nd_map shp]. rewrite HS. cbn [bind].
  set (stop' := Nd S0 _). rewrite (nd_any_true _ stop' idx); [reflexivity|exact Hi|].
  change (get stop' idx) with (nmul (fsgn (bget start idx)) (bget stop idx)). generalize dependent (bget start idx). generalize dependent (bget stop idx). clear. intros b Fb a Fa P.
  destruct (Req_dec (val a) 0) as [Z|N].
  - assert (S : fsgn a = n0).
    { unfold fsgn. rewrite !flt_val, feq_val by (auto; reflexivity). change (val n0) with 0. rewrite Z. destruct (Rltb_spec 0 0); [lra|]. unfold Reqb. destruct (Req_EM_T 0 0); [reflexivity|contradiction]. }
    rewrite S. destruct b as [s|s| |s m e H]; try discriminate Fb; destruct s; reflexivity.
  - destruct (fsgn_val a Fa N) as (Fs & Vs & Hs). destruct (sign_mul _ b Fs Hs Fb) as [Fm Vm]. rewrite fle_val by (auto; reflexivity). change (val n0) with 0. rewrite Vm, Vs.
    unfold Rsgn. destruct (Rleb_spec ((if Rltb (val a) 0 then -1 else if Rltb 0 (val a) then 1 else 0) * val b) 0) as [|Q]; [reflexivity|exfalso].
    destruct (Rltb_spec (val a) 0); [nra|]. destruct (Rltb_spec 0 (val a)); nra.
Qed.
Print Assumptions C128_rejects.

(** ** The ends are not reproduced exactly, whatever the C library *)
(* doubles of size 2^(e-1) or more are multiples of 2^(e-53) *)
Lemma grid (x : f64) e : bpow radix2 (e - 1) <= Rabs (val x) -> exists n : Z, val x = IZR n * bpow radix2 (e - 53).
Proof.
  intros H. pose proof (generic_format_B2R 53 1024 x) as G. change (B2R x) with (val x) in G. unfold generic_format, F2R in G. cbn [Fnum Fexp] in G.
  set (k := Ztrunc (scaled_mantissa radix2 (SpecFloat.fexp 53 1024) (val x))) in G. set (c := cexp radix2 (SpecFloat.fexp 53 1024) (val x)) in G.
  assert (C : (e - 53 <= c)%Z).
  { unfold c, cexp, SpecFloat.fexp. pose proof (mag_ge_bpow radix2 (val x) e H). lia. }
  exists (k * 2 ^ (c - (e - 53)))%Z. rewrite G at 1. rewrite mult_IZR. replace (IZR (2 ^ (c - (e - 53)))) with (bpow radix2 (c - (e - 53))) by (rewrite <- IZR_Zpower by lia; reflexivity).
  rewrite Rmult_assoc, <- bpow_plus. f_equal. f_equal. lia.
Qed.
Lemma ln2_bounds : 3 / 5 <= ln 2 <= 699 / 1000.
Proof.
  split.
  - apply (Rmult_le_reg_l 5); [lra|]. replace (5 * ln 2) with (ln (2 ^ 5)) by (rewrite ln_pow by lra; cbn [INR]; lra).
    rewrite <- (ln_exp (5 * (3 / 5))). destruct (Rle_lt_or_eq_dec (exp (5 * (3 / 5))) (2 ^ 5)) as [H|H]; [|left; apply ln_increasing; [apply exp_pos|exact H]|rewrite H; lra].
    replace (5 * (3 / 5)) with (1 + (1 + 1)) by lra. rewrite !exp_plus. pose proof exp_le_3. pose proof (exp_pos 1).
    assert (exp 1 * exp 1 <= 3 * 3) by (apply Rmult_le_compat; lra). assert (exp 1 * (exp 1 * exp 1) <= 3 * (3 * 3)) by (apply Rmult_le_compat; try lra; apply Rmult_le_pos; lra). lra.
  - rewrite <- (ln_exp (699 / 1000)). destruct (Rle_lt_or_eq_dec 2 (exp (699 / 1000))) as [H|H]; [|left; apply ln_increasing; [lra|exact H]|rewrite H; lra].
    assert (X : exp (699 / 1000) = exp (699 / 50000) ^ 50). { rewrite <- (Rpower_pow 50) by apply exp_pos. unfold Rpower. rewrite ln_exp. f_equal. replace (INR 50) with 50 by (cbn [INR]; lra). lra. }
    rewrite X. apply Rle_trans with ((50699 / 50000) ^ 50); [lra|]. apply pow_incr. split; [lra|]. pose proof (exp_ineq1 (699 / 50000) ltac:(lra)). lra.
Qed.
(* 2^970 and the next three doubles *)
Definition top (k : Z) : f64 := fdy (2 ^ 52 + k) 918.
Lemma top_val k : (0 <= k <= 3)%Z -> fin (top k) /\ val (top k) = 2 ^ 970 * (1 + IZR k * / 2 ^ 52).
Proof.
  intros H. assert (B : B2SF (top k) = SpecFloat.S754_finite false (Z.to_pos (2 ^ 52 + k)) 918).
  { assert (C : k = 0%Z \/ k = 1%Z \/ k = 2%Z \/ k = 3%Z) by lia. destruct C as [-> |[-> |[-> | ->]]]; vm_compute; reflexivity. }
  apply fx_val in B. destruct B as [F V]. split; [exact F|]. rewrite V. unfold SF2R, F2R. cbn [Fnum Fexp SpecFloat.cond_Zopp]. change (2 ^ 52)%Z with 4503599627370496%Z. rewrite Z2Pos.id by lia.
  rewrite plus_IZR. replace (2 ^ 970) with (bpow radix2 918 * 2 ^ 52).
  - replace (2 ^ 52) with 4503599627370496 by lra. field.
  - replace (2 ^ 52) with (bpow radix2 52) by (cbn; lra). rewrite <- bpow_plus. change (918 + 52)%Z with (Z.of_nat 970). rewrite bpow_powerRZ. change (IZR radix2) with 2. rewrite <- pow_powerRZ. reflexivity.
Qed.
Lemma top_ln k : (0 <= k <= 3)%Z -> ln (2 ^ 970) <= ln (val (top k)) <= ln (2 ^ 970) + 3 * / 2 ^ 52.
Proof.
  intros H. destruct (top_val k H) as [_ ->]. assert (P : 0 < 2 ^ 970) by (apply pow_lt; lra). assert (K : 0 <= IZR k <= 3) by (split; apply IZR_le; lia).
  set (t := IZR k * / 2 ^ 52). assert (T : 0 <= t <= 3 * / 2 ^ 52) by (unfold t; split; [apply Rmult_le_pos; lra|apply Rmult_le_compat_r; lra]).
  rewrite ln_mult by lra. assert (L : 0 <= ln (1 + t) <= t); [|lra].
  destruct (Req_dec t 0) as [-> |N]; [rewrite Rplus_0_r, ln_1; lra|]. split.
  - rewrite <- ln_1. left. apply ln_increasing; lra.
  - rewrite <- (ln_exp t) at 2. left. apply ln_increasing; [lra|]. apply exp_ineq1; lra.
Qed.
Lemma ln_top : 580 <= ln (2 ^ 970) <= 679.
Proof.
  rewrite ln_pow by lra. replace (INR 970) with 970 by (rewrite INR_IZR_INZ; reflexivity). pose proof ln2_bounds. lra.
Qed.
Lemma neqb_val (x y : f64) : fin y -> val y <> 0 -> neqb x y = true -> val x = val y.
Proof.
  intros Fy N H. destruct (is_finite x) eqn:Fx.
  - rewrite feq_val in H by auto. unfold Reqb in H. destruct (Req_EM_T (val x) (val y)); [assumption|discriminate].
  - exfalso. destruct x as [s|s| |s m e b]; try discriminate Fx; destruct y as [s'|s'| |s' m' e' b']; try discriminate Fy; try (destruct s; discriminate H); discriminate H.
Qed.
(* The logs of these four starts are multiples of 2^-43, and fewer than four multiples are near enough: two of the starts
   have the same log. *)
Lemma same_log flog : log_good flog -> exists i j, (0 <= i <= 3)%Z /\ (0 <= j <= 3)%Z /\ i <> j /\ flog (top i) = flog (top j).
Proof.
  intros GL. pose proof ln_top as LT. set (A := ln (2 ^ 970)) in *.
  assert (Q : forall k, (0 <= k <= 3)%Z -> exists n : Z, fin (flog (top k)) /\ 512 <= val (flog (top k)) /\ val (flog (top k)) = IZR n * / 2 ^ 43 /\ Rabs (IZR n - A * 2 ^ 43) <= 1.38).
  { intros k Hk. destruct (top_val k Hk) as [F V]. pose proof (top_ln k Hk) as L. fold A in L. assert (K : 0 <= IZR k) by (apply IZR_le; lia).
    assert (P : 0 < val (top k)) by (rewrite V; apply Rmult_lt_0_compat; [apply pow_lt; lra|]; assert (0 <= IZR k * / 2 ^ 52) by (apply Rmult_le_pos; lra); lra).
    destruct (GL _ F P) as [Fl El]; [rewrite Rabs_pos_eq; lra|]. rewrite (Rabs_pos_eq (ln _)) in El by lra.
    assert (E2 : Rabs (val (flog (top k)) - ln (val (top k))) <= 2 * / 2 ^ 53 * 680) by (eapply Rle_trans; [exact El|]; unfold uro; apply Rmult_le_compat_l; lra).
    apply Rabs_le_inv in E2. assert (B : 512 <= val (flog (top k))) by lra.
    destruct (grid (flog (top k)) 10) as [n En]. { replace (bpow radix2 (10 - 1)) with 512 by (cbn; lra). rewrite Rabs_pos_eq; lra. }
    replace (bpow radix2 (10 - 53)) with (/ 2 ^ 43) in En by (cbn; lra). exists n. split; [exact Fl|]. split; [exact B|]. split; [exact En|].
    rewrite En in E2. apply Rabs_le. lra. }
  destruct (Q 0%Z ltac:(lia)) as (n0 & F0 & B0 & V0 & C0). destruct (Q 1%Z ltac:(lia)) as (n1 & F1 & B1 & V1 & C1). destruct (Q 2%Z ltac:(lia)) as (n2 & F2 & B2 & V2 & C2). destruct (Q 3%Z ltac:(lia)) as (n3 & F3 & B3 & V3 & C3).
  assert (D : forall a b : Z, Rabs (IZR a - A * 2 ^ 43) <= 1.38 -> Rabs (IZR b - A * 2 ^ 43) <= 1.38 -> (a - b < 3)%Z).
  { intros a b Ha Hb. apply Rabs_le_inv in Ha. apply Rabs_le_inv in Hb. apply lt_IZR. rewrite minus_IZR. lra. }
  pose proof (D _ _ C0 C1). pose proof (D _ _ C1 C0). pose proof (D _ _ C0 C2). pose proof (D _ _ C2 C0). pose proof (D _ _ C0 C3). pose proof (D _ _ C3 C0).
  pose proof (D _ _ C1 C2). pose proof (D _ _ C2 C1). pose proof (D _ _ C1 C3). pose proof (D _ _ C3 C1). pose proof (D _ _ C2 C3). pose proof (D _ _ C3 C2).
  assert (J : forall x y : f64, fin x -> fin y -> 512 <= val x -> val x = val y -> x = y).
  { intros x y Fx Fy Bx Exy. apply B2R_inj; [| |exact Exy]; apply is_finite_strict_B2R; unfold val in *; lra. }
  assert (O : n0 = n1 \/ n0 = n2 \/ n0 = n3 \/ n1 = n2 \/ n1 = n3 \/ n2 = n3) by lia.
  destruct O as [O|[O|[O|[O|[O|O]]]]]; subst;
    [exists 0%Z, 1%Z|exists 0%Z, 2%Z|exists 0%Z, 3%Z|exists 1%Z, 2%Z|exists 1%Z, 3%Z|exists 2%Z, 3%Z]; (split; [lia|split; [lia|split; [lia|apply J; auto; lra]]]).
Qed.
(* "samples[0] == start": for some start near 2^970 the first sample is a different number, with
   every exp and every log good to one unit in the last place. *)
Theorem C128_ends_refuted flog fexp : log_good flog -> exists start : f64, fin start /\ 0 < val start /\ Rabs (ln (val start)) <= 680 /\
  forall (stop : f64) num, fin stop -> 0 < val stop -> (2 <= num)%nat ->
    exists r, fspanl flog fexp (scalar start) (scalar stop) num 0 = Ok r /\ neqb (get r [0%nat]) start = false.
Proof.
  intros GL. destruct (same_log flog GL) as (i & j & Hi & Hj & N & E).
  assert (P : forall k, (0 <= k <= 3)%Z -> fin (top k) /\ 0 < val (top k) /\ Rabs (ln (val (top k))) <= 680).
  { intros k Hk. destruct (top_val k Hk) as [F V]. pose proof (top_ln k Hk) as L. pose proof ln_top. split; [exact F|]. split; [|rewrite Rabs_pos_eq; lra].
    rewrite V. assert (0 <= IZR k) by (apply IZR_le; lia). apply Rmult_lt_0_compat; [apply pow_lt; lra|]. assert (0 <= IZR k * / 2 ^ 52) by (apply Rmult_le_pos; lra). lra. }
  assert (G : forall k, (0 <= k <= 3)%Z -> forall stop num, fin stop -> 0 < val stop -> (2 <= num)%nat ->
    exists r, fspanl flog fexp (scalar (top k)) (scalar stop) num 0 = Ok r /\ get r [0%nat] = nmul (n1 : f64) (fexp (nadd (flog (top k)) n0))).
  { intros k Hk stop num Fs Ps Hn. destruct (P k Hk) as (Fk & Pk & _).
    destruct (fspanl_at flog fexp (scalar (top k)) (scalar stop) num 0 0 []) as (r & Er & _ & Gr); auto.
    - split; [cbn; lia|left; reflexivity].
    - intros idx _. change (bget (scalar (top k)) idx) with (top k). change (bget (scalar stop) idx) with stop. split; [exact Fk|]. split; [exact Fs|]. apply Rmult_lt_0_compat; assumption.
    - exists r. split; [exact Er|]. specialize (Gr [] 0%nat (Forall2_nil _) ltac:(lia)). change (insert_at 0 0%nat []) with [0%nat] in Gr. rewrite Gr.
      change (bget (scalar (top k)) []) with (top k). change (bget (scalar stop) []) with stop.
      assert (S1 : fsgn (top k) = n1). { unfold fsgn. rewrite !flt_val by (auto; reflexivity). change (val n0) with 0. destruct (Rltb_spec (val (top k)) 0); [lra|]. destruct (Rltb_spec 0 (val (top k))); [reflexivity|lra]. }
      assert (S2 : fabs (top k) = top k). { assert (C : k = 0%Z \/ k = 1%Z \/ k = 2%Z \/ k = 3%Z) by lia. clear - C. unfold fabs. apply B2SF_inj. destruct C as [-> |[-> |[-> | ->]]]; vm_compute; reflexivity. }
      rewrite S1. f_equal. f_equal. unfold fexpo. rewrite S2. destruct num as [|[|m]]; [lia|lia|]. replace (S (S m) - 1)%nat with (S m) by lia. reflexivity. }
  set (z := nmul (n1 : f64) (fexp (nadd (flog (top i)) n0))) in *.
  assert (NE : val (top i) <> val (top j)).
  { destruct (top_val i Hi) as [_ ->]. destruct (top_val j Hj) as [_ ->]. intros X. apply Rmult_eq_reg_l in X; [|apply pow_nonzero; lra]. apply N, eq_IZR.
    assert (Y : IZR i * / 2 ^ 52 = IZR j * / 2 ^ 52) by lra. apply Rmult_eq_reg_r in Y; [exact Y|]. apply Rinv_neq_0_compat. lra. }
  destruct (neqb z (top i)) eqn:Z.
  - exists (top j). destruct (P j Hj) as (Fj & Pj & Lj). split; [exact Fj|]. split; [exact Pj|]. split; [exact Lj|]. intros stop num Fs Ps Hn.
    destruct (G j Hj stop num Fs Ps Hn) as (r & Er & V). exists r. split; [exact Er|]. rewrite V, <- E. fold z.
    destruct (neqb z (top j)) eqn:Y; [|reflexivity]. exfalso. destruct (P i Hi) as (Fi & Pi & _). apply neqb_val in Z; [|exact Fi|lra]. apply neqb_val in Y; [|exact Fj|lra]. congruence.
  - exists (top i). destruct (P i Hi) as (Fi & Pi & Li). split; [exact Fi|]. split; [exact Pi|]. split; [exact Li|]. intros stop num Fs Ps Hn.
    destruct (G i Hi stop num Fs Ps Hn) as (r & Er & V). exists r. split; [exact Er|]. rewrite V. exact Z.
Qed.
Print Assumptions C128_ends_refuted.

(** ** The correctly rounded functions meet the hypotheses *)
Lemma ln_far (x : f64) : 0 < val x -> ln (val x) = 0 \/ / 10 ^ 20 <= Rabs (ln (val x)).
Proof.
  intros P. assert (I1 : 1 + ln (val x) <= val x) by (rewrite <- (exp_ln (val x)) at 2 by exact P; apply exp_ineq1_le).
  assert (I2 : 1 - ln (val x) <= / val x). { rewrite <- (exp_ln (val x)) at 2 by exact P. rewrite <- exp_Ropp. apply exp_ineq1_le. }
  destruct (Rlt_le_dec (val x) (/ 2)) as [S|S]; [right; rewrite Rabs_left; lra|].
  destruct (grid x 0) as [n En]; [replace (bpow radix2 (0 - 1)) with (/ 2) by (cbn; lra); rewrite Rabs_pos_eq; lra|]. replace (bpow radix2 (0 - 53)) with (/ 2 ^ 53) in En by (cbn; lra).
  destruct (Z.lt_trichotomy n (2 ^ 53)) as [H|[H|H]].
  - right. assert (X : IZR n <= 2 ^ 53 - 1) by (replace (2 ^ 53 - 1) with (IZR (2 ^ 53 - 1)) by (change (2 ^ 53 - 1)%Z with 9007199254740991%Z; lra); apply IZR_le; lia).
    assert (val x <= 1 - / 2 ^ 53) by (rewrite En; replace (1 - / 2 ^ 53) with ((2 ^ 53 - 1) * / 2 ^ 53) by lra; apply Rmult_le_compat_r; lra). rewrite Rabs_left; lra.
  - left. rewrite En, H. replace (IZR (2 ^ 53) * / 2 ^ 53) with 1 by (change (2 ^ 53)%Z with 9007199254740992%Z; lra). apply ln_1.
  - right. assert (X : 2 ^ 53 + 1 <= IZR n) by (replace (2 ^ 53 + 1) with (IZR (2 ^ 53 + 1)) by (change (2 ^ 53 + 1)%Z with 9007199254740993%Z; lra); apply IZR_le; lia).
    assert (Y : 1 + / 2 ^ 53 <= val x) by (rewrite En; replace (1 + / 2 ^ 53) with ((2 ^ 53 + 1) * / 2 ^ 53) by lra; apply Rmult_le_compat_r; lra).
    assert (Z : / val x <= / (1 + / 2 ^ 53)) by (apply Rinv_le_contravar; lra). assert (W : / (1 + / 2 ^ 53) <= 1 - / 2 ^ 54).
    { apply (Rmult_le_reg_l (1 + / 2 ^ 53)); [lra|]. rewrite Rinv_r by lra. lra. }
    rewrite Rabs_pos_eq; lra.
Qed.
Lemma log_good_round : log_good (fun x => fround (ln (val x))).
Proof.
  intros x F P L. destruct (fround_ok (ln (val x))) as [Fr V]; [eapply Rle_trans; [exact L|]; apply Rle_trans with (10 ^ 3); [lra|apply Rle_pow; [lra|lia]]|].
  split; [exact Fr|]. rewrite V. pose proof uro_pos as U. destruct (ln_far x P) as [-> |H]; [rewrite rnd_0, Rminus_0_r, Rabs_R0; lra|].
  eapply Rle_trans; [apply rnd_rel|apply Rmult_le_compat_r; [apply Rabs_pos|lra]]. eapply Rle_trans; [|exact H]. apply Rinv_le_contravar; [apply pow_lt; lra|apply Rle_pow; [lra|lia]].
Qed.
Lemma exp_big t : Rabs t <= 681 -> / 10 ^ 301 <= exp t <= 10 ^ 301.
Proof.
  assert (Q : exp (227 / 100) <= 10).
  { assert (X : exp (- (227 / 100)) = exp (- (227 / 10000)) ^ 100). { rewrite <- (Rpower_pow 100) by apply exp_pos. unfold Rpower. rewrite ln_exp. f_equal. replace (INR 100) with 100 by (rewrite INR_IZR_INZ; reflexivity). lra. }
    assert (Y : / 10 <= exp (- (227 / 100))). { rewrite X. apply Rle_trans with ((9773 / 10000) ^ 100); [lra|]. apply pow_incr. split; [lra|]. pose proof (exp_ineq1 (- (227 / 10000)) ltac:(lra)). lra. }
    rewrite exp_Ropp in Y. pose proof (exp_pos (227 / 100)) as P. apply (Rmult_le_compat_r (exp (227 / 100))) in Y; [|lra]. rewrite Rinv_l in Y by lra. lra. }
  assert (B : exp 681 <= 10 ^ 301).
  { apply Rle_trans with (exp (227 / 100) ^ 301); [|apply pow_incr; split; [left; apply exp_pos|exact Q]]. rewrite <- (Rpower_pow 301) by apply exp_pos. unfold Rpower. rewrite ln_exp.
    left. apply exp_increasing. replace (INR 301) with 301 by (rewrite INR_IZR_INZ; reflexivity). lra. }
  intros H. apply Rabs_le_inv in H. assert (M : forall u v, u <= v -> exp u <= exp v) by (intros u v [X|X]; [left; now apply exp_increasing|rewrite X; lra]). split.
  - apply Rle_trans with (exp (Ropp 681)); [|apply M; lra]. rewrite exp_Ropp. apply Rinv_le_contravar; [apply exp_pos|exact B].
  - apply Rle_trans with (exp 681); [apply M; lra|exact B].
Qed.
Lemma exp_good_round : exp_good (fun x => fround (exp (val x))).
Proof.
  intros x F L. pose proof (exp_big _ L) as B. pose proof (exp_pos (val x)) as P. destruct (fround_ok (exp (val x))) as [Fr V]; [rewrite Rabs_pos_eq; lra|].
  split; [exact Fr|]. rewrite V. pose proof uro_pos as U. rewrite <- (Rabs_pos_eq (exp (val x))) at 3 by lra.
  eapply Rle_trans; [apply rnd_rel; rewrite Rabs_pos_eq; lra|apply Rmult_le_compat_r; [apply Rabs_pos|lra]].
Qed.
(* five samples from -1 to -16 with them: the exponents are quarters of ln 16, and the middle sample is near -4 *)
Example C128_case : let lg := fun x => fround (ln (val x)) in let ex := fun x => fround (exp (val x)) in
  log_good lg /\ exp_good ex /\ span_in (scalar (nofZ (-1))) (scalar (nofZ (-16))) [] /\
  exists r, fspanl lg ex (scalar (nofZ (-1))) (scalar (nofZ (-16))) 5 0 = Ok r /\ shp r = [5%nat] /\
    fin (get r [2%nat]) /\ Rabs (val (get r [2%nat]) + 4) <= 24 / 10 ^ 12.
Proof.
  intros lg ex. destruct (fofZ_val (-1) ltac:(lia)) as [F1 V1]. destruct (fofZ_val (-16) ltac:(lia)) as [F2 V2].
  assert (L4 : ln (Rabs (-16)) = 4 * ln 2) by (rewrite Rabs_left by lra; replace (- -16) with (2 ^ 4) by lra; rewrite ln_pow by lra; cbn [INR]; lra).
  assert (L1 : ln (Rabs (-1)) = 0) by (rewrite Rabs_left by lra; replace (- -1) with 1 by lra; apply ln_1). pose proof ln2_bounds as LB.
  assert (SI : span_in (scalar (nofZ (-1))) (scalar (nofZ (-16))) []).
  { intros idx _. change (bget (scalar (nofZ (-1) : f64)) idx) with (nofZ (-1) : f64). change (bget (scalar (nofZ (-16) : f64)) idx) with (nofZ (-16) : f64). split; [exact F1|]. split; [exact F2|].
    rewrite V1, V2. split; [lra|]. unfold lmax. rewrite L1, L4. apply Rmax_lub; [rewrite Rabs_R0|rewrite Rabs_pos_eq]; lra. }
  split; [exact log_good_round|]. split; [exact exp_good_round|]. split; [exact SI|].
  destruct (C128_relative lg ex (scalar (nofZ (-1))) (scalar (nofZ (-16))) 5 0 0 []) as (r & E & Sr & G); auto.
  { exact log_good_round. } { exact exp_good_round. } { lia. } { split; [cbn; lia|left; reflexivity]. }
  exists r. split; [exact E|]. split; [exact Sr|]. destruct (G [] 2%nat (Forall2_nil _) ltac:(lia)) as [F B]. change (insert_at 0 2%nat []) with [2%nat] in F, B.
  change (bget (scalar (nofZ (-1) : f64)) []) with (nofZ (-1) : f64) in B. change (bget (scalar (nofZ (-16) : f64)) []) with (nofZ (-16) : f64) in B. rewrite V1, V2 in B.
  split; [exact F|]. replace (Rsgn (-1) * exp (lexpo (-1) (-16) (5 - 1) 2)) with (-4) in B.
  - rewrite (Rabs_left (-4)) in B by lra. cbn [INR] in B. replace (val (get r [2%nat]) + 4) with (val (get r [2%nat]) - -4) by ring. lra.
  - unfold lexpo. rewrite L1, L4. replace (INR (5 - 1)) with 4 by (cbn; lra). cbn [INR]. replace (0 + (1 + 1) * ((4 * ln 2 - 0) / 4)) with (ln 2 + ln 2) by field. rewrite exp_plus, exp_ln by lra.
    unfold Rsgn. destruct (Rltb_spec (-1) 0); lra.
Qed.
(* from 1 to -1 *)
Example C128_rejects_case : fspanl (fun x => x) (fun x => x) (scalar (nofZ 1)) (scalar (nofZ (-1))) 5 0 = Err ValueError.
Proof.
  destruct (fofZ_val 1 ltac:(lia)) as [F1 V1]. destruct (fofZ_val (-1) ltac:(lia)) as [F2 V2].
  apply (C128_rejects _ _ _ _ _ _ [] []); [reflexivity|constructor|exact F1|exact F2|].
  change (bget (scalar (nofZ 1 : f64)) []) with (nofZ 1 : f64). change (bget (scalar (nofZ (-1) : f64)) []) with (nofZ (-1) : f64). rewrite V1, V2. lra.
Qed.
