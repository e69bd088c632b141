(* When the system of splfit has a solution: the data determine the fit and the constraints are independent. *)
From Coq Require Import List Arith ZArith Lia Bool Reals Lra.
From Verif Require Import Num PyBase NdArray NdLemmas Poly SpecPoly PolyProofs PwPoly PwBase RSum SolvePer SolveProofs Gauss PropsSolve PwCtor Spline SplineProofs SplineCore SplineSolve SplineFacts Fit FitProofs SplfitMat SplfitProofs.
Import ListNotations.
Local Open Scope R_scope.

(* pieces of degree n which match at the interior knots in the derivatives of order 0..nc *)
Definition smoothQ (K : list R) (n nc : nat) (Q : nat -> list R) : Prop :=
  (forall k, (S k < length K)%nat -> length (Q k) = (n + 1)%nat) /\
  forall k m, (S (S k) < length K)%nat -> (m <= nc)%nat -> tay m (Q k) (dxs K k) = nth m (Q (S k)) 0.
(* the pieces of the polynomial (t - a)^m *)
Definition shifted (K : list R) (n m : nat) (a : R) (k : nat) : list R := tlist n (repeat 0 m ++ [1]) (nth k K 0 - a).
Lemma tay_mono0 m k : tay k (repeat 0 m ++ [1]) 0 = if (k =? m)%nat then 1 else 0.
Proof.
  rewrite tay_at_0. destruct (Nat.eqb_spec k m) as [->|H].
  - rewrite app_nth2, repeat_length, Nat.sub_diag by (rewrite repeat_length; lia). reflexivity.
  - destruct (Nat.lt_ge_cases k m).
    + rewrite app_nth1 by (rewrite repeat_length; lia). apply nth_repeat.
    + rewrite app_nth2 by (rewrite repeat_length; lia). rewrite repeat_length. destruct (k - m)%nat as [|q] eqn:E; [lia|]. destruct q; reflexivity.
Qed.
Lemma shifted_len K n m a k : length (shifted K n m a k) = (n + 1)%nat.
Proof. unfold shifted. rewrite tlist_length. lia. Qed.
Lemma mono_len m : length (repeat 0 m ++ [1]) = S m.
Proof. rewrite app_length, repeat_length. cbn. lia. Qed.
Lemma shifted_tay K n m a k j h : (m <= n)%nat -> tay j (shifted K n m a k) h = tay j (repeat 0 m ++ [1]) (nth k K 0 - a + h).
Proof. intros H. unfold shifted. apply tay_tlist. rewrite mono_len. lia. Qed.
Lemma shifted_nth K n m a k j : (m <= n)%nat -> (j <= n)%nat -> nth j (shifted K n m a k) 0 = tay j (repeat 0 m ++ [1]) (nth k K 0 - a).
Proof. intros H1 H2. unfold shifted. apply tlist_nth. auto. Qed.
Lemma shifted_step K n m a k j : (m <= n)%nat -> (j <= n)%nat -> tay j (shifted K n m a k) (dxs K k) = nth j (shifted K n m a (S k)) 0.
Proof. intros H1 H2. rewrite shifted_tay, shifted_nth by auto. f_equal. unfold dxs. numR. ring. Qed.
Lemma shifted_smooth K n nc m a : (m <= n)%nat -> (nc <= n)%nat -> smoothQ K n nc (shifted K n m a).
Proof. intros H1 H2. split; [intros; apply shifted_len|]. intros k j _ Hj. apply shifted_step; lia. Qed.

Lemma tay_add c d k h : length c = length d -> tay k (zipw Rplus c d) h = tay k c h + tay k d h.
Proof.
  revert d k; induction c as [|a c IH]; intros [|b d] k L; cbn in L; try discriminate; [cbn; ring|].
  injection L as L. cbn [zipw tay]. destruct k; rewrite !IH by auto; ring.
Qed.
Lemma tay_smul a c k h : tay k (map (Rmult a) c) h = a * tay k c h.
Proof. revert k; induction c as [|b c IH]; intros k; cbn [map tay]; [ring|]. destruct k; rewrite !IH; ring. Qed.

Lemma binom_pos m k : (k <= m)%nat -> (1 <= binom m k)%nat.
Proof.
  revert k; induction m as [|m IH]; intros [|k] H; [cbn; lia|lia|rewrite binom_0; lia|]. rewrite binom_SS. specialize (IH k). lia.
Qed.
Section Kernel.
  Variables (K : list R) (n nc N : nat) (ix : nat -> nat) (fx w : nat -> R).
  Hypothesis HK : incr K.
  Hypothesis LK : (2 <= length K)%nat.
  Hypothesis Hnc : (nc < n)%nat.
  Let nk1 := (length K - 1)%nat.
  Hypothesis Hix : forall t, (t < N)%nat -> (ix t < nk1)%nat.
  Hypothesis Hw : forall t, (t < N)%nat -> 0 < w t.
  Let xi t := (fx t - nth (ix t) K 0) * (1 / dxs K (ix t)).
  Let xp k p := bincount N ix (wpow w xi p) k.
  Local Notation bs := (n + 2 + nc)%nat.
  Let pvl := pv K ix fx.
  Lemma bin0 (f : nat -> R) k : bincount N ix (fun t => f t * 0) k = 0.
  Proof using. rewrite bincount_R. apply rsum_zero. intros t _. destruct (_ =? _)%nat; ring. Qed.
  Lemma all_zero Q : rsum N (fun t => w t * (pvl Q t - 0) * pvl Q t) = 0 -> forall t, (t < N)%nat -> pvl Q t = 0.
  Proof using Hw.
    intros E t Ht. pose proof (rsum_nonneg_0 N (fun t => w t * (pvl Q t - 0) * pvl Q t)) as Z. cbv beta in Z.
    specialize (Z ltac:(intros i Hi; replace (w i * (pvl Q i - 0) * pvl Q i) with (w i * Rsqr (pvl Q i)) by (unfold Rsqr; ring); apply Rmult_le_pos; [apply Rlt_le, Hw; auto|apply Rle_0_sqr]) E t Ht).
    pose proof (Hw t Ht). replace (w t * (pvl Q t - 0) * pvl Q t) with (w t * Rsqr (pvl Q t)) in Z by (unfold Rsqr; ring).
    apply Rmult_integral in Z as [Z|Z]; [lra|]. apply Rsqr_0_uniq. exact Z.
  Qed.
  (* index of an unknown *)
  Lemma sys_index nlo nhi j : (nhi <= nc + 1)%nat -> (j < syslen n nc nk1 nlo nhi)%nat ->
    (j < nlo)%nat \/ (exists k p, (k < nk1)%nat /\ (p < n + 1)%nat /\ j = (nlo + (k * bs + p))%nat) \/
    (exists k m, (S k < nk1)%nat /\ (m < nc + 1)%nat /\ j = (nlo + (k * bs + (n + 1 + m)))%nat) \/
    (exists m, (m < nhi)%nat /\ j = (nlo + ((nk1 - 1) * bs + (n + 1 + m)))%nat).
  Proof using LK Hnc.
    intros Hhi Hj. destruct (Nat.lt_ge_cases j nlo) as [|G]; [left; auto|right].
    set (q := (j - nlo)%nat). assert (P : (1 <= nk1)%nat) by (unfold nk1; lia).
    assert (Ej : j = (nlo + ((q / bs) * bs + q mod bs))%nat).
    { pose proof (Nat.div_mod q bs ltac:(lia)) as E. rewrite Nat.mul_comm in E. rewrite <- E. unfold q. lia. }
    pose proof (Nat.mod_upper_bound q bs ltac:(lia)) as Hm.
    assert (Hq : (q < bs * nk1)%nat) by (unfold syslen in Hj; unfold q; lia).
    assert (Hd : (q / bs < nk1)%nat) by (apply Nat.div_lt_upper_bound; lia).
    destruct (Nat.lt_ge_cases (q mod bs) (n + 1)) as [L|L].
    - left. exists (q / bs)%nat, (q mod bs)%nat. auto.
    - right. assert (Em : (q mod bs = n + 1 + (q mod bs - (n + 1)))%nat) by lia. rewrite Em in Ej.
      destruct (Nat.eq_dec (q / bs) (nk1 - 1)) as [E|E].
      + right. exists (q mod bs - (n + 1))%nat. rewrite E in Ej. split; [|exact Ej]. rewrite Ej in Hj.
        clear - Hj Hhi P. unfold syslen in Hj. replace (bs * nk1)%nat with ((nk1 - 1) * bs + bs)%nat in Hj.
        * revert Hj. generalize ((nk1 - 1) * bs)%nat. intros. lia.
        * destruct nk1; [lia|]. replace (S n0 - 1)%nat with n0 by lia. ring.
      + left. exists (q / bs)%nat, (q mod bs - (n + 1))%nat. repeat split; auto; lia.
  Qed.
  (* tests that are smooth except at one knot *)
  Definition jumpQ (k m : nat) (k' : nat) : list R :=
    if (k' <=? k)%nat then repeat 0 (n + 1) else shifted K n m (nth (S k) K 0) k'.
  Lemma jumpQ_len k m k' : length (jumpQ k m k') = (n + 1)%nat.
  Proof using. unfold jumpQ. destruct (_ <=? _)%nat; [apply repeat_length|apply shifted_len]. Qed.
  Lemma jumpQ_jump k m k' j : (m <= n)%nat -> (j <= n)%nat ->
    tay j (jumpQ k m k') (dxs K k') - nth j (jumpQ k m (S k')) 0 = if ((k' =? k) && (j =? m))%nat then - (1) else 0.
  Proof using LK Hnc.
    intros Hm Hj. unfold jumpQ. destruct (Nat.leb_spec k' k) as [L|L].
    - rewrite tay_zeros. destruct (Nat.eqb_spec k' k) as [->|E].
      + destruct (Nat.leb_spec (S k) k); [lia|]. rewrite shifted_nth by auto. rewrite (Rminus_diag_eq (nth (S k) K 0)) by reflexivity. rewrite tay_mono0. cbn [andb]. destruct (_ =? _)%nat; ring.
      + destruct (Nat.leb_spec (S k') k); [|lia]. rewrite nth_repeat. cbn [andb]. ring.
    - destruct (Nat.leb_spec (S k') k); [lia|]. rewrite shifted_step by auto. destruct (Nat.eqb_spec k' k); [lia|]. cbn [andb]. ring.
  Qed.

  Section NonPer.
    Variables nlo nhi : nat.
    Hypothesis Hlo : (nlo <= nc + 1)%nat.
    Hypothesis Hhi : (nhi <= nc + 1)%nat.
    Hypothesis Det : forall Q, smoothQ K n nc Q -> (forall j, (j < nlo)%nat -> nth j (Q 0%nat) 0 = 0) ->
      (forall m, (m < nhi)%nat -> tay m (Q (nk1 - 1)%nat) (dxs K (nk1 - 1)) = 0) -> (forall t, (t < N)%nat -> pvl Q t = 0) ->
      forall k p, (k < nk1)%nat -> nth p (Q k) 0 = 0.
    Hypothesis Surj : forall a b : nat -> R, exists Q, smoothQ K n nc Q /\ (forall j, (j < nlo)%nat -> nth j (Q 0%nat) 0 = a j) /\
      (forall m, (m < nhi)%nat -> tay m (Q (nk1 - 1)%nat) (dxs K (nk1 - 1)) = b m).
    Lemma np_nonsing : nonsing (syslen n nc nk1 nlo nhi) (sysmat n nc nk1 nlo nhi xp (sf_rat K)).
    Proof using HK LK Hnc Hix Hw Hlo Hhi Det Surj.
      intros v Hv. set (z := fun _ : nat => 0).
      assert (HX : forall i, (i < syslen n nc nk1 nlo nhi)%nat ->
        rsum (syslen n nc nk1 nlo nhi) (fun j => sysmat n nc nk1 nlo nhi xp (sf_rat K) i j * v j) = np_rhs K n nc N ix fx w nlo nhi z z z i).
      { intros i Hi. rewrite Hv by auto. unfold np_rhs, z. destruct (_ <? _)%nat; [ring|]. destruct (_ <=? _)%nat; [ring|].
        destruct (_ <? _)%nat; [rewrite bin0|]; reflexivity. }
      set (Q := sf_col K n nc nlo v).
      assert (S1 : smoothQ K n nc Q).
      { split; [intros; apply sf_col_len|]. intros k m Hk Hm. unfold Q. eapply np_smooth with (1 := HK); eauto. unfold nk1. lia. }
      assert (S2 : forall j, (j < nlo)%nat -> nth j (Q 0%nat) 0 = 0).
      { intros j Hj. unfold Q. rewrite (np_lo K n nc N ix fx w HK LK Hnc nlo nhi z z z v Hlo Hhi HX j Hj). reflexivity. }
      assert (S3 : forall m, (m < nhi)%nat -> tay m (Q (nk1 - 1)%nat) (dxs K (nk1 - 1)) = 0).
      { intros m Hm. unfold Q, nk1. rewrite (np_hi K n nc N ix fx w HK LK Hnc nlo nhi z z z v Hlo Hhi HX m Hm). reflexivity. }
      pose proof (np_stat K n nc N ix fx w HK LK Hnc Hix nlo nhi z z z v Hlo Hhi HX) as ST. fold Q nk1 in ST.
      assert (LQ : forall k, (k < nk1)%nat -> length (Q k) = (n + 1)%nat) by (intros; apply sf_col_len).
      assert (Z : forall t, (t < N)%nat -> pvl Q t = 0).
      { apply all_zero. pose proof (ST Q LQ) as EQ. unfold z in EQ. fold pvl in EQ. rewrite EQ. rewrite (rsum_zero nlo) by (intros j Hj; rewrite S2 by auto; ring).
        rewrite (rsum_zero nhi) by (intros m Hm; rewrite S3 by auto; ring). rewrite rsum_zero; [ring|]. intros k Hk. apply rsum_zero. intros m Hm.
        destruct S1 as [_ S1]. rewrite S1 by (unfold nk1 in *; lia). ring. }
      pose proof (Det Q S1 S2 S3 Z) as Q0.
      assert (V0 : forall Q', (forall k, (k < nk1)%nat -> length (Q' k) = (n + 1)%nat) ->
        0 = rsum nlo (fun j => np_lam K v j * nth j (Q' 0%nat) 0) -
        rsum (nk1 - 1) (fun k => rsum (nc + 1) (fun m => np_mul K n nc nlo v k m * (tay m (Q' k) (dxs K k) - nth m (Q' (S k)) 0))) -
        rsum nhi (fun m => np_mul K n nc nlo v (nk1 - 1) m * tay m (Q' (nk1 - 1)%nat) (dxs K (nk1 - 1)))).
      { intros Q' L. rewrite <- (ST Q' L). symmetry. apply rsum_zero. intros t Ht. unfold pvl in Z. rewrite Z by auto. unfold z. ring. }
      assert (SM : forall Q', smoothQ K n nc Q' ->
        0 = rsum nlo (fun j => np_lam K v j * nth j (Q' 0%nat) 0) - rsum nhi (fun m => np_mul K n nc nlo v (nk1 - 1) m * tay m (Q' (nk1 - 1)%nat) (dxs K (nk1 - 1)))).
      { intros Q' [L1 L2]. pose proof (V0 Q' ltac:(intros k Hk; apply L1; unfold nk1 in Hk; lia)) as E.
        rewrite (rsum_zero (nk1 - 1)) in E; [lra|]. intros k Hk. apply rsum_zero. intros m Hm. rewrite L2 by (unfold nk1 in *; lia). ring. }
      assert (LAM : forall j, (j < nlo)%nat -> np_lam K v j = 0).
      { intros j Hj. destruct (Surj (fun i => if (i =? j)%nat then 1 else 0) z) as (Q' & A1 & A2 & A3). specialize (SM Q' A1).
        rewrite (rsum_zero nhi) in SM by (intros m Hm; rewrite A3 by auto; unfold z; ring).
        rewrite (rsum_single nlo j) in SM; [|auto|intros i Hi Hne; rewrite A2 by auto; destruct (Nat.eqb_spec i j); [lia|ring]].
        rewrite A2, Nat.eqb_refl in SM by auto. lra. }
      assert (MH : forall m, (m < nhi)%nat -> np_mul K n nc nlo v (nk1 - 1) m = 0).
      { intros m Hm. destruct (Surj z (fun i => if (i =? m)%nat then 1 else 0)) as (Q' & A1 & A2 & A3). specialize (SM Q' A1).
        rewrite (rsum_zero nlo) in SM by (intros i Hi; rewrite A2 by auto; unfold z; ring).
        rewrite (rsum_single nhi m) in SM; [|auto|intros i Hi Hne; rewrite A3 by auto; destruct (Nat.eqb_spec i m); [lia|ring]].
        rewrite A3, Nat.eqb_refl in SM by auto. lra. }
      assert (MK : forall k m, (S k < nk1)%nat -> (m < nc + 1)%nat -> np_mul K n nc nlo v k m = 0).
      { intros k m Hk Hm. pose proof (V0 (jumpQ k m) (fun k' _ => jumpQ_len k m k')) as E.
        rewrite (rsum_zero nlo) in E by (intros j Hj; rewrite LAM by auto; ring). rewrite (rsum_zero nhi) in E by (intros i Hi; rewrite MH by auto; ring).
        rewrite (rsum_single (nk1 - 1) k) in E; [|lia|].
        2:{ intros k' Hk' Hne. apply rsum_zero. intros j Hj. rewrite jumpQ_jump by lia. destruct (Nat.eqb_spec k' k); [lia|]. cbn [andb]. ring. }
        rewrite (rsum_single (nc + 1) m) in E; [|lia|].
        2:{ intros j Hj Hne. rewrite jumpQ_jump by lia. destruct (Nat.eqb_spec j m); [lia|]. rewrite andb_false_r. ring. }
        rewrite jumpQ_jump, !Nat.eqb_refl in E by lia. cbn [andb] in E. lra. }
      assert (DX : forall k m, (k < nk1)%nat -> dxs K k ^ m <> 0) by (intros k m Hk; apply pow_nonzero, dx0; auto).
      intros j Hj. destruct (sys_index nlo nhi j Hhi Hj) as [H|[(k & p & H1 & H2 & ->)|[(k & m & H1 & H2 & ->)|(m & H1 & ->)]]].
      - specialize (LAM j H). unfold np_lam in LAM. apply Rmult_integral in LAM as [|LAM]; auto. exfalso. revert LAM. apply DX. unfold nk1. lia.
      - rewrite <- (nth_sf_col K n nc HK LK nlo v k p H2 H1). unfold sv. fold Q. rewrite Q0 by auto. ring.
      - specialize (MK k m H1 H2). unfold np_mul in MK. apply Rmult_integral in MK as [|MK]; auto. exfalso. revert MK. apply DX. lia.
      - specialize (MH m H1). unfold np_mul in MH. apply Rmult_integral in MH as [|MH]; auto. exfalso. revert MH. apply DX. unfold nk1. lia.
    Qed.
  End NonPer.
  (* boundary values on one side only can always be met *)
  Lemma surj_one_side nlo nhi : (nlo <= nc + 1)%nat -> (nhi <= nc + 1)%nat -> nlo = 0%nat \/ nhi = 0%nat ->
    forall a b : nat -> R, exists Q, smoothQ K n nc Q /\ (forall j, (j < nlo)%nat -> nth j (Q 0%nat) 0 = a j) /\
      (forall m, (m < nhi)%nat -> tay m (Q (nk1 - 1)%nat) (dxs K (nk1 - 1)) = b m).
  Proof using LK Hnc.
    intros Hlo Hhi H a b. set (c := match nhi with O => map a (seq 0 (n + 1)) | _ => map b (seq 0 (n + 1)) end).
    set (x0 := match nhi with O => nth 0 K 0 | _ => nth nk1 K 0 end).
    assert (Lc : length c = (n + 1)%nat) by (unfold c; destruct nhi; rewrite map_length, seq_length; reflexivity).
    exists (fun k => tlist n c (nth k K 0 - x0)). split; [split|split].
    - intros k _. rewrite tlist_length. lia.
    - intros k m _ Hm. rewrite tay_tlist, tlist_nth by lia. f_equal. unfold dxs. numR. ring.
    - intros j Hj. destruct H as [H|H]; [lia|]. rewrite tlist_nth by lia. unfold x0, c. rewrite H, (Rminus_diag_eq (nth 0 K 0)), tay_at_0 by reflexivity.
      apply (map_seq_nth a). lia.
    - intros m Hm. destruct H as [H|H]; [|lia]. rewrite tay_tlist by lia. unfold x0, c. destruct nhi; [lia|].
      replace (nth (nk1 - 1) K 0 - nth nk1 K 0 + dxs K (nk1 - 1)) with 0.
      + rewrite tay_at_0. apply (map_seq_nth b). lia.
      + unfold dxs. numR. replace (S (nk1 - 1)) with nk1 by (unfold nk1; lia). ring.
  Qed.

  Section Periodic.
    Local Notation nxt k := ((k + 1) mod nk1)%nat.
    Hypothesis Det : forall Q, smoothQ K n nc Q -> (forall m, (m <= nc)%nat -> tay m (Q (nk1 - 1)%nat) (dxs K (nk1 - 1)) = nth m (Q 0%nat) 0) ->
      (forall t, (t < N)%nat -> pvl Q t = 0) -> forall k p, (k < nk1)%nat -> nth p (Q k) 0 = 0.
    Lemma nxt_small k : (S k < nk1)%nat -> nxt k = S k.
    Proof using LK Hnc. intros H. rewrite Nat.mod_small; lia. Qed.
    Lemma nxt_last : nxt (nk1 - 1) = 0%nat.
    Proof using LK Hnc. replace (nk1 - 1 + 1)%nat with nk1 by (unfold nk1; lia). apply Nat.mod_same. unfold nk1. lia. Qed.
    Lemma per_nonsing : nonsing (bs * nk1) (permat n nc nk1 xp (sf_rat K)).
    Proof using HK LK Hnc Hix Hw Det.
      intros v Hv. set (z := fun _ : nat => 0). assert (NK : (1 <= nk1)%nat) by (unfold nk1; lia).
      assert (HX : forall i, (i < bs * nk1)%nat -> rsum (bs * nk1) (fun j => permat n nc nk1 xp (sf_rat K) i j * v j) = per_rhs K n nc N ix fx w z i).
      { intros i Hi. rewrite Hv by auto. unfold per_rhs, z. destruct (_ <? _)%nat; [rewrite bin0|]; reflexivity. }
      set (Q := sf_col K n nc 0 v).
      pose proof (per_smooth K n nc N ix fx w HK LK Hnc z v HX) as PS. fold Q nk1 in PS.
      assert (S1 : smoothQ K n nc Q).
      { split; [intros; apply sf_col_len|]. intros k m Hk Hm. rewrite PS by (unfold nk1; lia). rewrite nxt_small by (unfold nk1; lia). reflexivity. }
      assert (S2 : forall m, (m <= nc)%nat -> tay m (Q (nk1 - 1)%nat) (dxs K (nk1 - 1)) = nth m (Q 0%nat) 0).
      { intros m Hm. rewrite PS by lia. rewrite nxt_last. reflexivity. }
      pose proof (per_statQ K n nc N ix fx w HK LK Hnc Hix z v HX) as ST. fold Q nk1 in ST.
      assert (LQ : forall k, (k < nk1)%nat -> length (Q k) = (n + 1)%nat) by (intros; apply sf_col_len).
      assert (Z : forall t, (t < N)%nat -> pvl Q t = 0).
      { apply all_zero. pose proof (ST Q LQ) as EQ. unfold z in EQ. fold pvl in EQ. rewrite EQ. rewrite rsum_zero; [ring|]. intros k Hk. apply rsum_zero. intros m Hm. rewrite PS by lia. ring. }
      pose proof (Det Q S1 S2 Z) as Q0.
      assert (V0 : forall Q', (forall k, (k < nk1)%nat -> length (Q' k) = (n + 1)%nat) ->
        0 = rsum nk1 (fun k => rsum (nc + 1) (fun m => per_mul K n nc v k m * (tay m (Q' k) (dxs K k) - nth m (Q' (nxt k)) 0)))).
      { intros Q' L. pose proof (ST Q' L) as E. rewrite (rsum_zero N) in E by (intros t Ht; unfold pvl in Z; rewrite Z by auto; unfold z; ring). lra. }
      (* the multipliers of the last knot, by the global polynomials (t - x0)^p *)
      set (T := nth nk1 K 0 - nth 0 K 0). assert (HT : 0 < T) by (unfold T; assert (nth 0 K 0 < nth nk1 K 0) by (apply incr_lt; auto; unfold nk1; lia); lra).
      assert (ML : forall m, (m < nc + 1)%nat -> per_mul K n nc v (nk1 - 1) m = 0).
      { intros m. induction m as [m IH] using lt_wf_ind. intros Hm.
        pose proof (V0 (shifted K n (S m) (nth 0 K 0)) (fun k _ => shifted_len _ _ _ _ _)) as E.
        rewrite (rsum_single nk1 (nk1 - 1)) in E; [|lia|].
        2:{ intros k Hk Hne. apply rsum_zero. intros j Hj. rewrite nxt_small by lia. rewrite shifted_step by lia. ring. }
        rewrite nxt_last in E.
        assert (J : forall j, (j < nc + 1)%nat -> tay j (shifted K n (S m) (nth 0 K 0) (nk1 - 1)) (dxs K (nk1 - 1)) - nth j (shifted K n (S m) (nth 0 K 0) 0) 0 =
          tay j (repeat 0 (S m) ++ [1]) T - if (j =? S m)%nat then 1 else 0).
        { intros j Hj. rewrite shifted_tay, shifted_nth by lia. rewrite (Rminus_diag_eq (nth 0 K 0)) by reflexivity. rewrite tay_mono0. do 2 f_equal.
          unfold T, dxs. numR. replace (S (nk1 - 1)) with nk1 by lia. ring. }
        rewrite (rsum_ext (nc + 1) _ (fun j => per_mul K n nc v (nk1 - 1) j * (tay j (repeat 0 (S m) ++ [1]) T - if (j =? S m)%nat then 1 else 0))) in E
          by (intros j Hj; rewrite J by auto; reflexivity).
        assert (TT : forall j, tay j (repeat 0 (S m) ++ [1]) T * T ^ j = T ^ S m * INR (binom (S m) j)).
        { intros j. rewrite tay_mono, bin_binom. ring. }
        assert (TP : forall j, T ^ j <> 0) by (intros j; apply pow_nonzero; lra).
        rewrite (rsum_single (nc + 1) m) in E; [|lia|].
        2:{ intros j Hj Hne. destruct (Nat.lt_trichotomy j m) as [A|[A|A]]; [rewrite IH by lia; ring|lia|].
            destruct (Nat.eqb_spec j (S m)) as [->|B].
            - assert (tay (S m) (repeat 0 (S m) ++ [1]) T = 1) as ->; [|ring].
              pose proof (TT (S m)) as TE. rewrite binom_diag in TE. cbn [INR] in TE. apply (Rmult_eq_reg_r (T ^ S m)); [lra|auto].
            - assert (tay j (repeat 0 (S m) ++ [1]) T = 0) as ->; [|ring]. apply tay_big. rewrite mono_len. lia. }
        destruct (Nat.eqb_spec m (S m)); [lia|]. symmetry in E. apply Rmult_integral in E as [E|E]; [exact E|exfalso].
        pose proof (TT m) as TE. replace (tay m (repeat 0 (S m) ++ [1]) T) with 0 in TE by lra.
        rewrite Rmult_0_l in TE. symmetry in TE. apply Rmult_integral in TE as [TE|TE]; [revert TE; apply TP|].
        revert TE. apply not_0_INR. pose proof (binom_pos (S m) m). lia. }
      assert (MK : forall k m, (S k < nk1)%nat -> (m < nc + 1)%nat -> per_mul K n nc v k m = 0).
      { intros k m Hk Hm. pose proof (V0 (jumpQ k m) (fun k' _ => jumpQ_len k m k')) as E.
        rewrite (rsum_single nk1 k) in E; [|lia|].
        2:{ intros k' Hk' Hne. apply rsum_zero. intros j Hj. destruct (Nat.eq_dec k' (nk1 - 1)) as [->|]; [rewrite ML by lia; ring|].
            rewrite nxt_small by lia. rewrite jumpQ_jump by lia. destruct (Nat.eqb_spec k' k); [lia|]. cbn [andb]. ring. }
        rewrite nxt_small in E by lia. rewrite (rsum_single (nc + 1) m) in E; [|lia|].
        2:{ intros j Hj Hne. rewrite jumpQ_jump by lia. destruct (Nat.eqb_spec j m); [lia|]. rewrite andb_false_r. ring. }
        rewrite jumpQ_jump, !Nat.eqb_refl in E by lia. cbn [andb] in E. lra. }
      assert (DX : forall k m, (k < nk1)%nat -> dxs K k ^ m <> 0) by (intros k m Hk; apply pow_nonzero, dx0; auto).
      intros j Hj. assert (SL : syslen n nc nk1 0 (nc + 1) = (bs * nk1)%nat) by (unfold syslen; lia).
      destruct (sys_index 0 (nc + 1) j ltac:(lia) ltac:(rewrite SL; auto)) as [H|[(k & p & H1 & H2 & ->)|[(k & m & H1 & H2 & ->)|(m & H1 & ->)]]]; [lia| | |].
      - rewrite <- (nth_sf_col K n nc HK LK 0 v k p H2 H1). unfold sv. fold Q. rewrite Q0 by auto. ring.
      - specialize (MK k m H1 H2). unfold per_mul in MK. apply Rmult_integral in MK as [|MK]; auto. exfalso. revert MK. apply DX. lia.
      - specialize (ML m H1). unfold per_mul in ML. apply Rmult_integral in ML as [|ML]; auto. exfalso. revert ML. apply DX. lia.
    Qed.
  End Periodic.
End Kernel.
