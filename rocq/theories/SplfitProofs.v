(* The system of splfit in terms of the pieces of the fit: constraints and stationarity. *)
From Coq Require Import List Arith ZArith Lia Bool Reals Lra.
From Verif Require Import Num PyBase NdArray NdLemmas Poly SpecPoly PolyProofs PwPoly PwBase RSum SolvePer SolveProofs Gauss PropsSolve PwCtor Spline SplineProofs SplineCore SplineSolve SplineFacts Fit FitProofs SplfitMat.
Import ListNotations.
Local Open Scope R_scope.

Lemma dxscl_R (K : list R) k p : dxscl K k p = dxs K k ^ p.
Proof. destruct p; [reflexivity|]. cbn [dxscl]. rewrite dxpow_R. reflexivity. Qed.
Lemma wpow_R (w x : nat -> R) p t : wpow w x p t = w t * x t ^ p.
Proof. induction p as [|p IH]; cbn [wpow pow]; numR; [ring|]. rewrite IH. ring. Qed.
Lemma rsum_tay c n m h : length c = (n + 1)%nat ->
  rsum (n + 1) (fun j => INR (binom j m) * (nth j c 0 * h ^ j)) = tay m c h * h ^ m.
Proof.
  intros L. pose proof (tay_shifted m 0 c h) as E. cbn [repeat app Nat.add] in E. rewrite E, (ksum_rsum (length c)), L.
  apply rsum_ext. intros j _. rewrite bin_binom. ring.
Qed.
Lemma rsum_peval c n h : length c = (n + 1)%nat -> rsum (n + 1) (fun j => nth j c 0 * h ^ j) = peval c h.
Proof.
  intros L. rewrite <- tay_0. rewrite <- (Rmult_1_r (tay 0 c h)). change 1 with (h ^ 0). rewrite <- (rsum_tay c n 0 h L).
  apply rsum_ext. intros j _. rewrite binom_0. cbn [INR]. ring.
Qed.
Lemma dxs_pos (K : list R) k : incr K -> (S k < length K)%nat -> 0 < dxs K k.
Proof. intros Hi Hk. unfold dxs. numR. pose proof (Hi k Hk). lra. Qed.

Section Row.
  Variables (K : list R) (n nc N : nat) (ix : nat -> nat) (fx w : nat -> R).
  Hypothesis HK : incr K.
  Hypothesis LK : (2 <= length K)%nat.
  Hypothesis Hnc : (nc < n)%nat.
  Let nk1 := (length K - 1)%nat.
  Hypothesis Hix : forall t, (t < N)%nat -> (ix t < nk1)%nat.
  Let xi t := (fx t - nth (ix t) K 0) * (1 / dxs K (ix t)).
  Let xp k p := bincount N ix (wpow w xi p) k.
  Let bp (y : nat -> R) k p := if (p <? n + 1)%nat then bincount N ix (fun t => wpow w xi p t * y t) k else 0.
  Local Notation bs := (n + 2 + nc)%nat.
  (* the value at point t of the pieces Q *)
  Definition pv (Q : nat -> list R) (t : nat) : R := peval (Q (ix t)) (fx t - nth (ix t) K 0).
  Definition sv (Q : nat -> list R) (k p : nat) : R := nth p (Q k) 0 * dxs K k ^ p.
  Lemma dx0 k : (k < nk1)%nat -> dxs K k <> 0.
  Proof using HK. clear - HK. intros H. pose proof (dxs_pos K k HK). unfold nk1 in H. assert (0 < dxs K k) by (apply dxs_pos; auto; lia). lra. Qed.
  Lemma pv_sum Q t : (t < N)%nat -> length (Q (ix t)) = (n + 1)%nat -> rsum (n + 1) (fun p => sv Q (ix t) p * xi t ^ p) = pv Q t.
  Proof using HK Hix.
    intros Ht L. unfold pv. rewrite <- (rsum_peval _ n) by auto. apply rsum_ext. intros p _. unfold sv, xi.
    pose proof (dx0 (ix t) (Hix t Ht)). rewrite Rpow_mult_distr. unfold Rdiv. rewrite Rmult_1_l, pow_inv.
    field. apply pow_nonzero; auto.
  Qed.
  Lemma data_quad Q Q' : (forall k, (k < nk1)%nat -> length (Q k) = (n + 1)%nat /\ length (Q' k) = (n + 1)%nat) ->
    rsum nk1 (fun k => rsum (n + 1) (fun p => rsum (n + 1) (fun q => xp k (p + q)%nat * (sv Q k p * sv Q' k q)))) =
    rsum N (fun t => w t * (pv Q t * pv Q' t)).
  Proof using HK Hix Hnc LK.
    intros HQ.
    transitivity (rsum nk1 (fun k => rsum N (fun t => if (ix t =? k)%nat then w t * (pv Q t * pv Q' t) else 0))).
    - apply rsum_ext. intros k Hk.
      transitivity (rsum (n + 1) (fun p => rsum N (fun t => if (ix t =? k)%nat then w t * (sv Q k p * xi t ^ p * pv Q' t) else 0))).
      + apply rsum_ext. intros p _.
        transitivity (rsum (n + 1) (fun q => rsum N (fun t => if (ix t =? k)%nat then w t * xi t ^ (p + q) * (sv Q k p * sv Q' k q) else 0))).
        * apply rsum_ext. intros q _. unfold xp. rewrite bincount_scal. apply rsum_ext. intros t _. destruct (_ =? _)%nat; [|reflexivity]. rewrite wpow_R. ring.
        * rewrite rsum_swap. apply rsum_ext. intros t Ht. destruct (Nat.eqb_spec (ix t) k) as [E|E]; [|apply rsum_zero; auto].
          rewrite <- (pv_sum Q') by (auto; apply HQ; auto). rewrite E. rewrite <- !rsum_scal. apply rsum_ext. intros q _. rewrite pow_add. ring.
      + rewrite rsum_swap. apply rsum_ext. intros t Ht. destruct (Nat.eqb_spec (ix t) k) as [E|E]; [|apply rsum_zero; auto].
        rewrite <- (pv_sum Q) by (auto; apply HQ; auto). rewrite E. rewrite <- rsum_scal_r, <- rsum_scal. apply rsum_ext. intros p _. ring.
    - rewrite rsum_swap. apply rsum_ext. intros t Ht. rewrite rsum_delta'. pose proof (Hix t Ht). destruct (Nat.ltb_spec (ix t) nk1); [reflexivity|lia].
  Qed.
  Lemma data_lin Q y : (forall k, (k < nk1)%nat -> length (Q k) = (n + 1)%nat) ->
    rsum nk1 (fun k => rsum (n + 1) (fun p => sv Q k p * bp y k p)) = rsum N (fun t => w t * (pv Q t * y t)).
  Proof using HK Hix Hnc LK.
    intros HQ.
    transitivity (rsum nk1 (fun k => rsum N (fun t => if (ix t =? k)%nat then w t * (pv Q t * y t) else 0))).
    - apply rsum_ext. intros k Hk.
      transitivity (rsum (n + 1) (fun p => rsum N (fun t => if (ix t =? k)%nat then w t * (sv Q k p * xi t ^ p * y t) else 0))).
      + apply rsum_ext. intros p Hp. unfold bp. destruct (Nat.ltb_spec p (n + 1)); [|lia]. rewrite Rmult_comm, bincount_scal.
        apply rsum_ext. intros t _. destruct (_ =? _)%nat; [|reflexivity]. rewrite wpow_R. ring.
      + rewrite rsum_swap. apply rsum_ext. intros t Ht. destruct (Nat.eqb_spec (ix t) k) as [E|E]; [|apply rsum_zero; auto].
        rewrite <- (pv_sum Q) by (auto; apply HQ; auto). rewrite E. rewrite <- rsum_scal_r, <- rsum_scal. apply rsum_ext. intros p _. ring.
    - rewrite rsum_swap. apply rsum_ext. intros t Ht. rewrite rsum_delta'. pose proof (Hix t Ht). destruct (Nat.ltb_spec (ix t) nk1); [reflexivity|lia].
  Qed.
  Lemma nth_sf_col nlo X k p : (p < n + 1)%nat -> (k < nk1)%nat -> sv (sf_col K n nc nlo X) k p = X (nlo + (k * bs + p))%nat.
  Proof using HK LK.
    intros Hp Hk. unfold sv, sf_col. rewrite (map_seq_nth (fun p => (X (nlo + k * bs + p)%nat / dxscl K k p)%K)) by auto. numR.
    rewrite dxscl_R, Nat.add_assoc. field. apply pow_nonzero, dx0; auto.
  Qed.
  Lemma sf_col_len nlo X k : length (sf_col K n nc nlo X k) = (n + 1)%nat.
  Proof using. unfold sf_col. rewrite map_length, seq_length. reflexivity. Qed.
  Lemma sf_rat_R k m : sf_rat K k m = dxs K k ^ m / dxs K ((k + 1) mod nk1)%nat ^ m.
  Proof using. unfold sf_rat. numR. rewrite !dxscl_R. reflexivity. Qed.
  (* a constraint in terms of the pieces *)
  Lemma cst_tay Q k k' m : (k < nk1)%nat -> length (Q k) = (n + 1)%nat -> k' = ((k + 1) mod nk1)%nat -> (k' < nk1)%nat ->
    rsum (n + 1) (fun c => INR (binom c m) * sv Q k c) - sf_rat K k m * sv Q k' m = dxs K k ^ m * (tay m (Q k) (dxs K k) - nth m (Q k') 0).
  Proof using HK LK.
    intros Hk L -> Hk'. unfold sv. rewrite rsum_tay by auto. rewrite sf_rat_R. pose proof (dx0 _ Hk'). field. apply pow_nonzero; auto.
  Qed.

  Section NonPer.
    Variables (nlo nhi : nat) (y lv hv X : nat -> R).
    Hypothesis Hlo : (nlo <= nc + 1)%nat.
    Hypothesis Hhi : (nhi <= nc + 1)%nat.
    Let len := (bs * nk1 - (nc + 1 - nhi))%nat.
    Definition np_rhs (j : nat) : R :=
      if (j <? nlo)%nat then lv j * - dxscl K 0 j
      else let j := (j - nlo)%nat in
           if (len - nhi <=? j)%nat then hv (j - (len - nhi))%nat * dxscl K (nk1 - 1) (j - (len - nhi))
           else bp y (j / bs)%nat (j mod bs)%nat.
    Hypothesis HX : forall i, (i < syslen n nc nk1 nlo nhi)%nat ->
      rsum (syslen n nc nk1 nlo nhi) (fun j => sysmat n nc nk1 nlo nhi xp (sf_rat K) i j * X j) = np_rhs i.
    Let Q := sf_col K n nc nlo X.
    Let nk1p : (1 <= nk1)%nat.
    Proof. unfold nk1. lia. Qed.
    Lemma len_eq : (len - nhi = (nk1 - 1) * bs + (n + 1))%nat.
    Proof using LK Hhi Hnc Hlo nk1p. unfold len. assert (P : (1 <= nk1)%nat) by (unfold nk1; lia). clear - Hnc Hhi P. generalize nk1 P. intros k Hk.
      replace (bs * k)%nat with ((k - 1) * bs + bs)%nat by (destruct k; [lia|]; replace (S k - 1)%nat with k by lia; ring).
      generalize ((k - 1) * bs)%nat. intros. lia. Qed.
    Lemma rhs_mid k c : (k < nk1)%nat -> (c < bs)%nat -> (k = nk1 - 1 -> c < n + 1)%nat -> np_rhs (nlo + (k * bs + c)) = bp y k c.
    Proof using LK Hhi Hnc Hlo nk1p.
      intros Hk Hc Hl. unfold np_rhs. destruct (Nat.ltb_spec (nlo + (k * bs + c)) nlo); [lia|].
      replace (nlo + (k * bs + c) - nlo)%nat with (k * bs + c)%nat by lia. rewrite len_eq.
      destruct (Nat.leb_spec ((nk1 - 1) * bs + (n + 1)) (k * bs + c)) as [A|A]; [exfalso|rewrite div_pos, mod_pos by auto; reflexivity].
      destruct (Nat.eq_dec k (nk1 - 1)) as [E|E]; [subst k; specialize (Hl eq_refl); lia|].
      assert ((k + 1) * bs <= (nk1 - 1) * bs)%nat by (apply Nat.mul_le_mono_r; lia). lia.
    Qed.
    Lemma np_smooth k m : (S k < nk1)%nat -> (m <= nc)%nat -> tay m (Q k) (dxs K k) = nth m (Q (S k)) 0.
    Proof using HK LK Hnc Hlo Hhi HX nk1p.
      intros Hk Hm. pose proof (sys_con n nc nk1 nlo nhi xp (sf_rat K) Hnc Hlo Hhi nk1p X np_rhs HX k m Hk ltac:(lia)) as E.
      rewrite rhs_mid in E by lia. unfold bp in E. destruct (Nat.ltb_spec (n + 1 + m) (n + 1)); [lia|].
      rewrite (rsum_ext (n + 1) _ (fun c => INR (binom c m) * sv Q k c)) in E by (intros c Hc; unfold Q; rewrite nth_sf_col by lia; reflexivity).
      rewrite <- (nth_sf_col nlo X (S k) m) in E by lia. fold Q in E.
      rewrite (cst_tay Q k (S k) m) in E; [|lia|apply sf_col_len|rewrite Nat.mod_small; lia|lia].
      assert (dxs K k ^ m <> 0) by (apply pow_nonzero, dx0; lia). apply Rmult_integral in E as [E|E]; [contradiction|lra].
    Qed.
    Lemma np_hi m : (m < nhi)%nat -> tay m (Q (nk1 - 1)%nat) (dxs K (nk1 - 1)) = hv m.
    Proof using HK LK Hnc Hlo Hhi HX nk1p.
      intros Hm. pose proof (sys_hi n nc nk1 nlo nhi xp (sf_rat K) Hnc Hlo Hhi nk1p X np_rhs HX m Hm) as E.
      rewrite (rsum_ext (n + 1) _ (fun c => INR (binom c m) * sv Q (nk1 - 1) c)) in E by (intros c Hc; unfold Q; rewrite nth_sf_col by lia; reflexivity).
      unfold sv in E. rewrite rsum_tay in E by apply sf_col_len. unfold np_rhs in E.
      destruct (Nat.ltb_spec (nlo + ((nk1 - 1) * bs + (n + 1 + m))) nlo) as [A|_]; [exfalso; revert A; apply Nat.le_ngt, Nat.le_add_r|].
      replace (nlo + ((nk1 - 1) * bs + (n + 1 + m)) - nlo)%nat with ((nk1 - 1) * bs + (n + 1) + m)%nat in E
        by (generalize ((nk1 - 1) * bs)%nat; intros; lia). rewrite len_eq in E.
      set (B := ((nk1 - 1) * bs + (n + 1))%nat) in E.
      destruct (Nat.leb_spec B (B + m)); [|lia]. replace (B + m - B)%nat with m in E by lia. rewrite dxscl_R in E.
      assert (dxs K (nk1 - 1) ^ m <> 0) by (apply pow_nonzero, dx0; lia). apply Rmult_eq_reg_r in E; auto.
    Qed.
    Lemma np_lo j : (j < nlo)%nat -> nth j (Q 0%nat) 0 = lv j.
    Proof using HK LK Hnc Hlo Hhi HX nk1p.
      intros Hj. pose proof (sys_lo n nc nk1 nlo nhi xp (sf_rat K) Hnc Hlo Hhi nk1p X np_rhs HX j Hj) as E.
      cbn [Nat.mul Nat.add] in E. pose proof (nth_sf_col nlo X 0 j ltac:(lia) ltac:(lia)) as E'. cbn [Nat.mul Nat.add] in E'. rewrite <- E' in E. fold Q in E.
      unfold np_rhs in E. destruct (Nat.ltb_spec j nlo); [|lia]. rewrite dxscl_R in E. unfold sv in E.
      assert (dxs K 0 ^ j <> 0) by (apply pow_nonzero, dx0; lia). apply (Rmult_eq_reg_r (dxs K 0 ^ j)); auto. lra.
    Qed.
    (* multipliers *)
    Definition np_lam (j : nat) : R := X j * dxs K 0 ^ j.
    Definition np_mul (k m : nat) : R := X (nlo + (k * bs + (n + 1 + m)))%nat * dxs K k ^ m.
    Lemma np_stat Q' : (forall k, (k < nk1)%nat -> length (Q' k) = (n + 1)%nat) ->
      rsum N (fun t => w t * (pv Q t - y t) * pv Q' t) =
      rsum nlo (fun j => np_lam j * nth j (Q' 0%nat) 0) -
      rsum (nk1 - 1) (fun k => rsum (nc + 1) (fun m => np_mul k m * (tay m (Q' k) (dxs K k) - nth m (Q' (S k)) 0))) -
      rsum nhi (fun m => np_mul (nk1 - 1) m * tay m (Q' (nk1 - 1)%nat) (dxs K (nk1 - 1))).
    Proof using HK LK Hnc Hix Hlo Hhi HX nk1p.
      intros HQ'. pose proof (sys_stat n nc nk1 nlo nhi xp (sf_rat K) Hnc Hlo Hhi nk1p X np_rhs HX (sv Q')) as E.
      rewrite (rsum_ext nk1 _ (fun k => rsum (n + 1) (fun p => rsum (n + 1) (fun q => xp k (p + q)%nat * (sv Q' k p * sv Q k q))))) in E.
      2:{ intros k Hk. apply rsum_ext. intros p Hp. apply rsum_ext. intros q Hq. unfold Q. rewrite nth_sf_col by auto. reflexivity. }
      rewrite data_quad in E by (intros k Hk; split; [auto|apply sf_col_len]).
      rewrite (rsum_ext nk1 (fun k => rsum (n + 1) (fun p => sv Q' k p * np_rhs _)) (fun k => rsum (n + 1) (fun p => sv Q' k p * bp y k p))) in E
        by (intros k Hk; apply rsum_ext; intros p Hp; rewrite rhs_mid by lia; reflexivity).
      rewrite data_lin in E by auto. rewrite <- rsum_minus in E.
      rewrite (rsum_ext N _ (fun t => w t * (pv Q' t * pv Q t) - w t * (pv Q' t * y t))) by (intros; ring). rewrite E.
      match goal with |- ?a - ?b = ?c - ?d - ?e => assert (a = c); [|assert (b = d + e); [|lra]] end.
      - apply rsum_ext. intros j Hj. unfold np_lam, sv. ring.
      - replace nk1 with (nk1 - 1 + 1)%nat at 1 by lia. rewrite rsum_split. cbn [rsum]. rewrite Rplus_0_l, Nat.add_0_r. f_equal.
        + apply rsum_ext. intros k Hk. apply rsum_ext. intros m Hm. destruct (Nat.ltb_spec (S k) nk1); [|lia].
          rewrite (cst_tay Q' k (S k) m); [|lia|apply HQ'; lia|rewrite Nat.mod_small; lia|lia]. rewrite ext_lt by (apply syslen_mu; lia). unfold np_mul. ring.
        + rewrite (rsum_pad (nc + 1) nhi).
          * apply rsum_ext. intros m Hm. destruct (Nat.ltb_spec (S (nk1 - 1)) nk1); [lia|]. rewrite ext_lt by (apply syslen_last; auto; lia).
            unfold sv. rewrite rsum_tay by (apply HQ'; lia). unfold np_mul. ring.
          * intros m Hm. rewrite ext_ge; [ring|]. pose proof (syslen_last n nc nk1 nlo nhi Hnc Hlo Hhi nk1p m) as S0. lia.
    Qed.
  End NonPer.

  Section Periodic.
    Variables (y X : nat -> R).
    Definition per_rhs (j : nat) : R := bp y (j / bs)%nat (j mod bs)%nat.
    Hypothesis HX : forall i, (i < bs * nk1)%nat -> rsum (bs * nk1) (fun j => permat n nc nk1 xp (sf_rat K) i j * X j) = per_rhs i.
    Let Q := sf_col K n nc 0 X.
    Local Notation nxt k := ((k + 1) mod nk1)%nat.
    Let nk1p : (1 <= nk1)%nat.
    Proof. unfold nk1. lia. Qed.
    Let nxt_lt' k : (nxt k < nk1)%nat.
    Proof. apply Nat.mod_upper_bound. lia. Qed.
    Lemma per_smooth k m : (k < nk1)%nat -> (m <= nc)%nat -> tay m (Q k) (dxs K k) = nth m (Q (nxt k)) 0.
    Proof using HK LK Hnc HX nk1p nxt_lt'.
      intros Hk Hm. pose proof (per_con n nc nk1 xp (sf_rat K) Hnc nk1p X per_rhs HX k m Hk ltac:(lia)) as E.
      unfold per_rhs in E. rewrite div_pos, mod_pos in E by lia. unfold bp in E. destruct (Nat.ltb_spec (n + 1 + m) (n + 1)); [lia|].
      rewrite (rsum_ext (n + 1) _ (fun c => INR (binom c m) * sv Q k c)) in E by (intros c Hc; unfold Q; rewrite nth_sf_col by lia; reflexivity).
      pose proof (nth_sf_col 0 X (nxt k) m ltac:(lia) (nxt_lt' k)) as E'. cbn [Nat.add] in E'. rewrite <- E' in E. fold Q in E.
      rewrite (cst_tay Q k (nxt k) m) in E; [|lia|apply sf_col_len|reflexivity|auto].
      assert (dxs K k ^ m <> 0) by (apply pow_nonzero, dx0; lia). apply Rmult_integral in E as [E|E]; [contradiction|lra].
    Qed.
    Definition per_mul (k m : nat) : R := X (k * bs + (n + 1 + m))%nat * dxs K k ^ m.
    Lemma per_statQ Q' : (forall k, (k < nk1)%nat -> length (Q' k) = (n + 1)%nat) ->
      rsum N (fun t => w t * (pv Q t - y t) * pv Q' t) =
      - rsum nk1 (fun k => rsum (nc + 1) (fun m => per_mul k m * (tay m (Q' k) (dxs K k) - nth m (Q' (nxt k)) 0))).
    Proof using HK LK Hnc Hix HX nk1p nxt_lt'.
      intros HQ'. pose proof (per_stat n nc nk1 xp (sf_rat K) Hnc nk1p X per_rhs HX (sv Q')) as E.
      rewrite (rsum_ext nk1 _ (fun k => rsum (n + 1) (fun p => rsum (n + 1) (fun q => xp k (p + q)%nat * (sv Q' k p * sv Q k q))))) in E.
      2:{ intros k Hk. apply rsum_ext. intros p Hp. apply rsum_ext. intros q Hq. unfold Q. rewrite nth_sf_col by auto. reflexivity. }
      rewrite data_quad in E by (intros k Hk; split; [auto|apply sf_col_len]).
      rewrite (rsum_ext nk1 (fun k => rsum (n + 1) (fun p => sv Q' k p * per_rhs _)) (fun k => rsum (n + 1) (fun p => sv Q' k p * bp y k p))) in E
        by (intros k Hk; apply rsum_ext; intros p Hp; unfold per_rhs; rewrite div_pos, mod_pos by lia; reflexivity).
      rewrite data_lin in E by auto. rewrite <- rsum_minus in E.
      rewrite (rsum_ext N _ (fun t => w t * (pv Q' t * pv Q t) - w t * (pv Q' t * y t))) by (intros; ring). rewrite E. f_equal.
      apply rsum_ext. intros k Hk. apply rsum_ext. intros m Hm.
      rewrite (cst_tay Q' k (nxt k) m); [|lia|apply HQ'; lia|reflexivity|auto]. unfold per_mul. ring.
    Qed.
  End Periodic.
End Row.
