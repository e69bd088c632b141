(* What a solved row of splfit says about the pieces of the fit, and when a row can be solved. *)
From Coq Require Import List Arith ZArith Lia Bool Reals Lra.
From Verif Require Import Num PyBase NdArray NdLemmas Poly SpecPoly PolyProofs PwPoly PwBase RSum SolvePer SolveProofs Gauss PropsSolve PwCtor Spline SplineProofs SplineCore SplineSolve SplineFacts Fit FitProofs
  SplfitMat SplfitProofs SplfitSolve.
Import ListNotations.
Local Open Scope R_scope.

Definition subQ (Q Q' : nat -> list R) (k : nat) : list R := zipw Rplus (Q' k) (map (Rmult (-1)) (Q k)).
Lemma subQ_tay n Q Q' k m h : length (Q k) = n -> length (Q' k) = n -> tay m (subQ Q Q' k) h = tay m (Q' k) h - tay m (Q k) h.
Proof. intros H1 H2. unfold subQ. rewrite tay_add by (rewrite map_length; lia). rewrite tay_smul. ring. Qed.
Lemma subQ_nth n Q Q' k m : length (Q k) = n -> length (Q' k) = n -> nth m (subQ Q Q' k) 0 = nth m (Q' k) 0 - nth m (Q k) 0.
Proof. intros H1 H2. rewrite <- !tay_at_0. apply (subQ_tay n); auto. Qed.
Lemma zipw_len {A B C} (f : A -> B -> C) l l' : length l = length l' -> length (zipw f l l') = length l.
Proof. revert l'; induction l as [|a l IH]; intros [|b l'] H; cbn in *; try discriminate; auto. Qed.
Lemma subQ_len n Q Q' k : length (Q k) = n -> length (Q' k) = n -> length (subQ Q Q' k) = n.
Proof. intros H1 H2. unfold subQ. rewrite zipw_len by (rewrite map_length; lia). auto. Qed.

Section Row.
  Variables (sb : nat -> nat -> arr2 R -> arr2 R -> res (arr2 R)) (s : arr2 R -> arr2 R -> res (arr2 R)).
  Variables (K : list R) (d : @fdata R) (n nc i : nat).
  Hypothesis Hsb : banded_spec sb.
  Hypothesis HK : incr K.
  Hypothesis LK : (2 <= length K)%nat.
  Hypothesis Hnc : (nc < n)%nat.
  Hypothesis IX : forall t, (t < fN d)%nat -> (S (fix_ d t) < length K)%nat /\ nth (fix_ d t) K 0 <= fx d t <= nth (S (fix_ d t)) K 0.
  Hypothesis Hsig : forall t, (t < fN d)%nat -> fs d i t <> 0.
  Let nk1 := (length K - 1)%nat.
  Let N := fN d.
  Let w t := 1 / (fs d i t * fs d i t).
  Let y := fy d i.
  Local Notation bs := (n + 2 + nc)%nat.
  Lemma Hix : forall t, (t < N)%nat -> (fix_ d t < length K - 1)%nat.
  Proof using IX. intros t Ht. destruct (IX t Ht). clear - H. lia. Qed.
  Lemma Hw : forall t, (t < N)%nat -> 0 < w t.
  Proof using Hsig.
    intros t Ht. unfold w. specialize (Hsig t Ht). unfold Rdiv. rewrite Rmult_1_l. apply Rinv_0_lt_compat.
    apply Rlt_0_sqr in Hsig. exact Hsig.
  Qed.
  Let xi t := (fx d t - nth (fix_ d t) K 0) * (1 / dxs K (fix_ d t)).
  Let xp k p := bincount N (fix_ d) (wpow w xi p) k.
  Let pvl := pv K (fix_ d) (fx d).
  (* chi2 of the pieces Q *)
  Definition chiQ (Q : nat -> list R) : R := rsum N (fun t => w t * ((pvl Q t - y t) * (pvl Q t - y t))).

  Lemma pvl_sub Q Q' t : (t < N)%nat -> (forall k, (k < nk1)%nat -> length (Q k) = (n + 1)%nat) -> (forall k, (k < nk1)%nat -> length (Q' k) = (n + 1)%nat) ->
    pvl (subQ Q Q') t = pvl Q' t - pvl Q t.
  Proof using IX Hnc.
    intros Ht H1 H2. unfold pvl, pv. rewrite <- !tay_0. apply (subQ_tay (n + 1)); [apply H1|apply H2]; apply Hix; auto.
  Qed.
  Lemma chi_expand Q Q' : (forall k, (k < nk1)%nat -> length (Q k) = (n + 1)%nat) -> (forall k, (k < nk1)%nat -> length (Q' k) = (n + 1)%nat) ->
    chiQ Q' = chiQ Q + rsum N (fun t => w t * ((pvl Q' t - pvl Q t) * (pvl Q' t - pvl Q t))) + 2 * rsum N (fun t => w t * (pvl Q t - y t) * pvl (subQ Q Q') t).
  Proof using IX Hnc.
    intros H1 H2. unfold chiQ. rewrite <- rsum_scal, <- !rsum_plus. apply rsum_ext. intros t Ht. rewrite pvl_sub by auto. ring.
  Qed.

  Section NonPer.
    Let nlo := length (flo d).
    Let nhi := length (fhi d).
    Hypothesis Hlo : (nlo <= nc + 1)%nat.
    Hypothesis Hhi : (nhi <= nc + 1)%nat.
    Variables lv hv : list R.
    Hypothesis Elv : mapM (fun l => of_opt IndexError (nth_error l i)) (flo d) = Ok lv.
    Hypothesis Ehv : mapM (fun l => of_opt IndexError (nth_error l i)) (fhi d) = Ok hv.
    Definition np_ok (X : nat -> R) : Prop := forall j, (j < syslen n nc nk1 nlo nhi)%nat ->
      rsum (syslen n nc nk1 nlo nhi) (fun k => sysmat n nc nk1 nlo nhi xp (sf_rat K) j k * X k) =
      np_rhs K n nc N (fix_ d) (fx d) w nlo nhi y (fun m => nth m lv 0) (fun m => nth m hv 0) j.
    Lemma row_np X : splfit_row sb s K d n nc false i = Ok X -> np_ok X.
    Proof using Hsb Elv Ehv LK Hnc Hlo Hhi.
      intros E. unfold splfit_row in E. rewrite Ehv in E. cbn [bind] in E. rewrite Elv in E. cbn [bind] in E.
      apply bind_ok in E as (sol & E1 & E2). injection E2 as <-.
      apply (solves_banded_low sb (n + 1)) in E1; [|exact Hsb|cbn; lia|reflexivity].
      destruct E1 as (_ & E2 & E3). cbn [SolvePer.nc] in E2, E3. intros j Hj. specialize (E3 j 0%nat Hj ltac:(lia)). exact E3.
    Qed.
    Lemma row_np_ok : banded_complete sb -> nonsing (syslen n nc nk1 nlo nhi) (sysmat n nc nk1 nlo nhi xp (sf_rat K)) ->
      exists X, splfit_row sb s K d n nc false i = Ok X.
    Proof using Elv Ehv LK Hnc Hlo Hhi.
      intros Hc NS. unfold splfit_row. rewrite Ehv. cbn [bind]. rewrite Elv. cbn [bind].
      match goal with |- context [solves_banded sb ?a ?b true] => destruct (solves_banded_low_complete sb (n + 1) a b Hc) as [x ->] end;
        [cbn; lia|reflexivity|exact NS|]. eexists. reflexivity.
    Qed.
    Variable X : nat -> R.
    Hypothesis HX : np_ok X.
    Let Q := sf_col K n nc nlo X.
    Lemma row_smooth : smoothQ K n nc Q.
    Proof using HK LK Hnc Hlo Hhi HX.
      split; [intros; apply sf_col_len|]. intros k m Hk Hm. unfold Q. eapply np_smooth with (1 := HK) (6 := HX); auto. unfold nk1. lia.
    Qed.
    Lemma row_len k : length (Q k) = (n + 1)%nat.
    Proof using. apply sf_col_len. Qed.
    Lemma row_lo j : (j < nlo)%nat -> nth j (Q 0%nat) 0 = nth j lv 0.
    Proof using HK LK Hnc Hlo Hhi HX. intros Hj. apply (np_lo K n nc N (fix_ d) (fx d) w HK LK Hnc nlo nhi y _ _ X Hlo Hhi HX j Hj). Qed.
    Lemma row_hi m : (m < nhi)%nat -> tay m (Q (nk1 - 1)%nat) (dxs K (nk1 - 1)) = nth m hv 0.
    Proof using HK LK Hnc Hlo Hhi HX. intros Hj. apply (np_hi K n nc N (fix_ d) (fx d) w HK LK Hnc nlo nhi y _ _ X Hlo Hhi HX m Hj). Qed.
    (* the change of chi2 to other pieces Q', which need not meet any constraint *)
    Lemma row_chi Q' : (forall k, (k < nk1)%nat -> length (Q' k) = (n + 1)%nat) ->
      chiQ Q' = chiQ Q + rsum N (fun t => w t * ((pvl Q' t - pvl Q t) * (pvl Q' t - pvl Q t))) +
        2 * (rsum nlo (fun j => np_lam K X j * (nth j (Q' 0%nat) 0 - nth j lv 0)) -
             rsum (nk1 - 1) (fun k => rsum (nc + 1) (fun m => np_mul K n nc nlo X k m * (tay m (Q' k) (dxs K k) - nth m (Q' (S k)) 0))) -
             rsum nhi (fun m => np_mul K n nc nlo X (nk1 - 1) m * (tay m (Q' (nk1 - 1)%nat) (dxs K (nk1 - 1)) - nth m hv 0))).
    Proof using HK LK Hnc IX Hlo Hhi HX.
      intros L'. assert (L : forall k, (k < nk1)%nat -> length (Q k) = (n + 1)%nat) by (intros; apply row_len).
      rewrite (chi_expand Q Q' L L').
      pose proof (np_stat K n nc N (fix_ d) (fx d) w HK LK Hnc Hix nlo nhi y _ _ X Hlo Hhi HX (subQ Q Q')
        (fun k Hk => subQ_len (n + 1) Q Q' k (L k Hk) (L' k Hk))) as E. fold nk1 Q pvl in E. rewrite E.
      match goal with |- _ + 2 * (?a - ?b - ?c) = _ + 2 * (?a' - ?b' - ?c') => assert (a = a'); [|assert (b = b'); [|assert (c = c'); [|lra]]] end.
      - apply rsum_ext. intros j Hj. rewrite (subQ_nth (n + 1)), row_lo; auto; first [apply L|apply L']; unfold nk1; lia.
      - apply rsum_ext. intros k Hk. apply rsum_ext. intros m Hm. rewrite (subQ_tay (n + 1)), (subQ_nth (n + 1)); auto; try (apply L'; lia); try (apply L; lia).
        destruct row_smooth as [_ SM]. rewrite SM by (unfold nk1 in *; lia). ring.
      - apply rsum_ext. intros m Hm. rewrite (subQ_tay (n + 1)), row_hi; auto; first [apply L|apply L']; unfold nk1; lia.
    Qed.
    Lemma row_opt Q' : smoothQ K n nc Q' -> (forall j, (j < nlo)%nat -> nth j (Q' 0%nat) 0 = nth j lv 0) ->
      (forall m, (m < nhi)%nat -> tay m (Q' (nk1 - 1)%nat) (dxs K (nk1 - 1)) = nth m hv 0) -> chiQ Q <= chiQ Q'.
    Proof using HK LK Hnc IX Hlo Hhi HX Hsig.
      intros [L' SM] V1 V2. rewrite (row_chi Q') by (intros k Hk; apply L'; unfold nk1 in Hk; lia).
      rewrite (rsum_zero nlo) by (intros j Hj; rewrite V1 by auto; ring).
      rewrite (rsum_zero (nk1 - 1)) by (intros k Hk; apply rsum_zero; intros m Hm; rewrite SM by (unfold nk1 in *; lia); ring).
      rewrite (rsum_zero nhi) by (intros j Hj; rewrite V2 by auto; ring).
      assert (0 <= rsum N (fun t => w t * ((pvl Q' t - pvl Q t) * (pvl Q' t - pvl Q t)))); [|lra].
      apply rsum_nonneg. intros t Ht. apply Rmult_le_pos; [apply Rlt_le, Hw; auto|apply Rle_0_sqr].
    Qed.
  End NonPer.

  Section Per.
    Hypothesis Hs : dense_spec s.
    Local Notation nxt k := ((k + 1) mod nk1)%nat.
    Definition per_ok (X : nat -> R) : Prop := forall j, (j < bs * nk1)%nat ->
      rsum (bs * nk1) (fun k => permat n nc nk1 xp (sf_rat K) j k * X k) = per_rhs K n nc N (fix_ d) (fx d) w y j.
    Lemma row_per X : splfit_row sb s K d n nc true i = Ok X -> (3 <= length K)%nat /\ per_ok X.
    Proof using Hsb Hs Hnc LK.
      intros E. unfold splfit_row in E. apply bind_ok in E as (sol & E1 & E2). injection E2 as <-.
      apply (solves_periodic_low sb s (n + 1)) in E1; [|exact Hsb|exact Hs|cbn; lia|lia|reflexivity].
      destruct E1 as (Ln & _ & E2 & E3). cbn [SolvePer.nc] in *. cbn in Ln. split.
      - fold nk1 in Ln. destruct (Nat.le_gt_cases 3 (length K)); auto. assert (nk1 = 1%nat) as E0 by (unfold nk1; lia). rewrite E0 in Ln. lia.
      - intros j Hj. specialize (E3 j 0%nat Hj ltac:(lia)). exact E3.
    Qed.
    Lemma row_per_ok : banded_complete sb -> dense_complete s -> (3 <= length K)%nat ->
      nonsing (syslen n nc nk1 0 (nc + 1)) (sysmat n nc nk1 0 (nc + 1) xp (sf_rat K)) ->
      nonsing (bs * nk1) (permat n nc nk1 xp (sf_rat K)) ->
      exists X, splfit_row sb s K d n nc true i = Ok X.
    Proof using Hsb Hs Hnc LK.
      intros C1 C2 H3 N1 N2. unfold splfit_row.
      assert (L2 : (n + 1 + (n + 1) <= bs * nk1)%nat).
      { apply Nat.le_trans with (bs * 2)%nat; [lia|]. apply Nat.mul_le_mono_l. unfold nk1. lia. }
      match goal with |- context [solves_periodic sb s ?a ?b true] => destruct (solves_periodic_low_complete sb s (n + 1) a b Hsb Hs C1 C2) as [x ->] end;
        [cbn; lia|cbn [SolvePer.nc]; lia|exact L2|reflexivity| |exact N2|eexists; reflexivity].
      cbn [SolvePer.nc]. fold nk1. assert (E : syslen n nc nk1 0 (nc + 1) = (bs * nk1)%nat) by (unfold syslen; lia).
      rewrite E in N1. intros v Hv. apply N1. intros j Hj. rewrite <- (Hv j Hj). apply rsum_ext. intros k Hk. f_equal.
      unfold sysmat, hlow. cbn [nr SolvePer.nc at2]. unfold sys_at. destruct (_ <=? _)%nat; [|reflexivity].
      change (?a <? 0)%nat with false. rewrite !Nat.sub_0_r. reflexivity.
    Qed.
    Variable X : nat -> R.
    Hypothesis HX : per_ok X.
    Let Q := sf_col K n nc 0 X.
    Lemma per_collen k : length (Q k) = (n + 1)%nat.
    Proof using. apply sf_col_len. Qed.
    Lemma row_per_smooth k m : (k < nk1)%nat -> (m <= nc)%nat -> tay m (Q k) (dxs K k) = nth m (Q (nxt k)) 0.
    Proof using HK LK Hnc HX. apply (per_smooth K n nc N (fix_ d) (fx d) w HK LK Hnc y X HX). Qed.
    Lemma row_per_chi Q' : (forall k, (k < nk1)%nat -> length (Q' k) = (n + 1)%nat) ->
      chiQ Q' = chiQ Q + rsum N (fun t => w t * ((pvl Q' t - pvl Q t) * (pvl Q' t - pvl Q t))) -
        2 * rsum nk1 (fun k => rsum (nc + 1) (fun m => per_mul K n nc X k m * (tay m (Q' k) (dxs K k) - nth m (Q' (nxt k)) 0))).
    Proof using HK LK Hnc IX HX.
      intros L'. assert (L : forall k, (k < nk1)%nat -> length (Q k) = (n + 1)%nat) by (intros; apply per_collen).
      rewrite (chi_expand Q Q' L L').
      pose proof (per_statQ K n nc N (fix_ d) (fx d) w HK LK Hnc Hix y X HX (subQ Q Q')
        (fun k Hk => subQ_len (n + 1) Q Q' k (L k Hk) (L' k Hk))) as E. fold nk1 Q pvl in E. rewrite E.
      match goal with |- _ + 2 * - ?a = _ - 2 * ?a' => assert (a = a'); [|lra] end.
      apply rsum_ext. intros k Hk. assert (Hx : (nxt k < nk1)%nat) by (apply Nat.mod_upper_bound; lia).
      apply rsum_ext. intros m Hm. rewrite (subQ_tay (n + 1)), (subQ_nth (n + 1)) by (apply L || apply L'; auto).
      rewrite row_per_smooth by (auto; lia). ring.
    Qed.
    Lemma row_per_opt Q' : (forall k, (k < nk1)%nat -> length (Q' k) = (n + 1)%nat) ->
      (forall k m, (k < nk1)%nat -> (m <= nc)%nat -> tay m (Q' k) (dxs K k) = nth m (Q' (nxt k)) 0) -> chiQ Q <= chiQ Q'.
    Proof using HK LK Hnc IX HX Hsig.
      intros L' SM. rewrite (row_per_chi Q' L').
      rewrite (rsum_zero nk1) by (intros k Hk; apply rsum_zero; intros m Hm; rewrite SM by (auto; lia); ring).
      assert (0 <= rsum N (fun t => w t * ((pvl Q' t - pvl Q t) * (pvl Q' t - pvl Q t)))); [|lra].
      apply rsum_nonneg. intros t Ht. apply Rmult_le_pos; [apply Rlt_le; apply Hw; auto|apply Rle_0_sqr].
    Qed.
  End Per.
End Row.
