(* When the linear systems of spline are nonsingular. *)
From Coq Require Import List Arith ZArith Lia Bool Reals Lra.
From Verif Require Import Num PyBase NdArray Poly SpecPoly PolyProofs PwPoly PwBase PwCtor RSum
  SolvePer SolveProofs Gauss PropsSolve Spline SplineProofs SplineCore.
Import ListNotations.
Local Open Scope R_scope.

Definition zcol (c : list R) : Prop := forall k, nth k c 0 = 0.
Lemma zcol_tay k c t : zcol c -> tay k c t = 0.
Proof.
  intros H. assert (E : c = repeat 0 (length c)).
  { apply list_eq_nth; [rewrite repeat_length; reflexivity|]. intros i Hi. rewrite nth_repeat. apply H. }
  rewrite E. apply tay_zeros.
Qed.
Lemma tay_all0 c d : (forall m, tay m c d = 0) -> zcol c.
Proof.
  intros H. destruct c as [|a c]; [intros [|k]; reflexivity|].
  assert (E : pshift (a :: c) d = repeat 0 (length (a :: c))).
  { apply list_eq_nth; [rewrite pshift_length, repeat_length by discriminate; reflexivity|].
    intros i Hi. rewrite <- tay_at_0, pshift_tay, nth_repeat, Rplus_0_r by discriminate. apply H. }
  intros k. rewrite <- tay_at_0. replace 0 with (d + - d) at 1 by ring. rewrite <- pshift_tay by discriminate.
  rewrite E. apply tay_zeros.
Qed.
(* a polynomial of degree n flat to order n-1 at d and zero at 0 is zero *)
Lemma flat_right n c d : length c = (n + 1)%nat -> d <> 0 -> nth 0 c 0 = 0 ->
  (forall m, (m < n)%nat -> tay m c d = 0) -> zcol c.
Proof.
  intros HL Hd H0 H. assert (NE : c <> []) by (intros ->; cbn in HL; lia).
  assert (E : pshift c d = (repeat 0 n ++ [tay n c d])%list).
  { apply list_eq_nth; [rewrite pshift_length, app_length, repeat_length by auto; cbn; lia|].
    intros i Hi. rewrite pshift_length, HL in Hi by auto. rewrite <- tay_at_0, pshift_tay, Rplus_0_r by auto.
    destruct (Nat.eq_dec i n) as [->|].
    - rewrite app_nth2, repeat_length, Nat.sub_diag by (rewrite repeat_length; lia). reflexivity.
    - rewrite app_nth1 by (rewrite repeat_length; lia). rewrite nth_repeat. apply H. lia. }
  assert (Z : tay n c d = 0).
  { assert (P : peval (pshift c d) (- d) = 0).
    { rewrite pshift_peval by auto. replace (d + - d) with 0 by ring. rewrite peval_0. exact H0. }
    rewrite E, peval_app, peval_zeros, repeat_length, peval_cons, peval_nil in P.
    rewrite Rplus_0_l, Rmult_0_r, Rplus_0_r in P. apply Rmult_integral in P. destruct P as [P|P]; auto.
    exfalso. revert P. apply pow_nonzero. lra. }
  apply (tay_all0 c d). intros m. destruct (Nat.lt_trichotomy m n) as [L|[->|L]]; auto. apply tay_big. lia.
Qed.
Lemma flat_left n c d : length c = (n + 1)%nat -> d <> 0 -> (forall m, (m < n)%nat -> nth m c 0 = 0) ->
  tay 0 c d = 0 -> zcol c.
Proof.
  intros HL Hd H H0.
  assert (E : c = (repeat 0 n ++ [nth n c 0])%list).
  { apply list_eq_nth; [rewrite app_length, repeat_length; cbn; lia|]. intros i Hi.
    destruct (Nat.eq_dec i n) as [->|].
    - rewrite app_nth2, repeat_length, Nat.sub_diag by (rewrite repeat_length; lia). reflexivity.
    - rewrite app_nth1 by (rewrite repeat_length; lia). rewrite nth_repeat. apply H. lia. }
  rewrite tay_0, E, peval_app, peval_zeros, repeat_length, peval_cons, peval_nil in H0.
  rewrite Rplus_0_l, Rmult_0_r, Rplus_0_r in H0. apply Rmult_integral in H0.
  destruct H0 as [P|P]; [exfalso; revert P; apply pow_nonzero; auto|].
  intros k. destruct (Nat.lt_trichotomy k n) as [L|[->|L]]; auto. apply nth_overflow. lia.
Qed.

(* --- from the homogeneous equations to pieces ------------------------------------------- *)
Definition hcols (n : nat) (x : list R) (v : nat -> R) (q : nat) : list R :=
  vcol n (dxs x q) 0 (fun p => v (q * n + p)%nat).
Definition spec_at (l : list (option (nd R))) (k : nat) : Prop := nth k l None <> None.
Lemma spec_at_specs l k : spec_at l k -> exists t, (t < count_some l)%nat /\ mi_at l t = k.
Proof.
  intros H. unfold spec_at in H. destruct (nth k l None) as [b|] eqn:E; [|congruence].
  assert (E' : nth_error l k = Some (Some b)).
  { rewrite <- E. apply nth_error_nth'. destruct (Nat.lt_ge_cases k (length l)); auto. rewrite nth_overflow in E by auto. discriminate. }
  destruct (specs_nth l 0 k b bdef E') as (t & Ht & Et). exists t. split; auto. unfold mi_at. rewrite Et. reflexivity.
Qed.
Lemma hom_pieces n x per v : (2 <= n)%nat -> (2 <= length x)%nat -> incr x ->
  (forall q m, (m < n)%nat -> (q < length x - 1)%nat -> (m = 0 \/ per = true \/ q + 1 < length x - 1)%nat -> eqval n x v q m = 0) ->
  pieces n x per (fun _ => 0) (hcols n x v).
Proof.
  intros Hn Hx Hi H.
  assert (SE : spl_eqs n x per [] [] (fun _ => 0) 0 v).
  { split.
    - intros q m Hm Hq Hc. rewrite H by auto. destruct (m =? 0)%nat; ring.
    - intros _. split; intros k Hk; cbn in Hk; lia. }
  destruct (eqs_pieces n x per [] [] _ _ _ Hn Hx Hi SE) as [Q _]. exact Q.
Qed.
Lemma hom_cols n x per lo hi v : (2 <= n)%nat -> (2 <= length x)%nat -> incr x ->
  (length lo <= n - 1)%nat ->
  spl_hom n x per lo hi v ->
  pieces n x per (fun _ => 0) (hcols n x v) /\
  (per = false -> forall k, spec_at lo k -> nth (S k) (hcols n x v 0) 0 = 0) /\
  (per = false -> forall k, spec_at hi k -> tay (S k) (hcols n x v (length x - 2)) (dxs x (length x - 2)) = 0).
Proof.
  intros Hn Hx Hi Ll (H1 & H2). split; [apply hom_pieces; auto|]. split; intros Hp k Hk.
  - destruct (H2 Hp) as [H3 _]. destruct (spec_at_specs lo k Hk) as (t & Ht & Et). specialize (H3 t Ht). rewrite Et in H3.
    assert (k < length lo)%nat. { destruct (Nat.lt_ge_cases k (length lo)); auto. unfold spec_at in Hk. rewrite nth_overflow in Hk by auto. congruence. }
    unfold hcols. rewrite nth_vcol by lia. cbn [Nat.mul Nat.add]. rewrite H3. unfold Rdiv. ring.
  - destruct (H2 Hp) as [_ H3]. destruct (spec_at_specs hi k Hk) as (t & Ht & Et). specialize (H3 t Ht). rewrite Et in H3.
    replace (length x - 1 - 1)%nat with (length x - 2)%nat in H3 by lia.
    pose proof (dxs_pos x (length x - 2) Hi ltac:(lia)) as Hd.
    pose proof (vcol_tay n (dxs x (length x - 2)) 0 (fun p => v ((length x - 2) * n + p)%nat) (S k) (Rgt_not_eq _ _ Hd)) as T.
    cbn [Nat.eqb] in T. replace (k + 1)%nat with (S k) in H3 by lia. rewrite H3, Rplus_0_l in T.
    apply Rmult_integral in T. destruct T as [T|T]; auto. exfalso. revert T. apply pow_nonzero. lra.
Qed.
Lemma hcols_zero n x v : (1 <= n)%nat -> incr x -> (forall q, (q < length x - 1)%nat -> zcol (hcols n x v q)) ->
  forall i, (i < (length x - 1) * n)%nat -> v i = 0.
Proof.
  intros Hn Hi H i Hlt. rewrite (Nat.div_mod i n) by lia. set (q := (i / n)%nat). set (t := (i mod n)%nat).
  assert (Hq : (q < length x - 1)%nat) by (apply Nat.div_lt_upper_bound; lia).
  assert (Ht : (t < n)%nat) by (apply Nat.mod_upper_bound; lia).
  specialize (H q Hq (S t)). unfold hcols in H. rewrite nth_vcol in H by auto.
  pose proof (dxs_pos x q Hi Hq) as Hd. replace (n * q + t)%nat with (q * n + t)%nat by lia.
  apply (Rmult_eq_reg_r (/ dxs x q ^ S t)); [|apply Rinv_neq_0_compat, pow_nonzero; lra]. rewrite Rmult_0_l. exact H.
Qed.

(* --- all conditions at one end, any degree -------------------------------------------------- *)
Lemma march_right n x cols : (2 <= length x)%nat -> incr x -> pieces n x false (fun _ => 0) cols ->
  (forall m, (1 <= m < n)%nat -> tay m (cols (length x - 2)%nat) (dxs x (length x - 2)) = 0) ->
  forall q, (q < length x - 1)%nat -> zcol (cols q).
Proof.
  intros Hx Hi (P1 & P2) Hb.
  assert (G : forall k q, (q + k = length x - 2)%nat -> zcol (cols q)).
  { induction k as [|k IH]; intros q Hq.
    - destruct (P1 q ltac:(lia)) as (A1 & A2 & A3). pose proof (dxs_pos x q Hi ltac:(lia)) as Hd.
      apply (flat_right n _ (dxs x q)); auto; [lra|]. intros [|m] Hm; auto. replace q with (length x - 2)%nat by lia. apply Hb. lia.
    - destruct (P1 q ltac:(lia)) as (A1 & A2 & A3). pose proof (dxs_pos x q Hi ltac:(lia)) as Hd.
      apply (flat_right n _ (dxs x q)); auto; [lra|]. intros [|m] Hm; auto. rewrite P2 by lia.
      rewrite Nat.mod_small by lia. apply IH. lia. }
  intros q Hq. apply (G (length x - 2 - q)%nat). lia.
Qed.
Lemma march_left n x cols : (2 <= length x)%nat -> incr x -> pieces n x false (fun _ => 0) cols ->
  (forall m, (1 <= m < n)%nat -> nth m (cols 0%nat) 0 = 0) ->
  forall q, (q < length x - 1)%nat -> zcol (cols q).
Proof.
  intros Hx Hi (P1 & P2) Hb. induction q as [|q IH]; intros Hq.
  - destruct (P1 0%nat Hq) as (A1 & A2 & A3). pose proof (dxs_pos x 0 Hi ltac:(lia)) as Hd.
    apply (flat_left n _ (dxs x 0)); auto; [lra|]. intros [|m] Hm; auto. apply Hb. lia.
  - destruct (P1 (S q) Hq) as (A1 & A2 & A3). pose proof (dxs_pos x (S q) Hi ltac:(lia)) as Hd.
    apply (flat_left n _ (dxs x (S q))); auto; [lra|]. intros [|m] Hm; auto.
    assert (IHq := IH ltac:(lia)). specialize (P2 q (S m) ltac:(lia) ltac:(lia) ltac:(lia)).
    rewrite Nat.mod_small in P2 by lia. rewrite Nat.add_1_r in P2. rewrite <- P2. apply zcol_tay. auto.
Qed.
(* the band part of the periodic system is always nonsingular *)
Lemma band_hom_zero n x v : (2 <= n)%nat -> (2 <= length x)%nat -> incr x -> band_hom n x v ->
  forall i, (i < (length x - 1) * n)%nat -> v i = 0.
Proof.
  intros Hn Hx Hi (H1 & H2). apply hcols_zero; auto; [lia|]. apply (march_right n); auto.
  - apply hom_pieces; auto. intros q m Hm Hq [Hc|[Hc|Hc]]; [|discriminate|]; apply H1; auto.
  - intros m Hm. specialize (H2 m Hm). replace (length x - 1 - 1)%nat with (length x - 2)%nat in H2 by lia.
    pose proof (dxs_pos x (length x - 2) Hi ltac:(lia)) as Hd.
    pose proof (vcol_tay n (dxs x (length x - 2)) 0 (fun p => v ((length x - 2) * n + p)%nat) m (Rgt_not_eq _ _ Hd)) as T.
    destruct (Nat.eqb_spec m 0); [lia|]. rewrite H2, Rplus_0_l in T. unfold hcols.
    apply Rmult_integral in T. destruct T as [T|T]; auto. exfalso. revert T. apply pow_nonzero. lra.
Qed.
Lemma spl_hom_zero_oneside n x lo hi v : (2 <= n)%nat -> (2 <= length x)%nat -> incr x -> (length lo <= n - 1)%nat ->
  (forall k, (k < n - 1)%nat -> spec_at lo k) \/ (forall k, (k < n - 1)%nat -> spec_at hi k) ->
  spl_hom n x false lo hi v -> forall i, (i < (length x - 1) * n)%nat -> v i = 0.
Proof.
  intros Hn Hx Hi Ll Hs Hh. destruct (hom_cols n x false lo hi v Hn Hx Hi Ll Hh) as (P & B1 & B2).
  apply hcols_zero; auto; [lia|]. destruct Hs as [Hs|Hs].
  - apply (march_left n); auto. intros [|m] Hm; [lia|]. apply B1; auto. apply Hs. lia.
  - apply (march_right n); auto. intros [|m] Hm; [lia|]. apply B2; auto. apply Hs. lia.
Qed.

(* --- odd degree: the energy argument --------------------------------------------------------- *)
Definition dD (k : nat) (c : list R) (t : R) : R := INR (fact k) * tay k c t.
Lemma dD_deriv k c t : derivable_pt_lim (dD k c) t (dD (S k) c t).
Proof.
  pose proof (dpl_tay k c 0 t) as H. rewrite Rminus_0_r in H. revert H. apply dpl_ext. intros u. rewrite Rminus_0_r. reflexivity.
Qed.
Definition wsum (r : nat) (c : list R) (t : R) : R :=
  rsum r (fun k => (-1) ^ k * (dD (r - 1 - k) c t * dD (r + k) c t)).
Lemma dpl_rsum n (f g : nat -> R -> R) t : (forall k, (k < n)%nat -> derivable_pt_lim (f k) t (g k t)) ->
  derivable_pt_lim (fun u => rsum n (fun k => f k u)) t (rsum n (fun k => g k t)).
Proof.
  induction n as [|n IH]; intros H; cbn [rsum].
  - apply derivable_pt_lim_const.
  - apply (derivable_pt_lim_plus (fun u => rsum n (fun k => f k u)) (f n)); [apply IH; intros; apply H; lia|apply H; lia].
Qed.
Lemma rsum_tele n (u : nat -> R) : rsum n (fun k => u k - u (S k)) = u 0%nat - u n.
Proof. induction n as [|n IH]; cbn [rsum]; [ring|]. rewrite IH. ring. Qed.
Lemma wsum_deriv r c t : (1 <= r)%nat -> (length c <= 2 * r)%nat -> derivable_pt_lim (wsum r c) t (dD r c t * dD r c t).
Proof.
  intros Hr HL. set (u := fun k => (-1) ^ k * (dD (r - k) c t * dD (r + k) c t)).
  replace (dD r c t * dD r c t) with
    (rsum r (fun k => (-1) ^ k * (dD (S (r - 1 - k)) c t * dD (r + k) c t + dD (r - 1 - k) c t * dD (S (r + k)) c t))).
  - apply (dpl_rsum r (fun k s => (-1) ^ k * (dD (r - 1 - k) c s * dD (r + k) c s))
      (fun k s => (-1) ^ k * (dD (S (r - 1 - k)) c s * dD (r + k) c s + dD (r - 1 - k) c s * dD (S (r + k)) c s))).
    intros k Hk. apply (derivable_pt_lim_scal (fun s => dD (r - 1 - k) c s * dD (r + k) c s)).
    apply (derivable_pt_lim_mult (dD (r - 1 - k) c) (dD (r + k) c)); apply dD_deriv.
  - rewrite (rsum_ext r _ (fun k => u k - u (S k))).
    + rewrite rsum_tele. unfold u. rewrite Nat.sub_0_r, Nat.add_0_r. replace (dD (r + r) c t) with 0; [cbn; ring|].
      unfold dD. rewrite tay_big by lia. ring.
    + intros k Hk. unfold u. replace (S (r - 1 - k)) with (r - k)%nat by lia. replace (r - S k)%nat with (r - 1 - k)%nat by lia.
      replace (r + S k)%nat with (S (r + k)) by lia. cbn [pow]. ring.
Qed.
Lemma locally_const f x l e a : 0 < e -> (forall t, Rabs (t - x) < e -> f t = a) -> derivable_pt_lim f x l -> l = 0.
Proof.
  intros He H HL. apply (uniqueness_limite f x); auto. intros eps Heps. exists (mkposreal e He). intros h Hh0 Hh. cbn in Hh.
  rewrite (H (x + h)), (H x).
  - replace ((a - a) / h - 0) with 0 by (field; auto). rewrite Rabs_R0. auto.
  - replace (x - x) with 0 by ring. rewrite Rabs_R0. auto.
  - replace (x + h - x) with h by ring. auto.
Qed.
Lemma wsum_le r c a b : (1 <= r)%nat -> (length c <= 2 * r)%nat -> a <= b -> wsum r c a <= wsum r c b.
Proof.
  intros Hr HL Hab.
  assert (pr : derivable (wsum r c)) by (intros t; exists (dD r c t * dD r c t); apply wsum_deriv; auto).
  apply (nonneg_derivative_1 (wsum r c) pr); auto. intros t.
  rewrite (derive_pt_eq_0 (wsum r c) t (dD r c t * dD r c t) (pr t) (wsum_deriv r c t Hr HL)). nra.
Qed.
Lemma wsum_flat r c d : (1 <= r)%nat -> (length c <= 2 * r)%nat -> 0 < d -> wsum r c 0 = wsum r c d ->
  forall k, (r <= k)%nat -> nth k c 0 = 0.
Proof.
  intros Hr HL Hd E.
  assert (C : forall t, 0 < t < d -> wsum r c t = wsum r c 0).
  { intros t Ht. apply Rle_antisym; [rewrite E|]; apply wsum_le; auto; lra. }
  assert (Z : forall j t, 0 < t < d -> dD (r + j) c t = 0).
  { induction j as [|j IH]; intros t Ht.
    - rewrite Nat.add_0_r. assert (M : 0 < Rmin t (d - t)) by (apply Rmin_pos; lra).
      assert (Q : dD r c t * dD r c t = 0).
      { apply (locally_const (wsum r c) t _ (Rmin t (d - t)) (wsum r c 0)); auto; [|apply wsum_deriv; auto].
        intros u Hu. apply C. pose proof (Rmin_l t (d - t)). pose proof (Rmin_r t (d - t)). apply Rabs_def2 in Hu. lra. }
      nra.
    - assert (M : 0 < Rmin t (d - t)) by (apply Rmin_pos; lra). rewrite Nat.add_succ_r.
      apply (locally_const (dD (r + j) c) t _ (Rmin t (d - t)) 0); auto; [|apply dD_deriv].
      intros u Hu. apply IH. pose proof (Rmin_l t (d - t)). pose proof (Rmin_r t (d - t)). apply Rabs_def2 in Hu. lra. }
  intros k Hk. destruct c as [|a c]; [destruct k; reflexivity|]. set (l := a :: c) in *.
  assert (NE : l <> []) by discriminate.
  assert (T : forall k, (r <= k)%nat -> tay k l (d / 2) = 0).
  { intros m Hm. specialize (Z (m - r)%nat (d / 2) ltac:(lra)). replace (r + (m - r))%nat with m in Z by lia.
    unfold dD in Z. apply Rmult_integral in Z. destruct Z as [Z|Z]; auto. exfalso. revert Z. apply INR_fact_neq_0. }
  assert (ES : pshift l (d / 2) = (firstn r (pshift l (d / 2)) ++ repeat 0 (length l - r))%list).
  { apply list_eq_nth.
    - rewrite app_length, firstn_length, repeat_length, pshift_length by auto. lia.
    - intros i Hi. rewrite pshift_length in Hi by auto. destruct (Nat.lt_ge_cases i r) as [L|L].
      + rewrite app_nth1 by (rewrite firstn_length, pshift_length by auto; lia).
        rewrite <- (firstn_skipn r (pshift l (d / 2))) at 1. rewrite app_nth1; auto. rewrite firstn_length, pshift_length by auto; lia.
      + rewrite app_nth2 by (rewrite firstn_length, pshift_length by auto; lia). rewrite nth_repeat.
        rewrite <- tay_at_0, pshift_tay, Rplus_0_r by auto. apply T; auto. }
  rewrite <- tay_at_0. replace 0 with (d / 2 + - (d / 2)) at 1 by ring. rewrite <- pshift_tay by auto. rewrite ES, tay_app_zeros.
  apply tay_big. rewrite firstn_length. lia.
Qed.

(* W matches between neighbouring pieces with zero values at the common knot *)
Lemma wsum_match n r c c' d : n = (2 * r - 1)%nat -> (2 <= r)%nat -> tay 0 c d = 0 -> nth 0 c' 0 = 0 ->
  (forall m, (1 <= m < n)%nat -> tay m c d = nth m c' 0) -> wsum r c d = wsum r c' 0.
Proof.
  intros En Hr H0 H0' H. unfold wsum. apply rsum_ext. intros k Hk. f_equal.
  assert (M : forall m, (m < n)%nat -> dD m c d = dD m c' 0).
  { intros m Hm. unfold dD. f_equal. rewrite tay_at_0. destruct m; [congruence|apply H; lia]. }
  destruct (Nat.eq_dec k (r - 1)) as [->|Hk'].
  - rewrite Nat.sub_diag. unfold dD at 1 3. rewrite tay_at_0, H0, H0'. ring.
  - rewrite !M by lia. reflexivity.
Qed.
Lemma chain_eq (a b : nat -> R) m : (forall q, (q < m)%nat -> a q <= b q) -> (forall q, (S q < m)%nat -> b q = a (S q)) ->
  (1 <= m)%nat -> a 0%nat = b (m - 1)%nat -> forall q, (q < m)%nat -> a q = b q.
Proof.
  intros H1 H2 Hm E.
  assert (U : forall q, (q < m)%nat -> a 0%nat <= a q).
  { induction q as [|q IH]; intros Hq; [lra|]. rewrite <- H2 by lia. specialize (IH ltac:(lia)). specialize (H1 q ltac:(lia)). lra. }
  assert (V : forall k q, (q + k = m - 1)%nat -> b q <= b (m - 1)%nat).
  { induction k as [|k IH]; intros q Hq; [replace q with (m - 1)%nat by lia; lra|].
    rewrite H2 by lia. specialize (IH (S q) ltac:(lia)). specialize (H1 (S q) ltac:(lia)). lra. }
  intros q Hq. specialize (U q Hq). specialize (V (m - 1 - q)%nat q ltac:(lia)). specialize (H1 q Hq). lra.
Qed.
Lemma energy_flat n r x per cols : n = (2 * r - 1)%nat -> (2 <= r)%nat -> (2 <= length x)%nat -> incr x ->
  pieces n x per (fun _ => 0) cols ->
  wsum r (cols 0%nat) 0 = wsum r (cols (length x - 2)%nat) (dxs x (length x - 2)) ->
  forall q, (q < length x - 1)%nat -> forall k, (r <= k)%nat -> nth k (cols q) 0 = 0.
Proof.
  intros En Hr Hx Hi (P1 & P2) E q Hq. destruct (P1 q Hq) as (A1 & A2 & A3).
  apply (wsum_flat r (cols q) (dxs x q)); [lia|lia|apply dxs_pos; auto|].
  apply (chain_eq (fun q => wsum r (cols q) 0) (fun q => wsum r (cols q) (dxs x q)) (length x - 1)); auto; [| |lia|].
  - intros j Hj. destruct (P1 j Hj) as (B1 & B2 & B3). apply wsum_le; [lia|lia|]. left. apply dxs_pos; auto.
  - intros j Hj. destruct (P1 j ltac:(lia)) as (B1 & B2 & B3). destruct (P1 (S j) ltac:(lia)) as (C1 & C2 & C3).
    apply (wsum_match n); auto. intros m Hm. rewrite P2 by lia. rewrite Nat.mod_small, Nat.add_1_r by lia. reflexivity.
  - replace (length x - 1 - 1)%nat with (length x - 2)%nat by lia. exact E.
Qed.
(* then all pieces are one polynomial of degree < r *)
Lemma one_poly n r x per cols : n = (2 * r - 1)%nat -> (2 <= r)%nat -> (2 <= length x)%nat -> incr x ->
  pieces n x per (fun _ => 0) cols ->
  (forall q, (q < length x - 1)%nat -> forall k, (r <= k)%nat -> nth k (cols q) 0 = 0) ->
  forall q, (q < length x - 1)%nat -> cols q = pshift (cols 0%nat) (nth q x 0 - nth 0 x 0).
Proof.
  intros En Hr Hx Hi (P1 & P2) Z. induction q as [|q IH]; intros Hq; destruct (P1 0%nat ltac:(lia)) as (A1 & A2 & A3).
  - replace (nth 0 x 0 - nth 0 x 0) with 0 by ring. rewrite pshift_0; auto. intros E; rewrite E in A1; cbn in A1; lia.
  - assert (NE : cols 0%nat <> []) by (intros E; rewrite E in A1; cbn in A1; lia).
    specialize (IH ltac:(lia)). destruct (P1 q ltac:(lia)) as (B1 & B2 & B3). destruct (P1 (S q) ltac:(lia)) as (C1 & C2 & C3).
    assert (NEq : cols q <> []) by (intros E; rewrite E in B1; cbn in B1; lia).
    replace (nth (S q) x 0 - nth 0 x 0) with (nth q x 0 - nth 0 x 0 + dxs x q).
    2:{ unfold dxs. numR. ring. }
    rewrite <- pshift_pshift, <- IH by auto. apply list_eq_nth; [rewrite pshift_length by auto; lia|].
    intros k Hk. rewrite <- (tay_at_0 k (pshift (cols q) (dxs x q))), pshift_tay, Rplus_0_r by auto.
    destruct (Nat.lt_ge_cases k r) as [L|L].
    + destruct k as [|k]; [rewrite C2, B3; reflexivity|]. rewrite P2 by lia. rewrite Nat.mod_small, Nat.add_1_r by lia. reflexivity.
    + rewrite Z by auto. rewrite <- (Rplus_0_r (dxs x q)), <- pshift_tay by auto.
      assert (TB : forall c, (forall k, (r <= k)%nat -> nth k c 0 = 0) -> forall t, tay k c t = 0).
      { intros c Hc t. replace c with (firstn r c ++ repeat 0 (length c - r))%list.
        - rewrite tay_app_zeros. apply tay_big. rewrite firstn_length. lia.
        - apply list_eq_nth; [rewrite app_length, firstn_length, repeat_length; lia|]. intros i Hi'.
          destruct (Nat.lt_ge_cases i r) as [L'|L'].
          + destruct (Nat.lt_ge_cases i (length c)) as [L2|L2].
            * rewrite app_nth1 by (rewrite firstn_length; lia). rewrite <- (firstn_skipn r c) at 2. rewrite app_nth1; auto. rewrite firstn_length; lia.
            * rewrite app_length, firstn_length, repeat_length in Hi'. lia.
          + rewrite Hc by auto. destruct (Nat.lt_ge_cases i (length (firstn r c))) as [L3|L3].
            * rewrite firstn_length in L3. lia.
            * rewrite app_nth2 by auto. apply nth_repeat. }
      rewrite pshift_tay by auto. rewrite TB; auto. apply Z. lia.
Qed.
(* a polynomial with more zeros than its degree is zero *)
Lemma poly_factor a : forall c : list R, peval c a = 0 ->
  exists c', length c' = (length c - 1)%nat /\ forall t, peval c t = (t - a) * peval c' t.
Proof.
  assert (G : forall c : list R, exists c', length c' = (length c - 1)%nat /\ forall t, peval c t = peval c a + (t - a) * peval c' t).
  { induction c as [|b c IH].
    - exists []. split; auto. intros t. rewrite !peval_nil. ring.
    - destruct IH as (c' & L & E). destruct c as [|b' c].
      + exists []. split; auto. intros t. rewrite !peval_cons, !peval_nil. ring.
      + exists (peval (b' :: c) a :: c'). split; [cbn in *; lia|]. intros t.
        rewrite (peval_cons b), (peval_cons b (b' :: c) a), (peval_cons _ c' t), (E t). ring. }
  intros c H. destruct (G c) as (c' & L & E). exists c'. split; auto. intros t. rewrite E, H. ring.
Qed.
Lemma poly_zeros m : forall (c : list R) (z : nat -> R), (length c <= m)%nat ->
  (forall i j, (i < j < m)%nat -> z i <> z j) -> (forall i, (i < m)%nat -> peval c (z i) = 0) -> forall t, peval c t = 0.
Proof.
  induction m as [|m IH]; intros c z HL Hz H t.
  - destruct c; [apply peval_nil|cbn in HL; lia].
  - destruct (poly_factor (z m) c (H m ltac:(lia))) as (c' & L & E). rewrite E, (IH c' z); [ring|lia| |].
    + intros i j Hij. apply Hz. lia.
    + intros i Hi. specialize (H i ltac:(lia)). rewrite E in H. apply Rmult_integral in H. destruct H as [H|H]; auto.
      exfalso. apply (Hz i m); [lia|lra].
Qed.
Lemma firstn_zero_tail r (c : list R) : (forall k, (r <= k)%nat -> nth k c 0 = 0) -> c = (firstn r c ++ repeat 0 (length c - r))%list.
Proof.
  intros Hc. apply list_eq_nth; [rewrite app_length, firstn_length, repeat_length; lia|]. intros i Hi.
  destruct (Nat.lt_ge_cases i r) as [L'|L'].
  - rewrite app_nth1 by (rewrite firstn_length; lia). rewrite <- (firstn_skipn r c) at 1. rewrite app_nth1; auto. rewrite firstn_length; lia.
  - rewrite Hc by auto. rewrite app_nth2 by (rewrite firstn_length; lia). symmetry. apply nth_repeat.
Qed.
Lemma peval_all0 c : (forall t, peval c t = 0) -> zcol c.
Proof.
  intros H k. pose proof (peval_zero_coeffs c H) as F. destruct (Nat.lt_ge_cases k (length c)).
  - rewrite Forall_forall in F. apply F. apply nth_In. auto.
  - apply nth_overflow. auto.
Qed.

(* each of the orders 1..r-1, or its complement to n, is given *)
Definition balanced (n r : nat) (l : list (option (nd R))) : Prop :=
  forall j, (1 <= j < r)%nat -> spec_at l (j - 1) \/ spec_at l (n - j - 1).
Lemma wsum_zero n r c t : n = (2 * r - 1)%nat -> (1 <= r)%nat -> tay 0 c t = 0 ->
  (forall j, (1 <= j < r)%nat -> tay j c t = 0 \/ tay (n - j) c t = 0) -> wsum r c t = 0.
Proof.
  intros En Hr H0 H. unfold wsum. apply rsum_zero. intros k Hk.
  assert (Z : dD (r - 1 - k) c t * dD (r + k) c t = 0); [|rewrite Z; ring]. unfold dD.
  destruct (Nat.eq_dec k (r - 1)) as [->|Hk'].
  - rewrite Nat.sub_diag, H0. ring.
  - destruct (H (r - 1 - k)%nat ltac:(lia)) as [E|E].
    + rewrite E. ring.
    + replace (n - (r - 1 - k))%nat with (r + k)%nat in E by lia. rewrite E. ring.
Qed.
Lemma cols_zero_odd n r x lo hi cols : n = (2 * r - 1)%nat -> (2 <= r)%nat -> (2 <= length x)%nat -> incr x ->
  balanced n r lo -> balanced n r hi ->
  (r <= length x)%nat \/ (forall j, (1 <= j < r)%nat -> spec_at lo (j - 1)) ->
  pieces n x false (fun _ => 0) cols -> (forall k, spec_at lo k -> nth (S k) (cols 0%nat) 0 = 0) ->
  (forall k, spec_at hi k -> tay (S k) (cols (length x - 2)%nat) (dxs x (length x - 2)) = 0) ->
  forall q, (q < length x - 1)%nat -> zcol (cols q).
Proof.
  intros En Hr Hx Hi Bl Bh Hk P B1 B2. pose proof P as [P1 P2].
  destruct (P1 0%nat ltac:(lia)) as (A1 & A2 & A3). destruct (P1 (length x - 2)%nat ltac:(lia)) as (C1 & C2 & C3).
  assert (Z : forall q, (q < length x - 1)%nat -> forall k, (r <= k)%nat -> nth k (cols q) 0 = 0).
  { apply (energy_flat n r x false); auto. rewrite !(wsum_zero n); auto; try lia.
    - intros j Hj. destruct (Bh j Hj) as [Q|Q]; apply B2 in Q.
      + left. replace (S (j - 1)) with j in Q by lia. exact Q.
      + right. replace (S (n - j - 1)) with (n - j)%nat in Q by lia. exact Q.
    - rewrite tay_at_0. exact A2.
    - intros j Hj. rewrite !tay_at_0. destruct (Bl j Hj) as [Q|Q]; apply B1 in Q.
      + left. replace (S (j - 1)) with j in Q by lia. exact Q.
      + right. replace (S (n - j - 1)) with (n - j)%nat in Q by lia. exact Q. }
  pose proof (one_poly n r x false cols En Hr Hx Hi P Z) as O.
  assert (NE : cols 0%nat <> []) by (intros E; rewrite E in A1; cbn in A1; lia).
  assert (Z0 : zcol (cols 0%nat)).
  { destruct Hk as [Hk|Hk].
    - apply peval_all0. intros t. rewrite (firstn_zero_tail r (cols 0%nat)) by (apply Z; lia).
      rewrite peval_app, peval_zeros, Rmult_0_r, Rplus_0_r.
      apply (poly_zeros (length x) _ (fun i => nth i x 0 - nth 0 x 0)).
      + rewrite firstn_length. lia.
      + intros i j Hij E. pose proof (incr_lt x i j Hi Hij). lra.
      + intros i Hi'. transitivity (peval (cols 0%nat) (nth i x 0 - nth 0 x 0)).
        { rewrite (firstn_zero_tail r (cols 0%nat)) at 2 by (apply Z; lia).
          rewrite peval_app, peval_zeros, Rmult_0_r, Rplus_0_r. reflexivity. }
        destruct i as [|i].
        * replace (nth 0 x 0 - nth 0 x 0) with 0 by ring. rewrite peval_0. exact A2.
        * destruct (P1 i ltac:(lia)) as (D1 & D2 & D3). rewrite O in D3 by lia. rewrite pshift_tay, tay_0 in D3 by auto.
          etransitivity; [|exact D3]. f_equal. unfold dxs. numR. ring.
    - intros k. destruct (Nat.lt_ge_cases k r) as [L|L]; [|apply Z; [lia|auto]].
      destruct k as [|k]; [exact A2|]. specialize (Hk (S k) ltac:(lia)). cbn [Nat.sub] in Hk. rewrite Nat.sub_0_r in Hk. apply B1. exact Hk. }
  intros q Hq k. rewrite O by auto. rewrite <- tay_at_0, pshift_tay by auto. apply zcol_tay. exact Z0.
Qed.
Lemma spl_hom_zero_odd n r x lo hi v : n = (2 * r - 1)%nat -> (2 <= r)%nat -> (2 <= length x)%nat -> incr x ->
  (length lo <= n - 1)%nat -> balanced n r lo -> balanced n r hi ->
  (r <= length x)%nat \/ (forall j, (1 <= j < r)%nat -> spec_at lo (j - 1)) ->
  spl_hom n x false lo hi v -> forall i, (i < (length x - 1) * n)%nat -> v i = 0.
Proof.
  intros En Hr Hx Hi Ll Bl Bh Hk Hh. destruct (hom_cols n x false lo hi v ltac:(lia) Hx Hi Ll Hh) as (P & B1 & B2).
  apply hcols_zero; auto; [lia|]. apply (cols_zero_odd n r x lo hi); auto.
Qed.

(* periodic, odd degree *)
Lemma tay_linear_top k c t : (length c <= S (S k))%nat -> tay k c t = nth k c 0 + INR (S k) * nth (S k) c 0 * t.
Proof.
  intros HL. revert t.
  assert (D : forall t, derivable_pt_lim (fun u => dD k c u - INR (fact (S k)) * nth (S k) c 0 * u) t 0).
  { intros t. set (e := nth (S k) c 0). assert (V : dD (S k) c t - INR (fact (S k)) * e * 1 = 0).
    2:{ rewrite <- V. apply (derivable_pt_lim_minus (dD k c) (fun u => INR (fact (S k)) * e * u)); [apply dD_deriv|].
      apply (derivable_pt_lim_scal (fun u => u)). apply derivable_pt_lim_id. }
    { unfold e, dD. replace (tay (S k) c t) with (nth (S k) c 0); [ring|].
      rewrite <- tay_at_0. destruct c as [|a c]; [rewrite !tay_big by (cbn; lia); reflexivity|].
      assert (DD : forall t, derivable_pt_lim (dD (S k) (a :: c)) t 0).
      { intros u. pose proof (dD_deriv (S k) (a :: c) u) as H. unfold dD at 2 in H. rewrite tay_big, Rmult_0_r in H by lia. exact H. }
      assert (CC : dD (S k) (a :: c) 0 = dD (S k) (a :: c) t).
      { assert (pr : derivable (dD (S k) (a :: c))) by (intros u; exists 0; apply DD).
        apply (null_derivative_1 _ pr). intros u. apply derive_pt_eq_0. apply DD. }
      unfold dD in CC. apply Rmult_eq_reg_l in CC; auto. apply INR_fact_neq_0. } }
  intros t. set (f := fun u => dD k c u - INR (fact (S k)) * nth (S k) c 0 * u) in *.
  assert (pr : derivable f) by (intros u; exists 0; apply D).
  assert (CC : f 0 = f t).
  { apply (null_derivative_1 _ pr). intros u. apply derive_pt_eq_0. apply D. }
  unfold f, dD in CC. rewrite tay_at_0 in CC.
  apply (Rmult_eq_reg_l (INR (fact k))); [|apply INR_fact_neq_0].
  rewrite Rmult_0_r in CC. change (fact (S k)) with (S k * fact k)%nat in CC. rewrite mult_INR in CC. lra.
Qed.
Lemma cols_zero_per n r x cols : n = (2 * r - 1)%nat -> (2 <= r)%nat -> (2 <= length x)%nat -> incr x ->
  pieces n x true (fun _ => 0) cols -> forall q, (q < length x - 1)%nat -> zcol (cols q).
Proof.
  intros En Hr Hx Hi P. pose proof P as [P1 P2].
  destruct (P1 0%nat ltac:(lia)) as (A1 & A2 & A3). destruct (P1 (length x - 2)%nat ltac:(lia)) as (C1 & C2 & C3).
  assert (LM : ((length x - 2 + 1) mod (length x - 1) = 0)%nat).
  { replace (length x - 2 + 1)%nat with (length x - 1)%nat by lia. apply Nat.mod_same. lia. }
  assert (Z : forall q, (q < length x - 1)%nat -> forall k, (r <= k)%nat -> nth k (cols q) 0 = 0).
  { apply (energy_flat n r x true); auto. symmetry. apply (wsum_match n); auto. intros m Hm. rewrite P2 by (auto; lia). rewrite LM. reflexivity. }
  pose proof (one_poly n r x true cols En Hr Hx Hi P Z) as O.
  assert (NE : cols 0%nat <> []) by (intros E; rewrite E in A1; cbn in A1; lia).
  set (T := nth (length x - 1) x 0 - nth 0 x 0).
  assert (HT : 0 < T) by (unfold T; pose proof (incr_lt x 0 (length x - 1) Hi ltac:(lia)); lra).
  assert (PT : forall m, (m < n)%nat -> tay m (cols 0%nat) T = nth m (cols 0%nat) 0).
  { intros m Hm. assert (E : tay m (cols (length x - 2)%nat) (dxs x (length x - 2)) = tay m (cols 0%nat) T).
    { rewrite O by lia. rewrite pshift_tay by auto. f_equal. unfold dxs, T. numR.
      replace (S (length x - 2)) with (length x - 1)%nat by lia. ring. }
    rewrite <- E. destruct m as [|m]; [rewrite C3, A2; reflexivity|]. rewrite P2 by (auto; lia). rewrite LM. reflexivity. }
  (* coefficients from the top *)
  assert (G : forall j k, (k + j = r)%nat -> (1 <= k)%nat -> forall m, (k <= m)%nat -> nth m (cols 0%nat) 0 = 0).
  { induction j as [|j IH]; intros k Hkj Hk1 m Hm; [apply Z; lia|].
    destruct (Nat.eq_dec m k) as [->|Hmk]; [|apply (IH (S k)); lia].
    assert (F : forall i, (S k <= i)%nat -> nth i (cols 0%nat) 0 = 0) by (intros i Hi'; apply (IH (S k)); lia).
    specialize (PT (k - 1)%nat ltac:(lia)). rewrite (firstn_zero_tail (S k) (cols 0%nat) F), tay_app_zeros in PT.
    rewrite tay_linear_top in PT by (rewrite firstn_length; lia). replace (S (k - 1)) with k in PT by lia.
    assert (N : forall i, (i <= k)%nat -> nth i (firstn (S k) (cols 0%nat) ++ repeat 0 (length (cols 0%nat) - S k)) 0 = nth i (firstn (S k) (cols 0%nat)) 0).
    { intros i Hi'. apply app_nth1. rewrite firstn_length. lia. }
    rewrite N in PT by lia. rewrite (firstn_zero_tail (S k) (cols 0%nat) F), N by lia.
    assert (Q : INR k * nth k (firstn (S k) (cols 0%nat)) 0 * T = 0) by lra.
    apply Rmult_integral in Q. destruct Q as [Q|Q]; [|lra]. apply Rmult_integral in Q. destruct Q as [Q|Q]; auto.
    exfalso. revert Q. apply not_0_INR. lia. }
  assert (Z0 : zcol (cols 0%nat)).
  { intros [|k]; [exact A2|]. destruct (Nat.lt_ge_cases r 1); [lia|]. apply (G (r - 1)%nat 1%nat); lia. }
  intros q Hq k. rewrite O by auto. rewrite <- tay_at_0, pshift_tay by auto. apply zcol_tay. exact Z0.
Qed.
Lemma spl_hom_zero_per n r x v : n = (2 * r - 1)%nat -> (2 <= r)%nat -> (2 <= length x)%nat -> incr x ->
  spl_hom n x true [] [] v -> forall i, (i < (length x - 1) * n)%nat -> v i = 0.
Proof.
  intros En Hr Hx Hi Hh. destruct (hom_cols n x true [] [] v ltac:(lia) Hx Hi ltac:(cbn; lia) Hh) as (P & _ & _).
  apply hcols_zero; auto; [lia|]. apply (cols_zero_per n r x); auto.
Qed.
