(* The spline (npplus/pwpoly.py:817-1024) is the only one with the given values and end conditions; polynomials are reproduced. *)
From Coq Require Import List Arith ZArith Lia Bool Reals Lra.
From Verif Require Import Num PyBase NdArray Poly SpecPoly PolyProofs PwPoly PwBase PwDeriv PwInteg PwCtor PropsCtor RSum
  SolvePer SolveProofs Gauss PropsSolve Spline SplineProofs SplineCore SplineSolve SplineFacts SplfitProofs SplfitSolve SplfitRow PropsSpline.
Import ListNotations.
Local Open Scope R_scope.

(* f is a spline of degree n with knots x: one polynomial on each interval, with the values Y at its ends, n-1 continuous derivatives
   between the first and the last knot, and the end conditions lo, hi (component j) *)
Definition a_spline (n : nat) (x : list R) (Y : nat -> R) (lo hi : list (option (nd R))) (j : nat) (f : R -> R) : Prop :=
  exists Q g, on_pieces n x f Q /\
    (forall q, (S q < length x)%nat -> peval (Q q) 0 = Y q /\ peval (Q q) (nth (S q) x 0 - nth q x 0) = Y (S q)) /\
    (forall t, nth 0 x 0 < t < nth (length x - 1) x 0 -> g 0%nat t = f t /\ derivs_at (n - 1) g t) /\
    attains lo hi j (Q 0%nat) (Q (length x - 2)%nat) (nth (length x - 1) x 0 - nth (length x - 2) x 0).
(* f is a periodic spline: one polynomial on each interval of a period, n-1 continuous derivatives, all of them periodic *)
Definition a_per_spline (n : nat) (x : list R) (Y : nat -> R) (f : R -> R) : Prop :=
  exists Q g, on_pieces n x f Q /\ (forall q, (q < length x - 1)%nat -> f (nth q x 0) = Y q) /\
    derivs_upto (n - 1) f g /\ (forall t, f (t + (nth (length x - 1) x 0 - nth 0 x 0)) = f t).

(** ** from functions to coefficients *)
Lemma nderiv_at_coef m c t v : nderiv_at m (peval c) t v -> v = INR (fact m) * tay m c t.
Proof. intros (g & H & <-). apply (nderiv_unique m _ _ _ H (nderiv_tay m c)). Qed.
Lemma cont_left (f h : R -> R) u z : u < z -> continuity_pt f z -> continuity_pt h z -> (forall t, u < t < z -> f t = h t) -> f z = h z.
Proof.
  intros Hu Cf Ch E. apply cond_eq. intros eps He.
  destruct (Cf (eps / 2) ltac:(lra)) as (d1 & P1 & D1). destruct (Ch (eps / 2) ltac:(lra)) as (d2 & P2 & D2).
  set (t := z - Rmin (z - u) (Rmin d1 d2) / 2).
  assert (M0 : 0 < Rmin (z - u) (Rmin d1 d2)) by (repeat apply Rmin_pos; lra).
  pose proof (Rmin_l (z - u) (Rmin d1 d2)). pose proof (Rmin_r (z - u) (Rmin d1 d2)). pose proof (Rmin_l d1 d2). pose proof (Rmin_r d1 d2).
  assert (Ht : u < t < z) by (unfold t; lra).
  assert (DT : D_x no_cond z t) by (split; [exact I|lra]).
  assert (RT : Rabs (t - z) < Rmin d1 d2) by (rewrite Rabs_left by lra; unfold t; lra). clearbody t.
  specialize (D1 t (conj DT (Rlt_le_trans _ _ _ RT (Rmin_l d1 d2)))). specialize (D2 t (conj DT (Rlt_le_trans _ _ _ RT (Rmin_r d1 d2)))).
  cbn in D1, D2. unfold R_dist in D1, D2. rewrite (E t Ht) in D1. apply Rabs_def2 in D1, D2. apply Rabs_def1; lra.
Qed.
Lemma cont_right (f h : R -> R) z v : z < v -> continuity_pt f z -> continuity_pt h z -> (forall t, z < t < v -> f t = h t) -> f z = h z.
Proof.
  intros Hu Cf Ch E. apply cond_eq. intros eps He.
  destruct (Cf (eps / 2) ltac:(lra)) as (d1 & P1 & D1). destruct (Ch (eps / 2) ltac:(lra)) as (d2 & P2 & D2).
  set (t := z + Rmin (v - z) (Rmin d1 d2) / 2).
  assert (M0 : 0 < Rmin (v - z) (Rmin d1 d2)) by (repeat apply Rmin_pos; lra).
  pose proof (Rmin_l (v - z) (Rmin d1 d2)). pose proof (Rmin_r (v - z) (Rmin d1 d2)). pose proof (Rmin_l d1 d2). pose proof (Rmin_r d1 d2).
  assert (Ht : z < t < v) by (unfold t; lra).
  assert (DT : D_x no_cond z t) by (split; [exact I|lra]).
  assert (RT : Rabs (t - z) < Rmin d1 d2) by (rewrite Rabs_right by lra; unfold t; lra). clearbody t.
  specialize (D1 t (conj DT (Rlt_le_trans _ _ _ RT (Rmin_l d1 d2)))). specialize (D2 t (conj DT (Rlt_le_trans _ _ _ RT (Rmin_r d1 d2)))).
  cbn in D1, D2. unfold R_dist in D1, D2. rewrite (E t Ht) in D1. apply Rabs_def2 in D1, D2. apply Rabs_def1; lra.
Qed.
Lemma piece_derivs (D : nat -> R -> R) c h u v : (forall t, u < t < v -> D 0%nat t = peval c (t - u)) ->
  (forall k t, (k < h)%nat -> u < t < v -> derivable_pt_lim (D k) t (D (S k) t)) -> forall k t, (k <= h)%nat -> u < t < v -> D k t = dD k c (t - u).
Proof.
  intros H0 HD. induction k as [|k IH]; intros t Hk Ht.
  - rewrite H0 by auto. unfold dD. rewrite tay_0. cbn. ring.
  - apply (uniqueness_limite (D k) t); [apply HD; auto; lia|]. intros eps He. destruct (dpl_tay k c u t eps He) as [d Hd].
    assert (M : 0 < Rmin d (Rmin (t - u) (v - t))) by (repeat apply Rmin_pos; try lra; apply cond_pos). exists (mkposreal _ M). intros h' Nh Hh. cbn in Hh.
    assert (M1 := Rmin_l d (Rmin (t - u) (v - t))). assert (M2 := Rmin_r d (Rmin (t - u) (v - t))). assert (M3 := Rmin_l (t - u) (v - t)). assert (M4 := Rmin_r (t - u) (v - t)).
    apply Rabs_def2 in Hh as Hh'. rewrite !IH by (try lia; lra). apply Hd; auto. lra.
Qed.
Lemma dD_inj k c c' t t' : dD k c t = dD k c' t' -> tay k c t = tay k c' t'.
Proof. intros E. apply (Rmult_eq_reg_l (INR (fact k))); [exact E|apply INR_fact_neq_0]. Qed.
(* derivatives that exist at the point between two pieces have equal Taylor coefficients on both sides *)
Lemma match_between (g : nat -> R -> R) c c' u z v h : u < z < v ->
  (forall t, u < t < z -> g 0%nat t = peval c (t - u)) -> (forall t, z < t < v -> g 0%nat t = peval c' (t - z)) ->
  (forall t, u < t < v -> derivs_at h g t) -> forall k, (k <= h)%nat -> tay k c (z - u) = nth k c' 0.
Proof.
  intros Hz L R HD k Hk. rewrite <- tay_at_0. apply dD_inj. transitivity (g k z).
  - symmetry. apply (cont_left (g k) (fun t => dD k c (t - u)) u z); [lra|apply HD; auto|apply cont_tay|].
    intros t Ht. apply (piece_derivs g c h u z); auto. intros m s Hm Hs. apply HD; auto. lra.
  - replace 0 with (z - z) by ring. apply (cont_right (g k) (fun t => dD k c' (t - z)) z v); [lra|apply HD; auto|apply cont_tay|].
    intros t Ht. apply (piece_derivs g c' h z v); auto. intros m s Hm Hs. apply HD; auto. lra.
Qed.
Lemma a_spline_pieces n x Y lo hi j f : (2 <= n)%nat -> incr x -> a_spline n x Y lo hi j f -> exists Q, on_pieces n x f Q /\ pieces n x false Y Q /\
  (forall k b, nth k lo None = Some b -> nth (S k) (Q 0%nat) 0 = bget b [j]) /\
  (forall k b, nth k hi None = Some b -> tay (S k) (Q (length x - 2)%nat) (nth (length x - 1) x 0 - nth (length x - 2) x 0) = bget b [j]).
Proof.
  intros Hn Hi (Q & g & HQ & HV & HD & A1 & A2). exists Q. split; [exact HQ|]. split.
  - split.
    + intros q Hq. destruct (HQ q ltac:(lia)) as [L _]. destruct (HV q ltac:(lia)) as [V1 V2]. rewrite peval_0 in V1. split; [lia|]. split; [exact V1|].
      rewrite tay_0, Nat.add_1_r. exact V2.
    + intros q m Hq Hm [?|Hq']; [discriminate|]. rewrite Nat.mod_small, Nat.add_1_r by lia. unfold dxs. numR.
      pose proof (Hi q ltac:(lia)) as I1. pose proof (Hi (S q) ltac:(lia)) as I2.
      pose proof (incr_le x 0 q Hi ltac:(lia)) as I3. pose proof (incr_le x (S (S q)) (length x - 1) Hi ltac:(lia)) as I4.
      apply (match_between g (Q q) (Q (S q)) (nth q x 0) (nth (S q) x 0) (nth (S (S q)) x 0) (n - 1)); try lia; try lra.
      * intros t Ht. rewrite (proj1 (HD t ltac:(lra))). apply (HQ q ltac:(lia)). lra.
      * intros t Ht. rewrite (proj1 (HD t ltac:(lra))). apply (HQ (S q) ltac:(lia)). lra.
      * intros t Ht. apply (HD t). lra.
  - split; intros k b E.
    + specialize (A1 k b E). apply nderiv_at_coef in A1. rewrite tay_at_0 in A1. symmetry. apply (Rmult_eq_reg_l (INR (fact (S k)))); [exact A1|apply INR_fact_neq_0].
    + specialize (A2 k b E). apply nderiv_at_coef in A2. symmetry. apply (Rmult_eq_reg_l (INR (fact (S k)))); [exact A2|apply INR_fact_neq_0].
Qed.
Lemma sub_pieces n x per Y Q Q' : (2 <= length x)%nat -> pieces n x per Y Q -> pieces n x per Y Q' -> pieces n x per (fun _ => 0) (subQ Q Q').
Proof.
  intros Hx (A1 & A2) (B1 & B2). assert (LL : forall q, (q < length x - 1)%nat -> length (Q q) = (n + 1)%nat /\ length (Q' q) = (n + 1)%nat) by (intros q Hq; split; [apply A1|apply B1]; auto).
  split.
  - intros q Hq. destruct (LL q Hq) as [L1 L2]. split; [apply subQ_len; auto|]. rewrite (subQ_nth (n + 1)), (subQ_tay (n + 1)) by auto.
    destruct (A1 q Hq) as (_ & -> & ->). destruct (B1 q Hq) as (_ & -> & ->). split; ring.
  - intros q m Hq Hm Hc. assert (Hq' : ((q + 1) mod (length x - 1) < length x - 1)%nat) by (apply Nat.mod_upper_bound; lia).
    destruct (LL q Hq) as [L1 L2]. destruct (LL _ Hq') as [L3 L4]. rewrite (subQ_nth (n + 1)), (subQ_tay (n + 1)) by auto. rewrite A2, B2 by auto. reflexivity.
Qed.
Lemma sub_zero n x Y Q Q' f f' : pieces n x false Y Q -> pieces n x false Y Q' -> on_pieces n x f Q -> on_pieces n x f' Q' ->
  (forall q, (q < length x - 1)%nat -> zcol (subQ Q Q' q)) -> forall q t, (S q < length x)%nat -> nth q x 0 < t <= nth (S q) x 0 -> f' t = f t.
Proof.
  intros (A1 & _) (B1 & _) HQ HQ' Z q t Hq Ht. destruct (HQ q Hq) as [L E]. destruct (HQ' q Hq) as [L' E']. rewrite E, E' by auto.
  pose proof (subQ_tay (S n) Q Q' q 0 (t - nth q x 0) L L') as S0. rewrite zcol_tay in S0 by (apply Z; lia). rewrite !tay_0 in S0. lra.
Qed.
Lemma cover (x : list R) t : nth 0 x 0 < t <= nth (length x - 1) x 0 -> exists q, (S q < length x)%nat /\ nth q x 0 < t <= nth (S q) x 0.
Proof.
  intros Ht. assert (0 < length x)%nat by (destruct x; cbn in *; [lra|lia]).
  assert (G : forall m, (m < length x)%nat -> nth m x 0 < t \/ exists q, (S q < length x)%nat /\ nth q x 0 < t <= nth (S q) x 0).
  { induction m as [|m IH]; intros Hm; [left; lra|]. destruct (IH ltac:(lia)) as [L|R]; [|right; exact R].
    destruct (Rlt_le_dec (nth (S m) x 0) t); [left; auto|]. right. exists m. split; [lia|lra]. }
  destruct (G (length x - 1)%nat ltac:(lia)) as [L|R]; [lra|exact R].
Qed.

Lemma a_per_pieces n x Y f : (2 <= n)%nat -> incr x -> (2 <= length x)%nat -> a_per_spline n x Y f ->
  exists Q, on_pieces n x f Q /\ pieces n x true (y_per x Y) Q.
Proof.
  intros Hn Hi Hx (Q & h & O & V & (D1 & D2 & D3) & Pf). set (T := nth (length x - 1) x 0 - nth 0 x 0) in *. exists Q. split; [exact O|].
      assert (LQ : forall q, (q < length x - 1)%nat -> length (Q q) = S n) by (intros q Hq; apply O; lia).
      assert (MB : forall q k, (S q < length x - 1)%nat -> (k <= n - 1)%nat -> tay k (Q q) (dxs x q) = nth k (Q (S q)) 0).
      { intros q k Hq Hk. unfold dxs. numR. pose proof (Hi q ltac:(lia)) as I1. pose proof (Hi (S q) ltac:(lia)) as I2.
        apply (match_between h (Q q) (Q (S q)) (nth q x 0) (nth (S q) x 0) (nth (S (S q)) x 0) (n - 1)); try lia; try lra.
        - intros t Ht. rewrite D1. apply (O q ltac:(lia)). lra.
        - intros t Ht. rewrite D1. apply (O (S q) ltac:(lia)). lra.
        - intros t Ht. split; auto. }
      assert (MP : forall k, (k <= n - 1)%nat -> tay k (Q (length x - 2)%nat) (dxs x (length x - 2)) = nth k (Q 0%nat) 0).
      { intros k Hk. unfold dxs. numR. replace (S (length x - 2)) with (length x - 1)%nat by lia. pose proof (Hi 0%nat ltac:(lia)) as I0. pose proof (Hi (length x - 2)%nat ltac:(lia)) as I1.
        replace (S (length x - 2)) with (length x - 1)%nat in I1 by lia.
        apply (match_between h (Q (length x - 2)%nat) (Q 0%nat) (nth (length x - 2) x 0) (nth (length x - 1) x 0) (nth 1 x 0 + T) (n - 1)); auto; try (unfold T; lra).
        - intros t Ht. rewrite D1. apply (O (length x - 2)%nat ltac:(lia)). replace (S (length x - 2)) with (length x - 1)%nat by lia. lra.
        - intros t Ht. rewrite D1. replace t with (t - T + T) at 1 by ring. rewrite Pf. destruct (O 0%nat ltac:(lia)) as [_ O0]. rewrite O0 by (unfold T in *; lra). f_equal. unfold T. ring.
        - intros t Ht. split; auto. }
      assert (V0 : forall q, (q < length x - 1)%nat -> nth 0 (Q q) 0 = Y q).
      { intros q Hq. destruct q as [|q].
        - rewrite <- MP by lia. rewrite tay_0. unfold dxs. numR. replace (S (length x - 2)) with (length x - 1)%nat by lia.
          destruct (O (length x - 2)%nat ltac:(lia)) as [_ O0]. replace (S (length x - 2)) with (length x - 1)%nat in O0 by lia.
          rewrite <- (O0 (nth (length x - 1) x 0)) by (pose proof (Hi (length x - 2)%nat ltac:(lia)) as I1; replace (S (length x - 2)) with (length x - 1)%nat in I1 by lia; lra).
          rewrite <- V by lia. rewrite <- (Pf (nth 0 x 0)). f_equal. unfold T. ring.
        - rewrite <- MB by lia. rewrite tay_0. unfold dxs. numR. destruct (O q ltac:(lia)) as [_ O0]. pose proof (Hi q ltac:(lia)). rewrite <- (O0 (nth (S q) x 0)) by lra. apply V. lia. }
      split.
      - intros q Hq. split; [rewrite LQ by auto; lia|]. split; [rewrite V0 by auto; unfold y_per; destruct (Nat.eqb_spec q (length x - 1)); [lia|reflexivity]|].
        unfold y_per. destruct (Nat.eqb_spec (q + 1) (length x - 1)) as [Eq|Nq].
        + replace q with (length x - 2)%nat by lia. rewrite MP by lia. apply V0. lia.
        + rewrite MB by lia. rewrite Nat.add_1_r. apply V0. lia.
      - intros q m Hq Hm _. destruct (Nat.eq_dec (S q) (length x - 1)) as [Eq|Nq].
        + replace ((q + 1) mod (length x - 1))%nat with 0%nat by (replace (q + 1)%nat with (length x - 1)%nat by lia; symmetry; apply Nat.mod_same; lia).
          replace q with (length x - 2)%nat by lia. apply MP. lia.
        + rewrite Nat.mod_small, Nat.add_1_r by lia. apply MB; lia.
Qed.
(* periodic functions; moving t into the base interval *)
Lemma per_shift (f : R -> R) T : (forall t, f (t + T) = f t) -> forall (m : Z) t, f (t + IZR m * T) = f t.
Proof.
  intros Pf. assert (N : forall k t, f (t + INR k * T) = f t).
  { induction k as [|k IH]; intros t; [f_equal; cbn; ring|]. rewrite S_INR. replace (t + (INR k + 1) * T) with (t + INR k * T + T) by ring. rewrite Pf. apply IH. }
  intros m t. destruct (Z_le_dec 0 m) as [H|H].
  - replace m with (Z.of_nat (Z.to_nat m)) by lia. rewrite <- INR_IZR_INZ. apply N.
  - replace m with (- Z.of_nat (Z.to_nat (- m)))%Z by lia. rewrite opp_IZR, <- INR_IZR_INZ. rewrite <- (N (Z.to_nat (- m)) (t + - INR (Z.to_nat (- m)) * T)). f_equal. ring.
Qed.
Lemma base_point a T t : 0 < T -> exists m : Z, a < t + IZR m * T <= a + T.
Proof.
  intros HT. set (z := (t - (a + T)) / T). assert (Ez : t = a + T + z * T) by (unfold z; field; lra).
  destruct (archimed z) as [A1 A2]. set (m := up z) in *. destruct (Req_dec z (IZR m - 1)) as [Eqz|Nz].
  - exists (1 - m)%Z. rewrite minus_IZR, Ez, Eqz. replace (a + T + (IZR m - 1) * T + (1 - IZR m) * T) with (a + T) by ring. lra.
  - exists (- m)%Z. rewrite opp_IZR, Ez. replace (a + T + z * T + - IZR m * T) with (a + T + (z - IZR m) * T) by ring.
    assert (- 1 < z - IZR m < 0) by lra. assert (- T < (z - IZR m) * T < 0) by (split; nra). lra.
Qed.

(* end conditions that determine the spline: any for degree 2 and 3; all at one end; for degree 2r-1 none (at least r points) or the
   derivatives of order 1..r-1 at both ends *)
Definition determined (n : nat) (x : list R) (lo hi : list (option (nd R))) : Prop :=
  (n = 2 \/ n = 3)%nat \/ (forall k, (k < n - 1)%nat -> nth k lo None <> None) \/ (forall k, (k < n - 1)%nat -> nth k hi None <> None) \/
  exists r, (2 <= r)%nat /\ n = (2 * r - 1)%nat /\
    ((lo = [] /\ hi = [] /\ (r <= length x)%nat) \/ (forall k, (k < r - 1)%nat -> nth k lo None <> None /\ nth k hi None <> None)).

Lemma filled_mono n lo hi lo' hi' : filled n lo hi lo' hi' -> forall sl, getslot lo hi sl <> None -> getslot lo' hi' sl <> None.
Proof.
  intros HF sl E. destruct (HF sl) as [_ H2]. rewrite H2; auto. intros I.
  apply (firstn_in_app _ _ []) in I. rewrite app_nil_r in I. apply filter_In in I. destruct I as [_ I]. destruct (getslot lo hi sl); [discriminate|congruence].
Qed.
Lemma zero_cols n x lo hi lo' hi' cols : (2 <= n)%nat -> (2 <= length x)%nat -> incr x -> filled n lo hi lo' hi' -> length lo' = (n - 1)%nat -> (length hi' <= n - 1)%nat ->
  (count_some lo' + count_some hi' = n - 1)%nat -> determined n x lo hi -> pieces n x false (fun _ => 0) cols ->
  (forall k, spec_at lo' k -> nth (S k) (cols 0%nat) 0 = 0) ->
  (forall k, spec_at hi' k -> tay (S k) (cols (length x - 2)%nat) (dxs x (length x - 2)) = 0) ->
  forall q, (q < length x - 1)%nat -> zcol (cols q).
Proof.
  intros Hn Hx Hi HF L1 L2 C Hd P B1 B2. pose proof (filled_mono n lo hi lo' hi' HF) as Mono.
  assert (ML : forall k, nth k lo None <> None -> spec_at lo' k) by (intros k Hk; apply (Mono (k, false)); exact Hk).
  assert (MH : forall k, nth k hi None <> None -> spec_at hi' k) by (intros k Hk; apply (Mono (k, true)); exact Hk).
  assert (OL : (forall k, (k < n - 1)%nat -> spec_at lo' k) -> forall q, (q < length x - 1)%nat -> zcol (cols q)).
  { intros H. apply (march_left n); auto. intros [|m] Hm; [lia|]. apply B1, H. lia. }
  assert (OR : (forall k, (k < n - 1)%nat -> spec_at hi' k) -> forall q, (q < length x - 1)%nat -> zcol (cols q)).
  { intros H. apply (march_right n); auto. intros [|m] Hm; [lia|]. apply B2, H. lia. }
  assert (SA : forall (b : nd R) l, spec_at (Some b :: l) 0) by (intros; unfold spec_at; cbn; discriminate).
  assert (SB : forall (b : nd R) a l, spec_at (a :: Some b :: l) 1) by (intros; unfold spec_at; cbn; discriminate).
  destruct Hd as [[-> | ->]|[H|[H|(r & Hr & En & H)]]].
  - destruct lo' as [|[b|] [|]]; cbn in L1; try lia.
    + apply OL. intros [|k] Hk; [apply SA|lia].
    + apply OR. destruct hi' as [|[b|] [|]]; cbn in L2, C; try lia. intros [|k] Hk; [apply SA|lia].
  - destruct lo' as [|a [|b [|]]]; cbn in L1; try lia.
    assert (BH : (count_some hi' = 1)%nat -> balanced 3 2 hi').
    { intros C' j Hj. assert (j = 1)%nat as -> by lia. destruct hi' as [|[h0|] [|[h1|] [|]]]; cbn in L2, C'; try lia; [left; apply SA|left; apply SA|right; apply SB]. }
    destruct a as [a|], b as [b|].
    + apply OL. intros [|[|k]] Hk; [apply SA|apply SB|lia].
    + apply (cols_zero_odd 3 2 x [Some a; None] hi'); try assumption; try lia; try (left; lia).
      * intros j Hj. assert (j = 1)%nat as -> by lia. left. apply SA.
      * apply BH. cbn in C. lia.
    + apply (cols_zero_odd 3 2 x [None; Some b] hi'); try assumption; try lia; try (left; lia).
      * intros j Hj. assert (j = 1)%nat as -> by lia. right. apply SB.
      * apply BH. cbn in C. lia.
    + apply OR. destruct hi' as [|[h0|] [|[h1|] [|]]]; cbn in L2, C; try lia. intros [|[|k]] Hk; [apply SA|apply SB|lia].
  - apply OL. auto.
  - apply OR. auto.
  - destruct H as [(-> & -> & Hk)|H].
    + assert (T : forall i b, (r - 1 <= i < n - 1)%nat -> getslot lo' hi' (i, b) = zero_bc).
      { intros i b Hb'. destruct (HF (i, b)) as [H1 _]. apply H1. cbn [count_some filter length Nat.add].
        assert (FS : free_slots [] [] (slots (n - 1)) = slots (n - 1)).
        { clear. unfold free_slots. induction (slots (n - 1)) as [|[u c] l IH]; [reflexivity|]. cbn [filter].
          assert (Z : getslot [] [] (u, c) = None) by (unfold getslot; cbn; destruct u, c; reflexivity).
          rewrite Z. cbn. rewrite IH. reflexivity. }
        rewrite FS. match goal with |- In _ (firstn ?m _) => replace m with (2 * (r - 1))%nat by (cbn; lia) end.
        apply slots_top; lia. }
      apply (cols_zero_odd n r x lo' hi'); auto; intros j Hj; right.
      * unfold spec_at. pose proof (T (n - j - 1)%nat false ltac:(lia)) as E. unfold getslot in E. cbn in E. rewrite E. discriminate.
      * unfold spec_at. pose proof (T (n - j - 1)%nat true ltac:(lia)) as E. unfold getslot in E. cbn in E. rewrite E. discriminate.
    + apply (cols_zero_odd n r x lo' hi'); auto.
      * intros j Hj. left. apply ML, H. lia.
      * intros j Hj. left. apply MH, H. lia.
      * right. intros j Hj. apply ML, H. lia.
Qed.

Section Uniq.
  Variable inv : nat -> (nat -> nat -> R) -> (nat -> nat -> R).
  Variable sb : nat -> nat -> arr2 R -> arr2 R -> res (arr2 R).
  Variable s : arr2 R -> arr2 R -> res (arr2 R).
  Hypothesis Hsb : banded_spec sb.
  Hypothesis Hs : dense_spec s.

  (* the result is a spline, and every spline with the same values and end conditions equals it *)
  Theorem C109_unique : forall n x y lo hi extrap p comp,
    (2 <= n)%nat -> incr x -> spline inv sb s x y n lo hi false extrap = Ok p -> inb comp (ysh y) ->
    exists lo' hi' F, filled n (bc_tuple lo) (bc_tuple hi) lo' hi' /\ (forall t, pw_call p comp t = Ok (F t)) /\
      a_spline n x (yval y comp) lo' hi' (ravel (ysh y) comp) F /\
      (determined n x (bc_tuple lo) (bc_tuple hi) -> forall f, a_spline n x (yval y comp) lo' hi' (ravel (ysh y) comp) f ->
         forall t, nth 0 x 0 < t <= nth (length x - 1) x 0 -> f t = F t).
  Proof using Hsb.
    intros n x y lo hi extrap p comp Hn Hi E Hb. destruct (ex_pair n extrap) as [e f] eqn:He.
    pose proof (spline_ok_args _ _ _ _ _ _ _ _ _ _ Hn Hi E) as (G1 & G2 & G3 & G4 & G5 & G6 & G7 & G8).
    destruct (spline_core inv sb s n x y lo hi extrap e f Hsb Hn G1 Hi G2 G3 G4 G5 G6 G7 G8 He)
      as (lo' & hi' & HF & L1 & L2 & C & H & _).
    destruct (H p E) as (cols & HR & H2). clear H. destruct (H2 comp Hb) as (P & B1 & B2).
    replace (length x - 1 - 1)%nat with (length x - 2)%nat in B2 by lia.
    assert (DX : dxs x (length x - 2) = nth (length x - 1) x 0 - nth (length x - 2) x 0) by (unfold dxs; replace (S (length x - 2)) with (length x - 1)%nat by lia; reflexivity).
    assert (Hn1 : (1 <= n)%nat) by lia. exists lo', hi', (pw_val p comp). split; [exact HF|]. split; [intros t; apply (sf_call n x (ysh y) e f cols p comp HR)|].
    assert (OP : on_pieces n x (pw_val p comp) (cols comp)).
    { intros q Hq. split; [destruct (proj1 P q ltac:(lia)) as (L & _); lia|]. intros t Ht. apply (sf_piece n x (ysh y) e f cols p comp Hn1 G1 HR Hb); auto. lia. }
    split.
    - exists (cols comp), (sg p comp). split; [exact OP|]. split; [|split].
      + intros q Hq. destruct (proj1 P q ltac:(lia)) as (_ & P1 & P2). rewrite tay_0, Nat.add_1_r in P2. rewrite peval_0. split; [exact P1|exact P2].
      + intros t Ht. split; [apply (sg_0 n x (ysh y) e f cols p comp HR)|].
        split; intros k Hk; destruct (sg_in n x (ysh y) e f cols p comp (yval y comp) Hn1 G1 HR Hb P k t Ht); auto.
      + rewrite <- DX. split; intros k b Hk; apply nth_some_error in Hk; apply nderiv_at_peval; f_equal.
        * rewrite tay_at_0. symmetry. apply B1; auto.
        * symmetry. apply B2; auto.
    - intros Hd h Hh t Ht. destruct (a_spline_pieces n x (yval y comp) lo' hi' _ h Hn Hi Hh) as (Q & OQ & PQ & BL & BH). rewrite <- DX in BH.
      destruct (cover x t Ht) as (q & Hq & Hqt). refine (sub_zero n x (yval y comp) (cols comp) Q _ _ P PQ OP OQ _ q t Hq Hqt).
      assert (LL : forall q, (q < length x - 1)%nat -> length (cols comp q) = (n + 1)%nat /\ length (Q q) = (n + 1)%nat) by (intros q' Hq'; split; [apply P|apply PQ]; auto).
      apply (zero_cols n x (bc_tuple lo) (bc_tuple hi) lo' hi'); auto.
      + apply (sub_pieces n x false (yval y comp)); auto.
      + intros k Hk. unfold spec_at in Hk. destruct (nth k lo' None) as [b|] eqn:Eb; [|congruence]. destruct (LL 0%nat ltac:(lia)). rewrite (subQ_nth (n + 1)) by auto.
        rewrite (BL k b Eb), (B1 k b (nth_some_error _ _ _ Eb)). ring.
      + intros k Hk. unfold spec_at in Hk. destruct (nth k hi' None) as [b|] eqn:Eb; [|congruence]. destruct (LL (length x - 2)%nat ltac:(lia)). rewrite (subQ_tay (n + 1)) by auto.
        rewrite (BH k b Eb), (B2 k b (nth_some_error _ _ _ Eb)). ring.
  Qed.

  (* a polynomial of degree at most n, sampled at the knots, with its own derivatives as end conditions, is reproduced *)
  Theorem C109_reproduces : forall n x y lo hi extrap p comp P,
    (2 <= n)%nat -> incr x -> spline inv sb s x y n lo hi false extrap = Ok p -> inb comp (ysh y) -> determined n x (bc_tuple lo) (bc_tuple hi) ->
    (1 <= length P <= S n)%nat -> (forall i, (i < length x)%nat -> yval y comp i = peval P (nth i x 0)) ->
    (forall lo' hi', filled n (bc_tuple lo) (bc_tuple hi) lo' hi' ->
       (forall k b, nth k lo' None = Some b -> nderiv_at (S k) (peval P) (nth 0 x 0) (INR (fact (S k)) * bget b [ravel (ysh y) comp])) /\
       (forall k b, nth k hi' None = Some b -> nderiv_at (S k) (peval P) (nth (length x - 1) x 0) (INR (fact (S k)) * bget b [ravel (ysh y) comp]))) ->
    forall t, nth 0 x 0 < t <= nth (length x - 1) x 0 -> pw_call p comp t = Ok (peval P t).
  Proof using Hsb.
    intros n x y lo hi extrap p comp P Hn Hi E Hb Hd HL HV HB t Ht.
    destruct (C109_unique n x y lo hi extrap p comp Hn Hi E Hb) as (lo' & hi' & F & HF & HC & _ & HU). rewrite HC. f_equal. symmetry. apply HU; auto.
    set (P' := (P ++ repeat 0 (S n - length P))%list). assert (NP : P' <> []) by (unfold P'; destruct P; [cbn in HL; lia|discriminate]).
    assert (TP : forall k u, tay k P' u = tay k P u) by (intros; apply tay_app_zeros).
    assert (S0 : forall k c u, tay k (pshift P' c) u = tay k P (c + u)) by (intros; rewrite pshift_tay by auto; apply TP).
    assert (X2 : (2 <= length x)%nat) by (pose proof (spline_ok_args _ _ _ _ _ _ _ _ _ _ Hn Hi E) as (G1 & _); exact G1).
    exists (fun q => pshift P' (nth q x 0)), (fun k u => dD k P (u - 0)). split; [|split; [|split]].
    - intros q Hq. split; [rewrite pshift_length by auto; unfold P'; rewrite app_length, repeat_length; lia|]. intros u Hu. rewrite <- !tay_0, S0. f_equal. ring.
    - intros q Hq. rewrite <- !tay_0, !S0, !tay_0, !HV by lia. split; f_equal; ring.
    - intros u Hu. split; [unfold dD; rewrite Rminus_0_r, tay_0; cbn; ring|]. split; intros k Hk; [apply dpl_tay|apply cont_tay].
    - destruct (HB lo' hi' HF) as [B1 B2]. split; intros k b Eb; apply nderiv_at_peval.
      + rewrite S0, Rplus_0_r. apply nderiv_at_coef, B1, Eb.
      + rewrite S0. replace (nth (length x - 2) x 0 + (nth (length x - 1) x 0 - nth (length x - 2) x 0)) with (nth (length x - 1) x 0) by ring. apply nderiv_at_coef, B2, Eb.
  Qed.

  (* natural splines of degree 2r-1 reproduce polynomials of degree less than r *)
  Theorem C109_natural : forall r x y extrap p comp P,
    (2 <= r)%nat -> incr x -> (r <= length x)%nat -> spline inv sb s x y (2 * r - 1) (BcTuple []) (BcTuple []) false extrap = Ok p -> inb comp (ysh y) ->
    (1 <= length P <= r)%nat -> (forall i, (i < length x)%nat -> yval y comp i = peval P (nth i x 0)) ->
    forall t, nth 0 x 0 < t <= nth (length x - 1) x 0 -> pw_call p comp t = Ok (peval P t).
  Proof using Hsb.
    intros r x y extrap p comp P Hr Hi Hk E Hb HL HV. set (n := (2 * r - 1)%nat) in *.
    assert (Z : forall lo' hi', filled n [] [] lo' hi' -> forall k c b, getslot lo' hi' (k, c) = Some b -> getslot lo' hi' (k, c) = zero_bc /\ (r - 1 <= k)%nat).
    { intros lo' hi' HF k c b Eb. destruct (HF (k, c)) as [H1 H2].
      assert (FS : free_slots [] [] (slots (n - 1)) = slots (n - 1)).
      { clear. unfold free_slots. induction (slots (n - 1)) as [|[u c] l IH]; [reflexivity|]. cbn [filter].
        assert (Z : getslot [] [] (u, c) = None) by (unfold getslot; cbn; destruct u, c; reflexivity).
        rewrite Z. cbn. rewrite IH. reflexivity. }
      rewrite FS in H1, H2. cbn [count_some filter length Nat.add] in H1, H2. replace (n - 1 - 0)%nat with (2 * (r - 1))%nat in H1, H2 by (unfold n; lia).
      assert (DEC : In (k, c) (firstn (2 * (r - 1)) (slots (n - 1))) \/ ~ In (k, c) (firstn (2 * (r - 1)) (slots (n - 1)))).
      { destruct (in_dec (fun a b : nat * bool => ltac:(decide equality; [apply bool_dec|apply Nat.eq_dec]) : {a = b} + {a <> b}) (k, c) (firstn (2 * (r - 1)) (slots (n - 1)))); auto. }
      destruct DEC as [I|I].
      - split; [apply H1; exact I|]. revert I. replace (n - 1)%nat with (2 * (r - 1))%nat by (unfold n; lia). clear. generalize (r - 1)%nat as m. intros m I.
        assert (G : forall m j, In (k, c) (firstn (2 * j) (slots m)) -> (m - j <= k)%nat).
        { clear. induction m as [|m IH]; intros j I; [lia|]. destruct j as [|j]; [destruct I|]. replace (2 * S j)%nat with (S (S (2 * j))) in I by lia.
          cbn [slots firstn] in I. destruct I as [I|[I|I]]; [injection I as <- <-; lia|injection I as <- <-; lia|]. specialize (IH j I). lia. }
        specialize (G _ _ I). lia.
      - specialize (H2 I). rewrite H2 in Eb. unfold getslot in Eb. destruct c, k; cbn in Eb; discriminate. }
    apply (C109_reproduces n x y (BcTuple []) (BcTuple []) extrap p comp P); auto; try (unfold n; lia).
    - right. right. right. exists r. split; [exact Hr|]. split; [reflexivity|]. left. auto.
    - cbn [bc_tuple]. intros lo' hi' HF. split; intros k b Eb; apply nderiv_at_peval.
      + destruct (Z lo' hi' HF k false b Eb) as [E1 E2]. unfold getslot in E1. cbn in E1. rewrite E1 in Eb. injection Eb as <-. rewrite tay_big by lia. cbn. ring.
      + destruct (Z lo' hi' HF k true b Eb) as [E1 E2]. unfold getslot in E1. cbn in E1. rewrite E1 in Eb. injection Eb as <-. rewrite tay_big by lia. cbn. ring.
  Qed.

  (* periodic splines of odd degree *)
  Theorem C109_periodic : forall r x y p comp, (2 <= r)%nat -> incr x -> (2 <= length x)%nat -> yn y = length x -> size (ysh y) <> 0%nat ->
    spline inv sb s x y (2 * r - 1) (BcTuple []) (BcTuple []) true ExNone = Ok p -> inb comp (ysh y) ->
    exists F, (forall t, pw_call p comp t = Ok (F t)) /\ a_per_spline (2 * r - 1) x (yval y comp) F /\
      forall f, a_per_spline (2 * r - 1) x (yval y comp) f -> forall t, f t = F t.
  Proof using Hsb Hs.
    intros r x y p comp Hr Hi Hx Hy Hsz E Hb. set (n := (2 * r - 1)%nat) in *. assert (Hn : (2 <= n)%nat) by (unfold n; lia).
    destruct (C56_periodic inv sb s Hsb Hs n x y p comp Hn Hi Hx Hy Hsz E Hb) as (F & g & Q & F1 & F2 & F3 & F4 & F5 & F6 & F7).
    exists F. split; [exact F1|]. assert (AF : a_per_spline n x (yval y comp) F) by (exists Q, g; auto). split; [exact AF|].
    set (T := nth (length x - 1) x 0 - nth 0 x 0) in *. assert (HT : 0 < T) by (unfold T; pose proof (incr_lt x 0 (length x - 1) Hi ltac:(lia)); lra).
    assert (PP : forall f, a_per_spline n x (yval y comp) f -> exists Q, on_pieces n x f Q /\ pieces n x true (y_per x (yval y comp)) Q).
    { intros f Af. apply a_per_pieces; auto. }
    intros f Af t. destruct (PP F AF) as (Q1 & O1 & P1). destruct (PP f Af) as (Q2 & O2 & P2).
    pose proof (cols_zero_per n r x (subQ Q1 Q2) eq_refl Hr Hx Hi (sub_pieces n x true _ Q1 Q2 Hx P1 P2)) as ZC.
    assert (FE : forall t, nth 0 x 0 < t <= nth (length x - 1) x 0 -> f t = F t).
    { intros u Hu. destruct (cover x u Hu) as (q & Hq & Hqt). destruct (O1 q Hq) as [L1 E1]. destruct (O2 q Hq) as [L2 E2]. rewrite E1, E2 by auto.
      pose proof (subQ_tay (S n) Q1 Q2 q 0 (u - nth q x 0) L1 L2) as S0. rewrite zcol_tay in S0 by (apply ZC; lia). rewrite !tay_0 in S0. lra. }
    destruct Af as (_ & _ & _ & _ & _ & Pf).
    destruct (base_point (nth 0 x 0) T t HT) as (m & Hm).
    rewrite <- (per_shift f T Pf m t), <- (per_shift F T F2 m t). apply FE. unfold T in Hm |- *. lra.
  Qed.
End Uniq.
Print Assumptions C109_unique.
Print Assumptions C109_reproduces.
Print Assumptions C109_natural.
Print Assumptions C109_periodic.

(* t^3 sampled at -1, 0, 2, 3 with its slopes 3 and 27 at the ends *)
Definition y4c : yarr R := YArr [] 4 (fun _ i => nth i [-1; 0; 8; 27] 0).
Example C109_cubic_case : exists p, gspl x4 y4c 3 (slope 3) (slope 27) false ExNone = Ok p /\ pw_call p [] 1 = Ok 1 /\ pw_call p [] (5 / 2) = Ok (125 / 8).
Proof.
  destruct gauss_meets_specs as (G1 & G2 & G3 & G4). assert (Hb : inb [] (ysh y4c)) by constructor.
  destruct (proj2 (C53_cubic_succeeds inv_wit gbanded gdense G1 3 x4 y4c (slope 3) (slope 27) ExNone G3 (or_intror eq_refl) x4_incr)) as [p E].
  { repeat split; cbn; try lia; apply slope_fit. }
  exists p. split; [exact E|].
  assert (R : forall t, -1 < t <= 3 -> pw_call p [] t = Ok (peval [0; 0; 0; 1] t)).
  { apply (C109_reproduces inv_wit gbanded gdense G1 3 x4 y4c (slope 3) (slope 27) ExNone p [] [0; 0; 0; 1] ltac:(lia) x4_incr E Hb).
    - left. right. reflexivity.
    - cbn. lia.
    - intros [|[|[|[|i]]]] Hi; cbn in Hi |- *; try lia; ring.
    - intros lo' hi' HF.
      assert (S0 : forall k c, getslot lo' hi' (k, c) = getslot [Some (scalar 3)] [Some (scalar 27)] (k, c)).
      { intros k c. destruct (HF (k, c)) as [_ H]. apply H. cbn [count_some bc_tuple slope filter length Nat.add Nat.sub firstn]. intros []. }
      split; intros k b Eb.
      + pose proof (S0 k false) as S1. unfold getslot in S1. cbn in S1. destruct k as [|[|k]]; cbn in S1; rewrite Eb in S1; try discriminate. injection S1 as ->.
        apply nderiv_at_peval. cbn. ring.
      + pose proof (S0 k true) as S1. unfold getslot in S1. cbn in S1. destruct k as [|[|k]]; cbn in S1; rewrite Eb in S1; try discriminate. injection S1 as ->.
        apply nderiv_at_peval. cbn. ring. }
  split; rewrite R by lra; f_equal; cbn; lra.
Qed.
(* a natural cubic spline through points of a line is the line *)
Definition y4l : yarr R := YArr [] 4 (fun _ i => nth i [-1; 1; 5; 7] 0).
Example C109_line_case : exists p, gspl x4 y4l 3 (BcTuple []) (BcTuple []) false ExNone = Ok p /\ pw_call p [] 1 = Ok 3.
Proof.
  destruct gauss_meets_specs as (G1 & G2 & G3 & G4). assert (Hb : inb [] (ysh y4l)) by constructor.
  destruct (C53_natural_succeeds inv_wit gbanded gdense G1 2 x4 y4l ExNone G3 (le_n 2) x4_incr ltac:(cbn; lia) eq_refl ltac:(cbn; lia)) as [p E].
  exists p. split; [exact E|]. rewrite (C109_natural inv_wit gbanded gdense G1 2 x4 y4l ExNone p [] [1; 2] (le_n 2) x4_incr ltac:(cbn; lia) E Hb).
  - f_equal. cbn. ring.
  - cbn. lia.
  - intros [|[|[|[|i]]]] Hi; cbn in Hi |- *; try lia; ring.
  - cbn. lra.
Qed.
(* the values 1, 1, -3 and the period 4 *)
Example C109_periodic_case : exists p, gspl x4 y4 3 (BcTuple []) (BcTuple []) true ExNone = Ok p /\
  exists f, a_per_spline 3 x4 (yval y4 []) f /\ forall f', a_per_spline 3 x4 (yval y4 []) f' -> forall t, pw_call p [] t = Ok (f' t).
Proof.
  destruct gauss_meets_specs as (G1 & G2 & G3 & G4). assert (Hb : inb [] (ysh y4)) by constructor. assert (H2 : (2 <= length x4)%nat) by (cbn; lia).
  destruct (C56_odd_succeeds inv_wit gbanded gdense G1 G2 2 x4 y4 G3 G4 (le_n 2) x4_incr H2 eq_refl ltac:(cbn; lia)) as [p E].
  exists p. split; [exact E|].
  destruct (C109_periodic inv_wit gbanded gdense G1 G2 2 x4 y4 p [] (le_n 2) x4_incr H2 eq_refl ltac:(cbn; lia) E Hb) as (F & H & A & U).
  exists F. split; [exact A|]. intros f' A' t. rewrite H, (U f' A'). reflexivity.
Qed.
