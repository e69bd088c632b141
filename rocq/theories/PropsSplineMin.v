(* The minimum property of splines of odd degree (npplus/pwpoly.py:817-1024): the natural spline of degree 2r-1 and the one with all
   derivatives of order 1..r-1 given at both ends have the smallest integral of the squared r-th derivative among all smooth functions
   with the same data. *)
From Coq Require Import List Arith ZArith Lia Bool Reals Lra.
From Coquelicot Require Import Coquelicot.
From Verif Require Import Num PyBase NdArray Poly SpecPoly PolyProofs PwPoly PwBase PwDeriv PwInteg PwCtor PropsCtor RSum
  SolvePer SolveProofs Gauss PropsSolve Spline SplineProofs SplineCore SplineSolve SplineFacts PropsSpline.
Import ListNotations.
Local Open Scope R_scope.

(* g lists f = g 0 and its derivatives up to order r, the last one continuous, on [a, b] *)
Definition smooth_on (r : nat) (g : nat -> R -> R) (a b : R) : Prop :=
  forall t, a <= t <= b -> (forall k, (k < r)%nat -> derivable_pt_lim (g k) t (g (S k) t)) /\ continuity_pt (g r) t.

Lemma dD_shift k c a t : derivable_pt_lim (fun u => dD k c (u - a)) t (dD (S k) c (t - a)).
Proof. apply dpl_tay. Qed.
Lemma dD_cont k c a t : continuity_pt (fun u => dD k c (u - a)) t.
Proof. apply derivable_continuous_pt. eexists. apply dD_shift. Qed.

(* a function with second derivative e2 that vanishes at both ends of an interval is small in it *)
Lemma sq_int (f f1 : R -> R) u v : u <= v -> (forall t, u <= t <= v -> derivable_pt_lim f t (f1 t)) -> (forall t, u <= t <= v -> continuity_pt f1 t) ->
  (f v - f u) * (f v - f u) <= (v - u) * RInt (fun t => f1 t * f1 t) u v.
Proof.
  intros Huv Hd Hc. destruct (Req_dec u v) as [<-|Nuv]; [rewrite RInt_point; change (@zero R_AbelianGroup) with 0; lra|].
  assert (I1 : is_RInt f1 u v (f v - f u)).
  { apply (is_RInt_derive (V := R_CompleteNormedModule)); intros t Ht; rewrite Rmin_left, Rmax_right in Ht by lra; [apply is_derive_Reals; auto|apply continuity_pt_filterlim; auto]. }
  assert (I2 : is_RInt (fun t => f1 t * f1 t) u v (RInt (fun t => f1 t * f1 t) u v)).
  { apply (RInt_correct (V := R_CompleteNormedModule)), (ex_RInt_continuous (V := R_CompleteNormedModule)). intros t Ht; rewrite Rmin_left, Rmax_right in Ht by lra.
    apply continuity_pt_filterlim. apply (continuity_pt_mult f1 f1); auto. }
  set (J := RInt _ u v) in *. set (d := f v - f u) in *. set (k := d / (v - u)).
  assert (I3 : is_RInt (fun t => f1 t * f1 t + (- 2 * k * f1 t + k * k)) u v (J + (- 2 * k * d + (v - u) * (k * k)))).
  { apply (is_RInt_plus (V := R_NormedModule)); [exact I2|]. apply (is_RInt_plus (V := R_NormedModule)); [apply (is_RInt_scal (V := R_NormedModule)); exact I1|].
    apply (is_RInt_const (V := R_NormedModule)). }
  assert (P : 0 <= J + (- 2 * k * d + (v - u) * (k * k))).
  { rewrite <- (is_RInt_unique _ _ _ _ I3). apply RInt_ge_0; [exact Huv|eexists; exact I3|]. intros t _. pose proof (Rle_0_sqr (f1 t - k)) as S. unfold Rsqr in S. lra. }
  assert (K : k * (v - u) = d) by (unfold k; field; lra). replace (- 2 * k * d + (v - u) * (k * k)) with (- (k * d)) in P by (rewrite <- K at 2; rewrite <- K; ring).
  assert (0 < v - u) by lra. assert (k * d * (v - u) = d * d) by (rewrite <- K; ring). assert (k * d * (v - u) <= J * (v - u)) by (apply Rmult_le_compat_r; lra). lra.
Qed.
Lemma small_between (e e1 e2 : R -> R) u v : u < v -> (forall t, u <= t <= v -> derivable_pt_lim e t (e1 t)) -> (forall t, u <= t <= v -> derivable_pt_lim e1 t (e2 t)) ->
  (forall t, u <= t <= v -> continuity_pt e2 t) -> e u = 0 -> e v = 0 -> forall t, u <= t <= v -> e t * e t <= (v - u) ^ 3 / 4 * RInt (fun t => e2 t * e2 t) u v.
Proof.
  intros Huv H1 H2 Hc Eu Ev. set (q := fun t => e2 t * e2 t).
  assert (EI : forall a b, u <= a -> a <= b -> b <= v -> ex_RInt q a b).
  { intros a b Ha Hab Hb. apply (ex_RInt_continuous (V := R_CompleteNormedModule)). intros t Ht. rewrite Rmin_left, Rmax_right in Ht by lra.
    apply continuity_pt_filterlim. apply (continuity_pt_mult e2 e2); apply Hc; lra. }
  assert (Q0 : forall a b, u <= a -> a <= b -> b <= v -> 0 <= RInt q a b).
  { intros a b Ha Hab Hb. apply RInt_ge_0; auto. intros t _. apply (Rle_0_sqr (e2 t)). }
  assert (SUB : forall a b, u <= a -> a <= b -> b <= v -> RInt q a b <= RInt q u v).
  { intros a b Ha Hab Hb. rewrite <- (RInt_Chasles q u a v) by (apply EI; lra). rewrite <- (RInt_Chasles q a b v) by (apply EI; lra).
    pose proof (Q0 u a ltac:(lra) ltac:(lra) ltac:(lra)). pose proof (Q0 b v ltac:(lra) ltac:(lra) ltac:(lra)). change plus with Rplus. lra. }
  set (J := RInt q u v) in *. assert (J0 : 0 <= J) by (apply Q0; lra).
  destruct (MVT_cor2 e e1 u v Huv H1) as (x0 & E0 & Hx0). rewrite Eu, Ev in E0.
  assert (Z : e1 x0 = 0) by (assert (e1 x0 * (v - u) = 0) as [|]%Rmult_integral by lra; lra).
  assert (B : forall t, u <= t <= v -> e1 t * e1 t <= (v - u) * J).
  { intros t Ht. destruct (Rle_dec x0 t) as [L|L].
    - pose proof (sq_int e1 e2 x0 t L ltac:(intros; apply H2; lra) ltac:(intros; apply Hc; lra)) as S. rewrite Z, Rminus_0_r in S. fold q in S.
      pose proof (SUB x0 t ltac:(lra) ltac:(lra) ltac:(lra)). pose proof (Q0 x0 t ltac:(lra) ltac:(lra) ltac:(lra)).
      assert ((t - x0) * RInt q x0 t <= (v - u) * J) by (apply Rmult_le_compat; lra). lra.
    - pose proof (sq_int e1 e2 t x0 ltac:(lra) ltac:(intros; apply H2; lra) ltac:(intros; apply Hc; lra)) as S. rewrite Z in S. fold q in S.
      pose proof (SUB t x0 ltac:(lra) ltac:(lra) ltac:(lra)). pose proof (Q0 t x0 ltac:(lra) ltac:(lra) ltac:(lra)).
      assert ((x0 - t) * RInt q t x0 <= (v - u) * J) by (apply Rmult_le_compat; lra). lra. }
  assert (K : forall d w, 0 <= d <= (v - u) / 2 -> u <= w <= v -> (e1 w * d) * (e1 w * d) <= (v - u) ^ 3 / 4 * J).
  { intros d w Hd Hw. replace ((e1 w * d) * (e1 w * d)) with ((e1 w * e1 w) * (d * d)) by ring. replace ((v - u) ^ 3 / 4 * J) with ((v - u) * J * ((v - u) / 2 * ((v - u) / 2))) by field.
    apply Rmult_le_compat; [apply (Rle_0_sqr (e1 w))|apply (Rle_0_sqr d)|apply B; auto|apply Rmult_le_compat; lra]. }
  intros t Ht. destruct (Rle_dec t ((u + v) / 2)) as [L|L].
  - destruct (Req_dec t u) as [->|N].
    + rewrite Eu. pose proof (K 0 u ltac:(lra) ltac:(lra)) as K0. lra.
    + destruct (MVT_cor2 e e1 u t ltac:(lra) ltac:(intros; apply H1; lra)) as (w & Ew & Hw). rewrite Eu, Rminus_0_r in Ew. rewrite Ew. apply K; lra.
  - destruct (Req_dec t v) as [->|N].
    + rewrite Ev. pose proof (K 0 v ltac:(lra) ltac:(lra)) as K0. lra.
    + destruct (MVT_cor2 e e1 t v ltac:(lra) ltac:(intros; apply H1; lra)) as (w & Ew & Hw). rewrite Ev in Ew. replace (e t) with (- (e1 w * (v - t))) by lra.
      replace (- (e1 w * (v - t)) * - (e1 w * (v - t))) with ((e1 w * (v - t)) * (e1 w * (v - t))) by ring. apply K; lra.
Qed.

Section Min.
  Variables (n r : nat) (x : list R) (Y : nat -> R) (cols : nat -> list R) (g : nat -> R -> R).
  Hypothesis En : n = (2 * r - 1)%nat.
  Hypothesis Hr : (2 <= r)%nat.
  Hypothesis Hx : (2 <= length x)%nat.
  Hypothesis Hi : incr x.
  Hypothesis HP : pieces n x false Y cols.
  Let nseg := (length x - 1)%nat.
  Let X q := nth q x 0.
  Let a := X 0.
  Let b := X nseg.
  Hypothesis Hg : smooth_on r g a b.
  Hypothesis Hval : forall i, (i < length x)%nat -> g 0%nat (X i) = Y i.
  (* derivatives of the spline and of the difference, on piece q *)
  Let D k q t := dD k (cols q) (t - X q).
  Let H k q t := g k t - D k q t.
  Let W q t := rsum r (fun k => (-1) ^ k * (H (r - 1 - k) q t * D (r + k) q t)).

  Lemma X_lt i j : (i < j <= nseg)%nat -> X i < X j.
  Proof. intros HH. apply incr_lt; auto. unfold nseg in HH. lia. Qed.
  Lemma X_in q t : (q < nseg)%nat -> X q <= t <= X (S q) -> a <= t <= b.
  Proof.
    intros Hq Ht. unfold a, b. split.
    - destruct q; [lra|]. pose proof (X_lt 0 (S q) ltac:(lia)). lra.
    - destruct (Nat.eq_dec (S q) nseg) as [<-|]; [lra|]. pose proof (X_lt (S q) nseg ltac:(lia)). lra.
  Qed.
  Lemma dxs_X q : dxs x q = X (S q) - X q. Proof. reflexivity. Qed.
  Lemma H_deriv k q t : (k < r)%nat -> a <= t <= b -> derivable_pt_lim (H k q) t (H (S k) q t).
  Proof. intros Hk Ht. apply (derivable_pt_lim_minus (g k) (D k q)); [apply Hg; auto|apply dD_shift]. Qed.
  Lemma H_cont q t : a <= t <= b -> continuity_pt (H r q) t.
  Proof. intros Ht. apply (continuity_pt_minus (g r) (D r q)); [apply Hg; auto|apply dD_cont]. Qed.
  Lemma D_cont k q t : continuity_pt (D k q) t.
  Proof. apply dD_cont. Qed.
  Lemma W_deriv q t : (q < nseg)%nat -> a <= t <= b -> derivable_pt_lim (W q) t (H r q t * D r q t).
  Proof.
    intros Hq Ht. set (u := fun k => (-1) ^ k * (H (r - k) q t * D (r + k) q t)).
    replace (H r q t * D r q t) with
      (rsum r (fun k => (-1) ^ k * (H (S (r - 1 - k)) q t * D (r + k) q t + H (r - 1 - k) q t * D (S (r + k)) q t))).
    - apply (dpl_rsum r (fun k s => (-1) ^ k * (H (r - 1 - k) q s * D (r + k) q s))
        (fun k s => (-1) ^ k * (H (S (r - 1 - k)) q s * D (r + k) q s + H (r - 1 - k) q s * D (S (r + k)) q s))).
      intros k Hk. apply (derivable_pt_lim_scal (fun s => H (r - 1 - k) q s * D (r + k) q s)).
      apply (derivable_pt_lim_mult (H (r - 1 - k) q) (D (r + k) q)); [apply H_deriv; auto; lia|apply dD_shift].
    - rewrite (rsum_ext r _ (fun k => u k - u (S k))).
      + rewrite rsum_tele. unfold u. rewrite Nat.sub_0_r, Nat.add_0_r. replace (D (r + r) q t) with 0; [cbn; ring|].
        unfold D, dD. destruct (proj1 HP q Hq) as (L & _). rewrite tay_big by lia. ring.
      + intros k Hk. unfold u. replace (S (r - 1 - k)) with (r - k)%nat by lia. replace (r - S k)%nat with (r - 1 - k)%nat by lia.
        replace (r + S k)%nat with (S (r + k)) by lia. cbn [pow]. ring.
  Qed.
  (* the difference vanishes at the knots, and derivatives match there *)
  Lemma H0_left q : (q < nseg)%nat -> H 0 q (X q) = 0.
  Proof.
    intros Hq. unfold H, D, dD. destruct (proj1 HP q Hq) as (_ & L & _). rewrite Hval by (unfold nseg in Hq; lia).
    replace (X q - X q) with 0 by ring. rewrite tay_at_0, L. cbn. ring.
  Qed.
  Lemma H0_right q : (q < nseg)%nat -> H 0 q (X (S q)) = 0.
  Proof.
    intros Hq. unfold H, D, dD. destruct (proj1 HP q Hq) as (_ & _ & L). rewrite Hval by (unfold nseg in Hq; lia).
    rewrite <- dxs_X, L, Nat.add_1_r. cbn. ring.
  Qed.
  Lemma D_match k q : (S q < nseg)%nat -> (k < n)%nat -> D k q (X (S q)) = D k (S q) (X (S q)).
  Proof.
    intros Hq Hk. unfold D, dD. f_equal. rewrite <- dxs_X. replace (X (S q) - X (S q)) with 0 by ring. rewrite tay_at_0.
    destruct k as [|k].
    - destruct (proj1 HP q ltac:(lia)) as (_ & _ & ->). destruct (proj1 HP (S q) Hq) as (_ & -> & _). rewrite Nat.add_1_r. reflexivity.
    - rewrite (proj2 HP q (S k)) by (fold nseg; lia). fold nseg. rewrite Nat.add_1_r, Nat.mod_small by lia. reflexivity.
  Qed.
  Lemma H_match k q : (S q < nseg)%nat -> (k < n)%nat -> H k q (X (S q)) = H k (S q) (X (S q)).
  Proof. intros Hq Hk. unfold H. rewrite D_match by auto. reflexivity. Qed.
  Lemma W_match q : (S q < nseg)%nat -> W q (X (S q)) = W (S q) (X (S q)).
  Proof.
    intros Hq. unfold W. apply rsum_ext. intros k Hk. f_equal. destruct (Nat.eq_dec k (r - 1)) as [->|Hk'].
    - rewrite Nat.sub_diag, H0_right, H0_left by lia. ring.
    - rewrite H_match, D_match by lia. reflexivity.
  Qed.
  Lemma W_lo : (forall j, (1 <= j < r)%nat -> g j a = dD j (cols 0%nat) 0 \/ dD (n - j) (cols 0%nat) 0 = 0) -> W 0 a = 0.
  Proof.
    intros Hlo.
    unfold W. apply rsum_zero. intros k Hk. destruct (Nat.eq_dec k (r - 1)) as [->|Hk'].
    - rewrite Nat.sub_diag. unfold a. rewrite H0_left by (unfold nseg; lia). ring.
    - assert (Z : H (r - 1 - k) 0 a * D (r + k) 0 a = 0); [|rewrite Z; ring]. unfold H, D. fold a. replace (a - a) with 0 by ring. 
      destruct (Hlo (r - 1 - k)%nat ltac:(lia)) as [->|E]; [ring|]. replace (n - (r - 1 - k))%nat with (r + k)%nat in E by lia. rewrite E. ring.
  Qed.
  Lemma W_hi : (forall j, (1 <= j < r)%nat -> g j b = dD j (cols (nseg - 1)%nat) (dxs x (nseg - 1)) \/ dD (n - j) (cols (nseg - 1)%nat) (dxs x (nseg - 1)) = 0) ->
    W (nseg - 1) b = 0.
  Proof.
    intros Hhi.
    unfold W. assert (Q : S (nseg - 1) = nseg) by (unfold nseg; lia). apply rsum_zero. intros k Hk. destruct (Nat.eq_dec k (r - 1)) as [->|Hk'].
    - rewrite Nat.sub_diag. unfold b. rewrite <- Q at 2. rewrite H0_right by lia. ring.
    - assert (Z : H (r - 1 - k) (nseg - 1) b * D (r + k) (nseg - 1) b = 0); [|rewrite Z; ring]. unfold H, D.
      replace (b - X (nseg - 1)) with (dxs x (nseg - 1)) by (rewrite dxs_X, Q; reflexivity).
      destruct (Hhi (r - 1 - k)%nat ltac:(lia)) as [->|E]; [ring|]. replace (n - (r - 1 - k))%nat with (r + k)%nat in E by lia. rewrite E. ring.
  Qed.
  (* the periodic case *)
  Lemma W_per : pieces n x true Y cols -> (forall j, (j < r)%nat -> g j b = g j a) -> W (nseg - 1) b = W 0 a.
  Proof.
    intros HP' Hper. assert (Q : S (nseg - 1) = nseg) by (unfold nseg; lia). assert (Q0 : (0 < nseg)%nat) by (unfold nseg; lia). unfold W. apply rsum_ext. intros k Hk. f_equal.
    destruct (Nat.eq_dec k (r - 1)) as [->|Hk'].
    - rewrite Nat.sub_diag. unfold a, b. rewrite <- Q at 2. rewrite H0_right, H0_left by lia. ring.
    - assert (M : forall m, (1 <= m < n)%nat -> D m (nseg - 1) b = D m 0 a).
      { intros m Hm. unfold D, dD. f_equal. replace (b - X (nseg - 1)) with (dxs x (nseg - 1)) by (rewrite dxs_X, Q; reflexivity).
        rewrite (proj2 HP' (nseg - 1)%nat m) by (fold nseg; auto; lia). fold nseg. replace (nseg - 1 + 1)%nat with nseg by lia. rewrite Nat.mod_same by lia.
        fold a. replace (a - a) with 0 by ring. rewrite tay_at_0. reflexivity. }
      unfold H. rewrite !M, Hper by lia. reflexivity.
  Qed.
  Hypothesis HW : W (nseg - 1) b = W 0 a.
  Lemma W_sum : rsum nseg (fun q => W q (X (S q)) - W q (X q)) = 0.
  Proof.
    assert (G : forall m, (m < nseg)%nat -> rsum (S m) (fun q => W q (X (S q)) - W q (X q)) = W m (X (S m)) - W 0 a).
    { induction m as [|m IH]; intros Hm.
      - cbn [rsum]. fold a. ring.
      - cbn [rsum] in *. rewrite IH by lia. rewrite (W_match m) by lia. ring. }
    replace nseg with (S (nseg - 1)) by (unfold nseg; lia). rewrite G by (unfold nseg; lia). replace (S (nseg - 1)) with nseg by (unfold nseg; lia). fold b. rewrite HW. ring.
  Qed.

  Lemma glue (phi : R -> R) v : forall m, (m <= nseg)%nat -> (forall q, (q < m)%nat -> is_RInt phi (X q) (X (S q)) (v q)) -> is_RInt phi a (X m) (rsum m v).
  Proof.
    induction m as [|m IH]; intros Hm Hq; cbn [rsum].
    - apply (is_RInt_point (V := R_NormedModule)).
    - apply (is_RInt_Chasles (V := R_NormedModule) phi a (X m) (X (S m))); [apply IH; [lia|]; intros; apply Hq; lia|apply Hq; lia].
  Qed.
  Lemma cont_int (phi : R -> R) q : (q < nseg)%nat -> (forall t, X q <= t <= X (S q) -> continuity_pt phi t) -> is_RInt phi (X q) (X (S q)) (RInt phi (X q) (X (S q))).
  Proof.
    intros Hq Hc. apply (RInt_correct (V := R_CompleteNormedModule)). apply (ex_RInt_continuous (V := R_CompleteNormedModule)). intros t Ht.
    pose proof (X_lt q (S q) ltac:(lia)). rewrite Rmin_left, Rmax_right in Ht by lra. apply continuity_pt_filterlim, Hc, Ht.
  Qed.
  (* dlt: any function that is on each piece the r-th derivative of the spline *)
  Variable dlt : R -> R.
  Hypothesis Hdlt : forall q t, (q < nseg)%nat -> X q < t < X (S q) -> dlt t = D r q t.
  Let al q := RInt (fun t => D r q t * D r q t) (X q) (X (S q)).
  Let be q := RInt (fun t => H r q t * H r q t) (X q) (X (S q)).
  Lemma pyth : is_RInt (fun t => dlt t * dlt t) a b (rsum nseg al) /\
    is_RInt (fun t => (g r t - dlt t) * (g r t - dlt t)) a b (rsum nseg be) /\
    is_RInt (fun t => g r t * g r t) a b (rsum nseg al + rsum nseg be).
  Proof.
    assert (IA : forall q, (q < nseg)%nat -> is_RInt (fun t => D r q t * D r q t) (X q) (X (S q)) (al q)).
    { intros q Hq. apply (cont_int (fun t => D r q t * D r q t)); auto. intros t Ht. apply (continuity_pt_mult (D r q) (D r q)); apply D_cont. }
    assert (IB : forall q, (q < nseg)%nat -> is_RInt (fun t => H r q t * H r q t) (X q) (X (S q)) (be q)).
    { intros q Hq. apply (cont_int (fun t => H r q t * H r q t)); auto. intros t Ht. apply (continuity_pt_mult (H r q) (H r q)); apply H_cont, (X_in q); auto. }
    assert (IC : forall q, (q < nseg)%nat -> is_RInt (fun t => H r q t * D r q t) (X q) (X (S q)) (W q (X (S q)) - W q (X q))).
    { intros q Hq. pose proof (X_lt q (S q) ltac:(lia)) as L. apply (is_RInt_derive (V := R_CompleteNormedModule)).
      - intros t Ht. rewrite Rmin_left, Rmax_right in Ht by lra. apply is_derive_Reals, W_deriv; auto. apply (X_in q); auto.
      - intros t Ht. rewrite Rmin_left, Rmax_right in Ht by lra. apply continuity_pt_filterlim. apply (continuity_pt_mult (H r q) (D r q)); [apply H_cont, (X_in q); auto|apply D_cont]. }
    assert (EX : forall (phi psi : R -> R) q v, (q < nseg)%nat -> (forall t, X q < t < X (S q) -> phi t = psi t) -> is_RInt phi (X q) (X (S q)) v -> is_RInt psi (X q) (X (S q)) v).
    { intros phi psi q v Hq E I. apply (is_RInt_ext phi); auto. intros t Ht. pose proof (X_lt q (S q) ltac:(lia)). rewrite Rmin_left, Rmax_right in Ht by lra. apply E, Ht. }
    split; [|split].
    - apply (glue _ al nseg); [lia|]. intros q Hq. apply (EX (fun t => D r q t * D r q t)); auto. intros t Ht. rewrite (Hdlt q t) by auto. reflexivity.
    - apply (glue _ be nseg); [lia|]. intros q Hq. apply (EX (fun t => H r q t * H r q t)); auto. intros t Ht. rewrite (Hdlt q t) by auto. reflexivity.
    - replace (rsum nseg al + rsum nseg be) with (rsum nseg (fun q => al q + (be q + 2 * (W q (X (S q)) - W q (X q))))).
      2:{ rewrite !rsum_plus. rewrite rsum_scal, W_sum. ring. }
      apply (glue _ (fun q => al q + (be q + 2 * (W q (X (S q)) - W q (X q)))) nseg); [lia|]. intros q Hq.
      apply (EX (fun t => D r q t * D r q t + (H r q t * H r q t + 2 * (H r q t * D r q t)))); auto.
      { intros t Ht. unfold H. ring. }
      apply (is_RInt_plus (V := R_NormedModule)); [apply IA; auto|]. apply (is_RInt_plus (V := R_NormedModule)); [apply IB; auto|].
      apply (is_RInt_scal (V := R_NormedModule)). apply IC; auto.
  Qed.

  (** the case of equality *)
  Lemma H_zero q t : (q < nseg)%nat -> be q = 0 -> X q < t < X (S q) -> H r q t = 0.
  Proof.
    intros Hq B Ht. set (phi := fun t => H r q t * H r q t).
    assert (C : forall u, X q <= u <= X (S q) -> continuous phi u).
    { intros u Hu. apply continuity_pt_filterlim. apply (continuity_pt_mult (H r q) (H r q)); apply H_cont, (X_in q); auto. }
    assert (EX : forall u v, X q <= u <= v -> v <= X (S q) -> ex_RInt phi u v).
    { intros u v Hu Hv. apply (ex_RInt_continuous (V := R_CompleteNormedModule)). intros w. rewrite Rmin_left, Rmax_right by lra. intros Hw. apply C. lra. }
    assert (P : forall u v, X q <= u <= v -> v <= X (S q) -> 0 <= RInt phi u v).
    { intros u v Hu Hv. apply RInt_ge_0; [lra|apply EX; lra|]. intros w _. unfold phi. nra. }
    destruct (Req_dec (H r q t) 0) as [|NZ]; [assumption|exfalso].
    pose proof (H_cont q t (X_in q t Hq ltac:(lra))) as K. pose proof (proj1 (continuity_pt_locally _ _) K) as K'. clear K.
    assert (E0 : 0 < Rabs (H r q t)) by (apply Rabs_pos_lt; auto). destruct (K' (mkposreal _ E0)) as [d Hd]. cbn in Hd.
    set (w := Rmin (d / 2) (X (S q) - t)). assert (Dp := cond_pos d). assert (W0 : 0 < w) by (unfold w; apply Rmin_pos; lra).
    assert (W1 : w <= d / 2) by apply Rmin_l. assert (W2 : w <= X (S q) - t) by apply Rmin_r.
    assert (G : 0 < RInt phi t (t + w)).
    { apply RInt_gt_0; [lra| |intros u Hu; apply C; lra]. intros u Hu.
      assert (Q : Rabs (H r q u - H r q t) < Rabs (H r q t)).
      { apply Hd. unfold ball. cbn. unfold AbsRing_ball, abs, minus, plus, opp. cbn. rewrite Rabs_pos_eq by lra. lra. }
      assert (H r q u <> 0) by (intros Z; rewrite Z in Q; replace (0 - H r q t) with (- H r q t) in Q by ring; rewrite Rabs_Ropp in Q; lra).
      unfold phi. nra. }
    assert (S1 : RInt phi (X q) t + RInt phi t (X (S q)) = be q) by (apply (RInt_Chasles (V := R_CompleteNormedModule)); apply EX; lra).
    assert (S2 : RInt phi t (t + w) + RInt phi (t + w) (X (S q)) = RInt phi t (X (S q))) by (apply (RInt_Chasles (V := R_CompleteNormedModule)); apply EX; lra).
    pose proof (P (X q) t ltac:(lra) ltac:(lra)). pose proof (P (t + w) (X (S q)) ltac:(lra) ltac:(lra)). lra.
  Qed.
  Let P q := map (fun k => H k q (X q) / INR (fact k)) (seq 0 r).
  Lemma P_nth k q : (k < r)%nat -> INR (fact k) * nth k (P q) 0 = H k q (X q).
  Proof.
    intros Hk. unfold P. rewrite (nth_indep _ 0 (H 0 q (X q) / INR (fact 0))) by (rewrite map_length, seq_length; lia).
    rewrite (map_nth (fun k => H k q (X q) / INR (fact k)) (seq 0 r) 0%nat). rewrite seq_nth by lia. cbn [Nat.add]. field. apply INR_fact_neq_0.
  Qed.
  Lemma P_len q : length (P q) = r. Proof. unfold P. rewrite map_length, seq_length. reflexivity. Qed.
  Lemma H_poly q : (q < nseg)%nat -> be q = 0 -> forall k t, (k < r)%nat -> X q <= t <= X (S q) -> H k q t = dD k (P q) (t - X q).
  Proof.
    intros Hq B. pose proof (X_lt q (S q) ltac:(lia)) as L.
    set (E := fun k t => H k q t - dD k (P q) (t - X q)).
    assert (ED : forall k t, (k < r)%nat -> X q <= t <= X (S q) -> derivable_pt_lim (E k) t (E (S k) t)).
    { intros k t Hk Ht. apply (derivable_pt_lim_minus (H k q) (fun u => dD k (P q) (u - X q))); [apply H_deriv; auto; apply (X_in q); auto|apply dD_shift]. }
    assert (G : forall i, (1 <= i <= r)%nat -> forall t, X q <= t <= X (S q) -> E (r - i)%nat t = 0).
    { induction i as [|i IH]; intros Hi' t Ht; [lia|].
      assert (Z : forall u, X q < u < X (S q) -> E (S (r - S i)) u = 0).
      { intros u Hu. destruct (Nat.eq_dec i 0) as [->|Ni].
        - replace (S (r - 1)) with r by lia. unfold E. rewrite H_zero by auto. unfold dD. rewrite tay_big by (rewrite P_len; lia). ring.
        - replace (S (r - S i)) with (r - i)%nat by lia. apply IH; [lia|lra]. }
      assert (Z0 : E (r - S i)%nat (X q) = 0).
      { unfold E. replace (X q - X q) with 0 by ring. unfold dD. rewrite tay_at_0, P_nth by lia. ring. }
      destruct (Req_dec t (X q)) as [->|Nt]; [exact Z0|].
      destruct (MVT_cor2 (E (r - S i)%nat) (E (S (r - S i))) (X q) t) as (c & Ec & Hc); [lra|intros c Hc; apply ED; [lia|lra]|].
      rewrite Z in Ec by lra. lra. }
    intros k t Hk Ht. specialize (G (r - k)%nat ltac:(lia) t Ht). replace (r - (r - k))%nat with k in G by lia. unfold E in G. lra.
  Qed.
  Lemma close q t : r = 2%nat -> (q < nseg)%nat -> X q <= t <= X (S q) ->
    (g 0%nat t - peval (cols q) (t - X q)) * (g 0%nat t - peval (cols q) (t - X q)) <= (X (S q) - X q) ^ 3 / 4 * rsum nseg be.
  Proof.
    intros R2 Hq Ht. pose proof (X_lt q (S q) ltac:(lia)) as L.
    replace (g 0%nat t - peval (cols q) (t - X q)) with (H 0 q t) by (unfold H, D, dD; rewrite tay_0; cbn; ring).
    eapply Rle_trans; [apply (small_between (H 0 q) (H 1 q) (H 2 q) (X q) (X (S q)) L); auto; try (intros u Hu; apply H_deriv; [lia|apply (X_in q); auto])|].
    - intros u Hu. rewrite <- R2. apply H_cont, (X_in q); auto.
    - apply H0_left. auto.
    - apply H0_right. auto.
    - apply Rmult_le_compat_l; [pose proof (pow_le (X (S q) - X q) 3 ltac:(lra)); lra|]. rewrite <- R2. fold (be q).
      assert (N : forall j, (j < nseg)%nat -> 0 <= be j).
      { intros j Hj. pose proof (X_lt j (S j) ltac:(lia)). unfold be. apply RInt_ge_0; [lra| |intros w _; apply (Rle_0_sqr (H r j w))].
        eexists. apply (cont_int (fun t => H r j t * H r j t)); auto. intros u Hu. apply (continuity_pt_mult (H r j) (H r j)); apply H_cont, (X_in j); auto. }
      revert Hq N. clearbody be. clear. intros Hq N. induction nseg as [|m IH]; [lia|]. cbn [rsum].
      assert (N' : 0 <= rsum m be) by (rewrite <- (rsum_zero m (fun _ => 0)) by auto; apply rsum_le; auto).
      destruct (Nat.eq_dec q m) as [->|]; [lra|]. specialize (IH ltac:(lia) ltac:(auto)). specialize (N m ltac:(lia)). lra.
  Qed.
  Lemma same : rsum nseg be = 0 -> (r <= length x)%nat \/ (forall j, (1 <= j < r)%nat -> g j a = dD j (cols 0%nat) 0) ->
    forall q t, (q < nseg)%nat -> X q <= t <= X (S q) -> g 0%nat t = peval (cols q) (t - X q).
  Proof.
    intros Hz Hk.
    assert (B : forall q, (q < nseg)%nat -> be q = 0).
    { apply rsum_nonneg_0; auto. intros q Hq. pose proof (X_lt q (S q) ltac:(lia)). unfold be. apply RInt_ge_0; [lra| |intros w _; nra].
      eexists. apply (cont_int (fun t => H r q t * H r q t)); auto. intros t Ht. apply (continuity_pt_mult (H r q) (H r q)); apply H_cont, (X_in q); auto. }
    set (c' := fun q => (P q ++ repeat 0 r)%list).
    assert (T : forall m q t, tay m (c' q) t = tay m (P q) t) by (intros; apply tay_app_zeros).
    assert (TH : forall m q, (q < nseg)%nat -> (m < r)%nat -> INR (fact m) * tay m (P q) (dxs x q) = H m q (X (S q))).
    { intros m q Hq Hm. pose proof (X_lt q (S q) ltac:(lia)). symmetry. apply H_poly; auto. lra. }
    assert (NB : forall m q, (r <= m)%nat -> nth m (c' q) 0 = 0).
    { intros m q Hm. rewrite <- tay_at_0, T. apply tay_big. rewrite P_len. exact Hm. }
    assert (FM : forall m u v, INR (fact m) * u = INR (fact m) * v -> u = v) by (intros m u v E; apply (Rmult_eq_reg_l (INR (fact m))); [exact E|apply INR_fact_neq_0]).
    assert (PC : pieces n x false (fun _ => 0) c').
    { split.
      - fold nseg. intros q Hq. split; [unfold c'; rewrite app_length, P_len, repeat_length; lia|]. split.
        + rewrite <- tay_at_0, T, tay_at_0. apply (FM 0%nat). rewrite P_nth, H0_left by (auto; lia). ring.
        + rewrite T. apply (FM 0%nat). rewrite TH, H0_right by (auto; lia). ring.
      - fold nseg. intros q m Hq Hm [?|Hq']; [discriminate|]. rewrite T, Nat.mod_small by lia. rewrite Nat.add_1_r in *.
        destruct (Nat.lt_ge_cases m r) as [L|L].
        + apply (FM m). rewrite TH by auto. rewrite H_match by lia. rewrite <- (P_nth m (S q)) by auto. f_equal. rewrite <- tay_at_0, <- T, tay_at_0. reflexivity.
        + rewrite NB by auto. apply tay_big. rewrite P_len. exact L. }
    pose proof (one_poly n r x false c' En Hr Hx Hi PC (fun q _ k Hk => NB k q Hk)) as O.
    assert (NE : c' 0%nat <> []) by (intros E; apply (f_equal (@length R)) in E; unfold c' in E; rewrite app_length, P_len in E; cbn in E; lia).
    assert (Z0 : zcol (c' 0%nat)).
    { destruct Hk as [Hk|Hk].
      - apply peval_all0. intros t. rewrite <- tay_0, T, tay_0. apply (poly_zeros (length x) _ (fun i => nth i x 0 - nth 0 x 0)).
        + rewrite P_len. exact Hk.
        + intros i j Hij E. pose proof (incr_lt x i j Hi Hij). lra.
        + intros i Hi'. rewrite <- tay_0, <- T. destruct i as [|i].
          * replace (nth 0 x 0 - nth 0 x 0) with 0 by ring. rewrite tay_at_0. apply (proj1 PC 0%nat). lia.
          * destruct (proj1 PC i ltac:(lia)) as (_ & _ & D3). rewrite O in D3 by lia. rewrite pshift_tay in D3 by auto.
            etransitivity; [|exact D3]. f_equal. unfold dxs. numR. ring.
      - intros k. destruct (Nat.lt_ge_cases k r) as [L|L]; [|apply NB; auto]. rewrite <- tay_at_0, T, tay_at_0. apply (FM k). rewrite P_nth by auto.
        destruct k as [|k]; [rewrite H0_left by (unfold nseg; lia); ring|]. unfold H, D. fold a. rewrite Hk by lia. replace (a - a) with 0 by ring. ring. }
    intros q t Hq Ht. pose proof (H_poly q Hq (B q Hq) 0%nat t ltac:(lia) Ht) as E. unfold dD in E. rewrite <- T, O in E by auto. rewrite pshift_tay in E by auto.
    rewrite zcol_tay in E by auto. unfold H, D, dD in E. rewrite tay_0 in E. cbn in E. lra.
  Qed.
End Min.

(** ** The theorems *)
(* S lists F and its derivatives of order 1..r inside (a, b).  Among all r times continuously differentiable g 0 with the values Y at the
   points x and the further property more, F has the smallest integral of the square of the r-th derivative, the excess being the
   integral of the squared difference; no other function has it, if there are at least r points; and for r = 2 (cubic splines) the
   distance of any such function from F between two knots is at most sqrt(h^3/4 I), h the distance of the knots and I the integral of
   the square of its second derivative: the spline of a smooth function converges to it *)
Definition least (r : nat) (x : list R) (Y : nat -> R) (more : (nat -> R -> R) -> Prop) (F : R -> R) : Prop :=
  let a := nth 0 x 0 in let b := nth (length x - 1) x 0 in
  exists D : nat -> R -> R,
    (forall t, a < t < b -> D 0%nat t = F t) /\
    (forall k t, (k < r)%nat -> a < t < b -> derivable_pt_lim (D k) t (D (S k) t)) /\
    forall g, smooth_on r g a b -> (forall i, (i < length x)%nat -> g 0%nat (nth i x 0) = Y i) -> more g ->
      ex_RInt (fun t => D r t * D r t) a b /\ ex_RInt (fun t => g r t * g r t) a b /\
      RInt (fun t => g r t * g r t) a b = RInt (fun t => D r t * D r t) a b + RInt (fun t => (g r t - D r t) * (g r t - D r t)) a b /\
      RInt (fun t => D r t * D r t) a b <= RInt (fun t => g r t * g r t) a b /\
      ((r <= length x)%nat -> RInt (fun t => g r t * g r t) a b <= RInt (fun t => D r t * D r t) a b -> forall t, a < t <= b -> g 0%nat t = F t) /\
      (r = 2%nat -> forall q t, (S q < length x)%nat -> nth q x 0 < t <= nth (S q) x 0 ->
         (g 0%nat t - F t) * (g 0%nat t - F t) <= (nth (S q) x 0 - nth q x 0) ^ 3 / 4 * RInt (fun t => g 2%nat t * g 2%nat t) a b).

Lemma deriv_piece (D : nat -> R -> R) c h u v : (forall t, u < t < v -> D 0%nat t = peval c (t - u)) ->
  (forall k t, (k < h)%nat -> u < t < v -> derivable_pt_lim (D k) t (D (S k) t)) -> forall k t, (k <= h)%nat -> u < t < v -> D k t = dD k c (t - u).
Proof.
  intros H0 HD. induction k as [|k IH]; intros t Hk Ht.
  - rewrite H0 by auto. unfold dD. rewrite tay_0. cbn. ring.
  - apply (uniqueness_limite (D k) t); [apply HD; auto; lia|]. intros eps He. destruct (dD_shift k c u t eps He) as [d Hd].
    assert (M : 0 < Rmin d (Rmin (t - u) (v - t))) by (repeat apply Rmin_pos; try lra; apply cond_pos). exists (mkposreal _ M). intros h' Nh Hh. cbn in Hh.
    assert (M1 := Rmin_l d (Rmin (t - u) (v - t))). assert (M2 := Rmin_r d (Rmin (t - u) (v - t))). assert (M3 := Rmin_l (t - u) (v - t)). assert (M4 := Rmin_r (t - u) (v - t)).
    apply Rabs_def2 in Hh as Hh'. rewrite !IH by (try lia; lra). apply Hd; auto. lra.
Qed.
Section Thm.
  Variables (r : nat) (x : list R) (Y : nat -> R) (cols : nat -> list R) (F : R -> R) (D : nat -> R -> R) (more : (nat -> R -> R) -> Prop).
  Hypothesis Hr : (2 <= r)%nat.
  Hypothesis Hx : (2 <= length x)%nat.
  Hypothesis Hi : incr x.
  Hypothesis HP : pieces (2 * r - 1) x false Y cols.
  Hypothesis HF : forall q t, (S q < length x)%nat -> nth q x 0 < t <= nth (S q) x 0 -> F t = peval (cols q) (t - nth q x 0).
  Hypothesis HD0 : forall t, nth 0 x 0 < t < nth (length x - 1) x 0 -> D 0%nat t = F t.
  Hypothesis HD : forall k t, (k < r)%nat -> nth 0 x 0 < t < nth (length x - 1) x 0 -> derivable_pt_lim (D k) t (D (S k) t).
  Hypothesis HW : forall g, smooth_on r g (nth 0 x 0) (nth (length x - 1) x 0) -> (forall i, (i < length x)%nat -> g 0%nat (nth i x 0) = Y i) -> more g ->
    let W q t := rsum r (fun k => (-1) ^ k * ((g (r - 1 - k)%nat t - dD (r - 1 - k) (cols q) (t - nth q x 0)) * dD (r + k) (cols q) (t - nth q x 0))) in
    W (length x - 1 - 1)%nat (nth (length x - 1) x 0) = W 0%nat (nth 0 x 0).
  Lemma Xin q : (S q < length x)%nat -> nth 0 x 0 <= nth q x 0 /\ nth q x 0 < nth (S q) x 0 /\ nth (S q) x 0 <= nth (length x - 1) x 0.
  Proof. intros Hq. split; [apply incr_le; auto; lia|]. split; [apply Hi; auto|apply incr_le; auto; lia]. Qed.
  Lemma Dr q t : (q < length x - 1)%nat -> nth q x 0 < t < nth (S q) x 0 -> D r t = dD r (cols q) (t - nth q x 0).
  Proof.
    intros Hq Ht. destruct (Xin q ltac:(lia)) as (A & B & C). apply (deriv_piece D (cols q) r (nth q x 0) (nth (S q) x 0)); auto.
    - intros u Hu. rewrite HD0 by lra. apply HF; [lia|lra].
    - intros k u Hk Hu. apply HD; auto. lra.
  Qed.
  Lemma find_piece t : nth 0 x 0 < t <= nth (length x - 1) x 0 -> exists q, (S q < length x)%nat /\ nth q x 0 < t <= nth (S q) x 0.
  Proof.
    intros Ht. assert (G : forall m, (m < length x)%nat -> nth m x 0 < t \/ exists q, (S q < length x)%nat /\ nth q x 0 < t <= nth (S q) x 0).
    { induction m as [|m IH]; intros Hm; [left; lra|]. destruct (IH ltac:(lia)) as [L|R]; [|right; exact R].
      destruct (Rlt_le_dec (nth (S m) x 0) t); [left; auto|]. right. exists m. split; [lia|lra]. }
    destruct (G (length x - 1)%nat ltac:(lia)) as [L|R]; [lra|exact R].
  Qed.
  Lemma least_core : least r x Y more F.
  Proof.
    exists D. split; [exact HD0|]. split; [exact HD|]. intros g Hg Hv Hm. specialize (HW g Hg Hv Hm).
    pose proof (pyth (2 * r - 1) r x Y cols g eq_refl Hr Hx Hi HP Hg Hv HW (D r) Dr) as P. cbv zeta in P. destruct P as (P1 & P2 & P3).
    set (A := rsum _ _) in P1 at 1. match type of P2 with is_RInt _ _ _ ?v => set (B := v) in * end. fold A in P3.
    split; [eexists; exact P1|]. split; [eexists; exact P3|].
    assert (E1 := is_RInt_unique _ _ _ _ P1). assert (E2 := is_RInt_unique _ _ _ _ P2). assert (E3 := is_RInt_unique _ _ _ _ P3).
    assert (AB : nth 0 x 0 <= nth (length x - 1) x 0) by (apply incr_le; auto; lia).
    assert (B0 : 0 <= B) by (rewrite <- E2; apply RInt_ge_0; [exact AB|eexists; exact P2|intros w _; apply (Rle_0_sqr (g r w - D r w))]).
    rewrite E1, E2, E3. split; [reflexivity|]. split; [lra|]. split; [intros Hrx Hle t Ht|].
    2:{ intros R2 q t Hq Ht. rewrite (HF q t) by auto. assert (A0 : 0 <= A) by (rewrite <- E1; apply RInt_ge_0; [exact AB|eexists; exact P1|intros w _; apply (Rle_0_sqr (D r w))]).
        assert (C : (g 0%nat t - peval (cols q) (t - nth q x 0)) * (g 0%nat t - peval (cols q) (t - nth q x 0)) <= (nth (S q) x 0 - nth q x 0) ^ 3 / 4 * B)
          by exact (close (2 * r - 1) r x Y cols g eq_refl Hr Hx Hi HP Hg Hv q t R2 ltac:(lia) ltac:(lra)).
        replace (g 2%nat) with (g r) by congruence. rewrite E3.
        eapply Rle_trans; [exact C|]. apply Rmult_le_compat_l; [|lra]. pose proof (proj1 (proj2 (Xin q Hq))). pose proof (pow_le (nth (S q) x 0 - nth q x 0) 3 ltac:(lra)). lra. }
    destruct (find_piece t Ht) as (q & Hq & Hqt). rewrite (HF q t) by auto.
    apply (same (2 * r - 1) r x Y cols g eq_refl Hr Hx Hi HP Hg Hv); auto; [fold B; lra|lia|lra].
  Qed.
End Thm.

Section Spl.
  Variable inv : nat -> (nat -> nat -> R) -> (nat -> nat -> R).
  Variable sb : nat -> nat -> arr2 R -> arr2 R -> res (arr2 R).
  Variable s : arr2 R -> arr2 R -> res (arr2 R).
  Hypothesis Hsb : banded_spec sb.
  Hypothesis Hs : dense_spec s.
  Lemma bcs_all n x y lo hi extrap p e f : (2 <= n)%nat -> incr x -> ex_pair n extrap = (e, f) ->
    spline inv sb s x y n lo hi false extrap = Ok p ->
    good_args x y n lo hi /\ exists lo' hi' cols, filled n (bc_tuple lo) (bc_tuple hi) lo' hi' /\
      spl_result n x (ysh y) e f cols p /\
      forall comp, inb comp (ysh y) -> pieces n x false (yval y comp) (cols comp) /\ bcs n x lo' hi' (ravel (ysh y) comp) (cols comp).
  Proof using Hsb.
    intros Hn Hi He E. pose proof (spline_ok_args _ _ _ _ _ _ _ _ _ _ Hn Hi E) as G. split; [exact G|].
    destruct G as (G1 & G2 & G3 & G4 & G5 & G6 & G7 & G8).
    destruct (spline_core inv sb s n x y lo hi extrap e f Hsb Hn G1 Hi G2 G3 G4 G5 G6 G7 G8 He)
      as (lo' & hi' & F & _ & _ & _ & H & _).
    destruct (H p E) as (cols & R1 & R2). exists lo', hi', cols. split; [exact F|]. split; [exact R1|exact R2].
  Qed.
  (* the common part: conditions at both ends, order by order *)
  Lemma least_ends r x y lo hi extrap p comp (more : (nat -> R -> R) -> Prop) : (2 <= r)%nat -> incr x -> spline inv sb s x y (2 * r - 1) lo hi false extrap = Ok p -> inb comp (ysh y) ->
    (forall lo' hi' g, filled (2 * r - 1) (bc_tuple lo) (bc_tuple hi) lo' hi' -> more g -> forall j, (1 <= j < r)%nat ->
       (exists v, nth (j - 1) lo' None = Some v /\ g j (nth 0 x 0) = INR (fact j) * bget v [ravel (ysh y) comp]) \/ nth (2 * r - 1 - j - 1) lo' None = zero_bc) ->
    (forall lo' hi' g, filled (2 * r - 1) (bc_tuple lo) (bc_tuple hi) lo' hi' -> more g -> forall j, (1 <= j < r)%nat ->
       (exists v, nth (j - 1) hi' None = Some v /\ g j (nth (length x - 1) x 0) = INR (fact j) * bget v [ravel (ysh y) comp]) \/ nth (2 * r - 1 - j - 1) hi' None = zero_bc) ->
    exists F, (forall t, pw_call p comp t = Ok (F t)) /\ least r x (yval y comp) more F.
  Proof using Hsb.
    intros Hr Hi E Hb HL HH. assert (Hn : (2 <= 2 * r - 1)%nat) by lia. destruct (ex_pair (2 * r - 1) extrap) as [e f] eqn:He.
    destruct (bcs_all _ _ _ _ _ _ _ _ _ Hn Hi He E) as ((Hx & _) & lo' & hi' & cols & HFl & HR & H). destruct (H comp Hb) as (P & B1 & B2).
    assert (Hn1 : (1 <= 2 * r - 1)%nat) by lia. exists (pw_val p comp). split; [intros t; apply (sf_call _ x (ysh y) e f cols p comp HR)|].
    apply (least_core r x (yval y comp) (cols comp) (pw_val p comp) (sg p comp) more Hr Hx Hi P).
    - intros q t Hq Ht. apply (sf_piece _ x (ysh y) e f cols p comp Hn1 Hx HR Hb); auto. lia.
    - intros t _. apply (sg_0 _ x (ysh y) e f cols p comp HR).
    - intros k t Hk Ht. apply (sg_in _ x (ysh y) e f cols p comp (yval y comp) Hn1 Hx HR Hb P k t Ht). lia.
    - intros g Hg Hv Hm. cbv zeta. transitivity 0.
      + apply (W_hi (2 * r - 1) r x (yval y comp) (cols comp) g eq_refl Hr Hx P Hv). intros j Hj.
        destruct (HH lo' hi' g HFl Hm j Hj) as [(v & Ev & Eg)|Z].
        * left. rewrite Eg. unfold dD. f_equal. apply nth_some_error in Ev. specialize (B2 _ _ Ev). replace (S (j - 1)) with j in B2 by lia. symmetry. exact B2.
        * right. unfold zero_bc in Z. apply nth_some_error in Z. specialize (B2 _ _ Z). replace (S (2 * r - 1 - j - 1)) with (2 * r - 1 - j)%nat in B2 by lia.
          unfold dD. rewrite B2. change (bget (scalar 0) [ravel (ysh y) comp]) with 0. ring.
      + symmetry. apply (W_lo (2 * r - 1) r x (yval y comp) (cols comp) g eq_refl Hr Hx P Hv). intros j Hj.
        destruct (HL lo' hi' g HFl Hm j Hj) as [(v & Ev & Eg)|Z].
        * left. rewrite Eg. unfold dD. f_equal. apply nth_some_error in Ev. specialize (B1 _ _ Ev). replace (S (j - 1)) with j in B1 by lia. rewrite tay_at_0. symmetry. exact B1.
        * right. unfold zero_bc in Z. apply nth_some_error in Z. specialize (B1 _ _ Z). replace (S (2 * r - 1 - j - 1)) with (2 * r - 1 - j)%nat in B1 by lia.
          unfold dD. rewrite tay_at_0, B1. change (bget (scalar 0) [ravel (ysh y) comp]) with 0. ring.
  Qed.
  (* natural splines: lo and hi not given *)
  Theorem C108_natural r x y extrap p comp : (2 <= r)%nat -> incr x -> spline inv sb s x y (2 * r - 1) (BcTuple []) (BcTuple []) false extrap = Ok p -> inb comp (ysh y) ->
    exists F, (forall t, pw_call p comp t = Ok (F t)) /\ least r x (yval y comp) (fun _ => True) F.
  Proof using Hsb.
    intros Hr Hi E Hb. set (n := (2 * r - 1)%nat).
    assert (T : forall lo' hi', filled n [] [] lo' hi' -> forall i b, (r - 1 <= i < n - 1)%nat -> getslot lo' hi' (i, b) = zero_bc).
    { intros lo' hi' HF i b Hb'. destruct (HF (i, b)) as [H1 _]. apply H1. cbn [count_some filter length Nat.add].
      assert (FS : free_slots [] [] (slots (n - 1)) = slots (n - 1)).
      { clear H1. unfold free_slots. induction (slots (n - 1)) as [|[u c] l IH]; [reflexivity|]. cbn [filter].
        assert (Z : getslot [] [] (u, c) = None) by (unfold getslot; cbn; destruct u, c; reflexivity).
        rewrite Z. cbn. rewrite IH. reflexivity. }
      rewrite FS. match goal with |- In _ (firstn ?m _) => replace m with (2 * (r - 1))%nat by (cbn; unfold n; lia) end.
      apply slots_top; unfold n in *; lia. }
    apply (least_ends r x y (BcTuple []) (BcTuple []) extrap p comp); auto; intros lo' hi' g HF _ j Hj; right.
    - apply (T lo' hi' HF (n - j - 1)%nat false). unfold n. lia.
    - apply (T lo' hi' HF (n - j - 1)%nat true). unfold n. lia.
  Qed.
  (* all derivatives of order 1..r-1 given at both ends (for a cubic: the slopes), among the functions with the same end derivatives *)
  Theorem C108_complete r x y lo hi bl bh extrap p comp : (2 <= r)%nat -> incr x -> spline inv sb s x y (2 * r - 1) lo hi false extrap = Ok p -> inb comp (ysh y) ->
    bc_tuple lo = map Some bl -> bc_tuple hi = map Some bh -> length bl = (r - 1)%nat -> length bh = (r - 1)%nat ->
    exists F, (forall t, pw_call p comp t = Ok (F t)) /\
      least r x (yval y comp) (fun g => forall j, (1 <= j < r)%nat ->
        g j (nth 0 x 0) = INR (fact j) * bget (nth (j - 1) bl (scalar 0)) [ravel (ysh y) comp] /\
        g j (nth (length x - 1) x 0) = INR (fact j) * bget (nth (j - 1) bh (scalar 0)) [ravel (ysh y) comp]) F.
  Proof using Hsb.
    intros Hr Hi E Hb El Eh Ll Lh.
    assert (CS : forall l : list (nd R), count_some (map Some l) = length l) by (induction l as [|v l IH]; [reflexivity|]; unfold count_some in *; cbn in *; congruence).
    assert (NE : forall (l : list (nd R)) k, (k < length l)%nat -> nth k (map Some l) None = Some (nth k l (scalar 0))).
    { intros l k Hk. rewrite (nth_indep _ None (Some (scalar 0))) by (rewrite map_length; auto). apply map_nth. }
    assert (NF : forall lo' hi', filled (2 * r - 1) (bc_tuple lo) (bc_tuple hi) lo' hi' -> forall sl, getslot lo' hi' sl = getslot (bc_tuple lo) (bc_tuple hi) sl).
    { intros lo' hi' HF sl. destruct (HF sl) as [_ H]. apply H. rewrite El, Eh, !CS, Ll, Lh. replace (2 * r - 1 - 1 - (r - 1 + (r - 1)))%nat with 0%nat by lia. intros []. }
    apply (least_ends r x y lo hi extrap p comp); auto; intros lo' hi' g HF Hm j Hj; left.
    - exists (nth (j - 1) bl (scalar 0)). split; [|apply Hm; auto]. pose proof (NF lo' hi' HF ((j - 1)%nat, false)) as Q. unfold getslot in Q. cbn in Q. rewrite Q, El. apply NE. lia.
    - exists (nth (j - 1) bh (scalar 0)). split; [|apply Hm; auto]. pose proof (NF lo' hi' HF ((j - 1)%nat, true)) as Q. unfold getslot in Q. cbn in Q. rewrite Q, Eh. apply NE. lia.
  Qed.
  (* periodic splines, among the functions whose derivatives of order 0..r-1 agree at the two ends of the period *)
  Theorem C108_periodic r x y p comp : (2 <= r)%nat -> incr x -> (2 <= length x)%nat -> yn y = length x -> size (ysh y) <> 0%nat ->
    spline inv sb s x y (2 * r - 1) (BcTuple []) (BcTuple []) true ExNone = Ok p -> inb comp (ysh y) ->
    exists F, (forall t, pw_call p comp t = Ok (F t)) /\
      least r x (fun i => yval y comp (if (i =? length x - 1)%nat then 0%nat else i)) (fun g => forall j, (j < r)%nat -> g j (nth (length x - 1) x 0) = g j (nth 0 x 0)) F.
  Proof using Hsb Hs.
    intros Hr Hi Hx Hy Hsz E Hb. set (n := (2 * r - 1)%nat) in *. assert (Hn : (2 <= n)%nat) by (unfold n; lia).
    destruct (spline_per_core inv sb s n x y Hsb Hs Hn Hx Hi Hy Hsz) as [Sp _].
    destruct (Sp p E) as (cols & (W & P1 & P2 & P3 & P4 & P5 & P6) & HPc). clear Sp. pose proof (HPc comp Hb) as HP. pose proof HP as [Q1 Q2].
    destruct (C56_periodic inv sb s Hsb Hs n x y p comp Hn Hi Hx Hy Hsz E Hb) as (F & D & Q & F1 & F2 & F3 & F4 & F5 & (D1 & D2 & D3) & _).
    exists F. split; [exact F1|]. set (nseg := (length x - 1)%nat) in *.
    assert (ET : per_len p = nth nseg x 0 - nth 0 x 0) by (unfold per_len; rewrite P2; reflexivity).
    assert (FV : forall t, F t = pw_val p comp t) by (intros t; pose proof (pw_call_wf p comp t W) as C; rewrite F1 in C; congruence).
    assert (RI : forall t, nth 0 x 0 <= t < nth nseg x 0 -> pw_reduce p t = t).
    { intros t Ht. apply (reduce_unique p _ _ 0 W P1); [ring|]. rewrite P2, ET. lra. }
    assert (Y0 : forall i, yval y comp (if (i =? nseg)%nat then 0%nat else i) = y_per x (yval y comp) i) by (intros i; unfold y_per; fold nseg; destruct (i =? nseg)%nat; reflexivity).
    assert (HPf : pieces n x false (fun i => yval y comp (if (i =? nseg)%nat then 0%nat else i)) (cols comp)).
    { split; [intros q Hq; rewrite !Y0; apply Q1; auto|]. intros q m Hq Hm [?|?]; [discriminate|]. apply Q2; auto. }
    assert (HPt : pieces n x true (fun i => yval y comp (if (i =? nseg)%nat then 0%nat else i)) (cols comp)).
    { split; [intros q Hq; rewrite !Y0; apply Q1; auto|exact Q2]. }
    apply (least_core r x _ (cols comp) F D _ Hr Hx Hi HPf).
    - intros q t Hq Ht. destruct (Rlt_le_dec t (nth nseg x 0)) as [Hl|Hl].
      + rewrite FV, pw_val_base, RI by (pose proof (incr_le x 0 q Hi ltac:(lia)); lra).
        rewrite (base_piece p comp (S q)); [rewrite pxk0_S, P2, P6 by (auto; lia); reflexivity|rewrite P2; auto|].
        rewrite P2. apply interval_piece; auto.
      + pose proof (incr_le x (S q) nseg Hi ltac:(unfold nseg; lia)) as Hle. assert (Et : t = nth nseg x 0) by lra. assert (Eq : S q = nseg).
        { destruct (Nat.eq_dec (S q) nseg) as [|N]; auto. pose proof (incr_lt x (S q) nseg Hi ltac:(unfold nseg in *; lia)). lra. }
        rewrite Et at 1. rewrite F5. destruct (Q1 q ltac:(lia)) as (_ & _ & T). rewrite tay_0, <- Y0 in T. replace (q + 1)%nat with nseg in T by lia. rewrite Nat.eqb_refl in T.
        rewrite <- T. f_equal. unfold dxs. numR. rewrite Et, Eq. reflexivity.
    - intros t _. apply D1.
    - intros k t Hk _. apply D2. unfold n. lia.
    - intros g Hg Hv Hm. cbv zeta. fold nseg. apply (W_per n r x _ (cols comp) g eq_refl Hr Hx HPf Hv HPt Hm).
  Qed.
End Spl.
Print Assumptions C108_natural.
Print Assumptions C108_complete.
Print Assumptions C108_periodic.
(* four points: the natural cubic spline bends no more than the cubic 1 - 8/3 t - 5/3 t^2 + t^3 through the same points *)
Example C108_case : exists p F D, gspl x4 y4 3 (BcTuple []) (BcTuple []) false ExNone = Ok p /\ (forall t, pw_call p [] t = Ok (F t)) /\
  (forall t, -1 < t < 3 -> D 0%nat t = F t) /\ (forall k t, (k < 2)%nat -> -1 < t < 3 -> derivable_pt_lim (D k) t (D (S k) t)) /\
  RInt (fun t => D 2%nat t * D 2%nat t) (-1) 3 <= 1984 / 9.
Proof.
  destruct gauss_meets_specs as (G1 & G2 & G3 & G4).
  destruct (C53_natural_succeeds inv_wit gbanded gdense G1 2 x4 y4 ExNone G3 (le_n 2) x4_incr ltac:(cbn; lia) eq_refl ltac:(cbn; lia)) as [p E].
  assert (Hb : inb [] (ysh y4)) by constructor.
  destruct (C108_natural inv_wit gbanded gdense G1 2 x4 y4 ExNone p [] (le_n 2) x4_incr E Hb) as (F & F1 & D & D1 & D2 & L).
  exists p, F, D. split; [exact E|]. split; [exact F1|]. split; [exact D1|]. split; [exact D2|].
  set (g := fun k t => dD k [1; -8/3; -5/3; 1] (t - 0)).
  destruct (L g) as (_ & _ & _ & L4 & _ & _); auto.
  - intros t _. split; [intros k _; apply dD_shift|apply dD_cont].
  - intros i Hi. unfold g, dD. rewrite tay_0. cbn in Hi. destruct i as [|[|[|[|i]]]]; try lia; cbn; numR; lra.
  - cbn [x4 nth length Nat.sub] in L4. eapply Rle_trans; [exact L4|]. apply Req_le. apply is_RInt_unique.
    assert (E2 : forall t, g 2%nat t = 6 * t - 10 / 3) by (intros t; unfold g, dD; cbn; numR; field).
    replace (1984 / 9) with ((fun t => (6 * t - 10 / 3) ^ 3 / 18) 3 - (fun t => (6 * t - 10 / 3) ^ 3 / 18) (-1)) by field.
    apply (is_RInt_ext (fun t => (6 * t - 10 / 3) ^ 2)); [intros t _; rewrite !E2; match goal with |- @eq _ ?u ?v => change (@eq R u v) end; ring|].
    apply (is_RInt_derive (V := R_CompleteNormedModule) (fun t => (6 * t - 10 / 3) ^ 3 / 18) (fun t => (6 * t - 10 / 3) ^ 2)).
    + intros t _. auto_derive; auto. field.
    + intros t _. apply (ex_derive_continuous (fun t => (6 * t - 10 / 3) ^ 2)). auto_derive; auto.
Qed.
(* slopes 1 and 2 given at the ends: a polynomial of degree 5 with the same values and slopes bends at least as much *)
Definition g5 : nat -> R -> R := fun k t => dD k [1; -8/3 - 13/24; -5/3 - 13/144 - 15/8; 1 + 13/36 - 5/16; -13/144 + 5/4; -5/16] (t - 0).
Example C108_complete_case : exists p F D, gspl x4 y4 3 (slope 1) (slope 2) false ExNone = Ok p /\ (forall t, pw_call p [] t = Ok (F t)) /\
  (forall t, -1 < t < 3 -> D 0%nat t = F t) /\ (forall k t, (k < 2)%nat -> -1 < t < 3 -> derivable_pt_lim (D k) t (D (S k) t)) /\
  RInt (fun t => D 2%nat t * D 2%nat t) (-1) 3 <= RInt (fun t => g5 2%nat t * g5 2%nat t) (-1) 3.
Proof.
  destruct gauss_meets_specs as (G1 & G2 & G3 & G4).
  destruct (proj2 (C53_cubic_succeeds inv_wit gbanded gdense G1 3 x4 y4 (slope 1) (slope 2) ExNone G3 (or_intror eq_refl) x4_incr)) as [p E].
  { apply good4; cbn; try lia; apply slope_fit. }
  assert (Hb : inb [] (ysh y4)) by constructor.
  destruct (C108_complete inv_wit gbanded gdense G1 2 x4 y4 (slope 1) (slope 2) [scalar 1] [scalar 2] ExNone p [] (le_n 2) x4_incr E Hb eq_refl eq_refl eq_refl eq_refl)
    as (F & F1 & D & D1 & D2 & L).
  exists p, F, D. split; [exact E|]. split; [exact F1|]. split; [exact D1|]. split; [exact D2|].
  destruct (L g5) as (_ & _ & _ & L4 & _ & _); auto.
  - intros t _. split; [intros k _; apply dD_shift|apply dD_cont].
  - intros i Hi. unfold g5, dD. rewrite tay_0. cbn in Hi. destruct i as [|[|[|[|i]]]]; try lia; cbn; numR; lra.
  - intros j Hj. assert (j = 1%nat) by lia. subst j. unfold g5, dD. cbn. numR. split; lra.
Qed.
(* one period, [-1, 3]: a polynomial of degree 4 with the values 1, 1, -3, 1 and equal slopes at the ends bends at least as much *)
Definition g4 : nat -> R -> R := fun k t => dD k [1; -10/3; -14/9; 14/9; -2/9] (t - 0).
Example C108_periodic_case : exists p F D, gspl x4 y4 3 (BcTuple []) (BcTuple []) true ExNone = Ok p /\ (forall t, pw_call p [] t = Ok (F t)) /\
  (forall t, -1 < t < 3 -> D 0%nat t = F t) /\ (forall k t, (k < 2)%nat -> -1 < t < 3 -> derivable_pt_lim (D k) t (D (S k) t)) /\
  RInt (fun t => D 2%nat t * D 2%nat t) (-1) 3 <= RInt (fun t => g4 2%nat t * g4 2%nat t) (-1) 3.
Proof.
  destruct gauss_meets_specs as (G1 & G2 & G3 & G4). assert (H2 : (2 <= length x4)%nat) by (cbn; lia).
  destruct (C56_odd_succeeds inv_wit gbanded gdense G1 G2 2 x4 y4 G3 G4 (le_n 2) x4_incr H2 eq_refl ltac:(cbn; lia)) as [p E].
  assert (Hb : inb [] (ysh y4)) by constructor.
  destruct (C108_periodic inv_wit gbanded gdense G1 G2 2 x4 y4 p [] (le_n 2) x4_incr H2 eq_refl ltac:(cbn; lia) E Hb) as (F & F1 & D & D1 & D2 & L).
  exists p, F, D. split; [exact E|]. split; [exact F1|]. split; [exact D1|]. split; [exact D2|].
  destruct (L g4) as (_ & _ & _ & L4 & _ & _); auto.
  - intros t _. split; [intros k _; apply dD_shift|apply dD_cont].
  - intros i Hi. unfold g4, dD. rewrite tay_0. cbn in Hi. destruct i as [|[|[|[|i]]]]; try lia; cbn; numR; lra.
  - intros j Hj. destruct j as [|[|j]]; try lia; unfold g4, dD; cbn; numR; lra.
Qed.
