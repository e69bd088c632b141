(* C58, C60: plfit returns the polyline of least chi2, and the argument handling of plfit and
   splfit. *)
From Coq Require Import List Arith ZArith Lia Bool Reals Lra.
From Verif Require Import Num PyBase NdArray NdLemmas Poly SpecPoly PolyProofs PwPoly PwBase PwDeriv PwCtor PropsCtor RSum SolvePer SolveProofs Gauss PropsSolve Spline
  SplineProofs SplineCore SplineSolve SplineFacts PropsSpline RunTests Fit RunFit FitProofs FitSetup.
Import ListNotations.
Local Open Scope R_scope.

(* --- C60: the arguments -------------------------------------------------------------------------- *)
(* knots given in decreasing order: as if reversed, with lo and hi and the pair extrap exchanged *)
Lemma fit_setup_decr xk (x : nd R) lo hi per ex : (2 <= length xk)%nat -> decr xk ->
  fit_setup xk x lo hi per ex = fit_setup (rev xk) x hi lo per (ex_rev ex).
Proof.
  intros Hx Hd. unfold fit_setup. rewrite rev_length.
  assert (G : ex_given (ex_rev ex) = ex_given ex) by (destruct ex; reflexivity). rewrite G, (orb_comm (nonempty hi)).
  destruct (per && _); [reflexivity|]. destruct (Nat.ltb_spec (length xk) 2); [lia|].
  assert (H1 : nltb (nth (length xk - 1) (rev xk) n0) (nth 0 (rev xk) n0) = false).
  { rewrite <- (rev_length xk) at 1. apply incr_ends; auto. rewrite rev_length; auto. }
  rewrite H1.
  assert (H2 : nltb (nth (length xk - 1) xk n0) (nth 0 xk n0) = true).
  { cbn [nltb NumR]. change (@n0 R NumR) with 0. destruct (Rltb_spec (nth (length xk - 1) xk 0) (nth 0 xk 0)) as [|A]; [reflexivity|].
    exfalso. apply A. pose proof (incr_lt (rev xk) 0 (length xk - 1) Hd ltac:(rewrite rev_length; lia)) as Q.
    rewrite !rev_nth in Q by lia. replace (length xk - S (length xk - 1))%nat with 0%nat in Q by lia. exact Q. }
  rewrite H2. reflexivity.
Qed.

Section C60.
  Variable inv : nat -> (nat -> nat -> R) -> (nat -> nat -> R).
  Variable sh : arr2 R -> arr2 R -> res (arr2 R).
  Variable sb : nat -> nat -> arr2 R -> arr2 R -> res (arr2 R).
  Variable s : arr2 R -> arr2 R -> res (arr2 R).
  Let plf := plfit inv sh sb s.
  Let splf := splfit sb s.
  Theorem C60_per_rejects : forall xk x y sigy n nc lo hi ex, lo <> [] \/ hi <> [] \/ ex <> ExNone ->
    plf xk x y sigy lo hi true ex = Err TypeError /\ splf xk x y sigy n nc lo hi true ex = Err TypeError.
  Proof using.
    intros xk x y sigy n nc lo hi ex H. unfold plf, splf, plfit, splfit, splfit_solve, fit_setup.
    replace (true && (nonempty lo || nonempty hi || ex_given ex)) with true; [split; reflexivity|].
    destruct H as [H|[H|H]]; [destruct lo|destruct hi|destruct ex]; try congruence; cbn; auto; destruct lo; try reflexivity; destruct hi; reflexivity.
  Qed.
  Theorem C60_short : forall xk x y sigy n nc lo hi per ex, (length xk < 2)%nat ->
    plf xk x y sigy lo hi per ex = Err TypeError /\ splf xk x y sigy n nc lo hi per ex = Err TypeError.
  Proof using.
    intros xk x y sigy n nc lo hi per ex H. unfold plf, splf, plfit, splfit, splfit_solve, fit_setup.
    destruct (per && _); [split; reflexivity|]. destruct (Nat.ltb_spec (length xk) 2); [split; reflexivity|lia].
  Qed.
  Theorem C60_decreasing : forall xk x y sigy n nc lo hi per ex, (2 <= length xk)%nat -> decr xk ->
    plf xk x y sigy lo hi per ex = plf (rev xk) x y sigy hi lo per (ex_rev ex) /\
    splf xk x y sigy n nc lo hi per ex = splf (rev xk) x y sigy n nc hi lo per (ex_rev ex).
  Proof using.
    intros xk x y sigy n nc lo hi per ex H1 H2. unfold plf, splf, plfit, splfit, splfit_solve. rewrite (fit_setup_decr xk) by auto. split; reflexivity.
  Qed.
  Theorem C60_outside_rejects : forall xk x y sigy n nc lo hi ex, incr xk -> (2 <= length xk)%nat ->
    (exists v, datum x v /\ v < nth 0 xk 0) /\ lo <> [] \/ (exists v, datum x v /\ nth (length xk - 1) xk 0 < v) /\ hi <> [] ->
    plf xk x y sigy lo hi false ex = Err ValueError /\ splf xk x y sigy n nc lo hi false ex = Err ValueError.
  Proof using.
    intros xk x y sigy n nc lo hi ex Hi Hx H.
    assert (Hsz : size (shp x) <> 0%nat).
    { destruct H as [[(v & (idx & D & _) & _) _]|[(v & (idx & D & _) & _) _]]; apply size_pos_inb in D; lia. }
    destruct (fit_setup_np xk x lo hi ex Hi Hx Hsz) as [E _]. specialize (E H).
    unfold plf, splf, plfit, splfit, splfit_solve. rewrite E. split; reflexivity.
  Qed.
End C60.
(* the knots used by both fits: the given ones and the smallest, largest point outside them *)
Theorem C60_extends : forall xk (x : nd R) lo hi ex, incr xk -> (2 <= length xk)%nat -> size (shp x) <> 0%nat ->
  (forall v, datum x v -> nth 0 xk 0 <= v) \/ lo = [] -> (forall v, datum x v -> v <= nth (length xk - 1) xk 0) \/ hi = [] ->
  exists K, fit_setup xk x lo hi false ex = Ok (K, x, lo, hi, ex) /\ fit_knots (datum x) xk K /\ incr K /\
    forall v, datum x v -> nth 0 K 0 <= v <= nth (length K - 1) K 0.
Proof.
  intros xk x lo hi ex Hi Hx Hs Hl Hh. destruct (fit_setup_np xk x lo hi ex Hi Hx Hs) as [_ H].
  destruct (H Hl Hh) as (K & HK & E). exists K. split; [exact E|]. split; [exact HK|].
  destruct (fit_knots_incr _ _ _ Hi Hx HK) as (A & B & C). auto.
Qed.
(* periodic fits move every point by whole periods into the interval of the knots *)
Theorem C60_periodic : forall xk (x : nd R), incr xk -> (2 <= length xk)%nat ->
  exists x', fit_setup xk x [] [] true ExNone = Ok (xk, x', [], [], ExNone) /\ shp x' = shp x /\
    forall i, exists k, get x' i = get x i + IZR k * (nth (length xk - 1) xk 0 - nth 0 xk 0) /\
      nth 0 xk 0 <= get x' i < nth (length xk - 1) xk 0.
Proof.
  intros xk x Hi Hx. eexists. split; [apply fit_setup_per; auto|]. split; [reflexivity|]. intros i. cbn [get nd_map].
  assert (T : 0 < nth (length xk - 1) xk 0 - nth 0 xk 0). { assert (nth 0 xk 0 < nth (length xk - 1) xk 0) by (apply incr_lt; auto; lia). lra. }
  destruct (nmod_period (get x i) (nth 0 xk 0) _ T) as (k & E1 & E2). exists k. split; [exact E1|]. lra.
Qed.
(* every point is assigned to an interval that contains it *)
Theorem C60_interval : forall K x y sigy lo hi ysh us d t, conform x y sigy lo hi ysh us -> (length ysh <= 1)%nat -> size ysh <> 0%nat ->
  incr K -> (2 <= length K)%nat -> fit_args K x y sigy lo hi = Ok d -> (t < fN d)%nat -> nth 0 K 0 <= fx d t <= nth (length K - 1) K 0 ->
  fx d t = dX x us t /\ (S (fix_ d t) < length K)%nat /\ nth (fix_ d t) K 0 <= fx d t <= nth (S (fix_ d t)) K 0.
Proof.
  intros K x y sigy lo hi ysh us d t C L Z Hi HK E Ht Hr.
  destruct (fit_args_ok K x y sigy lo hi ysh us C L Z) as (d' & E' & EN & _ & _ & _ & _ & FX & _). rewrite E in E'. injection E' as <-.
  rewrite EN in Ht. destruct (FX t Ht) as [F1 F2]. rewrite F2, F1 in *. split; [reflexivity|]. apply fit_ix_bounds; auto.
Qed.

(* --- C58 -------------------------------------------------------------------------------------------- *)
(* F is linear between the knots with values v at the knots *)
Definition polyline (K : list R) (v : nat -> R) (F : R -> R) : Prop :=
  forall q t, (S q < length K)%nat -> nth q K 0 <= t <= nth (S q) K 0 -> F t = seg K v q t.
Definition chi2 (N : nat) (X Y S : nat -> R) (F : R -> R) : R := rsum N (fun t => ((F (X t) - Y t) / S t) ^ 2).
(* v meets a boundary condition on its value *)
Definition meets (bc : list (nd R)) (comp : list nat) (v : R) : Prop :=
  match bc with [] => True | b :: _ => v = bget b comp end.
Definition periodic (T : R) (G : R -> R) : Prop := forall t, G (t + T) = G t.

Lemma periodic_IZR T G : periodic T G -> forall k t, G (t + IZR k * T) = G t.
Proof.
  intros H. assert (N : forall n t, G (t + INR n * T) = G t).
  { induction n as [|n IH]; intros t; [f_equal; cbn; ring|]. rewrite S_INR. replace (t + (INR n + 1) * T) with (t + INR n * T + T) by ring.
    rewrite H. apply IH. }
  intros k t. destruct (Z_le_gt_dec 0 k) as [Hk|Hk].
  - rewrite <- (Z2Nat.id k) by auto. rewrite <- INR_IZR_INZ. apply N.
  - rewrite <- (N (Z.to_nat (- k)) (t + IZR k * T)). f_equal. rewrite INR_IZR_INZ, Z2Nat.id, opp_IZR by lia. ring.
Qed.
Lemma seg_knot K v q r t : incr K -> (S q < length K)%nat -> (S r < length K)%nat ->
  nth q K 0 <= t <= nth (S q) K 0 -> nth r K 0 <= t <= nth (S r) K 0 -> seg K v q t = seg K v r t.
Proof.
  intros Hi.
  assert (A : forall q r, (q < r)%nat -> (S q < length K)%nat -> (S r < length K)%nat ->
    nth q K 0 <= t <= nth (S q) K 0 -> nth r K 0 <= t <= nth (S r) K 0 -> seg K v q t = seg K v r t).
  { clear q r. intros q r L Hq Hr B1 B2. destruct (Nat.eq_dec r (S q)) as [->|].
    - assert (t = nth (S q) K 0) as -> by lra. unfold seg. pose proof (Hi q Hq). pose proof (Hi (S q) Hr). field. lra.
    - pose proof (incr_lt K (S q) r Hi ltac:(lia)). lra. }
  intros Hq Hr B1 B2. destruct (Nat.lt_trichotomy q r) as [|[->|]]; [auto|reflexivity|]. symmetry. auto.
Qed.
Lemma pl_at_seg K (v : nat -> R) x i : incr K -> (S i < length K)%nat ->
  (1 - (x - nth i K 0) * (1 / dxs K i)) * v i + (x - nth i K 0) * (1 / dxs K i) * v (S i) = seg K v i x.
Proof. intros Hi H. unfold seg, dxs. change (@n0 R NumR) with 0. replace (i + 1)%nat with (S i) by lia. numR. pose proof (Hi i H). field. lra. Qed.
(* the polyline itself *)
Definition plfun (K : list R) (v : nat -> R) (t : R) : R := seg K v (fit_ix K t) t.
Lemma plfun_polyline K v : incr K -> (2 <= length K)%nat -> polyline K v (plfun K v).
Proof.
  intros Hi HK q t Hq Ht. destruct (fit_ix_bounds K t Hi HK) as [A B].
  - pose proof (incr_le K 0 q Hi ltac:(lia)). pose proof (incr_le K (S q) (length K - 1) Hi ltac:(lia)). lra.
  - apply seg_knot; auto.
Qed.

Section C58.
  Variable inv : nat -> (nat -> nat -> R) -> (nat -> nat -> R).
  Variable sh : arr2 R -> arr2 R -> res (arr2 R).
  Variable sb : nat -> nat -> arr2 R -> arr2 R -> res (arr2 R).
  Variable s : arr2 R -> arr2 R -> res (arr2 R).
  Hypothesis Hinv : inv_spec inv.
  Hypothesis Hsh : solveh_spec sh.
  Hypothesis Hsb : banded_spec sb.
  Hypothesis Hs : dense_spec s.
  Let plf := plfit inv sh sb s.

  Section Row.
    Variables (K : list R) (d : @fdata R) (i : nat).
    Hypothesis Hi : incr K.
    Hypothesis HK : (2 <= length K)%nat.
    Hypothesis Hix : forall t, (t < fN d)%nat -> (S (fix_ d t) < length K)%nat /\ nth (fix_ d t) K 0 <= fx d t <= nth (S (fix_ d t)) K 0.
    Hypothesis Hsig : forall t, (t < fN d)%nat -> fs d i t <> 0.
    Let w t := 1 / (fs d i t * fs d i t).
    Let p t := (fx d t - nth (fix_ d t) K 0) * (1 / dxs K (fix_ d t)).
    Let q t := 1 - p t.
    Let Hix' : forall t, (t < fN d)%nat -> (S (fix_ d t) < length K)%nat.
    Proof using Hix. intros t Ht. apply Hix; auto. Qed.
    Lemma w_pos t : (t < fN d)%nat -> 0 < w t.
    Proof using Hsig.
      intros Ht. unfold w. specialize (Hsig t Ht). unfold Rdiv. rewrite Rmult_1_l. apply Rinv_0_lt_compat.
      apply Rlt_0_sqr in Hsig. exact Hsig.
    Qed.
    Lemma row_unfold per : plfit_row sh sb s K d per i =
      bind (bc_at (flo d) 0 i) (fun lo => bind (bc_at (fhi d) 0 i) (fun hi =>
        plfitter sh sb s (length K) (pl_diag (fN d) (fix_ d) w p q) (pl_sup (fN d) (fix_ d) w p q) (pl_b (fN d) (fix_ d) w p q (fy d i)) lo hi per)).
    Proof using. reflexivity. Qed.
    Lemma at_seg v t : (t < fN d)%nat -> pl_at (fix_ d) p q v t = seg K v (fix_ d t) (fx d t).
    Proof using Hi Hix. intros Ht. apply (pl_at_seg K v (fx d t) (fix_ d t) Hi). apply Hix; auto. Qed.
    Lemma at_poly v F t : polyline K v F -> (t < fN d)%nat -> pl_at (fix_ d) p q v t = F (fx d t).
    Proof using Hi Hix. intros H Ht. rewrite at_seg by auto. symmetry. apply H; apply Hix; auto. Qed.
    Lemma chi_w v F : polyline K v F ->
      rsum (fN d) (fun t => w t * ((pl_at (fix_ d) p q v t - fy d i t) * (pl_at (fix_ d) p q v t - fy d i t))) =
      chi2 (fN d) (fx d) (fy d i) (fs d i) F.
    Proof using Hi Hix Hsig.
      intros H. apply rsum_ext. intros t Ht. rewrite (at_poly v F t H Ht). unfold w. specialize (Hsig t Ht). field. auto.
    Qed.
    Lemma row_optimal lo hi v : bc_at (flo d) 0 i = Ok lo -> bc_at (fhi d) 0 i = Ok hi ->
      plfit_row sh sb s K d false i = Ok v ->
      (forall u, lo = Some u -> v 0%nat = u) /\ (forall u, hi = Some u -> v (length K - 1)%nat = u) /\
      forall F v' G, polyline K v F -> polyline K v' G -> (forall u, lo = Some u -> v' 0%nat = u) -> (forall u, hi = Some u -> v' (length K - 1)%nat = u) ->
        chi2 (fN d) (fx d) (fy d i) (fs d i) F <= chi2 (fN d) (fx d) (fy d i) (fs d i) G.
    Proof using Hi HK Hix Hsig Hsh.
      intros El Eh E. rewrite row_unfold, El in E. cbn [bind] in E. rewrite Eh in E. cbn [bind] in E.
      apply plfitter_ok in E as (A & B & C); auto. split; [exact A|]. split; [exact B|].
      intros F v' G HF HG HA HB. rewrite <- (chi_w v F HF), <- (chi_w v' G HG). apply (pl_optimal (fN d) (length K)).
      - exact Hix'.
      - intros t Ht. apply Rlt_le, w_pos; auto.
      - apply rsum_zero. intros k Hk.
        destruct (Nat.eq_dec k 0) as [->|Hk0].
        + destruct lo as [u|]; [rewrite (HA u eq_refl), (A u eq_refl); ring|]. rewrite C by (auto; lia). ring.
        + destruct (Nat.eq_dec k (length K - 1)) as [->|Hk1].
          * destruct hi as [u|]; [rewrite (HB u eq_refl), (B u eq_refl); ring|]. rewrite C by (auto; lia). ring.
          * rewrite C by (auto; lia). ring.
    Qed.
    Lemma row_optimal_per v : flo d = [] -> fhi d = [] -> plfit_row sh sb s K d true i = Ok v ->
      v (length K - 1)%nat = v 0%nat /\
      forall F v' G, polyline K v F -> polyline K v' G -> v' (length K - 1)%nat = v' 0%nat ->
        chi2 (fN d) (fx d) (fy d i) (fs d i) F <= chi2 (fN d) (fx d) (fy d i) (fs d i) G.
    Proof using Hi HK Hix Hsig Hsb Hs.
      intros El Eh E. rewrite row_unfold, El, Eh in E. cbn [bind bc_at nth_error] in E.
      apply plfitter_per_ok in E as (L & A & B & C); auto. split; [exact A|].
      intros F v' G HF HG HA. rewrite <- (chi_w v F HF), <- (chi_w v' G HG). apply (pl_optimal (fN d) (length K)).
      - exact Hix'.
      - intros t Ht. apply Rlt_le, w_pos; auto.
      - rewrite (rsum_two (length K) 0 (length K - 1)); try lia.
        + rewrite HA, A. set (a := trow _ _ _ _ 0) in *. set (b := trow _ _ _ _ (length K - 1)) in *.
          replace ((v' 0%nat - v 0%nat) * (a - pl_b (fN d) (fix_ d) w p q (fy d i) 0) + (v' 0%nat - v 0%nat) * (b - pl_b (fN d) (fix_ d) w p q (fy d i) (length K - 1)))
            with ((v' 0%nat - v 0%nat) * (a + b - (pl_b (fN d) (fix_ d) w p q (fy d i) 0 + pl_b (fN d) (fix_ d) w p q (fy d i) (length K - 1)))) by ring.
          rewrite B. ring.
        + intros k Hk H1 H2. rewrite C by lia. ring.
    Qed.
    (* solvable when only the zero polyline vanishes at all points *)
    Lemma row_solvable lo hi : solveh_complete sh -> bc_at (flo d) 0 i = Ok lo -> bc_at (fhi d) 0 i = Ok hi ->
      (lo = None \/ hi = None \/ 3 <= length K)%nat ->
      (forall v, (lo <> None -> v 0%nat = 0) -> (hi <> None -> v (length K - 1)%nat = 0) ->
         (forall t, (t < fN d)%nat -> seg K v (fix_ d t) (fx d t) = 0) -> forall k, (k < length K)%nat -> v k = 0) ->
      exists v, plfit_row sh sb s K d false i = Ok v.
    Proof using Hi HK Hix Hsig.
      intros Hc El Eh Hlh Hdet. rewrite row_unfold, El. cbn [bind]. rewrite Eh. cbn [bind].
      apply plfitter_complete; auto. intros v V1 V2 (k & Hk & Hv). rewrite pl_quad by exact Hix'.
      assert (P : forall t, (t < fN d)%nat -> 0 <= w t * (pl_at (fix_ d) p q v t * pl_at (fix_ d) p q v t)).
      { intros t Ht. apply Rmult_le_pos; [apply Rlt_le, w_pos; auto|apply Rle_0_sqr]. }
      destruct (rsum_nonneg _ _ P) as [Q|Q]; [exact Q|]. exfalso. apply Hv, Hdet; auto. intros t Ht.
      pose proof (rsum_nonneg_0 _ _ P (eq_sym Q) t Ht) as Z. cbv beta in Z. rewrite at_seg in Z by auto. pose proof (w_pos t Ht).
      apply Rmult_integral in Z as [Z|Z]; [lra|]. apply Rmult_integral in Z as [Z|Z]; exact Z.
    Qed.
    Lemma row_solvable_per : banded_complete sb -> dense_complete s -> flo d = [] -> fhi d = [] -> (3 <= length K)%nat ->
      (forall v, v (length K - 1)%nat = v 0%nat -> (forall t, (t < fN d)%nat -> seg K v (fix_ d t) (fx d t) = 0) -> forall k, (k < length K)%nat -> v k = 0) ->
      exists v, plfit_row sh sb s K d true i = Ok v.
    Proof using Hi HK Hix Hsig Hsb Hs.
      intros C1 C2 El Eh H3 Hdet. rewrite row_unfold, El, Eh. cbn [bind bc_at nth_error].
      apply plfitter_per_complete; auto. intros v V (k & Hk & Hv). rewrite pl_quad by exact Hix'.
      set (at_ := pl_at (fix_ d) p q v).
      assert (P : forall t, (t < fN d)%nat -> 0 <= w t * (at_ t * at_ t)).
      { intros t Ht. apply Rmult_le_pos; [apply Rlt_le, w_pos; auto|apply Rle_0_sqr]. }
      split.
      - destruct (rsum_nonneg _ _ P) as [Q|Q]; [exact Q|]. exfalso. apply Hv, Hdet; auto. intros t Ht.
        pose proof (rsum_nonneg_0 _ _ P (eq_sym Q) t Ht) as Z. cbv beta in Z. unfold at_ in Z. rewrite at_seg in Z by auto. pose proof (w_pos t Ht).
        apply Rmult_integral in Z as [Z|Z]; [lra|]. apply Rmult_integral in Z as [Z|Z]; exact Z.
      - set (m := (length K - 2)%nat). unfold pl_sup. rewrite bincount_R.
        set (f := fun t => if (fix_ d t =? m)%nat then w t * (q t * q t * (v m * v m) + p t * p t * (v 0%nat * v 0%nat)) else w t * (at_ t * at_ t)).
        assert (EF : rsum (fN d) (fun t => w t * (at_ t * at_ t)) -
          2 * rsum (fN d) (fun t => if (fix_ d t =? m)%nat then w t * p t * q t else 0) * v m * v 0%nat = rsum (fN d) f).
        { replace (2 * rsum (fN d) (fun t => if (fix_ d t =? m)%nat then w t * p t * q t else 0) * v m * v 0%nat) with
            (rsum (fN d) (fun t => (if (fix_ d t =? m)%nat then w t * p t * q t else 0) * (2 * v m * v 0%nat))) by (rewrite rsum_scal_r; ring).
          rewrite <- rsum_minus. apply rsum_ext. intros t Ht. unfold f, at_, pl_at. destruct (Nat.eqb_spec (fix_ d t) m) as [e|e]; [|ring].
          rewrite e. replace (v (S m)) with (v 0%nat) by (rewrite <- V; f_equal; unfold m; lia). ring. }
        rewrite EF.
        assert (Pf : forall t, (t < fN d)%nat -> 0 <= f t).
        { intros t Ht. unfold f. destruct (fix_ d t =? m)%nat; [|auto]. pose proof (w_pos t Ht). apply Rmult_le_pos; [lra|].
          pose proof (Rle_0_sqr (q t * v m)). pose proof (Rle_0_sqr (p t * v 0%nat)). unfold Rsqr in *. lra. }
        destruct (rsum_nonneg _ _ Pf) as [Q|Q]; [exact Q|]. exfalso. apply Hv, Hdet; auto. intros t Ht.
        pose proof (rsum_nonneg_0 _ _ Pf (eq_sym Q) t Ht) as Z. cbv beta in Z. rewrite <- at_seg by auto. fold at_. pose proof (w_pos t Ht). unfold f in Z.
        destruct (Nat.eqb_spec (fix_ d t) m) as [e|e].
        + apply Rmult_integral in Z as [Z|Z]; [lra|].
          assert (q t * v m = 0 /\ p t * v 0%nat = 0) as [Z1 Z2].
          { pose proof (Rle_0_sqr (q t * v m)) as S1. pose proof (Rle_0_sqr (p t * v 0%nat)) as S2. unfold Rsqr in *.
            split; apply Rsqr_0_uniq; unfold Rsqr; nra. }
          unfold at_, pl_at. rewrite e. replace (v (S m)) with (v 0%nat) by (rewrite <- V; f_equal; unfold m; lia). lra.
        + apply Rmult_integral in Z as [Z|Z]; [lra|]. apply Rmult_integral in Z as [Z|Z]; exact Z.
    Qed.
  End Row.

  Lemma dX_datum x y sigy lo hi ysh us t : conform x y sigy lo hi ysh us -> (t < size us)%nat -> datum x (dX x us t).
  Proof using.
    intros [(ts & _ & _ & B) _ _ _] Ht. apply bshape_bto in B as [_ B]. exists (bidx (shp x) (unravel us t)).
    split; [|reflexivity]. apply (inb_bidx _ us); auto. apply inb_unravel; auto.
  Qed.
  Lemma bc_0 l fl ysh comp : length fl = length l -> inb comp ysh ->
    (forall m comp, (m < length l)%nat -> inb comp ysh -> nth_error (nth m fl []) (ravel ysh comp) = Some (bget (nth m l (full [] 0)) comp)) ->
    bc_at fl 0 (ravel ysh comp) = Ok (match l with [] => None | b :: _ => Some (bget b comp) end).
  Proof using.
    intros L Hb H. destruct l as [|b l], fl as [|c fl]; cbn in L; try lia; cbn [bc_at nth_error]; [reflexivity|].
    pose proof (H 0%nat comp ltac:(cbn; lia) Hb) as Q. cbn [nth] in Q. rewrite Q. reflexivity.
  Qed.
  Lemma meets_iff l comp v : meets l comp v <-> (forall u, (match l with [] => None | b :: _ => Some (bget b comp) end) = Some u -> v = u).
  Proof using. destruct l as [|b l]; cbn; split; [discriminate|auto|intros -> u [= <-]; reflexivity|intros H; apply H; reflexivity]. Qed.
  Lemma chi2_ext N X X' Y Y' S S' F : (forall t, (t < N)%nat -> X t = X' t /\ Y t = Y' t /\ S t = S' t) -> chi2 N X Y S F = chi2 N X' Y' S' F.
  Proof using. intros H. apply rsum_ext. intros t Ht. destruct (H t Ht) as (-> & -> & ->). reflexivity. Qed.

  Section Data.
    Variables (x y : nd R) (sigy : option (nd R)) (lo hi : list (nd R)) (ysh us : list nat).
    Hypothesis Hcf : conform x y sigy lo hi ysh us.
    Hypothesis Hsz : size ysh <> 0%nat.
    Hypothesis Hsig : forall comp t, inb comp ysh -> (t < size us)%nat -> dS sigy us comp t <> 0.
    Definition rel2 (d : @fdata R) (K : list R) : Prop := fN d = size us /\ fm d = size ysh /\ fysh d = ysh /\
      length (flo d) = length lo /\ length (fhi d) = length hi /\
      (forall t, (t < size us)%nat -> fx d t = dX x us t /\ fix_ d t = fit_ix K (dX x us t)) /\
      (forall comp t, inb comp ysh -> (t < size us)%nat ->
         fy d (ravel ysh comp) t = dY y us comp t /\ fs d (ravel ysh comp) t = dS sigy us comp t) /\
      (forall m comp, (m < length lo)%nat -> inb comp ysh ->
         nth_error (nth m (flo d) []) (ravel ysh comp) = Some (bget (nth m lo (full [] 0)) comp)) /\
      (forall m comp, (m < length hi)%nat -> inb comp ysh ->
         nth_error (nth m (fhi d) []) (ravel ysh comp) = Some (bget (nth m hi (full [] 0)) comp)).
    Lemma args_rel K d : fit_args K x y sigy lo hi = Ok d -> (length ysh <= 1)%nat /\ rel2 d K.
    Proof using Hcf Hsz.
      intros E. assert (L : (length ysh <= 1)%nat).
      { destruct (le_lt_dec (length ysh) 1) as [|L]; [auto|]. rewrite (fit_args_rank K x y sigy lo hi ysh us) in E by auto. discriminate. }
      split; [exact L|]. destruct (fit_args_ok K x y sigy lo hi ysh us Hcf L Hsz) as (d' & E' & R). rewrite E in E'. injection E' as <-. exact R.
    Qed.
    Lemma ix_rel K d : rel2 d K -> incr K -> (2 <= length K)%nat -> (forall t, (t < size us)%nat -> nth 0 K 0 <= dX x us t <= nth (length K - 1) K 0) ->
      forall t, (t < fN d)%nat -> (S (fix_ d t) < length K)%nat /\ nth (fix_ d t) K 0 <= fx d t <= nth (S (fix_ d t)) K 0.
    Proof using.
      intros (EN & _ & _ & _ & _ & FX & _) Hi HK Hr t Ht. rewrite EN in Ht. destruct (FX t Ht) as [-> ->]. apply fit_ix_bounds; auto.
    Qed.
  End Data.

  (* Whenever plfit returns: the knots of the result are the given ones, extended by the extreme
     data; component comp is a polyline F on them which meets the boundary conditions, and no
     other polyline on these knots that meets them has a smaller chi2. *)
  Theorem C58_plfit : forall xk x y sigy lo hi ex e f p ysh us,
    incr xk -> (2 <= length xk)%nat -> conform x y sigy lo hi ysh us -> size ysh <> 0%nat ->
    (forall comp t, inb comp ysh -> (t < size us)%nat -> dS sigy us comp t <> 0) ->
    ex_pair 1 ex = (e, f) -> (0 <= e)%Z -> plf xk x y sigy lo hi false ex = Ok p ->
    exists K, fit_knots (datum x) xk K /\ pxk p = K /\ forall comp, inb comp ysh -> exists F v,
      (forall t, pw_call p comp t = Ok (F t)) /\ polyline K v F /\
      meets lo comp (v 0%nat) /\ meets hi comp (v (length K - 1)%nat) /\
      forall v' G, polyline K v' G -> meets lo comp (v' 0%nat) -> meets hi comp (v' (length K - 1)%nat) ->
        chi2 (size us) (dX x us) (dY y us comp) (dS sigy us comp) F <= chi2 (size us) (dX x us) (dY y us comp) (dS sigy us comp) G.
  Proof using Hinv Hsh.
    intros xk x y sigy lo hi ex e f p ysh us Hi Hx Hcf Hsz Hsig He He0 E. unfold plf, plfit in E.
    assert (Sx : size (shp x) <> 0%nat).
    { intros Z. unfold fit_setup in E. cbn [andb] in E. destruct (Nat.ltb_spec (length xk) 2); [lia|]. rewrite incr_ends in E by auto.
      pose proof (flat_length x) as L. rewrite Z in L. destruct (flat x); [|discriminate L]. discriminate E. }
    apply bind_ok in E as (r & E1 & E2). destruct (fit_setup_np xk x lo hi ex Hi Hx Sx) as [A1 A2].
    assert (GK : exists K, fit_knots (datum x) xk K /\ r = (K, x, lo, hi, ex)).
    { destruct A2 as (K & HK & EK).
      - destruct lo; [right; reflexivity|left]. intros v Dv. apply Rnot_lt_le. intros L. rewrite A1 in E1; [discriminate|].
        left. split; [exists v; auto|discriminate].
      - destruct hi; [right; reflexivity|left]. intros v Dv. apply Rnot_lt_le. intros L. rewrite A1 in E1; [discriminate|].
        right. split; [exists v; auto|discriminate].
      - exists K. rewrite E1 in EK. injection EK as ->. auto. }
    destruct GK as (K & HK & ->). clear A1 A2 E1. exists K. split; [exact HK|].
    destruct (fit_knots_incr _ _ _ Hi Hx HK) as (KI & KL & KR).
    destruct ((1 <? length lo)%nat || (1 <? length hi)%nat); [discriminate|].
    apply bind_ok in E2 as (d & Ed & E2). apply bind_ok in E2 as (yk & Eyk & E2).
    destruct (args_rel x y sigy lo hi ysh us Hcf Hsz K d Ed) as (Ly & R).
    assert (IX := ix_rel x y sigy lo hi ysh us K d R KI KL ltac:(intros t Ht; apply KR; eapply dX_datum; eauto)).
    destruct R as (EN & EM & ES & L1 & L2 & FX & FY & BL & BH). rewrite EM, ES in E2.
    destruct (_ =? _)%nat; [|discriminate]. set (yy := YArr _ _ _) in E2.
    destruct (pline_result inv sb s Hinv K yy ex e f KI KL eq_refl Hsz He) as (p1 & E3 & HR). rewrite E3 in E2. injection E2 as ->.
    destruct (C57_pline inv sb s Hinv K yy ex e f KI KL eq_refl Hsz He) as (p2 & E4 & HP). rewrite E3 in E4. injection E4 as <-.
    split; [apply HR|]. intros comp Hb. set (i := ravel ysh comp). set (v := nth i yk (fun _ => 0)).
    exists (pw_val p comp), v.
    assert (Hir : (i < size ysh)%nat) by (apply ravel_lt; auto).
    assert (ROW : plfit_row sh sb s K d false i = Ok v).
    { pose proof (mapM_nth _ _ _ i 0%nat (fun _ => 0) Eyk) as Q. rewrite seq_length in Q. specialize (Q ltac:(lia)). rewrite seq_nth in Q by lia. exact Q. }
    assert (SG : forall t, (t < fN d)%nat -> fs d i t <> 0).
    { intros t Ht. rewrite EN in Ht. destruct (FY comp t Hb Ht) as [_ Q]. unfold i. rewrite Q. apply Hsig; auto. }
    destruct (row_optimal K d i KI KL IX SG _ _ v (bc_0 lo (flo d) ysh comp L1 Hb BL) (bc_0 hi (fhi d) ysh comp L2 Hb BH) ROW) as (O1 & O2 & O3).
    assert (CALL : forall t, pw_call p comp t = Ok (pw_val p comp t)) by (intros t; eapply (sf_call 1 K ysh e f); exact HR).
    assert (PL : polyline K v (pw_val p comp)).
    { intros q t Hq Ht. destruct (HP comp Hb) as [Q _]. specialize (Q q t Hq Ht (or_introl He0)). rewrite CALL in Q. injection Q as ->. reflexivity. }
    split; [exact CALL|]. split; [exact PL|]. split; [apply meets_iff; exact O1|]. split; [apply meets_iff; exact O2|].
    intros v' G HG M1 M2. rewrite <- EN.
    assert (EQ : forall t, (t < fN d)%nat -> dX x us t = fx d t /\ dY y us comp t = fy d i t /\ dS sigy us comp t = fs d i t).
    { intros t Ht. rewrite EN in Ht. destruct (FX t Ht) as [-> _]. destruct (FY comp t Hb Ht) as [Q1 Q2]. unfold i. rewrite Q1, Q2. auto. }
    rewrite (chi2_ext _ _ _ _ _ _ _ (pw_val p comp) EQ), (chi2_ext _ _ _ _ _ _ _ G EQ).
    apply (O3 _ v' G PL HG); apply meets_iff; auto.
  Qed.

  (* plfit does return when the solver does for positive definite matrices and the data determine
     the polyline: only the zero polyline vanishes at the boundaries with conditions and at all
     points *)
  Definition determines (N : nat) (X : nat -> R) (K : list R) (lo hi : list (nd R)) : Prop :=
    forall v, (lo <> [] -> v 0%nat = 0) -> (hi <> [] -> v (length K - 1)%nat = 0) ->
      (forall F, polyline K v F -> forall t, (t < N)%nat -> F (X t) = 0) -> forall k, (k < length K)%nat -> v k = 0.
  Theorem C58_exists : forall xk x y sigy lo hi ex ysh us,
    solveh_complete sh -> incr xk -> (2 <= length xk)%nat -> conform x y sigy lo hi ysh us -> (length ysh <= 1)%nat -> size ysh <> 0%nat ->
    (forall comp t, inb comp ysh -> (t < size us)%nat -> dS sigy us comp t <> 0) ->
    size (shp x) <> 0%nat -> (length lo <= 1)%nat -> (length hi <= 1)%nat ->
    (forall v, datum x v -> nth 0 xk 0 <= v) \/ lo = [] -> (forall v, datum x v -> v <= nth (length xk - 1) xk 0) \/ hi = [] ->
    lo = [] \/ hi = [] \/ (3 <= length xk)%nat ->
    (forall K, fit_knots (datum x) xk K -> determines (size us) (dX x us) K lo hi) ->
    exists p, plf xk x y sigy lo hi false ex = Ok p.
  Proof using Hinv.
    intros xk x y sigy lo hi ex ysh us Hc Hi Hx Hcf Ly Hsz Hsig Sx Ll Lh Bl Bh H3 Hdet. unfold plf, plfit.
    destruct (fit_setup_np xk x lo hi ex Hi Hx Sx) as [_ A2]. destruct (A2 Bl Bh) as (K & HK & EK). rewrite EK. cbn [bind].
    destruct (Nat.ltb_spec 1 (length lo)); [lia|]. destruct (Nat.ltb_spec 1 (length hi)); [lia|]. cbn [orb].
    destruct (fit_knots_incr _ _ _ Hi Hx HK) as (KI & KL & KR).
    destruct (fit_args_ok K x y sigy lo hi ysh us Hcf Ly Hsz) as (d & Ed & R). rewrite Ed. cbn [bind].
    assert (IX := ix_rel x y sigy lo hi ysh us K d R KI KL ltac:(intros t Ht; apply KR; eapply dX_datum; eauto)).
    destruct R as (EN & EM & ES & L1 & L2 & FX & FY & BL & BH).
    assert (ROWS : exists yk, mapM (plfit_row sh sb s K d false) (seq 0 (fm d)) = Ok yk).
    { apply mapM_total. intros i Hr. apply in_seq in Hr. rewrite EM in Hr. destruct Hr as [_ Hr]. cbn in Hr. rewrite <- (ravel_unravel ysh i Hr).
      assert (Hb : inb (unravel ysh i) ysh) by (apply inb_unravel; auto). set (comp := unravel ysh i) in *.
      assert (SG : forall t, (t < fN d)%nat -> fs d (ravel ysh comp) t <> 0).
      { intros t Ht. rewrite EN in Ht. destruct (FY comp t Hb Ht) as [_ Q]. rewrite Q. apply Hsig; auto. }
      apply (row_solvable K d (ravel ysh comp) KI KL IX SG _ _ Hc (bc_0 lo (flo d) ysh comp L1 Hb BL) (bc_0 hi (fhi d) ysh comp L2 Hb BH)).
      - destruct lo; [left; reflexivity|]. destruct hi; [right; left; reflexivity|]. right; right.
        destruct H3 as [Q|[Q|Q]]; try discriminate Q. destruct HK as (a & b & -> & _). rewrite !app_length. lia.
      - intros v V1 V2 Z k Hk. apply (Hdet K HK v); auto.
        + intros Q. apply V1. destruct lo; [congruence|discriminate].
        + intros Q. apply V2. destruct hi; [congruence|discriminate].
        + intros F HF t Ht. rewrite <- EN in Ht. specialize (Z t Ht). destruct (IX t Ht) as [I1 I2]. rewrite EN in Ht. destruct (FX t Ht) as [Q _].
          rewrite <- Q. rewrite (HF _ _ I1 I2). exact Z. }
    destruct ROWS as (yk & ->). cbn [bind]. rewrite EM, ES.
    replace (size ysh * length K =? size (ysh ++ [length K]))%nat with true by (symmetry; apply Nat.eqb_eq; rewrite size_app'; cbn; lia).
    destruct (ex_pair 1 ex) as [e f] eqn:He. set (yy := YArr _ _ _).
    destruct (pline_result inv sb s Hinv K yy ex e f KI KL eq_refl Hsz He) as (p & -> & _). exists p. reflexivity.
  Qed.

  (* Periodic fits: the result is a polyline of period T = xk[-1]-xk[0], and no other such
     polyline has a smaller chi2 with the data as given *)
  Theorem C58_periodic : forall xk x y sigy p ysh us,
    incr xk -> (2 <= length xk)%nat -> conform x y sigy [] [] ysh us -> size ysh <> 0%nat ->
    (forall comp t, inb comp ysh -> (t < size us)%nat -> dS sigy us comp t <> 0) ->
    plf xk x y sigy [] [] true ExNone = Ok p ->
    let T := nth (length xk - 1) xk 0 - nth 0 xk 0 in
    pxk p = xk /\ (3 <= length xk)%nat /\ forall comp, inb comp ysh -> exists F v,
      (forall t, pw_call p comp t = Ok (F t)) /\ polyline xk v F /\ periodic T F /\
      forall v' G, polyline xk v' G -> periodic T G ->
        chi2 (size us) (dX x us) (dY y us comp) (dS sigy us comp) F <= chi2 (size us) (dX x us) (dY y us comp) (dS sigy us comp) G.
  Proof using Hinv Hsb Hs.
    intros xk x y sigy p ysh us Hi Hx Hcf Hsz Hsig E T. unfold plf, plfit in E. rewrite fit_setup_per in E by auto. cbn [bind] in E. fold T in E.
    change ((1 <? length (@nil (nd R)))%nat || (1 <? length (@nil (nd R)))%nat) with false in E. cbv iota in E.
    set (red := fun v => nmod (v - nth 0 xk 0) T + nth 0 xk 0) in E. set (x' := nd_map red x) in E.
    assert (HT : 0 < T) by (unfold T; pose proof (incr_lt xk 0 (length xk - 1) Hi ltac:(lia)); lra).
    assert (Hcf' : conform x' y sigy [] [] ysh us) by (destruct Hcf; constructor; auto).
    assert (RX : forall t, dX x' us t = red (dX x us t)) by reflexivity.
    apply bind_ok in E as (d & Ed & E2). apply bind_ok in E2 as (yk & Eyk & E2).
    destruct (args_rel x' y sigy [] [] ysh us Hcf' Hsz xk d Ed) as (Ly & R).
    assert (IX := ix_rel x' y sigy [] [] ysh us xk d R Hi Hx).
    specialize (IX ltac:(intros t Ht; rewrite RX; destruct (nmod_period (dX x us t) (nth 0 xk 0) T HT) as (k & _ & Q); unfold red, T in *; lra)).
    destruct R as (EN & EM & ES & L1 & L2 & FX & FY & BL & BH). rewrite EM, ES in E2.
    assert (FL : flo d = []) by (destruct (flo d); [reflexivity|discriminate L1]).
    assert (FH : fhi d = []) by (destruct (fhi d); [reflexivity|discriminate L2]).
    destruct (_ =? _)%nat; [|discriminate]. set (yy := YArr _ _ _) in E2.
    destruct (per_pline_result inv sb s Hinv xk yy Hi Hx eq_refl Hsz) as (p1 & r & E3 & W & P1 & P2 & P3 & P4 & _). rewrite E3 in E2. injection E2 as ->.
    destruct (C57_periodic inv sb s Hinv xk yy Hi Hx eq_refl Hsz) as (p2 & E4 & HP). rewrite E3 in E4. injection E4 as <-.
    split; [exact P4|].
    assert (ROW : forall comp, inb comp ysh -> plfit_row sh sb s xk d true (ravel ysh comp) = Ok (nth (ravel ysh comp) yk (fun _ => 0))).
    { intros comp Hb. pose proof (ravel_lt _ _ Hb) as Hir.
      pose proof (mapM_nth _ _ _ (ravel ysh comp) 0%nat (fun _ => 0) Eyk) as Q. rewrite seq_length in Q. specialize (Q ltac:(lia)). rewrite seq_nth in Q by lia. exact Q. }
    assert (H3 : (3 <= length xk)%nat).
    { specialize (ROW (unravel ysh 0) (inb_unravel ysh 0 ltac:(lia))). rewrite row_unfold, FL, FH in ROW. cbn [bind bc_at nth_error] in ROW.
      apply plfitter_per_ok in ROW; auto. apply ROW. }
    split; [exact H3|]. intros comp Hb. set (i := ravel ysh comp). set (v := nth i yk (fun _ => 0)).
    exists (pw_val p comp), v.
    assert (SG : forall t, (t < fN d)%nat -> fs d i t <> 0).
    { intros t Ht. rewrite EN in Ht. destruct (FY comp t Hb Ht) as [_ Q]. unfold i. rewrite Q. apply Hsig; auto. }
    destruct (row_optimal_per xk d i Hi Hx IX SG v FL FH (ROW comp Hb)) as (O1 & O2).
    assert (CALL : forall t, pw_call p comp t = Ok (pw_val p comp t)) by (intros t; unfold pw_call; rewrite P3; reflexivity).
    destruct (HP comp Hb) as [PT SGM].
    assert (PER : periodic T (pw_val p comp)).
    { intros t. specialize (PT t). rewrite !CALL in PT. injection PT as PT. exact PT. }
    assert (PL : polyline xk v (pw_val p comp)).
    { intros q t Hq Ht. specialize (SGM q t Hq Ht). rewrite CALL in SGM. injection SGM as ->. cbn [yval yy]. fold i v.
      unfold seg. destruct (Nat.eqb_spec q (length xk - 1)); [lia|]. destruct (Nat.eqb_spec (S q) (length xk - 1)) as [e|e]; [|reflexivity].
      rewrite e, O1. reflexivity. }
    split; [exact CALL|]. split; [exact PL|]. split; [exact PER|].
    intros v' G HG HGT. rewrite <- EN.
    assert (EQ : forall G, periodic T G -> chi2 (fN d) (dX x us) (dY y us comp) (dS sigy us comp) G = chi2 (fN d) (fx d) (fy d i) (fs d i) G).
    { intros G' HG'. apply rsum_ext. intros t Ht. rewrite EN in Ht. destruct (FX t Ht) as [-> _]. destruct (FY comp t Hb Ht) as [Q1 Q2]. unfold i. rewrite Q1, Q2, RX.
      destruct (nmod_period (dX x us t) (nth 0 xk 0) T HT) as (k & Q & _). unfold red. rewrite Q, (periodic_IZR T G' HG'). reflexivity. }
    rewrite !EQ by auto. apply (O2 _ v' G PL HG).
    assert (G0 : G (nth 0 xk 0) = v' 0%nat). { rewrite (HG 0%nat) by (lia || (pose proof (Hi 0%nat ltac:(lia)); lra)). unfold seg. ring. }
    assert (GL : G (nth (length xk - 1) xk 0) = v' (length xk - 1)%nat).
    { pose proof (Hi (length xk - 2)%nat ltac:(lia)) as Q. replace (S (length xk - 2)) with (length xk - 1)%nat in Q by lia.
      rewrite (HG (length xk - 2)%nat) by (try lia; replace (S (length xk - 2)) with (length xk - 1)%nat by lia; lra). unfold seg.
      replace (S (length xk - 2)) with (length xk - 1)%nat by lia. field. lra. }
    rewrite <- G0, <- GL, <- (HGT (nth 0 xk 0)). f_equal. unfold T. ring.
  Qed.
  Theorem C58_periodic_exists : forall xk x y sigy ysh us,
    banded_complete sb -> dense_complete s -> incr xk -> (3 <= length xk)%nat -> conform x y sigy [] [] ysh us -> (length ysh <= 1)%nat -> size ysh <> 0%nat ->
    (forall comp t, inb comp ysh -> (t < size us)%nat -> dS sigy us comp t <> 0) ->
    (forall v F, polyline xk v F -> periodic (nth (length xk - 1) xk 0 - nth 0 xk 0) F ->
       (forall t, (t < size us)%nat -> F (dX x us t) = 0) -> forall k, (k < length xk)%nat -> v k = 0) ->
    exists p, plf xk x y sigy [] [] true ExNone = Ok p.
  Proof using Hinv Hsb Hs.
    intros xk x y sigy ysh us C1 C2 Hi H3 Hcf Ly Hsz Hsig Hdet. assert (Hx : (2 <= length xk)%nat) by lia.
    unfold plf, plfit. rewrite fit_setup_per by auto. cbn [bind]. set (T := nth (length xk - 1) xk 0 - nth 0 xk 0) in *.
    change ((1 <? length (@nil (nd R)))%nat || (1 <? length (@nil (nd R)))%nat) with false. cbv iota.
    set (red := fun v => nmod (v - nth 0 xk 0) T + nth 0 xk 0). set (x' := nd_map red x).
    assert (HT : 0 < T) by (unfold T; pose proof (incr_lt xk 0 (length xk - 1) Hi ltac:(lia)); lra).
    assert (Hcf' : conform x' y sigy [] [] ysh us) by (destruct Hcf; constructor; auto).
    assert (RX : forall t, dX x' us t = red (dX x us t)) by reflexivity.
    destruct (fit_args_ok xk x' y sigy [] [] ysh us Hcf' Ly Hsz) as (d & Ed & R). rewrite Ed. cbn [bind].
    assert (IX := ix_rel x' y sigy [] [] ysh us xk d R Hi Hx).
    specialize (IX ltac:(intros t Ht; rewrite RX; destruct (nmod_period (dX x us t) (nth 0 xk 0) T HT) as (k & _ & Q); unfold red, T in *; lra)).
    destruct R as (EN & EM & ES & L1 & L2 & FX & FY & BL & BH).
    assert (FL : flo d = []) by (destruct (flo d); [reflexivity|discriminate L1]).
    assert (FH : fhi d = []) by (destruct (fhi d); [reflexivity|discriminate L2]).
    assert (ROWS : exists yk, mapM (plfit_row sh sb s xk d true) (seq 0 (fm d)) = Ok yk).
    { apply mapM_total. intros i Hr. apply in_seq in Hr. rewrite EM in Hr. destruct Hr as [_ Hr]. cbn in Hr. rewrite <- (ravel_unravel ysh i Hr).
      assert (Hb : inb (unravel ysh i) ysh) by (apply inb_unravel; auto). set (comp := unravel ysh i) in *.
      apply (row_solvable_per xk d (ravel ysh comp) Hi Hx IX); auto.
      - intros t Ht. rewrite EN in Ht. destruct (FY comp t Hb Ht) as [_ Q]. rewrite Q. apply Hsig; auto.
      - intros v V Z k Hk. set (yv := YArr [] (length xk) (fun _ => v)).
        destruct (per_pline_result inv sb s Hinv xk yv Hi Hx eq_refl ltac:(cbn; lia)) as (p1 & r & E3 & W & P1 & P2 & P3 & _).
        destruct (C57_periodic inv sb s Hinv xk yv Hi Hx eq_refl ltac:(cbn; lia)) as (p2 & E4 & HP). rewrite E3 in E4. injection E4 as <-.
        destruct (HP [] ltac:(constructor)) as [PT SGM].
        assert (CALL : forall t, pw_call p1 [] t = Ok (pw_val p1 [] t)) by (intros t; unfold pw_call; rewrite P3; reflexivity).
        assert (PER : periodic T (pw_val p1 [])).
        { intros t. specialize (PT t). rewrite !CALL in PT. injection PT as PT. exact PT. }
        assert (PL : polyline xk v (pw_val p1 [])).
        { intros q t Hq Ht. specialize (SGM q t Hq Ht). rewrite CALL in SGM. injection SGM as ->. cbn [yval yv].
          unfold seg. destruct (Nat.eqb_spec q (length xk - 1)); [lia|]. destruct (Nat.eqb_spec (S q) (length xk - 1)) as [e|e]; [|reflexivity].
          rewrite e, V. reflexivity. }
        apply (Hdet v (pw_val p1 []) PL PER); auto. intros t Ht.
        destruct (nmod_period (dX x us t) (nth 0 xk 0) T HT) as (z & Q & _). rewrite <- (periodic_IZR T _ PER z), <- Q. fold (red (dX x us t)). rewrite <- RX.
        rewrite <- EN in Ht. specialize (Z t Ht). destruct (IX t Ht) as [I1 I2]. rewrite EN in Ht. destruct (FX t Ht) as [Q2 _]. rewrite <- Q2, (PL _ _ I1 I2). exact Z. }
    destruct ROWS as (yk & ->). cbn [bind]. rewrite EM, ES.
    replace (size ysh * length xk =? size (ysh ++ [length xk]))%nat with true by (symmetry; apply Nat.eqb_eq; rewrite size_app'; cbn; lia).
    set (yy := YArr _ _ _).
    destruct (per_pline_result inv sb s Hinv xk yy Hi Hx eq_refl Hsz) as (p1 & r & -> & _). exists p1. reflexivity.
  Qed.
End C58.

(* --- findings ---------------------------------------------------------------------------------------- *)
Section Findings.
  Variable inv : nat -> (nat -> nat -> R) -> (nat -> nat -> R).
  Variable sh : arr2 R -> arr2 R -> res (arr2 R).
  Variable sb : nat -> nat -> arr2 R -> arr2 R -> res (arr2 R).
  Variable s : arr2 R -> arr2 R -> res (arr2 R).
  (* The doc string: "y may have additional leading dimensions".  More than one is a ValueError. *)
  Theorem C58_leading_dims_refuted : forall xk x y sigy n nc lo hi ex ysh us, incr xk -> (2 <= length xk)%nat -> size (shp x) <> 0%nat ->
    conform x y sigy lo hi ysh us -> (2 <= length ysh)%nat -> size ysh <> 0%nat ->
    plfit inv sh sb s xk x y sigy lo hi false ex = Err ValueError /\
    splfit sb s xk x y sigy n nc lo hi false ex = Err ValueError.
  Proof using.
    intros xk x y sigy n nc lo hi ex ysh us Hi Hx Sx Hcf L Hsz. destruct (fit_setup_np xk x lo hi ex Hi Hx Sx) as [A1 A2].
    unfold plfit, splfit, splfit_solve.
    assert (G : fit_setup xk x lo hi false ex = Err ValueError \/ exists K, fit_setup xk x lo hi false ex = Ok (K, x, lo, hi, ex)).
    { assert (D : forall (P : R -> Prop), (exists v, datum x v /\ P v) \/ (forall v, datum x v -> ~ P v)).
      { intros P. destruct (Classical_Prop.classic (exists v, datum x v /\ P v)) as [H|H]; [left; auto|right]. intros v Dv Pv. apply H. exists v; auto. }
      destruct (D (fun v => v < nth 0 xk 0)) as [D1|D1]; destruct lo as [|l0 lo].
      1,3,4: destruct (D (fun v => nth (length xk - 1) xk 0 < v)) as [D2|D2]; destruct hi as [|h0 hi].
      all: try (left; apply A1; first [left; split; [assumption|discriminate]|right; split; [assumption|discriminate]]).
      all: right; destruct A2 as (K & _ & EK); [| |exists K; exact EK].
      all: first [right; reflexivity|left; intros v Dv; apply Rnot_lt_le; auto]. }
    destruct G as [->|(K & ->)]; [split; reflexivity|]. cbn [bind]. rewrite (fit_args_rank K x y sigy lo hi ysh us) by auto. cbn [bind].
    split; [destruct (_ || _); reflexivity|reflexivity].
  Qed.
  (* Two knots with values given at both ends leave nothing to fit; plfit raises IndexError *)
  Theorem C58_two_knots_refuted : forall xk x y sigy l h ex ysh us, incr xk -> length xk = 2%nat -> size (shp x) <> 0%nat ->
    conform x y sigy [l] [h] ysh us -> (length ysh <= 1)%nat -> size ysh <> 0%nat -> (forall v, datum x v -> nth 0 xk 0 <= v <= nth 1 xk 0) ->
    plfit inv sh sb s xk x y sigy [l] [h] false ex = Err IndexError.
  Proof using.
    intros xk x y sigy l h ex ysh us Hi Hx Sx Hcf L Hsz HD. destruct (fit_setup_np xk x [l] [h] ex Hi ltac:(lia) Sx) as [_ A2].
    rewrite Hx in A2. change (2 - 1)%nat with 1%nat in A2. destruct A2 as (K & (a & b & EK & HA & HB) & ES); try (left; apply HD).
    assert (K = xk) as ->.
    { rewrite Hx in HB. destruct HA as [[-> _]|(m & _ & Pm & Lm & _)]; [|specialize (HD m Pm); lra].
      destruct HB as [[-> _]|(m & _ & Pm & Lm & _)]; [|specialize (HD m Pm); change (2 - 1)%nat with 1%nat in Lm; lra]. rewrite EK, app_nil_r. reflexivity. }
    unfold plfit. rewrite ES. cbn [bind length Nat.ltb Nat.leb orb].
    destruct (fit_args_ok xk x y sigy [l] [h] ysh us Hcf L Hsz) as (d & Ed & R). rewrite Ed. cbn [bind].
    destruct R as (EN & EM & EY & L1 & L2 & FX & FY & BL & BH).
    rewrite EM. destruct (size ysh) as [|m] eqn:Em; [congruence|]. cbn [seq mapM].
    assert (Hb : inb (unravel ysh 0) ysh) by (apply inb_unravel; lia).
    assert (R0 : ravel ysh (unravel ysh 0) = 0%nat) by (apply ravel_unravel; lia).
    pose proof (bc_0 [l] (flo d) ysh _ L1 Hb BL) as B1. pose proof (bc_0 [h] (fhi d) ysh _ L2 Hb BH) as B2. rewrite R0 in B1, B2.
    rewrite row_unfold, B1. cbn [bind]. rewrite B2. cbn [bind]. unfold plfitter. rewrite Hx. reflexivity.
  Qed.
End Findings.

(* --- concrete cases ------------------------------------------------------------------------------------ *)
Theorem gsolveh_meets_specs : solveh_spec gsolveh /\ solveh_complete gsolveh.
Proof.
  assert (M : forall (ab : arr2 R) u, nr ab = (u + 1)%nat ->
    forall i j, (let d := (Nat.max i j - Nat.min i j)%nat in if (d <? nr ab)%nat then at2 ab d (Nat.min i j) else n0) = hlow u ab i j).
  { intros ab u E i j. cbv zeta. unfold hlow. rewrite E. destruct (Nat.ltb_spec (Nat.max i j - Nat.min i j) (u + 1)), (Nat.leb_spec (Nat.max i j - Nat.min i j) u); lia || reflexivity. }
  split.
  - intros ab b x u H1 H2 E. unfold gsolveh in E. rewrite H2, Nat.eqb_refl in E. apply gsolve_sound in E; [|exact H2].
    destruct E as (A & B & C). split; [exact A|]. split; [exact B|]. intros i k Hi Hk. rewrite <- (C i k Hi Hk). apply rsum_ext. intros j _. rewrite <- (M ab u H1). reflexivity.
  - intros ab b u H1 H2 P. unfold gsolveh. rewrite H2, Nat.eqb_refl. apply gsolve_complete.
    intros v H. apply (posdef_nonsing _ _ P). intros i Hi. rewrite <- (H i Hi). apply rsum_ext. intros j _. rewrite <- (M ab u H1). reflexivity.
Qed.
Definition k3 : list R := [0; 1; 2].
Definition x4d : nd R := vec 0 [0; 1; 1; 2].
Definition y4d : nd R := vec 0 [5; 1; 3; 7].
Lemma k3_incr : incr k3.
Proof. intros [|[|[|i]]] H; cbn in *; lra || lia. Qed.
Lemma conf3 lo : Forall (fun b => bto (shp b) [] = true) lo -> conform x4d y4d None lo [] [] [4%nat].
Proof.
  intros H. constructor; auto.
  - exists [4%nat]. repeat split; reflexivity.
  - intros sg Q. discriminate Q.
Qed.
Lemma data3 v : datum x4d v -> 0 <= v <= 2.
Proof.
  intros (idx & D & E). inversion D as [|i n a b Hi D' E1 E2]; subst. cbn in D'. inversion D'; subst.
  cbn in *. destruct i as [|[|[|[|i]]]]; cbn; lra || lia.
Qed.
Lemma det3 lo K : fit_knots (datum x4d) k3 K -> determines 4 (dX x4d [4%nat]) K lo [].
Proof.
  intros (a & b & -> & HA & HB) v _ _ Z k Hk.
  destruct HA as [[-> _]|(m & _ & Pm & Lm & _)]; [|apply data3 in Pm; cbn in Lm; lra].
  destruct HB as [[-> _]|(m & _ & Pm & Lm & _)]; [|apply data3 in Pm; cbn in Lm; lra]. cbn in Hk.
  pose proof (Z (plfun k3 v) (plfun_polyline k3 v k3_incr ltac:(cbn; lia))) as Z'.
  pose proof (plfun_polyline k3 v k3_incr ltac:(cbn; lia)) as PL.
  pose proof (Z' 0%nat ltac:(lia)) as Z0. pose proof (Z' 1%nat ltac:(lia)) as Z1. pose proof (Z' 3%nat ltac:(lia)) as Z3.
  unfold dX in Z0, Z1, Z3. cbn in Z0, Z1, Z3.
  rewrite (PL 0%nat) in Z0 by (cbn; lia || lra). rewrite (PL 0%nat) in Z1 by (cbn; lia || lra). rewrite (PL 1%nat) in Z3 by (cbn; lia || lra).
  unfold seg in *. cbn in *. destruct k as [|[|[|k]]]; lra || lia.
Qed.
(* a fit to four points with the value at the first knot given *)
Example C58_case : forall inv, inv_spec inv -> exists p F v,
  plfit inv gsolveh gbanded gdense k3 x4d y4d None [scalar 4] [] false ExNone = Ok p /\
  (forall t, pw_call p [] t = Ok (F t)) /\ polyline k3 v F /\ F 0 = 4 /\ F 1 = 2 /\ F 2 = 7 /\
  chi2 4 (dX x4d [4%nat]) (dY y4d [4%nat] []) (fun _ => 1) F = 3.
Proof.
  intros inv Hinv. destruct gsolveh_meets_specs as [G1 G2]. destruct gauss_meets_specs as (G3 & G4 & _).
  assert (Cf : conform x4d y4d None [scalar 4] [] [] [4%nat]) by (apply conf3; repeat constructor).
  assert (Sg : forall comp t, inb comp [] -> (t < size [4%nat])%nat -> dS None [4%nat] comp t <> 0) by (intros; cbn; lra).
  destruct (C58_exists inv gsolveh gbanded gdense Hinv k3 x4d y4d None [scalar 4] [] ExNone [] [4%nat] G2 k3_incr ltac:(cbn; lia) Cf ltac:(cbn; lia)
    ltac:(cbn; lia) Sg ltac:(cbn; lia) ltac:(cbn; lia) ltac:(cbn; lia)) as [p E].
  { left. intros v Dv. apply data3 in Dv. cbn. lra. } { right; reflexivity. } { right; left; reflexivity. }
  { intros K HK. apply det3; auto. }
  destruct (C58_plfit inv gsolveh gbanded gdense Hinv G1 k3 x4d y4d None [scalar 4] [] ExNone 0 0 p [] [4%nat] k3_incr ltac:(cbn; lia) Cf
    ltac:(cbn; lia) Sg eq_refl ltac:(lia) E) as (K & HK & _ & H).
  assert (K = k3) as ->.
  { destruct HK as (a & b & -> & HA & HB). destruct HA as [[-> _]|(m & _ & Pm & Lm & _)]; [|apply data3 in Pm; cbn in Lm; lra].
    destruct HB as [[-> _]|(m & _ & Pm & Lm & _)]; [|apply data3 in Pm; cbn in Lm; lra]. rewrite app_nil_r. reflexivity. }
  destruct (H [] ltac:(constructor)) as (F & v & C & PL & M1 & _ & O). exists p, F, v. split; [exact E|]. split; [exact C|]. split; [exact PL|].
  cbn in M1. unfold bget in M1. cbn in M1.
  set (v' := fun k => nth k [4; 2; 7] 0). pose proof (plfun_polyline k3 v' k3_incr ltac:(cbn; lia)) as PL'.
  specialize (O v' _ PL' eq_refl I).
  assert (P0 : F 0 = v 0%nat) by (rewrite (PL 0%nat) by (cbn; lia || lra); unfold seg; cbn; field).
  assert (P1 : F 1 = v 1%nat) by (rewrite (PL 0%nat) by (cbn; lia || lra); unfold seg; cbn; field).
  assert (P2 : F 2 = v 2%nat) by (rewrite (PL 1%nat) by (cbn; lia || lra); unfold seg; cbn; field).
  assert (Q0 : plfun k3 v' 0 = 4) by (rewrite (PL' 0%nat) by (cbn; lia || lra); unfold seg; cbn; field).
  assert (Q1 : plfun k3 v' 1 = 2) by (rewrite (PL' 0%nat) by (cbn; lia || lra); unfold seg; cbn; field).
  assert (Q2 : plfun k3 v' 2 = 7) by (rewrite (PL' 1%nat) by (cbn; lia || lra); unfold seg; cbn; field).
  unfold chi2 in *. change (size [4%nat]) with 4%nat in O. cbn [rsum] in *. unfold dX, dY, dS, bget in *. cbn in O. cbn.
  rewrite Q0, Q1, Q2 in O. rewrite P0, P1, P2, M1 in *. unfold Rdiv in *. rewrite Rinv_1 in *.
  assert (S : 2 * Rsqr (v 1%nat - 2) + Rsqr (v 2%nat - 7) <= 0) by (unfold Rsqr; lra).
  pose proof (Rle_0_sqr (v 1%nat - 2)). pose proof (Rle_0_sqr (v 2%nat - 7)).
  assert (v 1%nat = 2) as -> by (apply Rminus_diag_uniq, Rsqr_0_uniq; lra).
  assert (v 2%nat = 7) as -> by (apply Rminus_diag_uniq, Rsqr_0_uniq; lra). repeat split; lra.
Qed.
Example C58_case_leading : forall inv, plfit inv gsolveh gbanded gdense k3 x4d (full [1; 1; 4]%nat 0) None [] [] false ExNone = Err ValueError.
Proof.
  intros inv. apply (C58_leading_dims_refuted inv gsolveh gbanded gdense k3 x4d (full [1; 1; 4]%nat 0) None 3 None [] [] ExNone [1; 1]%nat [4%nat]).
  - exact k3_incr. - cbn; lia. - cbn; lia.
  - constructor; auto; [|discriminate]. exists [4%nat]. repeat split; reflexivity.
  - cbn; lia. - cbn; lia.
Qed.
Example C58_case_per : forall inv, inv_spec inv -> exists p, plfit inv gsolveh gbanded gdense k3 x4d y4d None [] [] true ExNone = Ok p.
Proof.
  intros inv Hinv. destruct gauss_meets_specs as (G3 & G4 & G5 & G6).
  apply (C58_periodic_exists inv gsolveh gbanded gdense Hinv G3 G4 k3 x4d y4d None [] [4%nat] G5 G6 k3_incr).
  - cbn; lia. - apply conf3; constructor. - cbn; lia. - cbn; lia. - intros; cbn; lra.
  - intros v F PL PT Z k Hk. change (size [4%nat]) with 4%nat in Z.
    pose proof (Z 0%nat ltac:(lia)) as Z0. pose proof (Z 1%nat ltac:(lia)) as Z1. pose proof (Z 3%nat ltac:(lia)) as Z3.
    unfold dX in Z0, Z1, Z3. cbn in Z0, Z1, Z3, Hk.
    rewrite (PL 0%nat) in Z0 by (cbn; lia || lra). rewrite (PL 0%nat) in Z1 by (cbn; lia || lra). rewrite (PL 1%nat) in Z3 by (cbn; lia || lra).
    unfold seg in *. cbn in *. destruct k as [|[|[|k]]]; lra || lia.
Qed.
Example C60_case : forall n nc y, exists v, datum x4d v /\ v < nth 0 [1; 2] 0 /\
  splfit gbanded gdense [1; 2] x4d y None n nc [scalar 4] [] false ExNone = Err ValueError.
Proof.
  intros n nc y. exists 0. assert (D : datum x4d 0) by (exists [0%nat]; split; [repeat constructor; cbn; lia|reflexivity]).
  split; [exact D|]. split; [cbn; lra|].
  apply (C60_outside_rejects (fun _ a => a) gsolveh gbanded gdense [1; 2] x4d y None n nc [scalar 4] [] ExNone).
  - intros [|[|i]] H; cbn in *; lra || lia. - cbn; lia.
  - left. split; [exists 0; split; [exact D|cbn; lra]|discriminate].
Qed.
Example C58_case_two_knots : forall inv,
  plfit inv gsolveh gbanded gdense [0; 2] x4d y4d None [scalar 4] [scalar 1] false ExNone = Err IndexError.
Proof.
  intros inv. apply (C58_two_knots_refuted inv gsolveh gbanded gdense [0; 2] x4d y4d None (scalar 4) (scalar 1) ExNone [] [4%nat]).
  - intros [|[|i]] H; cbn in *; lra || lia. - reflexivity. - cbn; lia. - destruct (conf3 [scalar 4]) as [H1 H2 H3 H4]; [repeat constructor|]. constructor; auto.
  - cbn; lia. - cbn; lia.
  - intros v Dv. apply data3 in Dv. cbn. lra.
Qed.

Print Assumptions C58_plfit.
Print Assumptions C58_exists.
Print Assumptions C58_periodic.
Print Assumptions C58_periodic_exists.
Print Assumptions C58_leading_dims_refuted.
Print Assumptions C58_two_knots_refuted.
Print Assumptions C60_per_rejects.
Print Assumptions C60_short.
Print Assumptions C60_decreasing.
Print Assumptions C60_outside_rejects.
Print Assumptions C60_interval.
Print Assumptions C60_extends.
Print Assumptions C60_periodic.
